(** A ring buffer (src/trace_buffer.cc:193-299) used by threads, on the memory of
    WeakMem.v and with the queue of WeakQueue.v: the same code as RingConc.v, with the memory
    orders that it asks for. A chunk's contents are one plain variable, which its
    user reads and writes. *)
From Verif Require Import Base Spec.QueueHistory Spec.RingHistory Model.Queue Model.Buffer Model.Interleave Model.WeakMem Model.WeakQueue Model.RingConc.
Local Open Scope N_scope.

(** trace_buffer.cc:287-289. *)
Definition actual_count : loc := Loc 5 0.
Definition on_loan : loc := Loc 6 0.
Definition chunk_var (c : N) : loc := user_var c.

Record wring := {
  v_size : N;
  v_q : wqueue N;              (* return_queue, and the memory *)
  v_pc : tid -> rpc;
  v_bad : bool;                (* a pointer that was never written is used *)
  v_hist : list ring_event;
}.

(** trace_buffer.cc:195-201. *)
Definition wring_new (n : N) : wring :=
  {| v_size := n; v_q := wq_new (upper_power_of_two n); v_pc := fun _ => RIdle; v_bad := false; v_hist := [] |}.

Inductive vact :=
| VGet (t : tid)
| VRet (t : tid) (c : N)
| VUse (t : tid) (c : N) (write : bool)                   (* the user of a chunk accesses it *)
| VGo (t : tid) (i : nat) (f n : N) (spurious : bool).    (* the next access; as in WeakQueue.v *)

Definition v_goto (r : wring) (q : wqueue N) (t : tid) (p : rpc) (e : list ring_event) : wring :=
  {| v_size := v_size r; v_q := q; v_pc := tset (v_pc r) t p; v_bad := v_bad r; v_hist := v_hist r ++ e |}.
Definition v_set_bad (r : wring) (q : wqueue N) : wring :=
  {| v_size := v_size r; v_q := q; v_pc := v_pc r; v_bad := true; v_hist := v_hist r |}.
(** The queue, with the memory after an access of the buffer's own. *)
Definition v_mem (r : wring) (m : wmem (option N)) (t : tid) : wqueue N := wq_goto (v_q r) m t (wq_pc (v_q r) t) [].

(** Who has the chunk. *)
Definition user_of (c : N) (h : list ring_event) : option tid :=
  fold_left (fun o e => match e with
                        | GetReturned t d => if d =? c then Some t else o
                        | RetCalled _ d => if d =? c then None else o
                        | _ => o end) h None.
Definition has (r : wring) (t : tid) (c : N) : bool :=
  match user_of c (v_hist r) with Some u => Nat.eqb u t | None => false end.

(** Only the thread that got a chunk uses it and gives it back. *)
Definition vstep (r : wring) (a : vact) : option wring :=
  if v_bad r then None else
  let m := wq_mem (v_q r) in
  match a with
  | VGet t => match v_pc r t with RIdle => Some (v_goto r (v_q r) t GCount [GetCalled t]) | _ => None end
  | VRet t c =>
      match v_pc r t with
      | RIdle => if has r t c then Some (v_goto r (v_q r) t (RPut c) [RetCalled t c]) else None
      | _ => None
      end
  | VUse t c w =>
      match v_pc r t with
      | RIdle => if has r t c then Some (v_goto r (v_mem r (wtouch m t (chunk_var c) w (plain m (chunk_var c))) t) t RIdle []) else None
      | _ => None
      end
  | VGo t i f n sp =>
      match v_pc r t with
      | RIdle => None
      (* trace_buffer.cc:205-217; actual_count++ is seq_cst *)
      | GCount =>
          match wfetch_add m t true true actual_count 1 i n with
          | Some (offset, m') =>
              if v_size r <=? offset then Some (v_goto r (v_mem r m' t) t GWait []) else Some (v_goto r (v_mem r m' t) t (GReset offset) [Claimed t])
          | None => None
          end
      | GWait =>
          match wq_pc (v_q r) t with
          | WIdle => match wqstep (v_q r) (WCallDeq t) with Some q => Some (v_goto r q t GWait []) | None => None end
          | WDPub _ v =>
              match wqstep (v_q r) (WGo t i f n sp) with
              | Some q =>
                  match v with
                  | Some c => Some (v_goto r q t (GReset c) [])
                  | None => Some (v_set_bad r q)
                  end
              | None => None
              end
          | WDCas _ =>
              match wqstep (v_q r) (WGo t i f n sp) with
              | Some q => Some (v_goto r q t GWait (match wq_pc q t with WDData _ => [Claimed t] | _ => [] end))
              | None => None
              end
          | _ => match wqstep (v_q r) (WGo t i f n sp) with Some q => Some (v_goto r q t GWait []) | None => None end
          end
      (* trace_buffer.cc:219: TraceChunk::reset writes the chunk *)
      | GReset c => Some (v_goto r (v_mem r (wwrite m t (chunk_var c) None) t) t (GLoan c) [])
      (* trace_buffer.cc:220-221; a RelaxedAtomic *)
      | GLoan c =>
          match wfetch_add m t false false on_loan 1 i n with
          | Some (_, m') => Some (v_goto r (v_mem r m' t) t RIdle [GetReturned t c])
          | None => None
          end
      (* trace_buffer.cc:224-228 *)
      | RPut c =>
          match wq_pc (v_q r) t with
          | WIdle => match wqstep (v_q r) (WCallEnq t c) with Some q => Some (v_goto r q t (RPut c) []) | None => None end
          | WEPub _ _ => match wqstep (v_q r) (WGo t i f n sp) with Some q => Some (v_goto r q t RLoan []) | None => None end
          | WECas _ _ =>
              match wqstep (v_q r) (WGo t i f n sp) with
              | Some q => Some (v_goto r q t (RPut c) (match wq_pc q t with WEData _ _ => [Placed t c] | _ => [] end))
              | None => None
              end
          | _ => match wqstep (v_q r) (WGo t i f n sp) with Some q => Some (v_goto r q t (RPut c) []) | None => None end
          end
      | RLoan =>
          match wfetch_add m t false false on_loan (w64 - 1) i n with
          | Some (_, m') => Some (v_goto r (v_mem r m' t) t RIdle [RetReturned t])
          | None => None
          end
      end
  end.

Definition vrun (n : N) (sched : list vact) : wring := run vstep (wring_new n) sched.
