(** A ring buffer (src/trace_buffer.cc:193-299) used directly by any number of
    threads. The queue of returned chunks is that of Model/QueueConc.v: every
    access to one of its locations is a step, as are the counters of the buffer. *)
From Verif Require Import Base Spec.QueueHistory Spec.RingHistory Model.Queue Model.Buffer Model.Interleave Model.QueueConc.

(** Where a thread is. Inside the queue it is where the queue says. *)
Inductive rpc :=
| RIdle
| GCount                (* about to do actual_count++ *)
| GWait                 (* in the loop around dequeue *)
| GReset (c : N)        (* about to reset the chunk *)
| GLoan (c : N)         (* about to do ++on_loan *)
| RPut (c : N)          (* in the loop around enqueue *)
| RLoan.                (* about to do --on_loan *)

Record cring := {
  r_size : N;
  r_count : N;                 (* actual_count, a 64-bit word *)
  r_loan : N;                  (* on_loan, a 64-bit word *)
  r_user : N -> option tid;    (* the thread id of every chunk *)
  r_q : cqueue N;              (* return_queue; a pointer to a chunk is its index *)
  r_pc : tid -> rpc;
  r_bad : bool;                (* a pointer that was never written is used *)
  r_hist : list ring_event;
}.

(** trace_buffer.cc:195-201. *)
Definition cring_new (n : N) : cring :=
  {| r_size := n; r_count := 0; r_loan := 0; r_user := fun _ => None; r_q := cq_new (upper_power_of_two n);
     r_pc := fun _ => RIdle; r_bad := false; r_hist := [] |}.

Inductive ract :=
| CallGet (t : tid)
| CallRet (t : tid) (c : N)
| RGo (t : tid) (spurious : bool).

Definition r_goto (r : cring) (t : tid) (p : rpc) (e : list ring_event) : cring :=
  {| r_size := r_size r; r_count := r_count r; r_loan := r_loan r; r_user := r_user r; r_q := r_q r;
     r_pc := tset (r_pc r) t p; r_bad := r_bad r; r_hist := r_hist r ++ e |}.
Definition r_set_q (r : cring) (q : cqueue N) : cring :=
  {| r_size := r_size r; r_count := r_count r; r_loan := r_loan r; r_user := r_user r; r_q := q;
     r_pc := r_pc r; r_bad := r_bad r; r_hist := r_hist r |}.
Definition r_set_count (r : cring) (v : N) : cring :=
  {| r_size := r_size r; r_count := v; r_loan := r_loan r; r_user := r_user r; r_q := r_q r;
     r_pc := r_pc r; r_bad := r_bad r; r_hist := r_hist r |}.
Definition r_set_loan (r : cring) (v : N) : cring :=
  {| r_size := r_size r; r_count := r_count r; r_loan := v; r_user := r_user r; r_q := r_q r;
     r_pc := r_pc r; r_bad := r_bad r; r_hist := r_hist r |}.
Definition r_set_user (r : cring) (c : N) (t : tid) : cring :=
  {| r_size := r_size r; r_count := r_count r; r_loan := r_loan r; r_user := upd (r_user r) c (Some t); r_q := r_q r;
     r_pc := r_pc r; r_bad := r_bad r; r_hist := r_hist r |}.
Definition r_set_bad (r : cring) : cring :=
  {| r_size := r_size r; r_count := r_count r; r_loan := r_loan r; r_user := r_user r; r_q := r_q r;
     r_pc := r_pc r; r_bad := true; r_hist := r_hist r |}.

(** The access of the queue that gives a call its place. *)
Definition placing (q q' : cqueue N) (t : tid) : list ring_event :=
  match cq_pc q t, cq_pc q' t with
  | DCas _ _, DData _ _ => [Claimed t]
  | ECas c _ _, EData _ _ _ => [Placed t c]
  | _, _ => []
  end.

(** Only a chunk that is lent out may be given back, by any thread (the log gives
    back chunks of other threads when it evicts them). *)
Definition rstep (r : cring) (a : ract) : option cring :=
  if r_bad r then None else
  match a with
  | CallGet t => match r_pc r t with RIdle => Some (r_goto r t GCount [GetCalled t]) | _ => None end
  | CallRet t c =>
      match r_pc r t with
      | RIdle => if existsb (N.eqb c) (lent_out (r_hist r)) then Some (r_goto r t (RPut c) [RetCalled t c]) else None
      | _ => None
      end
  | RGo t sp =>
      match r_pc r t with
      | RIdle => None
      (* trace_buffer.cc:205-217 *)
      | GCount =>
          let offset := r_count r in
          let r' := r_set_count r ((offset + 1) mod w64) in
          if (r_size r <=? offset)%N then Some (r_goto r' t GWait []) else Some (r_goto r' t (GReset offset) [Claimed t])
      | GWait =>
          match cq_pc (r_q r) t with
          | QIdle => match qstep (r_q r) (CallDeq t) with Some q => Some (r_set_q r q) | None => None end
          | DPub _ _ v =>
              match qstep (r_q r) (Go t sp) with
              | Some q =>
                  match v with
                  | Some c => Some (r_goto (r_set_q r q) t (GReset c) [])
                  | None => Some (r_set_bad (r_set_q r q))
                  end
              | None => None
              end
          | _ => match qstep (r_q r) (Go t sp) with Some q => Some (r_goto (r_set_q r q) t GWait (placing (r_q r) q t)) | None => None end
          end
      (* trace_buffer.cc:219-222 *)
      | GReset c => Some (r_goto (r_set_user r c t) t (GLoan c) [])
      | GLoan c => Some (r_goto (r_set_loan r ((r_loan r + 1) mod w64)) t RIdle [GetReturned t c])
      (* trace_buffer.cc:224-228 *)
      | RPut c =>
          match cq_pc (r_q r) t with
          | QIdle => match qstep (r_q r) (CallEnq t c) with Some q => Some (r_set_q r q) | None => None end
          | EPub _ _ _ => match qstep (r_q r) (Go t sp) with Some q => Some (r_goto (r_set_q r q) t RLoan []) | None => None end
          | _ => match qstep (r_q r) (Go t sp) with Some q => Some (r_goto (r_set_q r q) t (RPut c) (placing (r_q r) q t)) | None => None end
          end
      | RLoan => Some (r_goto (r_set_loan r ((r_loan r + (w64 - 1)) mod w64)) t RIdle [RetReturned t])
      end
  end.

Definition rrun (n : N) (sched : list ract) : cring := run rstep (cring_new n) sched.

(** chunk_count (trace_buffer.cc:259-267) reads actual_count twice; the values
    that it sees are those of two states, one after the other. It writes nothing. *)
Definition r_chunks (size first second : N) : N := if (size <? first)%N then size else second.
