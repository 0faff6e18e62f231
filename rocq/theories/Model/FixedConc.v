(** A fixed buffer (src/trace_buffer.cc:102-182) used directly by any number of
    threads; every access to its counters is a step. *)
From Verif Require Import Base Spec.FixedHistory Model.Queue Model.Interleave.

Inductive fpc :=
| FIdle
| FIssue                (* about to do issued++ *)
| FReset (c : N)        (* about to reset the chunk *)
| FLoan (c : N).        (* about to do ++on_loan *)

Record cfixed := {
  f_size : N;
  f_issued : N;                (* a 64-bit word *)
  f_loan : N;                  (* a 64-bit word *)
  f_user : N -> option tid;    (* the thread id of every chunk *)
  f_pc : tid -> fpc;
  f_hist : list fixed_event;
}.

(** trace_buffer.cc:104-106. *)
Definition cfixed_new (n : N) : cfixed :=
  {| f_size := n; f_issued := 0; f_loan := 0; f_user := fun _ => None; f_pc := fun _ => FIdle; f_hist := [] |}.

Inductive fact :=
| FCallGet (t : tid)
| FGo (t : tid)
| FCallRet (t : tid) (c : N)
| FIsFull (t : tid)
| FCount (t : tid).

Definition f_goto (f : cfixed) (t : tid) (p : fpc) (e : list fixed_event) : cfixed :=
  {| f_size := f_size f; f_issued := f_issued f; f_loan := f_loan f; f_user := f_user f; f_pc := tset (f_pc f) t p; f_hist := f_hist f ++ e |}.
Definition f_set_issued (f : cfixed) (v : N) : cfixed :=
  {| f_size := f_size f; f_issued := v; f_loan := f_loan f; f_user := f_user f; f_pc := f_pc f; f_hist := f_hist f |}.
Definition f_set_loan (f : cfixed) (v : N) : cfixed :=
  {| f_size := f_size f; f_issued := f_issued f; f_loan := v; f_user := f_user f; f_pc := f_pc f; f_hist := f_hist f |}.
Definition f_set_user (f : cfixed) (c : N) (t : tid) : cfixed :=
  {| f_size := f_size f; f_issued := f_issued f; f_loan := f_loan f; f_user := upd (f_user f) c (Some t); f_pc := f_pc f; f_hist := f_hist f |}.

(** returnChunk, isFull and chunk_count access one counter once: each is one
    step. A chunk is given back by whoever, after it was handed out; nothing stops
    a second time, which is the user's mistake and is left out. *)
Definition fstep (f : cfixed) (a : fact) : option cfixed :=
  match a with
  | FCallGet t => match f_pc f t with FIdle => Some (f_goto f t FIssue [FCalled t]) | _ => None end
  | FGo t =>
      match f_pc f t with
      | FIdle => None
      (* trace_buffer.cc:111-115 *)
      | FIssue =>
          let offset := f_issued f in
          let f' := f_set_issued f ((offset + 1) mod w64) in
          if (f_size f <=? offset)%N then Some (f_goto f' t FIdle [FGot t None]) else Some (f_goto f' t (FReset offset) [])
      (* trace_buffer.cc:116-118 *)
      | FReset c => Some (f_goto (f_set_user f c t) t (FLoan c) [])
      | FLoan c => Some (f_goto (f_set_loan f ((f_loan f + 1) mod w64)) t FIdle [FGot t (Some c)])
      end
  (* trace_buffer.cc:121-124 *)
  | FCallRet t c =>
      match f_pc f t with
      | FIdle =>
          if existsb (N.eqb c) (handed (f_hist f)) && negb (existsb (N.eqb c) (came_back (f_hist f)))
          then Some (f_goto (f_set_loan f ((f_loan f + (w64 - 1)) mod w64)) t FIdle [FGaveBack t c]) else None
      | _ => None
      end
  (* trace_buffer.cc:126-128 *)
  | FIsFull t => match f_pc f t with FIdle => Some (f_goto f t FIdle [FTold t (f_size f <=? f_issued f)%N]) | _ => None end
  (* trace_buffer.cc:154-157 *)
  | FCount t =>
      match f_pc f t with
      | FIdle => Some (f_goto f t FIdle [FCounted t (if (f_issued f <? f_size f)%N then f_issued f else f_size f)])
      | _ => None
      end
  end.

Definition frun (n : N) (sched : list fact) : cfixed := run fstep (cfixed_new n) sched.
