(** Model of thirdparty/dvyukov/include/dvyukov/mpmc_bounded_queue.h used by any
    number of threads: every access to a shared location is one step. *)
From Verif Require Import Base Spec.QueueHistory Model.Queue Model.Interleave.

Section QueueConc.
  Context {T : Type}.

  (** Where a thread is. [pos] is the local variable, a 64-bit word. [seen] is
      not part of the program: it is the number of calls placed so far when
      [pos] was read, i.e. the position without wrap-around. *)
  Inductive qpc :=
  | QIdle
  | EPos (x : T)                        (* about to load enqueue_pos_ *)
  | ESeq (x : T) (pos seen : N)         (* about to load cell->sequence_ *)
  | ECas (x : T) (pos seen : N)         (* about to compare_exchange enqueue_pos_ *)
  | EData (x : T) (pos seen : N)        (* about to write cell->data_ *)
  | EPub (x : T) (pos seen : N)         (* about to store cell->sequence_ *)
  | DPos
  | DSeq (pos seen : N)
  | DCas (pos seen : N)
  | DData (pos seen : N)                (* about to read cell->data_ *)
  | DPub (pos seen : N) (v : option T).

  (** mpmc_bounded_queue.h:142-158, plus the threads and the history. *)
  Record cqueue := {
    cq_cap : N;                         (* buffer_mask_ + 1 *)
    cq_seq : N -> N;
    cq_data : N -> option T;            (* None: not written yet *)
    cq_enq : N;
    cq_deq : N;
    cq_pc : tid -> qpc;
    cq_hist : list (queue_event T);
  }.

  (** mpmc_bounded_queue.h:64-75. *)
  Definition cq_new (buffer_size : N) : cqueue :=
    {| cq_cap := buffer_size; cq_seq := fun i => i; cq_data := fun _ => None;
       cq_enq := 0; cq_deq := 0; cq_pc := fun _ => QIdle; cq_hist := [] |}.

  (** [pos & buffer_mask_]. *)
  Definition cq_slot (q : cqueue) (pos : N) : N := N.land pos (cq_cap q - 1).

  Definition cq_goto (q : cqueue) (t : tid) (p : qpc) (e : list (queue_event T)) : cqueue :=
    {| cq_cap := cq_cap q; cq_seq := cq_seq q; cq_data := cq_data q; cq_enq := cq_enq q;
       cq_deq := cq_deq q; cq_pc := tset (cq_pc q) t p; cq_hist := cq_hist q ++ e |}.
  Definition cq_set_seq (q : cqueue) (c v : N) : cqueue :=
    {| cq_cap := cq_cap q; cq_seq := upd (cq_seq q) c v; cq_data := cq_data q; cq_enq := cq_enq q;
       cq_deq := cq_deq q; cq_pc := cq_pc q; cq_hist := cq_hist q |}.
  Definition cq_set_data (q : cqueue) (c : N) (v : option T) : cqueue :=
    {| cq_cap := cq_cap q; cq_seq := cq_seq q; cq_data := upd (cq_data q) c v; cq_enq := cq_enq q;
       cq_deq := cq_deq q; cq_pc := cq_pc q; cq_hist := cq_hist q |}.
  Definition cq_set_enq (q : cqueue) (v : N) : cqueue :=
    {| cq_cap := cq_cap q; cq_seq := cq_seq q; cq_data := cq_data q; cq_enq := v;
       cq_deq := cq_deq q; cq_pc := cq_pc q; cq_hist := cq_hist q |}.
  Definition cq_set_deq (q : cqueue) (v : N) : cqueue :=
    {| cq_cap := cq_cap q; cq_seq := cq_seq q; cq_data := cq_data q; cq_enq := cq_enq q;
       cq_deq := v; cq_pc := cq_pc q; cq_hist := cq_hist q |}.

  Definition placed_in (q : cqueue) : N := N.of_nat (length (ins (cq_hist q))).
  Definition placed_out (q : cqueue) : N := N.of_nat (outs (cq_hist q)).

  Inductive qact :=
  | CallEnq (t : tid) (x : T)
  | CallDeq (t : tid)
  | Go (t : tid) (spurious : bool).     (* the thread's next access; compare_exchange_weak
                                           may fail spuriously *)

  Definition qstep (q : cqueue) (a : qact) : option cqueue :=
    match a with
    | CallEnq t x =>
        match cq_pc q t with QIdle => Some (cq_goto q t (EPos x) [EnqCalled t x]) | _ => None end
    | CallDeq t =>
        match cq_pc q t with QIdle => Some (cq_goto q t DPos [DeqCalled t]) | _ => None end
    | Go t spurious =>
        match cq_pc q t with
        | QIdle => None
        (* mpmc_bounded_queue.h:86 and 99 *)
        | EPos x => Some (cq_goto q t (ESeq x (cq_enq q) (placed_in q)) [])
        (* mpmc_bounded_queue.h:88-91, 96-100 *)
        | ESeq x pos seen =>
            let dif := sdif (cq_seq q (cq_slot q pos)) pos in
            if (dif =? 0)%Z then Some (cq_goto q t (ECas x pos seen) [])
            else if (dif <? 0)%Z then Some (cq_goto q t QIdle [EnqFull t])
            else Some (cq_goto q t (EPos x) [])
        (* mpmc_bounded_queue.h:92-95: a failure loads the current position *)
        | ECas x pos seen =>
            if (cq_enq q =? pos)%N && negb spurious
            then Some (cq_goto (cq_set_enq q ((pos + 1) mod w64)) t (EData x pos seen) [EnqPlaced t x])
            else Some (cq_goto q t (ESeq x (cq_enq q) (placed_in q)) [])
        (* mpmc_bounded_queue.h:103 *)
        | EData x pos seen => Some (cq_goto (cq_set_data q (cq_slot q pos) (Some x)) t (EPub x pos seen) [])
        (* mpmc_bounded_queue.h:104-106 *)
        | EPub x pos seen =>
            Some (cq_goto (cq_set_seq q (cq_slot q pos) ((pos + 1) mod w64)) t QIdle [EnqReturned t])
        (* mpmc_bounded_queue.h:118 and 131 *)
        | DPos => Some (cq_goto q t (DSeq (cq_deq q) (placed_out q)) [])
        (* mpmc_bounded_queue.h:120-123, 128-132 *)
        | DSeq pos seen =>
            let dif := sdif (cq_seq q (cq_slot q pos)) ((pos + 1) mod w64) in
            if (dif =? 0)%Z then Some (cq_goto q t (DCas pos seen) [])
            else if (dif <? 0)%Z then Some (cq_goto q t QIdle [DeqEmpty t])
            else Some (cq_goto q t DPos [])
        (* mpmc_bounded_queue.h:124-127 *)
        | DCas pos seen =>
            if (cq_deq q =? pos)%N && negb spurious
            then Some (cq_goto (cq_set_deq q ((pos + 1) mod w64)) t (DData pos seen) [DeqPlaced t])
            else Some (cq_goto q t (DSeq (cq_deq q) (placed_out q)) [])
        (* mpmc_bounded_queue.h:135 *)
        | DData pos seen => Some (cq_goto q t (DPub pos seen (cq_data q (cq_slot q pos))) [])
        (* mpmc_bounded_queue.h:136-139 *)
        | DPub pos seen v =>
            Some (cq_goto (cq_set_seq q (cq_slot q pos) ((pos + (cq_cap q - 1) + 1) mod w64)) t QIdle
                          [DeqReturned t v])
        end
    end.

  Definition queue_run (cap : N) (sched : list qact) : cqueue := run qstep (cq_new cap) sched.

  (** The access to a cell's data a thread is about to make: the cell and
      whether it writes. *)
  Definition data_access (q : cqueue) (t : tid) : option (N * bool) :=
    match cq_pc q t with
    | EData _ pos _ => Some (cq_slot q pos, true)
    | DData pos _ => Some (cq_slot q pos, false)
    | _ => None
    end.

  (** How many calls have been placed since the thread read its position. *)
  Definition stale (q : cqueue) (t : tid) : N :=
    match cq_pc q t with
    | ESeq _ _ seen | ECas _ _ seen => placed_in q - seen
    | DSeq _ seen | DCas _ seen => placed_out q - seen
    | _ => 0
    end.
End QueueConc.
Arguments qpc T : clear implicits.
Arguments cqueue T : clear implicits.
Arguments qact T : clear implicits.
