(** Model of thirdparty/dvyukov/include/dvyukov/mpmc_bounded_queue.h on the memory
    of WeakMem.v: the same code as QueueConc.v, with the memory orders written in
    the header. *)
From Verif Require Import Base Spec.QueueHistory Model.Queue Model.Interleave Model.WeakMem.
Local Open Scope N_scope.

(** mpmc_bounded_queue.h:142-158. *)
Definition enqueue_pos : loc := Loc 0 0.
Definition dequeue_pos : loc := Loc 1 0.
Definition cell_seq (c : N) : loc := Loc 2 c.
Definition cell_data (c : N) : loc := Loc 3 c.
(** Plain variables of the users of the queue, such as the items themselves. *)
Definition user_var (i : N) : loc := Loc 4 i.

Section WeakQueue.
  Context {T : Type}.

  Inductive wpc :=
  | WIdle
  | WEPos (x : T)                       (* about to load enqueue_pos_ *)
  | WESeq (x : T) (pos : N)             (* about to load cell->sequence_ *)
  | WECas (x : T) (pos : N)             (* about to compare_exchange enqueue_pos_ *)
  | WEData (x : T) (pos : N)            (* about to write cell->data_ *)
  | WEPub (x : T) (pos : N)             (* about to store cell->sequence_ *)
  | WDPos
  | WDSeq (pos : N)
  | WDCas (pos : N)
  | WDData (pos : N)                    (* about to read cell->data_ *)
  | WDPub (pos : N) (v : option T).

  Record wqueue := {
    wq_cap : N;                         (* buffer_mask_ + 1 *)
    wq_mem : wmem (option T);           (* None: uninitialised data *)
    wq_pc : tid -> wpc;
    wq_hist : list (queue_event T);
  }.

  (** mpmc_bounded_queue.h:64-75. The queue is handed to other threads only after
      the constructor has returned. *)
  Definition wq_init (x : loc) : N := match x with Loc 2 c => c | _ => 0 end.
  Definition wq_new (buffer_size : N) : wqueue :=
    {| wq_cap := buffer_size; wq_mem := wmem_new wq_init (fun _ => None); wq_pc := fun _ => WIdle; wq_hist := [] |}.

  Definition wq_slot (q : wqueue) (pos : N) : N := N.land pos (wq_cap q - 1).

  Definition wq_goto (q : wqueue) (m : wmem (option T)) (t : tid) (p : wpc) (e : list (queue_event T)) : wqueue :=
    {| wq_cap := wq_cap q; wq_mem := m; wq_pc := tset (wq_pc q) t p; wq_hist := wq_hist q ++ e |}.

  Inductive wqact :=
  | WCallEnq (t : tid) (x : T)
  | WCallDeq (t : tid)
  | WUse (t : tid) (y : N) (write : bool)   (* between calls *)
  | WGo (t : tid) (i : nat) (f n : N) (spurious : bool).
      (* the thread's next access: the store read, the time of the store made *)

  Definition wqstep (q : wqueue) (a : wqact) : option wqueue :=
    let m := wq_mem q in
    match a with
    | WCallEnq t x =>
        match wq_pc q t with WIdle => Some (wq_goto q m t (WEPos x) [EnqCalled t x]) | _ => None end
    | WCallDeq t =>
        match wq_pc q t with WIdle => Some (wq_goto q m t WDPos [DeqCalled t]) | _ => None end
    | WUse t y w =>
        match wq_pc q t with
        | WIdle => Some (wq_goto q (wtouch m t (user_var y) w (plain m (user_var y))) t WIdle [])
        | _ => None
        end
    | WGo t i f n spurious =>
        match wq_pc q t with
        | WIdle => None
        (* mpmc_bounded_queue.h:86 and 99: relaxed *)
        | WEPos x =>
            match wload m t false enqueue_pos i with
            | Some (pos, m') => Some (wq_goto q m' t (WESeq x pos) [])
            | None => None
            end
        (* mpmc_bounded_queue.h:88-91, 96-100: acquire *)
        | WESeq x pos =>
            match wload m t true (cell_seq (wq_slot q pos)) i with
            | Some (seq, m') =>
                let dif := sdif seq pos in
                if (dif =? 0)%Z then Some (wq_goto q m' t (WECas x pos) [])
                else if (dif <? 0)%Z then Some (wq_goto q m' t WIdle [EnqFull t])
                else Some (wq_goto q m' t (WEPos x) [])
            | None => None
            end
        (* mpmc_bounded_queue.h:92-95: relaxed; a failure loads the position *)
        | WECas x pos =>
            match wcas m t false false false enqueue_pos pos ((pos + 1) mod w64) i n spurious with
            | Some (true, _, m') => Some (wq_goto q m' t (WEData x pos) [EnqPlaced t x])
            | Some (false, found, m') => Some (wq_goto q m' t (WESeq x found) [])
            | None => None
            end
        (* mpmc_bounded_queue.h:103 *)
        | WEData x pos => Some (wq_goto q (wwrite m t (cell_data (wq_slot q pos)) (Some x)) t (WEPub x pos) [])
        (* mpmc_bounded_queue.h:104-106: release *)
        | WEPub x pos =>
            match wstore m t true (cell_seq (wq_slot q pos)) ((pos + 1) mod w64) f n with
            | Some m' => Some (wq_goto q m' t WIdle [EnqReturned t])
            | None => None
            end
        (* mpmc_bounded_queue.h:118 and 131: relaxed *)
        | WDPos =>
            match wload m t false dequeue_pos i with
            | Some (pos, m') => Some (wq_goto q m' t (WDSeq pos) [])
            | None => None
            end
        (* mpmc_bounded_queue.h:120-123, 128-132: acquire *)
        | WDSeq pos =>
            match wload m t true (cell_seq (wq_slot q pos)) i with
            | Some (seq, m') =>
                let dif := sdif seq ((pos + 1) mod w64) in
                if (dif =? 0)%Z then Some (wq_goto q m' t (WDCas pos) [])
                else if (dif <? 0)%Z then Some (wq_goto q m' t WIdle [DeqEmpty t])
                else Some (wq_goto q m' t WDPos [])
            | None => None
            end
        (* mpmc_bounded_queue.h:124-127: relaxed *)
        | WDCas pos =>
            match wcas m t false false false dequeue_pos pos ((pos + 1) mod w64) i n spurious with
            | Some (true, _, m') => Some (wq_goto q m' t (WDData pos) [DeqPlaced t])
            | Some (false, found, m') => Some (wq_goto q m' t (WDSeq found) [])
            | None => None
            end
        (* mpmc_bounded_queue.h:135 *)
        | WDData pos =>
            let '(v, m') := wread m t (cell_data (wq_slot q pos)) in Some (wq_goto q m' t (WDPub pos v) [])
        (* mpmc_bounded_queue.h:136-139: release *)
        | WDPub pos v =>
            match wstore m t true (cell_seq (wq_slot q pos)) ((pos + (wq_cap q - 1) + 1) mod w64) f n with
            | Some m' => Some (wq_goto q m' t WIdle [DeqReturned t v])
            | None => None
            end
        end
    end.

  Definition wqueue_run (cap : N) (sched : list wqact) : wqueue := run wqstep (wq_new cap) sched.
End WeakQueue.
Arguments wpc T : clear implicits.
Arguments wqueue T : clear implicits.
Arguments wqact T : clear implicits.
