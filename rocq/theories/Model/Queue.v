(** Model of thirdparty/dvyukov/include/dvyukov/mpmc_bounded_queue.h as used by
    one thread at a time. The interleaved model is in Model/QueueConc.v. *)
From Verif Require Import Base.

Definition w64 : N := 2 ^ 64.

(** Pointwise update of a function used as an array. *)
Definition upd {A} (f : N -> A) (k : N) (v : A) : N -> A :=
  fun i => if (i =? k)%N then v else f i.

(** mpmc_bounded_queue.h:142-158. Cells are indexed by position; [q_cap] is
    buffer_mask_ + 1. *)
Record queue (T : Type) := {
  q_cap : N;
  q_seq : N -> N;
  q_data : N -> option T;      (* None: not written yet *)
  q_enq : N;
  q_deq : N;
}.
Arguments q_cap {T} q. Arguments q_seq {T} q. Arguments q_data {T} q.
Arguments q_enq {T} q. Arguments q_deq {T} q.

(** mpmc_bounded_queue.h:64-75, constructor (the assert is not evaluated in
    release builds; buffer_size is a power of two >= 2 for its one caller). *)
Definition queue_new (T : Type) (buffer_size : N) : queue T :=
  {| q_cap := buffer_size; q_seq := fun i => i; q_data := fun _ => None;
     q_enq := 0; q_deq := 0 |}.

(** [pos & buffer_mask_] for a power-of-two capacity. *)
Definition q_slot {T} (q : queue T) (pos : N) : N := N.land pos (q_cap q - 1).

(** (intptr_t)a - (intptr_t)b, taken as a wrapping 64-bit subtraction (it is
    formally undefined when it overflows). *)
Definition sdif (a b : N) : Z := to_s64 ((a + w64 - b mod w64) mod w64)%N.

Inductive qres (A : Type) :=
| QOk (a : A)
| QFail            (* returned false *)
| QSpin.           (* would loop for ever when run alone *)
Arguments QOk {A} a. Arguments QFail {A}. Arguments QSpin {A}.

(** mpmc_bounded_queue.h:84-107 run without interference: one iteration of the
    loop decides. *)
Definition enqueue {T} (q : queue T) (x : T) : qres (queue T) :=
  let pos := q_enq q in
  let c := q_slot q pos in
  let dif := sdif (q_seq q c) pos in
  if (dif =? 0)%Z then
    QOk {| q_cap := q_cap q;
           q_seq := upd (q_seq q) c ((pos + 1) mod w64)%N;
           q_data := upd (q_data q) c (Some x);
           q_enq := ((pos + 1) mod w64)%N;
           q_deq := q_deq q |}
  else if (dif <? 0)%Z then QFail else QSpin.

(** mpmc_bounded_queue.h:116-140 run without interference. The data read is an
    option because a cell may be uninitialised. *)
Definition dequeue {T} (q : queue T) : qres (option T * queue T) :=
  let pos := q_deq q in
  let c := q_slot q pos in
  let dif := sdif (q_seq q c) ((pos + 1) mod w64)%N in
  if (dif =? 0)%Z then
    QOk (q_data q c,
         {| q_cap := q_cap q;
            q_seq := upd (q_seq q) c ((pos + (q_cap q - 1) + 1) mod w64)%N;
            q_data := q_data q;
            q_enq := q_enq q;
            q_deq := ((pos + 1) mod w64)%N |})
  else if (dif <? 0)%Z then QFail else QSpin.
