(** Reading the list of effects of a guarded scope. *)
From Verif Require Import Base Model.Guards.

Definition is_log (e : effect) : bool := match e with LogCall _ _ _ _ _ => true | _ => false end.
Definition is_mutex (e : effect) : bool := match e with MutexLock | MutexUnlock => true | _ => false end.

Definition log_calls (tr : list effect) : list effect := filter is_log tr.
Definition clock_reads (tr : list effect) : list Z := flat_map (fun e => match e with ClockRead z => [z] | _ => [] end) tr.

(** Code of the user's that neither logs nor touches the guarded mutex nor reads
    the clock; everything else it does is in [UserCode] and [StatusRead]. *)
Definition plain_body (body : list effect) : Prop :=
  Forall (fun e => is_log e = false /\ is_mutex e = false /\ forall z, e <> ClockRead z) body.

(** A steady clock: never goes back, signed 64-bit, not negative. *)
Definition steady (clock : nat -> Z) : Prop :=
  forall n m, n <= m -> (0 <= clock n <= clock m)%Z /\ (clock m < 2 ^ 63)%Z.
