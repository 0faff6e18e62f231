(** Plain readings of writing a text to a file that may fail. *)
From Verif Require Import Base Model.StringUtils.

(** [a] is a beginning of [b]. *)
Definition begins (a b : bytes) : Prop := exists rest, b = a ++ rest.

(** The documents are written in blocks of 4096 bytes. *)
Definition file_block : nat := 4096.

(** Every request to write a whole text in blocks of [n] bytes is taken in full:
    request [k] is for the [k]-th block. *)
Definition takes_all (n : nat) (takes : nat -> nat) (text : bytes) : Prop :=
  forall k, n * k < length text -> Nat.min n (length text - n * k) <= takes k.

(** The first request that is not taken in full is number [k]; [m] bytes of it
    are taken. *)
Definition first_short (n : nat) (takes : nat -> nat) (text : bytes) (k m : nat) : Prop :=
  n * k < length text /\ m = takes k /\ m < Nat.min n (length text - n * k) /\
  forall j, j < k -> n <= takes j.
