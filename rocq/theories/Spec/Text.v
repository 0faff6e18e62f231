(** Independent vocabulary about texts. *)
From Verif Require Import Base Spec.Json.

(** A control byte with no short JSON escape: below 0x20 and not backspace,
    tab, newline, form feed or carriage return. *)
Definition raw_control (c : ascii) : Prop :=
  (code c < 32)%N /\ ~ In (code c) [8; 9; 10; 12; 13]%N.

(** Characters that may stand unescaped in a JSON string literal. *)
Definition plain (c : ascii) : Prop :=
  code c <> 34%N /\ code c <> 92%N /\ (32 <= code c)%N.

Definition all_plain (s : bytes) : Prop := forall c, In c s -> plain c.

(** The pieces of [l] separated by [d]. *)
Fixpoint glue (d : ascii) (l : list bytes) : bytes :=
  match l with
  | [] => []
  | [x] => x
  | x :: r => x ++ d :: glue d r
  end.

(** [from] occurs in [s] at offset [n]. *)
Definition occurs_at (from s : bytes) (n : nat) : Prop :=
  exists a b, s = a ++ from ++ b /\ length a = n.
