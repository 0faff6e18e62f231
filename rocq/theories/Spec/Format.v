(** What the printf directives mean, after C11 7.21.6.1. *)
From Verif Require Import Base Spec.Numeral Model.Event Model.Format.
Open Scope Z_scope.

(** [t] is the shortest numeral with the value, brought to the width [w] by
    zeros in the number or spaces in front of it. *)
Definition padded (zero : bool) (w : nat) (value : bytes -> Prop) (t : bytes) : Prop :=
  exists n, value n /\ (forall m, value m -> (length n <= length m)%nat) /\ length t = Nat.max w (length n) /\
    (if zero then value t else exists k, t = repeat (chr 32) k ++ n).

(** An integer argument: its size in bits, its value. *)
Definition holds (a : carg) : option (Z * Z) :=
  match a with
  | CInt z => Some (32, z)
  | CLong z | CLongLong z => Some (64, z)
  | CULong n | CPtr n => Some (64, Z.of_N n)
  | CStr _ => None
  end.

(** Its lowest [bits] bits, as a signed or an unsigned number. *)
Definition low_signed (bits : Z) (a : carg) (z : Z) : Prop :=
  exists b v, holds a = Some (b, v) /\ bits <= b /\ - 2 ^ (bits - 1) <= z < 2 ^ (bits - 1) /\ exists k, v = z + k * 2 ^ bits.
Definition low_unsigned (bits : Z) (a : carg) (n : N) : Prop :=
  exists b v, holds a = Some (b, v) /\ bits <= b /\ (Z.of_N n < 2 ^ bits) /\ exists k, v = Z.of_N n + k * 2 ^ bits.

(** The directive with these flags prints [t] for the argument. *)
Definition prints (zero : bool) (w longs : nat) (c : ascii) (a : carg) (t : bytes) : Prop :=
  (c = "d"%char /\ (longs <= 2)%nat /\ exists z, low_signed (if Nat.eqb longs 0 then 32 else 64) a z /\ padded zero w (fun s => zvalue_of s = Some z) t) \/
  (c = "x"%char /\ (1 <= longs <= 2)%nat /\ exists n, low_unsigned 64 a n /\ padded zero w (fun s => value_of 16 s = Some n) t) \/
  (c = "s"%char /\ exists m, a = CStr m /\ ~ In NUL t /\ (m = t \/ exists r, m = t ++ NUL :: r)).

(** The text of a directive: zeros, a width, some "l", the letter. *)
Definition directive (d : bytes) (zero : bool) (w longs : nat) (c : ascii) : Prop :=
  exists zs width, d = zs ++ width ++ repeat "l"%char longs ++ [c] /\
    (forall x, In x zs -> x = "0"%char) /\ (zero = true <-> zs <> []) /\
    match width with [] => w = 0%nat | x :: _ => x <> "0"%char /\ value_of 10 width = Some (N.of_nat w) end.

(** Text is copied, every directive takes the next argument. *)
Inductive expands : bytes -> list carg -> bytes -> Prop :=
| ex_end args : expands [] args []
| ex_char c f args t : c <> "%"%char -> expands f args t -> expands (c :: f) args (c :: t)
| ex_directive d zero w longs c f a args p t :
    directive d zero w longs c -> prints zero w longs c a p -> expands f args t -> expands ("%"%char :: d ++ f) (a :: args) (p ++ t).
