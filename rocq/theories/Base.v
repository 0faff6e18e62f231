(** Common ground of the model: byte strings and numerals.

    A C++ [std::string] / [char] sequence is modelled as a list of 8-bit
    characters. String literals are written [$"text"]. *)

From Coq Require Export String Ascii Bool NArith ZArith Lia List.
From Coq Require Export ZifyBool ZifyNat ZifyN.
Export ListNotations.
Global Open Scope bool_scope.
Global Open Scope list_scope.

Definition bytes := list ascii.

Definition lit (s : string) : bytes := list_ascii_of_string s.
Notation "$ s" := (lit s%string) (at level 1, only parsing).

(** The character with the given code. *)
Definition chr (n : N) : ascii := ascii_of_N n.

Fixpoint bytes_eqb (a b : bytes) : bool :=
  match a, b with
  | [], [] => true
  | x :: a', y :: b' => Ascii.eqb x y && bytes_eqb a' b'
  | _, _ => false
  end.

Definition is_nil {A} (l : list A) : bool :=
  match l with [] => true | _ => false end.

Definition NUL : ascii := chr 0.

(** A C string read through [const char*]: the bytes before the first NUL. *)
Fixpoint c_str (s : bytes) : bytes :=
  match s with
  | [] => []
  | c :: r => if Ascii.eqb c NUL then [] else c :: c_str r
  end.

(** Decimal digit for a value 0..9, hexadecimal digit for 0..15. *)
Definition digit (d : N) : ascii :=
  if (d <? 10)%N then chr (48 + d) else chr (87 + d).

(** Digits of [n] in base [b], most significant first; no leading zero,
    "0" for zero. The fuel (number of binary digits) always suffices. *)
Fixpoint digits_fuel (b : N) (fuel : nat) (n : N) (acc : bytes) : bytes :=
  match fuel with
  | O => acc
  | S f =>
      let acc' := digit (n mod b) :: acc in
      if (n / b =? 0)%N then acc' else digits_fuel b f (n / b) acc'
  end.

Definition digits (b n : N) : bytes := digits_fuel b (S (N.size_nat n)) n [].

(** printf("%llu") / std::to_string(unsigned). *)
Definition dec (n : N) : bytes := digits 10 n.

(** printf("%lld") / std::to_string(signed). *)
Definition decZ (z : Z) : bytes :=
  if (z <? 0)%Z then chr 45 :: dec (Z.to_N (- z)) else dec (Z.to_N z).

(** printf("%llx"). *)
Definition hex (n : N) : bytes := digits 16 n.

(** Left-pad with '0' to a minimum width, as printf("%0<w>llu"). *)
Definition pad0 (w : nat) (s : bytes) : bytes :=
  repeat (chr 48) (w - length s) ++ s.

(** printf("%0<w>lld"): the sign counts for the width and comes first. *)
Definition dec0Z (w : nat) (z : Z) : bytes :=
  if (z <? 0)%Z then chr 45 :: pad0 (w - 1) (dec (Z.to_N (- z)))
  else pad0 w (dec (Z.to_N z)).

(** 64-bit reinterpretation of an unsigned word as signed. *)
Definition to_signed (bits : N) (n : N) : Z :=
  if (n <? 2 ^ (bits - 1))%N then Z.of_N n else (Z.of_N n - 2 ^ Z.of_N bits)%Z.

Definition to_s64 (n : N) : Z := to_signed 64 n.
Definition wrap64 (z : Z) : N := Z.to_N (z mod 2 ^ 64).
