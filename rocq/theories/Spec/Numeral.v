(** Independent reading of numerals: the value denoted by a digit string. *)
From Verif Require Import Base.

Definition digit_value (b : N) (c : ascii) : option N :=
  let n := N_of_ascii c in
  let v := (if (48 <=? n) && (n <=? 57) then Some (n - 48)
            else if (97 <=? n) && (n <=? 102) then Some (n - 87)
            else None)%N in
  match v with
  | Some d => if (d <? b)%N then Some d else None
  | None => None
  end.

(** Value of a whole digit string in base [b], most significant first. *)
Fixpoint value_from (b acc : N) (s : bytes) : option N :=
  match s with
  | [] => Some acc
  | c :: r => match digit_value b c with
              | Some d => value_from b (acc * b + d)%N r
              | None => None
              end
  end.

Definition value_of (b : N) (s : bytes) : option N :=
  match s with [] => None | _ => value_from b 0 s end.

(** Value of a signed decimal numeral. *)
Definition zvalue_of (s : bytes) : option Z :=
  match s with
  | c :: r => if Ascii.eqb c "-" then option_map (fun n => - Z.of_N n)%Z (value_of 10 r)
              else option_map Z.of_N (value_of 10 s)
  | [] => None
  end.
