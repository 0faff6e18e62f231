(** An independent reader for JSON texts (RFC 8259), used to state what the
    exported text means. It shares nothing with the model of phosphor except
    the type of byte strings.

    Numbers denote exact decimals [JNum m e] = m * 10^e. Strings are byte
    strings ([\uXXXX] escapes, which phosphor never produces, are decoded to
    UTF-8; surrogate pairs are not combined). *)
From Verif Require Import Base.

Inductive json :=
| JNull
| JBool (b : bool)
| JNum (m e : Z)
| JStr (s : bytes)
| JArr (l : list json)
| JObj (l : list (bytes * json)).

Definition code (c : ascii) : N := N_of_ascii c.

Definition is_ws (c : ascii) : bool :=
  let n := code c in ((n =? 32) || (n =? 9) || (n =? 10) || (n =? 13))%N.

Fixpoint skip_ws (s : bytes) : bytes :=
  match s with
  | c :: r => if is_ws c then skip_ws r else s
  | [] => []
  end.

(** ** Strings *)

Definition unescape (c : ascii) : option ascii :=
  match code c with
  | 34 => Some (chr 34)    (* double quote *)
  | 92 => Some (chr 92)    (* backslash *)
  | 47 => Some (chr 47)    (* slash *)
  | 98 => Some (chr 8)     (* b: backspace *)
  | 102 => Some (chr 12)   (* f: form feed *)
  | 110 => Some (chr 10)   (* n: newline *)
  | 114 => Some (chr 13)   (* r: carriage return *)
  | 116 => Some (chr 9)    (* t: tab *)
  | _ => None
  end%N.

Definition hex_val (c : ascii) : option N :=
  let n := code c in
  (if (48 <=? n) && (n <=? 57) then Some (n - 48)
   else if (97 <=? n) && (n <=? 102) then Some (n - 87)
   else if (65 <=? n) && (n <=? 70) then Some (n - 55)
   else None)%N.

Definition hex4 (a b c d : ascii) : option N :=
  match hex_val a, hex_val b, hex_val c, hex_val d with
  | Some a, Some b, Some c, Some d => Some (((a * 16 + b) * 16 + c) * 16 + d)%N
  | _, _, _, _ => None
  end.

Definition utf8 (n : N) : bytes :=
  (if n <? 128 then [chr n]
   else if n <? 2048 then [chr (192 + n / 64); chr (128 + n mod 64)]
   else [chr (224 + n / 4096); chr (128 + (n / 64) mod 64); chr (128 + n mod 64)])%N.

(** Reads the inside of a string literal up to and including the closing
    quote. [strict] forbids raw control characters, as RFC 8259 does. *)
Fixpoint read_str (strict : bool) (s : bytes) : option (bytes * bytes) :=
  match s with
  | [] => None
  | c :: r =>
      if (code c =? 34)%N then Some ([], r)
      else if (code c =? 92)%N then
        match r with
        | u :: r1 =>
            if (code u =? 117)%N then
              match r1 with
              | a :: b :: e :: d :: r2 =>
                  match hex4 a b e d, read_str strict r2 with
                  | Some n, Some (t, rest) => Some (utf8 n ++ t, rest)
                  | _, _ => None
                  end
              | _ => None
              end
            else
              match unescape u, read_str strict r1 with
              | Some x, Some (t, rest) => Some (x :: t, rest)
              | _, _ => None
              end
        | [] => None
        end
      else if strict && (code c <? 32)%N then None
      else match read_str strict r with
           | Some (t, rest) => Some (c :: t, rest)
           | None => None
           end
  end.

(** ** Numbers *)

Definition digit_val (c : ascii) : option N :=
  let n := code c in
  (if (48 <=? n) && (n <=? 57) then Some (n - 48) else None)%N.

(** The longest run of decimal digits: its value accumulated onto [acc], its
    length and the rest. *)
Fixpoint read_digits (acc : Z) (len : nat) (s : bytes) : Z * nat * bytes :=
  match s with
  | [] => (acc, len, s)
  | c :: r => match digit_val c with
              | Some d => read_digits (acc * 10 + Z.of_N d) (S len) r
              | None => (acc, len, s)
              end
  end.

Definition starts_with (n : N) (s : bytes) : bool :=
  match s with c :: _ => (code c =? n)%N | [] => false end.

Definition read_frac (m : Z) (s : bytes) : option (Z * Z * bytes) :=
  if starts_with 46 s then
    let '(m', len, r) := read_digits m 0 (tl s) in
    if Nat.eqb len 0 then None else Some (m', - Z.of_nat len, r)%Z
  else Some (m, 0%Z, s).

Definition read_exp (s : bytes) : option (Z * bytes) :=
  if starts_with 101 s || starts_with 69 s then
    let r := tl s in
    let neg := starts_with 45 r in
    let r := if neg || starts_with 43 r then tl r else r in
    let '(e, len, r') := read_digits 0 0 r in
    if Nat.eqb len 0 then None else Some ((if neg then - e else e)%Z, r')
  else Some (0%Z, s).

Definition read_num (s : bytes) : option (json * bytes) :=
  let neg := starts_with 45 s in
  let s := if neg then tl s else s in
  let '(i, len, r) := read_digits 0 0 s in
  if Nat.eqb len 0 then None
  else if starts_with 48 s && negb (Nat.eqb len 1) then None
  else match read_frac i r with
       | None => None
       | Some (m, f, r1) =>
           match read_exp r1 with
           | None => None
           | Some (e, r2) => Some (JNum (if neg then - m else m) (f + e), r2)%Z
           end
       end.

(** ** Values *)

Fixpoint strip (p s : bytes) : option bytes :=
  match p, s with
  | [], _ => Some s
  | x :: p', y :: s' => if Ascii.eqb x y then strip p' s' else None
  | _, [] => None
  end.

Fixpoint read_value (fuel : nat) (s : bytes) {struct fuel} : option (json * bytes) :=
  match fuel with
  | O => None
  | S f =>
      match skip_ws s with
      | [] => None
      | c :: r =>
          if (code c =? 123)%N then                       (* { *)
            match skip_ws r with
            | d :: r' => if (code d =? 125)%N then Some (JObj [], r')
                         else match read_members f r with
                              | Some (l, rest) => Some (JObj l, rest)
                              | None => None
                              end
            | [] => None
            end
          else if (code c =? 91)%N then                   (* [ *)
            match skip_ws r with
            | d :: r' => if (code d =? 93)%N then Some (JArr [], r')
                         else match read_elems f r with
                              | Some (l, rest) => Some (JArr l, rest)
                              | None => None
                              end
            | [] => None
            end
          else if (code c =? 34)%N then
            match read_str true r with
            | Some (t, rest) => Some (JStr t, rest)
            | None => None
            end
          else match strip $"true" (c :: r), strip $"false" (c :: r),
                     strip $"null" (c :: r) with
               | Some rest, _, _ => Some (JBool true, rest)
               | _, Some rest, _ => Some (JBool false, rest)
               | _, _, Some rest => Some (JNull, rest)
               | None, None, None => read_num (c :: r)
               end
      end
  end
with read_elems (fuel : nat) (s : bytes) {struct fuel} : option (list json * bytes) :=
  match fuel with
  | O => None
  | S f =>
      match read_value f s with
      | None => None
      | Some (v, r) =>
          match skip_ws r with
          | c :: r' =>
              if (code c =? 44)%N then
                match read_elems f r' with
                | Some (l, rest) => Some (v :: l, rest)
                | None => None
                end
              else if (code c =? 93)%N then Some ([v], r')
              else None
          | [] => None
          end
      end
  end
with read_members (fuel : nat) (s : bytes) {struct fuel}
  : option (list (bytes * json) * bytes) :=
  match fuel with
  | O => None
  | S f =>
      match skip_ws s with
      | q :: r0 =>
          if (code q =? 34)%N then
            match read_str true r0 with
            | Some (k, r1) =>
                match skip_ws r1 with
                | c1 :: r2 =>
                    if (code c1 =? 58)%N then
                      match read_value f r2 with
                      | None => None
                      | Some (v, r) =>
                          match skip_ws r with
                          | c :: r' =>
                              if (code c =? 44)%N then
                                match read_members f r' with
                                | Some (l, rest) => Some ((k, v) :: l, rest)
                                | None => None
                                end
                              else if (code c =? 125)%N then Some ([(k, v)], r')
                              else None
                          | [] => None
                          end
                      end
                    else None
                | [] => None
                end
            | None => None
            end
          else None
      | [] => None
      end
  end.

(** A whole JSON text; the fuel exceeds the nesting any text of that length
    can have. *)
Definition json_parse (s : bytes) : option json :=
  match read_value (2 * length s + 2) s with
  | Some (v, rest) => if is_nil (skip_ws rest) then Some v else None
  | None => None
  end.
