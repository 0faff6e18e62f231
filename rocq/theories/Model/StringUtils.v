(** Model of src/utils/string_utils.cc. *)
From Verif Require Import Base.

(** string_utils.cc:54-82, the switch of [escape_json] on one character. *)
Definition escape_char (c : ascii) : bytes :=
  match N_of_ascii c with
  | 34 => $"\""" (* the double quote *)
  | 47 => $"\/"
  | 8 => $"\b"
  | 12 => $"\f"
  | 10 => $"\n"
  | 13 => $"\r"
  | 9 => $"\t"
  | 92 => $"\\"
  | _ => [c]
  end%N.

(** string_utils.cc:49-86 [escape_json]. *)
Fixpoint escape_json (s : bytes) : bytes :=
  match s with
  | [] => []
  | c :: r => escape_char c ++ escape_json r
  end.

(** string_utils.cc:88-90 [to_json]. *)
Definition to_json (s : bytes) : bytes := chr 34 :: escape_json s ++ [chr 34].

(** One [std::getline(ss, item, delim)] on a non-empty stream
    (string_utils.cc:100): the item and the rest of the stream. *)
Fixpoint getline (d : ascii) (s : bytes) : bytes * bytes :=
  match s with
  | [] => ([], [])
  | c :: r => if Ascii.eqb c d then ([], r)
              else let '(item, rest) := getline d r in (c :: item, rest)
  end.

(** string_utils.cc:100-102, the getline loop. [std::getline] sets failbit,
    ending the loop, exactly when the stream is empty (nothing extracted).
    The fuel is the stream length, each iteration extracts at least one
    character. *)
Fixpoint split_loop (fuel : nat) (d : ascii) (s : bytes) : list bytes :=
  match fuel, s with
  | _, [] => []
  | O, _ => []
  | S f, _ => let '(item, rest) := getline d s in item :: split_loop f d rest
  end.

(** string_utils.cc:92-104 [split_string]. *)
Definition split_string (s : bytes) (d : ascii) : list bytes :=
  if is_nil s then [[]] else split_loop (length s) d s.

(** string_utils.cc:106-118 [join_string]. *)
Definition join_string (l : list bytes) (d : ascii) : bytes :=
  if is_nil l then []
  else removelast (fold_left (fun result str => result ++ str ++ [d]) l []).

(** [std::string::find] (string_utils.cc:126): position of the first
    occurrence; [is_prefix] is the comparison at one position. *)
Fixpoint is_prefix (p s : bytes) : bool :=
  match p, s with
  | [], _ => true
  | x :: p', y :: s' => Ascii.eqb x y && is_prefix p' s'
  | _, [] => false
  end.

Fixpoint find (from s : bytes) : option nat :=
  if is_prefix from s then Some 0
  else match s with
       | [] => None
       | _ :: r => option_map S (find from r)
       end.

(** string_utils.cc:120-132 [string_replace]. *)
Definition string_replace (str from to : bytes) : bytes :=
  if is_nil from then str
  else match find from str with
       | Some pos => firstn pos str ++ to ++ skipn (pos + length from) str
       | None => str
       end.

(** string_utils.cc:140-142, the search loop under [star]; the iterator into
    [match] is represented by the remaining suffix. *)
Fixpoint glob_seek (c : ascii) (it : bytes) : bytes :=
  match it with
  | [] => []
  | x :: r => if Ascii.eqb c x then it else glob_seek c r
  end.

(** string_utils.cc:138-171, the loop of [glob_match]. *)
Fixpoint glob_loop (glob it : bytes) (star : bool) : bool :=
  match glob with
  | [] => is_nil it || star
  | c :: g =>
      let it := if star then glob_seek c it else it in
      if star && is_nil it then false
      else if Ascii.eqb c "?" then
        match it with [] => false | _ :: r => glob_loop g r star end
      else if Ascii.eqb c "*" then glob_loop g it true
      else if Ascii.eqb c "+" then
        match it with [] => false | _ :: r => glob_loop g r true end
      else
        match it with
        | [] => false
        | x :: r => if Ascii.eqb c x then glob_loop g r star else false
        end
  end.

(** string_utils.cc:134-172 [glob_match]. *)
Definition glob_match (glob m : bytes) : bool := glob_loop glob m false.

(** string_utils.cc:174-186 [strnlen_s]: [s] is the readable memory starting
    at the pointer ([None] for NULL). [None] in the result means the loop read
    beyond the given memory (undefined behaviour). *)
Fixpoint strnlen_loop (s : bytes) (maxsize : nat) (count : nat) : option nat :=
  match maxsize with
  | O => Some count
  | S m => match s with
           | [] => None
           | c :: r => if Ascii.eqb c NUL then Some count
                       else strnlen_loop r m (S count)
           end
  end.

Definition strnlen_s (s : option bytes) (maxsize : nat) : option nat :=
  match s with
  | None => Some 0
  | Some m => strnlen_loop m maxsize 0
  end.
