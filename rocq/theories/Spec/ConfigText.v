(** What a configuration text means, independent of how it is parsed. *)
From Verif Require Import Base Spec.Text Spec.Numeral Model.Buffer Model.Config.

(** [l] are the pieces of [s] between delimiters [d], in order; an empty piece
    after a trailing delimiter does not count. *)
Definition pieces_of (d : ascii) (s : bytes) (l : list bytes) : Prop :=
  l <> [] /\ (forall x, In x l -> ~ In d x) /\
  ((s = glue d l /\ (forall t, s <> t ++ [d])) \/ s = glue d l ++ [d]).

(** One argument "key:value". *)
Definition is_pair (arg : bytes) (kv : bytes * bytes) : Prop := pieces_of (chr 58) arg [fst kv; snd kv].

(** The arguments of a text. *)
Definition arguments_of (s : bytes) (args : list bytes) : Prop := pieces_of (chr 59) s args.

(** [s] starts with an integer of value [z]: blanks, sign, digits, then anything
    that is not a digit. *)
Definition blank (c : ascii) : Prop := In (N_of_ascii c) [9; 10; 11; 12; 13; 32]%N.
Definition starts_int (s : bytes) (z : Z) : Prop :=
  exists blanks sign digits rest n, s = blanks ++ sign ++ digits ++ rest /\
    Forall blank blanks /\ value_of 10 digits = Some n /\
    (forall c r, rest = c :: r -> digit_value 10 c = None) /\
    ((sign = $"-" /\ z = - Z.of_N n)%Z \/ ((sign = [] \/ sign = $"+") /\ z = Z.of_N n)).

(** The pairs that are not errors. *)
Definition acceptable (kv : bytes * bytes) : Prop :=
  (fst kv = $"buffer-mode" -> snd kv = $"fixed" \/ snd kv = $"ring") /\
  (fst kv = $"buffer-size" -> exists z, starts_int (snd kv) z /\ (0 <= z < 2 ^ 31)%Z).

(** The value of the last occurrence of a key. *)
Definition last_of (k : bytes) (kvs : list (bytes * bytes)) (v : bytes) : Prop :=
  exists l1 l2, kvs = l1 ++ (k, v) :: l2 /\ forall v', ~ In (k, v') l2.
Definition absent (k : bytes) (kvs : list (bytes * bytes)) : Prop := forall v, ~ In (k, v) kvs.

(** [c'] is [c] changed by the pairs, the last occurrence of each key counting
    and all other keys being ignored. *)
Record meant (c : config) (kvs : list (bytes * bytes)) (c' : config) : Prop := {
  mt_fixed : last_of $"buffer-mode" kvs $"fixed" -> cf_mode c' = mode_fixed /\ cf_factory c' = make_fixed_buffer;
  mt_ring : last_of $"buffer-mode" kvs $"ring" -> cf_mode c' = mode_ring /\ cf_factory c' = make_ring_buffer;
  mt_nomode : absent $"buffer-mode" kvs -> cf_mode c' = cf_mode c /\ cf_factory c' = cf_factory c;
  mt_size : forall v z, last_of $"buffer-size" kvs v -> starts_int v z -> Z.of_N (cf_size c') = z;
  mt_nosize : absent $"buffer-size" kvs -> cf_size c' = cf_size c;
  mt_save : forall v, last_of $"save-on-stop" kvs v -> cf_callback c' = Some (FileStop v) /\ cf_stop c' = true;
  mt_nosave : absent $"save-on-stop" kvs -> cf_callback c' = cf_callback c /\ cf_stop c' = cf_stop c;
  mt_en : forall v, last_of $"enabled-categories" kvs v -> pieces_of (chr 44) v (cf_enabled c');
  mt_noen : absent $"enabled-categories" kvs -> cf_enabled c' = cf_enabled c;
  mt_dis : forall v, last_of $"disabled-categories" kvs v -> pieces_of (chr 44) v (cf_disabled c');
  mt_nodis : absent $"disabled-categories" kvs -> cf_disabled c' = cf_disabled c;
}.
