(** C01-C08: the string utilities. *)
From Verif Require Import Base Model.StringUtils Model.Event Spec.Json Spec.Text Spec.Glob
  Proofs.Strings Proofs.Numerals Proofs.JsonText Proofs.Event.

(** C01. Reading the literal back (raw control characters tolerated) gives the
    string, and stops exactly at the end of the literal. *)
Theorem C01_json_string_roundtrip : forall s rest,
  exists body, to_json s ++ rest = chr 34 :: body /\ read_str false body = Some (s, rest).
Proof. exact json_string_roundtrip. Qed.
Print Assumptions C01_json_string_roundtrip.

Example C01_case : to_json $"a""\/" = $"""a\""\\\/""".
Proof. reflexivity. Qed.

(** Two strings with the same encoding are equal. *)
Theorem C01_json_string_injective : forall s t, to_json s = to_json t -> s = t.
Proof. exact to_json_inj. Qed.
Print Assumptions C01_json_string_injective.

(** C02. *)
Theorem C02_json_string_valid_iff : forall s,
  (exists v, json_parse (to_json s) = Some v) <-> (forall c, In c s -> ~ raw_control c).
Proof. exact json_string_valid_iff. Qed.
Print Assumptions C02_json_string_valid_iff.

Theorem C02_json_string_value : forall s,
  (forall c, In c s -> ~ raw_control c) -> json_parse (to_json s) = Some (JStr s).
Proof. exact json_string_value. Qed.
Print Assumptions C02_json_string_value.

Example C02_case : forall c, In c ($"tab" ++ [chr 9; chr 10; chr 34; chr 255]) -> ~ raw_control c.
Proof. apply existsb_raw. reflexivity. Qed.

(** The unconditional claim is false. *)
Theorem C02_json_string_always_valid_refuted : exists s, json_parse (to_json s) = None.
Proof. exists [chr 1]. reflexivity. Qed.
Print Assumptions C02_json_string_always_valid_refuted.

(** C03. *)
Theorem C03_split_string : forall s d,
  split_string s d <> [] /\ (forall x, In x (split_string s d) -> ~ In d x) /\
  ((s = glue d (split_string s d) /\ (forall t, s <> t ++ [d]))
   \/ s = glue d (split_string s d) ++ [d]).
Proof. exact split_string_spec. Qed.
Print Assumptions C03_split_string.

Theorem C03_join_string : forall l d, join_string l d = glue d l.
Proof. exact join_string_glue. Qed.
Print Assumptions C03_join_string.

Theorem C03_split_join : forall l d,
  l <> [] -> (forall x, In x l -> ~ In d x) -> (last l [d] <> [] \/ l = [[]]) ->
  split_string (join_string l d) d = l.
Proof. exact split_join. Qed.
Print Assumptions C03_split_join.

Example C03_case : let l := [$"a"; []; $"bc"] in
  l <> [] /\ (forall x, In x l -> ~ In (chr 44) x) /\ last l [chr 44] <> [].
Proof. repeat split; try discriminate. intros x H; repeat destruct H as [<-|H]; cbn; intuition discriminate. Qed.

(** A trailing empty element of a longer list is always lost. *)
Theorem C03_split_join_lossy : forall l d,
  (forall x, In x l -> ~ In d x) -> l <> [] ->
  split_string (join_string (l ++ [[]]) d) d = l \/ l = [[]].
Proof. exact split_join_lossy. Qed.
Print Assumptions C03_split_join_lossy.

(** C04. *)
Theorem C04_glob_starless : forall g s, starless g -> (glob_match g s = true <-> pos_match g s).
Proof. exact glob_starless. Qed.
Print Assumptions C04_glob_starless.

Theorem C04_glob_literal : forall g s,
  (forall c, In c g -> ~ wild c) -> (glob_match g s = true <-> s = g).
Proof. exact glob_literal. Qed.
Print Assumptions C04_glob_literal.

Example C04_case : starless $"a?c" /\ glob_match $"a?c" $"abc" = true /\ glob_match $"a?c" $"abcd" = false.
Proof. repeat split; cbn; intuition discriminate. Qed.

(** C05. *)
Theorem C05_glob_prefix_star : forall p s, starless p ->
  (glob_match (p ++ [star]) s = true <-> exists s1 s2, s = s1 ++ s2 /\ pos_match p s1).
Proof. exact glob_prefix_star. Qed.
Print Assumptions C05_glob_prefix_star.

Theorem C05_glob_prefix_plus : forall p s, starless p ->
  (glob_match (p ++ [plus]) s = true <-> exists s1 x s2, s = s1 ++ x :: s2 /\ pos_match p s1).
Proof. exact glob_prefix_plus. Qed.
Print Assumptions C05_glob_prefix_plus.

Theorem C05_glob_star_all : forall s, glob_match [star] s = true.
Proof. exact glob_star_all. Qed.
Print Assumptions C05_glob_star_all.

(** For these globs phosphor agrees with the usual meaning. *)
Theorem C05_glob_std : forall p s, starless p ->
  (glob_match (p ++ [star]) s = true <-> std_glob (p ++ [star]) s) /\
  (glob_match (p ++ [plus]) s = true <-> std_glob (p ++ [plus]) s).
Proof. exact (fun p s H => conj (glob_std_trailing p s H) (glob_std_trailing_plus p s H)). Qed.
Print Assumptions C05_glob_std.

Example C05_case : starless $"memcached:?" /\
  glob_match ($"memcached:?" ++ [star]) $"memcached:xyz" = true /\
  glob_match ($"memcached:?" ++ [plus]) $"memcached:x" = false.
Proof. repeat split; cbn; intuition discriminate. Qed.

(** C06. *)
Theorem C06_glob_exact : forall g s, glob_match g s = true <-> phosphor_glob g s.
Proof. exact glob_match_exact. Qed.
Print Assumptions C06_glob_exact.

(** With no wildcard after the first star or plus, everything the usual meaning
    accepts is accepted (but not conversely). *)
Theorem C06_glob_accepts_std : forall g s,
  (starless g \/ exists p a q, g = p ++ a :: q /\ (a = star \/ a = plus) /\ starless p /\
      (forall c, In c q -> ~ wild c)) ->
  std_glob g s -> glob_match g s = true.
Proof. exact glob_accepts_std. Qed.
Print Assumptions C06_glob_accepts_std.

Theorem C06_glob_is_std_refuted :
  (exists g s, glob_match g s = true /\ ~ std_glob g s) /\
  (exists g s, glob_match g s = false /\ std_glob g s).
Proof. exact glob_not_std. Qed.
Print Assumptions C06_glob_is_std_refuted.

Example C06_case : glob_match $"*.json" $"a.jsonx" = true /\ glob_match $"**" $"a" = false.
Proof. split; reflexivity. Qed.

(** C07. *)
Theorem C07_string_replace : forall str from to,
  (from = [] -> string_replace str from to = str) /\
  ((forall n, ~ occurs_at from str n) -> string_replace str from to = str) /\
  (forall a b, from <> [] -> str = a ++ from ++ b ->
     (forall m, m < length a -> ~ occurs_at from str m) ->
     string_replace str from to = a ++ to ++ b).
Proof. exact string_replace_spec. Qed.
Print Assumptions C07_string_replace.

Example C07_case : string_replace $"x.%p.%p" $"%p" $"12" = $"x.12.%p".
Proof. reflexivity. Qed.

(** C08. *)
Theorem C08_inline_zstring : forall s len, len <= length s ->
  exists z, izs_make s len = Some z /\ length z = 8 /\
            izs_string z = Some (c_str (firstn (Nat.min len 8) s)).
Proof. exact izs_roundtrip. Qed.
Print Assumptions C08_inline_zstring.

(** Without NULs in the copied part, exactly that part is kept. *)
Theorem C08_inline_zstring_exact : forall s len, len <= length s ->
  ~ In NUL (firstn (Nat.min len 8) s) ->
  exists z, izs_make s len = Some z /\ izs_string z = Some (firstn (Nat.min len 8) s).
Proof. exact izs_exact. Qed.
Print Assumptions C08_inline_zstring_exact.

Example C08_case : izs_make $"abcdefghij" 10 = Some $"abcdefgh" /\
  ~ In NUL (firstn (Nat.min 10 8) $"abcdefghij").
Proof. split; [reflexivity|]. cbn. intuition discriminate. Qed.

(** strnlen_s counts the bytes before the first NUL, at most as many as asked for; it
    reads beyond the memory exactly when that has fewer bytes and no NUL. NULL has
    length 0. *)
Theorem C08_strnlen : (forall n, strnlen_s None n = Some 0) /\
  (forall mem n k, strnlen_s (Some mem) n = Some k <->
     k <= n /\ k <= length mem /\ ~ In NUL (firstn k mem) /\ (k = n \/ nth_error mem k = Some NUL)) /\
  (forall mem n, strnlen_s (Some mem) n = None <-> length mem < n /\ ~ In NUL mem).
Proof.
  assert (forall mem n k, strnlen_s (Some mem) n = Some k <->
     k <= n /\ k <= length mem /\ ~ In NUL (firstn k mem) /\ (k = n \/ nth_error mem k = Some NUL)) as K.
  { intros mem n k. cbn [strnlen_s]. rewrite strnlen_loop_iff. split; [intros (j & -> & H); exact H|intros H; exists k; auto]. }
  split; [reflexivity|]. split; [exact K|]. intros mem n. split.
  - intros H. cbn [strnlen_s] in H. clear K. revert H. generalize 0. revert n. induction mem as [|a mem IH]; intros [|n] c; cbn [strnlen_loop]; try discriminate.
    + cbn. intuition lia.
    + destruct (Ascii.eqb a NUL) eqn:E; [discriminate|]. intros H. destruct (IH _ _ H) as (L & N). cbn. split; [lia|]. intros [->|X]; [now rewrite Ascii.eqb_refl in E|auto].
  - intros (L & N). destruct (strnlen_s (Some mem) n) as [k|] eqn:E; [|reflexivity]. apply K in E as (A & B & _ & [->|D]); [lia|].
    destruct N. eapply nth_error_In; eauto.
Qed.
Print Assumptions C08_strnlen.
Example C08_strnlen_case : strnlen_s (Some $"abc") 2 = Some 2 /\ strnlen_s (Some ($"ab" ++ [NUL])) 9 = Some 2 /\ strnlen_s (Some $"ab") 9 = None.
Proof. repeat split. Qed.
