(** C34-C39, C67: configurations. *)
From Verif Require Import Base Spec.Json Spec.Text Spec.Numeral Spec.ConfigText Model.StringUtils Model.Event Model.Queue Model.Buffer
  Model.Config Proofs.Strings Proofs.Numerals Proofs.Registry Proofs.Config.

(** The text consists of acceptable pairs. *)
Definition well_formed (s : bytes) (kvs : list (bytes * bytes)) : Prop :=
  exists args, arguments_of s args /\ Forall2 is_pair args kvs /\ Forall acceptable kvs.

(** The defaults of fromString. *)
Definition defaults : config := {|
  cf_mode := mode_fixed; cf_factory := make_fixed_buffer; cf_size := 8388608;
  cf_callback := None; cf_stop := false; cf_enabled := [$"*"]; cf_disabled := [] |}.

(** C34. *)
Theorem C34_from_string : forall s,
  (forall kvs, well_formed s kvs -> exists c, fromString s = Ok c /\ meant defaults kvs c) /\
  ((~ exists kvs, well_formed s kvs) -> fromString s = Throw InvalidArgument).
Proof.
  intros s. unfold fromString. cbn [config_mode modeToFactory bind].
  change (setCategories _ _ _) with defaults. unfold updateFromString. split.
  - intros kvs (args & A & P & AC). apply split_pieces in A. rewrite A.
    destruct (update_loop_ok args kvs defaults P AC) as (c & -> & M). exists c. split; [reflexivity|exact M].
  - intros N. destruct (update_loop_cases (split_string s (chr 59)) defaults) as [(kvs & P & AC)|H].
    + exfalso. apply N. exists kvs, (split_string s (chr 59)). split; [now apply split_pieces|auto].
    + destruct H as (a1 & bad & a2 & kvs1 & c' & _ & _ & _ & _ & -> & _). reflexivity.
Qed.
Print Assumptions C34_from_string.

(** The meaning determines the configuration. *)
Theorem C34_meaning_unique : forall c kvs c1 c2, Forall acceptable kvs ->
  meant c kvs c1 -> meant c kvs c2 -> c1 = c2.
Proof.
  intros c kvs c1 c2 AC A B.
  assert (forall k, (exists v, last_of k kvs v) \/ absent k kvs) as D.
  { intros k. clear. induction kvs as [|(k', v') kvs IH].
    - right. intros v [].
    - destruct IH as [(v & l1 & l2 & -> & H)|N].
      + left. exists v, ((k', v') :: l1), l2. auto.
      + destruct (list_eq_dec ascii_dec k k') as [<-|E].
        * left. exists v', [], kvs. auto.
        * right. intros v [[= -> _]|H]; [congruence|now apply (N v)]. }
  assert (forall k v, last_of k kvs v -> acceptable (k, v)) as AL.
  { intros k v (l1 & l2 & -> & _). rewrite Forall_forall in AC. apply AC, in_or_app. right. now left. }
  destruct A as [A1 A2 A3 A4 A5 A6 A7 A8 A9 A10 A11], B as [B1 B2 B3 B4 B5 B6 B7 B8 B9 B10 B11].
  assert (cf_mode c1 = cf_mode c2 /\ cf_factory c1 = cf_factory c2) as (E1 & E2).
  { destruct (D $"buffer-mode") as [(v & H)|H].
    - destruct (AL _ _ H) as (P & _). specialize (P eq_refl). cbn [snd] in P. destruct P as [-> | ->].
      + destruct (A1 H) as (-> & ->), (B1 H) as (-> & ->). auto.
      + destruct (A2 H) as (-> & ->), (B2 H) as (-> & ->). auto.
    - destruct (A3 H) as (-> & ->), (B3 H) as (-> & ->). auto. }
  assert (cf_size c1 = cf_size c2) as E3.
  { destruct (D $"buffer-size") as [(v & H)|H].
    - destruct (AL _ _ H) as (_ & S). destruct (S eq_refl) as (z & Hz & _).
      pose proof (A4 v z H Hz). pose proof (B4 v z H Hz). lia.
    - rewrite A5, B5; auto. }
  assert (cf_callback c1 = cf_callback c2 /\ cf_stop c1 = cf_stop c2) as (E4 & E5).
  { destruct (D $"save-on-stop") as [(v & H)|H].
    - destruct (A6 v H) as (-> & ->), (B6 v H) as (-> & ->). auto.
    - destruct (A7 H) as (-> & ->), (B7 H) as (-> & ->). auto. }
  assert (cf_enabled c1 = cf_enabled c2) as E6.
  { destruct (D $"enabled-categories") as [(v & H)|H].
    - eapply pieces_fun; eauto.
    - rewrite A9, B9; auto. }
  assert (cf_disabled c1 = cf_disabled c2) as E7.
  { destruct (D $"disabled-categories") as [(v & H)|H].
    - eapply pieces_fun; eauto.
    - rewrite A11, B11; auto. }
  destruct c1, c2; cbn in *; congruence.
Qed.
Print Assumptions C34_meaning_unique.

Lemma pair_lit arg k v : split_string arg (chr 58) = [k; v] -> is_pair arg (k, v).
Proof. intros H. now apply split_pieces. Qed.

Example C34_case : well_formed $"buffer-mode:ring;buffer-size:64;x:y;buffer-size: +128k;"
    [($"buffer-mode", $"ring"); ($"buffer-size", $"64"); ($"x", $"y"); ($"buffer-size", $" +128k")] /\
  match fromString $"buffer-mode:ring;buffer-size:64;x:y;buffer-size: +128k;" with
  | Ok c => cf_mode c = mode_ring /\ cf_size c = 128%N /\ cf_enabled c = [$"*"]
  | _ => False
  end.
Proof.
  split; [|vm_compute; auto].
  exists [$"buffer-mode:ring"; $"buffer-size:64"; $"x:y"; $"buffer-size: +128k"].
  split; [apply split_pieces; reflexivity|]. split; [repeat (apply Forall2_cons; [apply pair_lit; reflexivity|]); apply Forall2_nil|].
  assert (forall k v, k <> $"buffer-mode" -> k <> $"buffer-size" -> acceptable (k, v)) as O by (split; easy).
  constructor; [split; [auto|discriminate]|].
  constructor; [split; [discriminate|]; intros _; exists 64%Z; split; [|lia]|].
  { exists [], [], $"64", [], 64%N. split; [reflexivity|]. split; [constructor|]. split; [reflexivity|]. split; [discriminate|auto]. }
  constructor; [apply O; discriminate|].
  constructor; [split; [discriminate|]; intros _; exists 128%Z; split; [|lia]|constructor].
  exists $" ", $"+", $"128", $"k", 128%N. split; [reflexivity|]. split; [constructor; [cbn; auto 10|constructor]|].
  split; [reflexivity|]. split; [intros c r [= <- <-]; reflexivity|auto].
Qed.

(** The example of the header file is not accepted: the separator is ';'. *)
Theorem C34_documented_example_refuted :
  fromString $"buffer-mode:fixed,buffer-size:1024" = Throw InvalidArgument.
Proof. reflexivity. Qed.
Print Assumptions C34_documented_example_refuted.

(** C35. A list that can be written and read back. *)
Definition writable (l : list bytes) : Prop :=
  l <> [] /\ last l [] <> [] /\
  forall x c, In x l -> In c x -> c <> chr 44 /\ c <> chr 58 /\ c <> chr 59.

Lemma glue_chars d l c : In c (glue d l) -> c = d \/ exists x, In x l /\ In c x.
Proof.
  induction l as [|x l IH]; [intros []|]. destruct l as [|y l].
  - cbn. intros H. right. exists x. auto.
  - intros H. change (glue d (x :: y :: l)) with (x ++ d :: glue d (y :: l)) in H.
    apply in_app_or in H as [H|[<-|H]]; [right; exists x; split; [now left|exact H]|now left|].
    destruct (IH H) as [-> |(z & Hz & Hc)]; [now left|]. right. exists z. split; [now right|exact Hc].
Qed.

Lemma glue_nonempty d l : l <> [] -> last l [] <> [] -> glue d l <> [] /\ (forall t, glue d l <> t ++ [d]) \/ In d (last l []).
Proof.
  intros H1 H2. destruct (exists_last H1) as (l' & x & ->). rewrite last_last in *.
  destruct (in_dec ascii_dec d x) as [H|H]; [now right|]. left.
  assert (exists p, glue d (l' ++ [x]) = p ++ x) as (p & ->).
  { destruct l' as [|y l']; [now exists []|]. exists (glue d (y :: l') ++ [d]).
    rewrite glue_snoc by discriminate. now rewrite <- app_assoc. }
  destruct (exists_last H2) as (x' & c & ->). split.
  - rewrite app_assoc. intros E. destruct (p ++ x'); discriminate.
  - intros t E. rewrite app_assoc in E. apply app_inj_tail in E as (_ & ->). apply H, in_or_app. right. now left.
Qed.

Lemma pieces_value l : writable l -> pieces_of (chr 44) (glue (chr 44) l) l.
Proof.
  intros (H1 & H2 & H3). split; [exact H1|]. split.
  - intros x Hx Hc. now destruct (H3 x _ Hx Hc).
  - left. split; [reflexivity|]. destruct (glue_nonempty (chr 44) l H1 H2) as [(_ & H)|H]; [exact H|].
    exfalso. destruct (exists_last H1) as (l' & x & ->). rewrite last_last in H.
    destruct (H3 x (chr 44)) as (N & _); auto. apply in_or_app. right. now left.
Qed.

Lemma value_ok l : writable l -> let v := glue (chr 44) l in
  v <> [] /\ ~ In (chr 58) v /\ ~ In (chr 59) v.
Proof.
  intros (H1 & H2 & H3) v. split; [|split].
  - destruct (glue_nonempty (chr 44) l H1 H2) as [(H & _)|H]; [exact H|].
    exfalso. destruct (exists_last H1) as (l' & x & ->). rewrite last_last in H.
    destruct (H3 x (chr 44)) as (N & _); auto. apply in_or_app. right. now left.
  - intros [E|(x & Hx & Hc)]%glue_chars; [discriminate|]. now destruct (H3 x _ Hx Hc) as (_ & ? & _).
  - intros [E|(x & Hx & Hc)]%glue_chars; [discriminate|]. now destruct (H3 x _ Hx Hc) as (_ & _ & ?).
Qed.

(** "key:value" is that pair. *)
Lemma is_pair_kv k v : ~ In (chr 58) k -> ~ In (chr 58) v -> v <> [] -> is_pair (k ++ chr 58 :: v) (k, v).
Proof.
  intros Hk Hv Ne. split; [discriminate|]. split.
  - intros x [<-|[<-|[]]]; assumption.
  - left. split; [reflexivity|]. intros t E. destruct (exists_last Ne) as (v' & c & ->).
    change (k ++ chr 58 :: v' ++ [c]) with (k ++ (chr 58 :: v') ++ [c]) in E. rewrite app_assoc in E.
    apply app_inj_tail in E as (_ & ->). apply Hv, in_or_app. right. now left.
Qed.

Lemma no_semi_kv k v : ~ In (chr 59) k -> ~ In (chr 59) v -> ~ In (chr 59) (k ++ chr 58 :: v).
Proof. intros Hk Hv [H|[H|H]]%in_app_or; [contradiction|discriminate|contradiction]. Qed.

Lemma dec_not n c : ~ (48 <= code c <= 57)%N -> ~ In c (dec n).
Proof. intros H Hc. apply dec_digits, digit10_code in Hc. lia. Qed.

Lemma starts_int_dec_num n : starts_int (dec n) (Z.of_N n).
Proof.
  exists [], [], (dec n), [], n. rewrite app_nil_r. split; [reflexivity|]. split; [constructor|].
  split; [apply dec_value|]. split; [discriminate|auto].
Qed.

Theorem C35_round_trip : forall c, (cf_mode c = mode_fixed \/ cf_mode c = mode_ring) ->
  (cf_size c < 2 ^ 31)%N -> writable (cf_enabled c) -> writable (cf_disabled c) ->
  exists s c', toString c = Ok s /\ fromString s = Ok c' /\
    cf_mode c' = cf_mode c /\ cf_size c' = cf_size c /\
    cf_enabled c' = cf_enabled c /\ cf_disabled c' = cf_disabled c.
Proof.
  intros c M S WE WD.
  assert (exists m, mode_to_string (cf_mode c) = Ok m /\ (m = $"fixed" \/ m = $"ring") /\
    (m = $"fixed" <-> cf_mode c = mode_fixed)) as (m & Em & Hm & Hmf).
  { destruct M as [-> | ->]; eexists; (split; [reflexivity|]); (split; [auto|]); split; try reflexivity; discriminate. }
  pose (kvs := [($"buffer-mode", m); ($"buffer-size", dec (cf_size c));
                ($"enabled-categories", glue (chr 44) (cf_enabled c));
                ($"disabled-categories", glue (chr 44) (cf_disabled c))]).
  pose (args := map (fun kv : bytes * bytes => fst kv ++ chr 58 :: snd kv) kvs).
  unfold toString. rewrite Em. cbn [bind]. rewrite !join_string_glue. eexists.
  destruct (value_ok _ WE) as (E1 & E2 & E3), (value_ok _ WD) as (D1 & D2 & D3).
  assert (m <> [] /\ ~ In (chr 58) m /\ ~ In (chr 59) m) as (M1 & M2 & M3).
  { destruct Hm as [-> | ->]; (split; [discriminate|]); split; cbn; intuition discriminate. }
  match goal with |- exists _, Ok ?s = _ /\ _ => assert (well_formed s kvs) as W end.
  { exists args. split; [|split].
    - split; [discriminate|]. split.
      + intros x [<-|[<-|[<-|[<-|[]]]]]; cbn [fst snd]; apply no_semi_kv; auto;
          try (cbn; intuition discriminate). apply dec_not. cbn. lia.
      + left. split.
        * unfold args, kvs. cbn [map fst snd glue]. repeat (rewrite <- app_assoc || cbn [app]). reflexivity.
        * intros t E. destruct (exists_last D1) as (v' & x & Ev). rewrite Ev in E.
          rewrite !app_assoc in E. apply app_inj_tail in E as (_ & ->). apply D3. rewrite Ev. apply in_or_app. right. now left.
    - unfold args, kvs. cbn [map fst snd]. repeat (apply Forall2_cons || apply Forall2_nil); apply is_pair_kv; auto; try (cbn; intuition discriminate).
      + apply dec_not. cbn. lia.
      + apply dec_ne.
    - unfold kvs. constructor; [split; cbn [fst snd]; [auto|discriminate]|].
      constructor; [split; cbn [fst snd]; [discriminate|]; intros _; exists (Z.of_N (cf_size c)); split; [apply starts_int_dec_num|lia]|].
      constructor; [split; discriminate|]. constructor; [split; discriminate|constructor]. }
  match goal with |- exists _, Ok ?s = _ /\ _ => destruct (C34_from_string s) as (F & _) end.
  destruct (F kvs W) as (c' & -> & MT). exists c'. split; [reflexivity|]. split; [reflexivity|].
  assert (forall k v l1 l2, kvs = l1 ++ (k, v) :: l2 -> (forall x, In x (map fst l2) -> x <> k) -> last_of k kvs v) as LO.
  { intros k v l1 l2 E N. exists l1, l2. split; [exact E|]. intros v' Hv. apply (N k); [|reflexivity].
    apply in_map_iff. exists (k, v'). auto. }
  destruct MT as [A1 A2 A3 A4 A5 A6 A7 A8 A9 A10 A11].
  split; [|split; [|split]].
  - destruct Hm as [-> | ->].
    + destruct A1 as (-> & _); [|symmetry; now apply Hmf].
      apply LO with (l1 := []) (l2 := tl kvs); [reflexivity|]. cbn. intros x [<-|[<-|[<-|[]]]]; discriminate.
    + destruct A2 as (-> & _); [|destruct M as [M'|M']; [apply Hmf in M'; discriminate|now symmetry]].
      apply LO with (l1 := []) (l2 := tl kvs); [reflexivity|]. cbn. intros x [<-|[<-|[<-|[]]]]; discriminate.
  - apply N2Z.inj. apply (A4 (dec (cf_size c))); [|apply starts_int_dec_num].
    apply LO with (l1 := firstn 1 kvs) (l2 := skipn 2 kvs); [reflexivity|]. cbn. intros x [<-|[<-|[]]]; discriminate.
  - eapply pieces_fun; [|apply pieces_value; exact WE]. apply A8.
    apply LO with (l1 := firstn 2 kvs) (l2 := skipn 3 kvs); [reflexivity|]. cbn. intros x [<-|[]]; discriminate.
  - eapply pieces_fun; [|apply pieces_value; exact WD]. apply A10.
    apply LO with (l1 := firstn 3 kvs) (l2 := skipn 4 kvs); [reflexivity|]. intros x [].
Qed.
Print Assumptions C35_round_trip.

Example C35_case : let c := setCategories defaults [$"*"; $"a"] [$"x"; []; $"y"] in
  writable (cf_enabled c) /\ writable (cf_disabled c) /\
  toString c = Ok $"buffer-mode:fixed;buffer-size:8388608;enabled-categories:*,a;disabled-categories:x,,y".
Proof.
  cbn [setCategories cf_enabled cf_disabled]. split; [|split; [|vm_compute; reflexivity]].
  all: split; [discriminate|]; split; [discriminate|]; intros x c Hx Hc; cbn in Hx;
    repeat destruct Hx as [<-|Hx]; cbn in Hc; repeat destruct Hc as [<-|Hc]; try contradiction; repeat split; discriminate.
Qed.

(** No configuration without disabled categories can be read back; in particular
    not the default of fromString itself. *)
Theorem C35_empty_list : forall c s, cf_disabled c = [] -> toString c = Ok s -> fromString s = Throw InvalidArgument.
Proof.
  intros c s D T. unfold toString in T. destruct (mode_to_string (cf_mode c)) as [m| |] eqn:Em; cbn [bind] in T; try discriminate.
  rewrite !join_string_glue, D in T. change (glue (chr 44) []) with (@nil ascii) in T. rewrite app_nil_r in T.
  set (last_arg := $"disabled-categories:") in *.
  assert (exists a', s = (a' ++ [chr 59]) ++ last_arg) as (a' & E).
  { exists ($"buffer-mode:" ++ m ++ $";" ++ $"buffer-size:" ++ dec (cf_size c) ++ $";" ++ $"enabled-categories:"
            ++ glue (chr 44) (cf_enabled c)).
    transitivity ($"buffer-mode:" ++ m ++ $";" ++ $"buffer-size:" ++ dec (cf_size c) ++ $";" ++ $"enabled-categories:"
            ++ glue (chr 44) (cf_enabled c) ++ $";" ++ last_arg); [congruence|].
    rewrite <- !app_assoc. reflexivity. }
  apply C34_from_string. intros (kvs & args & A & P & _).
  assert (In last_arg args) as I.
  { apply split_pieces in A. subst args. apply split_piece. split.
    - cbn. intuition discriminate.
    - exists (a' ++ [chr 59]), []. rewrite app_nil_r. split; [exact E|]. split; [right; eauto|]. split; [now left|].
      intros (H & _). discriminate. }
  apply In_nth_error in I as (n & Hn). clear -P Hn.
  revert n Hn. induction P as [|a kv args kvs P PS IH]; intros [|n] Hn; try discriminate.
  - injection Hn as ->. apply split_pieces in P. discriminate.
  - eauto.
Qed.
Print Assumptions C35_empty_list.

Theorem C35_default_refuted : exists c s, fromString $"buffer-mode:fixed" = Ok c /\ toString c = Ok s /\
  fromString s = Throw InvalidArgument.
Proof. do 2 eexists. split; [reflexivity|]. split; [reflexivity|]. vm_compute. reflexivity. Qed.
Print Assumptions C35_default_refuted.

(** A custom configuration cannot be read back either, and sizes from 2^31 on
    are rejected. *)
Theorem C35_others_refuted :
  (exists c s, writable (cf_enabled c) /\ writable (cf_disabled c) /\ cf_mode c = mode_custom /\
     toString c = Ok s /\ fromString s = Throw InvalidArgument) /\
  (exists c s, writable (cf_enabled c) /\ writable (cf_disabled c) /\ cf_mode c = mode_fixed /\
     cf_size c = (2 ^ 31)%N /\ toString c = Ok s /\ fromString s = Throw InvalidArgument).
Proof.
  assert (writable [$"*"]) as W.
  { split; [discriminate|]. split; [discriminate|]. intros x c [<-|[]] [<-|[]]. repeat split; discriminate. }
  split.
  - exists (setCategories (config_factory (user_factory 1) 10) [$"*"] [$"*"]). eexists.
    split; [exact W|]. split; [exact W|]. split; [reflexivity|]. split; [reflexivity|]. vm_compute. reflexivity.
  - exists (set_size (setCategories defaults [$"*"] [$"*"]) (2 ^ 31)). eexists.
    split; [exact W|]. split; [exact W|]. split; [reflexivity|]. split; [reflexivity|]. split; [reflexivity|]. vm_compute. reflexivity.
Qed.
Print Assumptions C35_others_refuted.

(** C36: the value of buffer-size, through fromString. *)
Theorem C36_buffer_size : forall v, v <> [] -> ~ In (chr 58) v -> ~ In (chr 59) v ->
  (forall z, starts_int v z -> (0 <= z < 2 ^ 31)%Z ->
     exists c, fromString ($"buffer-size:" ++ v) = Ok c /\ Z.of_N (cf_size c) = z) /\
  ((forall z, starts_int v z -> ~ (0 <= z < 2 ^ 31)%Z) ->
     fromString ($"buffer-size:" ++ v) = Throw InvalidArgument).
Proof.
  intros v N1 N2 N3.
  assert (arguments_of ($"buffer-size:" ++ v) [$"buffer-size:" ++ v]) as AR.
  { split; [discriminate|]. split.
    - intros x [<-|[]]. apply (no_semi_kv $"buffer-size" v); [cbn; intuition discriminate|exact N3].
    - left. split; [reflexivity|]. intros t E. destruct (exists_last N1) as (v' & x & ->). rewrite app_assoc in E.
      apply app_inj_tail in E as (_ & ->). apply N3, in_or_app. right. now left. }
  assert (is_pair ($"buffer-size:" ++ v) ($"buffer-size", v)) as P.
  { apply (is_pair_kv $"buffer-size" v); auto. cbn; intuition discriminate. }
  destruct (C34_from_string ($"buffer-size:" ++ v)) as (F1 & F2). split.
  - intros z Hz B. destruct (F1 [($"buffer-size", v)]) as (c & E & M).
    { exists [$"buffer-size:" ++ v]. split; [exact AR|]. split; [constructor; [exact P|constructor]|].
      constructor; [|constructor]. split; [discriminate|]. intros _. exists z. auto. }
    exists c. split; [exact E|]. apply (mt_size _ _ _ M v); [|exact Hz]. exists [], []. split; [reflexivity|]. intros v' [].
  - intros H. apply F2. intros (kvs & args & A & P' & AC).
    pose proof (pieces_fun _ _ _ _ AR A) as <-. inversion P' as [|? (k, v') ? ? P1 P2]; subst. inversion P2; subst.
    pose proof (pieces_fun _ _ _ _ P P1) as E. injection E as <- <-.
    inversion AC as [|? ? (_ & A1) _]; subst. destruct (A1 eq_refl) as (z & Hz & B). now apply (H z).
Qed.
Print Assumptions C36_buffer_size.

(** A text starts with at most one integer. *)
Theorem C36_value_unique : forall s z z', starts_int s z -> starts_int s z' -> z = z'.
Proof. exact starts_int_fun. Qed.
Print Assumptions C36_value_unique.

Example C36_case : starts_int $" 	+0012xyz" 12 /\ starts_int $"-3" (-3) /\
  (exists c, fromString $"buffer-size: 	+0012xyz" = Ok c /\ cf_size c = 12%N) /\
  fromString $"buffer-size:-3" = Throw InvalidArgument /\
  fromString $"buffer-size:2147483648" = Throw InvalidArgument.
Proof.
  split; [|split; [|split; [eexists; split; [vm_compute; reflexivity|reflexivity]|split; vm_compute; reflexivity]]].
  - exists $" 	", $"+", $"0012", $"xyz", 12%N. split; [reflexivity|].
    split; [constructor; [cbn; auto 10|constructor; [cbn; auto 10|constructor]]|]. split; [reflexivity|]. split; [intros c r [= <- <-]; reflexivity|auto].
  - exists [], $"-", $"3", [], 3%N. split; [reflexivity|]. split; [constructor|]. split; [reflexivity|]. split; [discriminate|auto].
Qed.

(** C37: exactly the pairs before the offending argument have taken effect. *)
Theorem C37_update : forall c s c' r, updateFromString c s = (c', r) ->
  (exists args kvs, arguments_of s args /\ Forall2 is_pair args kvs /\ Forall acceptable kvs /\
     r = Ok tt /\ meant c kvs c') \/
  (exists before bad after kvs, arguments_of s (before ++ bad :: after) /\
     Forall2 is_pair before kvs /\ Forall acceptable kvs /\
     ~ (exists kv, is_pair bad kv /\ acceptable kv) /\
     r = Throw InvalidArgument /\ meant c kvs c').
Proof.
  intros c s c' r E. unfold updateFromString in E.
  destruct (update_loop_cases (split_string s (chr 59)) c) as [(kvs & P & A)|(a1 & bad & a2 & kvs1 & c1 & Ea & P1 & A1 & NB & E' & M)].
  - left. destruct (update_loop_ok _ kvs c P A) as (c1 & E' & M). rewrite E in E'. injection E' as -> ->.
    exists (split_string s (chr 59)), kvs. split; [now apply split_pieces|auto].
  - right. rewrite E in E'. injection E' as -> ->. exists a1, bad, a2, kvs1. split; [now apply split_pieces|].
    repeat (split; [assumption|]). auto.
Qed.
Print Assumptions C37_update.

(** So a failed update may have changed the object. *)
Theorem C37_atomic_refuted : exists c s c', updateFromString c s = (c', Throw InvalidArgument) /\ c' <> c.
Proof.
  exists defaults, $"buffer-size:5;nonsense". eexists. split; [vm_compute; reflexivity|].
  intros E. apply (f_equal cf_size) in E. discriminate.
Qed.
Print Assumptions C37_atomic_refuted.

Example C37_case : exists c', updateFromString defaults $"buffer-size:5;nonsense;buffer-mode:ring" = (c', Throw InvalidArgument) /\
  cf_size c' = 5%N /\ cf_mode c' = mode_fixed.
Proof. eexists. split; [vm_compute; reflexivity|auto]. Qed.

(** C38: the ways to obtain a configuration and to change it. *)
Inductive origin := FromDefault | FromMode (m : bmode) (n : N) | FromFactory (f : factory) (n : N) | FromText (s : bytes).
Inductive change := SetCallback (cb : option callback) | SetStop (b : bool)
  | SetCategories (e d : list bytes) | UpdateText (s : bytes).

Definition create (o : origin) : res config :=
  match o with
  | FromDefault => Ok config_default
  | FromMode m n => config_mode m n
  | FromFactory f n => Ok (config_factory f n)
  | FromText s => fromString s
  end.
Definition apply_change (c : config) (ch : change) : config :=
  match ch with
  | SetCallback cb => setStoppedCallback c cb
  | SetStop b => setStopTracingOnDestruct c b
  | SetCategories e d => setCategories c e d
  | UpdateText s => fst (updateFromString c s)
  end.

(** The name a buffer made by a built-in factory reports in its stats. *)
Definition reported_name (mem : N -> chunk) (f : factory) (gen n : N) : option bytes :=
  match f with
  | make_fixed_buffer => Some (st_name (fixed_stats (fixed_new mem gen n)))
  | make_ring_buffer => Some (st_name (ring_stats (ring_new mem gen n)))
  | user_factory _ => None
  end.

Definition agrees (o : origin) (c : config) : Prop :=
  match cf_mode c with
  | mode_fixed => cf_factory c = make_fixed_buffer
  | mode_ring => cf_factory c = make_ring_buffer
  | mode_custom => exists n, o = FromFactory (cf_factory c) n
  | mode_invalid => False
  end.

Lemma agrees_meant o c kvs c' : Forall acceptable kvs -> meant c kvs c' -> agrees o c -> agrees o c'.
Proof.
  intros AC M A. unfold agrees in *.
  assert (forall k, (exists v, last_of k kvs v) \/ absent k kvs) as D.
  { intros k. clear. induction kvs as [|(k', v') kvs IH].
    - right. intros v [].
    - destruct IH as [(v & l1 & l2 & -> & H)|N].
      + left. exists v, ((k', v') :: l1), l2. auto.
      + destruct (list_eq_dec ascii_dec k k') as [<-|E].
        * left. exists v', [], kvs. auto.
        * right. intros v [[= -> _]|H]; [congruence|now apply (N v)]. }
  destruct (D $"buffer-mode") as [(v & H)|H].
  - assert (acceptable ($"buffer-mode", v)) as (P & _).
    { destruct H as (l1 & l2 & -> & _). rewrite Forall_forall in AC. apply AC, in_or_app. right. now left. }
    specialize (P eq_refl). cbn [snd] in P. destruct P as [-> | ->].
    + destruct (mt_fixed _ _ _ M H) as (-> & ->). reflexivity.
    + destruct (mt_ring _ _ _ M H) as (-> & ->). reflexivity.
  - destruct (mt_nomode _ _ _ M H) as (-> & ->). exact A.
Qed.

Theorem C38_mode_factory : forall o chs c0, create o = Ok c0 ->
  let c := fold_left apply_change chs c0 in
  (cf_mode c = mode_fixed -> forall mem gen n, reported_name mem (cf_factory c) gen n = Some $"FixedTraceBuffer") /\
  (cf_mode c = mode_ring -> forall mem gen n, reported_name mem (cf_factory c) gen n = Some $"RingTraceBuffer") /\
  (cf_mode c = mode_custom -> exists n, o = FromFactory (cf_factory c) n) /\
  cf_mode c <> mode_invalid /\
  (forall f n, o = FromFactory f n -> (forall s, ~ In (UpdateText s) chs) -> cf_mode c = mode_custom /\ cf_factory c = f).
Proof.
  intros o chs c0 E.
  assert (agrees o c0) as A0.
  { destruct o as [|m n|f n|s]; cbn [create] in E.
    - injection E as <-. reflexivity.
    - destruct m; try discriminate; injection E as <-; reflexivity.
    - injection E as <-. cbn. eauto.
    - destruct (C34_from_string s) as (F1 & F2).
      unfold fromString in E. cbn [config_mode modeToFactory bind] in E. change (setCategories _ _ _) with defaults in E.
      destruct (updateFromString defaults s) as [c' r] eqn:U.
      destruct (C37_update _ _ _ _ U) as [(args & kvs & _ & _ & AC & -> & M)|(b & bad & a & kvs & _ & _ & _ & _ & -> & _)];
        cbn [bind] in E; [|discriminate]. injection E as <-. eapply agrees_meant; [exact AC|exact M|reflexivity]. }
  assert (agrees o (fold_left apply_change chs c0)) as A.
  { clear E. revert c0 A0. induction chs as [|ch chs IH]; intros c0 A0; [exact A0|]. cbn [fold_left]. apply IH.
    destruct ch as [cb|b|e d|s]; cbn [apply_change]; try exact A0.
    destruct (updateFromString c0 s) as [c' r] eqn:U. cbn [fst].
    destruct (C37_update _ _ _ _ U) as [(args & kvs & _ & _ & AC & _ & M)|(b & bad & a & kvs & _ & _ & AC & _ & _ & M)];
      eapply agrees_meant; eauto. }
  intros c. fold c in A. unfold agrees in A. split; [|split; [|split; [|split]]].
  - intros H. rewrite H in A. rewrite A. reflexivity.
  - intros H. rewrite H in A. rewrite A. reflexivity.
  - intros H. rewrite H in A. exact A.
  - intros H. rewrite H in A. exact A.
  - intros f n -> NT. cbn in E. injection E as <-. subst c. clear A A0.
    assert (forall c, cf_mode c = mode_custom /\ cf_factory c = f -> cf_mode (fold_left apply_change chs c) = mode_custom /\ cf_factory (fold_left apply_change chs c) = f) as IH.
    { induction chs as [|ch chs IH]; intros c Hc; [exact Hc|]. cbn [fold_left]. apply IH.
      - intros s Hs. apply (NT s). now right.
      - destruct ch as [cb|b|e d|s]; try exact Hc. exfalso. apply (NT s). now left. }
    apply IH. auto.
Qed.
Print Assumptions C38_mode_factory.

Example C38_case : exists c0, create (FromFactory (user_factory 4) 10) = Ok c0 /\
  cf_mode (fold_left apply_change [SetStop true] c0) = mode_custom /\
  cf_mode (fold_left apply_change [SetStop true; UpdateText $"buffer-mode:ring;junk"] c0) = mode_ring.
Proof. eexists. split; [reflexivity|]. split; vm_compute; reflexivity. Qed.

(** C38: every other setting is the one set last, and the original one until it
    is set. *)
Definition latest {A} (sets : change -> option A) (chs : list change) (original v : A) : Prop :=
  (exists before ch after, chs = before ++ ch :: after /\ sets ch = Some v /\ forall x, In x after -> sets x = None) \/
  (v = original /\ forall x, In x chs -> sets x = None).
Definition sets_callback (ch : change) := match ch with SetCallback cb => Some cb | _ => None end.
Definition sets_stop (ch : change) := match ch with SetStop b => Some b | _ => None end.
Definition sets_categories (ch : change) := match ch with SetCategories e d => Some (e, d) | _ => None end.

Lemma latest_fold {A} (sets : change -> option A) (get : config -> A) :
  (forall c ch, (forall s, ch <> UpdateText s) -> get (apply_change c ch) = match sets ch with Some v => v | None => get c end) ->
  forall chs c, (forall s, ~ In (UpdateText s) chs) -> latest sets chs (get c) (get (fold_left apply_change chs c)).
Proof.
  intros H chs. induction chs as [|ch r IH] using rev_ind; intros c NT; [right; split; [reflexivity|intros x []]|].
  rewrite fold_left_app. cbn [fold_left]. assert (NT' : forall s, ~ In (UpdateText s) r) by (intros s I; apply (NT s), in_or_app; now left).
  specialize (IH c NT'). rewrite H by (intros s ->; apply (NT s), in_or_app; right; now left). destruct (sets ch) as [v|] eqn:E.
  - left. exists r, ch, []. split; [reflexivity|]. split; [exact E|intros x []].
  - destruct IH as [(b & x & a & -> & Ex & N)|[Eo N]].
    + left. exists b, x, (a ++ [ch]). split; [now rewrite <- app_assoc|]. split; [exact Ex|]. intros y I. apply in_app_iff in I as [I|[<-|[]]]; auto.
    + right. split; [exact Eo|]. intros y I. apply in_app_iff in I as [I|[<-|[]]]; auto.
Qed.

Theorem C38_settings : forall o c0 chs, create o = Ok c0 -> (forall s, ~ In (UpdateText s) chs) ->
  let c := fold_left apply_change chs c0 in
  (cf_mode c = cf_mode c0 /\ cf_factory c = cf_factory c0 /\ cf_size c = cf_size c0) /\
  latest sets_callback chs (cf_callback c0) (cf_callback c) /\
  latest sets_stop chs (cf_stop c0) (cf_stop c) /\
  latest sets_categories chs (cf_enabled c0, cf_disabled c0) (cf_enabled c, cf_disabled c) /\
  (cf_callback c0 = None \/ exists s, o = FromText s) /\ (cf_stop c0 = false \/ exists s, o = FromText s) /\
  match o with
  | FromDefault => cf_mode c0 = mode_fixed /\ cf_size c0 = 0%N /\ cf_enabled c0 = [] /\ cf_disabled c0 = []
  | FromMode m n => cf_mode c0 = m /\ cf_size c0 = n /\ cf_enabled c0 = [$"*"] /\ cf_disabled c0 = []
  | FromFactory f n => cf_factory c0 = f /\ cf_size c0 = n /\ cf_enabled c0 = [$"*"] /\ cf_disabled c0 = []
  | FromText _ => True
  end.
Proof.
  intros o c0 chs E NT. cbn zeta. split; [|split; [|split; [|split; [|split; [|split]]]]].
  - clear E. revert c0 NT. induction chs as [|ch r IH]; intros c0 NT; [auto|]. cbn [fold_left].
    destruct (IH (apply_change c0 ch)) as (-> & -> & ->); [intros s I; apply (NT s); now right|].
    destruct ch as [cb|b|e d|s]; auto. elim (NT s). now left.
  - apply (latest_fold sets_callback cf_callback); [|exact NT]. intros c [cb|b|e d|s] N; auto. now elim (N s).
  - apply (latest_fold sets_stop cf_stop); [|exact NT]. intros c [cb|b|e d|s] N; auto. now elim (N s).
  - apply (latest_fold sets_categories (fun c => (cf_enabled c, cf_disabled c))); [|exact NT]. intros c [cb|b|e d|s] N; auto. now elim (N s).
  - destruct o as [|m n|f n|s]; cbn [create] in E; eauto; [|destruct m; try discriminate|]; injection E as <-; auto.
  - destruct o as [|m n|f n|s]; cbn [create] in E; eauto; [|destruct m; try discriminate|]; injection E as <-; auto.
  - destruct o as [|m n|f n|s]; cbn [create] in E; auto; [|destruct m; try discriminate|]; injection E as <-; auto.
Qed.
Print Assumptions C38_settings.

Example C38_settings_case : exists c0, create (FromMode mode_ring 10) = Ok c0 /\
  let c := fold_left apply_change [SetStop true; SetCallback (Some (user_callback 1)); SetCategories [$"a"] [$"b"]; SetStop false] c0 in
  cf_stop c = false /\ cf_callback c = Some (user_callback 1) /\ cf_enabled c = [$"a"] /\ cf_disabled c = [$"b"] /\ cf_size c = 10%N.
Proof. eexists. split; [reflexivity|]. vm_compute. auto. Qed.

(** The custom mode cannot be requested by name. *)
Theorem C38_custom_mode : forall n, config_mode mode_custom n = Throw InvalidArgument /\
  config_mode mode_invalid n = Throw InvalidArgument.
Proof. split; reflexivity. Qed.
Print Assumptions C38_custom_mode.

(** C39. *)
Theorem C39_mode_names : forall m s,
  (m <> mode_invalid -> exists t, mode_to_string m = Ok t /\ parseBufferMode t = Ok m) /\
  (parseBufferMode s = Ok m -> mode_to_string m = Ok s) /\
  ((forall m', mode_to_string m' <> Ok s) -> parseBufferMode s = Throw InvalidArgument) /\
  mode_to_string mode_invalid = Throw InvalidArgument.
Proof.
  intros m s. split; [|split; [|split; [|reflexivity]]].
  - intros H. destruct m; try congruence; eexists; split; reflexivity.
  - unfold parseBufferMode.
    destruct (bytes_eqb s $"custom") eqn:E1; [apply bytes_eqb_eq in E1; subst; now intros [= <-]|].
    destruct (bytes_eqb s $"fixed") eqn:E2; [apply bytes_eqb_eq in E2; subst; now intros [= <-]|].
    destruct (bytes_eqb s $"ring") eqn:E3; [apply bytes_eqb_eq in E3; subst; now intros [= <-]|discriminate].
  - intros H. unfold parseBufferMode.
    destruct (bytes_eqb s $"custom") eqn:E1; [apply bytes_eqb_eq in E1; subst; now destruct (H mode_custom)|].
    destruct (bytes_eqb s $"fixed") eqn:E2; [apply bytes_eqb_eq in E2; subst; now destruct (H mode_fixed)|].
    destruct (bytes_eqb s $"ring") eqn:E3; [apply bytes_eqb_eq in E3; subst; now destruct (H mode_ring)|reflexivity].
Qed.
Print Assumptions C39_mode_names.

(** The documentation promises case-insensitive parsing. *)
Theorem C39_any_case_refuted : parseBufferMode $"Ring" = Throw InvalidArgument /\ parseBufferMode $"ring" = Ok mode_ring.
Proof. split; reflexivity. Qed.
Print Assumptions C39_any_case_refuted.

Example C39_case : parseBufferMode $"fixed" = Ok mode_fixed.
Proof. reflexivity. Qed.

(** C67: the startup trace taken from PHOSPHOR_TRACING_START. *)
Theorem C67_environment : forall l,
  fromEnvironment l None = Ok l /\
  (forall v, c_str v = [] -> fromEnvironment l (Some v) = Ok l) /\
  (forall v kvs, c_str v <> [] -> well_formed (c_str v) kvs ->
     exists c, fromEnvironment l (Some v) = Ok (Some c) /\ meant defaults kvs c) /\
  (forall v, c_str v <> [] -> (~ exists kvs, well_formed (c_str v) kvs) ->
     fromEnvironment l (Some v) = Throw InvalidArgument).
Proof.
  intros l. split; [reflexivity|]. split; [|split].
  - intros v E. cbn [fromEnvironment]. now rewrite E.
  - intros v kvs N W. cbn [fromEnvironment]. destruct (C34_from_string (c_str v)) as (F & _).
    destruct (F kvs W) as (c & -> & M).
    destruct (c_str v); [congruence|]. exists c. auto.
  - intros v N W. cbn [fromEnvironment]. destruct (C34_from_string (c_str v)) as (_ & F). rewrite (F W).
    destruct (c_str v); [congruence|reflexivity].
Qed.
Print Assumptions C67_environment.

(** The last call that sets or clears the startup trace decides; one that reads the
    environment counts if the variable holds a well-formed text. *)
Definition no_say (o : setup_call) : Prop :=
  match o with
  | FromEnvironment (Some v) => c_str v = [] \/ ~ exists kvs, well_formed (c_str v) kvs
  | FromEnvironment None => True
  | _ => False
  end.
Theorem C67_last_decides : forall before o after, (forall x, In x after -> no_say x) ->
  match o with
  | SetTrace c => getStartupTrace (before ++ o :: after) = Some c
  | ClearTrace => getStartupTrace (before ++ o :: after) = None
  | FromEnvironment (Some v) => forall kvs, c_str v <> [] -> well_formed (c_str v) kvs ->
      exists c, getStartupTrace (before ++ o :: after) = Some c /\ meant defaults kvs c
  | FromEnvironment None => True
  end.
Proof.
  intros before o after N. assert (K : forall l, fold_left setup_one after l = l).
  { induction after as [|x r IH]; intros l; auto. cbn [fold_left]. replace (setup_one l x) with l; [apply IH; intros; apply N; now right|].
    specialize (N x (or_introl eq_refl)). destruct x as [c| |[v|]]; try easy. cbn [setup_one]. destruct (C67_environment l) as (_ & E1 & _ & E2). destruct N as [N|N].
    - now rewrite (E1 v N).
    - destruct (c_str v) as [|b w] eqn:Ev; [now rewrite (E1 v Ev)|]. rewrite (E2 v); rewrite ?Ev; auto; discriminate. }
  unfold getStartupTrace. rewrite fold_left_app. cbn [fold_left]. rewrite K. destruct o as [c| |[v|]]; auto.
  intros kvs Nv W. cbn [setup_one]. destruct (C67_environment (fold_left setup_one before None)) as (_ & _ & E & _).
  destruct (E v kvs Nv W) as (c & -> & M). eauto.
Qed.
Print Assumptions C67_last_decides.
Theorem C67_nothing_set : forall calls, (forall x, In x calls -> no_say x \/ x = ClearTrace) -> getStartupTrace calls = None.
Proof.
  intros calls. induction calls as [|x calls IH] using rev_ind; intros N; auto.
  unfold getStartupTrace in *. rewrite fold_left_app, IH by (intros y Hy; apply N, in_or_app; auto). cbn [fold_left].
  destruct (N x) as [K| ->]; [apply in_or_app; right; now left| |reflexivity].
  destruct x as [c| |[v|]]; try easy. cbn [setup_one]. destruct (C67_environment None) as (_ & E1 & _ & E2). destruct K as [K|K].
  - now rewrite (E1 v K).
  - destruct (c_str v) as [|b w] eqn:Ev; [now rewrite (E1 v Ev)|]. rewrite (E2 v); rewrite ?Ev; auto; discriminate.
Qed.
Print Assumptions C67_nothing_set.

Example C67_case : exists c, fromEnvironment None (Some $"buffer-mode:ring;save-on-stop:/tmp/x.json") = Ok (Some c) /\
  cf_mode c = mode_ring /\ cf_callback c = Some (FileStop $"/tmp/x.json") /\ cf_stop c = true.
Proof. eexists. split; [vm_compute; reflexivity|]. auto. Qed.
Example C67_calls_case : exists c, getStartupTrace [FromEnvironment (Some $"buffer-mode:ring"); ClearTrace; FromEnvironment (Some $"buffer-mode:fixed"); FromEnvironment (Some $"x")] = Some c /\ cf_mode c = mode_fixed.
Proof. eexists. split; [vm_compute; reflexivity|]. auto. Qed.
