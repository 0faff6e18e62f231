(** Configuration texts. *)
From Verif Require Import Base Spec.Text Spec.Numeral Spec.ConfigText Model.StringUtils Model.Event Model.Queue Model.Buffer
  Model.Config Proofs.Strings Proofs.Numerals Proofs.Registry.

(** * Splitting *)

Lemma split_pieces d s l : split_string s d = l <-> pieces_of d s l.
Proof.
  split; [intros <-; exact (split_string_spec s d)|].
  intros (Hne & Hd & [(-> & H)| ->]).
  - rewrite <- join_string_glue. apply split_join; auto.
    destruct (exists_last Hne) as (l' & x & ->).
    rewrite last_last. destruct x; [|left; discriminate]. right.
    destruct l' as [|y l'']; [reflexivity|]. exfalso.
    apply (H (glue d (y :: l''))). now rewrite glue_snoc by discriminate.
  - destruct (split_join_lossy l d Hd Hne) as [E|E].
    + rewrite join_string_glue, glue_snoc in E by exact Hne. exact E.
    + subst l. cbn. unfold split_string. cbn. now rewrite Ascii.eqb_refl.
Qed.

Lemma pieces_fun d s l l' : pieces_of d s l -> pieces_of d s l' -> l = l'.
Proof. intros H H'. apply split_pieces in H, H'. congruence. Qed.

(** * Numbers *)

Lemma is_blank_spec c : is_blank c = true <-> blank c.
Proof.
  unfold is_blank, blank. set (n := N_of_ascii c). clearbody n. cbn [In].
  rewrite orb_true_iff, andb_true_iff, N.eqb_eq, !N.leb_le. split.
  - intros [H|H]; [lia|]. lia.
  - intros H. lia.
Qed.

Lemma is_dec_spec c : is_dec c = true <-> exists d, digit_value 10 c = Some d.
Proof.
  unfold is_dec, digit_value. set (n := N_of_ascii c). clearbody n. cbv zeta.
  destruct ((48 <=? n) && (n <=? 57))%N eqn:E.
  - split; [|reflexivity]. intros _. apply andb_true_iff in E as (E1 & E2). apply N.leb_le in E1, E2.
    destruct (N.ltb_spec (n - 48) 10); [eauto|lia].
  - split; [discriminate|]. intros (d & H). destruct ((97 <=? n) && (n <=? 102))%N eqn:E'; [|discriminate].
    apply andb_true_iff in E' as (E1 & E2). apply N.leb_le in E1, E2. destruct (N.ltb_spec (n - 87) 10); [lia|discriminate].
Qed.

Lemma digit_value_dec c : is_dec c = true -> digit_value 10 c = Some (N_of_ascii c - 48)%N.
Proof.
  intros H. pose proof H as H'. apply is_dec_spec in H' as (d & E). unfold is_dec in H.
  unfold digit_value in *. set (n := N_of_ascii c) in *. clearbody n. cbv zeta in *. rewrite H in *.
  destruct (n - 48 <? 10)%N; [reflexivity|discriminate].
Qed.

Lemma strtol_run : forall s acc, exists ds rest, s = ds ++ rest /\
  value_from 10 acc ds = Some (strtol_digits acc s) /\
  (forall c r, rest = c :: r -> digit_value 10 c = None) /\
  (forall c r, s = c :: r -> is_dec c = true -> ds <> []).
Proof.
  induction s as [|c s IH]; intros acc.
  - exists [], []. repeat split; intros; discriminate.
  - cbn [strtol_digits]. destruct (is_dec c) eqn:E.
    + destruct (IH (acc * 10 + (N_of_ascii c - 48))%N) as (ds & rest & -> & V & R & _).
      exists (c :: ds), rest. split; [reflexivity|]. split.
      * cbn [value_from]. now rewrite (digit_value_dec c E).
      * split; [exact R|]. intros; discriminate.
    + exists [], (c :: s). split; [reflexivity|]. split; [reflexivity|]. split.
      * intros ? ? [= <- <-]. destruct (digit_value 10 c) eqn:D; [|reflexivity].
        assert (is_dec c = true) by (apply is_dec_spec; eauto). congruence.
      * intros ? ? [= <- <-]. congruence.
Qed.

Lemma strtol_value : forall ds acc rest n, value_from 10 acc ds = Some n ->
  (forall c r, rest = c :: r -> digit_value 10 c = None) -> strtol_digits acc (ds ++ rest) = n.
Proof.
  induction ds as [|c ds IH]; intros acc rest n V R; cbn [value_from] in V.
  - injection V as ->. destruct rest as [|c r]; [reflexivity|]. cbn [app strtol_digits].
    destruct (is_dec c) eqn:E; [|reflexivity]. apply is_dec_spec in E as (d & E).
    rewrite (R c r eq_refl) in E. discriminate.
  - destruct (digit_value 10 c) as [d|] eqn:D; [|discriminate]. cbn [app strtol_digits].
    assert (is_dec c = true) as E by (apply is_dec_spec; eauto). rewrite E.
    rewrite (digit_value_dec c E) in D. injection D as <-. now apply IH.
Qed.

Lemma skip_blanks_spec s : exists b, s = b ++ skip_blanks s /\ Forall blank b /\
  (forall c r, skip_blanks s = c :: r -> ~ blank c).
Proof.
  induction s as [|c s IH]; cbn [skip_blanks].
  - exists []. repeat split; auto. discriminate.
  - destruct (is_blank c) eqn:E.
    + destruct IH as (b & E1 & E2 & E3). exists (c :: b). cbn. split; [now f_equal|]. split; [|exact E3].
      constructor; [now apply is_blank_spec|exact E2].
    + exists []. split; [reflexivity|]. split; [constructor|]. intros ? ? [= <- <-].
      rewrite <- is_blank_spec. congruence.
Qed.

Lemma skip_blanks_app b s : Forall blank b -> (forall c r, s = c :: r -> ~ blank c) -> skip_blanks (b ++ s) = s.
Proof.
  intros Hb Hs. induction Hb as [|c b Hc Hb IH]; cbn.
  - destruct s as [|c s]; [reflexivity|]. cbn. destruct (is_blank c) eqn:E; [|reflexivity].
    apply is_blank_spec in E. now destruct (Hs c s eq_refl).
  - apply is_blank_spec in Hc. now rewrite Hc.
Qed.

Definition in_int (z : Z) : Prop := (- 2 ^ 31 <= z < 2 ^ 31)%Z.

Lemma value_of_ne b s n : value_of b s = Some n -> value_from b 0 s = Some n /\ s <> [].
Proof. destruct s; [discriminate|]. cbn [value_of]. split; [assumption|discriminate]. Qed.

Lemma stoi_spec s :
  (forall z, starts_int s z -> stoi s = if (- 2 ^ 31 <=? z)%Z && (z <? 2 ^ 31)%Z then Ok z else Throw OutOfRange) /\
  ((forall z, ~ starts_int s z) -> stoi s = Throw InvalidArgument).
Proof.
  split.
  - intros z (b & sg & ds & rest & n & -> & Hb & V & R & Hz).
    apply value_of_ne in V as (V & NE).
    destruct ds as [|c ds]; [congruence|].
    assert (is_dec c = true) as Dc.
    { cbn [value_from] in V. destruct (digit_value 10 c) eqn:E; [|discriminate]. apply is_dec_spec. eauto. }
    assert (Ascii.eqb c "-" = false /\ Ascii.eqb c "+" = false /\ ~ blank c) as (C1 & C2 & C3).
    { unfold is_dec in Dc. apply andb_true_iff in Dc as (D1 & D2). apply N.leb_le in D1, D2.
      repeat split.
      - apply Ascii.eqb_neq. intros ->. cbn in D1. lia.
      - apply Ascii.eqb_neq. intros ->. cbn in D1. lia.
      - unfold blank. cbn [In]. lia. }
    assert (skip_blanks (b ++ sg ++ (c :: ds) ++ rest) = sg ++ (c :: ds) ++ rest) as SK.
    { apply skip_blanks_app; [exact Hb|].
      destruct Hz as [(-> & _)|([-> | ->] & _)]; cbn [app lit list_ascii_of_string]; intros ? ? [= <- <-]; auto;
        unfold blank; cbn; lia. }
    unfold stoi. rewrite SK. pose proof (strtol_value _ _ rest _ V R) as SV.
    destruct Hz as [(-> & ->)|([-> | ->] & ->)]; cbn [app lit list_ascii_of_string].
    + rewrite Ascii.eqb_refl. rewrite Dc. cbn [app] in SV. rewrite SV. reflexivity.
    + rewrite C1, C2, Dc. cbn [app] in SV. rewrite SV. reflexivity.
    + change (Ascii.eqb "+" "-") with false. rewrite Ascii.eqb_refl, Dc. cbn [app] in SV. rewrite SV. reflexivity.
  - intros H. unfold stoi. destruct (skip_blanks_spec s) as (b & Es & Hb & _).
    set (t := skip_blanks s) in *. clearbody t.
    assert (forall neg (u : bytes), (exists sg, t = sg ++ u /\ ((sg = $"-" /\ neg = true) \/ ((sg = [] \/ sg = $"+") /\ neg = false))) ->
      match u with [] => Throw InvalidArgument | c :: _ => if is_dec c then
        let n := Z.of_N (strtol_digits 0 u) in let z := (if neg then - n else n)%Z in
        if ((- 2 ^ 31 <=? z) && (z <? 2 ^ 31))%Z then Ok z else Throw OutOfRange
        else Throw InvalidArgument end = @Throw Z InvalidArgument) as A.
    { intros neg u (sg & Et & Hsg). destruct u as [|c u]; [reflexivity|]. destruct (is_dec c) eqn:E; [|reflexivity].
      exfalso. destruct (strtol_run (c :: u) 0) as (ds & rest & Eu & V & R & NE).
      apply (H (if neg then - Z.of_N (strtol_digits 0 (c :: u)) else Z.of_N (strtol_digits 0 (c :: u)))%Z).
      exists b, sg, ds, rest, (strtol_digits 0 (c :: u)). split; [now rewrite Es, Et, Eu|]. split; [exact Hb|].
      split; [destruct ds; [exfalso; now apply (NE c u)|exact V]|]. split; [exact R|].
      destruct Hsg as [(-> & ->)|(Hsg & ->)]; auto. }
    destruct t as [|c r].
    + apply (A false []). exists []. auto.
    + destruct (Ascii.eqb_spec c "-") as [-> |N1]; [apply (A true r); exists $"-"; auto|].
      destruct (Ascii.eqb_spec c "+") as [-> |N2]; [apply (A false r); exists $"+"; auto|].
      apply (A false (c :: r)). exists []. auto.
Qed.

Lemma starts_int_dec s : (exists z, starts_int s z) \/ (forall z, ~ starts_int s z).
Proof.
  destruct (skip_blanks_spec s) as (b & Es & Hb & Hn). set (t := skip_blanks s) in *. clearbody t.
  set (sgu := match t with
              | c :: r => if Ascii.eqb c "-" then ($"-", r) else if Ascii.eqb c "+" then ($"+", r) else ([], t)
              | [] => ([], []) end).
  assert (t = fst sgu ++ snd sgu /\ (fst sgu = $"-" \/ fst sgu = [] \/ fst sgu = $"+")) as (Et & Hsg).
  { subst sgu. destruct t as [|c r]; [auto|]. destruct (Ascii.eqb_spec c "-") as [-> |]; [auto|].
    destruct (Ascii.eqb_spec c "+") as [-> |]; auto. }
  destruct (snd sgu) as [|c u] eqn:Eu; [|destruct (is_dec c) eqn:E].
  2: { left. destruct (strtol_run (c :: u) 0) as (ds & rest & E' & V & R & NE).
       assert (Hsg' : fst sgu = $"-" \/ (fst sgu = [] \/ fst sgu = $"+")) by exact Hsg.
       destruct Hsg' as [Hsg'|Hsg'];
         [exists (- Z.of_N (strtol_digits 0 (c :: u)))%Z|exists (Z.of_N (strtol_digits 0 (c :: u)))%Z];
         exists b, (fst sgu), ds, rest, (strtol_digits 0 (c :: u)); (split; [rewrite Es, Et, E'; reflexivity|]);
         (split; [exact Hb|]); (split; [destruct ds; [exfalso; now apply (NE c u)|exact V]|]); (split; [exact R|]); auto. }
  all: right; intros z Hz; destruct (stoi_spec s) as (S & _); specialize (S z Hz); unfold stoi in S.
  all: assert (skip_blanks s = t) as SK by (rewrite Es; apply skip_blanks_app; auto); rewrite SK in S.
  all: revert S; subst sgu; destruct t as [|c0 r0]; [now destruct ((- 2 ^ 31 <=? z)%Z && (z <? 2 ^ 31)%Z) |].
  all: destruct (Ascii.eqb c0 "-"); [|destruct (Ascii.eqb c0 "+")]; cbn [fst snd] in Eu;
    first [discriminate Eu|injection Eu as -> ->|rewrite Eu]; cbv beta iota zeta; rewrite ?E; destruct ((- 2 ^ 31 <=? z)%Z && (z <? 2 ^ 31)%Z); intros S; discriminate S.
Qed.

Lemma starts_int_fun s z z' : starts_int s z -> starts_int s z' -> z = z'.
Proof.
  (* the value is determined by the text *)
  assert (forall z, starts_int s z -> exists t, skip_blanks s = t /\
    z = match t with
        | c :: r => if Ascii.eqb c "-" then - Z.of_N (strtol_digits 0 r)
                    else if Ascii.eqb c "+" then Z.of_N (strtol_digits 0 r) else Z.of_N (strtol_digits 0 t)
        | [] => 0 end)%Z as A.
  { intros x (b & sg & ds & rest & n & -> & Hb & V & R & Hz). eexists. split; [reflexivity|].
    apply value_of_ne in V as (V & NE).
    destruct ds as [|c ds]; [congruence|].
    assert (is_dec c = true) as Dc.
    { cbn [value_from] in V. destruct (digit_value 10 c) eqn:E; [|discriminate]. apply is_dec_spec. eauto. }
    assert (Ascii.eqb c "-" = false /\ Ascii.eqb c "+" = false /\ ~ blank c) as (C1 & C2 & C3).
    { unfold is_dec in Dc. apply andb_true_iff in Dc as (D1 & D2). apply N.leb_le in D1, D2.
      repeat split.
      - apply Ascii.eqb_neq. intros ->. cbn in D1. lia.
      - apply Ascii.eqb_neq. intros ->. cbn in D1. lia.
      - unfold blank. cbn [In]. lia. }
    rewrite skip_blanks_app; [|exact Hb|].
    2: { destruct Hz as [(-> & _)|([-> | ->] & _)]; cbn [app lit list_ascii_of_string]; intros ? ? [= <- <-]; auto;
        unfold blank; cbn; lia. }
    pose proof (strtol_value _ _ rest _ V R) as SV.
    destruct Hz as [(-> & ->)|([-> | ->] & ->)]; cbn [app lit list_ascii_of_string] in *.
    + rewrite Ascii.eqb_refl, SV. reflexivity.
    + rewrite C1, C2, SV. reflexivity.
    + change (Ascii.eqb "+" "-") with false. rewrite Ascii.eqb_refl, SV. reflexivity. }
  intros H H'. apply A in H as (t & E & ->), H' as (t' & E' & ->). rewrite E in E'. now subst t'.
Qed.

(** * Pairs *)

Lemma eqb_lit k v : bytes_eqb k v = false <-> k <> v.
Proof. rewrite <- not_true_iff_false, bytes_eqb_eq. reflexivity. Qed.

Lemma apply_kv_spec c k v :
  (acceptable (k, v) -> exists c', apply_kv c k v = Ok c' /\ meant c [(k, v)] c') /\
  (~ acceptable (k, v) -> apply_kv c k v = Throw InvalidArgument).
Proof.
  assert (forall k' v', last_of k' [(k, v)] v' <-> (k' = k /\ v' = v)) as L1.
  { intros k' v'. split.
    - intros (l1 & l2 & E & _). destruct l1 as [|x l1]; [now injection E as -> -> _|]. destruct l1; discriminate.
    - intros (-> & ->). exists [], []. split; [reflexivity|]. intros v' []. }
  assert (forall k', absent k' [(k, v)] <-> k' <> k) as L2.
  { intros k'. split.
    - intros H ->. apply (H v). now left.
    - intros H v' [[= -> ->]|[]]. congruence. }
  unfold apply_kv, acceptable. cbn [fst snd].
  destruct (bytes_eqb k $"buffer-mode") eqn:K1; [apply bytes_eqb_eq in K1; subst k|apply eqb_lit in K1].
  { destruct (bytes_eqb v $"fixed") eqn:V1; [apply bytes_eqb_eq in V1; subst v|apply eqb_lit in V1].
    { split; [|intros H; exfalso; apply H; split; [auto|discriminate]]. intros _. eexists. split; [reflexivity|].
      constructor; intros; rewrite ?L1, ?L2 in *; cbn [set_container cf_mode cf_factory cf_size cf_callback cf_stop cf_enabled cf_disabled]; intuition discriminate. }
    destruct (bytes_eqb v $"ring") eqn:V2; [apply bytes_eqb_eq in V2; subst v|apply eqb_lit in V2].
    { split; [|intros H; exfalso; apply H; split; [auto|discriminate]]. intros _. eexists. split; [reflexivity|].
      constructor; intros; rewrite ?L1, ?L2 in *; cbn [set_container cf_mode cf_factory cf_size cf_callback cf_stop cf_enabled cf_disabled]; intuition discriminate. }
    split; [|auto]. intros (H & _). destruct (H eq_refl); contradiction. }
  destruct (bytes_eqb k $"buffer-size") eqn:K2; [apply bytes_eqb_eq in K2; subst k|apply eqb_lit in K2].
  { destruct (stoi_spec v) as (S1 & S2). split.
    - intros (_ & H). destruct (H eq_refl) as (z & Hz & B). rewrite (S1 z Hz).
      replace ((- 2 ^ 31 <=? z)%Z && (z <? 2 ^ 31)%Z) with true by (symmetry; lia).
      replace (z <? 0)%Z with false by (symmetry; lia). eexists. split; [reflexivity|].
      constructor; intros; rewrite ?L1, ?L2 in *; cbn [set_size cf_mode cf_factory cf_size cf_callback cf_stop cf_enabled cf_disabled]; try (intuition discriminate).
      destruct H0 as (_ & ->). rewrite (starts_int_fun _ _ _ H1 Hz). lia.
    - intros H. destruct (starts_int_dec v) as [(z & Hz)|N].
      + rewrite (S1 z Hz). destruct ((- 2 ^ 31 <=? z)%Z && (z <? 2 ^ 31)%Z) eqn:B; [|reflexivity].
        destruct (Z.ltb_spec z 0); [reflexivity|]. exfalso. apply H. split; [discriminate|]. intros _. exists z. split; [exact Hz|lia].
      + now rewrite (S2 N). }
  split; [|intros H; exfalso; apply H; split; intros; contradiction]. intros _.
  destruct (bytes_eqb k $"save-on-stop") eqn:K3; [apply bytes_eqb_eq in K3; subst k|apply eqb_lit in K3].
  { eexists. split; [reflexivity|]. constructor; intros; rewrite ?L1, ?L2 in *;
      cbn [setStopTracingOnDestruct setStoppedCallback cf_mode cf_factory cf_size cf_callback cf_stop cf_enabled cf_disabled]; try (intuition discriminate).
    destruct H as (_ & ->). auto. }
  destruct (bytes_eqb k $"enabled-categories") eqn:K4; [apply bytes_eqb_eq in K4; subst k|apply eqb_lit in K4].
  { eexists. split; [reflexivity|]. constructor; intros; rewrite ?L1, ?L2 in *;
      cbn [setCategories cf_mode cf_factory cf_size cf_callback cf_stop cf_enabled cf_disabled]; try (intuition discriminate).
    destruct H as (_ & ->). now apply split_pieces. }
  destruct (bytes_eqb k $"disabled-categories") eqn:K5; [apply bytes_eqb_eq in K5; subst k|apply eqb_lit in K5].
  { eexists. split; [reflexivity|]. constructor; intros; rewrite ?L1, ?L2 in *;
      cbn [setCategories cf_mode cf_factory cf_size cf_callback cf_stop cf_enabled cf_disabled]; try (intuition discriminate).
    destruct H as (_ & ->). now apply split_pieces. }
  eexists. split; [reflexivity|]. constructor; intros; rewrite ?L1, ?L2 in *; intuition congruence.
Qed.

Lemma meant_cons c c1 c2 kv kvs : meant c [kv] c1 -> meant c1 kvs c2 -> meant c (kv :: kvs) c2.
Proof.
  intros A B.
  assert (forall k v, last_of k (kv :: kvs) v -> last_of k kvs v \/ (absent k kvs /\ last_of k [kv] v)) as L.
  { intros k v (l1 & l2 & E & H). destruct l1 as [|x l1].
    - injection E as -> ->. right. split; [exact H|]. exists [], []. split; [reflexivity|]. intros v' [].
    - injection E as -> E. left. exists l1, l2. auto. }
  assert (forall k, absent k (kv :: kvs) -> absent k kvs /\ absent k [kv]) as N.
  { intros k H. split; intros v Hv; apply (H v); [now right|]. destruct Hv as [->|[]]. now left. }
  destruct A as [A1 A2 A3 A4 A5 A6 A7 A8 A9 A10 A11], B as [B1 B2 B3 B4 B5 B6 B7 B8 B9 B10 B11].
  constructor.
  - intros H. destruct (L _ _ H) as [H1|(H1 & H2)]; [auto|]. destruct (B3 H1) as (-> & ->). auto.
  - intros H. destruct (L _ _ H) as [H1|(H1 & H2)]; [auto|]. destruct (B3 H1) as (-> & ->). auto.
  - intros H. destruct (N _ H) as (H1 & H2). destruct (B3 H1) as (-> & ->). auto.
  - intros v z H Hz. destruct (L _ _ H) as [H1|(H1 & H2)]; [eauto|]. rewrite (B5 H1). eauto.
  - intros H. destruct (N _ H) as (H1 & H2). rewrite (B5 H1). auto.
  - intros v H. destruct (L _ _ H) as [H1|(H1 & H2)]; [auto|]. destruct (B7 H1) as (-> & ->). auto.
  - intros H. destruct (N _ H) as (H1 & H2). destruct (B7 H1) as (-> & ->). auto.
  - intros v H. destruct (L _ _ H) as [H1|(H1 & H2)]; [auto|]. rewrite (B9 H1). auto.
  - intros H. destruct (N _ H) as (H1 & H2). rewrite (B9 H1). auto.
  - intros v H. destruct (L _ _ H) as [H1|(H1 & H2)]; [auto|]. rewrite (B11 H1). auto.
  - intros H. destruct (N _ H) as (H1 & H2). rewrite (B11 H1). auto.
Qed.

Lemma meant_nil c : meant c [] c.
Proof.
  assert (forall k v, ~ last_of k [] v) as L by (intros k v ([|? ?] & l2 & E & _); discriminate).
  constructor; intros; try (exfalso; eapply L; eassumption); auto.
Qed.

Lemma acceptable_dec kv : acceptable kv \/ ~ acceptable kv.
Proof.
  destruct kv as [k v]. destruct (apply_kv_spec config_default k v) as (_ & H). unfold acceptable. cbn [fst snd].
  destruct (list_eq_dec ascii_dec k $"buffer-mode") as [E|E].
  - destruct (list_eq_dec ascii_dec v $"fixed") as [F|F], (list_eq_dec ascii_dec v $"ring") as [F'|F'].
    1-3: left; split; [tauto|intros; subst; discriminate]. right. tauto.
  - destruct (list_eq_dec ascii_dec k $"buffer-size") as [E'|E']; [|left; tauto].
    destruct (starts_int_dec v) as [(z & Hz)|N].
    + destruct (Z_le_dec 0 z), (Z_lt_dec z (2 ^ 31)).
      1: left; split; [tauto|eauto].
      all: right; intros (_ & H'); destruct (H' E') as (z' & Hz' & B); rewrite (starts_int_fun _ _ _ Hz' Hz) in B; lia.
    + right. intros (_ & H'). destruct (H' E') as (z & Hz & _). now apply (N z).
Qed.

(** * The loop *)

Definition good_argument (a : bytes) : Prop := exists kv, is_pair a kv /\ acceptable kv.

Lemma apply_argument_spec c a :
  (forall kv, is_pair a kv -> acceptable kv -> exists c', apply_argument c a = Ok c' /\ meant c [kv] c') /\
  (~ good_argument a -> apply_argument c a = Throw InvalidArgument).
Proof.
  unfold apply_argument. split.
  - intros (k, v) P A. apply split_pieces in P. cbn [fst snd] in P. rewrite P.
    now apply apply_kv_spec.
  - intros H. destruct (split_string a (chr 58)) as [|k [|v [|]]] eqn:E; try reflexivity.
    apply apply_kv_spec. intros A. apply H. exists (k, v). split; [|exact A]. now apply split_pieces.
Qed.

Lemma update_loop_ok : forall args kvs c, Forall2 is_pair args kvs -> Forall acceptable kvs ->
  exists c', update_loop c args = (c', Ok tt) /\ meant c kvs c'.
Proof.
  intros args kvs c P. revert c. induction P as [|a kv args kvs P PS IH]; intros c A; cbn [update_loop].
  - exists c. split; [reflexivity|apply meant_nil].
  - inversion A as [|? ? A1 A2]; subst. destruct (apply_argument_spec c a) as (S & _).
    destruct (S kv P A1) as (c1 & -> & M). destruct (IH c1 A2) as (c' & -> & M').
    exists c'. split; [reflexivity|]. eapply meant_cons; eauto.
Qed.

Lemma good_argument_dec a : good_argument a \/ ~ good_argument a.
Proof.
  assert (forall kv, is_pair a kv <-> split_string a (chr 58) = [fst kv; snd kv]) as Q
    by (intros; symmetry; apply split_pieces).
  destruct (split_string a (chr 58)) as [|k [|v [|]]] eqn:E;
    try (right; intros (kv & P & _); apply Q in P; discriminate).
  destruct (acceptable_dec (k, v)) as [A|A].
  - left. exists (k, v). split; [now apply Q|exact A].
  - right. intros ((k', v') & P & A'). apply Q in P. cbn in P. injection P as -> ->. contradiction.
Qed.

Lemma update_loop_cases : forall args c,
  (exists kvs, Forall2 is_pair args kvs /\ Forall acceptable kvs) \/
  (exists a1 bad a2 kvs1 c', args = a1 ++ bad :: a2 /\ Forall2 is_pair a1 kvs1 /\ Forall acceptable kvs1 /\
     ~ good_argument bad /\ update_loop c args = (c', Throw InvalidArgument) /\ meant c kvs1 c').
Proof.
  induction args as [|a args IH]; intros c.
  - left. exists []. auto.
  - destruct (good_argument_dec a) as [(kv & P & A)|N].
    + destruct (apply_argument_spec c a) as (S & _). destruct (S kv P A) as (c1 & E & M).
      destruct (IH c1) as [(kvs & PS & AS)|(a1 & bad & a2 & kvs1 & c' & -> & P1 & A1 & NB & E' & M')].
      * left. exists (kv :: kvs). auto.
      * right. exists (a :: a1), bad, a2, (kv :: kvs1), c'. split; [reflexivity|].
        split; [now constructor|]. split; [now constructor|]. split; [exact NB|].
        split; [cbn [app update_loop]; now rewrite E|]. eapply meant_cons; eauto.
    + right. exists [], a, args, [], c. split; [reflexivity|]. split; [constructor|]. split; [constructor|].
      split; [exact N|]. split; [|apply meant_nil]. cbn [update_loop].
      destruct (apply_argument_spec c a) as (_ & S). now rewrite (S N).
Qed.
