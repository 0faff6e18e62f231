(** Categories. *)
From Verif Require Import Base Spec.Text Spec.Glob Spec.Categories Model.StringUtils Model.Queue Model.Registry Proofs.Strings.

(** * Pieces *)

Definition segment (d : ascii) (s x : bytes) : Prop :=
  ~ In d x /\ exists a b, s = a ++ x ++ b /\
    (a = [] \/ exists a', a = a' ++ [d]) /\ (b = [] \/ exists b', b = d :: b').

Lemma glue_segment d : forall l, l <> [] -> (forall x, In x l -> ~ In d x) ->
  forall x, In x l <-> segment d (glue d l) x.
Proof.
  induction l as [|y l IH]; intros Hne Hd x; [congruence|].
  assert (~ In d y) as Hy by (apply Hd; now left).
  destruct l as [|z l].
  - cbn [glue]. split.
    + intros [<-|[]]. split; [exact Hy|]. exists [], []. rewrite app_nil_r. auto.
    + intros (Hx & a & b & E & Ha & Hb). left.
      destruct Ha as [-> |(a' & ->)]; [|exfalso; apply Hy; rewrite E, !in_app_iff; cbn; auto].
      destruct Hb as [-> |(b' & ->)]; [|exfalso; apply Hy; rewrite E, !in_app_iff; cbn; auto].
      cbn in E. rewrite app_nil_r in E. exact E.
  - remember (z :: l) as l' eqn:El. assert (glue d (y :: l') = y ++ d :: glue d l') as -> by (subst; reflexivity).
    specialize (IH ltac:(subst; discriminate) (fun w H => Hd w (or_intror H)) x). clear El.
    split.
    + intros [<-|Hx].
      * split; [exact Hy|]. exists [], (d :: glue d l'). repeat split; eauto.
      * apply IH in Hx as (Hx & a & b & E & Ha & Hb). split; [exact Hx|].
        exists (y ++ d :: a), b. rewrite E, <- app_assoc. split; [reflexivity|]. split; [|exact Hb].
        right. destruct Ha as [-> |(a' & ->)]; [now exists y|]. exists (y ++ d :: a'). now rewrite <- app_assoc.
    + intros (Hx & a & b & E & Ha & Hb).
      assert (a = [] -> x = y) as Fst.
      { intros ->. cbn in E. destruct Hb as [-> |(b' & ->)].
        - exfalso. apply Hx. rewrite app_nil_r in E. rewrite <- E. apply in_or_app. right. now left.
        - apply app_eq_app in E as (u & [(E1 & E2)|(E1 & E2)]).
          + destruct u as [|c u]; [now rewrite app_nil_r in E1|]. injection E2 as <- _.
            exfalso. apply Hy. rewrite E1. apply in_or_app. right. now left.
          + destruct u as [|c u]; [now rewrite app_nil_r in E1|]. injection E2 as <- _.
            exfalso. apply Hx. rewrite E1. apply in_or_app. right. now left. }
      destruct Ha as [-> |(a' & ->)]; [left; symmetry; auto|right]. clear Fst.
      rewrite <- app_assoc in E. cbn [app] in E. apply IH. split; [exact Hx|].
      apply app_eq_app in E as (u & [(E1 & E2)|(E1 & E2)]).
      * destruct u as [|c u]; [|exfalso; injection E2 as <- _; apply Hy; rewrite E1; apply in_or_app; right; now left].
        injection E2 as E2. exists [], b. cbn. auto.
      * destruct u as [|c u].
        { injection E2 as E2. exists [], b. cbn. auto. }
        injection E2 as <- E2. exists (u ++ [d]), b. rewrite <- app_assoc. cbn. rewrite E2. eauto 6.
Qed.

Lemma split_piece d s x : In x (split_string s d) <-> piece d s x.
Proof.
  destruct (split_string_spec s d) as (Hne & Hd & Hs).
  rewrite (glue_segment d _ Hne Hd). set (t := glue d (split_string s d)) in *. clearbody t.
  assert (forall a (c : ascii), a ++ [c] <> []) as NE by (intros [|? ?] ?; discriminate).
  destruct Hs as [(<- & Hs)| ->]; split; intros (Hx & a & b & E & Ha & Hb).
  - split; [exact Hx|]. exists a, b. repeat split; auto. intros (-> & -> & H).
    destruct Ha as [-> |(a' & ->)]; [congruence|]. apply (Hs a'). rewrite E. cbn. now rewrite app_nil_r.
  - destruct Hb as (Hb & _). split; [exact Hx|]. exists a, b. auto.
  - split; [exact Hx|]. exists a, (b ++ [d]). rewrite E, <- !app_assoc. repeat split; auto.
    + right. destruct Hb as [-> |(b' & ->)]; [now exists []|]. now exists (b' ++ [d]).
    + intros (_ & H & _). now apply NE in H.
  - destruct Hb as (Hb & H). split; [exact Hx|].
    destruct Hb as [-> |(b' & ->)].
    + exfalso. rewrite app_nil_r in E. destruct x as [|c x] using rev_ind.
      * rewrite app_nil_r in E. apply H. subst a. auto.
      * clear IHx. rewrite app_assoc in E. apply app_inj_tail in E as (_ & <-). apply Hx, in_or_app. right. now left.
    + destruct b' as [|c b'] using rev_ind.
      * rewrite app_assoc in E. apply app_inj_tail in E as (E & _). exists a, []. rewrite app_nil_r. auto.
      * clear IHb'. change (d :: b' ++ [c]) with ((d :: b') ++ [c]) in E. rewrite !app_assoc in E.
        apply app_inj_tail in E as (E & _). exists a, (d :: b'). rewrite app_assoc. eauto 6.
Qed.

Lemma listed_existsb l x : existsb (fun g => glob_match g x) l = true <-> listed l x.
Proof.
  rewrite existsb_exists. split; intros (g & H & M); exists g; split; auto; now apply glob_match_exact.
Qed.

Lemma calculateEnabled_spec g en dis : calculateEnabled g en dis = true <-> switched_on en dis g.
Proof.
  unfold calculateEnabled. rewrite existsb_exists. split.
  - intros (x & H & M). apply filter_In in H as (H & L). apply listed_existsb in L.
    exists x. split; [now apply split_piece|]. split; [exact L|].
    rewrite <- listed_existsb. apply negb_true_iff in M. congruence.
  - intros (x & P & L & D). exists x. rewrite filter_In. split.
    + split; [now apply split_piece|now apply listed_existsb].
    + apply negb_true_iff, not_true_iff_false. now rewrite listed_existsb.
Qed.

(** * Sequences of calls *)

Lemma bytes_eqb_eq a : forall b, bytes_eqb a b = true <-> a = b.
Proof.
  induction a as [|x a IH]; intros [|y b]; cbn; try (split; congruence).
  rewrite andb_true_iff, Ascii.eqb_eq, IH. split; [now intros [-> ->]|]. now intros [= -> ->].
Qed.

Lemma c_str_idem s : c_str (c_str s) = c_str s.
Proof. induction s as [|c s IH]; [reflexivity|]. cbn [c_str]. destruct (Ascii.eqb c NUL) eqn:E; [reflexivity|]. cbn [c_str]. now rewrite E, IH. Qed.

Record rok (r : registry) : Prop := {
  rk_lo : 3 <= rg_count r;
  rk_hi : rg_count r <= 250;
  rk_def : forall i, i < 3 -> rg_groups r i = nth i built_in [];
  rk_cstr : forall i, i < rg_count r -> c_str (rg_groups r i) = rg_groups r i;
  rk_inj : forall i j, i < rg_count r -> j < rg_count r -> rg_groups r i = rg_groups r j -> i = j;
  rk_stat : forall i, i < rg_count r ->
    rg_status r i = calculateEnabled (rg_groups r i) (rg_enabled r) (rg_disabled r);
}.

Lemma search_spec g name : forall n i,
  match search g name i n with
  | Some k => i <= k < i + n /\ c_str (g k) = name
  | None => forall k, i <= k < i + n -> c_str (g k) <> name
  end.
Proof.
  induction n as [|n IH]; intros i; cbn [search]; [intros; lia|].
  destruct (bytes_eqb (c_str (g i)) name) eqn:E.
  - apply bytes_eqb_eq in E. split; [lia|exact E].
  - specialize (IH (S i)). destruct (search g name (S i) n) as [k|].
    + destruct IH. split; [lia|assumption].
    + intros k Hk. destruct (Nat.eq_dec k i) as [-> |N].
      * intros H. apply bytes_eqb_eq in H. congruence.
      * apply IH. lia.
Qed.

Lemma rok_new : rok registry_new.
Proof.
  constructor; cbn [registry_new rg_count rg_groups rg_status rg_enabled rg_disabled]; try (unfold index_non_default_categories; lia).
  - reflexivity.
  - intros i Hi. destruct i as [|[|[|i]]]; [reflexivity..|unfold index_non_default_categories in *; lia].
  - intros i j Hi Hj. unfold index_non_default_categories in *.
    destruct i as [|[|[|i]]]; try lia; destruct j as [|[|[|j]]]; try lia; intros H; try reflexivity; discriminate.
  - intros i Hi. symmetry. apply not_true_iff_false. rewrite calculateEnabled_spec.
    intros (x & _ & (g & [] & _) & _).
Qed.

Lemma all_off g : calculateEnabled g [[]] [[]] = false.
Proof. apply not_true_iff_false. rewrite calculateEnabled_spec. intros (x & _ & H & H'). contradiction. Qed.

(** Slot [i] is the answer for [arg]. *)
Definition settled (r : registry) (arg : bytes) (i : nat) : Prop :=
  (i < rg_count r /\ rg_groups r i = c_str arg) \/
  (i = 1 /\ rg_count r = 250 /\ forall k, k < 250 -> rg_groups r k <> c_str arg).

(** The registry only grows. *)
Definition grows (r r' : registry) : Prop :=
  rg_count r <= rg_count r' /\ forall i, i < rg_count r -> rg_groups r' i = rg_groups r i.

Lemma grows_trans a b c : grows a b -> grows b c -> grows a c.
Proof. intros (H1 & H2) (H3 & H4). split; [lia|]. intros i Hi. rewrite H4, H2 by lia. reflexivity. Qed.

Lemma grows_refl a : grows a a.
Proof. now split. Qed.

Lemma settled_grows r r' a i : rok r' -> grows r r' -> settled r a i -> settled r' a i.
Proof.
  intros K (G1 & G2) [(H1 & H2)|(-> & H2 & H3)].
  - left. split; [lia|]. now rewrite G2.
  - right. pose proof (rk_hi _ K). split; [reflexivity|]. split; [lia|].
    intros k Hk. rewrite G2 by lia. auto.
Qed.

Lemma getStatus_spec r a : rok r ->
  let '(i, r') := getStatus r a in
  rok r' /\ grows r r' /\ settled r' a i /\
  rg_enabled r' = rg_enabled r /\ rg_disabled r' = rg_disabled r /\
  (r' = r \/ (rg_count r' = S (rg_count r) /\ rg_groups r' (rg_count r) = c_str a)).
Proof.
  intros K. unfold getStatus.
  pose proof (search_spec (rg_groups r) (c_str a) (rg_count r) 0) as S.
  destruct (search (rg_groups r) (c_str a) 0 (rg_count r)) as [i|].
  - destruct S as (Hi & E). rewrite (rk_cstr _ K) in E by lia. repeat split; auto; try apply K.
    left. split; [lia|exact E].
  - assert (forall k, k < rg_count r -> rg_groups r k <> c_str a) as NF.
    { intros k Hk. rewrite <- (rk_cstr _ K k Hk). apply S. lia. }
    destruct (Nat.ltb_spec (rg_count r) registry_size) as [L|L]; unfold registry_size in L.
    + pose proof (rk_lo _ K). split; [|split; [|split]].
      * constructor; cbn [rg_count rg_groups rg_status rg_enabled rg_disabled]; unfold updn; try lia.
        -- intros i Hi. destruct (Nat.eqb_spec i (rg_count r)) as [-> |N]; [lia|]. now apply rk_def.
        -- intros i Hi. destruct (Nat.eqb_spec i (rg_count r)) as [-> |N]; [apply c_str_idem|]. apply rk_cstr; [exact K|lia].
        -- intros i j Hi Hj. destruct (Nat.eqb_spec i (rg_count r)) as [-> |N], (Nat.eqb_spec j (rg_count r)) as [-> |N']; auto.
           ++ intros E. symmetry in E. apply NF in E; [easy|lia].
           ++ intros E. apply NF in E; [easy|lia].
           ++ apply rk_inj; auto; lia.
        -- intros i Hi. destruct (Nat.eqb_spec i (rg_count r)) as [-> |N]; [reflexivity|]. apply rk_stat; [exact K|lia].
      * split; cbn; [lia|]. intros i Hi. unfold updn. destruct (Nat.eqb_spec i (rg_count r)); [lia|reflexivity].
      * left. cbn. split; [lia|]. unfold updn. now rewrite Nat.eqb_refl.
      * cbn. split; [reflexivity|]. split; [reflexivity|]. right. split; [reflexivity|]. unfold updn. now rewrite Nat.eqb_refl.
    + pose proof (rk_hi _ K). split; [exact K|]. split; [apply grows_refl|]. split; [|auto].
      right. split; [reflexivity|]. split; [lia|]. intros k Hk. apply NF. lia.
Qed.

Definition forces (cur : option (list bytes * list bytes)) (r : registry) : Prop :=
  match cur with
  | Some (e, d) => rg_enabled r = e /\ rg_disabled r = d
  | None => forall g, calculateEnabled g (rg_enabled r) (rg_disabled r) = false
  end.

(** The used slots, in order. *)
Definition used (r : registry) : list bytes := map (rg_groups r) (seq 0 (rg_count r)).

Lemma used_in r g : In g (used r) <-> exists i, i < rg_count r /\ rg_groups r i = g.
Proof.
  unfold used. rewrite in_map_iff. split.
  - intros (i & E & H). apply in_seq in H. exists i. split; [lia|exact E].
  - intros (i & H & E). exists i. split; [exact E|]. apply in_seq. lia.
Qed.

Lemma registry_run_spec : forall cs r cur, rok r -> forces cur r ->
  let '(h, r') := registry_run r cs in
  rok r' /\ grows r r' /\ (forall a i, In (a, i) h -> settled r' a i) /\
  forces (in_force_from cur cs) r' /\
  map (fun p => c_str (fst p)) h = names_asked cs /\
  (forall g, In g (used r') -> In g (used r) \/ In g (names_asked cs)).
Proof.
  induction cs as [|c cs IH]; intros r cur K F; cbn [registry_run].
  - repeat split; auto using grows_refl; try apply K. intros a i [].
  - assert (exists h r', rcall_run r c = (h, r') /\ rok r' /\ grows r r' /\ (forall a i, In (a, i) h -> settled r' a i) /\
      forces (in_force_from cur [c]) r' /\ map (fun p => c_str (fst p)) h = names_asked [c] /\
      (forall g, In g (used r') -> In g (used r) \/ In g (names_asked [c]))) as (h & r' & E & K' & G & S & F' & N & U).
    { destruct c as [a|e d| ]; cbn [rcall_run].
      - pose proof (getStatus_spec r a K) as GS. destruct (getStatus r a) as [i r'].
        destruct GS as (G1 & G2 & G3 & G4 & G5 & G6). eexists _, _. split; [reflexivity|].
        split; [exact G1|]. split; [exact G2|]. split; [intros ? ? [[= <- <-]|[]]; exact G3|].
        split; [cbn; unfold forces in *; rewrite G4, G5; exact F|]. split; [reflexivity|].
        intros g (k & Hk & Eg)%used_in. destruct G6 as [-> |(G6 & G7)].
        + left. apply used_in. eauto.
        + destruct (Nat.eq_dec k (rg_count r)) as [-> |N].
          * right. left. congruence.
          * left. apply used_in. exists k. split; [lia|]. rewrite <- Eg. symmetry. apply G2. lia.
      - eexists _, _. split; [reflexivity|]. split; [|split; [|split; [|split; [|split]]]].
        + destruct K. constructor; cbn [updateEnabled disableAll rg_count rg_groups rg_status rg_enabled rg_disabled]; auto. intros i Hi. destruct (Nat.ltb_spec i (rg_count r)); [reflexivity|lia].
        + split; [cbn; lia|]. reflexivity.
        + intros a i [].
        + cbn. auto.
        + reflexivity.
        + intros g Hg. now left.
      - eexists _, _. split; [reflexivity|]. split; [|split; [|split; [|split; [|split]]]].
        + destruct K. constructor; cbn [updateEnabled disableAll rg_count rg_groups rg_status rg_enabled rg_disabled]; auto. intros i Hi. destruct (Nat.ltb_spec i (rg_count r)); [|lia].
          symmetry. apply all_off.
        + split; [cbn; lia|]. reflexivity.
        + intros a i [].
        + cbn. apply all_off.
        + reflexivity.
        + intros g Hg. now left. }
    rewrite E. specialize (IH r' _ K' F'). destruct (registry_run r' cs) as [h' r''].
    destruct IH as (I1 & I2 & I3 & I4 & I5 & I6). split; [exact I1|]. split; [eapply grows_trans; eauto|].
    split; [|split; [|split]].
    + intros a i [H|H]%in_app_or; [|auto]. eapply settled_grows; eauto.
    + exact I4.
    + rewrite map_app, N, I5. unfold names_asked. cbn. now rewrite app_nil_r.
    + intros g Hg. apply I6 in Hg as [Hg|Hg].
      * apply U in Hg as [Hg|Hg]; [now left|]. right. unfold names_asked in *. cbn in *. rewrite app_nil_r in Hg. apply in_or_app. auto.
      * right. unfold names_asked in *. cbn. apply in_or_app. auto.
Qed.

Lemma settled_fun r a b i j : rok r -> settled r a i -> settled r b j -> c_str a = c_str b -> i = j.
Proof.
  intros K [(H1 & H2)|(-> & H2 & H3)] [(H4 & H5)|(-> & H5 & H6)] E; auto.
  - apply (rk_inj _ K); auto. congruence.
  - exfalso. rewrite H5 in H1. apply (H6 i H1). congruence.
  - exfalso. rewrite H2 in H4. apply (H3 j H4). congruence.
Qed.

Lemma settled_one r a : rok r -> settled r a 1 -> c_str a = overflow_name \/ rg_count r = 250.
Proof.
  intros K [(H1 & H2)|(_ & H2 & _)]; [left|now right]. rewrite <- H2, (rk_def _ K) by lia. reflexivity.
Qed.

Lemma used_nodup r : rok r -> NoDup (used r).
Proof.
  intros K. unfold used.
  assert (forall l, NoDup l -> (forall i, In i l -> i < rg_count r) -> NoDup (map (rg_groups r) l)) as A.
  { induction l as [|i l IH]; intros Hl Hb; cbn; constructor.
    - inversion Hl as [|? ? Hi Hl']; subst. rewrite in_map_iff. intros (j & E & Hj). apply Hi.
      apply (rk_inj _ K) in E; [now subst|apply Hb; now right|apply Hb; now left].
    - inversion Hl; subst. apply IH; auto. intros; apply Hb; now right. }
  apply A; [apply seq_NoDup|]. intros i Hi. apply in_seq in Hi. lia.
Qed.

Lemma forces_new : forces None registry_new.
Proof.
  intros g. apply not_true_iff_false. rewrite calculateEnabled_spec. intros (x & _ & (y & [] & _) & _).
Qed.

Lemma registry_count cs : let '(h, r) := registry_run registry_new cs in
  rg_count r = Nat.min 250 (length (nodup bytes_dec (built_in ++ names_asked cs))).
Proof.
  pose proof (registry_run_spec cs registry_new None rok_new forces_new) as S.
  destruct (registry_run registry_new cs) as [h r]. destruct S as (K & G & ST & _ & N & U).
  set (all := built_in ++ names_asked cs).
  assert (incl (used r) (nodup bytes_dec all)) as I1.
  { intros g Hg. apply nodup_In. apply in_or_app. apply U in Hg as [Hg|Hg]; [|now right].
    left. exact Hg. }
  assert (length (used r) = rg_count r) as LU by (unfold used; now rewrite map_length, seq_length).
  pose proof (NoDup_incl_length (used_nodup r K) I1) as L1. rewrite LU in L1.
  pose proof (rk_hi _ K). destruct (Nat.eq_dec (rg_count r) 250) as [E|E]; [lia|].
  assert (incl (nodup bytes_dec all) (used r)) as I2.
  { intros g Hg. apply nodup_In in Hg. apply in_app_or in Hg as [Hg|Hg].
    - apply used_in. pose proof (rk_lo _ K). destruct Hg as [<-|[<-|[<-|[]]]]; [exists 0|exists 1|exists 2]; (split; [lia|]); now rewrite (rk_def _ K) by lia.
    - rewrite <- N in Hg. apply in_map_iff in Hg as ((a & i) & <- & Hi). apply ST in Hi as [(H1 & H2)|(_ & H1 & _)]; [|lia].
      apply used_in. eauto. }
  pose proof (NoDup_incl_length (NoDup_nodup bytes_dec all) I2). lia.
Qed.
