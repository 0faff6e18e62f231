(** Proofs about the string utilities. *)
From Verif Require Import Base Model.StringUtils Spec.Json Spec.Text Spec.Glob.

(** * Generic facts *)

Lemma bytes_eqb_eq a b : bytes_eqb a b = true <-> a = b.
Proof.
  revert b; induction a as [|x a IH]; intros [|y b]; simpl; split; try congruence; auto.
  - intros H. apply andb_true_iff in H as [H1 H2].
    apply Ascii.eqb_eq in H1. apply IH in H2. congruence.
  - intros [= -> ->]. rewrite Ascii.eqb_refl. simpl. now apply IH.
Qed.

Lemma bytes_eqb_refl a : bytes_eqb a a = true.
Proof. now apply bytes_eqb_eq. Qed.

Lemma bytes_eqb_neq a b : bytes_eqb a b = false <-> a <> b.
Proof.
  rewrite <- bytes_eqb_eq. destruct (bytes_eqb a b); split; congruence.
Qed.


Definition raw_controlb (c : ascii) : bool :=
  ((code c <? 32) && negb (existsb (N.eqb (code c)) [8; 9; 10; 12; 13]))%N.

Lemma raw_controlb_spec c : raw_controlb c = true <-> raw_control c.
Proof.
  unfold raw_controlb, raw_control.
  rewrite andb_true_iff, negb_true_iff, N.ltb_lt.
  split; intros [H1 H2]; split; auto.
  - intros Hin. assert (existsb (N.eqb (code c)) [8; 9; 10; 12; 13]%N = true); [|congruence].
    apply existsb_exists. exists (code c). now rewrite N.eqb_refl.
  - apply not_true_is_false. intros He. apply H2.
    apply existsb_exists in He as (x & Hx & He). apply N.eqb_eq in He. now subst x.
Qed.

Lemma read_str_escape strict c s :
  read_str strict (escape_char c ++ s) =
  if strict && raw_controlb c then None
  else match read_str strict s with
       | Some (t, rest) => Some (c :: t, rest)
       | None => None
       end.
Proof.
  destruct c as [[] [] [] [] [] [] [] []]; cbn; destruct strict; reflexivity.
Qed.

Lemma read_str_escape_json_lax s rest :
  read_str false (escape_json s ++ chr 34 :: rest) = Some (s, rest).
Proof.
  induction s as [|c s IH]; [reflexivity|].
  cbn [escape_json]. rewrite <- app_assoc, read_str_escape. cbn [andb]. now rewrite IH.
Qed.

Lemma read_str_escape_json_strict s rest :
  read_str true (escape_json s ++ chr 34 :: rest) =
  if existsb raw_controlb s then None else Some (s, rest).
Proof.
  induction s as [|c s IH]; [reflexivity|].
  cbn [escape_json existsb]. rewrite <- app_assoc, read_str_escape. cbn [andb].
  destruct (raw_controlb c); cbn [orb]; [reflexivity|].
  rewrite IH. now destruct (existsb raw_controlb s).
Qed.

Lemma existsb_raw s : existsb raw_controlb s = false <-> (forall c, In c s -> ~ raw_control c).
Proof.
  split.
  - intros H c Hin Hr. apply raw_controlb_spec in Hr.
    assert (existsb raw_controlb s = true) by (apply existsb_exists; eauto). congruence.
  - intros H. apply not_true_is_false. intros He.
    apply existsb_exists in He as (c & Hin & Hc). apply raw_controlb_spec in Hc. now apply (H c).
Qed.

Lemma json_string_roundtrip s rest :
  exists body, to_json s ++ rest = chr 34 :: body /\ read_str false body = Some (s, rest).
Proof.
  exists (escape_json s ++ chr 34 :: rest). split.
  - unfold to_json. simpl. now rewrite <- app_assoc.
  - apply read_str_escape_json_lax.
Qed.

Lemma read_value_str f t :
  read_value (S f) (chr 34 :: t) =
  match read_str true t with Some (x, rest) => Some (JStr x, rest) | None => None end.
Proof. reflexivity. Qed.

Lemma json_string_parse s :
  json_parse (to_json s) = if existsb raw_controlb s then None else Some (JStr s).
Proof.
  unfold json_parse, to_json.
  replace (2 * length (chr 34 :: escape_json s ++ [chr 34]) + 2)
    with (S (2 * length (chr 34 :: escape_json s ++ [chr 34]) + 1)) by lia.
  rewrite read_value_str, read_str_escape_json_strict.
  now destruct (existsb raw_controlb s).
Qed.

Lemma json_string_valid_iff s :
  (exists v, json_parse (to_json s) = Some v) <-> (forall c, In c s -> ~ raw_control c).
Proof.
  rewrite <- existsb_raw.
  rewrite json_string_parse. destruct (existsb raw_controlb s); split; eauto; intros; try congruence.
  now destruct H.
Qed.

Lemma json_string_value s :
  (forall c, In c s -> ~ raw_control c) -> json_parse (to_json s) = Some (JStr s).
Proof.
  intros H%existsb_raw. now rewrite json_string_parse, H.
Qed.

(** * Split and join *)

Lemma getline_spec d s :
  let '(item, rest) := getline d s in
  ~ In d item /\
  ((s = item ++ d :: rest) \/ (s = item /\ rest = [])).
Proof.
  induction s as [|c s IH]; cbn [getline].
  - split; [tauto|now right].
  - destruct (Ascii.eqb_spec c d) as [->|Hne].
    + split; [tauto|now left].
    + destruct (getline d s) as [item rest]. destruct IH as [Hn IH]. split.
      * intros [->|H]; tauto.
      * destruct IH as [->|[-> ->]]; [now left|now right].
Qed.


Lemma glue_cons d x r : r <> [] -> glue d (x :: r) = x ++ d :: glue d r.
Proof. now destruct r. Qed.

Lemma glue_snoc d l x : l <> [] -> glue d (l ++ [x]) = glue d l ++ d :: x.
Proof.
  induction l as [|y l IH]; [congruence|]. intros _.
  destruct l as [|z l].
  - reflexivity.
  - assert (E : (z :: l) ++ [x] <> []) by (now destruct l).
    change ((y :: z :: l) ++ [x]) with (y :: ((z :: l) ++ [x])).
    rewrite (glue_cons d y) by exact E.
    rewrite IH by congruence. rewrite (glue_cons d y) by congruence.
    now rewrite <- app_assoc.
Qed.

Lemma split_loop_spec d : forall fuel s, length s <= fuel -> s <> [] ->
  let l := split_loop fuel d s in
  l <> [] /\ (forall x, In x l -> ~ In d x) /\
  (s = glue d l \/ (s = glue d l ++ [d])) /\ (last l [d] <> [] \/ s = glue d l ++ [d]).
Proof.
  induction fuel as [|f IH]; intros s Hf Hs.
  - destruct s; [congruence|simpl in Hf; lia].
  - cbn [split_loop]. destruct s as [|c s']; [congruence|].
    set (s := c :: s') in *.
    pose proof (getline_spec d s) as G.
    destruct (getline d s) as [item rest]. destruct G as [Hni Hc].
    destruct rest as [|r0 rest'].
    + assert (E : split_loop f d [] = []) by (now destruct f). rewrite E. simpl.
      repeat split; [congruence| |..].
      * intros x [<-|[]]. exact Hni.
      * destruct Hc as [H|[H _]]; [right|left]; exact H.
      * destruct Hc as [H|[H _]]; [now right|left]. rewrite <- H. unfold s. congruence.
    + set (rest := r0 :: rest') in *.
      destruct Hc as [Hc|[_ Hc]]; [|unfold rest in Hc; congruence].
      assert (Hl : length rest <= f).
      { apply (f_equal (@length _)) in Hc. rewrite app_length in Hc. simpl in Hc. simpl in Hf.
        unfold s in *. simpl in *. lia. }
      assert (Hr : rest <> []) by (unfold rest; congruence).
      specialize (IH rest Hl Hr). cbn zeta in IH.
      destruct (split_loop f d rest) as [|y l] eqn:El; [tauto|].
      destruct IH as (_ & Hnd & Hg & Hlast).
      repeat split.
      * congruence.
      * intros x [<-|Hx]; auto.
      * rewrite glue_cons by congruence. destruct Hg as [Hg|Hg]; [left|right].
        -- now rewrite Hc, Hg at 1.
        -- rewrite Hc, Hg at 1. now rewrite <- app_assoc.
      * rewrite glue_cons by congruence. destruct Hlast as [H|H]; [left; exact H|right].
        rewrite Hc, H at 1. now rewrite <- app_assoc.
Qed.

Lemma split_string_spec s d :
  split_string s d <> [] /\ (forall x, In x (split_string s d) -> ~ In d x) /\
  ((s = glue d (split_string s d) /\ (forall t, s <> t ++ [d]))
   \/ s = glue d (split_string s d) ++ [d]).
Proof.
  unfold split_string. destruct s as [|c s']; cbn [is_nil].
  - repeat split; [congruence|intros x [<-|[]]; tauto|].
    left; split; [reflexivity|]. intros t Ht. now destruct t.
  - set (s := c :: s').
    assert (Hs : s <> []) by (unfold s; congruence).
    pose proof (split_loop_spec d (length s) s (le_n _) Hs) as H. cbn zeta in H.
    destruct H as (H1 & H2 & H3 & H4). repeat split; auto.
    destruct H4 as [H4|H4]; [|now right]. destruct H3 as [H3|H3]; [|now right].
    left; split; auto. intros t Ht.
    destruct (exists_last H1) as (l & x & El). rewrite El in *.
    rewrite last_last in H4.
    assert (Hx : ~ In d x) by (apply H2, in_or_app; right; now left).
    destruct (exists_last H4) as (x' & e & Ex). subst x.
    rewrite H3 in Ht. destruct l as [|y l].
    + simpl in Ht. apply app_inj_tail in Ht as [_ ->]. apply Hx, in_or_app. right; now left.
    + rewrite glue_snoc in Ht by congruence.
      change (glue d (y :: l) ++ d :: (x' ++ [e])) with (glue d (y :: l) ++ (d :: x') ++ [e]) in Ht.
      rewrite app_assoc in Ht. apply app_inj_tail in Ht as [_ ->].
      apply Hx, in_or_app. right; now left.
Qed.

Lemma join_fold d l acc :
  fold_left (fun result str => result ++ str ++ [d]) l acc
  = acc ++ match l with [] => [] | _ => glue d l ++ [d] end.
Proof.
  revert acc; induction l as [|x l IH]; intros acc; cbn [fold_left].
  - now rewrite app_nil_r.
  - rewrite IH. destruct l as [|y l].
    + now rewrite app_nil_r.
    + rewrite (glue_cons d x) by congruence. rewrite <- !app_assoc. reflexivity.
Qed.

Lemma join_string_glue l d : join_string l d = glue d l.
Proof.
  unfold join_string. destruct l as [|x l]; [reflexivity|]. cbn [is_nil].
  rewrite join_fold. simpl app. now rewrite removelast_last.
Qed.

Lemma getline_app d x rest : ~ In d x -> getline d (x ++ d :: rest) = (x, rest).
Proof.
  induction x as [|c x IH]; intros H; simpl.
  - now rewrite Ascii.eqb_refl.
  - destruct (Ascii.eqb_spec c d) as [->|_]; [exfalso; apply H; now left|].
    rewrite IH; [reflexivity|]. intros Hi; apply H; now right.
Qed.

Lemma getline_end d x : ~ In d x -> getline d x = (x, []).
Proof.
  induction x as [|c x IH]; intros H; simpl; [reflexivity|].
  destruct (Ascii.eqb_spec c d) as [->|_]; [exfalso; apply H; now left|].
  rewrite IH; [reflexivity|]. intros Hi; apply H; now right.
Qed.

Lemma split_loop_glue d : forall l fuel,
  (forall x, In x l -> ~ In d x) -> last l [d] <> [] -> l <> [] -> length (glue d l) <= fuel ->
  split_loop fuel d (glue d l) = l.
Proof.
  induction l as [|x l IH]; intros fuel Hd Hlast Hne Hf; [congruence|].
  destruct l as [|y l].
  - simpl in *. destruct x as [|c x]; [congruence|].
    destruct fuel as [|f]; [simpl in Hf; lia|].
    cbn [split_loop]. rewrite getline_end by (apply Hd; now left). destruct f; reflexivity.
  - rewrite glue_cons in * by congruence.
    destruct fuel as [|f].
    { rewrite app_length in Hf. simpl in Hf. lia. }
    assert (Hf' : length (glue d (y :: l)) <= f)
      by (rewrite app_length in Hf; cbn [length] in Hf; lia).
    cbn [split_loop].
    rewrite getline_app by (apply Hd; now left).
    destruct (x ++ d :: glue d (y :: l)) as [|e u] eqn:E.
    { destruct x; discriminate. }
    rewrite IH; auto; [|congruence].
    intros z Hz; apply Hd; now right.
Qed.

Lemma split_join l d :
  l <> [] -> (forall x, In x l -> ~ In d x) ->
  (last l [d] <> [] \/ l = [[]]) ->
  split_string (join_string l d) d = l.
Proof.
  intros Hne Hd Hlast. rewrite join_string_glue. unfold split_string.
  destruct Hlast as [Hlast| ->]; [|reflexivity].
  destruct (glue d l) as [|c u] eqn:E.
  - exfalso. destruct l as [|x [|y l]]; [congruence| |].
    + simpl in *. now subst x.
    + rewrite glue_cons in E by congruence. now destruct x.
  - cbn [is_nil]. rewrite <- E. apply split_loop_glue; auto. 
Qed.

Lemma split_join_lossy l d :
  (forall x, In x l -> ~ In d x) -> l <> [] ->
  split_string (join_string (l ++ [[]]) d) d = l \/ l = [[]].
Proof.
  intros Hd Hne. rewrite join_string_glue, glue_snoc by auto.
  destruct (list_eq_dec (list_eq_dec ascii_dec) l [[]]) as [E|E]; [now right|left].
  unfold split_string.
  assert (G : forall l fuel, (forall x, In x l -> ~ In d x) -> l <> [] ->
     length (glue d l ++ [d]) <= fuel -> split_loop fuel d (glue d l ++ [d]) = l).
  { clear. induction l as [|x l IH]; intros fuel Hd Hne Hf; [congruence|].
    destruct fuel as [|f]; [rewrite app_length in Hf; simpl in Hf; lia|].
    destruct l as [|y l].
    - cbn [glue] in *. cbn [split_loop]. rewrite getline_app by (apply Hd; now left).
      destruct (x ++ [d]) eqn:E; [now destruct x|]. now destruct f.
    - rewrite glue_cons in * by congruence.
      rewrite <- app_assoc in *. cbn [app] in *. cbn [split_loop].
      assert (Hf' : length (glue d (y :: l) ++ [d]) <= f)
        by (rewrite app_length in Hf; cbn [length] in Hf; lia).
      rewrite getline_app by (apply Hd; now left).
      destruct (x ++ d :: glue d (y :: l) ++ [d]) eqn:E; [now destruct x|].
      rewrite IH; auto; [intros z Hz; apply Hd; now right|congruence]. }
  destruct (is_nil (glue d l ++ [d])) eqn:En; [destruct (glue d l); discriminate|].
  now apply G.
Qed.

(** * Globs *)

Lemma eqb_false_iff a b : Ascii.eqb a b = false <-> a <> b.
Proof. destruct (Ascii.eqb_spec a b); split; congruence. Qed.

Lemma glob_seek_spec c it :
  match glob_seek c it with
  | [] => ~ In c it
  | x :: r => x = c /\ exists s1, it = s1 ++ x :: r /\ ~ In c s1
  end.
Proof.
  induction it as [|x it IH]; cbn [glob_seek]; [tauto|].
  destruct (Ascii.eqb_spec c x) as [->|Hne].
  - split; [reflexivity|]. exists []. split; [reflexivity|tauto].
  - destruct (glob_seek c it) as [|y r].
    + intros [->|H]; tauto.
    + destruct IH as (-> & s1 & -> & Hn). split; [reflexivity|].
      exists (x :: s1). split; [reflexivity|]. intros [->|H]; tauto.
Qed.

Lemma gap_match_app g s1 s2 : gap_match g s2 -> gap_match g (s1 ++ s2).
Proof.
  intros H; inversion H; subst.
  - constructor.
  - rewrite app_assoc. now constructor.
  - rewrite app_assoc. now constructor.
Qed.

Lemma app_in_split (c : ascii) s1 s2 t1 t2 :
  s1 ++ c :: s2 = t1 ++ c :: t2 -> ~ In c t1 -> exists u, t2 = u ++ s2 /\ s1 ++ [c] = t1 ++ [c] ++ u
    \/ t2 = s2 /\ s1 = t1.
Proof.
  revert t1; induction s1 as [|x s1 IH]; intros t1 E Hn.
  - destruct t1 as [|y t1].
    + simpl in E. injection E as ->. exists []. now right.
    + simpl in E. injection E as -> E. exfalso; apply Hn; now left.
  - destruct t1 as [|y t1].
    + simpl in E. injection E as -> E. exists (s1 ++ [c]). left.
      rewrite <- app_assoc. now split.
    + simpl in E. injection E as -> E.
      destruct (IH t1 E) as (u & [[H1 H2]|[H1 H2]]).
      * intros H; apply Hn; now right.
      * exists u. left. split; auto. simpl. now rewrite H2.
      * exists u. right. subst. auto.
Qed.

Lemma gap_after (c : ascii) g s1 s2 t1 t2 :
  s1 ++ c :: s2 = t1 ++ c :: t2 -> ~ In c t1 -> gap_match g s2 -> gap_match g t2.
Proof.
  intros E Hn H. destruct (app_in_split c s1 s2 t1 t2 E Hn) as (u & [[-> _]|[-> _]]); auto.
  now apply gap_match_app.
Qed.

Lemma gap_after_star (c : ascii) g s1 s2 t1 t2 :
  s1 ++ c :: s2 = t1 ++ c :: t2 -> ~ In c t1 -> gap_match g (c :: s2) -> gap_match g (c :: t2).
Proof.
  intros E Hn H. destruct (app_in_split c s1 s2 t1 t2 E Hn) as (u & [[-> E2]|[-> _]]); auto.
  destruct u as [|x u].
  - exact H.
  - (* the last element of u is c *)
    assert (exists u', c :: (x :: u) = u' ++ [c]) as (u' & Eu).
    { assert (L : last (s1 ++ [c]) NUL = last (t1 ++ [c] ++ x :: u) NUL) by now rewrite E2.
      rewrite last_last in L.
      replace (t1 ++ [c] ++ x :: u) with ((t1 ++ [c]) ++ (x :: u)) in L by now rewrite <- app_assoc.
      destruct (exists_last (l := x :: u)) as (v & e & Ev); [congruence|].
      rewrite Ev in L. rewrite app_assoc, last_last in L. subst e.
      exists (c :: v). rewrite Ev. reflexivity. }
    change (c :: (x :: u) ++ s2) with ((c :: x :: u) ++ s2).
    rewrite Eu, <- app_assoc. apply gap_match_app. exact H.
Qed.

Lemma glob_loop_star g : forall it, glob_loop g it true = true <-> gap_match g it.
Proof.
  induction g as [|c g IH]; intros it; cbn [glob_loop].
  - rewrite orb_true_r. split; [constructor|auto].
  - pose proof (glob_seek_spec c it) as Hs.
    destruct (glob_seek c it) as [|x r]; cbn [is_nil andb].
    + split; [discriminate|].
      intros H; inversion H; subst; exfalso; apply Hs, in_or_app; right; now left.
    + destruct Hs as (-> & t1 & -> & Hn).
      destruct (Ascii.eqb_spec c "?") as [->|Hq].
      { rewrite IH. split; [now constructor|].
        intros H; inversion H; subst. eapply gap_after; eauto. }
      destruct (Ascii.eqb_spec c "*") as [->|Hst].
      { rewrite IH. split.
        - intros H. now apply gm_star.
        - intros H; inversion H; subst.
          + match goal with H : _ <> star |- _ => now elim H end.
          + eapply gap_after_star; eauto. }
      destruct (Ascii.eqb_spec c "+") as [->|Hp].
      { rewrite IH. split; [now constructor|].
        intros H; inversion H; subst. eapply gap_after; eauto. }
      rewrite Ascii.eqb_refl, IH. split; [now constructor|].
      intros H; inversion H; subst; [eapply gap_after; eauto|]. now unfold star in Hst.
Qed.

Lemma pos_match_cons c g x s :
  pos_match (c :: g) (x :: s) <-> (c = qmark \/ c = x) /\ pos_match g s.
Proof.
  unfold pos_match. split.
  - intros [Hl H]. split; [apply (H 0); reflexivity|]. split; [simpl in Hl; lia|].
    intros i a b Ha Hb. apply (H (S i)); auto.
  - intros [H1 [Hl H2]]. split; [simpl; lia|].
    intros [|i] a b Ha Hb; simpl in *; [congruence|eauto].
Qed.

Lemma starless_cons c g : starless (c :: g) <-> c <> star /\ c <> plus /\ starless g.
Proof. unfold starless. simpl. split; intros; intuition congruence. Qed.

Lemma pos_match_nil_l s : pos_match [] s <-> s = [].
Proof.
  split.
  - intros [H _]. now destruct s.
  - intros ->. split; auto. intros [|i] c d H; discriminate.
Qed.

Lemma pos_match_nil_r c g : ~ pos_match (c :: g) [].
Proof. intros [H _]. discriminate. Qed.

Lemma app_cons_case {A} (c x : A) g p q :
  c :: g = p ++ x :: q -> (p = [] /\ c = x /\ g = q) \/ (exists p', p = c :: p' /\ g = p' ++ x :: q).
Proof.
  destruct p as [|y p]; simpl; intros [= -> ->].
  - now left.
  - right. eauto.
Qed.

Lemma glob_match_exact g : forall s, glob_match g s = true <-> phosphor_glob g s.
Proof.
  unfold glob_match.
  induction g as [|c g IH]; intros s; cbn [glob_loop].
  - rewrite orb_false_r. split.
    + intros H. left. split; [now split|]. apply pos_match_nil_l. now destruct s.
    + intros [[_ H]|[(p & q & ? & ? & E & _)|(p & q & ? & ? & ? & E & _)]].
      * apply pos_match_nil_l in H. now subst.
      * now destruct p.
      * now destruct p.
  - cbn [andb].
    assert (Step : forall x r, c <> star -> c <> plus -> (c = qmark \/ c = x) ->
       (phosphor_glob g r <-> phosphor_glob (c :: g) (x :: r))).
    { intros x r Hs Hp Hx. unfold phosphor_glob. split.
      - intros [[H1 H2]|[(p & q & s1 & s2 & -> & H1 & -> & H2 & H3)|(p & q & s1 & y & s2 & -> & H1 & -> & H2 & H3)]].
        + left. split; [now apply starless_cons|now apply pos_match_cons].
        + right; left. exists (c :: p), q, (x :: s1), s2. repeat split; auto.
          1,2: apply starless_cons; auto. 1,2: apply pos_match_cons; auto.
        + right; right. exists (c :: p), q, (x :: s1), y, s2. repeat split; auto.
          1,2: apply starless_cons; auto. 1,2: apply pos_match_cons; auto.
      - intros [[H1 H2]|[(p & q & s1 & s2 & E & H1 & E2 & H2 & H3)|(p & q & s1 & y & s2 & E & H1 & E2 & H2 & H3)]].
        + left. split; [now apply starless_cons in H1|now apply pos_match_cons in H2].
        + right; left. apply app_cons_case in E as [(-> & -> & ->)|(p' & -> & ->)]; [congruence|].
          destruct s1 as [|y s1]; [now apply pos_match_nil_r in H2|].
          simpl in E2. injection E2 as -> ->. apply pos_match_cons in H2 as [_ H2].
          apply starless_cons in H1 as (_ & _ & H1).
          exists p', q, s1, s2. auto.
        + right; right. apply app_cons_case in E as [(-> & -> & ->)|(p' & -> & ->)]; [congruence|].
          destruct s1 as [|z s1]; [now apply pos_match_nil_r in H2|].
          simpl in E2. injection E2 as -> ->. apply pos_match_cons in H2 as [_ H2].
          apply starless_cons in H1 as (_ & _ & H1).
          exists p', q, s1, y, s2. auto. }
    assert (NoNil : c <> star -> ~ phosphor_glob (c :: g) []).
    { intros Hs [[H1 H2]|[(p & q & s1 & s2 & E & H1 & E2 & H2 & H3)|(p & q & s1 & y & s2 & E & H1 & E2 & H2 & H3)]].
      - now apply pos_match_nil_r in H2.
      - symmetry in E2. apply app_eq_nil in E2 as [-> ->].
        apply app_cons_case in E as [(-> & -> & ->)|(p' & -> & ->)]; [congruence|].
        now apply pos_match_nil_r in H2.
      - now destruct s1. }
    assert (NoMatch : forall x r, c <> star -> c <> plus -> c <> qmark -> c <> x ->
              ~ phosphor_glob (c :: g) (x :: r)).
    { intros x r Hs Hp Hq Hx [[H1 H2]|[(p & q & s1 & s2 & E & H1 & E2 & H2 & H3)|(p & q & s1 & y & s2 & E & H1 & E2 & H2 & H3)]].
      - apply pos_match_cons in H2. tauto.
      - apply app_cons_case in E as [(-> & -> & ->)|(p' & -> & ->)]; [congruence|].
        destruct s1 as [|z s1]; [now apply pos_match_nil_r in H2|].
        injection E2 as <- _. apply pos_match_cons in H2. tauto.
      - apply app_cons_case in E as [(-> & -> & ->)|(p' & -> & ->)]; [congruence|].
        destruct s1 as [|z s1]; [now apply pos_match_nil_r in H2|].
        injection E2 as <- _. apply pos_match_cons in H2. tauto. }
    destruct (Ascii.eqb_spec c "?") as [->|Hq].
    { destruct s as [|x r].
      - split; [discriminate|]. intros H. exfalso. revert H. apply NoNil. discriminate.
      - rewrite IH. apply Step; [discriminate|discriminate|now left]. }
    destruct (Ascii.eqb_spec c "*") as [->|Hs].
    { rewrite glob_loop_star. split.
      - intros H. right; left. exists [], g, [], s. repeat split; auto.
        all: try (simpl; tauto). intros [|i] ? ? H'; discriminate.
      - intros [[H1 H2]|[(p & q & s1 & s2 & E & H1 & -> & H2 & H3)|(p & q & s1 & y & s2 & E & H1 & -> & H2 & H3)]].
        + apply starless_cons in H1 as [H1 _]. now unfold star in H1.
        + apply app_cons_case in E as [(-> & _ & ->)|(p' & -> & ->)].
          * apply pos_match_nil_l in H2. now subst s1.
          * apply starless_cons in H1 as [H1 _]. now unfold star in H1.
        + apply app_cons_case in E as [(-> & E & ->)|(p' & -> & ->)]; [discriminate|].
          apply starless_cons in H1 as [H1 _]. now unfold star in H1. }
    destruct (Ascii.eqb_spec c "+") as [->|Hp].
    { destruct s as [|x r].
      - split; [discriminate|]. intros H. exfalso. revert H. apply NoNil. discriminate.
      - rewrite glob_loop_star. split.
        + intros H. right; right. exists [], g, [], x, r. repeat split; auto.
          all: try (simpl; tauto). intros [|i] ? ? H'; discriminate.
        + intros [[H1 H2]|[(p & q & s1 & s2 & E & H1 & E2 & H2 & H3)|(p & q & s1 & y & s2 & E & H1 & E2 & H2 & H3)]].
          * apply starless_cons in H1 as (_ & H1 & _). now unfold plus in H1.
          * apply app_cons_case in E as [(-> & E & ->)|(p' & -> & ->)]; [discriminate|].
            apply starless_cons in H1 as (_ & H1 & _). now unfold plus in H1.
          * apply app_cons_case in E as [(-> & _ & ->)|(p' & -> & ->)].
            -- apply pos_match_nil_l in H2. subst s1. injection E2 as -> ->. exact H3.
            -- apply starless_cons in H1 as (_ & H1 & _). now unfold plus in H1. }
    destruct s as [|x r].
    + split; [discriminate|]. intros H. exfalso. revert H. now apply NoNil.
    + destruct (Ascii.eqb_spec c x) as [->|Hx].
      * rewrite IH. apply Step; auto.
      * split; [discriminate|]. intros H; exfalso; revert H. now apply NoMatch.
Qed.

Lemma glob_starless g s : starless g -> (glob_match g s = true <-> pos_match g s).
Proof.
  intros Hg. rewrite glob_match_exact. split.
  - intros [[_ H]|[(p & q & s1 & s2 & -> & _)|(p & q & s1 & x & s2 & -> & _)]]; auto.
    + destruct Hg as [H _]. exfalso. apply H, in_or_app. right; now left.
    + destruct Hg as [_ H]. exfalso. apply H, in_or_app. right; now left.
  - intros H. left. auto.
Qed.

Lemma glob_literal g s : (forall c, In c g -> ~ wild c) -> (glob_match g s = true <-> s = g).
Proof.
  intros Hw. rewrite glob_starless.
  - split.
    + revert s Hw. induction g as [|c g IH]; intros s Hw H.
      * now apply pos_match_nil_l in H.
      * destruct s as [|x s]; [now apply pos_match_nil_r in H|].
        apply pos_match_cons in H as [[-> | ->] H].
        -- exfalso. apply (Hw qmark); [now left|]. unfold wild; auto.
        -- f_equal. apply IH; auto. intros d Hd. apply Hw. now right.
    + intros ->. split; auto. intros i c d H1 H2. right; congruence.
  - split; intros H; apply (Hw _ H); unfold wild; auto.
Qed.

Lemma starless_first p q p' q' (a b : ascii) :
  (a = star \/ a = plus) -> (b = star \/ b = plus) -> starless p -> starless p' ->
  p ++ a :: q = p' ++ b :: q' -> p = p' /\ a = b /\ q = q'.
Proof.
  intros Ha Hb. revert p'; induction p as [|x p IH]; intros [|y p'] H1 H2 E; simpl in E.
  - injection E as -> ->. auto.
  - injection E as E1 E2; subst. apply starless_cons in H2. intuition congruence.
  - injection E as E1 E2; subst. apply starless_cons in H1. intuition congruence.
  - injection E as -> E. apply starless_cons in H1, H2.
    destruct (IH p') as (-> & -> & ->); tauto.
Qed.

Lemma glob_prefix_star p s : starless p ->
  (glob_match (p ++ [star]) s = true <-> exists s1 s2, s = s1 ++ s2 /\ pos_match p s1).
Proof.
  intros Hp. rewrite glob_match_exact. split.
  - intros [[[H _] _]|[(p' & q & s1 & s2 & E & H1 & -> & H2 & H3)|(p' & q & s1 & y & s2 & E & H1 & -> & H2 & H3)]].
    + exfalso. apply H, in_or_app. right; now left.
    + apply starless_first in E as (-> & _ & _); auto. eauto.
    + apply starless_first in E as (_ & E & _); auto. discriminate.
  - intros (s1 & s2 & -> & H). right; left. exists p, [], s1, s2. repeat split; auto; try apply Hp; try apply H. constructor.
Qed.

Lemma glob_prefix_plus p s : starless p ->
  (glob_match (p ++ [plus]) s = true <-> exists s1 x s2, s = s1 ++ x :: s2 /\ pos_match p s1).
Proof.
  intros Hp. rewrite glob_match_exact. split.
  - intros [[[_ H] _]|[(p' & q & s1 & s2 & E & H1 & -> & H2 & H3)|(p' & q & s1 & y & s2 & E & H1 & -> & H2 & H3)]].
    + exfalso. apply H, in_or_app. right; now left.
    + apply starless_first in E as (_ & E & _); auto. discriminate.
    + apply starless_first in E as (-> & _ & _); auto. eauto.
  - intros (s1 & x & s2 & -> & H). right; right. exists p, [], s1, x, s2.
    repeat split; auto; try apply Hp; try apply H. constructor.
Qed.

Lemma glob_star_all s : glob_match [star] s = true.
Proof. apply (glob_prefix_star [] s); [now split|]. exists [], s. split; auto. now apply pos_match_nil_l. Qed.

(** Agreement with the usual globs: nothing the usual meaning accepts is
    rejected when the text after the first star or plus has no wildcard. *)
Lemma gap_match_literal q s1 s2 : (forall c, In c q -> ~ wild c) -> gap_match q (s1 ++ q ++ s2).
Proof.
  revert s1 s2; induction q as [|c q IH]; intros s1 s2 Hw; [constructor|].
  simpl. apply gm_lit.
  - intros ->. apply (Hw star); [now left|]. now left.
  - apply (IH [] s2). intros d Hd. apply Hw. now right.
Qed.

Lemma std_literal q s : (forall c, In c q -> ~ wild c) -> std_glob q s -> s = q.
Proof.
  revert s; induction q as [|c q IH]; intros s Hw H; inversion H; subst; auto.
  - f_equal. apply IH; auto. intros d Hd; apply Hw; now right.
  - exfalso. apply (Hw qmark); [now left|]. unfold wild; auto.
  - exfalso. apply (Hw star); [now left|]. unfold wild; auto.
  - exfalso. apply (Hw plus); [now left|]. unfold wild; auto.
Qed.

Lemma std_starless_pos p s : starless p -> std_glob p s <-> pos_match p s.
Proof.
  revert s; induction p as [|c p IH]; intros s Hp.
  - rewrite pos_match_nil_l. split; [now inversion 1|intros ->; constructor].
  - apply starless_cons in Hp as (H1 & H2 & Hp). split.
    + intros H; inversion H; subst; try congruence; apply pos_match_cons; split; auto; now apply IH.
    + intros H. destruct s as [|x s]; [now apply pos_match_nil_r in H|].
      apply pos_match_cons in H as [Hc H]. destruct (ascii_dec c qmark) as [->|Hq].
      * constructor. now apply IH.
      * destruct Hc as [Hc| ->]; [congruence|]. constructor; [unfold wild; tauto|]. now apply IH.
Qed.

Lemma std_glob_app p q s : starless p -> std_glob (p ++ q) s <->
  exists s1 s2, s = s1 ++ s2 /\ pos_match p s1 /\ std_glob q s2.
Proof.
  revert s; induction p as [|c p IH]; intros s Hp; simpl.
  - split.
    + intros H. exists [], s. repeat split; auto. intros [|i] ? ? E; discriminate.
    + intros (s1 & s2 & -> & H & H2). apply pos_match_nil_l in H. now subst s1.
  - apply starless_cons in Hp as (H1 & H2 & Hp). split.
    + intros H; inversion H; subst; try congruence.
      * match goal with H : std_glob (p ++ q) _ |- _ => apply IH in H as (s1 & s2 & -> & Ha & Hb) end; auto.
        exists (c :: s1), s2. repeat split; auto; apply pos_match_cons; auto.
      * match goal with H : std_glob (p ++ q) _ |- _ => apply IH in H as (s1 & s2 & -> & Ha & Hb) end; auto.
        exists (c0 :: s1), s2. repeat split; auto; apply pos_match_cons; auto.
    + intros (s1 & s2 & -> & Ha & Hb). destruct s1 as [|x s1]; [now apply pos_match_nil_r in Ha|].
      apply pos_match_cons in Ha as [Hc Ha]. simpl. destruct (ascii_dec c qmark) as [->|Hq].
      * constructor. apply IH; eauto.
      * destruct Hc as [Hc| ->]; [congruence|]. constructor; [unfold wild; tauto|]. apply IH; eauto.
Qed.

Lemma glob_accepts_std g s :
  (starless g \/ exists p a q, g = p ++ a :: q /\ (a = star \/ a = plus) /\ starless p /\
      (forall c, In c q -> ~ wild c)) ->
  std_glob g s -> glob_match g s = true.
Proof.
  intros [Hg|(p & a & q & -> & Ha & Hp & Hq)] H.
  - apply glob_starless; auto. now apply std_starless_pos.
  - apply std_glob_app in H as (s1 & s2 & -> & H1 & H2); auto.
    apply glob_match_exact. destruct Ha as [-> | ->].
    + right; left. exists p, q, s1, s2. repeat split; auto; try apply Hp; try apply H1.
      inversion H2; subst; [exfalso; apply H3; unfold wild; auto|].
      match goal with H : std_glob q _ |- _ => apply std_literal in H; auto; subst end.
      rewrite <- (app_nil_r q) at 2. now apply gap_match_literal.
    + right; right. inversion H2; subst; [exfalso; apply H3; unfold wild; auto|].
      match goal with H : std_glob q _ |- _ => apply std_literal in H; auto; subst end.
      eexists p, q, s1, c, (_ ++ q). repeat split; auto; try apply Hp; try apply H1.
      rewrite <- (app_nil_r q) at 2. now apply gap_match_literal.
Qed.

Lemma glob_std_trailing p s : starless p ->
  (glob_match (p ++ [star]) s = true <-> std_glob (p ++ [star]) s).
Proof.
  intros Hp. rewrite glob_prefix_star by auto. rewrite std_glob_app by auto. split.
  - intros (s1 & s2 & -> & H). exists s1, s2. repeat split; auto; try apply H.
    rewrite <- (app_nil_r s2). constructor. constructor.
  - intros (s1 & s2 & -> & H & _). eauto.
Qed.

Lemma glob_std_trailing_plus p s : starless p ->
  (glob_match (p ++ [plus]) s = true <-> std_glob (p ++ [plus]) s).
Proof.
  intros Hp. rewrite glob_prefix_plus by auto. rewrite std_glob_app by auto. split.
  - intros (s1 & x & s2 & -> & H). exists s1, (x :: s2). repeat split; auto; try apply H.
    rewrite <- (app_nil_r s2). constructor. constructor.
  - intros (s1 & s2 & -> & H & H2). inversion H2; subst.
    + exfalso. apply H3. unfold wild; auto.
    + eauto.
Qed.

(** * string_replace *)

Lemma is_prefix_spec p s : is_prefix p s = true <-> exists t, s = p ++ t.
Proof.
  revert s; induction p as [|x p IH]; intros s; simpl.
  - split; eauto.
  - destruct s as [|y s].
    + split; [discriminate|]. intros (t & H); discriminate.
    + rewrite andb_true_iff, IH. split.
      * intros [H1 (t & ->)]. apply Ascii.eqb_eq in H1. subst. now exists t.
      * intros (t & [= -> ->]). rewrite Ascii.eqb_refl. eauto.
Qed.


Lemma find_spec from s :
  match find from s with
  | Some n => occurs_at from s n /\ forall m, m < n -> ~ occurs_at from s m
  | None => forall n, ~ occurs_at from s n
  end.
Proof.
  assert (Z : forall from s, is_prefix from s = false -> ~ occurs_at from s 0).
  { clear. intros from s E (a & b & -> & Hl). destruct a; [|discriminate]. simpl in E.
    assert (is_prefix from (from ++ b) = true) by (apply is_prefix_spec; eauto). congruence. }
  assert (Sh : forall from c s n, occurs_at from (c :: s) (S n) <-> occurs_at from s n).
  { clear. intros from c s n. split.
    - intros (a & b & E & Hl). destruct a as [|x a]; [discriminate|].
      injection E as -> ->. exists a, b. auto.
    - intros (a & b & -> & Hl). exists (c :: a), b. split; auto. simpl. now rewrite Hl. }
  induction s as [|c s IH]; cbn [find].
  - destruct (is_prefix from []) eqn:E.
    + apply is_prefix_spec in E as (t & E). split; [|lia].
      exists [], t. now split.
    + intros n (a & b & H & _). destruct a; [|discriminate].
      assert (is_prefix from [] = true) by (apply is_prefix_spec; eauto). congruence.
  - destruct (is_prefix from (c :: s)) eqn:E.
    + apply is_prefix_spec in E as (t & E). split; [|lia]. exists [], t. now split.
    + destruct (find from s) as [n|]; cbn [option_map].
      * destruct IH as [H1 H2]. split; [now apply Sh|].
        intros [|m] Hm; [now apply Z|]. rewrite Sh. apply H2. lia.
      * intros [|n]; [now apply Z|]. rewrite Sh. apply IH.
Qed.

Lemma string_replace_spec str from to :
  (from = [] -> string_replace str from to = str) /\
  ((forall n, ~ occurs_at from str n) -> string_replace str from to = str) /\
  (forall a b, from <> [] -> str = a ++ from ++ b ->
     (forall m, m < length a -> ~ occurs_at from str m) ->
     string_replace str from to = a ++ to ++ b).
Proof.
  unfold string_replace. repeat split.
  - now intros ->.
  - intros H. destruct (is_nil from); auto. pose proof (find_spec from str) as F.
    destruct (find from str); auto. destruct F as [F _]. now apply H in F.
  - intros a b Hne E Hmin. destruct from as [|f0 from]; [congruence|]. cbn [is_nil].
    set (fr := f0 :: from) in *.
    pose proof (find_spec fr str) as F. destruct (find fr str) as [n|].
    + destruct F as [F1 F2].
      assert (n = length a) as ->.
      { destruct (Nat.lt_trichotomy n (length a)) as [H|[H|H]]; auto.
        - exfalso. now apply (Hmin n).
        - exfalso. apply (F2 (length a)); auto. exists a, b. auto. }
      rewrite E at 1. rewrite firstn_app, firstn_all, Nat.sub_diag. cbn [firstn].
      rewrite app_nil_r. f_equal. f_equal. rewrite E, app_assoc.
      rewrite <- app_length. rewrite skipn_app, skipn_all, Nat.sub_diag. reflexivity.
    + exfalso. apply (F (length a)). exists a, b. auto.
Qed.

(** * strnlen *)

Lemma strnlen_loop_spec s : forall m count, m <= length s ->
  strnlen_loop s m count = Some (count + length (c_str (firstn m s))).
Proof.
  induction s as [|c s IH]; intros [|m] count H; simpl in *; try lia; auto.
  destruct (Ascii.eqb c NUL); cbn [length]; [f_equal; lia|].
  rewrite IH by lia. f_equal. lia.
Qed.

Lemma to_json_inj s t : to_json s = to_json t -> s = t.
Proof.
  intros E. destruct (json_string_roundtrip s []) as (b1 & H1 & R1).
  destruct (json_string_roundtrip t []) as (b2 & H2 & R2).
  rewrite E, H2 in H1. injection H1 as H1. subst. congruence.
Qed.

Lemma glob_not_std :
  (exists g s, glob_match g s = true /\ ~ std_glob g s) /\
  (exists g s, glob_match g s = false /\ std_glob g s).
Proof.
  split.
  - exists $"*b", $"bc". split; [reflexivity|]. cbn. intros H.
    assert (G : exists s1, $"bc" = s1 ++ $"b").
    { inversion H; subst;
        try match goal with Hw : ~ wild _ |- _ => elim Hw; now left end.
      match goal with Hs : std_glob [_] ?x |- _ => apply std_literal in Hs; [subst|] end.
      - eexists; symmetry; eassumption.
      - intros c [<-|[]] [Hc|[Hc|Hc]]; discriminate Hc. }
    destruct G as (s1 & G). change $"bc" with ($"b" ++ $"c") in G.
    apply app_inj_tail in G as [_ G]. discriminate G.
  - exists $"**", $"a". split; [reflexivity|].
    change $"**" with [star; star]. change $"a" with ($"a" ++ []).
    constructor. change (@nil ascii) with (@nil ascii ++ []) at 2. constructor. constructor.
Qed.

Lemma strnlen_loop_iff : forall s n c k, strnlen_loop s n c = Some k <->
  exists j, k = c + j /\ j <= n /\ j <= length s /\ ~ In NUL (firstn j s) /\ (j = n \/ nth_error s j = Some NUL).
Proof.
  induction s as [|a s IH]; intros [|n] c k; cbn [strnlen_loop].
  - split; [intros [= <-]; exists 0; cbn; repeat split; auto; lia|]. intros (j & -> & L & _). f_equal. lia.
  - split; [discriminate|]. intros (j & -> & L & L2 & _ & [->|X]); [cbn in L2; lia|]. destruct j; discriminate.
  - split; [intros [= <-]; exists 0; cbn; repeat split; auto; lia|]. intros (j & -> & L & _). f_equal. lia.
  - destruct (Ascii.eqb a NUL) eqn:E.
    + apply Ascii.eqb_eq in E as ->. split.
      * intros [= <-]. exists 0. cbn. repeat split; auto; lia.
      * intros (j & -> & L & L2 & N & _). destruct j as [|j]; [f_equal; lia|]. destruct N. now left.
    + apply Ascii.eqb_neq in E. rewrite IH. split; intros (j & -> & L & L2 & N & X).
      * exists (S j). cbn [firstn length nth_error]. repeat split; try lia; [|destruct X; auto]. intros [H|H]; auto.
      * destruct j as [|j]; [destruct X as [X|[= X]]; [discriminate|contradiction]|]. exists j. cbn [firstn length nth_error] in *.
        repeat split; try lia; [intros H; apply N; now right|]. destruct X as [X|X]; auto.
Qed.
