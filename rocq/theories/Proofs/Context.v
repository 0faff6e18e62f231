(** Contexts own their buffers; exports of contexts that stay in place. *)
From Verif Require Import Base Spec.Text Spec.History Spec.Document Spec.Context Model.StringUtils Model.Event Model.Queue
  Model.Buffer Model.Export Model.Context Proofs.Export.

Lemma made_app a b : made (a ++ b) = made a ++ made b.
Proof. induction a as [|[] a IH]; cbn; auto. now rewrite IH. Qed.
Lemma deleted_app a b : deleted (a ++ b) = deleted a ++ deleted b.
Proof. induction a as [|[] a IH]; cbn; auto. now rewrite IH. Qed.
Lemma got_app e a b : got e (a ++ b) = got e a ++ got e b.
Proof. induction a as [|[] a IH]; cbn; auto. destruct (_ =? e); cbn; now rewrite IH. Qed.

Lemma put_same {A} (m : nat -> A) k a : put m k a k = a.
Proof. unfold put. now rewrite Nat.eqb_refl. Qed.
Lemma put_other {A} (m : nat -> A) k a x : x <> k -> put m k a x = m x.
Proof. unfold put. intros H. apply Nat.eqb_neq in H. now rewrite H. Qed.

Lemma NoDup_snoc {A} (l : list A) a : NoDup l -> ~ In a l -> NoDup (l ++ [a]).
Proof.
  intros N H. apply NoDup_rev in N. rewrite <- (rev_involutive (l ++ [a])). apply NoDup_rev.
  rewrite rev_app_distr. cbn. constructor; [|exact N]. now rewrite <- in_rev.
Qed.

Lemma drop_drop {A} (l : list A) : forall a b, skipn a (skipn b l) = skipn (a + b) l.
Proof.
  induction l as [|x l IH]; intros a b; [now rewrite !skipn_nil|]. destruct b as [|b]; [now rewrite Nat.add_0_r|].
  rewrite Nat.add_succ_r. cbn [skipn]. apply IH.
Qed.

(** Every live buffer has one owner; [p] is a buffer between two owners. *)
Record own (w : world) (p : option nat) : Prop := {
  ow_held : forall c b, getBuffer w c = Some b -> exists v, w_buf w b = Alive v;
  ow_one : forall c c' b, getBuffer w c = Some b -> getBuffer w c' = Some b -> c = c';
  ow_some : forall b v, w_buf w b = Alive v -> p = Some b \/ exists c, getBuffer w c = Some b;
  ow_p : forall b, p = Some b -> (exists v, w_buf w b = Alive v) /\ forall c, getBuffer w c <> Some b;
  ow_fresh : forall b, w_made w <= b -> w_buf w b = Absent;
  ow_old : forall b, b < w_made w -> w_buf w b <> Absent;
  ow_gone : forall b, w_buf w b = Gone <-> In b (deleted (w_hist w));
  ow_nodup : NoDup (deleted (w_hist w));
  ow_twice : forall b, ~ In (Twice b) (w_hist w);
  ow_val : forall b v, w_buf w b = Alive v -> In (Made b v) (w_hist w);
  ow_made : made (w_hist w) = seq 0 (w_made w);
}.

Lemma own_new : own world_new None.
Proof.
  split; cbn; intros; try discriminate; try lia; auto; try (split; [discriminate|tauto]).
  constructor.
Qed.

Lemma own_delete w p : own w p -> own (delete_buf w p) None.
Proof.
  intros O. destruct p as [b|]; [|exact O]. unfold delete_buf.
  destruct (ow_p _ _ O b eq_refl) as ((v & Ev) & Hno). rewrite Ev.
  assert (forall c, getBuffer (fact_w (set_buf w b Gone) (Deleted b)) c = getBuffer w c) as GB by reflexivity.
  split; cbn [fact_w set_buf w_buf w_hist w_made]; intros.
  - rewrite GB in H. rewrite put_other by (intros ->; exact (Hno _ H)). exact (ow_held _ _ O c b0 H).
  - rewrite GB in *. exact (ow_one _ _ O c c' b0 H H0).
  - unfold put in H. destruct (b0 =? b) eqn:E; [discriminate|]. apply Nat.eqb_neq in E.
    destruct (ow_some _ _ O b0 v0 H) as [K|(c & K)]; [congruence|]. right. exists c. now rewrite GB.
  - discriminate.
  - destruct (Nat.eq_dec b0 b) as [->|N]; [|rewrite put_other by exact N; exact (ow_fresh _ _ O b0 H)].
    rewrite (ow_fresh _ _ O b H) in Ev. discriminate.
  - unfold put. destruct (b0 =? b); [discriminate|]. exact (ow_old _ _ O b0 H).
  - rewrite deleted_app, in_app_iff. cbn. unfold put. destruct (b0 =? b) eqn:E.
    + apply Nat.eqb_eq in E. subst. tauto.
    + apply Nat.eqb_neq in E. rewrite (ow_gone _ _ O b0). intuition congruence.
  - rewrite deleted_app. cbn. apply NoDup_snoc; [exact (ow_nodup _ _ O)|].
    intros Ha. apply (ow_gone _ _ O) in Ha. congruence.
  - rewrite in_app_iff. cbn. intros [H|[H|[]]]; [exact (ow_twice _ _ O _ H)|discriminate].
  - unfold put in H. destruct (b0 =? b); [discriminate|]. apply in_app_iff. left. exact (ow_val _ _ O _ _ H).
  - rewrite made_app. cbn. rewrite app_nil_r. exact (ow_made _ _ O).
Qed.

(** The buffers change owners. *)
Lemma own_shift w w' p p' : own w p ->
  w_buf w' = w_buf w -> w_made w' = w_made w -> w_hist w' = w_hist w ->
  (forall c b, getBuffer w' c = Some b -> p = Some b \/ exists c0, getBuffer w c0 = Some b) ->
  (forall c c' b, getBuffer w' c = Some b -> getBuffer w' c' = Some b -> c = c') ->
  (forall b, p = Some b \/ (exists c, getBuffer w c = Some b) -> p' = Some b \/ exists c, getBuffer w' c = Some b) ->
  (forall b, p' = Some b -> (p = Some b \/ exists c, getBuffer w c = Some b) /\ forall c, getBuffer w' c <> Some b) ->
  own w' p'.
Proof.
  intros O EB EM EH A B C D.
  assert (forall b, p = Some b \/ (exists c, getBuffer w c = Some b) -> exists v, w_buf w b = Alive v) as AL.
  { intros b [H|(c & H)]; [apply (ow_p _ _ O b H)|exact (ow_held _ _ O c b H)]. }
  split; rewrite ?EB, ?EM, ?EH.
  - intros c b H. apply AL, (A c), H.
  - exact B.
  - intros b v H. apply C. destruct (ow_some _ _ O b v H) as [K|K]; [left; exact K|right; exact K].
  - intros b H. destruct (D b H) as (D1 & D2). split; [exact (AL b D1)|exact D2].
  - exact (ow_fresh _ _ O).
  - exact (ow_old _ _ O).
  - exact (ow_gone _ _ O).
  - exact (ow_nodup _ _ O).
  - exact (ow_twice _ _ O).
  - exact (ow_val _ _ O).
  - exact (ow_made _ _ O).
Qed.

(** Same owners, same buffers; the history grows by a fact about exports. *)
Definition of_export (f : fact) : Prop :=
  match f with Got _ _ | Threw _ _ | Undefined _ => True | _ => False end.

Lemma own_fact w p f : own w p -> of_export f -> own (fact_w w f) p.
Proof.
  intros O F. destruct O. split; cbn [fact_w w_buf w_made w_hist]; auto.
  - intros b. rewrite deleted_app. destruct f; try destruct F; cbn; rewrite app_nil_r; apply ow_gone0.
  - rewrite deleted_app. destruct f; try destruct F; cbn; now rewrite app_nil_r.
  - intros b. rewrite in_app_iff. intros [H|[->|[]]]; [exact (ow_twice0 b H)|destruct F].
  - intros b v H. apply in_app_iff. left. now apply ow_val0.
  - rewrite made_app. destruct f; try destruct F; cbn; now rewrite app_nil_r.
Qed.

Lemma getBuffer_set w c o x : getBuffer (set_ctx w c o) x =
  if x =? c then match o with Some o => o_buf o | None => None end else getBuffer w x.
Proof. unfold getBuffer, set_ctx, put; cbn. now destruct (x =? c). Qed.

Ltac eqb := repeat match goal with
  | H : context [?x =? ?y] |- _ => destruct (Nat.eqb_spec x y); subst
  | |- context [?x =? ?y] => destruct (Nat.eqb_spec x y); subst
  end.

Lemma own_make w c v ns : own w None -> getBuffer w c = None -> own (ctx_make w c v ns) None.
Proof.
  intros O HC. unfold ctx_make, make_buf. destruct v as [v|].
  2: { apply (own_shift w _ None None O); try reflexivity; try (intros; discriminate).
       - intros x b. cbn. change (getBuffer (new_map ?w) x) with (getBuffer w x). rewrite getBuffer_set. eqb; cbn; [discriminate|].
         intros H. right. now exists x.
       - intros x y b. change (getBuffer (new_map ?w) ?x) with (getBuffer w x). rewrite !getBuffer_set. cbn. eqb; try discriminate; auto.
         exact (ow_one _ _ O x y b).
       - intros b [H|(x & H)]; [discriminate|]. right. exists x. change (getBuffer (new_map ?w) ?x) with (getBuffer w x).
         rewrite getBuffer_set. eqb; [congruence|exact H]. }
  set (w' := new_map _).
  assert (forall x, getBuffer w' x = if x =? c then Some (w_made w) else getBuffer w x) as G.
  { intros x. unfold w'. change (getBuffer (new_map ?w) ?x) with (getBuffer w x). rewrite getBuffer_set. reflexivity. }
  assert (forall x b, getBuffer w x = Some b -> b <> w_made w) as OLD.
  { intros x b H ->. destruct (ow_held _ _ O x _ H) as (v0 & H'). rewrite (ow_fresh _ _ O) in H' by lia. discriminate. }
  split; unfold w'; cbn [new_map set_ctx w_buf w_made w_hist]; fold w'.
  - intros x b. rewrite G. unfold put. eqb; eauto; intros H; try (eapply ow_held; eauto; fail).
    injection H as <-. congruence.
  - intros x y b. rewrite !G. eqb; auto; intros H1 H2.
    + injection H1 as <-. now destruct (OLD _ _ H2).
    + injection H2 as <-. now destruct (OLD _ _ H1).
    + exact (ow_one _ _ O x y b H1 H2).
  - intros b v0. unfold put. eqb; intros H.
    + right. exists c. rewrite G. now rewrite Nat.eqb_refl.
    + destruct (ow_some _ _ O b v0 H) as [K|(x & K)]; [discriminate|]. right. exists x. rewrite G. eqb; congruence.
  - discriminate.
  - intros b H. rewrite put_other by lia. apply (ow_fresh _ _ O). lia.
  - intros b H. unfold put. eqb; [discriminate|]. apply (ow_old _ _ O). lia.
  - intros b. rewrite deleted_app. cbn. rewrite app_nil_r. unfold put. eqb; [|exact (ow_gone _ _ O b)].
    split; [discriminate|]. intros H. apply (ow_gone _ _ O) in H. rewrite (ow_fresh _ _ O) in H by lia. discriminate.
  - rewrite deleted_app. cbn. rewrite app_nil_r. exact (ow_nodup _ _ O).
  - intros b. rewrite in_app_iff. cbn. intros [H|[H|[]]]; [exact (ow_twice _ _ O _ H)|discriminate].
  - intros b v0. unfold put. rewrite in_app_iff. eqb.
    + intros [= ->]. right. now left.
    + intros H. left. exact (ow_val _ _ O _ _ H).
  - rewrite made_app, (ow_made _ _ O), seq_S. reflexivity.
Qed.

Lemma own_move w c d lft : own w None -> w_ctx w c = None -> own (ctx_move w c d lft) None.
Proof.
  intros O HC. unfold ctx_move, with_ctx. destruct (w_ctx w d) as [o|] eqn:Hd; [|exact O].
  assert (d <> c) as NE by congruence.
  set (w' := new_map _).
  assert (forall x, getBuffer w' x = if x =? d then None else if x =? c then getBuffer w d else getBuffer w x) as G.
  { intros x. unfold w'. change (getBuffer (new_map ?w) ?x) with (getBuffer w x). rewrite getBuffer_set. cbn [o_buf].
    change (getBuffer (new_map ?w) ?x) with (getBuffer w x). rewrite getBuffer_set. cbn [o_buf].
    unfold getBuffer at 2. now rewrite Hd. }
  assert (getBuffer w c = None) as HC' by (unfold getBuffer; now rewrite HC).
  apply (own_shift w _ None None O); try reflexivity; try (intros; discriminate).
  - intros x b. rewrite G. eqb; try discriminate; intros H; right; eauto.
  - intros x y b. rewrite !G. eqb; try discriminate; auto; intros H1 H2.
    all: pose proof (ow_one _ _ O _ _ b H1 H2); congruence.
  - intros b [H|(x & H)]; [discriminate|]. right. destruct (Nat.eq_dec x d) as [->|N].
    + exists c. rewrite G. eqb; congruence.
    + exists x. rewrite G. eqb; congruence.
Qed.

Lemma own_assign_buf w c d : own w None -> w_ctx w c <> None -> own (assign_buf w c d) None.
Proof.
  intros O EC. unfold assign_buf, with_ctx at 1. destruct (w_ctx w d) as [o|] eqn:Hd; [|exact O].
  set (w1 := set_ctx w d _). unfold with_ctx. destruct (w_ctx w1 c) as [old|] eqn:Hc.
  2: { unfold w1 in Hc. cbn in Hc. unfold put in Hc. destruct (c =? d); [discriminate|easy]. }
  apply own_delete. set (w2 := set_ctx w1 c _).
  assert (getBuffer w d = o_buf o) as GD by (unfold getBuffer; now rewrite Hd).
  assert (forall x, getBuffer w2 x = if x =? c then getBuffer w d else if x =? d then None else getBuffer w x) as G.
  { intros x. unfold w2, w1. rewrite !getBuffer_set. cbn [o_buf]. now rewrite GD. }
  assert (o_buf old = if c =? d then None else getBuffer w c) as EO.
  { unfold w1 in Hc. cbn in Hc. unfold put in Hc. eqb; [now injection Hc as <-|]. unfold getBuffer. now rewrite Hc. }
  apply (own_shift w _ None _ O); try reflexivity; try (intros; discriminate).
  - intros x b. rewrite G. eqb; try discriminate; intros H; right; eauto.
  - intros x y b. rewrite !G. eqb; try discriminate; auto; intros H1 H2.
    all: pose proof (ow_one _ _ O _ _ b H1 H2); congruence.
  - intros b [H|(x & H)]; [discriminate|]. rewrite EO. destruct (Nat.eq_dec x d) as [->|N].
    + right. exists c. rewrite G. eqb; congruence.
    + destruct (Nat.eq_dec x c) as [->|N'].
      * left. eqb; congruence.
      * right. exists x. rewrite G. eqb; congruence.
  - intros b. rewrite EO. destruct (Nat.eqb_spec c d) as [|NE]; [discriminate|]. intros H. split; [right; eauto|].
    intros x. rewrite G. eqb; try discriminate; intros H'.
    all: pose proof (ow_one _ _ O _ _ b H H'); congruence.
Qed.

(** Steps that leave owners, buffers and history alone. *)
Lemma own_same w w' p : own w p -> w_buf w' = w_buf w -> w_made w' = w_made w -> w_hist w' = w_hist w ->
  (forall c, getBuffer w' c = getBuffer w c) -> own w' p.
Proof.
  intros O EB EM EH G. apply (own_shift w w' p p O EB EM EH).
  - intros c b. rewrite G. eauto.
  - intros c c' b. rewrite !G. apply (ow_one _ _ O).
  - intros b [H|(c & H)]; [now left|right]. exists c. now rewrite G.
  - intros b H. split; [now left|]. intros c. rewrite G. exact (proj2 (ow_p _ _ O b H) c).
Qed.

Lemma assign_names_same w c d lft :
  w_buf (assign_names w c d lft) = w_buf w /\ w_made (assign_names w c d lft) = w_made w /\
  w_hist (assign_names w c d lft) = w_hist w /\ w_exp (assign_names w c d lft) = w_exp w /\
  forall x, getBuffer (assign_names w c d lft) x = getBuffer w x.
Proof.
  unfold assign_names, with_ctx. destruct (w_ctx w c) as [oc|] eqn:Hc; [|auto].
  destruct (w_ctx w d) as [od|] eqn:Hd; [|auto].
  cbn [new_map set_ctx w_ctx].
  assert (forall x, getBuffer (set_ctx w c (Some {| o_buf := o_buf oc; o_names := o_names od; o_map := w_maps w |})) x = getBuffer w x) as G1.
  { intros x. rewrite getBuffer_set. cbn [o_buf]. eqb; [|reflexivity]. unfold getBuffer. now rewrite Hc. }
  destruct (Nat.eq_dec d c) as [->|NE]; [rewrite !put_same|rewrite !put_other, !Hd by exact NE]; cbn [o_buf];
    do 4 (split; [reflexivity|]); intros x; change (getBuffer (new_map ?w) ?x) with (getBuffer w x);
    rewrite getBuffer_set; cbn [o_buf]; change (getBuffer (new_map ?w) ?x) with (getBuffer w x); rewrite G1.
  - eqb; [|reflexivity]. unfold getBuffer. now rewrite Hc.
  - eqb; [|reflexivity]. unfold getBuffer. now rewrite Hd.
Qed.

Lemma own_drop w c : own w None -> own (ctx_drop w c) None.
Proof.
  intros O. unfold ctx_drop, with_ctx. destruct (w_ctx w c) as [o|] eqn:Hc; [|exact O].
  apply own_delete. assert (getBuffer w c = o_buf o) as <- by (unfold getBuffer; now rewrite Hc).
  apply (own_shift w _ None _ O); try reflexivity.
  - intros x b. rewrite getBuffer_set. eqb; [discriminate|]. eauto.
  - intros x y b. rewrite !getBuffer_set. eqb; try discriminate. apply (ow_one _ _ O).
  - intros b [H|(x & H)]; [discriminate|]. destruct (Nat.eq_dec x c) as [->|N]; [now left|].
    right. exists x. rewrite getBuffer_set. eqb; congruence.
  - intros b H. split; [right; eauto|]. intros x. rewrite getBuffer_set. eqb; [discriminate|].
    intros H'. pose proof (ow_one _ _ O _ _ b H H'). congruence.
Qed.

Lemma there_some {A} (o : option A) : there o = true -> o <> None.
Proof. now destruct o. Qed.
Lemma there_none {A} (o : option A) : negb (there o) = true -> o = None.
Proof. now destruct o. Qed.

Section Runs.
  Variable mem : memory.
  Variable pid : Z.

  Lemma own_step w o : own w None -> own (cstep mem pid w o) None.
  Proof.
    intros O. unfold cstep. destruct (usable w o) eqn:U; [|exact O]. destruct o as [c v ns|c d lft|c d lft|c|e c|e n|e]; cbn in U.
    - apply own_make; [exact O|]. unfold getBuffer. now rewrite (there_none _ U).
    - apply andb_true_iff in U as (U1 & U2). apply own_move; [exact O|now apply there_none].
    - apply andb_true_iff in U as (U1 & U2). unfold ctx_assign.
      destruct (assign_names_same (assign_buf w c d) c d lft) as (A1 & A2 & A3 & _ & A5).
      apply (own_same (assign_buf w c d)); auto. apply own_assign_buf; [exact O|now apply there_some].
    - now apply own_drop.
    - unfold exp_make, with_ctx. destruct (w_ctx w c); [|exact O].
      destruct (o_buf t) as [b|]; [|now apply own_fact]. destruct (w_buf w b); try (now apply own_fact).
      destruct (export_new _); try (now apply own_fact). now apply (own_same w).
    - unfold exp_read. destruct (w_exp w e) as [p|]; [|exact O].
      destruct (read_at _ _ _ _ _) as [[out x]|x|]; try (now apply own_fact).
      apply own_fact; [|exact I]. now apply (own_same w).
    - now apply (own_same w).
  Qed.

  Lemma own_run os : own (crun mem pid world_new os) None.
  Proof.
    unfold crun. assert (forall w, own w None -> own (fold_left (cstep mem pid) os w) None) as H.
    { induction os as [|o os IH]; intros w O; [exact O|]. cbn. apply IH, own_step, O. }
    apply H, own_new.
  Qed.

  Lemma switch_at_ok v x : x_switch_at mem pid (Ok v) x = x_switch mem pid v x.
  Proof. unfold x_switch_at, x_switch. now destruct (x_state x). Qed.

  Lemma read_loop_at_ok v : forall fuel x len out,
    read_loop_at mem pid fuel (Ok v) x len out = read_loop mem pid fuel v x len out.
  Proof.
    induction fuel as [|f IH]; intros x len out; [reflexivity|]. cbn [read_loop_at read_loop].
    destruct (_ && _); [|reflexivity]. destruct (_ && _); [reflexivity|]. rewrite switch_at_ok.
    destruct (x_switch mem pid v _); cbn [bind]; auto.
  Qed.

  Lemma read_at_ok v ns x n : read_at mem pid (Ok v) x n = read mem pid {| cx_buffer := Some v; cx_names := ns |} x n.
  Proof. unfold read_at, read. cbn [cx_buffer of_opt bind]. apply read_loop_at_ok. Qed.

  Lemma read_at_done lk x n : x_state x = dead -> x_cache x = [] -> read_at mem pid lk x n = Ok ([], x).
  Proof.
    intros D C. unfold read_at.
    assert (exists f, match lk with Ok v => read_fuel v x | _ => 4 end = S f) as (f & ->).
    { destruct lk; [|now exists 3|now exists 3]. unfold read_fuel. exists (length (x_tit x) + total_events a + 3). lia. }
    cbn [read_loop_at]. rewrite D, C. cbn [is_dead is_nil andb negb]. now rewrite andb_false_r.
  Qed.

  Lemma read_at_opening lk x n : x_state x = opening -> x_cache x = [] -> lk = UB -> 1 <= n ->
    read_at mem pid lk x n = UB.
  Proof.
    intros D C -> L. unfold read_at. cbn [read_loop_at length]. rewrite D, C. cbn [is_dead is_nil andb negb].
    replace (0 <? n) with true by (symmetry; apply Nat.ltb_lt; lia). cbn [andb].
    unfold x_switch_at. cbn [with_cache x_state]. rewrite D. reflexivity.
  Qed.

  (** Export [e] of context [c], which has not changed, has given out [k] bytes of [text]. *)
  Record steady (w : world) (e c : nat) (v : view) (text : bytes) (k : nat) : Prop := {
    st_w : own w None;
    st_p : exists p o, w_exp w e = Some p /\ p_ctx p = c /\ w_ctx w c = Some o /\ o_buf o = Some (p_buf p) /\
             o_map o = p_map p /\ w_buf w (p_buf p) = Alive v /\
             good mem pid v (p_x p) /\ remaining mem pid v (p_x p) = skipn k text;
  }.

  (** Operations that do not concern export [e] of context [c]. *)
  Definition aside (w w' : world) (e c : nat) : Prop :=
    w_exp w' e = w_exp w e /\ w_ctx w' c = w_ctx w c /\
    (forall b v, getBuffer w c = Some b -> w_buf w b = Alive v -> w_buf w' b = Alive v) /\
    exists h, w_hist w' = w_hist w ++ h /\ got e h = [] /\ sound e h.

  Lemma aside_refl w e c : aside w w e c.
  Proof. unfold aside, sound. repeat split; auto. exists []. rewrite app_nil_r. cbn. auto. Qed.

  Lemma aside_trans w w1 w2 e c : aside w w1 e c -> aside w1 w2 e c -> aside w w2 e c.
  Proof.
    intros (A1 & A2 & A3 & h & A4 & A5 & A6 & A7) (B1 & B2 & B3 & h' & B4 & B5 & B6 & B7).
    assert (getBuffer w1 c = getBuffer w c) as G by (unfold getBuffer; now rewrite A2).
    split; [congruence|]. split; [congruence|]. split.
    - intros b v H1 H2. apply B3; [congruence|]. now apply A3.
    - exists (h ++ h'). rewrite B4, A4, app_assoc. split; [reflexivity|]. rewrite got_app, A5, B5. split; [reflexivity|].
      split; [|intros x]; rewrite in_app_iff; intros [H|H]; eauto; [eapply A7|eapply B7]; eauto.
  Qed.

  Lemma aside_ctx w x o e c : x <> c -> aside w (set_ctx w x o) e c.
  Proof.
    intros N. unfold aside, sound. cbn. rewrite put_other by congruence. repeat split; auto.
    exists []. rewrite app_nil_r. cbn. auto.
  Qed.

  Lemma aside_map w e c : aside w (new_map w) e c.
  Proof. unfold aside, sound. repeat split; auto. exists []. cbn. rewrite app_nil_r. cbn. auto. Qed.

  Lemma aside_exp w x p e c : x <> e -> aside w (set_exp w x p) e c.
  Proof.
    intros N. unfold aside, sound. cbn. rewrite put_other by congruence. repeat split; auto.
    exists []. rewrite app_nil_r. cbn. auto.
  Qed.

  Lemma aside_fact w f e c : got e [f] = [] -> sound e [f] -> aside w (fact_w w f) e c.
  Proof. intros H1 H2. unfold aside. repeat split; auto. exists [f]. auto. Qed.

  Lemma aside_delete w p e c : (forall b, p = Some b -> getBuffer w c <> Some b) -> aside w (delete_buf w p) e c.
  Proof.
    intros N. unfold delete_buf. destruct p as [b|]; [|apply aside_refl]. specialize (N b eq_refl).
    destruct (w_buf w b) eqn:E; try (apply aside_fact; [reflexivity|split; [|intros x]; intros [H|[]]; discriminate]).
    split; [reflexivity|]. split; [reflexivity|]. split.
    - intros b' v' H1 H2. cbn. rewrite put_other; [exact H2|]. congruence.
    - exists [Deleted b]. split; [reflexivity|]. split; [reflexivity|].
      split; [|intros x]; intros [H|[]]; discriminate.
  Qed.

  Lemma aside_make_buf w v e c : own w None -> aside w (fst (make_buf w v)) e c.
  Proof.
    intros O. destruct v as [v|]; [|apply aside_refl]. cbn. split; [reflexivity|]. split; [reflexivity|]. split.
    - intros b v' H1 H2. cbn. rewrite put_other; [exact H2|]. intros ->. rewrite (ow_fresh _ _ O) in H2 by lia. discriminate.
    - exists [Made (w_made w) v]. split; [reflexivity|]. split; [reflexivity|].
      split; [|intros x]; intros [H|[]]; discriminate.
  Qed.

  Lemma sound_other e e' f : e' <> e -> (f = Undefined e' \/ (exists x, f = Threw e' x) \/ exists o, f = Got e' o) ->
    got e [f] = [] /\ sound e [f].
  Proof.
    intros N [->|[(x & ->)|(o & ->)]]; cbn; apply Nat.eqb_neq in N as N'; rewrite ?N'; (split; [reflexivity|]);
      (split; [|intros y]; intros [H|[]]; congruence).
  Qed.

  Lemma step_aside w o e c : own w None -> w_exp w e <> None ->
    ~ touches c o -> ~ forgets e o -> (forall n, o <> CRead e n) -> aside w (cstep mem pid w o) e c.
  Proof.
    intros O He HT HF HR. unfold cstep. destruct (usable w o) eqn:U; [|apply aside_refl].
    destruct o as [c' v ns|c' d lft|c' d lft|c'|e' c'|e' n|e']; cbn in U, HT, HF.
    - unfold ctx_make. pose proof (aside_make_buf w v e c O) as M. destruct (make_buf w v) as [w1 b]. cbn [fst] in M.
      eapply aside_trans; [exact M|]. eapply aside_trans; [|apply aside_map]. apply aside_ctx. exact HT.
    - unfold ctx_move, with_ctx. destruct (w_ctx w d); [|apply aside_refl].
      eapply aside_trans; [|apply aside_map]. eapply aside_trans; [|apply aside_ctx; tauto].
      eapply aside_trans; [|apply aside_map]. apply aside_ctx. tauto.
    - unfold ctx_assign. apply (aside_trans _ (assign_buf w c' d)).
      + unfold assign_buf, with_ctx at 1. destruct (w_ctx w d) as [o|] eqn:Hd; [|apply aside_refl].
        set (w1 := set_ctx w d _). unfold with_ctx. destruct (w_ctx w1 c') as [old|] eqn:Hc; [|apply aside_ctx; tauto].
        apply (aside_trans _ w1); [apply aside_ctx; tauto|]. eapply aside_trans; [apply (aside_ctx _ c'); tauto|].
        apply aside_delete. intros b Hb. rewrite getBuffer_set. destruct (Nat.eqb_spec c c'); [subst; tauto|].
        unfold w1. rewrite getBuffer_set. destruct (Nat.eqb_spec c d); [subst; tauto|].
        unfold w1 in Hc. cbn in Hc. unfold put in Hc. destruct (Nat.eqb_spec c' d) as [->|N'].
        * injection Hc as <-. discriminate.
        * intros H. destruct n. apply (ow_one _ _ O c c' b H). unfold getBuffer. now rewrite Hc.
      + unfold assign_names, with_ctx. destruct (w_ctx (assign_buf w c' d) c'); [|apply aside_refl].
        destruct (w_ctx (assign_buf w c' d) d); [|apply aside_refl].
        match goal with |- context [match ?m with Some _ => _ | None => _ end] => destruct m end.
        * eapply aside_trans; [|apply aside_map]. eapply aside_trans; [|apply aside_ctx; tauto].
          eapply aside_trans; [|apply aside_map]. apply aside_ctx. tauto.
        * eapply aside_trans; [|apply aside_map]. apply aside_ctx. tauto.
    - unfold ctx_drop, with_ctx. destruct (w_ctx w c') as [o|] eqn:Hc; [|apply aside_refl].
      eapply aside_trans; [apply aside_ctx; exact HT|]. apply aside_delete. intros b Hb. rewrite getBuffer_set.
      destruct (Nat.eqb_spec c c'); [congruence|]. intros H. destruct n. apply (ow_one _ _ O c c' b H).
      unfold getBuffer. now rewrite Hc.
    - apply andb_true_iff in U as (U1 & U2). assert (e' <> e) as N by (intros ->; apply there_none in U1; easy).
      unfold exp_make, with_ctx. destruct (w_ctx w c') as [o|]; [|apply aside_refl].
      assert (aside w (fact_w w (Undefined e')) e c) as AU.
      { apply aside_fact; apply (sound_other e e' (Undefined e') N); auto. }
      destruct (o_buf o); [|exact AU]. destruct (w_buf w n); try exact AU. destruct (export_new _).
      + now apply aside_exp.
      + apply aside_fact; apply (sound_other e e' _ N); eauto.
      + exact AU.
    - assert (e' <> e) as N by (intros ->; now apply (HR n)).
      unfold exp_read. destruct (w_exp w e') as [p|]; [|apply aside_refl].
      destruct (read_at _ _ _ _ _) as [[out x]|x|].
      + eapply aside_trans; [apply (aside_exp _ e'); exact N|]. apply aside_fact; apply (sound_other e e' _ N); eauto.
      + apply aside_fact; apply (sound_other e e' _ N); eauto.
      + apply aside_fact; apply (sound_other e e' _ N); eauto.
    - apply aside_exp. exact HF.
  Qed.

  Lemma steady_aside w w' e c v text k : steady w e c v text k -> own w' None -> aside w w' e c -> steady w' e c v text k.
  Proof.
    intros [O (p & o & S1 & S2 & S3 & S4 & S5 & S6 & S7)] O' (A1 & A2 & A3 & _). split; [exact O'|].
    exists p, o. rewrite A1, A2. do 5 (split; [assumption|]). split; [|exact S7].
    apply A3; [|exact S6]. unfold getBuffer. now rewrite S3.
  Qed.

  Lemma steady_read w e c v text k n : steady w e c v text k ->
    let w' := cstep mem pid w (CRead e n) in
    steady w' e c v text (k + n) /\ w_hist w' = w_hist w ++ [Got e (firstn n (skipn k text))].
  Proof.
    intros [O (p & o & S1 & S2 & S3 & S4 & S5 & S6 & S7 & S8)].
    assert (own (cstep mem pid w (CRead e n)) None) as O' by now apply own_step.
    revert O'. unfold cstep. cbn [usable]. rewrite S1. cbn [there]. unfold exp_read. rewrite S1.
    assert (look w p = Ok v) as L.
    { unfold look. rewrite S2, S3, S4, S5, !Nat.eqb_refl. cbn [andb]. now rewrite S6. }
    rewrite L, (read_at_ok v (o_names o)).
    destruct (read_spec mem pid v (o_names o) (p_x p) n S7) as (x' & R1 & R2 & R3). rewrite R1, S8.
    intros O'. cbv zeta. split; [|reflexivity]. split; [exact O'|].
    exists {| p_ctx := p_ctx p; p_buf := p_buf p; p_map := p_map p; p_x := x' |}, o.
    cbn. rewrite put_same. do 6 (split; [assumption || reflexivity|]). split; [exact R2|].
    rewrite R3, S8, drop_drop. f_equal. lia.
  Qed.

  Lemma steady_run os : forall w e c v text k, steady w e c v text k ->
    (forall o, In o os -> ~ touches c o /\ ~ forgets e o) ->
    steady (crun mem pid w os) e c v text (k + list_sum (asked e os)) /\
    exists h, w_hist (crun mem pid w os) = w_hist w ++ h /\ sound e h /\ got e h = cut (asked e os) (skipn k text).
  Proof.
    induction os as [|o os IH]; intros w e c v text k S H.
    - cbn. rewrite Nat.add_0_r. split; [exact S|]. exists []. rewrite app_nil_r. repeat split; auto.
    - assert (forall o, In o os -> ~ touches c o /\ ~ forgets e o) as H' by (intros; apply H; now right).
      change (crun mem pid w (o :: os)) with (crun mem pid (cstep mem pid w o) os).
      assert ((exists n, o = CRead e n) \/ forall n, o <> CRead e n) as [(n & ->)|N].
      { destruct o as [| | | | |e' n|]; try (right; discriminate). destruct (Nat.eq_dec e' e) as [->|NE]; [left; eauto|right; congruence]. }
      + destruct (steady_read w e c v text k n S) as (S' & EH).
        destruct (IH _ e c v text (k + n) S' H') as (S2 & h & E2 & F2 & G2).
        cbn [asked]. rewrite Nat.eqb_refl. cbn [list_sum fold_right cut]. change (fold_right Nat.add 0 (asked e os)) with (list_sum (asked e os)). rewrite Nat.add_assoc. split; [exact S2|].
        exists (Got e (firstn n (skipn k text)) :: h). rewrite E2, EH, <- app_assoc. split; [reflexivity|]. split.
        * destruct F2 as (F2 & F3). split; [|intros x]; intros [K|K]; try discriminate; [now apply F2|now apply (F3 x)].
        * cbn [got]. rewrite Nat.eqb_refl. f_equal. rewrite G2, drop_drop. f_equal. f_equal. lia.
      + assert (asked e (o :: os) = asked e os) as EA.
        { destruct o as [| | | | |e' n|]; try reflexivity. cbn. destruct (Nat.eqb_spec e' e) as [->|]; [now destruct (N n)|reflexivity]. }
        destruct (H o (or_introl eq_refl)) as (H1 & H2).
        assert (w_exp w e <> None) as He by (destruct (st_p _ _ _ _ _ _ S) as (p & o' & E & _); congruence).
        pose proof (step_aside w o e c (st_w _ _ _ _ _ _ S) He H1 H2 N) as A.
        assert (steady (cstep mem pid w o) e c v text k) as S'.
        { apply (steady_aside w); auto. apply own_step, (st_w _ _ _ _ _ _ S). }
        destruct (IH _ e c v text k S' H') as (S2 & h & E2 & F2 & G2). rewrite EA. split; [exact S2|].
        destruct A as (_ & _ & _ & h0 & A4 & A5 & A6). exists (h0 ++ h). rewrite E2, A4, app_assoc. split; [reflexivity|].
        rewrite got_app, A5. cbn [app]. split; [|exact G2]. destruct A6 as (A6 & A7), F2 as (F2 & F3).
        split; [|intros x]; rewrite in_app_iff; intros [K|K]; eauto; [eapply A7|eapply F3]; eauto.
  Qed.

  (** The beginning of an export. *)
  Lemma steady_start w e c b v ns text : own w None -> w_exp w e = None ->
    getBuffer w c = Some b -> w_buf w b = Alive v -> getThreadNames w c = Some ns -> document mem pid v ns text ->
    steady (cstep mem pid w (CExport e c)) e c v text 0 /\ w_hist (cstep mem pid w (CExport e c)) = w_hist w.
  Proof.
    intros O He Hb Hv Hn HD. assert (own (cstep mem pid w (CExport e c)) None) as O' by now apply own_step.
    revert O'. unfold cstep. cbn [usable]. rewrite He. unfold getBuffer in Hb. unfold getThreadNames in Hn.
    destruct (w_ctx w c) as [o|] eqn:Hc; [|discriminate]. injection Hn as Hn. cbn [there negb andb].
    unfold exp_make, with_ctx. rewrite Hc, Hb, Hv.
    destruct (new_spec mem pid v ns text HD) as (x & E & G & R & _). rewrite Hn, E. intros O'. split; [|reflexivity].
    split; [exact O'|]. exists {| p_ctx := c; p_buf := b; p_map := o_map o; p_x := x |}, o. cbn. rewrite put_same.
    do 6 (split; [assumption || reflexivity|]). split; [exact G|exact R].
  Qed.

  (** An export that has given out everything needs its context no more. *)
  Definition finished (w : world) (e : nat) : Prop :=
    exists p, w_exp w e = Some p /\ x_state (p_x p) = dead /\ x_cache (p_x p) = [].

  Lemma steady_finished w e c v text k : steady w e c v text k -> length text <= k -> finished w e.
  Proof.
    intros [_ (p & o & S1 & S2 & S3 & S4 & S5 & S6 & (S7 & S7') & S8)] L.
    rewrite skipn_all2 in S8 by lia. exists p. split; [exact S1|].
    assert (x_state (p_x p) = dead) as D by (apply S7'; rewrite S8; cbn; lia).
    split; [exact D|]. rewrite (remaining_dead mem pid v (p_x p) D) in S8. exact S8.
  Qed.

  Lemma untouched o : exists c, ~ touches c o.
  Proof.
    destruct o as [c|c d|c d|c| | |]; cbn; try (now exists 0); [exists (S c)|exists (S (c + d))|exists (S (c + d))|exists (S c)]; lia.
  Qed.

  Lemma exports_stay w o e : own w None -> w_exp w e <> None -> ~ forgets e o -> (forall n, o <> CRead e n) ->
    w_exp (cstep mem pid w o) e = w_exp w e /\
    exists h, w_hist (cstep mem pid w o) = w_hist w ++ h /\ got e h = [] /\ sound e h.
  Proof.
    intros O He HF HR. destruct (untouched o) as (c & HT).
    destruct (step_aside w o e c O He HT HF HR) as (A1 & _ & _ & A). auto.
  Qed.

  Lemma reads_dec o e : (exists n, o = CRead e n) \/ forall n, o <> CRead e n.
  Proof.
    destruct o as [| | | | |e' n|]; try (right; discriminate).
    destruct (Nat.eq_dec e' e) as [->|NE]; [left; eauto|right; congruence].
  Qed.

  Lemma asked_other o e os : (forall n, o <> CRead e n) -> asked e (o :: os) = asked e os.
  Proof.
    intros N. destruct o as [| | | | |e' n|]; try reflexivity. cbn.
    destruct (Nat.eqb_spec e' e) as [->|]; [now destruct (N n)|reflexivity].
  Qed.

  Lemma sound_app e a b : sound e a -> sound e b -> sound e (a ++ b).
  Proof.
    intros (A1 & A2) (B1 & B2). split; [|intros x]; rewrite in_app_iff; intros [K|K]; eauto; [eapply A2|eapply B2]; eauto.
  Qed.

  Lemma finished_run os : forall w e, own w None -> finished w e -> (forall o, In o os -> ~ forgets e o) ->
    exists h, w_hist (crun mem pid w os) = w_hist w ++ h /\ sound e h /\ got e h = map (fun _ => []) (asked e os).
  Proof.
    induction os as [|o os IH]; intros w e O F H.
    - exists []. cbn. rewrite app_nil_r. repeat split; auto.
    - assert (forall o, In o os -> ~ forgets e o) as H' by (intros; apply H; now right).
      change (crun mem pid w (o :: os)) with (crun mem pid (cstep mem pid w o) os).
      pose proof (own_step w o O) as O'.
      destruct F as (p & F1 & F2 & F3). destruct (reads_dec o e) as [(n & ->)|N].
      + assert (cstep mem pid w (CRead e n) = fact_w (set_exp w e (Some {| p_ctx := p_ctx p; p_buf := p_buf p; p_map := p_map p; p_x := p_x p |})) (Got e [])) as E.
        { unfold cstep. cbn [usable]. rewrite F1. cbn [there]. unfold exp_read. rewrite F1.
          now rewrite (read_at_done _ _ _ F2 F3). }
        assert (finished (cstep mem pid w (CRead e n)) e) as F'.
        { rewrite E. eexists. cbn. rewrite put_same. split; [reflexivity|]. auto. }
        destruct (IH _ e O' F' H') as (h & E2 & S2 & G2). exists (Got e [] :: h).
        rewrite E2, E. cbn [fact_w set_exp w_hist]. rewrite <- app_assoc. split; [reflexivity|]. split.
        * apply (sound_app e [_]); [|exact S2]. split; [|intros x]; intros [K|[]]; discriminate.
        * cbn [got asked]. rewrite Nat.eqb_refl. cbn [map]. now f_equal.
      + destruct (exports_stay w o e O ltac:(congruence) (H o (or_introl eq_refl)) N) as (A1 & h0 & A2 & A3 & A4).
        assert (finished (cstep mem pid w o) e) as F' by (exists p; rewrite A1; auto).
        destruct (IH _ e O' F' H') as (h & E2 & S2 & G2). exists (h0 ++ h).
        rewrite E2, A2, app_assoc, got_app, A3, (asked_other o e os N). split; [reflexivity|].
        split; [now apply sound_app|exact G2].
  Qed.

  (** The maps of contexts are numbered in the order they are made. *)
  Definition numbered (w : world) : Prop := forall c o, w_ctx w c = Some o -> o_map o < w_maps w.

  (** A step gives contexts the maps they had, or new ones. *)
  Definition renews (w w' : world) (cs : list nat) : Prop :=
    w_maps w <= w_maps w' /\
    forall c o', w_ctx w' c = Some o' ->
      (~ In c cs /\ exists o, w_ctx w c = Some o /\ o_map o = o_map o') \/ (w_maps w <= o_map o' < w_maps w').

  Lemma renews_trans w w1 w2 a b : renews w w1 a -> renews w1 w2 b -> renews w w2 (a ++ b).
  Proof.
    intros (A1 & A2) (B1 & B2). split; [lia|]. intros c o' H. destruct (B2 c o' H) as [(K & o & K1 & K2)|K]; [|right; lia].
    destruct (A2 c o K1) as [(L & o0 & L1 & L2)|L]; [|right; lia].
    left. split; [rewrite in_app_iff; tauto|]. exists o0. split; [exact L1|congruence].
  Qed.

  Lemma renews_same w w' : w_maps w' = w_maps w -> w_ctx w' = w_ctx w -> renews w w' [].
  Proof. intros E1 E2. split; [lia|]. rewrite E2. intros c o' H. left. split; [easy|]. now exists o'. Qed.

  Lemma renews_delete w p : renews w (delete_buf w p) [].
  Proof. unfold delete_buf. destruct p as [b|]; [destruct (w_buf w b)|]; now apply renews_same. Qed.

  (** A new value with a new map. *)
  Lemma renews_set w c b ns : renews w (new_map (set_ctx w c (Some {| o_buf := b; o_names := ns; o_map := w_maps w |}))) [c].
  Proof.
    split; [cbn; lia|]. cbn. intros x o'. unfold put. destruct (Nat.eqb_spec x c) as [->|N].
    - intros [= <-]. right. cbn. lia.
    - intros H. left. split; [intros [->|[]]; now apply N|]. now exists o'.
  Qed.

  (** A new buffer with the same map. *)
  Lemma renews_buf w c o b : w_ctx w c = Some o ->
    renews w (set_ctx w c (Some {| o_buf := b; o_names := o_names o; o_map := o_map o |})) [].
  Proof.
    intros E. split; [cbn; lia|]. cbn. intros x o'. unfold put. destruct (Nat.eqb_spec x c) as [->|N].
    - intros [= <-]. left. split; [easy|]. exists o. split; [exact E|reflexivity].
    - intros H. left. split; [easy|]. now exists o'.
  Qed.

  Lemma renews_none w c : renews w (set_ctx w c None) [c].
  Proof.
    split; [cbn; lia|]. cbn. intros x o'. unfold put. destruct (Nat.eqb_spec x c) as [->|N]; [discriminate|].
    intros H. left. split; [intros [->|[]]; now apply N|]. now exists o'.
  Qed.

  Lemma renews_less w w' a b : renews w w' a -> incl b a -> renews w w' b.
  Proof.
    intros (A1 & A2) I. split; [exact A1|]. intros c o' H. destruct (A2 c o' H) as [(K & L)|K]; [|now right].
    left. split; [|exact L]. intros X. apply K, I, X.
  Qed.

  Definition touched (o : cop) : list nat :=
    match o with
    | CMake c _ _ => [c] | CMove c d _ | CAssign c d _ => [c; d] | CDrop c => [c] | _ => []
    end.

  Lemma renews_assign_buf w c d : renews w (assign_buf w c d) [].
  Proof.
    unfold assign_buf, with_ctx at 1. destruct (w_ctx w d) as [o|] eqn:Hd; [|now apply renews_same].
    set (w1 := set_ctx w d _). pose proof (renews_buf w d o None Hd : renews w w1 []) as R1.
    unfold with_ctx. destruct (w_ctx w1 c) as [old|] eqn:Hc; [|exact R1].
    eapply (renews_trans _ _ _ [] []); [exact R1|]. eapply (renews_trans _ _ _ [] []); [apply (renews_buf w1 c old (o_buf o) Hc)|].
    apply renews_delete.
  Qed.

  Lemma assign_buf_there w c d x : w_ctx w x <> None -> w_ctx (assign_buf w c d) x <> None.
  Proof.
    intros H. unfold assign_buf, with_ctx at 1. destruct (w_ctx w d) as [o|] eqn:Hd; [|exact H].
    set (w1 := set_ctx w d _). assert (w_ctx w1 x <> None) as H1.
    { unfold w1. cbn. unfold put. destruct (x =? d); [discriminate|exact H]. }
    unfold with_ctx. destruct (w_ctx w1 c) as [old|] eqn:Hc; [|exact H1].
    set (w2 := set_ctx w1 c _). assert (w_ctx w2 x <> None) as H2.
    { unfold w2. cbn [set_ctx w_ctx]. unfold put at 1. destruct (x =? c); [discriminate|exact H1]. }
    unfold delete_buf. destruct (o_buf old) as [b|]; [destruct (w_buf w2 b)|]; exact H2.
  Qed.

  Lemma renews_step w o : usable w o = true -> renews w (cstep mem pid w o) (touched o).
  Proof.
    intros U. unfold cstep. rewrite U. destruct o as [c v ns|c d lft|c d lft|c|e c|e n|e]; cbn in U; cbn [touched].
    - unfold ctx_make, make_buf. destruct v as [v|]; [|apply renews_set].
      eapply (renews_trans _ _ _ [] [c]); [|apply renews_set]. now apply renews_same.
    - apply andb_true_iff in U as (_ & U). unfold ctx_move, with_ctx. destruct (w_ctx w d) as [o|]; [|discriminate].
      eapply (renews_trans _ _ _ [c] [d]); apply renews_set.
    - apply andb_true_iff in U as (U1 & U2). unfold ctx_assign.
      eapply (renews_trans _ _ _ [] [c; d]); [apply renews_assign_buf|].
      pose proof (assign_buf_there w c d c (there_some _ U1)) as T1.
      pose proof (assign_buf_there w c d d (there_some _ U2)) as T2.
      set (w1 := assign_buf w c d) in *. unfold assign_names, with_ctx.
      destruct (w_ctx w1 c) as [oc|] eqn:Hc; [|easy]. destruct (w_ctx w1 d) as [od|] eqn:Hd; [|easy].
      set (w2 := new_map (set_ctx w1 c _)).
      assert (exists od', w_ctx w2 d = Some od') as (od' & ->).
      { unfold w2. cbn. unfold put. destruct (d =? c); eauto. }
      eapply (renews_trans _ _ _ [c] [d]); apply renews_set.
    - unfold ctx_drop, with_ctx. destruct (w_ctx w c) as [o|]; [|discriminate].
      eapply (renews_trans _ _ _ [c] []); [apply renews_none|apply renews_delete].
    - unfold exp_make, with_ctx. destruct (w_ctx w c) as [o|]; [|now apply renews_same].
      destruct (o_buf o) as [b|]; [destruct (w_buf w b); [|destruct (export_new _)|]|]; now apply renews_same.
    - unfold exp_read. destruct (w_exp w e) as [p|]; [|now apply renews_same].
      destruct (read_at _ _ _ _ _) as [[]| |]; now apply renews_same.
    - now apply renews_same.
  Qed.

  Lemma touched_spec c o : touches c o <-> In c (touched o).
  Proof. destruct o; cbn; intuition congruence. Qed.

  Lemma renews_any w o : renews w (cstep mem pid w o) [].
  Proof.
    destruct (usable w o) eqn:U; [|unfold cstep; rewrite U; now apply renews_same].
    apply (renews_less _ _ (touched o)); [now apply renews_step|easy].
  Qed.

  Lemma numbered_step w o : numbered w -> numbered (cstep mem pid w o).
  Proof.
    intros H c o' E. destruct (renews_any w o) as (R1 & R2). destruct (R2 c o' E) as [(_ & o0 & K1 & K2)|K]; [|lia].
    pose proof (H c o0 K1). lia.
  Qed.

  Lemma numbered_run os : forall w, numbered w -> numbered (crun mem pid w os).
  Proof. induction os as [|o os IH]; intros w H; [exact H|]. apply IH, numbered_step, H. Qed.

  (** An export that has not been read from, and whose context is not what it was. *)
  Definition orphan (w : world) (e : nat) : Prop :=
    exists p, w_exp w e = Some p /\ x_state (p_x p) = opening /\ x_cache (p_x p) = [] /\ p_map p < w_maps w /\
      forall o, w_ctx w (p_ctx p) = Some o -> o_map o <> p_map p.

  Lemma orphan_read w e n : orphan w e -> 1 <= n -> cstep mem pid w (CRead e n) = fact_w w (Undefined e).
  Proof.
    intros (p & P1 & P2 & P3 & P4 & P5) L. unfold cstep. cbn [usable]. rewrite P1. cbn [there]. unfold exp_read. rewrite P1.
    assert (look w p = UB) as LK.
    { unfold look. destruct (w_ctx w (p_ctx p)) as [o|]; [|reflexivity]. destruct (o_buf o); [|reflexivity].
      specialize (P5 o eq_refl). apply Nat.eqb_neq in P5. now rewrite P5, andb_false_r. }
    now rewrite (read_at_opening _ _ _ P2 P3 LK L).
  Qed.

  Lemma read_at_none lk x : x_state x = opening -> x_cache x = [] -> read_at mem pid lk x 0 = Ok ([], x).
  Proof.
    intros D C. unfold read_at.
    assert (exists f, match lk with Ok v => read_fuel v x | _ => 4 end = S f) as (f & ->).
    { destruct lk; [|now exists 3|now exists 3]. unfold read_fuel. exists (length (x_tit x) + total_events a + 3). lia. }
    reflexivity.
  Qed.

  Lemma orphan_step w o e : own w None -> orphan w e -> ~ forgets e o -> orphan (cstep mem pid w o) e.
  Proof.
    intros O P HF. destruct (reads_dec o e) as [(n & ->)|N].
    - destruct (Nat.eq_dec n 0) as [->|NE].
      + destruct P as (p & P1 & P2 & P3 & P4 & P5). unfold cstep. cbn [usable]. rewrite P1. cbn [there]. unfold exp_read. rewrite P1.
        rewrite (read_at_none _ _ P2 P3). eexists. cbn. rewrite put_same. split; [reflexivity|]. cbn. auto.
      + rewrite (orphan_read w e n P ltac:(lia)). exact P.
    - destruct P as (p & P1 & P2 & P3 & P4 & P5).
      destruct (exports_stay w o e O ltac:(congruence) HF N) as (A1 & _).
      exists p. rewrite A1. do 3 (split; [assumption|]). destruct (renews_any w o) as (R1 & R2). split; [lia|].
      intros o' H. destruct (R2 _ o' H) as [(_ & o0 & K1 & K2)|K]; [|lia]. rewrite <- K2. exact (P5 o0 K1).
  Qed.

  Lemma orphan_run os : forall w e, own w None -> orphan w e -> (forall o, In o os -> ~ forgets e o) ->
    orphan (crun mem pid w os) e.
  Proof.
    induction os as [|o os IH]; intros w e O P H; [exact P|].
    apply (IH (cstep mem pid w o)); [now apply own_step|apply orphan_step; auto; apply H; now left|].
    intros o' I. apply H. now right.
  Qed.

  (** Touching the context of a fresh export makes it an orphan. *)
  Lemma orphan_made w e c o : own w None -> numbered w ->
    (exists p, w_exp w e = Some p /\ p_ctx p = c /\ x_state (p_x p) = opening /\ x_cache (p_x p) = [] /\ p_map p < w_maps w) ->
    usable w o = true -> touches c o -> orphan (cstep mem pid w o) e.
  Proof.
    intros O NB (p & P1 & P2 & P3 & P4 & P5) U T.
    destruct (exports_stay w o e O ltac:(congruence)) as (A1 & _).
    { destruct o; cbn in T |- *; auto. }
    { destruct o; cbn in T; congruence || contradiction. }
    exists p. rewrite A1. do 3 (split; [assumption|]). destruct (renews_step w o U) as (R1 & R2). split; [lia|].
    rewrite P2. intros o' H. destruct (R2 _ o' H) as [(K & _)|K]; [|lia]. now apply touched_spec in T.
  Qed.
End Runs.
