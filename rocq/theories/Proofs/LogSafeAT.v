(** Memory safety: who relies on the current buffer. *)
From Verif Require Import Base Model.StringUtils Model.Event Model.Queue Model.Buffer Model.Config Spec.Categories Model.Registry
  Model.Interleave Spec.LogHistory Spec.LogFacts Model.TraceLog Proofs.Interleave Proofs.Registry Proofs.LogFrame Proofs.LogView Proofs.LogViewInv
  Proofs.LogContract Proofs.LogBuffers Proofs.LogSafe Proofs.LogSafeInv.

Section SafeAT.
  Variables cap csz : N.
  Variable site_cat : nat -> bytes.

  Notation reached := (reached cap csz site_cat).

  (** What [AT] depends on. *)
  Lemma AT_frame s f s' t p' : AT s f ->
    enabled s' = enabled s -> bufp s' = bufp s -> nbuf s <= nbuf s' ->
    (forall u, t_chunk (ten s' u) = t_chunk (ten s u) /\ t_init (ten s' u) = t_init (ten s u)) ->
    (forall b, b < nbuf s -> b_owner (heap s' b) = b_owner (heap s b) /\
      (bufp s = Some b \/ (b_issued (heap s' b) = b_issued (heap s b) /\ b_queue (heap s' b) = b_queue (heap s b)))) ->
    (m_slave p' = true -> m_pin p' = true -> (m_slave (f t) = true /\ m_pin (f t) = true) \/ (t_init (ten s t) = true /\ enabled s = true)) ->
    (m_hold p' = m_hold (f t) \/ forall on ev, m_hold (f t) = Some (on, ev) -> ev = []) ->
    (forall b, m_new p' = Some b -> m_new (f t) = Some b /\ m_hold p' <> None) ->
    (forall x, m_bp p' = Some x -> bufp s = x /\ steady p') ->
    (forall x, m_ck p' = Some x -> t_chunk (ten s t) = x /\ guarded p') ->
    AT s' (tset f t p').
  Proof.
    intros A E1 E2 E3 E4 E5 P1 P2 P3 P4 P5. split.
    - intros u Hu. rewrite E1, (proj2 (E4 u)).
      assert (X : attached s f u \/ (u = t /\ t_init (ten s u) = true /\ enabled s = true)).
      { unfold attached in *. rewrite (proj1 (E4 u)) in Hu. byt u t; [|tauto]. destruct Hu as [[H1 H2]|Hu]; [|tauto]. destruct (P1 H1 H2) as [?|?]; [tauto|right; tauto]. }
      destruct X as [X|[-> X]]; [|tauto]. apply (at_att _ _ A) in X as [X1 [X2|[v [on [ev [X2 X3]]]]]]; [tauto|]. split; auto. right.
      exists v, on, ev. split; auto. byt v t; auto. destruct P2 as [P2|P2]; [congruence|]. apply P2 in X2. subst ev. easy.
    - intros b. rewrite E2. intros Hb. apply (at_buf _ _ A) in Hb as [Hb Ho]. rewrite (proj1 (E5 b Hb)). split; auto. lia.
    - intros u b Hn. assert (X : m_new (f u) = Some b /\ m_hold (tset f t p' u) <> None).
      { byt u t; auto. split; auto. now apply (at_new _ _ A) in Hn. }
      destruct X as [X Y]. apply (at_new _ _ A) in X as [X1 [X2 [X3 [X4 [X5 X6]]]]]. destruct (E5 b X2) as [F1 [F2|[F2 F3]]]; [easy|].
      rewrite F1, F2, F3, E2. repeat split; auto. lia.
    - intros u x. rewrite E2. byt u t; [apply P4|apply (at_bp _ _ A)].
    - intros u x. rewrite (proj1 (E4 u)). byt u t; [apply P5|apply (at_ck _ _ A)].
    - intros u b i. rewrite (proj1 (E4 u)), E2. apply (at_ch _ _ A).
  Qed.

  (** Replacing the buffer when nobody relies on it. *)
  Lemma AT_swap s f s' t p' : AT s f -> (forall u, ~ attached s f u) -> (forall u, m_hold (f u) <> None -> u = t) -> LK s f ->
    nbuf s' = nbuf s -> ten s' = ten s ->
    (forall b, bufp s' = Some b -> b < nbuf s /\ b_owner (heap s' b) = Mine) ->
    (m_slave p' = true -> m_pin p' = true -> m_slave (f t) = true /\ m_pin (f t) = true) ->
    m_new p' = None -> m_bp p' = None -> (forall x, m_ck p' = Some x -> m_ck (f t) = Some x /\ guarded p') ->
    AT s' (tset f t p').
  Proof.
    intros A D H L E3 E4 E5 P1 P2 P3 P4.
    assert (D' : forall u, ~ attached s' (tset f t p') u).
    { intros u Hu. apply (D u). unfold attached in *. rewrite E4 in Hu. byt u t; [|tauto]. destruct Hu as [[X Y]|Hu]; [left; auto|tauto]. }
    assert (C : forall u, t_chunk (ten s u) = None) by (intros u; destruct (t_chunk (ten s u)) eqn:E; auto; destruct (D u); right; congruence).
    split.
    - intros u Hu. now apply D' in Hu.
    - intros b Hb. rewrite E3. auto.
    - intros u b Hn. byt u t; [congruence|]. apply (at_new _ _ A) in Hn as [Hn _]. now apply H in Hn.
    - intros u x Hx. byt u t; [congruence|]. apply (at_bp _ _ A) in Hx as [Hx [Hs|Hs]]; [|now apply H in Hs]. destruct (D u). now left.
    - intros u x Hx. rewrite E4. byt u t; [|now apply (at_ck _ _ A) in Hx]. apply P4 in Hx as [Hx Hg]. split; auto. now apply (at_ck _ _ A) in Hx.
    - intros u b i. rewrite E4, C. easy.
  Qed.

  (** Changing one chunk pointer. *)
  Lemma AT_chunk s f t u v p' : AT s f -> (v <> None -> attached s f u) -> (forall b i, v = Some (b, i) -> bufp s = Some b) ->
    (forall w x, w <> t -> m_ck (f w) = Some x -> w <> u) ->
    m_slave p' = m_slave (f t) -> m_pin p' = m_pin (f t) -> m_bp p' = m_bp (f t) -> m_new p' = m_new (f t) ->
    (m_hold p' <> None <-> m_hold (f t) <> None) ->
    (forall on ev w, m_hold (f t) = Some (on, ev) -> In w ev -> (w = u /\ v = None /\ m_slave (f u) = false) \/ exists on' ev', m_hold p' = Some (on', ev') /\ In w ev') ->
    (forall x, m_ck p' = Some x -> tset (ten s) u (set_tchunk (ten s u) v) t = set_tchunk (ten s t) x /\ guarded p') ->
    AT (put_ten s u (set_tchunk (ten s u) v)) (tset f t p').
  Proof.
    intros A V B C P1 P2 P3 P4 P5 P6 P7.
    assert (Ti : forall w, t_init (tset (ten s) u (set_tchunk (ten s u) v) w) = t_init (ten s w)) by (intros w; byt w u; auto).
    assert (St : steady (f t) -> steady p') by (unfold steady; rewrite P1, P2, P5; auto).
    split; cbn [put_ten set_ten enabled bufp nbuf heap ten].
    - intros w Hw. rewrite Ti.
      assert (X : attached s f w).
      { unfold attached in *. cbn [put_ten set_ten ten] in Hw. destruct Hw as [Hw|Hw]; [left; byt w t; congruence|].
        byt w u; [apply V; exact Hw|now right]. }
      apply (at_att _ _ A) in X as Y. destruct Y as [Y1 [Y2|[z [on [ev [Y2 Y3]]]]]]; [tauto|]. split; auto. right.
      destruct (Nat.eq_dec z t) as [->|N]; [|exists z, on, ev; now rewrite tset_other].
      destruct (P6 _ _ _ Y2 Y3) as [[-> [-> Hs]]|[on' [ev' H]]]; [|exists t, on', ev'; now rewrite tset_same].
      exfalso. destruct Hw as [[Hw _]|Hw]; [|cbn in Hw; rewrite tset_same in Hw; now apply Hw]. byt u t; congruence.
    - apply (at_buf _ _ A).
    - intros w b Hn. byt w t; [|now apply (at_new _ _ A) in Hn]. rewrite P4 in Hn. apply (at_new _ _ A) in Hn. rewrite P5. exact Hn.
    - intros w x Hx. byt w t; [|now apply (at_bp _ _ A)]. rewrite P3 in Hx. apply (at_bp _ _ A) in Hx as [Hx Hs]. auto.
    - intros w x Hx. byt w t; [apply P7 in Hx as [-> Hg]; auto|]. assert (w <> u) by eauto. rewrite !tset_other by auto. now apply (at_ck _ _ A).
    - intros w b i. byt w u; [apply B|apply (at_ch _ _ A)].
  Qed.

  Lemma regd_init s u : reached s -> t_init (ten s u) = mem u (regd s).
  Proof. intros R. destruct (full_inv _ _ _ s R) as [_ [g [I _]]]. apply (g_init _ _ _ I). Qed.

  (** When the destructor frees the buffer. *)
  Lemma at_end s t k : reached s -> code s t = Act AFree k -> enabled s = false /\ mtx s = None.
  Proof.
    intros R Ec. destruct (allowed _ _ _ s t AFree k R Ec) as [g [I O]]. destruct O as [O1 [O2 [q [O3 [O4 O5]]]]].
    pose proof (g_mine _ _ _ I _ O2) as Oc. destruct (g_after _ _ _ I _ _ O3 Oc) as [Em <-]. split; auto. rewrite (g_on _ _ _ I). cbn in O4; apply O4.
  Qed.

  (** What the proofs below use of the log's other invariants. *)
  Record facts (s : st) : Prop := {
    fa_init : forall u, t_init (ten s u) = mem u (regd s);
    fa_nodup : NoDup (regd s);
    fa_end : forall t k, code s t = Act AFree k -> enabled s = false /\ mtx s = None;
  }.

  Lemma reached_facts s : reached s -> facts s.
  Proof.
    intros R. split.
    - intros u. now apply regd_init.
    - destruct (full_inv _ _ _ s R) as [_ [g [I _]]]. apply (g_nodup _ _ _ I).
    - intros t k. now apply at_end.
  Qed.

  Lemma exec_AT s f t ch a s' r : facts s -> (closing s = None \/ closing s = Some t) -> LK s f -> AT s f -> OW cap s f ->
    (exists k, code s t = Act a k) -> okB t (f t) a ->
    exec cap s t ch a = Next s' r -> AT s' (tset f t (nextB (enabled s) (regd s) (f t) a r)).
  Proof.
    intros R Cl L A W [k Ec] O E.
    assert (Own : forall u, m_hold (f t) <> None -> m_hold (f u) <> None -> u = t).
    { intros u X Y. apply (lk_hold _ _ L) in X, Y. congruence. }
    assert (Id : forall u, t_chunk (ten s u) = t_chunk (ten s u) /\ t_init (ten s u) = t_init (ten s u)) by auto.
    pose proof (at_bp _ _ A t) as Ab. pose proof (at_ck _ _ A t) as Ac. pose proof (at_new _ _ A t) as An.
    assert (Hd : forall b, b < nbuf s -> b_owner (heap s b) = b_owner (heap s b) /\
      (bufp s = Some b \/ (b_issued (heap s b) = b_issued (heap s b) /\ b_queue (heap s b) = b_queue (heap s b)))) by auto.
    assert (Hn : forall b, m_new (f t) = Some b -> m_new (f t) = Some b /\ m_hold (f t) <> None).
    { intros b X. split; auto. now apply An in X. }
    assert (Hput : forall b x, bufp s = Some b -> b_owner x = b_owner (heap s b) -> forall c, c < nbuf s ->
      b_owner (tset (heap s) b x c) = b_owner (heap s c) /\ (bufp s = Some c \/
        (b_issued (tset (heap s) b x c) = b_issued (heap s c) /\ b_queue (tset (heap s) b x c) = b_queue (heap s c)))).
    { intros b x Eb Eo c _. byt c b; auto. }
    destruct a; try solve [ex E; cbn [okB] in O; cbn [nextB];
      repeat match goal with |- context [tset _ _ (if ?x then _ else _)] => destruct x eqn:? end;
      apply (AT_frame s); auto; same; fin].
    - (* ALdEnabled *) ex E. cbn [nextB]. destruct (enabled s) eqn:En; [destruct (m_slave (f t) && m_ini (f t)) eqn:Sl|destruct (m_pin (f t)) eqn:Sl];
        apply (AT_frame s); cbn; fin.
      + intros _ _. right. split; auto. apply andb_true_iff in Sl as [_ Sl]. now apply (lk_ini _ _ L) in Sl.
      + intros x X. apply Ab in X as [X [Y|Y]]; split; auto; [left|right]; cbn; tauto.
    - (* AXchg *) destruct O as [[on O] [O1 [O2 [O3 [O4 [O5 O6]]]]]]. ex E; cbn [nextB].
      + split; cbn [set_enabled emit set_hist enabled bufp nbuf heap ten].
        * intros u Hu. assert (Hu' : attached s f u).
          { unfold attached in *. cbn [set_enabled emit set_hist ten] in Hu. byt u t; [cbn in Hu; destruct Hu as [[Hu _]|Hu]; [easy|auto]|auto]. }
          apply (at_att _ _ A) in Hu' as [Hi _]. split; auto. right. exists t, false, (regd s). rewrite tset_same. split; auto.
          apply mem_In. now rewrite <- (fa_init s R u).
        * apply (at_buf _ _ A).
        * intros u b. byt u t; [easy|apply (at_new _ _ A)].
        * intros u x. byt u t; [easy|apply (at_bp _ _ A)].
        * intros u x. byt u t; [easy|apply (at_ck _ _ A)].
        * apply (at_ch _ _ A).
      + apply (AT_frame s); cbn; fin.
    - (* AStEnabled *) destruct O as [O [O1 [O2 O3]]]. ex E. cbn [nextB]. pose proof (detached _ _ _ L A O) as D.
      apply (AT_swap s); cbn; fin; try apply (at_buf _ _ A). intros u Hu. apply Own; congruence.
    - (* AUnlock *) ex E. cbn [nextB]. destruct O as [[on O] _]. apply (AT_frame s); cbn; fin.
    - (* ALdGen *) ex E. cbn [nextB]. destruct (m_exh (f t)); [|destruct (m_hold (f t)) as [[]|] eqn:Hh]; apply (AT_frame s); cbn; fin; try (intros b0 X; split; auto; now apply (at_new _ _ A) in X).
    - (* ABufGet *) ex E. cbn [nextB]. destruct (bufp s) eqn:Eb; [|destruct (m_pin (f t)) eqn:Sl]; apply (AT_frame s); cbn; rewrite ?Eb; fin; try (intros b0 X; split; auto; now apply (at_new _ _ A) in X).
    - (* ABufTake *) destruct O as [O O1]. ex E. cbn [nextB]. pose proof (detached _ _ _ L A O) as D.
      apply (AT_swap s); cbn; auto; try (destruct (bufp s); reflexivity); try easy; try (intros u Hu; apply Own; congruence).
      intros x X. split; auto. now apply Ac in X.
    - (* ABufSet *) destruct O as [O [O1 _]]. ex E. cbn [nextB]. pose proof (detached _ _ _ L A O) as D.
      apply (AT_swap s); cbn; auto; try (destruct (bufp s); reflexivity); try easy; try (intros u Hu; apply Own; congruence).
      + intros b Hb. rewrite O1 in Hb. apply An in Hb as [X1 [X2 [X3 [X4 X5]]]]. split; auto. destruct (bufp s) as [b0|] eqn:Eb; auto. cbn.
        rewrite tset_other by congruence. auto.
      + intros x X. split; auto. now apply Ac in X.
    - (* AFactory *) destruct O as [O O1].
      assert (Fresh : forall x b, b < nbuf s -> tset (heap s) (nbuf s) x b = heap s b) by (intros x b Hb; apply tset_other; lia).
      assert (New : forall b x p', m_new p' = Some b -> b = nbuf s -> m_hold p' = m_hold (f t) -> m_slave p' = m_slave (f t) -> m_pin p' = m_pin (f t) ->
        m_bp p' = m_bp (f t) -> m_ck p' = m_ck (f t) -> b_owner x = Mine -> b_issued x = 0%N -> b_queue x = [] ->
        forall h, AT (set_hist (set_nbuf (put_buf s (nbuf s) x) (S (nbuf s))) h) (tset f t p')).
      { intros b x p' P1 -> P2 P3 P4 P5 P6 X1 X2 X3 h.
        split; cbn [set_hist set_nbuf put_buf set_heap enabled bufp nbuf heap ten].
        - intros u Hu. assert (Hu' : attached s f u).
          { unfold attached in *. cbn [set_hist set_nbuf put_buf set_heap ten] in Hu. byt u t; auto. now rewrite P3, P4 in Hu. }
          apply (at_att _ _ A) in Hu' as [Hi [He|[v [on [ev [Hv Hin]]]]]]; split; auto. right. exists v, on, ev. byt v t; auto. rewrite P2. auto.
        - intros b Hb. apply (at_buf _ _ A) in Hb as [Hb Ho]. rewrite Fresh by auto. auto.
        - intros u b. byt u t; [|intros Hu; apply (at_new _ _ A) in Hu as [Hu _]; exfalso; apply N; apply Own; congruence].
          rewrite P1, P2. intros Hb. injection Hb as <-. rewrite tset_same, X1, X2, X3. repeat split; auto; [congruence|].
          intros Hb. apply (at_buf _ _ A) in Hb as [Hb _]. lia.
        - intros u z. byt u t; [|apply (at_bp _ _ A)]. rewrite P5. intros Hz. apply Ab in Hz as [Hz Hs]. split; auto. unfold steady in *. now rewrite P2, P3, P4.
        - intros u z. byt u t; [|apply (at_ck _ _ A)]. rewrite P6. intros Hz. apply Ac in Hz as [Hz Hs]. split; auto. unfold guarded in *. now rewrite P2, P3.
        - apply (at_ch _ _ A). }
      ex E; cbn [nextB made_buffer]; try (eapply New; reflexivity); apply (AT_frame s); cbn; fin.
    - (* AIssue *) destruct O as [O1 [O2 [O3 [O4 O5]]]]. destruct (Ab _ O3) as [Eb _]. ex E; cbn [nextB]; apply (AT_frame s); cbn; try (apply Hput; auto); fin.
    - (* ADeq *) destruct O as [O1 [O2 [O3 [O4 O5]]]]. destruct (Ab _ O3) as [Eb _]. ex E; cbn [nextB]; apply (AT_frame s); cbn; try (apply Hput; auto); fin.
    - (* AReset *) cbn in O. destruct (ow_fly _ _ _ W _ _ _ _ O) as [W1 [W2 [W3 W4]]]. ex E; cbn [nextB]; apply (AT_frame s); cbn; try (apply Hput; auto); fin.
    - (* ALoan *) cbn in O. destruct (Ab _ O) as [Eb _]. ex E; cbn [nextB]; apply (AT_frame s); cbn; try (apply Hput; auto); fin.
    - (* AReturn *) destruct O as [O1 [O2 O3]]. destruct (Ab _ O1) as [Eb _]. ex E; cbn [nextB]; apply (AT_frame s); cbn; try (apply Hput; auto); fin.
    - (* ATryTenant *) destruct O as [O1 [O2 [O3 [O4 O5]]]]. ex E; cbn [nextB]; apply (AT_frame s); cbn; fin. intros u. byt u t; auto.
    - (* AUnTenant *) destruct O as [O1 [O2 O3]]. ex E; cbn [nextB]; apply (AT_frame s); cbn; fin. intros u. byt u t; auto.
    - (* AMaster *) ex E; cbn [nextB]; apply (AT_frame s); cbn; fin. intros w. byt w u; auto.
    - (* AUnMaster *) ex E; cbn [nextB]; apply (AT_frame s); cbn; fin. intros w. byt w u; auto.
    - (* AChunkSet *) destruct O as [O1 O2]. ex E; cbn [nextB]. apply AT_chunk; cbn; auto; try tauto.
      + intros Ho. destruct o as [[b i]|]; [|easy]. apply (ow_fly _ _ _ W) in O2. left. tauto.
      + intros b i ->. apply (ow_fly _ _ _ W) in O2. tauto.
      + intros on ev w Hh Hw. right. eauto.
      + intros x X. injection X as <-. now rewrite tset_same.
    - (* AEvict *) destruct O as [[on [ev O1]] [O2 [O3 [O4 _]]]]. ex E; cbn [nextB]. rewrite O1.
      assert (Su : m_slave (f u) = false).
      { destruct (m_slave (f u)) eqn:Su; auto. apply (lk_slave _ _ L) in Su. apply (lk_mas _ _ L) in O2. congruence. }
      apply AT_chunk; cbn; auto; try easy.
      + intros w x Hw Hx ->. apply (at_ck _ _ A) in Hx as [_ [Hx|Hx]]; [congruence|]. apply Hw, Own; congruence.
      + rewrite O1. easy.
      + intros o' ev' w Hh Hw. destruct (Nat.eq_dec w u) as [->|N]; [left; auto|]. right. exists on, (del u ev). split; auto. apply In_del. split; congruence.
      + congruence.
    - (* AReg *) destruct O as [O1 [O2 O3]]. 
      assert (X : forall l, (v = false -> t_chunk (ten s t) = None) -> AT (set_regd (put_ten s t (set_tinit (ten s t) v)) l) (tset f t (f t))).
      { intros l Hv. assert (Tc : forall u, t_chunk (tset (ten s) t (set_tinit (ten s t) v) u) = t_chunk (ten s u)) by (intros u; byt u t; auto).
        assert (F : forall u, tset f t (f t) u = f u) by (intros u; byt u t; auto).
        split; cbn [set_regd put_ten set_ten enabled bufp nbuf heap ten].
        - intros u Hu. assert (Hu' : attached s f u). { unfold attached in *. cbn [set_regd put_ten set_ten ten] in Hu. now rewrite Tc, F in Hu. }
          destruct (at_att _ _ A _ Hu') as [Hi Hr]. split.
          + byt u t; auto. cbn. destruct v; auto. destruct Hu' as [[Hu' _]|Hu']; [congruence|]. rewrite Hv in Hu'; easy.
          + destruct Hr as [Hr|[w [on [ev Hr]]]]; auto. right. exists w, on, ev. now rewrite F.
        - apply (at_buf _ _ A).
        - intros u b. rewrite F. apply (at_new _ _ A).
        - intros u b. rewrite F. apply (at_bp _ _ A).
        - intros u b. rewrite F, Tc. apply (at_ck _ _ A).
        - intros u b i. rewrite Tc. apply (at_ch _ _ A). }
      cbn [exec] in E. injection E as <- <-. apply X. intros Hv. apply O3 in Hv. now apply Ac in Hv.
    - (* AStore *) destruct O as [O1 O2]. destruct (Ac _ O1) as [Eb _]. apply (at_ch _ _ A) in Eb.
      ex E; cbn [nextB]; apply (AT_frame s); cbn; try (apply Hput; auto); fin.
    - (* ASnap *) destruct O as [[on [ev O]] O1]. ex E; cbn [nextB]. rewrite O.
      split; auto.
      + intros u Hu. assert (Hu' : attached s f u). { unfold attached in *. byt u t; auto. }
        destruct (at_att _ _ A _ Hu') as [Hi Hr]. split; auto. right. exists t, on, (regd s). rewrite tset_same. split; auto.
        apply mem_In. now rewrite <- (fa_init s R u).
      + apply (at_buf _ _ A).
      + intros u b. byt u t; [|apply (at_new _ _ A)]. cbn. intros X. apply An in X. split; [easy|apply X].
      + intros u b. byt u t; [|apply (at_bp _ _ A)]. cbn. intros X. apply Ab in X as [X _]. split; auto. right. easy.
      + intros u b. byt u t; [|apply (at_ck _ _ A)]. cbn. intros X. apply Ac in X as [X _]. split; auto. right. easy.
      + apply (at_ch _ _ A).
    - (* ANote *) ex E; cbn [nextB]. cbn in O. destruct O as [rr O]. apply (AT_frame s); cbn; fin. left. now rewrite O.
    - (* AFree *) cbn in O. destruct (fa_end s R t k Ec) as [En Mx]. ex E; cbn [nextB].
      assert (Nh : forall u, m_hold (f u) = None).
      { intros u. destruct (m_hold (f u)) eqn:Hu; auto. assert (Z : mtx s = Some u) by (apply (lk_hold _ _ L); congruence). congruence. }
      apply (AT_swap s); cbn; auto; try (destruct (bufp s); reflexivity); try easy; rewrite ?O; try easy.
      + intros u Hu. apply (at_att _ _ A) in Hu as [_ [Hu|[v [on [ev [Hu _]]]]]]; [congruence|]. now rewrite Nh in Hu.
  Qed.
End SafeAT.
