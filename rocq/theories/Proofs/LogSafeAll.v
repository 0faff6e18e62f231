(** Memory safety: when a buffer is exhausted; the whole invariant. *)
From Verif Require Import Base Model.StringUtils Model.Event Model.Queue Model.Buffer Model.Config Spec.Categories Model.Registry
  Model.Interleave Spec.LogHistory Spec.LogFacts Model.TraceLog Proofs.Interleave Proofs.Queue Proofs.Registry Proofs.LogFrame Proofs.LogView Proofs.LogViewInv
  Proofs.LogContract Proofs.LogBuffers Proofs.LogSafe Proofs.LogSafeInv Proofs.LogSafeAT Proofs.LogSafeOW.

Section SafeAll.
  Variables cap csz : N.
  Variable site_cat : nat -> bytes.

  Notation reached := (reached cap csz site_cat).
  Notation OW := (OW cap).

  Lemma exhausted_put s b x s' : bufp s' = bufp s -> heap s' b = x -> (forall c, c <> b -> heap s' c = heap s c) ->
    b_kind x = b_kind (heap s b) -> b_size x = b_size (heap s b) -> (b_issued (heap s b) <= b_issued x)%N -> exhausted s -> exhausted s'.
  Proof.
    intros E1 E2 E3 X1 X2 X3. unfold exhausted. rewrite E1. destruct (bufp s) as [c|]; auto.
    destruct (Nat.eq_dec c b) as [->|N]; [rewrite E2, X1, X2|rewrite E3 by auto; auto]. intros [H1 H2]. split; auto. lia.
  Qed.

  Lemma exhausted_tset s b x s' : bufp s' = bufp s -> heap s' = tset (heap s) b x ->
    b_kind x = b_kind (heap s b) -> b_size x = b_size (heap s b) -> b_issued (heap s b) = b_issued x -> exhausted s -> exhausted s'.
  Proof.
    intros E1 E2 X1 X2 X3. apply (exhausted_put s b x); auto; [|intros c N|lia]; rewrite E2; [apply tset_same|now rewrite tset_other by auto].
  Qed.

  Lemma RN_frame s f s' t p' : RN s f -> LK s f -> AT s f -> gen s' = gen s -> enabled s' = enabled s -> (exhausted s -> exhausted s') ->
    (m_bump p' = true -> m_bump (f t) = true /\ m_hold p' = m_hold (f t)) ->
    (m_exh p' = true -> m_slave p' = true /\ m_pin p' = true /\ (m_exh (f t) = true \/ enabled s = false \/ exhausted s)) ->
    (forall g, m_ran p' = Some g -> m_ran (f t) = Some g \/ (m_exh (f t) = true /\ g = gen s)) ->
    RN s' (tset f t p').
  Proof.
    intros R L A E1 E2 E3 P1 P2 P3.
    assert (Rp : forall u g, m_ran (tset f t p' u) = Some g -> m_ran (f u) = Some g \/ (m_exh (f u) = true /\ g = gen s)) by (intros u g; byt u t; auto).
    split.
    - intros u Hu. assert (X : m_bump (f u) = true /\ m_hold (tset f t p' u) = m_hold (f u)) by (byt u t; auto).
      destruct X as [X ->]. apply (rn_bump _ _ R) in X as [X Y]. split; auto. intros v g Hg. rewrite E1.
      apply Rp in Hg as [Hg|[Hg _]]; eauto. exfalso. apply (rn_exh _ _ R) in Hg as [H1 [H2 _]]. apply (detached _ _ _ L A X v). now left.
    - intros u Hu. rewrite E2. byt u t; [|apply (rn_exh _ _ R) in Hu; tauto]. apply P2 in Hu as [H1 [H2 H3]]. repeat split; auto.
      destruct H3 as [H3|[H3|H3]]; auto. apply (rn_exh _ _ R) in H3. tauto.
    - intros u g Hg. rewrite E1, E2. apply Rp in Hg as [Hg|[Hg ->]].
      + apply (rn_ran _ _ R) in Hg. tauto.
      + split; [lia|]. intros _ En. apply (rn_exh _ _ R) in Hg as [_ [_ [Hg|Hg]]]; [congruence|auto].
  Qed.

  (** While tracing is off. *)
  Lemma RN_off s f s' t p' : RN s f -> gen s' = gen s -> enabled s' = false ->
    (forall u, u <> t -> m_bump (f u) = false) ->
    (m_bump p' = true -> m_bump (f t) = true /\ m_hold p' = m_hold (f t)) ->
    (m_exh p' = true -> m_slave p' = true /\ m_pin p' = true) ->
    (forall g, m_ran p' = Some g -> m_ran (f t) = Some g) ->
    RN s' (tset f t p').
  Proof.
    intros R E1 E2 B P1 P2 P3.
    assert (Rp : forall u g, m_ran (tset f t p' u) = Some g -> m_ran (f u) = Some g) by (intros u g; byt u t; auto).
    split.
    - intros u Hu. destruct (Nat.eq_dec u t) as [->|N]; [|rewrite tset_other, B in Hu by auto; easy]. rewrite tset_same in *.
      apply P1 in Hu as [Hu ->]. apply (rn_bump _ _ R) in Hu as [X Y]. split; auto. intros v g Hg. rewrite E1. apply Rp in Hg. eauto.
    - intros u Hu. rewrite E2. byt u t; [|apply (rn_exh _ _ R) in Hu; tauto]. apply P2 in Hu. tauto.
    - intros u g Hg. rewrite E1, E2. apply Rp, (rn_ran _ _ R) in Hg. split; [tauto|easy].
  Qed.

  Lemma exec_RN s f t ch a s' r : facts s -> (closing s = None \/ closing s = Some t) -> LK s f -> AT s f -> OW s f -> RN s f ->
    (exists k, code s t = Act a k) -> okB t (f t) a ->
    exec cap s t ch a = Next s' r -> RN s' (tset f t (nextB (enabled s) (regd s) (f t) a r)).
  Proof.
    intros R Cl L A W I [k Ec] O E.
    assert (Own : forall u, m_hold (f t) <> None -> m_hold (f u) <> None -> u = t).
    { intros u X Y. apply (lk_hold _ _ L) in X, Y. congruence. }
    assert (Bu : forall u, m_hold (f t) <> None -> u <> t -> m_bump (f u) = false).
    { intros u X N. destruct (m_bump (f u)) eqn:B; auto. apply (rn_bump _ _ I) in B as [B _]. destruct N. apply Own; congruence. }
    pose proof (rn_exh _ _ I t) as Ie. pose proof (at_bp _ _ A t) as Ab.
    destruct a; try solve [ex E; cbn [okB] in O; cbn [nextB];
      repeat match goal with |- context [tset _ _ (if ?x then _ else _)] => destruct x eqn:? end;
      apply (RN_frame s); auto; same; fin].
    - (* ALdEnabled *) ex E. cbn [nextB]. destruct (enabled s) eqn:En; [destruct (m_slave (f t) && m_ini (f t)) eqn:Sl|destruct (m_pin (f t)) eqn:Sl];
        apply (RN_frame s); cbn; fin.
      intros _. apply (lk_pin _ _ L) in Sl as Hs. tauto.
    - (* AXchg *) destruct O as [[on O] [O1 [O2 [O3 [O4 [O5 O6]]]]]]. ex E; cbn [nextB].
      + apply (RN_off s); cbn; fin. intros u N. apply Bu; congruence.
      + apply (RN_frame s); cbn; fin.
    - (* AStEnabled *) destruct O as [O [O1 [O2 O3]]]. ex E. cbn [nextB]. pose proof (detached _ _ _ L A O) as D.
      pose proof (rn_bump _ _ I _ O1) as [_ Lt]. split; cbn [emit set_hist set_enabled enabled gen].
      + intros u. byt u t; [easy|]. rewrite Bu; congruence.
      + intros u. byt u t; [easy|]. intros Hu. apply (rn_exh _ _ I) in Hu. destruct (D u). left. tauto.
      + intros u g'. byt u t; [easy|]. intros Hu. apply Lt in Hu. split; [lia|]. lia.
    - (* AIncGen *) destruct O as [O O1]. ex E. cbn [nextB]. assert (Hh : m_hold (f t) <> None) by congruence.
      assert (Le : forall u g', m_ran (tset f t (p_gnow None (p_bump true (f t))) u) = Some g' -> (g' <= gen s)%N).
      { intros u g'. byt u t; [cbn|]; intros Hu; apply (rn_ran _ _ I) in Hu; tauto. }
      split; cbn [set_gen enabled gen].
      + intros u. byt u t; [|rewrite Bu; easy]. intros _. split; auto. intros u g' Hg. apply Le in Hg. lia.
      + intros u. byt u t; [cbn|]; apply (rn_exh _ _ I).
      + intros u g' Hg. apply Le in Hg. split; lia.
    - (* ABufGet *) ex E. cbn [nextB]. destruct (bufp s) eqn:Eb; [|destruct (m_pin (f t)) eqn:Sl]; apply (RN_frame s); cbn; fin.
      intros _. apply (lk_pin _ _ L) in Sl as Hs. repeat split; try tauto. right. right. unfold exhausted. now rewrite Eb.
    - (* ABufTake *) destruct O as [O O1]. ex E. cbn [nextB]. pose proof (detached _ _ _ L A O) as D. pose proof (lk_on _ _ L _ _ _ O) as En.
      apply (RN_off s); cbn; fin; try (destruct (bufp s); cbn; auto; fail). intros u N. apply Bu; congruence.
    - (* ABufSet *) destruct O as [O O1]. ex E. cbn [nextB]. pose proof (detached _ _ _ L A O) as D. pose proof (lk_on _ _ L _ _ _ O) as En.
      apply (RN_off s); cbn; try (destruct (bufp s); cbn; auto; fail); fin. intros u N. apply Bu; congruence.
    - (* AFactory *)
      assert (Fresh : forall x h, exhausted s -> exhausted (set_hist (set_nbuf (put_buf s (nbuf s) x) (S (nbuf s))) h)).
      { intros x h. unfold exhausted. cbn. destruct (bufp s) as [b|] eqn:Eb; auto. apply (at_buf _ _ A) in Eb as [Eb _]. now rewrite tset_other by lia. }
      ex E; cbn [nextB]; apply (RN_frame s); try (apply Fresh); cbn; fin.
    - (* AIssue *) destruct O as [O1 [O2 [O3 [O4 O5]]]]. destruct (Ab _ O3) as [Eb _].
      assert (X : exhausted s -> exhausted (put_buf s b (set_bissued (heap s b) (b_issued (heap s b) + 1)))).
      { apply (exhausted_put s b (set_bissued (heap s b) (b_issued (heap s b) + 1))); cbn; auto; try lia; [apply tset_same|]. intros c Hc. now rewrite tset_other by auto. }
      ex E; cbn [nextB]; apply (RN_frame s); try exact X; cbn; fin. intros _. repeat split; auto. right. right. unfold exhausted. rewrite Eb. split; auto.
      now apply N.ltb_ge.
    - (* ADeq *) ex E; cbn [nextB]; apply (RN_frame s); cbn; fin; eapply (exhausted_tset s b); cbn; reflexivity.
    - (* AReset *) ex E; cbn [nextB]; apply (RN_frame s); cbn; fin; eapply (exhausted_tset s b); cbn; reflexivity.
    - (* ALoan *) ex E; cbn [nextB]; apply (RN_frame s); cbn; fin; eapply (exhausted_tset s b); cbn; reflexivity.
    - (* AReturn *) ex E; cbn [nextB]; apply (RN_frame s); cbn; fin; eapply (exhausted_tset s b); cbn; reflexivity.
    - (* AEvict *) destruct O as [[on [ev O1]] [O2 [O3 [O4 _]]]]. ex E; cbn [nextB]. rewrite O1. apply (RN_frame s); cbn; fin.
      intros Hb. split; auto. apply (rn_bump _ _ I) in Hb as [Hb _]. rewrite O1 in *. now injection Hb as -> ->.
    - (* AStore *) ex E; cbn [nextB]; apply (RN_frame s); cbn; fin; eapply (exhausted_tset s b); cbn; reflexivity.
    - (* ASnap *) destruct O as [[on [ev O]] O1]. ex E; cbn [nextB]. rewrite O. apply (RN_frame s); cbn; fin.
    - (* AFree *) cbn in O. destruct (fa_end s R t k Ec) as [En Mx]. ex E; cbn [nextB].
      apply (RN_off s); cbn; try (destruct (bufp s); cbn; auto; fail); fin; rewrite ?O; try easy.
      intros u N. destruct (m_bump (f u)) eqn:B; auto. apply (rn_bump _ _ I) in B as [B _].
      assert (Z : mtx s = Some u) by (apply (lk_hold _ _ L); congruence). congruence.
  Qed.

  (** The whole invariant. *)
  Record GB (s : st) (f : tid -> mph) : Prop := {
    gb_lk : LK s f;
    gb_at : AT s f;
    gb_ow : OW s f;
    gb_rn : RN s f;
  }.

  Lemma GB_same s f s' f' : GB s f -> (forall t, f' t = f t) -> enabled s' = enabled s -> mtx s' = mtx s -> gen s' = gen s -> bufp s' = bufp s ->
    heap s' = heap s -> nbuf s' = nbuf s -> ten s' = ten s -> GB s' f'.
  Proof.
    intros [L A W I] Ef E1 E2 E3 E4 E5 E6 E7.
    destruct L, A, W, I.
    assert (Ao : forall u, attached s' f' u -> attached s f u) by (intros u; unfold attached; now rewrite Ef, E7).
    assert (Oo : forall u, owned s' f' u = owned s f u) by (intros u; unfold owned; now rewrite Ef, E7).
    assert (Xo : exhausted s -> exhausted s') by (unfold exhausted; now rewrite E4, E5).
    split; split; intros *; rewrite ?Ef, ?E1, ?E2, ?E3, ?E4, ?E5, ?E6, ?E7, ?Oo; eauto.
    - intros Hu. apply Ao in Hu. destruct (at_att _ Hu) as [X [Y|[v [on [ev Y]]]]]; split; auto. right. exists v, on, ev. now rewrite Ef.
    - intros X. destruct (rn_bump _ X) as [X1 X2]. split; auto. intros u g. rewrite Ef. eauto.
    - intros X. destruct (rn_exh _ X) as [X1 [X2 [X3|X3]]]; auto.
    - intros X. destruct (rn_ran _ _ X) as [X1 X2]. auto.
  Qed.

  Lemma exec_says s f t ch a s' r : facts s -> GB s f -> okB t (f t) a -> exec cap s t ch a = Next s' r -> saysB (enabled s) (f t) a r.
  Proof.
    intros R G O E. destruct a; cbn [saysB]; auto.
    - ex E. intros o ev H. now apply (lk_on _ _ (gb_lk _ _ G)) in H.
    - destruct (enabled s) eqn:En; cbn [exec] in E; rewrite En in E; injection E as <- <-; intros o ev H; apply (lk_on _ _ (gb_lk _ _ G)) in H; congruence.
    - ex E. split.
      + intros b i H. apply (at_ck _ _ (gb_at _ _ G)) in H as [H _]. now apply (at_ch _ _ (gb_at _ _ G)) in H.
      + intros x H. now apply (at_bp _ _ (gb_at _ _ G)) in H.
    - ex E. intros x H. now apply (at_ck _ _ (gb_at _ _ G)) in H.
    - ex E. apply (fa_nodup s R).
    - ex E. now apply mem_In.
    - easy.
  Qed.

  Lemma f0_GB : GB log_new (fun _ => idle).
  Proof.
    split; split; cbn; try easy.
    - intros t [[H _]|H]; easy.
  Qed.

  Theorem safe_inv s : reached s -> inv okB postB quietB GB s.
  Proof.
    intros R. revert s R. apply (layer cap csz site_cat okB postB quietB GB (fun _ => idle)).
    - intros s f t c G. apply (GB_same s f); auto.
    - intros s f G. apply (GB_same s f); auto.
    - intros s f t ch a k s' r R G Cl Ec O E. apply reached_facts in R. exists (nextB (enabled s) (regd s) (f t) a r). split.
      + exists (enabled s), (regd s). split; auto. eapply exec_says; eauto.
      + destruct G as [L A W I]. split; [eapply exec_LK|eapply exec_AT|eapply exec_OW|eapply exec_RN]; eauto.
    - intros s f t o R G Ec Q Cl D. exists idle. split; [apply code_mem|].
      apply (GB_same s f); auto; try (destruct (is_destroy o); reflexivity). intros u. unfold quietB in Q. byt u t; auto.
    - intros s f t h hk k R G Po Ec V. exists (f t). split.
      + apply hcode_mem; auto. destruct V as [[on [Eh Hn]] _]. unfold held in Eh. destruct h; auto.
        * cbn in Po. rewrite Ec in Po. cbn in Po. now destruct (h_norestart hk).
        * cbn in Po. rewrite Eh. cbn. exists []. rewrite <- (lk_on _ _ (gb_lk _ _ G) t on []) by (now rewrite Eh). destruct (enabled s); easy.
      + apply (GB_same s f); auto. intros u. byt u t; auto.
    - intros s f t hk k r R G Ec [on [Eh Hn]]. unfold held in Eh. exists (f t).
      assert (En : enabled s = on) by (apply (lk_on _ _ (gb_lk _ _ G) t on []); now rewrite Eh). split.
      + exists on, []. split; auto.
      + apply (GB_same s f); auto. intros u. byt u t; auto.
    - apply f0_GB.
    - easy.
  Qed.

  (** No action is undefined. *)
  Lemma no_crash s f t ch a : GB s f -> okB t (f t) a -> exec cap s t ch a <> Crashed.
  Proof.
    intros [L A W I] O.
    assert (Buf : forall b, bufp s = Some b -> b_owner (heap s b) = Mine) by (intros b H; now apply (at_buf _ _ A)).
    assert (Bp : forall b, m_bp (f t) = Some (Some b) -> b_owner (heap s b) = Mine) by (intros b H; apply (at_bp _ _ A) in H; apply Buf; tauto).
    assert (Ck : forall b i, m_ck (f t) = Some (Some (b, i)) -> m_cm (f t) = Plain -> b_owner (heap s b) = Mine /\ (i < b_size (heap s b))%N /\
      (c_next (b_chunk (heap s b) i) <= cap)%N).
    { intros b i H Hc. apply (at_ck _ _ A) in H as [H _]. assert (Ot : owned s f t = Some (b, i)) by (unfold owned; now rewrite Hc).
      split; [apply Buf; now apply (at_ch _ _ A) in H|]. split; [now apply (ow_in _ _ _ W) in Ot|]. apply (ow_label _ _ _ W) in Ot; [tauto|]. now rewrite Hc. }
    destruct a; cbn [okB] in O; cbn [exec]; try easy; unfold with_buf.
    - now destruct (enabled s).
    - destruct (mtx s) as [u|] eqn:M; [|easy]. destruct (Nat.eqb_spec u t) as [->|N]; [|easy]. destruct O as [O _]. apply (lk_hold _ _ L) in M. congruence.
    - destruct (mtx s) as [u|] eqn:M; [|now destruct ch]. destruct (Nat.eqb_spec u t) as [->|N]; [|easy]. destruct O as [O _]. apply (lk_hold _ _ L) in M. congruence.
    - destruct O as [[on O] _]. unfold owns. rewrite (proj1 (lk_hold _ _ L t)) by congruence. now rewrite Nat.eqb_refl.
    - unfold exec_factory. destruct ch, (cf_factory c); try easy; now destruct (_ =? _)%N.
    - destruct O as [_ [_ [O _]]]. rewrite (Bp _ O). destruct (_ <? _)%N; [easy|]. now destruct (b_kind (heap s b)).
    - destruct O as [_ [_ [O _]]]. rewrite (Bp _ O). now destruct (b_queue (heap s b)).
    - assert (Ot : owned s f t = Some (b, i)) by (unfold owned; now rewrite O). rewrite (Buf b) by (now apply (ow_fly _ _ _ W) in O).
      apply (ow_in _ _ _ W) in Ot as [Oi _]. apply N.ltb_lt in Oi. now rewrite Oi.
    - now rewrite (Bp _ O).
    - destruct O as [_ [O1 O2]]. destruct (Ck _ _ O1 O2) as [-> [Oi _]]. apply N.ltb_lt in Oi. rewrite Oi. now destruct (b_kind (heap s b)).
    - now destruct (t_lock (ten s t)).
    - destruct O as [O _]. apply (lk_slave _ _ L) in O. now rewrite O.
    - now destruct (t_lock (ten s u)).
    - apply (lk_mas _ _ L) in O. now rewrite O, Nat.eqb_refl.
    - destruct O as [O1 O2]. destruct (Ck _ _ O1 O2) as [-> [Oi _]]. apply N.ltb_lt in Oi. now rewrite Oi.
    - destruct O as [O1 O2]. destruct (Ck _ _ O1 O2) as [-> [Oi Hn]]. apply N.ltb_lt in Oi. rewrite Oi. unfold chunk_add, chunk_isFull.
      destruct (N.eqb_spec (c_next (b_chunk (heap s b) i)) cap); [easy|]. destruct (N.leb_spec cap (c_next (b_chunk (heap s b) i))); [lia|easy].
    - now destruct (getStatus (reg s) category).
    - destruct ch; try easy. now destruct (mem u l).
  Qed.

  Theorem never_bad s : reached s -> bad s = false.
  Proof.
    intros [sched ->]. induction sched as [|a sched IH] using rev_ind; auto. rewrite run_snoc. unfold move.
    assert (R : reached (run (pstep cap csz site_cat) log_new sched)) by (now exists sched).
    destruct (pstep cap csz site_cat (run (pstep cap csz site_cat) log_new sched) a) as [s'|] eqn:H; auto. revert R IH H.
    generalize (run (pstep cap csz site_cat) log_new sched). intros s R B H. destruct (safe_inv s R) as [_ [f [G V]]].
    unfold pstep in H. destruct (polite s a); [|easy]. unfold step in H. rewrite B in H. destruct a as [t o|t ch|t h|t r].
    - destruct (code s t); [|easy]. destruct (closing s); [easy|]. destruct (is_destroy o); [destruct (is_nil (busy s)); [|easy]|]; injection H as <-; exact B.
    - destruct (code s t) as [|x k] eqn:Ec; [easy|]. specialize (V t). rewrite Ec in V. destruct V as [O _].
      pose proof (no_crash s f t ch x G O) as Nc. destruct (exec cap s t ch x) as [| |s1 r] eqn:Ex; [easy|easy|].
      injection H as <-. cbn. apply exec_frame in Ex. destruct Ex as [_ [_ [_ ->]]]. exact B.
    - destruct (hook_of (code s t)); [|easy]. injection H as <-. exact B.
    - destruct (hook_of (code s t)) as [[]|]; [|easy]. injection H as <-. exact B.
  Qed.
End SafeAll.
