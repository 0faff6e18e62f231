(** Buffers handed over to the user. *)
From Verif Require Import Base Model.StringUtils Model.Event Model.Queue Model.Buffer Model.Config Spec.Categories Model.Registry
  Model.Interleave Spec.LogHistory Spec.LogFacts Model.TraceLog Spec.LogMemory Proofs.Interleave Proofs.Registry Proofs.LogFrame Proofs.LogView Proofs.LogViewInv
  Proofs.LogContract Proofs.LogBuffers Proofs.LogSafe Proofs.LogSafeInv Proofs.LogSafeAT Proofs.LogSafeOW Proofs.LogSafeAll Proofs.LogRaces Proofs.LogHolders.

Arguments status_after : simpl never.

Section Handover.
  Variables cap csz : N.
  Variable site_cat : nat -> bytes.
  Notation reached := (reached cap csz site_cat).
  Notation GB := (GB cap).
  Notation pstep := (pstep cap csz site_cat).

  Definition given (s : st) (b : bid) : Prop := b < nbuf s /\ b_owner (heap s b) = Given.

  (** A handed-over buffer is out of reach. *)
  Lemma given_exec s f t ch a k s' r b : reached s -> GB s f -> code s t = Act a k -> okB t (f t) a -> exec cap s t ch a = Next s' r ->
    given s b -> heap s' b = heap s b /\ nbuf s <= nbuf s'.
  Proof.
    intros R G Ec O E [Hb Hg].
    assert (Bp : forall c, bufp s = Some c -> c <> b).
    { intros c H ->. apply (at_buf _ _ (gb_at _ _ _ G)) in H. destruct H. congruence. }
    destruct a; ex E; cbn; try (split; auto; fail); try (split; [|lia]; rewrite tset_other; auto; lia);
      try (split; [rewrite tset_other; auto; congruence|auto]; fail);
      destruct (bufp s) eqn:Eb; cbn; split; auto; rewrite tset_other; auto; intros <-; now apply (Bp b).
  Qed.

  Record HB (s : st) : Prop := {
    hb_buf : forall b, v_buf (vw (status_after (hist s))) = Some b -> fresh (status_after (hist s)) = None -> bufp s = Some b \/ given s b;
    hb_ret : forall e b, In e (hist s) -> retrieved e = Some (Some b) -> given s b;
  }.

  Lemma status_snoc h e : status_after (h ++ [e]) = advance (status_after h) e.
  Proof. unfold status_after. now rewrite fold_left_app. Qed.

  (** Events that neither hand a buffer over nor change which one the log has. *)
  Lemma HB_emit s s' e : HB s -> hist s' = hist s ++ [e] -> bufp s' = bufp s -> (forall b, given s b -> given s' b) ->
    (inert e = true \/ (v_buf (apply (vw (status_after (hist s))) e) = v_buf (vw (status_after (hist s))) /\
       (fresh (advance (status_after (hist s)) e) = None -> fresh (status_after (hist s)) = None))) ->
    (forall b, retrieved e = Some (Some b) -> given s' b) -> HB s'.
  Proof.
    intros [H1 H2] Eh Eb Hg He Hr. split; rewrite Eh.
    - intros b. rewrite status_snoc, Eb. intros V F. assert (X : v_buf (vw (status_after (hist s))) = Some b /\ fresh (status_after (hist s)) = None).
      { destruct He as [He|[He Hf]].
        - unfold advance in V, F. rewrite He in V, F. auto.
        - assert (Ea : v_buf (vw (advance (status_after (hist s)) e)) = v_buf (vw (status_after (hist s)))).
          { unfold advance. destruct (inert e); auto. }
          rewrite Ea in V. auto. }
      destruct X as [X1 X2]. destruct (H1 b X1 X2); auto.
    - intros e' b Hi. apply in_app_or in Hi as [Hi|[<-|[]]]; eauto.
  Qed.

  Lemma HB_same s s' : HB s -> hist s' = hist s -> bufp s' = bufp s -> (forall b, given s b -> given s' b) -> HB s'.
  Proof.
    intros [H1 H2] Eh Eb Hg. split; rewrite Eh; eauto. intros b V F. rewrite Eb. destruct (H1 b V F); auto.
  Qed.

  (** What a finished call says about the buffer. *)
  Lemma call_buf t o r v : v_buf (after_call t o r v) = v_buf v \/
    (v_buf (after_call t o r v) = None /\ ((o = OGetBuffer /\ exists b, r = RBuf b) \/ (o = OGetContext /\ exists b ns, r = RCtx b ns))).
  Proof. destruct o; cbn; auto; destruct r; cbn; eauto 8. Qed.

  Lemma HB_call s s' e : HB s -> hist s' = hist s ++ [e] -> bufp s' = bufp s -> (forall b, given s b -> given s' b) ->
    legal csz (status_after (hist s)) e -> inert e = false ->
    v_buf (prot s) = v_buf (vw (advance (status_after (hist s)) e)) ->
    ((exists t o r, e = Done t o r) \/ (exists t h r, e = Nested t h r)) -> HB s'.
  Proof.
    intros H Eh Eb Hg Le Hi Ep Hs. pose proof H as [H1 H2].
    set (q := status_after (hist s)) in *.
    assert (X : exists t o r, (e = Done t o r \/ exists h, e = Nested t h r /\ o = hop_op h) /\ apply (vw q) e = after_call t o r (vw q)).
    { destruct Hs as [[t [o [r ->]]]|[t [h [r ->]]]]; [exists t, o, r|exists t, (hop_op h), r]; split; auto. right. eauto. }
    destruct X as [t [o [r [He Ea]]]].
    assert (Fr : fresh q = None /\ fresh (advance q e) = fresh q).
    { unfold legal in Le. rewrite Hi in Le. unfold advance. rewrite Hi. destruct He as [->|[h [-> _]]]; cbn in *; split; auto; apply Le. }
    destruct Fr as [Fr Fa].
    assert (Ev : vw (advance q e) = apply (vw q) e) by (unfold advance; now rewrite Hi).
    assert (Hr : forall b, retrieved e = Some (Some b) -> v_buf (vw q) = Some b /\ v_buf (after_call t o r (vw q)) = None).
    { intros b Hb. unfold legal in Le. rewrite Hi in Le. destruct He as [->|[h [-> ->]]]; cbn in Hb, Le.
      - destruct o; try discriminate; destruct r; try discriminate; injection Hb as ->; cbn in Le; destruct Le as [_ [_ [_ Le]]];
          destruct (v_on (vw q)); try discriminate; injection Le; intros; subst; auto.
      - destruct h; try discriminate; destruct r; try discriminate; injection Hb as ->; cbn in Le; destruct Le as [_ [_ Le]];
          destruct (v_on (vw q)); try discriminate; injection Le; intros; subst; auto. }
    split; rewrite Eh.
    - intros b. rewrite status_snoc, Eb. fold q. rewrite Ev, Ea. intros V F. destruct (call_buf t o r (vw q)) as [Y|[Y _]]; [|congruence].
      rewrite Y in V. destruct (H1 b V Fr); auto.
    - intros e' b Hin. apply in_app_or in Hin as [Hin|[<-|[]]]; [eauto|]. intros Hb. apply Hr in Hb as [B1 B2].
      apply Hg. destruct (H1 b B1 Fr) as [B|B]; auto. cbn in Ep. rewrite Ev, Ea, B2 in Ep. congruence.
  Qed.

  Lemma HB_exec s f t ch a k s' r : reached s -> GB s f -> code s t = Act a k -> okB t (f t) a -> exec cap s t ch a = Next s' r -> HB s -> HB s'.
  Proof.
    intros R G Ec O E H. destruct (allowed _ _ _ s t a k R Ec) as [g [Ga Oa]].
    assert (Gv : forall b, given s b -> given s' b).
    { intros b Hb. destruct (given_exec s f t ch a k s' r b) as [X Y]; auto. destruct Hb. split; [lia|]. now rewrite X. }
    destruct a; pose proof E as E0; ex E; clear E0;
      try (apply (HB_same s); auto; fail);
      try (eapply (HB_emit s); [exact H|reflexivity|reflexivity|exact Gv|left; reflexivity|cbn; discriminate]; fail);
      try (eapply (HB_emit s); [exact H|reflexivity|reflexivity|exact Gv|right; split; [reflexivity|cbn; auto; discriminate]|cbn; discriminate]; fail).
    - (* AStEnabled *) cbn in Oa. unfold insec in Oa. destruct (a_sec (g t)) as [[p q]|] eqn:Es; [|easy].
      destruct (g_cur _ _ _ Ga t p q Es) as [-> ->]. destruct Oa as [_ [_ Hm]]. destruct H as [H1 H2]. split; cbn.
      + intros b. rewrite status_snoc. cbn. intros X _. left. cbn in Hm. congruence.
      + intros e b Hi. apply in_app_or in Hi as [Hi|[<-|[]]]; [|discriminate]. intros X. apply Gv. eauto.
    - (* AUnlock *) cbn in Oa. unfold insec in Oa. destruct (a_sec (g t)) as [[p q]|] eqn:Es; [|easy].
      destruct (g_cur _ _ _ Ga t p q Es) as [-> ->]. destruct Oa as [Hl [Hi [Hp [Hc Hs]]]].
      assert (X : (exists t o r, e = Done t o r) \/ (exists t w r, e = StopTried t w r) \/ exists t, e = Freed t).
      { unfold advance in Hs. rewrite Hi in Hs. cbn in Hs. destruct e; eauto 8; now destruct (since (status_after (hist s))). }
      destruct X as [X|[[t0 [w [r0 ->]]]|[t0 ->]]].
      + eapply (HB_call s); [exact H|reflexivity|reflexivity|exact Gv|exact Hl|exact Hi|now rewrite Hp|now left].
      + eapply (HB_emit s); [exact H|reflexivity|reflexivity|exact Gv|right; split; auto|cbn; discriminate].
      + destruct H as [H1 H2]. split; cbn.
        * intros b. rewrite status_snoc. discriminate.
        * intros e b Hi'. apply in_app_or in Hi' as [Hi'|[<-|[]]]; [|discriminate]. intros X. apply Gv. eauto.
    - (* ABufTake *) destruct H as [H1 H2]. assert (Hh : hist (give_buf s (bufp s)) = hist s) by (destruct (bufp s); reflexivity).
      split; cbn; rewrite Hh; eauto. intros b X Y. right. destruct (H1 b X Y) as [Z|Z]; auto. rewrite Z in Gv |- *. clear Gv.
      destruct (at_buf _ _ (gb_at _ _ _ G) b Z) as [Z1 Z2]. split; cbn; auto. now rewrite tset_same.
    - (* ABufSet *) destruct Oa as [Oa _]. unfold insec in Oa. destruct (a_sec (g t)) as [[p q]|] eqn:Es; [|easy].
      destruct (g_cur _ _ _ Ga t p q Es) as [-> ->]. destruct H as [H1 H2].
      assert (Hh : hist (free_buf s (bufp s)) = hist s) by (destruct (bufp s); reflexivity).
      split; cbn; rewrite Hh; eauto. intros b X Y. congruence.
    - (* AFactory *) eapply (HB_emit s); [exact H|reflexivity|reflexivity|exact Gv| |cbn; discriminate].
      cbn in Oa. unfold insec in Oa. destruct (a_sec (g t)) as [[p q]|] eqn:Es; [|easy].
      destruct (g_cur _ _ _ Ga t p q Es) as [-> ->]. right. split; auto. intros _.
      destruct (Oa (MadeThrow x)) as [_ [F _]]; [now destruct (cf_factory c)|exact F].
    - (* AEmit *) cbn in Oa. unfold insec in Oa. destruct (a_sec (g t)) as [[p q]|] eqn:Es; [|easy].
      destruct (g_cur _ _ _ Ga t p q Es) as [-> ->]. destruct Oa as [Hl [[o [-> _]]|[h [r [-> Hp]]]]].
      + eapply (HB_emit s); [exact H|reflexivity|reflexivity|exact Gv|right; split; auto|cbn; discriminate].
      + eapply (HB_call s); [exact H|reflexivity|reflexivity|exact Gv|exact Hl|reflexivity|now rewrite Hp|right; eauto].
    - (* ANote *) destruct Oa as [o [r [-> Ho]]].
      eapply (HB_emit s); [exact H|reflexivity|reflexivity|exact Gv|left; exact Ho|]. intros b. cbn. destruct o; discriminate.
    - (* AFree *) destruct H as [H1 H2]. assert (Hh : hist (free_buf s (bufp s)) = hist s) by (destruct (bufp s); reflexivity).
      split; cbn; rewrite Hh.
      + intros b. rewrite status_snoc. discriminate.
      + intros e b Hi. apply in_app_or in Hi as [Hi|[<-|[]]]; [|discriminate]. intros X. apply Gv. eauto.
  Qed.

  Theorem handed_over s : reached s -> HB s.
  Proof.
    intros [sched ->]. destruct (ghost_inv cap csz site_cat (fun _ _ _ _ h => h) tt (fun s _ _ => HB s)) with (sched := sched) as [f [_ [_ H]]]; auto.
    - split; cbn; easy.
    - intros s f s' f' h H _ _ _ _ E4 E5 E6 _ Eh.
      assert (Gv : forall b, given s b -> given s' b) by (intros b; unfold given; now rewrite E5, E6).
      destruct Eh as [Eh|[t [o Eh]]]; [now apply (HB_same s)|].
      eapply (HB_emit s); [exact H|exact Eh|exact E4|exact Gv|left; reflexivity|cbn; discriminate].
    - intros s f h t ch a k s' r R G Ec O E H. eapply HB_exec; eauto.
  Qed.

  (** A handed-over buffer never changes. *)
  Lemma given_step s a s' b : reached s -> pstep s a = Some s' -> given s b -> heap s' b = heap s b /\ given s' b.
  Proof.
    intros R E Hb. unfold TraceLog.pstep in E. destruct (polite s a); [|easy]. unfold step in E. rewrite (never_bad _ _ _ s R) in E.
    destruct (safe_at cap csz site_cat s R) as [f [G V]].
    destruct a as [t o|t ch|t h|t r].
    - destruct (code s t); [|easy]. destruct (closing s); [easy|]. destruct (is_destroy o); [destruct (is_nil (busy s)); [|easy]|]; injection E as <-; auto.
    - destruct (code s t) as [|x k] eqn:Ec; [easy|]. destruct (exec cap s t ch x) as [| |s1 r] eqn:Ex; [easy| |]; injection E as <-; auto.
      destruct (given_exec s f t ch x k s1 r b) as [X Y]; auto. { apply V. now exists k. }
      split; auto. destruct Hb. split; cbn; [lia|]. now rewrite X.
    - destruct (hook_of (code s t)); [|easy]. injection E as <-. auto.
    - destruct (hook_of (code s t)) as [[]|]; [|easy]. injection E as <-. auto.
  Qed.

  Theorem given_for_ever s sched b : reached s -> given s b -> heap (run pstep s sched) b = heap s b.
  Proof.
    revert s. induction sched as [|a l IH]; intros s R Hb; auto. cbn. unfold move.
    destruct (pstep s a) as [s'|] eqn:E; [|auto]. destruct (given_step s a s' b R E Hb) as [X Y]. rewrite IH; auto.
    eapply pstep_reached; eauto.
  Qed.

  Theorem retrieved_for_ever s sched e b : reached s -> In e (hist s) -> retrieved e = Some (Some b) -> heap (run pstep s sched) b = heap s b.
  Proof. intros R Hi Hr. apply given_for_ever; auto. eapply hb_ret; eauto. now apply handed_over. Qed.
End Handover.
