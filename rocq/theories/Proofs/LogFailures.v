(** When a logEvent that got no chunk switches tracing off. *)
From Verif Require Import Base Model.StringUtils Model.Event Model.Queue Model.Buffer Model.Config Spec.Categories Model.Registry
  Model.Interleave Spec.LogHistory Spec.LogFacts Model.TraceLog Spec.LogMemory Proofs.Interleave Proofs.Registry Proofs.LogFrame Proofs.LogView Proofs.LogViewInv
  Proofs.LogContract Proofs.LogBuffers Proofs.LogSafe Proofs.LogSafeInv Proofs.LogSafeAT Proofs.LogSafeOW Proofs.LogSafeAll Proofs.LogRaces Proofs.LogHolders.

Lemma starts_snoc h e : starts (h ++ [e]) = match e with On _ _ _ => S (starts h) | _ => starts h end.
Proof. unfold starts. rewrite filter_app, app_length. destruct e; cbn; lia. Qed.

Arguments starts : simpl never.

Section Failures.
  Variables cap csz : N.
  Variable site_cat : nat -> bytes.
  Notation reached := (reached cap csz site_cat).
  Notation GB := (GB cap).
  Notation valid := (valid okB postB quietB).
  Notation pstep := (pstep cap csz site_cat).

  Record FL (s : st) (f : tid -> mph) (h : tid -> option nat) : Prop := {
    fl_exh : forall t, m_exh (f t) = true -> enabled s = false \/ h t = Some (starts (hist s));
    fl_ran : forall t g, m_ran (f t) = Some g -> gen s = g -> enabled s = true -> h t = Some (starts (hist s));
  }.

  Lemma FL_same s f h s' t p' : FL s f h -> starts (hist s') = starts (hist s) -> gen s' = gen s -> (enabled s' = true -> enabled s = true) ->
    (m_exh p' = true -> m_exh (f t) = true) -> (forall g, m_ran p' = Some g -> m_ran (f t) = Some g) -> FL s' (tset f t p') h.
  Proof.
    intros [F1 F2] E1 E2 E3 H1 H2. split.
    - intros u Hu. rewrite E1. assert (X : m_exh (f u) = true) by (byt u t; auto).
      destruct (enabled s') eqn:En; auto. rewrite E3 in F1 by auto. destruct (F1 u X); [discriminate|auto].
    - intros u g Hu Hg En. rewrite E1. rewrite E2 in Hg. apply (F2 u g); auto. byt u t; auto.
  Qed.

  Lemma FL_exec s f h t ch a k s' r : reached s -> GB s f -> code s t = Act a k -> okB t (f t) a -> exec cap s t ch a = Next s' r ->
    FL s f h -> FL s' (tset f t (nextB (enabled s) (regd s) (f t) a r)) (note_failure s t a r h).
  Proof.
    intros R G Ec O E F. destruct (allowed _ _ _ s t a k R Ec) as [g [Ga Oa]].
    destruct a; cbn [okB] in O; ex E; cbn [nextB note_failure];
      try (apply (FL_same s f); auto; fail);
      try (apply (FL_same s f); auto; cbn; rewrite ?starts_snoc; auto; try discriminate;
        repeat match goal with |- context [match ?x with _ => _ end] => destruct x; cbn; auto; try discriminate end; fail).
    - (* ALdEnabled *) destruct (enabled s) eqn:En.
      + apply (FL_same s f); auto; destruct (m_slave (f t) && m_ini (f t)); auto.
      + destruct F as [F1 F2]. split; [auto|]. intros u g0 Hu Hg X. congruence.
    - (* AStEnabled *) destruct O as [O1 [O2 _]].
      destruct G as [L A W I]. destruct (rn_bump _ _ I _ O2) as [_ Hb]. split.
      + intros u. byt u t; [discriminate|]. intros Hu. exfalso. apply (rn_exh _ _ I) in Hu as [H1 [H2 _]].
        apply (detached s f t L A O1 u). now left.
      + intros u g1. cbn. byt u t; [discriminate|]. intros Hu Hg. apply Hb in Hu. lia.
    - (* AUnlock *) apply (FL_same s f); auto; try discriminate. cbn. rewrite starts_snoc.
      cbn in Oa. unfold insec in Oa. destruct (a_sec (g t)) as [[p q]|]; [|easy]. destruct Oa as [_ [Hi [_ [_ Hs]]]].
      unfold advance in Hs. rewrite Hi in Hs. cbn in Hs. destruct e; auto. now destruct (since q).
    - (* ALdGen *) destruct (m_exh (f t)) eqn:Ex.
      + split.
        * intros u Hu. apply (fl_exh _ _ _ F). byt u t; auto.
        * intros u g1 Hu Hg En. byt u t; [|apply (fl_ran _ _ _ F u g1); auto]. cbn in Hu.
          destruct (fl_exh _ _ _ F t Ex) as [X|X]; congruence.
      + apply (FL_same s f); auto; destruct (m_hold (f t)); auto.
    - (* AIncGen *) destruct G as [L A W I]. split; cbn.
      + intros u Hu. apply (fl_exh _ _ _ F). byt u t; auto.
      + intros u g1 Hu Hg. exfalso. assert (X : m_ran (f u) = Some g1) by (byt u t; auto). apply (rn_ran _ _ I) in X as [X _]. lia.
    - (* ABufGet *) destruct (bufp s) eqn:Eb; [now apply (FL_same s f)|]. destruct F as [F1 F2]. split.
      + intros u Hu. byt u t; auto.
      + intros u g1 Hu Hg En. byt u t; [reflexivity|]. eauto.
    - (* ABufTake *) apply (FL_same s f); auto; destruct (bufp s); auto.
    - (* ABufSet *) apply (FL_same s f); auto; destruct (bufp s); auto.
    - (* AIssue *) destruct F as [F1 F2]. split; cbn.
      + intros u Hu. byt u t; auto.
      + intros u g1 Hu Hg En. byt u t; eauto.
    - (* AEmit *) apply (FL_same s f); auto; try discriminate. cbn. rewrite starts_snoc.
      cbn in Oa. unfold insec in Oa. destruct (a_sec (g t)) as [[p q]|]; [|easy].
      destruct Oa as [_ [[o [-> _]]|[h0 [r [-> _]]]]]; auto.
    - (* ANote *) destruct Oa as [o [r [-> _]]]. apply (FL_same s f); auto; try discriminate. cbn. now rewrite starts_snoc.
    - (* AFree *) apply (FL_same s f); auto; cbn; rewrite ?starts_snoc; destruct (bufp s); auto.
  Qed.

  Theorem failures_hold sched : exists f, GB (run pstep log_new sched) f /\ (forall t, valid t (code (run pstep log_new sched) t) (f t)) /\
    FL (run pstep log_new sched) f (failures cap csz site_cat sched).
  Proof.
    apply (ghost_inv cap csz site_cat note_failure (fun _ => None) FL).
    - split; cbn; easy.
    - intros s f s' f' h [F1 F2] Ef E1 E2 E3 _ _ _ _ Eh.
      assert (Es : starts (hist s') = starts (hist s)) by (destruct Eh as [->|[t [o ->]]]; auto; now rewrite starts_snoc).
      split; intros *; rewrite ?Ef, ?E1, ?E3, ?Es; eauto.
    - apply FL_exec.
  Qed.

  (** Tracing is switched off for want of space only while the buffer of the
      running trace is used up, and by a thread that failed during this trace. *)
  Theorem off_exhausted sched t ch s' :
    let s := run pstep log_new sched in
    pstep s (Step t ch) = Some s' -> hist s' = hist s ++ [Off t Exhausted] ->
    exhausted s /\ failures cap csz site_cat sched t = Some (starts (hist s)).
  Proof.
    intros s Es Eh. destruct (failures_hold sched) as [f [G [V F]]]. fold s in G, V, F.
    unfold TraceLog.pstep, step in Es. cbn [polite] in Es. destruct (bad s); [easy|].
    specialize (V t). destruct (code s t) as [|a k] eqn:Ec; [easy|]. destruct V as [O _].
    assert (R : reached s) by (now exists sched). destruct (allowed _ _ _ s t a k R Ec) as [g [Ga Oa]].
    destruct (exec cap s t ch a) as [| |s1 r] eqn:E; [easy| |].
    { injection Es as <-. cbn in Eh. apply (f_equal (@length _)) in Eh. rewrite app_length in Eh. cbn in Eh. lia. }
    injection Es as <-. cbn [hist set_cmd set_busy set_code] in Eh.
    assert (Hx : a = AXchg Exhausted).
    { destruct a; ex E; cbn in Eh;
        try match type of Eh with context [bufp s] => destruct (bufp s); cbn in Eh end;
        try (exfalso; apply (f_equal (@length _)) in Eh; rewrite app_length in Eh; cbn in Eh; lia);
        apply app_inj_tail in Eh as [_ Eh]; try discriminate Eh; try congruence.
      - cbn in Oa. unfold insec in Oa. destruct (a_sec (g t)) as [[p q]|]; [|easy]. destruct Oa as [_ [_ [_ [_ Hs]]]].
        subst e. cbn in Hs. now destruct (since q).
      - cbn in Oa. unfold insec in Oa. destruct (a_sec (g t)) as [[p q]|]; [|easy].
        destruct Oa as [_ [[o [-> _]]|[h0 [r [-> _]]]]]; discriminate.
      - destruct Oa as [o [r [-> _]]]. discriminate. }
    subst a. destruct O as [[on O] [_ [_ [_ [_ [_ O']]]]]]. destruct (O' eq_refl) as [g0 [Hr Hg]].
    apply (lk_gnow _ _ (gb_lk _ _ _ G)) in Hg as [_ Hg].
    assert (En : enabled s = true).
    { cbn in E. destruct (enabled s); auto. injection E as <- <-. exfalso. apply (f_equal (@length _)) in Eh. rewrite app_length in Eh. cbn in Eh. lia. }
    split.
    - apply (rn_ran _ _ (gb_rn _ _ _ G)) in Hr. tauto.
    - eapply (fl_ran _ _ _ F); eauto.
  Qed.
End Failures.
