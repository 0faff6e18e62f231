(** Bookkeeping along runs: who holds which chunk, when a thread ran out of
    space, and what happens to buffers that were handed over. *)
From Verif Require Import Base Model.StringUtils Model.Event Model.Queue Model.Buffer Model.Config Spec.Categories Model.Registry
  Model.Interleave Spec.LogHistory Spec.LogFacts Model.TraceLog Spec.LogMemory Proofs.Interleave Proofs.Registry Proofs.LogFrame Proofs.LogView Proofs.LogViewInv
  Proofs.LogContract Proofs.LogBuffers Proofs.LogSafe Proofs.LogSafeInv Proofs.LogSafeAT Proofs.LogSafeOW Proofs.LogSafeAll Proofs.LogRaces.

Section Holders.
  Variables cap csz : N.
  Variable site_cat : nat -> bytes.
  Notation reached := (reached cap csz site_cat).
  Notation GB := (GB cap).
  Notation valid := (valid okB postB quietB).
  Notation pstep := (pstep cap csz site_cat).

  Section Ghost.
    Context {H : Type}.
    Variable note : st -> tid -> forall a, ans a -> H -> H.
    Variable h0 : H.
    Variable J : st -> (tid -> mph) -> H -> Prop.
    Hypothesis J0 : J log_new (fun _ => idle) h0.
    Hypothesis Jsame : forall s f s' f' h, J s f h -> (forall t, f' t = f t) -> enabled s' = enabled s -> mtx s' = mtx s -> gen s' = gen s -> bufp s' = bufp s ->
      heap s' = heap s -> nbuf s' = nbuf s -> ten s' = ten s -> (hist s' = hist s \/ exists t o, hist s' = hist s ++ [Invoked t o]) -> J s' f' h.
    Hypothesis Jexec : forall s f h t ch a k s' r, reached s -> GB s f -> code s t = Act a k -> okB t (f t) a -> exec cap s t ch a = Next s' r ->
      J s f h -> J s' (tset f t (nextB (enabled s) (regd s) (f t) a r)) (note s t a r h).

    Lemma pstep_reached s a s' : reached s -> pstep s a = Some s' -> reached s'.
    Proof.
      intros [sched ->] E. exists (sched ++ [a]). rewrite run_snoc. unfold move. now rewrite E.
    Qed.

    Definition at_once (s : st) (h : H) : Prop := exists f, GB s f /\ (forall t, valid t (code s t) (f t)) /\ J s f h.

    Lemma ghost_step s h a : reached s -> at_once s h ->
      at_once (fst (gstep cap csz site_cat note (s, h) a)) (snd (gstep cap csz site_cat note (s, h) a)).
    Proof.
      intros Rs (f & G & V & Jf). cbn [gstep fst snd]. unfold move.
      pose proof (never_bad _ _ _ s Rs) as B.
      destruct a as [t o|t ch|t h'|t r].
      - destruct (pstep s (Invoke t o)) as [s'|] eqn:E; [|now exists f]. unfold pstep, step in E. cbn [polite] in E. rewrite B in E.
        destruct (code s t) eqn:Ec; [|easy]. destruct (closing s) eqn:Cl; [easy|].
        assert (X : s' = set_cmd (emit s (Invoked t o)) t (code_of csz site_cat t o) \/
                    s' = set_closing (set_cmd (emit s (Invoked t o)) t (code_of csz site_cat t o)) (Some t)).
        { destruct (is_destroy o); [destruct (is_nil (busy s)); [|easy]|]; injection E as <-; auto. }
        assert (Qt : f t = idle) by (specialize (V t); rewrite Ec in V; exact V).
        exists f. split; [|split].
        + apply (GB_same cap s f); auto; destruct X as [->| ->]; reflexivity.
        + intros u. assert (Ecu : code s' u = tset (code s) t (code_of csz site_cat t o) u) by (destruct X as [->| ->]; reflexivity).
          rewrite Ecu. byt u t; auto. rewrite Qt. apply code_mem.
        + apply (Jsame s f); auto; try (destruct X as [->| ->]; reflexivity). right. exists t, o. destruct X as [->| ->]; reflexivity.
      - unfold pstep, step. cbn [polite]. rewrite B.
        destruct (code s t) as [|x k] eqn:Ec; [now exists f|].
        pose proof (V t) as Vt. rewrite Ec in Vt. destruct Vt as [O Vk].
        pose proof (no_crash cap site_cat s f t ch x G O) as Nc. destruct (exec cap s t ch x) as [| |s1 r] eqn:Ex; [now exists f|easy|].
        exists (tset f t (nextB (enabled s) (regd s) (f t) x r)).
        destruct (exec_frame _ _ _ _ _ _ _ Ex) as [E1 [E2 [E3 E4]]].
        assert (Cl : closing s = None \/ closing s = Some t).
        { destruct (full_inv _ _ _ s Rs) as [Al _]. apply (closing_mine s t Al). now rewrite Ec. }
        split; [|split].
        + apply (GB_same cap s1 (tset f t (nextB (enabled s) (regd s) (f t) x r))); auto.
          pose proof (reached_facts _ _ _ s Rs) as Fs. pose proof G as [L A W I]. split; [eapply exec_LK|eapply exec_AT|eapply exec_OW|eapply exec_RN]; eauto.
        + intros u. cbn. rewrite E1. byt u t; auto. apply Vk. exists (enabled s), (regd s). split; auto. pose proof (reached_facts _ _ _ s Rs) as Fs. eapply exec_says; eauto.
        + eapply (Jsame s1 (tset f t (nextB (enabled s) (regd s) (f t) x r))); auto. eapply Jexec; eauto.
      - destruct (pstep s (HookDo t h')) as [s'|] eqn:E; [|now exists f]. unfold pstep, step in E. destruct (polite s (HookDo t h')) eqn:Po; [|easy]. rewrite B in E.
        destruct (hook_of (code s t)) as [[hk k]|] eqn:Eh; [|easy]. injection E as <-. apply hook_of_some in Eh. exists f.
        assert (Vt := V t). rewrite Eh in Vt. destruct Vt as [O Vk]. split; [|split].
        + apply (GB_same cap s f); auto.
        + intros u. cbn. byt u t; auto. rewrite Eh. apply (hcode_mem csz site_cat); [|now split].
          destruct O as [on [Ef Hn]]. unfold held in Ef. destruct h'; auto.
          * cbn in Po. rewrite Eh in Po. cbn in Po. now destruct (h_norestart hk).
          * cbn in Po. rewrite Ef. cbn. exists []. rewrite <- (lk_on _ _ (gb_lk _ _ _ G) t on []) by (now rewrite Ef). destruct (enabled s); easy.
        + apply (Jsame s f); auto.
      - destruct (pstep s (HookEnd t r)) as [s'|] eqn:E; [|now exists f]. unfold pstep, step in E. cbn [polite] in E. rewrite B in E.
        destruct (hook_of (code s t)) as [[hk k]|] eqn:Eh; [|easy]. injection E as <-. apply hook_of_some in Eh. exists f.
        assert (Vt := V t). rewrite Eh in Vt. destruct Vt as [O Vk]. split; [|split].
        + apply (GB_same cap s f); auto.
        + intros u. cbn. byt u t; auto. apply Vk. destruct O as [on [Ef Hn]]. unfold held in Ef.
          assert (En : enabled s = on) by (apply (lk_on _ _ (gb_lk _ _ _ G) t on []); now rewrite Ef).
          exists on, []. split; auto.
        + apply (Jsame s f); auto.
    Qed.

    Lemma ghost_fst sched x : fst (fold_left (gstep cap csz site_cat note) sched x) = run pstep (fst x) sched.
    Proof. revert x. induction sched as [|a l IH]; intros [s h]; auto. cbn. rewrite IH. reflexivity. Qed.

    Theorem ghost_inv sched : at_once (run pstep log_new sched) (ghost cap csz site_cat note h0 sched).
    Proof.
      unfold ghost. induction sched as [|a l IH] using rev_ind.
      - exists (fun _ => idle). split; [apply f0_GB|]. split; [easy|exact J0].
      - rewrite fold_left_app, run_snoc. cbn [fold_left]. pose proof (ghost_fst l (log_new, h0)) as Fs. cbn [fst] in Fs.
        destruct (fold_left (gstep cap csz site_cat note) l (log_new, h0)) as [s h]. cbn [fst snd] in *. subst s.
        apply ghost_step; auto. now exists l.
    Qed.
  End Ghost.

  (** * Holders of chunks *)

  Definition held_by (s : st) (f : tid -> mph) (t : tid) : option (bid * N) :=
    match m_cm (f t) with Plain => t_chunk (ten s t) | Returned => None | Flight b i r => if r then Some (b, i) else None end.

  Lemma held_owned s f t x : held_by s f t = Some x -> owned s f t = Some x.
  Proof. unfold held_by, owned. now destruct (m_cm (f t)) as [| |b i []]. Qed.

  Lemma holding_next s f t ch a k s' r : reached s -> GB s f -> code s t = Act a k -> okB t (f t) a -> exec cap s t ch a = Next s' r ->
    forall u, held_by s' (tset f t (nextB (enabled s) (regd s) (f t) a r)) u = note_holding s t a r (held_by s f) u.
  Proof.
    intros R G Ec O E u. destruct G as [L A W I].
    assert (Id : forall s1 p, (forall v, t_chunk (ten s1 v) = t_chunk (ten s v)) -> m_cm p = m_cm (f t) -> held_by s1 (tset f t p) u = held_by s f u).
    { intros s1 p E1 E2. unfold held_by. rewrite E1. byt u t; auto. now rewrite E2. }
    assert (Pt : forall v x, t_chunk x = t_chunk (ten s v) -> forall w, t_chunk (tset (ten s) v x w) = t_chunk (ten s w)).
    { intros v x Ex w. byt w v; auto. }
    assert (Pl : m_hold (f t) = Some (false, []) -> m_cm (f t) = Plain).
    { intros Hh. destruct (m_cm (f t)) as [| |b i r'] eqn:C; auto; exfalso; apply (detached s f t L A Hh t).
      - right. now apply (ow_ret _ _ _ W) in C.
      - left. apply (ow_fly _ _ _ W) in C. tauto. }
    destruct a; cbn [okB] in O; ex E; cbn [nextB note_holding];
      try (apply Id; [reflexivity|reflexivity]);
      try (apply Id; [reflexivity|cbn; repeat match goal with |- context [if ?b then _ else _] => destruct b end; reflexivity]);
      try (apply Id; [intros v; try destruct (bufp s); reflexivity|try reflexivity; cbn; symmetry; tauto || (apply Pl; tauto)]);
      try (apply Id; [cbn; apply Pt; reflexivity|try reflexivity; cbn; symmetry; tauto]).
    - unfold held_by. byt u t; auto. cbn. destruct O as [_ [_ [_ [-> O]]]]. apply (at_ck _ _ A) in O as [-> _]. reflexivity.
    - unfold held_by. byt u t; auto. cbn. destruct O as [_ [_ [_ [-> O]]]]. apply (at_ck _ _ A) in O as [-> _]. reflexivity.
    - unfold held_by. byt u t; reflexivity.
    - unfold held_by. byt u t; reflexivity.
    - unfold held_by. byt u t; reflexivity.
    - unfold held_by. cbn [put_ten set_ten ten]. byt u t; auto. cbn. destruct O as [_ O]. destruct o as [[b i]|].
      + now rewrite O.
      + destruct O as [->|[-> O]]; auto. apply (at_ck _ _ A) in O. symmetry. apply O.
    - assert (Hm : m_cm (f u0) = Plain).
      { destruct O as [[on [ev O1]] [O2 [O3 [O4 _]]]]. destruct (Nat.eq_dec u0 t) as [->|N]; auto.
        assert (Hs : m_slave (f u0) = false).
        { destruct (m_slave (f u0)) eqn:Hs; auto. apply (lk_slave _ _ L) in Hs. apply (lk_mas _ _ L) in O2. congruence. }
        assert (Ho : m_hold (f u0) = None).
        { destruct (m_hold (f u0)) eqn:Ho; auto. destruct N. assert (X : mtx s = Some u0) by (apply (lk_hold _ _ L); congruence).
          assert (Y : mtx s = Some t) by (apply (lk_hold _ _ L); congruence). congruence. }
        destruct (m_cm (f u0)) as [| |b i r'] eqn:C; auto; exfalso.
        - apply (ow_ret _ _ _ W) in C as [_ [C|C]]; [|easy]. destruct C. congruence.
        - apply (ow_fly _ _ _ W) in C as [C _]. congruence. }
      destruct O as [[on [ev O1]] _]. rewrite O1. unfold held_by. cbn [put_ten set_ten ten].
      assert (Hm' : forall v, m_cm (tset f t (p_hold (Some (on, del u0 ev)) (f t)) v) = m_cm (f v)) by (intros v; byt v t; auto).
      rewrite Hm'. byt u u0; [now rewrite Hm|reflexivity].
    - apply Id; auto. destruct (m_hold (f t)) as [[]|]; reflexivity.
    - apply Id; auto. destruct O as [r ->]. reflexivity.
  Qed.

  Lemma note_holding_ext s t a r h h' : (forall u, h u = h' u) -> forall u, note_holding s t a r h u = note_holding s t a r h' u.
  Proof. intros E u. destruct a; cbn; auto; unfold tset; now destruct (Nat.eqb _ _). Qed.

  Theorem holders_held sched : exists f, GB (run pstep log_new sched) f /\ (forall t, valid t (code (run pstep log_new sched) t) (f t)) /\
    forall t, holders cap csz site_cat sched t = held_by (run pstep log_new sched) f t.
  Proof.
    apply (ghost_inv note_holding (fun _ => None) (fun s f h => forall t, h t = held_by s f t)); auto.
    - intros s f s' f' h Jh Ef _ _ _ _ _ _ E7 _ t. rewrite Jh. unfold held_by. now rewrite Ef, E7.
    - intros s f h t ch a k s' r R G Ec O E Jh u. rewrite (holding_next s f t ch a k s' r) by auto. now apply note_holding_ext.
  Qed.
End Holders.
