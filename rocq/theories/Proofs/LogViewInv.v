(** The invariant behind the contract, and its preservation. *)
From Verif Require Import Base Model.StringUtils Model.Event Model.Queue Model.Buffer Model.Config Spec.Categories Model.Registry
  Model.Interleave Spec.LogHistory Model.TraceLog Proofs.Interleave Proofs.Registry Proofs.LogFrame Proofs.LogView.

Lemma status_snoc h e : status_after (h ++ [e]) = advance (status_after h) e.
Proof. unfold status_after. now rewrite fold_left_app. Qed.

Lemma view_snoc h e : view_after (h ++ [e]) = apply (view_after h) e.
Proof. unfold view_after. now rewrite fold_left_app. Qed.

Lemma inert_apply v e : inert e = true -> apply v e = v.
Proof. destruct e; cbn; try easy. destruct o; easy. Qed.

Lemma status_view h : vw (status_after h) = view_after h.
Proof.
  induction h as [|e h IH] using rev_ind; auto. rewrite status_snoc, view_snoc, <- IH. unfold advance.
  destruct (inert e) eqn:E; auto. now rewrite inert_apply.
Qed.

Lemma legal_inert csz q e : inert e = true -> legal csz q e.
Proof. unfold legal. now intros ->. Qed.

Lemma snoc_inj {A} (a b : list A) x y : a ++ [x] = b ++ [y] -> a = b /\ x = y.
Proof. apply app_inj_tail. Qed.

(** Splitting a history that got one more event. *)
Lemma split_snoc {A} (h a b : list A) x e : h ++ [x] = a ++ e :: b -> (b = [] /\ a = h /\ e = x) \/ exists b', b = b' ++ [x] /\ h = a ++ e :: b'.
Proof.
  destruct b as [|y b] using rev_ind; intros H.
  - apply snoc_inj in H as [-> ->]. auto.
  - right. exists b. replace (a ++ e :: b ++ [y]) with ((a ++ e :: b) ++ [y]) in H by now rewrite <- app_assoc.
    apply snoc_inj in H as [-> ->]. auto.
Qed.

Lemma all_legal_snoc csz h e : all_legal csz h -> legal csz (status_after h) e -> all_legal csz (h ++ [e]).
Proof.
  intros A L a x b E. apply split_snoc in E as [[-> [-> ->]]|[b' [-> ->]]]; auto. eapply A; eauto.
Qed.

(** Tracing has been on at some moment since the thread's last call began. *)
Definition seen_since (h : list hev) (t : tid) : Prop :=
  exists x y, h = x ++ y /\ v_on (view_after x) = true /\ forall o, ~ In (Invoked t o) y.

Lemma seen_snoc h t e : seen_since h t -> (forall o, e <> Invoked t o) -> seen_since (h ++ [e]) t.
Proof.
  intros [x [y [-> [O N]]]] E. exists x, (y ++ [e]). rewrite app_assoc. repeat split; auto.
  intros o I. apply in_app_or in I as [I|[I|[]]]; [eapply N; eauto|eapply E; eauto].
Qed.

Lemma seen_now h t : v_on (view_after h) = true -> seen_since h t.
Proof. intros O. exists h, []. rewrite app_nil_r. repeat split; auto. Qed.

Definition stored_ok (h : list hev) : Prop :=
  forall x t b e y, h = x ++ Stored t b e :: y -> mem t (v_regd (view_after x)) = true /\ seen_since x t.

Lemma stored_snoc h e : stored_ok h -> (forall t b x, e = Stored t b x -> mem t (v_regd (view_after h)) = true /\ seen_since h t) ->
  stored_ok (h ++ [e]).
Proof.
  intros S N a t b x y E. apply split_snoc in E as [[-> [-> Ex]]|[b' [-> ->]]].
  - eapply N; now symmetry; eauto.
  - eapply S; eauto.
Qed.

Lemma rok_get r c i r' : rok r -> getStatus r c = (i, r') -> rok r' /\ rg_enabled r' = rg_enabled r /\ rg_disabled r' = rg_disabled r.
Proof.
  intros R H. pose proof (getStatus_spec r c R) as S. rewrite H in S. split; [apply S|].
  unfold getStatus in H. destruct (search _ _ _ _) eqn:E; [inversion H; subst; auto|].
  destruct (rg_count r <? registry_size) eqn:L; inversion H; subst; auto.
Qed.

Lemma rok_disable r : rok r -> rok (disableAll r).
Proof.
  intros []. split; cbn [disableAll updateEnabled rg_status rg_count rg_groups rg_enabled rg_disabled]; auto.
  intros i Hi. apply Nat.ltb_lt in Hi as ->. now rewrite all_off.
Qed.

Lemma rok_update r en dis : rok r -> rok (updateEnabled r en dis).
Proof.
  intros []. split; cbn [disableAll updateEnabled rg_status rg_count rg_groups rg_enabled rg_disabled]; auto.
  intros i Hi. now apply Nat.ltb_lt in Hi as ->.
Qed.

Section Inv.
  Variables cap csz : N.
  Variable site_cat : nat -> bytes.

  Notation ok := (ok csz).

  Record GA (s : st) (f : tid -> phase) : Prop := {
    g_sec : forall t, a_sec (f t) <> None -> mtx s = Some t;
    g_own : forall t, mtx s = Some t -> a_sec (f t) <> None;
    g_sini : forall t, a_sec (f t) <> None -> a_ini (f t) = false;
    g_cur : forall t p q, a_sec (f t) = Some (p, q) -> p = prot s /\ q = status_after (hist s);
    g_free : mtx s = None -> prot s = vw (status_after (hist s)) /\ calm (status_after (hist s)) /\ since (status_after (hist s)) = [];
    g_on : enabled s = v_on (vw (status_after (hist s)));
    g_legal : all_legal csz (hist s);
    g_init : forall t, t_init (ten s t) = mem t (regd s);
    g_nodup : NoDup (regd s);
    g_regd : forall u, mtx s <> Some u -> mem u (regd s) = mem u (v_regd (vw (status_after (hist s))));
    g_kini : forall t, a_ini (f t) = true -> mem t (regd s) = true;
    g_seen : forall t, a_seen (f t) = true -> seen_since (hist s) t;
    g_mine : forall t, a_mine (f t) = true -> closing s = Some t;
    g_after : forall t q, a_after (f t) = Some q -> closing s = Some t -> mtx s = None /\ status_after (hist s) = q;
    g_reg : rok (reg s);
    g_stored : stored_ok (hist s);
  }.

  Lemma GA_cmd s f t c : GA s f -> GA (set_cmd s t c) f.
  Proof. intros []. split; auto. Qed.
  Lemma GA_bad s f : GA s f -> GA (set_bad s true) f.
  Proof. intros []. split; auto. Qed.

  Ltac byt u t := destruct (Nat.eq_dec u t) as [->|?N]; [rewrite ?tset_same in *|rewrite ?tset_other in * by auto].

  (** An action that changes none of the protected fields. *)
  Lemma GA_skip s f t s' ph' l : GA s f -> (closing s = None \/ closing s = Some t) ->
    prot s' = prot s -> mtx s' = mtx s -> closing s' = closing s -> hist s' = hist s ++ l ->
    (forall u, t_init (ten s' u) = t_init (ten s u)) -> rok (reg s') ->
    (l = [] \/ exists e, l = [e] /\ inert e = true /\ (forall u o, e <> Invoked u o) /\
       forall u b x, e = Stored u b x -> mem u (v_regd (view_after (hist s))) = true /\ seen_since (hist s) u) ->
    a_sec ph' = a_sec (f t) -> a_mine ph' = a_mine (f t) -> a_after ph' = a_after (f t) ->
    (a_ini ph' = true -> mem t (regd s) = true) -> (a_sec ph' <> None -> a_ini ph' = a_ini (f t)) -> (a_seen ph' = true -> a_seen (f t) = true \/ enabled s = true) ->
    GA s' (tset f t ph').
  Proof.
    intros I Cl Ep Em Ec Eh Et Er El A1 A2 A3 A4 A6 A5.
    assert (Q : status_after (hist s') = status_after (hist s)).
    { rewrite Eh. destruct El as [->|[e [-> [Ie _]]]]; [now rewrite app_nil_r|]. rewrite status_snoc. unfold advance. now rewrite Ie. }
    assert (Ereg : regd s' = regd s) by (now inversion Ep).
    assert (Een : enabled s' = enabled s) by (now inversion Ep).
    assert (Se : forall u, seen_since (hist s) u -> seen_since (hist s') u).
    { intros u. rewrite Eh. destruct El as [->|[e [-> [_ [Ne _]]]]]; [now rewrite app_nil_r|]. intros S. apply seen_snoc; auto. }
    split.
    - intros u Hu. rewrite Em. apply (g_sec _ _ I). byt u t; auto. now rewrite <- A1.
    - intros u Hu. rewrite Em in Hu. apply (g_own _ _ I) in Hu. byt u t; auto. now rewrite A1.
    - intros u Hu. byt u t; [rewrite A6 by auto; apply (g_sini _ _ I); congruence|now apply (g_sini _ _ I)].
    - intros u p q Hu. rewrite Ep, Q. apply (g_cur _ _ I u). byt u t; auto. now rewrite <- A1.
    - rewrite Em, Ep, Q. apply (g_free _ _ I).
    - rewrite Een, Q. apply (g_on _ _ I).
    - rewrite Eh. destruct El as [->|[e [-> [Ie _]]]]; [rewrite app_nil_r; apply (g_legal _ _ I)|].
      apply all_legal_snoc; [apply (g_legal _ _ I)|now apply legal_inert].
    - intros u. rewrite Et, Ereg. apply (g_init _ _ I).
    - rewrite Ereg. apply (g_nodup _ _ I).
    - rewrite Em, Ereg, Q. apply (g_regd _ _ I).
    - intros u Hu. rewrite Ereg. byt u t; auto. now apply (g_kini _ _ I).
    - intros u Hu. apply Se. byt u t; [|now apply (g_seen _ _ I)]. apply A5 in Hu as [Hu|Hu]; [now apply (g_seen _ _ I)|].
      apply seen_now. now rewrite <- status_view, <- (g_on _ _ I).
    - intros u Hu. rewrite Ec. apply (g_mine _ _ I). byt u t; auto. now rewrite <- A2.
    - intros u q Hu. rewrite Ec, Em, Q. apply (g_after _ _ I). byt u t; auto. now rewrite <- A3.
    - auto.
    - rewrite Eh. destruct El as [->|[e [-> [_ [_ Ne]]]]]; [rewrite app_nil_r; apply (g_stored _ _ I)|].
      apply stored_snoc; [apply (g_stored _ _ I)|exact Ne].
  Qed.

  (** An action of the thread that holds the lock. *)
  Lemma GA_in s f t s' p q p' q' l : GA s f -> (closing s = None \/ closing s = Some t) ->
    a_sec (f t) = Some (p, q) ->
    p' = prot s' -> mtx s' = mtx s -> closing s' = closing s -> hist s' = hist s ++ l ->
    (l = [] /\ q' = q \/ exists e, l = [e] /\ q' = advance q e /\ legal csz q e /\ (forall u o, e <> Invoked u o) /\ (forall u b x, e <> Stored u b x)) ->
    (forall u, t_init (ten s' u) = mem u (regd s')) -> NoDup (regd s') -> rok (reg s') ->
    enabled s' = v_on (vw q') ->
    (forall u, u <> t -> mem u (regd s') = mem u (regd s)) ->
    (forall u, u <> t -> mem u (v_regd (vw q')) = mem u (v_regd (vw q))) ->
    GA s' (tset f t (sec (f t) (Some (p', q')))).
  Proof.
    intros I Cl A1 Ep Em Ec Eh El Hi Nd Er Eo Ereg Eq.
    assert (A2 : a_ini (f t) = false) by (apply (g_sini _ _ I); congruence).
    destruct (g_cur _ _ I _ _ _ A1) as [-> ->].
    assert (M : mtx s = Some t) by (apply (g_sec _ _ I); congruence).
    assert (Q : status_after (hist s') = q').
    { rewrite Eh. destruct El as [[-> ->]|[e [-> [-> _]]]]; [now rewrite app_nil_r|]. now rewrite status_snoc. }
    assert (Se : forall u, seen_since (hist s) u -> seen_since (hist s') u).
    { intros u. rewrite Eh. destruct El as [[-> ->]|[e [-> [_ [_ [Ne _]]]]]]; [now rewrite app_nil_r|]. intros S. apply seen_snoc; auto. }
    split.
    - intros u Hu. rewrite Em. byt u t; auto. now apply (g_sec _ _ I).
    - intros u Hu. rewrite Em in Hu. byt u t; [easy|]. now apply (g_own _ _ I).
    - intros u Hu. byt u t; [exact A2|now apply (g_sini _ _ I)].
    - intros u x y Hu. byt u t.
      + cbn in Hu. inversion Hu; subst. auto.
      + assert (mtx s = Some u) by (apply (g_sec _ _ I); congruence). congruence.
    - rewrite Em, M. easy.
    - now rewrite Q.
    - rewrite Eh. destruct El as [[-> ->]|[e [-> [-> [L _]]]]]; [rewrite app_nil_r; apply (g_legal _ _ I)|].
      apply all_legal_snoc; [apply (g_legal _ _ I)|auto].
    - auto.
    - auto.
    - intros u. rewrite Em, M, Q. intros Hu. assert (u <> t) by congruence. rewrite Ereg, Eq by auto. apply (g_regd _ _ I). congruence.
    - intros u Hu. byt u t; [cbn in Hu; congruence|]. rewrite Ereg by auto. now apply (g_kini _ _ I).
    - intros u Hu. apply Se. apply (g_seen _ _ I). byt u t; auto.
    - intros u Hu. rewrite Ec. apply (g_mine _ _ I). byt u t; auto.
    - intros u x Hu. rewrite Ec. intros Hc. exfalso. byt u t.
      + cbn in Hu. destruct (g_after _ _ I _ _ Hu Hc). congruence.
      + destruct Cl; congruence.
    - auto.
    - rewrite Eh. destruct El as [[-> ->]|[e [-> [_ [_ [_ Ne]]]]]]; [rewrite app_nil_r; apply (g_stored _ _ I)|].
      apply stored_snoc; [apply (g_stored _ _ I)|]. intros u b x E. now destruct (Ne u b x).
  Qed.
(* exec part *)

  Lemma GA_enter s f t : GA s f -> mtx s = None -> (closing s = None \/ closing s = Some t) ->
    GA (set_mtx s (Some t)) (tset f t (enter (f t) (prot s) (status_after (hist s)))).
  Proof.
    intros I Em Cl.
    assert (No : forall u, a_sec (f u) = None).
    { intros u. destruct (a_sec (f u)) eqn:Eu; auto. assert (mtx s = Some u) by (apply (g_sec _ _ I); congruence). congruence. }
    destruct (g_free _ _ I Em) as [F1 [F2 F3]].
    split; cbn.
    - intros u Hu. byt u t; auto. now rewrite No in Hu.
    - intros u Hu. inversion Hu; subst. now rewrite tset_same.
    - intros u Hu. byt u t; auto. now apply (g_sini _ _ I).
    - intros u p q Hu. byt u t; [cbn in Hu; now inversion Hu|]. now rewrite No in Hu.
    - easy.
    - apply (g_on _ _ I).
    - apply (g_legal _ _ I).
    - apply (g_init _ _ I).
    - apply (g_nodup _ _ I).
    - intros u _. apply (g_regd _ _ I). congruence.
    - intros u Hu. byt u t; [easy|]. now apply (g_kini _ _ I).
    - intros u Hu. apply (g_seen _ _ I). byt u t; auto.
    - intros u Hu. apply (g_mine _ _ I). byt u t; auto.
    - intros u q Hu Hc. exfalso. byt u t; [easy|]. destruct Cl; congruence.
    - apply (g_reg _ _ I).
    - apply (g_stored _ _ I).
  Qed.

  Lemma GA_leave s f t e : GA s f -> mtx s = Some t -> (closing s = None \/ closing s = Some t) ->
    legal csz (status_after (hist s)) e -> inert e = false -> prot s = vw (advance (status_after (hist s)) e) ->
    calm (advance (status_after (hist s)) e) -> since (advance (status_after (hist s)) e) = [] ->
    GA (emit (set_mtx s None) e) (tset f t (leave (f t) (advance (status_after (hist s)) e))).
  Proof.
    intros I Em Cl L Ie Ep C S.
    assert (No : forall u, u <> t -> a_sec (f u) = None).
    { intros u Nu. destruct (a_sec (f u)) eqn:Eu; auto. assert (mtx s = Some u) by (apply (g_sec _ _ I); congruence). congruence. }
    split; cbn [emit set_hist set_mtx hist mtx closing enabled regd ten reg]; rewrite ?status_snoc.
    - intros u Hu. byt u t; [easy|]. now rewrite No in Hu.
    - easy.
    - intros u Hu. byt u t; [easy|]. now apply (g_sini _ _ I).
    - intros u p q Hu. byt u t; [easy|]. rewrite No in Hu; easy.
    - intros _. repeat split; auto; apply C.
    - rewrite <- Ep. reflexivity.
    - apply all_legal_snoc; auto. apply (g_legal _ _ I).
    - apply (g_init _ _ I).
    - apply (g_nodup _ _ I).
    - intros u _. now rewrite <- Ep.
    - intros u Hu. byt u t; [easy|]. now apply (g_kini _ _ I).
    - intros u Hu. apply seen_snoc; [apply (g_seen _ _ I); byt u t; auto|]. intros o ->. easy.
    - intros u Hu. apply (g_mine _ _ I). byt u t; auto.
    - intros u q Hu Hc. byt u t; [|destruct Cl; congruence]. cbn in Hu. inversion Hu; auto.
    - apply (g_reg _ _ I).
    - apply stored_snoc; [apply (g_stored _ _ I)|]. intros u b x ->. easy.
  Qed.

  Lemma GA_free s f t : GA s f -> mtx s = None -> closing s = Some t -> a_sec (f t) = None ->
    legal csz (status_after (hist s)) (Freed t) -> calm (status_after (hist s)) ->
    GA (emit (set_bufp (free_buf s (bufp s)) None) (Freed t)) (tset f t (leave (f t) (advance (status_after (hist s)) (Freed t)))).
  Proof.
    intros I Em Ec Es L C. destruct (g_free _ _ I Em) as [F1 [F2 F3]].
    assert (X : exists h, set_bufp (free_buf s (bufp s)) None = set_bufp (set_heap s h) None).
    { destruct (bufp s); [eexists; reflexivity|]. exists (heap s). now destruct s. }
    destruct X as [h ->].
    assert (No : forall u, a_sec (f u) = None).
    { intros u. destruct (a_sec (f u)) eqn:Eu; auto. assert (mtx s = Some u) by (apply (g_sec _ _ I); congruence). congruence. }
    split; cbn [emit set_hist set_mtx set_bufp set_heap hist mtx closing enabled regd ten reg]; rewrite ?status_snoc.
    - intros u Hu. byt u t; [easy|]. now rewrite No in Hu.
    - congruence.
    - intros u Hu. byt u t; [easy|]. now apply (g_sini _ _ I).
    - intros u p q Hu. byt u t; [easy|]. rewrite No in Hu; easy.
    - intros _. split; [|repeat split; apply C]. transitivity (w_buf (prot s) None); [reflexivity|]. rewrite F1. reflexivity.
    - cbn. apply (g_on _ _ I).
    - apply all_legal_snoc; auto. apply (g_legal _ _ I).
    - apply (g_init _ _ I).
    - apply (g_nodup _ _ I).
    - intros u _. cbn. apply (g_regd _ _ I). congruence.
    - intros u Hu. byt u t; [easy|]. now apply (g_kini _ _ I).
    - intros u Hu. apply seen_snoc; [apply (g_seen _ _ I); byt u t; auto|]. easy.
    - intros u Hu. apply (g_mine _ _ I). byt u t; auto.
    - intros u q Hu Hc. byt u t; [|congruence]. cbn in Hu. inversion Hu; auto.
    - apply (g_reg _ _ I).
    - apply stored_snoc; [apply (g_stored _ _ I)|]. easy.
  Qed.

  Lemma GA_exec s f t ch a s' r : GA s f -> (closing s = None \/ closing s = Some t) -> ok t (f t) a ->
    exec cap s t ch a = Next s' r -> exists ph', post t (f t) a r ph' /\ GA s' (tset f t ph').
  Proof.
    intros I Cl O E.
    pose proof (g_init _ _ I) as Hi. pose proof (g_nodup _ _ I) as Hn. pose proof (g_reg _ _ I) as Hr.
    assert (Same : forall s', prot s' = prot s -> mtx s' = mtx s -> closing s' = closing s -> hist s' = hist s ->
              (forall u, t_init (ten s' u) = t_init (ten s u)) -> rok (reg s') -> GA s' (tset f t (f t))).
    { intros s1 E1 E2 E3 E4 E5 E6. apply GA_skip with (s := s) (l := []); auto; try now rewrite app_nil_r.
      apply (g_kini _ _ I). }
    assert (Note : forall s' e, prot s' = prot s -> mtx s' = mtx s -> closing s' = closing s -> hist s' = hist s ++ [e] ->
              (forall u, t_init (ten s' u) = t_init (ten s u)) -> rok (reg s') -> inert e = true -> (forall u o, e <> Invoked u o) ->
              (forall u b x, e = Stored u b x -> mem u (v_regd (view_after (hist s))) = true /\ seen_since (hist s) u) ->
              GA s' (tset f t (f t))).
    { intros s1 e E1 E2 E3 E4 E5 E6 E7 E8 E9. apply GA_skip with (s := s) (l := [e]); auto; [right; eauto 6|apply (g_kini _ _ I)]. }
    assert (Ten : forall u x, t_init x = t_init (ten s u) -> forall v, t_init (tset (ten s) u x v) = t_init (ten s v)).
    { intros u x Ex v. unfold tset. destruct (Nat.eqb_spec v u); congruence. }
    assert (Sec : forall F, insec (f t) F -> exists p q, a_sec (f t) = Some (p, q) /\ p = prot s /\ q = status_after (hist s) /\ F p q).
    { intros F HF. unfold insec in HF. destruct (a_sec (f t)) as [[p q]|] eqn:Es; [|easy]. destruct (g_cur _ _ I _ _ _ Es). eauto 6. }
    assert (Quiet : forall p q s', a_sec (f t) = Some (p, q) ->
              mtx s' = mtx s -> closing s' = closing s -> hist s' = hist s ->
              (forall u, t_init (ten s' u) = mem u (regd s')) -> NoDup (regd s') -> rok (reg s') -> enabled s' = enabled s ->
              (forall u, u <> t -> mem u (regd s') = mem u (regd s)) ->
              GA s' (tset f t (sec (f t) (Some (prot s', q))))).
    { intros p q s1 A1 E2 E3 E4 E6 E7 E8 E9 E10. eapply GA_in with (l := []); eauto.
      - now rewrite app_nil_r.
      - rewrite E9. destruct (g_cur _ _ I _ _ _ A1) as [_ ->]. apply (g_on _ _ I). }
    assert (Loud : forall p q e s', a_sec (f t) = Some (p, q) ->
              mtx s' = mtx s -> closing s' = closing s -> hist s' = hist s ++ [e] ->
              legal csz q e -> (forall u o, e <> Invoked u o) -> (forall u b x, e <> Stored u b x) ->
              ten s' = ten s -> regd s' = regd s -> rok (reg s') -> enabled s' = v_on (vw (advance q e)) ->
              (forall u, u <> t -> mem u (v_regd (vw (advance q e))) = mem u (v_regd (vw q))) ->
              GA s' (tset f t (sec (f t) (Some (prot s', advance q e))))).
    { intros p q e s1 A1 E2 E3 E4 L N1 N2 E6 E7 E8 E9 E10. eapply GA_in with (l := [e]); eauto.
      - right. eauto 8.
      - intros u. now rewrite E6, E7.
      - now rewrite E7.
      - intros u _. now rewrite E7. }
    assert (Ans : forall p q, a_sec (f t) = Some (p, q) -> p = prot s) by (intros p q Es; now destruct (g_cur _ _ I _ _ _ Es)).
    destruct a; cbn [exec] in E; unfold with_buf in E.
    - (* ALdEnabled *)
      inversion E; subst; clear E. exists (if enabled s' then saw (f t) else f t). split.
      + split; auto. intros p q Es. now rewrite (Ans _ _ Es).
      + destruct (enabled s') eqn:En; [|apply Same; auto].
        apply GA_skip with (s := s') (l := []); auto; try now rewrite app_nil_r. cbn. apply (g_kini _ _ I).
    - (* AXchg *)
      apply Sec in O as [p [q [Es [-> [-> [C Rl]]]]]].
      destruct (enabled s) eqn:En; inversion E; subst; clear E.
      + eexists. split.
        * split; [intros p q Es'; now rewrite (Ans _ _ Es')|]. unfold upd_sec. rewrite Es. reflexivity.
        * eapply (Loud _ _ (Off t w)); eauto; try easy. cbn. repeat split; auto; try apply C. now rewrite <- (g_on _ _ I).
      + exists (f t). split; [|apply Same; auto]. split; auto. intros p q Es'. now rewrite (Ans _ _ Es').
    - (* AStEnabled *)
      apply Sec in O as [p [q [Es [-> [-> L]]]]]. inversion E; subst; clear E. eexists. split.
      * cbn. unfold upd_sec. rewrite Es. reflexivity.
      * eapply (Loud _ _ (On t g m)); eauto; easy.
    - (* ALock *)
      destruct (mtx s) as [u|] eqn:Em; [destruct (u =? t); easy|]. inversion E; subst; clear E.
      destruct (g_free _ _ I Em) as [F1 [F2 F3]].
      exists (enter (f t) (prot s) (status_after (hist s))). split; [exists (prot s), (status_after (hist s)); auto|].
      apply GA_enter; auto.
    - (* ATryLock *)
      destruct (mtx s) as [u|] eqn:Em.
      + destruct (u =? t); [easy|]. inversion E; subst. exists (f t). split; [reflexivity|apply Same; auto].
      + destruct (g_free _ _ I Em) as [F1 [F2 F3]].
        assert (X : (s', r) = (s, false) \/ (s', r) = (set_mtx s (Some t), true)) by (destruct ch; inversion E; auto).
        destruct X as [X|X]; inversion X; subst; clear X.
        * exists (f t). split; [reflexivity|apply Same; auto].
        * exists (enter (f t) (prot s) (status_after (hist s))). split; [exists (prot s), (status_after (hist s)); auto|].
          apply GA_enter; auto.
    - (* AUnlock *)
      unfold owns in E. destruct (mtx s) as [u|] eqn:Em; [|easy]. destruct (Nat.eqb_spec u t) as [->|]; [|easy].
      inversion E; subst; clear E. apply Sec in O as [p [q [Es [-> [-> [L [In [Ep [C S]]]]]]]]].
      exists (leave (f t) (advance (status_after (hist s)) e)). split; [cbn; now rewrite Es|].
      apply GA_leave; auto.
    - inversion E; subst. exists (f t). split; [reflexivity|apply Same; auto].
    - (* AIncGen *)
      destruct O as [O Oi]. apply Sec in O as [p [q [Es [-> [-> _]]]]]. inversion E; subst; clear E. eexists. split.
      * cbn. split; [intros p q Es'; now rewrite (Ans _ _ Es')|]. unfold upd_sec. rewrite Es. reflexivity.
      * eapply Quiet; eauto.
    - inversion E; subst. exists (f t). split; [reflexivity|apply Same; auto].
    - (* ABufTake *)
      destruct O as [O Oi]. apply Sec in O as [p [q [Es [-> [-> _]]]]]. inversion E; subst; clear E. eexists. split.
      * cbn. split; [intros p q Es'; now rewrite (Ans _ _ Es')|]. unfold upd_sec. rewrite Es. reflexivity.
      * pose proof (Quiet _ _ (set_bufp (give_buf s (bufp s)) None) Es) as X.
        destruct (bufp s) eqn:Eb; apply X; auto.
    - (* ABufSet *)
      destruct O as [O Oi]. apply Sec in O as [p [q [Es [-> [-> _]]]]]. inversion E; subst; clear E. eexists. split.
      * cbn. unfold upd_sec. rewrite Es. reflexivity.
      * pose proof (Quiet _ _ (set_bufp (free_buf s (bufp s)) o) Es) as X.
        destruct (bufp s) eqn:Eb; apply X; auto.
    - (* AFactory *)
      apply Sec in O as [p [q [Es [-> [-> L]]]]].
      assert (X : factory_can (cf_factory c) n r /\ prot s' = prot s /\ mtx s' = mtx s /\ closing s' = closing s /\ hist s' = hist s ++ [Made t g n r] /\
                  ten s' = ten s /\ regd s' = regd s /\ reg s' = reg s).
      { unfold exec_factory in E. destruct ch, (cf_factory c); try easy;
          try (destruct (N.eqb_spec n0 n) as [->|]; [|easy]); inversion E; subst; cbn; repeat split; auto. }
      destruct X as [Fc [X1 [X2 [X3 [X4 [X5 [X6 X7]]]]]]]. eexists. split.
      * cbn. split; [exact Fc|]. unfold upd_sec. rewrite Es. reflexivity.
      * rewrite <- X1. apply L in Fc. eapply (Loud _ _ (Made t g n r)); eauto; try easy.
        -- now rewrite X7.
        -- transitivity (v_on (prot s')); [reflexivity|]. rewrite X1. cbn. apply (g_on _ _ I).
    - (* AIssue *)
      destruct (b_owner (heap s b)); try easy. destruct (b_issued (heap s b) <? b_size (heap s b))%N.
      + inversion E; subst. exists (f t). split; [reflexivity|apply Same; auto].
      + destruct (b_kind (heap s b)); inversion E; subst; exists (f t); (split; [reflexivity|apply Same; auto]).
    - destruct (b_owner (heap s b)); try easy. destruct (b_queue (heap s b)); inversion E; subst.
      exists (f t). split; [reflexivity|apply Same; auto].
    - destruct (b_owner (heap s b)); try easy. destruct (_ <? _)%N; inversion E; subst.
      exists (f t). split; [reflexivity|apply Same; auto].
    - destruct (b_owner (heap s b)); try easy. inversion E; subst.
      exists (f t). split; [reflexivity|apply Same; auto].
    - destruct (b_owner (heap s b)); try easy. destruct (_ <? _)%N; [|easy]. destruct (b_kind (heap s b)); inversion E; subst;
        exists (f t); (split; [reflexivity|apply Same; auto]).
    - destruct (t_lock (ten s t)); inversion E; subst; exists (f t); (split; [reflexivity|apply Same; auto]). cbn. now apply Ten.
    - destruct (t_lock (ten s t)); inversion E; subst; exists (f t); (split; [reflexivity|apply Same; auto]). cbn. now apply Ten.
    - destruct (t_lock (ten s u)); inversion E; subst; exists (f t); (split; [reflexivity|apply Same; auto]). cbn. now apply Ten.
    - destruct (t_lock (ten s u)) as [| |v]; try easy. destruct (v =? t); inversion E; subst; exists (f t); (split; [reflexivity|apply Same; auto]). cbn. now apply Ten.
    - inversion E; subst. exists (f t). split; [reflexivity|apply Same; auto].
    - inversion E; subst. exists (f t). split; [reflexivity|apply Same; auto]. cbn. now apply Ten.
    - inversion E; subst. exists (f t). split; [reflexivity|apply Same; auto]. cbn. now apply Ten.
    - (* AInitGet *)
      inversion E; subst; clear E. exists (match a_sec (f t) with None => if t_init (ten s' t) then knows (f t) else f t | Some _ => f t end). split.
      + split; auto. intros p q Es. rewrite (Ans _ _ Es). apply Hi.
      + destruct (a_sec (f t)) eqn:Es; [apply Same; auto|]. destruct (t_init (ten s' t)) eqn:Et; [|apply Same; auto].
        apply GA_skip with (s := s') (l := []); auto; try now rewrite app_nil_r.
        * intros _. now rewrite <- Hi.
        * now intros [].
    - (* AReg *)
      destruct O as [O Oi]. apply Sec in O as [p [q [Es [-> [-> _]]]]]. inversion E; subst; clear E. eexists. split.
      * cbn. unfold upd_sec. rewrite Es. reflexivity.
      * set (l := if v then add t (regd s) else del t (regd s)).
        set (s1 := set_regd (put_ten s t (set_tinit (ten s t) v)) l).
        change (w_regd (prot s) (if v then add t (v_regd (prot s)) else del t (v_regd (prot s)))) with (prot s1).
        eapply Quiet; eauto; cbn [s1 set_regd put_ten set_ten ten regd].
        -- intros u. unfold tset, l. destruct v; rewrite ?mem_add, ?mem_del; destruct (u =? t) eqn:Eu; cbn [orb andb negb set_tinit t_init]; auto.
        -- unfold l. destruct v; [now apply NoDup_add|now apply NoDup_del].
        -- intros u Nu. apply Nat.eqb_neq in Nu. unfold l. destruct v; rewrite ?mem_add, ?mem_del, Nu; reflexivity.
    - destruct (b_owner (heap s b)); try easy. destruct (_ <? _)%N; inversion E; subst.
      exists (f t). split; [reflexivity|apply Same; auto].
    - (* AStore *)
      destruct (b_owner (heap s b)); try easy. destruct (_ <? _)%N; [|easy].
      destruct (chunk_add cap (b_chunk (heap s b) i) e) as [c|y|]; inversion E; subst; exists (f t); (split; [reflexivity|]).
      + destruct O as [O1 [O2 O3]]. eapply (Note _ (Stored t b e)); eauto; try easy.
        intros u b' x X. inversion X; subst. split.
        * rewrite <- status_view, <- (g_regd _ _ I); [now apply (g_kini _ _ I)|]. intros M. apply (g_own _ _ I) in M. easy.
        * now apply (g_seen _ _ I).
      + apply Same; auto.
    - (* ADisableAll *)
      destruct O as [O Oi]. apply Sec in O as [p [q [Es [-> [-> _]]]]]. inversion E; subst; clear E. eexists. split.
      * cbn. unfold upd_sec. rewrite Es. reflexivity.
      * eapply Quiet; eauto. cbn. now apply rok_disable.
    - (* AUpdate *)
      destruct O as [O Oi]. apply Sec in O as [p [q [Es [-> [-> _]]]]]. inversion E; subst; clear E. eexists. split.
      * cbn. unfold upd_sec. rewrite Es. reflexivity.
      * eapply Quiet; eauto. cbn. now apply rok_update.
    - (* AGetStatus *)
      destruct (getStatus (reg s) category) as [i rg] eqn:Eg. inversion E; subst; clear E.
      destruct (rok_get _ _ _ _ Hr Eg) as [R1 [R2 R3]].
      exists (f t). split; [reflexivity|]. eapply (Note _ (Looked t category _)); eauto; try easy.
      unfold prot. cbn. now rewrite R2, R3.
    - inversion E; subst; clear E. exists (f t). split; [reflexivity|]. eapply (Note _ (Tested t i _)); eauto; easy.
    - inversion E; subst. exists (f t). split; [reflexivity|apply Same; auto].
    - inversion E; subst. exists (f t). split; [reflexivity|apply Same; auto].
    - (* ACfgSet *)
      apply Sec in O as [p [q [Es [-> [-> C]]]]]. inversion E; subst; clear E. eexists. split.
      * cbn. unfold upd_sec. rewrite Es. reflexivity.
      * eapply (Loud _ _ (Configured t c)); eauto; try easy.
        -- cbn. repeat split; apply C.
        -- cbn. apply (g_on _ _ I).
    - (* ACfgGet *)
      destruct O as [O Oi]. apply Sec in O as [p [q [Es [-> [-> _]]]]]. inversion E; subst; clear E. exists (f t).
      split; [|apply Same; auto]. split; auto. unfold insec. now rewrite Es.
    - inversion E; subst. exists (f t). split; [reflexivity|apply Same; auto].
    - destruct ch; try easy. destruct (mem u l); inversion E; subst. exists (f t). split; [reflexivity|apply Same; auto].
    - destruct O as [O Oi]. apply Sec in O as [p [q [Es [-> [-> _]]]]]. inversion E; subst; clear E. eexists. split.
      * cbn. unfold upd_sec. rewrite Es. reflexivity.
      * eapply Quiet; eauto.
    - destruct O as [O Oi]. apply Sec in O as [p [q [Es [-> [-> _]]]]]. inversion E; subst; clear E. eexists. split.
      * cbn. unfold upd_sec. rewrite Es. reflexivity.
      * eapply Quiet; eauto.
    - destruct O as [O Oi]. apply Sec in O as [p [q [Es [-> [-> _]]]]]. inversion E; subst; clear E. exists (f t).
      split; [|apply Same; auto]. split; auto. unfold insec. now rewrite Es.
    - destruct O as [O Oi]. apply Sec in O as [p [q [Es [-> [-> _]]]]]. inversion E; subst; clear E. eexists. split.
      * cbn. unfold upd_sec. rewrite Es. reflexivity.
      * eapply Quiet; eauto.
    - destruct O as [O Oi]. apply Sec in O as [p [q [Es [-> [-> _]]]]]. inversion E; subst; clear E. eexists. split.
      * cbn. unfold upd_sec. rewrite Es. reflexivity.
      * eapply Quiet; eauto.
    - destruct O as [O Oi]. apply Sec in O as [p [q [Es [-> [-> _]]]]]. inversion E; subst; clear E. eexists. split.
      * cbn. unfold upd_sec. rewrite Es. reflexivity.
      * eapply Quiet; eauto.
    - destruct O as [O Oi]. apply Sec in O as [p [q [Es [-> [-> _]]]]]. inversion E; subst; clear E. exists (f t).
      split; [|apply Same; auto]. split; auto. unfold insec. rewrite Es. cbn. auto.
    - (* AEmit *)
      apply Sec in O as [p [q [Es [-> [-> [L K]]]]]]. inversion E; subst; clear E. eexists. split.
      * cbn. unfold upd_sec. rewrite Es. reflexivity.
      * change (sec (f t) (Some (prot s, advance (status_after (hist s)) e))) with (sec (f t) (Some (prot (emit s e), advance (status_after (hist s)) e))).
        eapply (Loud _ _ e); eauto; try (destruct K as [[o [-> _]]|[h [x [-> _]]]]; easy).
        -- transitivity (enabled s); [reflexivity|]. rewrite (g_on _ _ I). destruct K as [[o [-> _]]|[h [x [-> _]]]]; [reflexivity|].
           destruct h, x; reflexivity.
        -- destruct K as [[o [-> _]]|[h [x [-> _]]]]; [reflexivity|]. destruct h, x; reflexivity.
    - (* ANote *)
      destruct O as [o [x [-> O3]]]. inversion E; subst; clear E. exists (f t). split; [reflexivity|]. eapply (Note _ (Done t o x)); eauto; easy.
    - easy.
    - (* AFree *)
      destruct O as [O1 [O2 [q [O3 [O4 O5]]]]]. pose proof (g_mine _ _ I _ O2) as Oc. destruct (g_after _ _ I _ _ O3 Oc) as [Em <-].
      inversion E; subst; clear E. eexists. split; [eexists; split; [exact O3|reflexivity]|].
      apply GA_free; auto.
    - inversion E; subst; clear E. exists (f t). split; [reflexivity|]. eapply (Note _ (Terminated t)); eauto; easy.
    - easy.
  Qed.


  Lemma GA_call s f t o : GA s f -> quiet (f t) -> closing s = None ->
    GA (if is_destroy o then set_closing (emit s (Invoked t o)) (Some t) else emit s (Invoked t o)) (tset f t (begun (is_destroy o))).
  Proof.
    intros I Q Ec.
    assert (Qs : status_after (hist s ++ [Invoked t o]) = status_after (hist s)) by now rewrite status_snoc.
    assert (M : forall u, a_mine (f u) = false).
    { intros u. destruct (a_mine (f u)) eqn:E; auto. apply (g_mine _ _ I) in E. congruence. }
    assert (Cl : forall u, closing (if is_destroy o then set_closing (emit s (Invoked t o)) (Some t) else emit s (Invoked t o)) = Some u ->
               u = t /\ is_destroy o = true).
    { intros u. destruct (is_destroy o); cbn; [intros X; now inversion X|congruence]. }
    set (s1 := if is_destroy o then _ else _) in *.
    assert (X : prot s1 = prot s /\ mtx s1 = mtx s /\ hist s1 = hist s ++ [Invoked t o] /\ ten s1 = ten s /\ reg s1 = reg s)
      by (unfold s1; destruct (is_destroy o); auto).
    destruct X as [X1 [X2 [X3 [X4 X5]]]].
    assert (Ereg : regd s1 = regd s) by (now inversion X1).
    assert (Een : enabled s1 = enabled s) by (now inversion X1).
    split; rewrite ?X1, ?X2, ?X3, ?X4, ?X5, ?Ereg, ?Een, ?Qs; try apply I.
    - intros u Hu. apply (g_sec _ _ I). byt u t; easy.
    - intros u Hu. apply (g_own _ _ I) in Hu. byt u t; easy.
    - intros u Hu. byt u t; [easy|]. now apply (g_sini _ _ I).
    - intros u p q Hu. apply (g_cur _ _ I u). byt u t; easy.
    - apply all_legal_snoc; [apply (g_legal _ _ I)|easy].
    - intros u Hu. byt u t; [easy|]. now apply (g_kini _ _ I).
    - intros u Hu. byt u t; [easy|]. apply seen_snoc; [now apply (g_seen _ _ I)|]. intros o' X. inversion X. congruence.
    - intros u Hu. byt u t.
      + unfold s1. cbn in Hu. now rewrite Hu.
      + rewrite M in Hu. easy.
    - intros u q Hu Hc. apply Cl in Hc as [-> _]. now rewrite tset_same in Hu.
    - apply stored_snoc; [apply (g_stored _ _ I)|easy].
  Qed.

  Definition reached (s : st) : Prop := exists sched, s = run (pstep cap csz site_cat) log_new sched.

  Lemma GA_new : GA log_new (fun _ => begun false).
  Proof.
    split; cbn; try easy.
    - intros x e y H. now destruct x.
    - constructor.
    - apply rok_new.
    - intros x t b e y H. now destruct x.
  Qed.

  Lemma GA_id s f t : GA s f -> GA s (tset f t (f t)).
  Proof.
    intros []. split; auto; intros; repeat match goal with H : context [tset f t (f t) ?u] |- _ => rewrite tset_id in H end;
      rewrite ?tset_id; eauto.
  Qed.

  Theorem full_inv s : reached s -> inv ok post quiet GA s.
  Proof.
    intros [sched ->]. apply (run_inv (pstep cap csz site_cat) (inv ok post quiet GA)).
      - intros s a s' J E. revert J E. apply (inv_step cap csz site_cat ok post quiet (fun _ => True)); auto.
        + apply GA_cmd.
        + apply GA_bad.
        + intros s0 f t ch a0 k s1 r _ I Cl _ O. now apply GA_exec.
        + intros s0 f t o _ I _ Q Ec _. exists (begun (is_destroy o)). split; [apply code_valid|now apply GA_call].
        + intros s0 f t h hk k _ I Po Ecode V. exists (f t). split; [|now apply GA_id]. apply hcode_valid; auto. destruct h; auto.
          * cbn in Po. rewrite Ecode in Po. cbn in Po. now apply negb_true_iff in Po.
          * cbn in Po. apply negb_true_iff in Po. destruct V as [[O _] _]. unfold insec in *. destruct (a_sec (f t)) as [[p q]|] eqn:Es; [|easy].
            destruct (g_cur _ _ I _ _ _ Es) as [-> _]. exact Po.
        + intros s0 f t hk k r _ I _ [O [O1 O2]]. exists (f t). split; [|now apply GA_id]. unfold insec in O. cbn.
          destruct (f t) as [[[p q]|] ini sn m af]; cbn in *; [|easy].
          destruct O as [-> [C N]]. subst. exists q, sn. split; [now apply hookR_refl|reflexivity].
      - split.
        + split; cbn; easy.
        + exists (fun _ => begun false). split; [apply GA_new|]. reflexivity.
  Qed.

  Theorem view_inv s : reached s -> exists f, GA s f.
  Proof. intros R. destruct (full_inv s R) as [_ [f [I _]]]. eauto. Qed.

  (** Induction over runs, with the invariant at hand. *)
  Lemma reached_ind (P : st -> Prop) :
    P log_new -> (forall s t c, P s -> P (set_cmd s t c)) -> (forall s, P s -> P (set_bad s true)) ->
    (forall s t, P s -> P (set_closing s t)) -> (forall s t o, reached s -> P s -> P (emit s (Invoked t o))) ->
    (forall s f t ch a s' r, reached s -> GA s f -> ok t (f t) a -> P s -> exec cap s t ch a = Next s' r -> P s') ->
    forall s, reached s -> P s.
  Proof.
    intros P0 Pc Pb Pl Pi Pe s [sched ->]. induction sched as [|a sched IH] using rev_ind; auto.
    rewrite run_snoc. set (s := run _ log_new sched) in *. assert (R : reached s) by (now exists sched).
    unfold move. destruct (pstep cap csz site_cat s a) as [s'|] eqn:E; auto.
    unfold pstep in E. destruct (polite s a); [|easy]. unfold step in E. destruct (bad s); [easy|].
    destruct (full_inv s R) as [_ [f [I V]]].
    destruct a as [t o|t ch|t h|t r].
    - destruct (code s t); [|easy]. destruct (closing s); [easy|]. destruct (is_destroy o).
      + destruct (is_nil (busy s)); [|easy]. inversion E; subst. auto.
      + inversion E; subst. auto.
    - specialize (V t). destruct (code s t) as [|x k]; [easy|]. destruct V as [O _].
      destruct (exec cap s t ch x) as [| |s1 r1] eqn:Ex; [easy| |]; inversion E; subst; eauto.
    - destruct (hook_of (code s t)) as [[hk k]|]; [|easy]. inversion E; subst. auto.
    - destruct (hook_of (code s t)) as [[hk k]|]; [|easy]. inversion E; subst. auto.
  Qed.

  (** The contract of the locked calls. *)
  Theorem history_legal s : reached s -> all_legal csz (hist s).
  Proof. intros R. destruct (view_inv s R) as [f I]. apply (g_legal _ _ I). Qed.

  Theorem view_holds s : reached s -> mtx s = None -> prot s = view_after (hist s) /\ calm (status_after (hist s)).
  Proof. intros R M. destruct (view_inv s R) as [f I]. destruct (g_free _ _ I M) as [A [B C]]. rewrite <- status_view. auto. Qed.

  Theorem enabled_view s : reached s -> enabled s = v_on (view_after (hist s)).
  Proof. intros R. destruct (view_inv s R) as [f I]. rewrite <- status_view. apply (g_on _ _ I). Qed.

  Theorem stored_legal s : reached s -> stored_ok (hist s).
  Proof. intros R. destruct (view_inv s R) as [f I]. apply (g_stored _ _ I). Qed.

  Theorem registry_ok s : reached s -> rok (reg s).
  Proof. intros R. destruct (view_inv s R) as [f I]. apply (g_reg _ _ I). Qed.

  (** The action a thread is about to perform is allowed. *)
  Lemma allowed s t a k : reached s -> code s t = Act a k -> exists f, GA s f /\ ok t (f t) a.
  Proof.
    intros R E. destruct (full_inv s R) as [_ [f [I V]]]. exists f. split; auto. specialize (V t). rewrite E in V. apply V.
  Qed.

  (** A further invariant, on top of this one. *)
  Lemma layer {P} (okL : tid -> P -> act -> Prop) postL (quietL : P -> Prop) (G : st -> (tid -> P) -> Prop) f0 :
    (forall s f t c, G s f -> G (set_cmd s t c) f) ->
    (forall s f, G s f -> G (set_bad s true) f) ->
    (forall s f t ch a k s' r, reached s -> G s f -> (closing s = None \/ closing s = Some t) ->
      code s t = Act a k -> okL t (f t) a -> exec cap s t ch a = Next s' r -> exists ph', postL t (f t) a r ph' /\ G s' (tset f t ph')) ->
    (forall s f t o, reached s -> G s f -> code s t = Ret -> quietL (f t) -> closing s = None ->
      (is_destroy o = true -> forall u, quietL (f u)) ->
      exists ph', valid okL postL quietL t (code_of csz site_cat t o) ph' /\
        G (if is_destroy o then set_closing (emit s (Invoked t o)) (Some t) else emit s (Invoked t o)) (tset f t ph')) ->
    (forall s f t h hk k, reached s -> G s f -> polite s (HookDo t h) = true -> code s t = Act (AHook hk) k ->
      valid okL postL quietL t (Act (AHook hk) k) (f t) ->
      exists ph', valid okL postL quietL t (hcode csz t h (Act (AHook hk) k)) ph' /\ G s (tset f t ph')) ->
    (forall s f t hk k r, reached s -> G s f -> code s t = Act (AHook hk) k -> okL t (f t) (AHook hk) ->
      exists ph', postL t (f t) (AHook hk) r ph' /\ G s (tset f t ph')) ->
    G log_new f0 -> (forall t, quietL (f0 t)) ->
    forall s, reached s -> inv okL postL quietL G s.
  Proof.
    intros H1 H2 H3 H4 H5 H6 G0 Q0 s [sched ->]. induction sched as [|a sched IH] using rev_ind.
    - split; [split; cbn; easy|]. exists f0. split; auto.
    - rewrite run_snoc. unfold move. destruct (pstep cap csz site_cat (run (pstep cap csz site_cat) log_new sched) a) as [s'|] eqn:E; auto.
      revert E. apply (inv_step cap csz site_cat okL postL quietL reached G); auto. now exists sched.
  Qed.
End Inv.
