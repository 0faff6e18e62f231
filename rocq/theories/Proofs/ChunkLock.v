(** The chunk lock under every interleaving. *)
From Verif Require Import Base Spec.LockHistory Model.Interleave Model.ChunkLock Proofs.Interleave.

Lemma holders_from_app l a b : holders_from l (a ++ b) = holders_from (holders_from l a) b.
Proof. revert l. induction a as [|e a IH]; intros l; cbn; [reflexivity|]. destruct e; apply IH. Qed.

Lemma holders_snoc h e : holders (h ++ [e]) = holders_from (holders h) [e].
Proof. apply holders_from_app. Qed.

(** The lock word says who is inside. *)
Definition linv (s : lstate) : Prop :=
  (lw s = Unlocked /\ holders (lhist s) = [] /\ forall t sd, lpc_of s t <> Inside sd) \/
  (exists t sd, lw s = taken sd /\ holders (lhist s) = [(t, sd)] /\
     forall u sd', lpc_of s u = Inside sd' <-> (u = t /\ sd' = sd)).

Definition no_abort (s : lstate) : Prop :=
  (forall t, ~ In (AssertFailed t) (lhist s)) /\ forall t, lpc_of s t <> Aborted.

(** A try_lock that failed, or is running, in terms of the history. *)
Definition pending_try (t : tid) (h : list lock_event) : Prop :=
  exists p m, h = p ++ TryCalled t :: m /\ forall e, In e m -> actor e <> t.

Definition saw_master (t : tid) (h : list lock_event) : Prop :=
  forall p s, h = p ++ TryFailed t :: s ->
  exists p' m1 m2 u, p = p' ++ TryCalled t :: m1 ++ m2 /\ (forall e, In e (m1 ++ m2) -> actor e <> t) /\
    holders (p' ++ TryCalled t :: m1) = [(u, Master)].

Definition tinv (s : lstate) : Prop :=
  forall t, saw_master t (lhist s) /\ (lpc_of s t = InTry -> pending_try t (lhist s)).

Lemma saw_master_snoc t h e : e <> TryFailed t -> saw_master t h -> saw_master t (h ++ [e]).
Proof.
  intros N S p s E. destruct (exists_last (l := TryFailed t :: s) ltac:(discriminate)) as (s' & x & Es).
  rewrite Es, app_assoc in E. apply app_inj_tail in E as [E ->].
  destruct s' as [|y s']; cbn in Es; inversion Es; subst; [congruence|].
  apply (S p s'). reflexivity.
Qed.

Lemma pending_snoc t h e : actor e <> t -> pending_try t h -> pending_try t (h ++ [e]).
Proof.
  intros N (p & m & -> & M). exists p, (m ++ [e]). rewrite <- app_assoc. split; [reflexivity|].
  intros x Hx. apply in_app_or in Hx as [Hx|[<-|[]]]; auto.
Qed.

(** A thread outside moves on outside, observing something that does not
    change who is inside. *)
Lemma linv_outside s t p e :
  linv s -> (forall sd, lpc_of s t <> Inside sd) -> (forall sd, p <> Inside sd) ->
  (forall l, holders_from l [e] = l) -> linv (lput s (lw s) t p [e]).
Proof.
  intros I P0 P1 N. destruct I as [(W & H & Q)|(t0 & sd0 & W & H & Q)].
  - left. cbn. rewrite holders_snoc, H, N. split; [exact W|]. split; [reflexivity|]. intros u x.
    destruct (Nat.eq_dec u t) as [->|Hu]; [rewrite tset_same; apply P1|rewrite tset_other by auto; apply Q].
  - right. exists t0, sd0. cbn. rewrite holders_snoc, H, N. split; [exact W|]. split; [reflexivity|]. intros u x.
    destruct (Nat.eq_dec u t) as [->|Hu]; [rewrite tset_same|rewrite tset_other by auto; apply Q].
    split; [intros X; now apply P1 in X|]. intros X. apply Q in X. now apply P0 in X.
Qed.

Lemma linv_step nd s a s' : linv s -> lstep nd s a = Some s' -> linv s'.
Proof.
  intros I E. destruct a as [t sd|t|t sp|t]; cbn [lstep] in E.
  - destruct (lpc_of s t) eqn:P; try discriminate. injection E as <-.
    apply linv_outside; auto; [rewrite P|]; discriminate.
  - destruct (lpc_of s t) eqn:P; try discriminate. injection E as <-.
    apply linv_outside; auto; [rewrite P|]; discriminate.
  - unfold cas_weak in E.
    assert (forall sd, lw s = Unlocked -> linv (lput s (taken sd) t (Inside sd) [Entered t sd])) as Enter.
    { intros sd W0. destruct I as [(W & H & Q)|(t0 & sd0 & W & H & Q)]; [|destruct sd0; cbn in W; congruence].
      right. exists t, sd. cbn. rewrite holders_snoc, H. split; [reflexivity|]. split; [reflexivity|].
      intros u sd'. destruct (Nat.eq_dec u t) as [->|Hu].
      - rewrite tset_same. split; [intros [=->]|intros (_ & ->)]; auto.
      - rewrite tset_other by auto. split; [intros X; now apply Q in X|intros (? & _); congruence]. }
    destruct (lpc_of s t) as [|sd| | |] eqn:P; try discriminate.
    + destruct (lword_eqb (lw s) Unlocked && negb sp) eqn:B; injection E as <-; [|exact I].
      apply Enter. now destruct (lw s).
    + destruct (lword_eqb (lw s) Unlocked && negb sp) eqn:B.
      * injection E as <-. apply (Enter Slave). now destruct (lw s).
      * destruct (lword_eqb (lw s) MasterLocked) eqn:M; injection E as <-; [|exact I].
        apply linv_outside; auto; [rewrite P|]; discriminate.
  - destruct (lpc_of s t) as [| | |sd|] eqn:P; try discriminate. injection E as <-.
    destruct I as [(W & H & Q)|(t0 & sd0 & W & H & Q)]; [exfalso; eapply Q; eauto|].
    pose proof (proj1 (Q _ _) P) as (-> & ->). unfold unlock_step.
    assert (linv (lput s Unlocked t0 Out [Left t0 sd0])) as X.
    { left. cbn. rewrite holders_snoc, H. cbn. rewrite Nat.eqb_refl. repeat split; auto. intros u x.
      destruct (Nat.eq_dec u t0) as [->|Hu]; [rewrite tset_same; discriminate|]. rewrite tset_other by auto.
      intros Y. apply Q in Y as (? & _). congruence. }
    destruct nd; [exact X|]. rewrite W. destruct sd0; exact X.
Qed.

Lemma no_abort_step nd s a s' : linv s -> no_abort s -> lstep nd s a = Some s' -> no_abort s'.
Proof.
  intros I (A & B) E.
  assert (forall w t p e, (forall u, ~ In (AssertFailed u) e) -> p <> Aborted -> no_abort (lput s w t p e)) as X.
  { intros w t p e He Hp. split.
    - intros u Hu. cbn in Hu. apply in_app_or in Hu as [Hu|Hu]; [eapply A; eauto|eapply He; eauto].
    - intros u. cbn. destruct (Nat.eq_dec u t) as [->|Hu]; [now rewrite tset_same|rewrite tset_other by auto; apply B]. }
  assert (forall e, (forall u, e <> AssertFailed u) -> forall u, ~ In (AssertFailed u) [e]) as Y.
  { intros e He u [->|[]]. eapply He; eauto. }
  destruct a as [t sd|t|t sp|t]; cbn [lstep cas_weak] in E.
  - destruct (lpc_of s t); try discriminate; injection E as <-. apply X; [apply Y|]; discriminate.
  - destruct (lpc_of s t); try discriminate; injection E as <-. apply X; [apply Y|]; discriminate.
  - destruct (lpc_of s t) as [|sd| | |] eqn:P; try discriminate.
    + destruct (lword_eqb (lw s) Unlocked && negb sp); injection E as <-; [|split; auto]. apply X; [apply Y|]; discriminate.
    + destruct (lword_eqb (lw s) Unlocked && negb sp); [injection E as <-; apply X; [apply Y|]; discriminate|].
      destruct (lword_eqb (lw s) MasterLocked); injection E as <-; [|split; auto]. apply X; [apply Y|]; discriminate.
  - destruct (lpc_of s t) as [| | |sd|] eqn:P; try discriminate. injection E as <-.
    destruct I as [(W & H & Q)|(t0 & sd0 & W & H & Q)]; [exfalso; eapply Q; eauto|].
    pose proof (proj1 (Q _ _) P) as (-> & ->). unfold unlock_step. rewrite W.
    destruct nd; [|destruct sd0; cbn [taken lword_eqb]]; (apply X; [apply Y|]; discriminate).
Qed.

Lemma tinv_step nd s a s' : linv s -> tinv s -> lstep nd s a = Some s' -> tinv s'.
Proof.
  intros I T E.
  (* a step by [t] that appends [e], not a failed try, and does not leave [t] in the loop *)
  assert (forall w t p e, actor e = t -> (forall u, e <> TryFailed u) -> (p = InTry -> e = TryCalled t) ->
            tinv (lput s w t p [e])) as X.
  { intros w t p e Be He Hp u. destruct (T u) as (T1 & T2). cbn. split.
    - apply saw_master_snoc; auto.
    - destruct (Nat.eq_dec u t) as [->|Hu].
      + rewrite tset_same. intros Hi. rewrite (Hp Hi). exists (lhist s), []. split; [reflexivity|]. intros ? [].
      + rewrite tset_other by auto. intros Hi. apply pending_snoc; auto. congruence. }
  destruct a as [t sd|t|t sp|t]; cbn [lstep cas_weak] in E.
  - destruct (lpc_of s t); try discriminate; injection E as <-. apply X; auto; discriminate.
  - destruct (lpc_of s t); try discriminate; injection E as <-. apply X; auto; discriminate.
  - destruct (lpc_of s t) as [|sd| | |] eqn:P; try discriminate.
    + destruct (lword_eqb (lw s) Unlocked && negb sp); injection E as <-; [|exact T]. apply X; auto; discriminate.
    + destruct (lword_eqb (lw s) Unlocked && negb sp); [injection E as <-; apply X; auto; discriminate|].
      destruct (lword_eqb (lw s) MasterLocked) eqn:M; injection E as <-; [|exact T].
      intros u. destruct (T u) as (T1 & T2). cbn.
      destruct (Nat.eq_dec u t) as [->|Hu].
      * rewrite tset_same. split; [|discriminate]. intros p r Ep.
        destruct r as [|y r].
        -- apply app_inj_tail in Ep as [<- _]. destruct (T2 P) as (p' & m & Eh & Hm).
           destruct I as [(W & H & Q)|(t0 & sd0 & W & H & Q)]; [rewrite W in M; discriminate|].
           exists p', m, [], t0. rewrite app_nil_r, <- Eh. repeat split; auto. rewrite H.
           rewrite W in M. destruct sd0; [discriminate|reflexivity].
        -- destruct (exists_last (l := y :: r) ltac:(discriminate)) as (r' & x & Er).
           rewrite Er in Ep. change (p ++ TryFailed t :: r' ++ [x]) with (p ++ (TryFailed t :: r') ++ [x]) in Ep.
           rewrite app_assoc in Ep. apply app_inj_tail in Ep as [Ep _]. apply (T1 p r'). exact Ep.
      * rewrite tset_other by auto. split.
        -- apply saw_master_snoc; auto. congruence.
        -- intros Hi. apply pending_snoc; auto.
  - destruct (lpc_of s t) as [| | |sd|] eqn:P; try discriminate. injection E as <-.
    unfold unlock_step. destruct nd; [|destruct (lword_eqb (lw s) (taken sd))]; (apply X; auto; discriminate).
Qed.

Lemma lock_run_inv nd sched : linv (lock_run nd sched) /\ no_abort (lock_run nd sched) /\ tinv (lock_run nd sched).
Proof.
  apply (run_inv (lstep nd) (fun s => linv s /\ no_abort s /\ tinv s)).
  - intros s a s' (I & A & T) E. repeat split.
    + eapply linv_step; eauto.
    + eapply (no_abort_step nd s a s'); eauto.
    + eapply (no_abort_step nd s a s'); eauto.
    + intros p r Ep. edestruct (tinv_step nd s a s' I T E) as (X & _). eapply X; eauto.
    + eapply (tinv_step nd s a s' I T E).
  - repeat split; cbn; auto.
    + left. repeat split; auto. discriminate.
    + discriminate.
    + intros p r Ep. now destruct p.
    + discriminate.
Qed.
