(** C97: the log with the registry's own steps. *)
From Verif Require Import Base Spec.Glob Spec.Categories Spec.CategoryHistory Model.StringUtils Spec.QueueHistory Model.Event Model.Queue Model.Buffer Model.Config Model.Registry
  Model.Interleave Spec.LogHistory Spec.LogFacts Spec.LogRecords Model.QueueConc Model.RegistryConc Model.TraceLog Spec.LogMemory Model.LogQueue Spec.LogQueue
  Model.LogRegistry Spec.LogRegistry Proofs.Interleave Proofs.Registry Proofs.LogFrame Proofs.LogView Proofs.LogViewInv Proofs.LogContract Proofs.LogBuffers Proofs.LogGate Proofs.LogSafeAll Proofs.LogQueue Proofs.RegistryConc Proofs.LogRegistry
  Props.RegistryConc Props.Log Props.LogSafety Props.LogRecords Props.LogState Props.LogQueue.
From Verif Require Import Model.TraceLog.

(** ** C97 *)

(** Whatever the threads do, the log whose queue and registry operations are
    sequences of memory accesses does something the log could have done in which
    they are single actions: the same history, the same buffers, the same groups.
    The statuses are the same when nobody is in the middle of changing them; in
    between, with tracing off and the log locked, a status may be off for a
    while longer or already. *)
Theorem C97_same_as_one_step_registry : forall cap csz site_cat sched,
  let r := rl_run cap csz site_cat sched in
  let c := rl_log r in
  awake_all cap csz site_cat sched -> ring_sizes (hist c) ->
  exists sched', let s := log_run cap csz site_cat sched' in
    (hist c = hist s /\ enabled c = enabled s /\ gen c = gen s /\ bufp c = bufp s /\ nbuf c = nbuf s /\ regd c = regd s /\
     cfg c = cfg s /\ names c = names s /\ dereg c = dereg s /\ ten c = ten s /\ mtx c = mtx s /\ log_stats c = log_stats s) /\
    (forall b, buf_view (heap c b) = buf_view (heap s b) /\ buf_stats (heap c b) = buf_stats (heap s b) /\ b_owner (heap c b) = b_owner (heap s b)) /\
    cr_count (rl_reg r) = rg_count (reg s) /\
    (forall i, i < cr_count (rl_reg r) -> cr_groups (rl_reg r) i = Some (rg_groups (reg s) i)) /\
    (forall i, i < cr_count (rl_reg r) -> cr_status (rl_reg r) i = rg_status (reg s) i \/
       (cr_status (rl_reg r) i = false /\ enabled c = false /\ exists t, mtx c = Some t /\ cr_mutex (rl_reg r) = Some t)).
Proof.
  intros cap csz sc sched r c A Z. destruct (run_sim_r cap csz sc sched A Z) as (sched' & rho & kap & E & S & M). fold r in E, S.
  pose proof (mirrors_awake _ _ _ _ _ M A) as A'.
  assert (Hh : forall h, h = hist c -> ring_sizes h) by (intros h ->; exact Z).
  assert (Z' : ring_sizes (hist (ql_log (ql_run cap csz sc sched')))) by (apply Hh; now rewrite E).
  destruct (run_sim cap csz sc sched' A' Z') as (s & Sm). destruct (sm_reached _ _ _ _ _ Sm) as (sched2 & Es). exists sched2. cbn zeta.
  pose proof (sm_same _ _ _ _ _ Sm) as Sa. rewrite E in Sa. unfold log_run. rewrite <- Es. clear Es.
  pose proof (sa_reg _ _ Sa) as Rg. cbn in Rg. rewrite <- Rg.
  split; [|split; [|split; [|split]]].
  - split; [exact (sa_hist _ _ Sa)|]. split; [exact (sa_enabled _ _ Sa)|]. split; [exact (sa_gen _ _ Sa)|]. split; [exact (sa_bufp _ _ Sa)|]. split; [exact (sa_nbuf _ _ Sa)|].
    split; [exact (sa_regd _ _ Sa)|]. split; [exact (sa_cfg _ _ Sa)|]. split; [exact (sa_names _ _ Sa)|]. split; [exact (sa_dereg _ _ Sa)|].
    split; [exact (sa_ten _ _ Sa)|]. split; [exact (sa_mtx _ _ Sa)|].
    transitivity (log_stats (relab c rho kap)).
    + unfold log_stats. cbn. f_equal. unfold registry_stats. rewrite (rs_count _ _ _ S). exact (proj2 (rs_seen _ _ _ S)).
    + change (relab c rho kap) with (ql_log (relabq (rl_q r) rho kap)).
      unfold log_stats. rewrite (sa_enabled _ _ Sa), (sa_bufp _ _ Sa), (sa_names _ _ Sa), (sa_dereg _ _ Sa), (sa_regd _ _ Sa), (sa_reg _ _ Sa). f_equal.
      destruct (bufp s) as [b|]; cbn [option_map]; auto. now rewrite (sa_heap _ _ Sa b).
  - intros b. change (heap c b) with (heap (ql_log (relabq (rl_q r) rho kap)) b). rewrite (sa_heap _ _ Sa b). auto.
  - symmetry. apply S.
  - apply S.
  - intros i Hi. destruct (rs_loose _ _ _ S i Hi) as [X|(X & t & Y)]; [now left|right]. split; [exact X|]. destruct (rs_hold _ _ _ S t Y) as (X1 & X2).
    split; [exact X2|]. exists t. split; [exact X1|]. apply switching_locked in Y. now apply (r_mutex _ (rs_inv _ _ _ S)).
Qed.
Print Assumptions C97_same_as_one_step_registry.

(** Nothing undefined happens: nobody reads a group's name before it is there,
    and while a thread is inside an operation of a queue, the buffer is there. *)
Theorem C97_never_undefined : forall cap csz site_cat sched,
  let r := rl_run cap csz site_cat sched in
  awake_all cap csz site_cat sched -> ring_sizes (hist (rl_log r)) ->
  bad (rl_log r) = false /\ (forall t, cr_pc (rl_reg r) t <> GCrash) /\
  forall t b, in_queue (rl_q r) t b -> b_owner (heap (rl_log r) b) = Mine /\ b_kind (heap (rl_log r) b) = Ring.
Proof.
  intros cap csz sc sched r A Z. destruct (run_sim_r cap csz sc sched A Z) as (sched' & rho & kap & E & S & M). fold r in E, S.
  pose proof (mirrors_awake _ _ _ _ _ M A) as A'.
  assert (Hh : forall h, h = hist (rl_log r) -> ring_sizes h) by (intros h ->; exact Z).
  destruct (C96_never_undefined cap csz sc sched' A') as (B & I); [apply Hh; now rewrite E|]. rewrite E in B, I. split; [exact B|]. split; [|exact I].
  intros t X. pose proof (r_pcs _ (rs_inv _ _ _ S) t) as P. now rewrite X in P.
Qed.
Print Assumptions C97_never_undefined.

(** No data race: not on the log's memory, not on a cell of a queue, not on a
    group's name or the lists of categories. *)
Theorem C97_no_data_race : forall cap csz site_cat sched,
  let r := rl_run cap csz site_cat sched in
  awake_all cap csz site_cat sched -> ring_sizes (hist (rl_log r)) ->
  ~ race (rl_log r) /\
  (forall b t u x w w', t <> u -> data_access (ql_q (rl_q r) b) t = Some (x, w) -> data_access (ql_q (rl_q r) b) u <> Some (x, w')) /\
  (forall t u loc w, t <> u -> In (loc, true) (r_access (rl_reg r) t) -> ~ In (loc, w) (r_access (rl_reg r) u)).
Proof.
  intros cap csz sc sched r A Z. destruct (run_sim_r cap csz sc sched A Z) as (sched' & rho & kap & E & S & M). fold r in E, S.
  pose proof (mirrors_awake _ _ _ _ _ M A) as A'.
  assert (Hh : forall h, h = hist (rl_log r) -> ring_sizes h) by (intros h ->; exact Z).
  destruct (C96_no_data_race cap csz sc sched' A') as (R & Q); [apply Hh; now rewrite E|]. rewrite E in R, Q. split; [|split; [exact Q|]].
  - intros X. apply R. exact (race_relab _ _ _ S X).
  - destruct (rs_run _ _ _ S) as (rs & ->). apply (C33_no_race rs).
Qed.
Print Assumptions C97_no_data_race.

(** What a trace point sees in a status, although statuses change one after the
    other. While tracing is on: exactly whether the configuration switches the
    category on. While it is off and nobody starts or stops it: off. While it is
    off and somebody does: off, or what the last or the next trace wants. *)
Theorem C97_status_is_configuration : forall cap csz site_cat sched x t i v y u c,
  awake_all cap csz site_cat sched -> ring_sizes (hist (rl_log (rl_run cap csz site_cat sched))) ->
  hist (rl_log (rl_run cap csz site_cat sched)) = x ++ Tested t i v :: y -> In (Looked u c i) x ->
  (tracing x = true -> (v = true <-> switched_by (started_with x) (group_of i c))) /\
  (tracing x = false -> v = true -> switched_by (started_with x) (group_of i c) \/ switched_by (configuration x) (group_of i c)) /\
  (tracing x = false -> section x = [] -> v = false).
Proof.
  intros cap csz sc sched x t i v y u c A Z E L. destruct (C97_same_as_one_step_registry cap csz sc sched A Z) as (sched' & (H & _) & _). rewrite E in H.
  eapply C63_status_is_configuration; eauto.
Qed.
Print Assumptions C97_status_is_configuration.

Lemma slot_known cap csz site_cat sched u c i : In (Looked u c i) (hist (log_run cap csz site_cat sched)) ->
  i < rg_count (reg (log_run cap csz site_cat sched)) /\ rg_groups (reg (log_run cap csz site_cat sched)) i = group_of i c.
Proof.
  set (s := log_run cap csz site_cat sched). intros Lk. pose proof (log_run_reached cap csz site_cat sched) as R. fold s in R.
  pose proof (registry_ok cap csz site_cat s R) as K. destruct (reg_inv cap csz site_cat _ R) as [St _]. specialize (St _ _ _ Lk).
  unfold group_of. destruct (Nat.eqb_spec i 1) as [->|N].
  - pose proof (rk_lo _ K). split; [lia|]. rewrite (rk_def _ K) by lia. reflexivity.
  - destruct St as [St|[St _]]; [exact St|contradiction].
Qed.

(** In the memory of the registry, when nobody is starting or stopping a trace:
    with tracing off all categories are off, with tracing on exactly those the
    configuration asks for are on, even if groups are being looked up. *)
Theorem C97_statuses_at_rest : forall cap csz site_cat sched u c i,
  let r := rl_run cap csz site_cat sched in
  let h := hist (rl_log r) in
  awake_all cap csz site_cat sched -> ring_sizes h -> mtx (rl_log r) = None -> In (Looked u c i) h ->
  cr_groups (rl_reg r) i = Some (group_of i c) /\
  (cr_status (rl_reg r) i = true <-> tracing h = true /\ switched_by (started_with h) (group_of i c)).
Proof.
  intros cap csz sc sched u c i r h A Z M L. destruct (C97_same_as_one_step_registry cap csz sc sched A Z) as (sched' & H & _ & Hc & Hg & Hs).
  cbn zeta in *. fold r in H, Hc, Hg, Hs. destruct H as (H & _ & _ & _ & _ & _ & _ & _ & _ & _ & Hm & _). fold h in H.
  pose proof (C63_statuses_at_rest cap csz sc sched' u c i) as X. cbn zeta in X. rewrite <- H, <- Hm in X. specialize (X M L).
  destruct (slot_known cap csz sc sched' u c i) as (K1 & K2); [now rewrite <- H|]. rewrite <- Hc in K1.
  destruct (Hs i K1) as [->|(_ & _ & t & X' & _)]; [|congruence]. split; [|exact X]. now rewrite (Hg i K1), K2.
Qed.
Print Assumptions C97_statuses_at_rest.

(** Nobody waits for ever inside the registry: the thread that is there can go
    on, or the one that holds its mutex can. *)
Theorem C97_no_registry_deadlock : forall cap csz site_cat sched t,
  let r := rl_run cap csz site_cat sched in
  awake_all cap csz site_cat sched -> ring_sizes (hist (rl_log r)) -> cr_pc (rl_reg r) t <> GIdle ->
  exists u c', rl_step cap csz site_cat r (Step u CNone, false) = Some c' /\ (u = t \/ cr_mutex (rl_reg r) = Some u) /\ cr_pc (rl_reg r) u <> cr_pc (rl_reg c') u.
Proof.
  intros cap csz sc sched t r A Z P. destruct (C97_never_undefined cap csz sc sched A Z) as (B & _).
  destruct (run_sim_r cap csz sc sched A Z) as (sched' & rho & kap & E & S & M). fold r in E, S, B.
  destruct (rs_run _ _ _ S) as (rs & Er). destruct (C33_no_deadlock rs t) as (u & U1 & U2); [now rewrite <- Er|]. rewrite <- Er in U1, U2.
  assert (Pu : cr_pc (rl_reg r) u <> GIdle).
  { intros X. cbn in U1. now rewrite X in U1. }
  destruct (go_on_r cap csz sc r rho kap u S B Pu U1) as (c' & C1 & C2). exists u, c'. split; [exact C1|]. split; [exact U2|]. now apply (rstep_moves _ u).
Qed.
Print Assumptions C97_no_registry_deadlock.

Theorem C97_short_runs : forall cap csz site_cat sched, (N.of_nat (length sched) < 2 ^ 62)%N -> awake_all cap csz site_cat sched.
Proof. exact short_awake_all. Qed.
Print Assumptions C97_short_runs.

(** A trace that wants everything is being started. Of the five groups four have
    been switched on when thread 1 passes two trace points: it finds the first
    one's category on, the second one's off, and records nothing, as tracing is
    off. Thread 2 comes to a trace point of a new category and waits for the
    registry; when the start is over it goes on, its category is on, and its
    event is recorded. *)
Definition sites3 : nat -> bytes := fun n => match n with 0 => $"cat" | 1 => $"dog" | _ => $"owl" end.
Definition everything : config := setCategories (setStoppedCallback cfgA None) [$"*"] [].
Definition half_started : list (sact * bool) := sure
  (call 1 (ORegister $"one") CNone 9 ++ call 2 (ORegister $"two") CNone 9 ++ call 1 (OMacro 0 ev1) CNone 60 ++ call 1 (OMacro 1 ev1) CNone 60 ++
   call 3 (OStart everything) (CFixed 2 mem0) 14 ++ call 1 (OMacro 0 ev1) CNone 60 ++ call 1 (OMacro 1 ev1) CNone 60 ++ call 2 (OMacro 2 ev1) CNone 60).
Definition all_started : list (sact * bool) := half_started ++ sure (repeat (Step 3 (CFixed 2 mem0)) 20 ++ repeat (Step 2 CNone) 60).

Example C97_case :
  let r := rl_run 3 10 sites3 half_started in
  let r' := rl_run 3 10 sites3 all_started in
  map (cr_status (rl_reg r)) [0; 1; 2; 3; 4] = [true; true; true; true; false] /\ enabled (rl_log r) = false /\
  cr_mutex (rl_reg r) = Some 3 /\ cr_pc (rl_reg r) 2 = GLock $"owl" /\
  gates (hist (rl_log r)) = [(1, inl false); (1, inl false); (1, inl true); (1, inl false)] /\
  gates (hist (rl_log r')) = gates (hist (rl_log r)) ++ [(2, inl true); (2, inr 0)] /\
  cr_count (rl_reg r') = 6 /\ cr_groups (rl_reg r') 5 = Some ($"owl") /\ mtx (rl_log r') = None /\
  awake_all 3 10 sites3 all_started /\ ring_sizes (hist (rl_log r')).
Proof.
  do 9 (split; [vm_compute; reflexivity|]). split; [apply C97_short_runs; reflexivity|apply sizes_ok_spec; vm_compute; reflexivity].
Qed.
