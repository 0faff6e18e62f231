(** C96: the log with the lock-free queues of its ring buffers. *)
From Verif Require Import Base Model.StringUtils Spec.QueueHistory Model.Event Model.Queue Model.Buffer Model.Config Model.Registry Model.Interleave
  Spec.LogHistory Spec.LogFacts Spec.LogRecords Model.QueueConc Model.TraceLog Spec.LogMemory Model.LogQueue Spec.LogQueue
  Proofs.Interleave Proofs.LogSafeAll Proofs.LogQueue Props.Log Props.LogSafety Props.LogRecords.

(** ** C96 *)

(** Whatever the threads do, the log with the lock-free queues does something
    the log whose queue operations are single actions could have done: the same
    history, the same buffers, the same everything. So all that is said of
    [log_run] elsewhere holds of it. *)
Theorem C96_same_as_one_step_queues : forall cap csz site_cat sched,
  let c := ql_log (ql_run cap csz site_cat sched) in
  awake cap csz site_cat sched -> ring_sizes (hist c) ->
  exists sched', let s := log_run cap csz site_cat sched' in
    hist c = hist s /\ enabled c = enabled s /\ gen c = gen s /\ bufp c = bufp s /\ nbuf c = nbuf s /\ regd c = regd s /\
    cfg c = cfg s /\ names c = names s /\ dereg c = dereg s /\ reg c = reg s /\ ten c = ten s /\ mtx c = mtx s /\
    log_stats c = log_stats s /\
    forall b, buf_view (heap c b) = buf_view (heap s b) /\ buf_stats (heap c b) = buf_stats (heap s b) /\ b_owner (heap c b) = b_owner (heap s b).
Proof.
  intros cap csz sc sched c A Z. destruct (run_sim cap csz sc sched A Z) as (s & S). destruct (sm_reached _ _ _ _ _ S) as (sched' & ->). exists sched'. cbn zeta.
  pose proof (sm_same _ _ _ _ _ S) as E. fold c in E. destruct E.
  repeat (split; [assumption|]). split.
  - unfold log_stats. rewrite sa_enabled, sa_bufp, sa_names, sa_dereg, sa_regd, sa_reg. f_equal.
    unfold log_run. destruct (bufp (run _ _ _)) as [b|]; cbn; auto. now rewrite sa_heap.
  - intros b. unfold log_run. rewrite sa_heap. auto.
Qed.
Print Assumptions C96_same_as_one_step_queues.

(** In particular nothing undefined happens: while a thread is anywhere inside
    an operation of a queue, the buffer is there. *)
Theorem C96_never_undefined : forall cap csz site_cat sched,
  awake cap csz site_cat sched -> ring_sizes (hist (ql_log (ql_run cap csz site_cat sched))) ->
  bad (ql_log (ql_run cap csz site_cat sched)) = false /\
  forall t b, in_queue (ql_run cap csz site_cat sched) t b ->
    b_owner (heap (ql_log (ql_run cap csz site_cat sched)) b) = Mine /\ b_kind (heap (ql_log (ql_run cap csz site_cat sched)) b) = Ring.
Proof.
  intros cap csz sc sched A Z. destruct (run_sim cap csz sc sched A Z) as (s & S). pose proof (sm_same _ _ _ _ _ S) as E. split.
  - rewrite (sa_bad _ _ E). apply (never_bad cap csz sc), S.
  - intros t b I. rewrite (sa_heap _ _ E b). apply (in_there cap csz sc _ _ t b S I).
Qed.
Print Assumptions C96_never_undefined.

(** No data race: neither on the log's memory nor on a cell of a queue. *)
Theorem C96_no_data_race : forall cap csz site_cat sched,
  let c := ql_run cap csz site_cat sched in
  awake cap csz site_cat sched -> ring_sizes (hist (ql_log c)) ->
  ~ race (ql_log c) /\
  forall b t u x w w', t <> u -> data_access (ql_q c b) t = Some (x, w) -> data_access (ql_q c b) u <> Some (x, w').
Proof.
  intros cap csz sc sched c A Z. destruct (run_sim cap csz sc sched A Z) as (s & S). split.
  - intros R. apply (sim_race cap csz sc _ _ S) in R. destruct (sm_reached _ _ _ _ _ S) as (sched' & ->). now apply C47_no_data_race in R.
  - intros b t u x w w'. apply (sim_cells cap csz sc c s b); auto. apply (calm_prefix cap csz sc sched A Z sched []). now rewrite app_nil_r.
Qed.
Print Assumptions C96_no_data_race.

(** Two of the consequences, spelled out. An event is stored only by a
    registered thread, tracing having been on since its call began; and a
    retrieved buffer, fixed or ring, holds only events that were stored in it. *)
Theorem C96_stored : forall cap csz site_cat sched x t b e y,
  awake cap csz site_cat sched -> ring_sizes (hist (ql_log (ql_run cap csz site_cat sched))) ->
  hist (ql_log (ql_run cap csz site_cat sched)) = x ++ Stored t b e :: y ->
  registered t x = true /\ exists x1 x2, x = x1 ++ x2 /\ tracing x1 = true /\ forall o, ~ In (Invoked t o) x2.
Proof.
  intros cap csz sc sched x t b e y A Z E. destruct (C96_same_as_one_step_queues cap csz sc sched A Z) as (sched' & H & _). rewrite E in H.
  eapply C52_only_registered_and_enabled. symmetry. exact H.
Qed.
Print Assumptions C96_stored.

Theorem C96_contents : forall cap csz site_cat sched ev b, (cap < 65536)%N ->
  let c := ql_log (ql_run cap csz site_cat sched) in
  awake cap csz site_cat sched -> ring_sizes (hist c) ->
  In ev (hist c) -> retrieved ev = Some (Some b) ->
  exists first fin all, it_begin (buf_view (heap c b)) = Some first /\ it_finish (buf_view (heap c b)) = Some fin /\
    (forall fuel, (length all < fuel)%nat -> iterate fuel (buf_view (heap c b)) first fin = Some all) /\
    (forall e l, In (e, l) all -> exists t, l = N.of_nat t /\ In (Stored t b e) (hist c)).
Proof.
  intros cap csz sc sched ev b Hc c A Z Hi Hr. destruct (C96_same_as_one_step_queues cap csz sc sched A Z) as (sched' & H). cbn zeta in H. fold c in H.
  destruct H as (H & H'). do 12 apply proj2 in H'. rewrite H, (proj1 (H' b)). rewrite H in Hi. now apply (C50_nothing_else _ _ _ _ ev).
Qed.
Print Assumptions C96_contents.

(** Nobody sleeps that long in a run of fewer than 2^62 steps. *)
Theorem C96_short_runs : forall cap csz site_cat sched, (N.of_nat (length sched) < 2 ^ 62)%N -> awake cap csz site_cat sched.
Proof. exact short_awake. Qed.
Print Assumptions C96_short_runs.

Close Scope N_scope.

(** Two threads share a ring of two chunks. Thread 1 gives its full chunk back
    and stops after it has its place in the queue, before it has written the
    cell; thread 2 gives its own back, and asks for a chunk: the queue says it is
    empty, again and again, until thread 1 goes on. *)
Definition ringcfg : config := setStoppedCallback (config_factory make_ring_buffer 25) None.
Definition full_rings : list sact :=
  call 1 (ORegister $"one") CNone 9 ++ call 2 (ORegister $"two") CNone 9 ++ call 3 (OStart ringcfg) (CRing 2 mem0) 30 ++
  call 1 (OLog ev1) CNone 30 ++ call 1 (OLog ev1) CNone 30 ++ call 1 (OLog ev1) CNone 30 ++
  call 2 (OLog ev1) CNone 30 ++ call 2 (OLog ev1) CNone 30 ++ call 2 (OLog ev1) CNone 30.
Definition sure (l : list sact) : list (sact * bool) := map (fun a => (a, false)) l.
Definition stuck_run : list (sact * bool) := sure (full_rings ++ call 1 (OLog ev1) CNone 12 ++ call 2 (OLog ev1) CNone 60).
Definition on_run : list (sact * bool) := stuck_run ++ sure (repeat (Step 1 CNone) 60 ++ repeat (Step 2 CNone) 60 ++ repeat (Step 1 CNone) 60).

Definition sizes_ok (h : list hev) : bool :=
  forallb (fun e => match e with Made _ _ _ (MadeRing _ m) => ((1 <=? m) && (m <=? 2 ^ 32))%N | _ => true end) h.
Lemma sizes_ok_spec h : sizes_ok h = true -> ring_sizes h.
Proof.
  intros H t g n b m Hi. apply (proj1 (forallb_forall _ _) H) in Hi. cbn beta iota in Hi. apply andb_prop in Hi as [H1 H2].
  apply N.leb_le in H1, H2. auto.
Qed.

Definition stores (h : list hev) : nat := length (filter (fun e => match e with Stored _ _ _ => true | _ => false end) h).

Example C96_case :
  let q := ql_q (ql_run 3 10 site0 stuck_run) 0 in
  cq_pc q 1 = EData 0%N 0%N 0%N /\ data_access q 1 = Some (0%N, true) /\
  length (filter (fun e => match e with DeqEmpty 2 => true | _ => false end) (cq_hist q)) = 13 /\
  stores (hist (ql_log (ql_run 3 10 site0 stuck_run))) = 6 /\ stores (hist (ql_log (ql_run 3 10 site0 on_run))) = 8 /\
  awake 3 10 site0 on_run /\ ring_sizes (hist (ql_log (ql_run 3 10 site0 on_run))).
Proof.
  split; [vm_compute; reflexivity|]. split; [vm_compute; reflexivity|]. split; [vm_compute; reflexivity|].
  split; [vm_compute; reflexivity|]. split; [vm_compute; reflexivity|]. split; [apply C96_short_runs; reflexivity|apply sizes_ok_spec; vm_compute; reflexivity].
Qed.
