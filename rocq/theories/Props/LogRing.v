(** C54: rings with too few chunks, and with enough. *)
From Verif Require Import Base Model.StringUtils Model.Event Model.Queue Model.Buffer Model.Config Spec.Categories Spec.History Model.Registry
  Model.Interleave Spec.LogHistory Spec.LogFacts Model.TraceLog Spec.LogMemory Spec.LogRecords Spec.LogProgress Proofs.Interleave Proofs.Registry Proofs.LogFrame Proofs.LogView Proofs.LogViewInv
  Proofs.LogContract Proofs.LogBuffers Proofs.LogSafe Proofs.LogSafeInv Proofs.LogSafeAT Proofs.LogSafeOW Proofs.LogSafeAll Proofs.LogRaces Proofs.LogHolders
  Proofs.LogHandover Proofs.LogRecords Proofs.LogGhost Proofs.LogDebts Proofs.LogProgress Proofs.LogRing Proofs.RingStuck Props.Buffer Props.Log Props.LogSafety Props.LogRecords Props.LogProgress.

(** ** C54 *)

Definition awaits_chunk (c : cmd) : option bid := match c with Act (ADeq b) _ => Some b | _ => None end.

Lemma dead_end cap csz sc sched v w b kv kw : let s := log_run cap csz sc sched in
  v <> w -> (forall u, u <> v -> u <> w -> code s u = Ret) -> mtx s = Some w -> enabled s = false ->
  code s v = Act (ADeq b) kv -> code s w = Act (AMaster v) kw ->
  t_lock (ten s v) = BySlave -> b_queue (heap s b) = [] -> b_owner (heap s b) = Mine ->
  forall more, let s' := log_run cap csz sc (sched ++ more) in
    code s' v <> Ret /\ code s' w <> Ret /\ ~ can_go cap csz sc s' v /\ ~ can_go cap csz sc s' w.
Proof.
  intros s N Hb M Of Cv Cw Tl Q Ow more s'.
  assert (R : reached cap csz sc s) by apply log_run_reached. destruct (full_inv cap csz sc s R) as [Al _].
  assert (Bv : In v (busy s)) by (apply (al_busy s Al); congruence). assert (Bw : In w (busy s)) by (apply (al_busy s Al); congruence).
  assert (S : stuck v w b kv kw s) by (split; auto; [intros X; now rewrite X in Bv|intros u Nv Nw; rewrite (Hb u Nv Nw); exact I]).
  assert (S' : stuck v w b kv kw s').
  { unfold s', log_run. rewrite run_app. apply stuck_for_ever; auto. }
  destruct S' as [M' Of' Cv' Cw' Tl' Q' Ow' _ _]. clearbody s'. rewrite Cv', Cw'. repeat split; try easy.
  - intros (ch & s1 & E). unfold pstep, step in E. cbn [polite] in E. destruct (bad s'); [easy|]. rewrite Cv' in E. cbn in E. unfold with_buf in E. now rewrite Ow', Q' in E.
  - intros (ch & s1 & E). unfold pstep, step in E. cbn [polite] in E. destruct (bad s'); [easy|]. rewrite Cw' in E. cbn in E. now rewrite Tl' in E.
Qed.

(** However many chunks a ring has: with one more registered thread there are two
    calls, one of logEvent and one of stop(), that will never return, whatever any
    thread does from there on. *)
Theorem C54_can_wait_for_ever : forall cap csz site_cat chunks threads e,
  (0 < cap)%N -> (0 < csz)%N -> 0 < chunks -> chunks < threads ->
  exists sched v w b,
  let s := log_run cap csz site_cat sched in
  v <> w /\ last_call (hist s) v = Some (OLog e) /\ last_call (hist s) w = Some (OStop false) /\
  bufp s = Some b /\ b_kind (heap s b) = Ring /\ b_size (heap s b) = N.of_nat chunks /\ length (regd s) = threads /\
  forall more, let s' := log_run cap csz site_cat (sched ++ more) in
    code s' v <> Ret /\ code s' w <> Ret /\ ~ can_go cap csz site_cat s' v /\ ~ can_go cap csz site_cat s' w.
Proof.
  intros cap csz sc n m e Hc Hz Hn Hm.
  destruct (register_all cap csz sc m) as (s1 & T1 & F). destruct (start_ring cap csz sc m s1 (N.of_nat n) F) as (s2 & T2 & L0); [exact Hz|lia|].
  destruct (log_all cap csz sc m (N.of_nat n) (nbuf s1) s2 e Hc L0 n) as (s3 & T3 & L); [lia|lia|].
  destruct (jam cap csz sc m n (nbuf s1) s3 e m L Hm) as (s4 & kv & kw & T4 & M & Of & Cv & Cw & Ot & Tl & Q & Ow & Bu & Kd & Sz & Le & C1 & C2); [lia|].
  destruct (to_trans _ _ _ _ _ _ T1 (to_trans _ _ _ _ _ _ T2 (to_trans _ _ _ _ _ _ T3 T4))) as [sched Es].
  fold (log_run cap csz sc sched) in Es. exists sched, n, m, (nbuf s1). rewrite Es. intros s. unfold s.
  repeat (split; [solve [auto|lia]|]). clear s. intros more.
  apply (dead_end cap csz sc sched n m (nbuf s1) kv kw); rewrite ?Es; auto. lia.
Qed.
Print Assumptions C54_can_wait_for_ever.

(** A ring of one chunk, two registered threads. Thread 1 logs and keeps the
    chunk; thread 2 logs and waits for a chunk; thread 3 stops the log, and waits
    for thread 2. *)
Definition ring_cfg (size : N) : config := setStoppedCallback (config_factory make_ring_buffer size) None.
Definition ring_start (n : N) : list sact :=
  call 1 (ORegister $"one") CNone 9 ++ call 2 (ORegister $"two") CNone 9 ++ call 3 (OStart (ring_cfg (10 * n))) (CRing n mem0) 30 ++
  call 1 (OLog (evt 1)) CNone 20.
Definition ring_run : list sact := ring_start 1 ++ call 2 (OLog (evt 2)) CNone 20 ++ call 3 (OStop false) CNone 4 ++ [Step 3 (CPick 2)].

Example C54_case_stuck : let s := log_run 3 10 site0 ring_run in
  busy s = [3; 2] /\ mtx s = Some 3 /\ awaits_chunk (code s 2) = Some 0 /\ t_lock (ten s 2) = BySlave /\ last_call (hist s) 3 = Some (OStop false).
Proof. vm_compute. repeat split; reflexivity. Qed.

(** With a chunk for every registered thread a logging call waits for nobody
    (unless it is switching tracing off itself). *)
Theorem C54_enough_logging_never_waits : forall cap csz site_cat sched t o,
  let s := log_run cap csz site_cat sched in
  roomy s -> last_call (hist s) t = Some o -> is_logging o = true -> code s t <> Ret ->
  can_go cap csz site_cat s t \/ in_callback s t \/
  (mtx s = Some t /\ exists u, u <> t /\ t_lock (ten s u) = BySlave /\ can_go cap csz site_cat s u).
Proof.
  intros cap csz sc sched t o s N El Lo Nt. assert (R : reached cap csz sc s) by apply log_run_reached.
  destruct (wait_inv cap csz sc s R) as [w [(A & _) Vw]].
  destruct (safe_inv cap csz sc s R) as [_ [f [G V]]]. destruct (code s t) as [|a k] eqn:Ec; [easy|].
  destruct (waits cap csz sc s f t a k R G V Ec) as [C|[[-> [u [Nu M]]]|[(v & -> & Nv & Q & M)|[[h ->]|[b [-> Q']]]]]]; eauto 6.
  - exfalso. specialize (Vw t). rewrite Ec in Vw. destruct Vw as [O _]. cbn in O. rewrite A in O. unfold logging in O. rewrite El in O. congruence.
  - right. right. split; auto. exists v. repeat split; auto.
    destruct (slave_goes cap csz sc s f v R G V Q) as [C|(b & k' & Ec' & Q')]; auto. now destruct (enough_chunks cap csz sc s v b k' R N Ec').
  - right. left. unfold in_callback. now rewrite Ec.
  - now destruct (enough_chunks cap csz sc s t b k R N Ec).
Qed.
Print Assumptions C54_enough_logging_never_waits.

(** And there is no deadlock: all calls return. *)
Theorem C54_enough_calls_return : forall cap csz site_cat sched sigma,
  let s := log_run cap csz site_cat sched in
  drains cap csz site_cat s sigma -> (forall n, roomy (state_at cap csz site_cat s sigma n)) ->
  exists n, all_idle (state_at cap csz site_cat s sigma n).
Proof.
  intros cap csz sc sched sigma s D N. assert (R : reached cap csz sc s) by apply log_run_reached.
  apply comes_to_rest; auto. intros n Ni. pose proof (state_reached cap csz sc s sigma n R) as Rn. specialize (N n). set (sn := state_at cap csz sc s sigma n) in *.
  assert (X : exists t, code sn t <> Ret).
  { destruct (full_inv cap csz sc sn Rn) as [Al _].
    destruct (List.find (fun t => match code sn t with Ret => false | _ => true end) (busy sn)) as [t|] eqn:F.
    - exists t. apply find_some in F as [_ F]. now destruct (code sn t).
    - destruct Ni. intros t. destruct (code sn t) as [|a k] eqn:Ec; auto. assert (Hb : In t (busy sn)) by (apply (al_busy sn Al); congruence).
      apply (find_none _ _ F) in Hb. now rewrite Ec in Hb. }
  destruct X as [t Ht].
  destruct (someone_goes cap csz sc sn t Rn) as [u [[ch [s' C]]|C]]; auto.
  - intros u b k Ec. exact (enough_chunks cap csz sc sn u b k Rn N Ec).
  - exists (Step u ch), s'. auto.
  - unfold in_callback in C. destruct (hook_of (code sn u)) as [[h k]|] eqn:Eh; [|easy].
    exists (HookEnd u None). eexists. split; auto. unfold pstep, step. cbn [polite]. now rewrite (never_bad _ _ _ sn Rn), Eh.
Qed.
Print Assumptions C54_enough_calls_return.

(** With two chunks both threads fill their chunks and go on; thread 1 is then
    stopped right before it takes its chunk back from the ring. *)
Definition two_chunks : list sact := ring_start 2 ++
  concat (map (fun i => call 2 (OLog (evt i)) CNone 20) [2; 3; 4; 5]%N) ++ concat (map (fun i => call 1 (OLog (evt i)) CNone 20) [6; 7]%N) ++ call 1 (OLog (evt 8)) CNone 15.

Definition roomyb (s : st) : bool :=
  match bufp s with Some b => match b_kind (heap s b) with Ring => (N.of_nat (length (regd s)) <=? b_size (heap s b))%N | Fixed => true end | None => true end.
Lemma roomyb_ok s : roomyb s = true -> roomy s.
Proof. unfold roomyb, roomy. intros H b Eb Ek. rewrite Eb, Ek in H. now apply N.leb_le. Qed.

Example C54_case : let s := log_run 3 10 site0 two_chunks in
  roomy s /\ last_call (hist s) 1 = Some (OLog (evt 8)) /\ awaits_chunk (code s 1) = Some 0 /\ b_queue (heap s 0) = [0%N].
Proof. split; [apply roomyb_ok; vm_compute; reflexivity|]. vm_compute. repeat split; reflexivity. Qed.
