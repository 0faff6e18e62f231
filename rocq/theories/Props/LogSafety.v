(** C46-C49, C51: memory safety of the log under every schedule. *)
From Verif Require Import Base Model.StringUtils Model.Event Model.Queue Model.Buffer Model.Config Spec.Categories Model.Registry
  Model.Interleave Spec.LogHistory Spec.LogFacts Model.TraceLog Spec.LogMemory Proofs.Interleave Proofs.Registry Proofs.LogFrame Proofs.LogView Proofs.LogViewInv
  Proofs.LogContract Proofs.LogBuffers Proofs.LogSafe Proofs.LogSafeInv Proofs.LogSafeAT Proofs.LogSafeOW Proofs.LogSafeAll Proofs.LogRaces Proofs.LogHolders
  Proofs.LogFailures Proofs.LogHandover Props.Log.

(** ** C46 *)

(** No schedule leads to undefined behaviour. *)
Theorem C46_never_undefined : forall cap csz site_cat sched, bad (log_run cap csz site_cat sched) = false.
Proof. intros cap csz sc sched. apply (never_bad cap csz sc), log_run_reached. Qed.
Print Assumptions C46_never_undefined.

(** Whatever a thread is about to do is sound: the buffers it touches exist and
    belong to the log, chunk numbers and stores are in range, locks are released
    by their holders and never taken twice. *)
Theorem C46_every_access_sound : forall cap csz site_cat sched t a,
  about_to (log_run cap csz site_cat sched) t a -> sound cap (log_run cap csz site_cat sched) t a.
Proof. intros cap csz sc sched t a. apply (all_sound cap csz sc), log_run_reached. Qed.
Print Assumptions C46_every_access_sound.

(** Two threads log while a third stops, retrieves and restarts; thread 1 is in
    the middle of a write when the stop begins. *)
Definition busy_run : list sact :=
  call 1 (ORegister $"one") CNone 9 ++ call 2 (ORegister $"two") CNone 9 ++ call 3 (OStart (setStoppedCallback cfgA None)) (CFixed 2 mem0) 30 ++
  call 1 (OLog ev1) CNone 30 ++ call 2 (OLog ev1) CNone 30 ++ call 1 (OLog ev1) CNone 6 ++
  call 3 (OStop false) CNone 4 ++ repeat (Step 3 (CPick 2)) 4 ++ repeat (Step 3 (CPick 1)) 4 ++ repeat (Step 1 CNone) 30 ++ repeat (Step 3 (CPick 1)) 20.

Definition next_is (s : st) (t : tid) (f : act -> bool) : bool := match code s t with Act a _ => f a | Ret => false end.

Example C46_case :
  next_is (log_run 3 10 site0 (firstn 120 busy_run)) 1 (fun a => match a with AStore _ _ _ => true | _ => false end) = true /\
  length (filter (fun e => match e with Stored _ _ _ => true | _ => false end) (demo busy_run)) = 3.
Proof. vm_compute. split; reflexivity. Qed.

(** Finding: a stop callback that is called from the stop inside start() and
    starts a trace itself. The outer start() then replaces the running trace's
    buffer without evicting anyone: a thread writes into freed memory. *)
Definition restart_in_callback : list sact :=
  call 1 (ORegister $"one") CNone 9 ++ call 2 (OStart cfgA) (CFixed 2 mem0) 30 ++
  call 2 (OStart cfgB) (CPick 1) 12 ++
  [HookDo 2 (HStart cfgA)] ++ repeat (Step 2 (CFixed 2 mem0)) 9 ++
  call 1 (OLog ev1) CNone 30 ++
  [HookEnd 2 None] ++ repeat (Step 2 (CFixed 3 mem0)) 30 ++
  call 1 (OLog ev1) CNone 30.

Theorem C46_restart_in_callback_refuted : exists sched, bad (run (step 3 10 site0) log_new sched) = true.
Proof. exists restart_in_callback. vm_compute. reflexivity. Qed.
Print Assumptions C46_restart_in_callback_refuted.

(** Finding: a section that holds the log's lock and logs while the buffer is
    full makes its thread try to take a mutex it already owns. *)
Definition log_inside_lock : list sact :=
  call 1 (ORegister $"one") CNone 9 ++ call 2 (OStart (setStoppedCallback (config_factory (user_factory 7) 25) None)) (CFixed 0 mem0) 30 ++
  call 1 OLocked CNone 1 ++ [HookDo 1 (HLog ev1)] ++ repeat (Step 1 CNone) 30.

Theorem C46_log_inside_lock_refuted : exists sched, bad (run (step 3 10 site0) log_new sched) = true /\
  forall t h, In (HookDo t h) sched -> exists e, h = HLog e.
Proof.
  exists log_inside_lock. split; [vm_compute; reflexivity|]. intros t h Hi. unfold log_inside_lock, call in Hi.
  repeat (apply in_app_or in Hi as [Hi|Hi]); repeat match type of Hi with
    | In _ (_ :: _) => destruct Hi as [Hi|Hi]; [try discriminate Hi|]
    | In _ (repeat _ _) => apply repeat_spec in Hi; discriminate Hi
    | False => destruct Hi
    | In _ [] => destruct Hi
    end. injection Hi as <- <-. eauto.
Qed.
Print Assumptions C46_log_inside_lock_refuted.

(** ** C47 *)

(** In no reachable state are two threads about to touch the same plain memory,
    one of them writing. *)
Theorem C47_no_data_race : forall cap csz site_cat sched, ~ race (log_run cap csz site_cat sched).
Proof. intros cap csz sc sched. apply (no_race cap csz sc), log_run_reached. Qed.
Print Assumptions C47_no_data_race.

(** Thread 1 is about to write its chunk, thread 2 its own chunk: two writes to
    the same buffer at the same time, in different places. *)
Definition two_writers : list sact :=
  call 1 (ORegister $"one") CNone 9 ++ call 2 (ORegister $"two") CNone 9 ++ call 3 (OStart (setStoppedCallback cfgA None)) (CFixed 2 mem0) 30 ++
  call 1 (OLog ev1) CNone 14 ++ call 2 (OLog ev1) CNone 14.

Example C47_case : let s := log_run 3 10 site0 two_writers in
  (exists e, about_to s 1 (AStore 0 0 e)) /\ (exists e, about_to s 2 (AStore 0 1 e)) /\ writes s 1 (AStore 0 0 ev1) (PChunk 0 0).
Proof. split; [|split]; [exists ev1; eexists; vm_compute; reflexivity..|reflexivity]. Qed.

(** ** C48 *)

(** A chunk has at most one holder; the held chunk belongs to the log's current
    buffer and carries its holder's thread id. *)
Theorem C48_one_holder : forall cap csz site_cat sched t u x,
  holders cap csz site_cat sched t = Some x -> holders cap csz site_cat sched u = Some x -> t = u.
Proof.
  intros cap csz sc sched t u x Ht Hu. destruct (holders_held cap csz sc sched) as [f [G [_ H]]]. rewrite H in Ht, Hu.
  apply held_owned in Ht, Hu. eapply (ow_uniq _ _ _ (gb_ow _ _ _ G)); eauto.
Qed.
Print Assumptions C48_one_holder.

Theorem C48_labelled : forall cap csz site_cat sched t b i,
  let s := log_run cap csz site_cat sched in
  holders cap csz site_cat sched t = Some (b, i) ->
  bufp s = Some b /\ (i < b_size (heap s b))%N /\ c_tid (b_chunk (heap s b) i) = N.of_nat t.
Proof.
  intros cap csz sc sched t b i s Ht. destruct (holders_held cap csz sc sched) as [f [G [_ H]]]. rewrite H in Ht.
  pose proof Ht as Ho. apply held_owned in Ho. split; [|split].
  - eapply (owned_bufp cap); eauto.
  - now apply (ow_in _ _ _ (gb_ow _ _ _ G)) in Ho.
  - apply (ow_label _ _ _ (gb_ow _ _ _ G)) in Ho; [tauto|]. intros C. unfold held_by in Ht. rewrite C in Ht. discriminate.
Qed.
Print Assumptions C48_labelled.

(** Only its holder looks into a chunk or writes it; it is prepared for a new
    holder only while nobody holds it. *)
Theorem C48_only_the_holder_touches : forall cap csz site_cat sched t a b i,
  let s := log_run cap csz site_cat sched in
  about_to s t a ->
  ((a = AFull b i \/ exists e, a = AStore b i e) -> holders cap csz site_cat sched t = Some (b, i)) /\
  (a = AReset b i -> forall u, holders cap csz site_cat sched u <> Some (b, i)).
Proof.
  intros cap csz sc sched t a b i s [k Ek]. destruct (holders_held cap csz sc sched) as [f [G [V H]]]. specialize (V t).
  unfold s, log_run in *. rewrite Ek in V. destruct V as [O _]. split.
  - intros Ha. assert (O' : m_ck (f t) = Some (Some (b, i)) /\ m_cm (f t) = Plain) by (destruct Ha as [->|[e ->]]; exact O).
    destruct O' as [O1 O2]. rewrite H. unfold held_by. rewrite O2. now apply (at_ck _ _ (gb_at _ _ _ G)) in O1 as [O1 _].
  - intros -> u Hu. rewrite H in Hu. assert (Ho : owned (run (pstep cap csz sc) log_new sched) f t = Some (b, i)) by (unfold owned; cbn in O; now rewrite O).
    assert (u = t) by (eapply (ow_uniq _ _ _ (gb_ow _ _ _ G)); eauto; now apply held_owned). subst u.
    unfold held_by in Hu. cbn in O. rewrite O in Hu. discriminate.
Qed.
Print Assumptions C48_only_the_holder_touches.

(** Each thread holds its own chunk; after a stop nobody does. *)
Example C48_case :
  (holders 3 10 site0 two_writers 1, holders 3 10 site0 two_writers 2, holders 3 10 site0 busy_run 1) = (Some (0, 0%N), Some (0, 1%N), None).
Proof. vm_compute. reflexivity. Qed.

(** ** C49 *)

(** Once a call (or a call made by a stop callback) has returned a buffer,
    nothing about it changes, whatever happens afterwards. *)
Theorem C49_retrieved_is_frozen : forall cap csz site_cat before after e b,
  In e (hist (log_run cap csz site_cat before)) -> retrieved e = Some (Some b) ->
  heap (log_run cap csz site_cat (before ++ after)) b = heap (log_run cap csz site_cat before) b.
Proof.
  intros cap csz sc before after e b Hi Hr. unfold log_run. rewrite run_app.
  eapply retrieved_for_ever; eauto. apply log_run_reached.
Qed.
Print Assumptions C49_retrieved_is_frozen.

(** No thread is even about to touch it. *)
Theorem C49_out_of_reach : forall cap csz site_cat sched e b t a,
  let s := log_run cap csz site_cat sched in
  In e (hist s) -> retrieved e = Some (Some b) -> about_to s t a ->
  ~ reads s t a (PObject b) /\ ~ writes s t a (PObject b) /\ forall i, ~ reads s t a (PChunk b i) /\ ~ writes s t a (PChunk b i).
Proof.
  intros cap csz sc sched e b t a s Hi Hr Ab.
  assert (R : reached cap csz sc s) by apply log_run_reached.
  destruct (hb_ret _ (handed_over cap csz sc s R) e b Hi Hr) as [Hn Hg].
  destruct (all_sound cap csz sc s t a R Ab) as [S1 [S2 _]].
  assert (X : alive s b \/ (exists c g n, a = AFactory c g n /\ b = nbuf s) -> False).
  { intros [[_ X]|[c [g [n [_ X]]]]]; [congruence|lia]. }
  repeat split; intros W; apply X; eauto.
Qed.
Print Assumptions C49_out_of_reach.

(** The trace of [busy_run] is retrieved, a new one runs; thread 1 logs again. *)
Definition retrieve_run : list sact := busy_run ++ call 3 OGetBuffer CNone 9.
Definition continued : list sact := call 3 (OStart (setStoppedCallback cfgA None)) (CFixed 2 mem0) 30 ++ call 1 (OLog ev1) CNone 30.

Example C49_case :
  existsb (fun e => match retrieved e with Some (Some 0) => true | _ => false end) (demo retrieve_run) = true /\
  existsb (fun e => match e with Stored 1 1 _ => true | _ => false end) (demo (retrieve_run ++ continued)) = true.
Proof. vm_compute. split; reflexivity. Qed.

(** ** C51 *)

(** When a logEvent call that got no chunk switches tracing off, the buffer in
    place reports itself full (or there is none), and the thread's failure
    happened during the trace it stops: no trace was started since. *)
Theorem C51_stops_its_own_trace : forall cap csz site_cat sched t ch s',
  let s := log_run cap csz site_cat sched in
  pstep cap csz site_cat s (Step t ch) = Some s' -> hist s' = hist s ++ [Off t Exhausted] ->
  match ls_buffer (log_stats s) with Some st => st_is_full st = true | None => True end /\
  failures cap csz site_cat sched t = Some (starts (hist s)).
Proof.
  intros cap csz sc sched t ch s' s Es Eh. destruct (off_exhausted cap csz sc sched t ch s' Es Eh) as [X Y]. split; auto.
  unfold exhausted in X. fold s in X. cbn. fold (log_run cap csz sc sched) in X. change (log_run cap csz sc sched) with s in X.
  destruct (bufp s) as [b|]; cbn; auto. destruct X as [-> X]. now apply N.leb_le.
Qed.
Print Assumptions C51_stops_its_own_trace.

(** Thread 1 finds the buffer full; before it gets the lock, the trace is
    stopped and another one started. The new trace goes on. *)
Definition full_one : list sact :=
  call 1 (ORegister $"one") CNone 9 ++ call 3 (OStart (setStoppedCallback (config_factory make_fixed_buffer 10) None)) (CFixed 1 mem0) 30 ++
  call 1 (OLog ev1) CNone 30 ++ call 1 (OLog ev1) CNone 30 ++ call 1 (OLog ev1) CNone 30.
Definition offs (h : list hev) : list (tid * why) := flat_map (fun e => match e with Off t w => [(t, w)] | _ => [] end) h.

Example C51_case :
  offs (demo (full_one ++ call 1 (OLog ev1) (CPick 1) 60)) = [(1, Exhausted)] /\
  next_is (log_run 3 10 site0 (full_one ++ call 1 (OLog ev1) CNone 18)) 1 (fun a => match a with ATryLock => true | _ => false end) = true /\
  offs (demo (full_one ++ call 1 (OLog ev1) CNone 18 ++ call 3 (OStop false) CNone 4 ++ repeat (Step 3 (CPick 1)) 20 ++
              call 3 (OStart (setStoppedCallback cfgA None)) (CFixed 2 mem0) 30 ++ repeat (Step 1 (CPick 1)) 30)) = [(3, Asked false)].
Proof. vm_compute. repeat split; reflexivity. Qed.
