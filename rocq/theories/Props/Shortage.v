(** Theorems about a log that runs out of memory in its own bookkeeping. *)
From Verif Require Import Base Model.StringUtils Model.Event Model.Queue Model.Buffer Model.Config Spec.Categories Model.Registry
  Model.Interleave Spec.LogHistory Spec.LogFacts Model.TraceLog Model.Shortage
  Proofs.Interleave Proofs.LogFrame Proofs.LogSafe Proofs.LogSafeInv Proofs.LogSafeAll Proofs.Shortage Props.Log.

(** ** C86 *)

(** No allocation fails while a thread is entered among the registered threads or
    while the categories are switched off. *)
Definition spared (sched : list zact) : Prop :=
  forall t l, ~ In (Lack t PRegister l) sched /\ ~ In (Lack t PDisable l) sched.

Lemma spared_tame sched : spared sched -> forall x, In x sched -> tame x.
Proof. intros S [a|t p l] H; [exact I|]. destruct (S t l) as [A B]. destruct p; cbn; auto. Qed.

(** Whatever other allocations fail, in any calls and on any threads: no thread
    uses a buffer or a chunk that is not its own, and nothing else is undefined. *)
Theorem C86_safe : forall cap csz site_cat sched, spared sched ->
  bad (z_log (short_run cap csz site_cat sched)) = false.
Proof. intros cap csz site_cat sched S. apply (z_bad _ _ (Z_run cap csz site_cat sched (spared_tame _ S))). Qed.
Print Assumptions C86_safe.

(** The call answers std::bad_alloc and does not keep the lock. A call made from
    a callback throws into the callback, which goes on. *)
Theorem C86_reported : forall cap csz site_cat sched t p l z', spared (sched ++ [Lack t p l]) ->
  zstep cap csz site_cat (short_run cap csz site_cat sched) (Lack t p l) = Some z' ->
  let h := hist (z_log (short_run cap csz site_cat sched)) in
  exists fr r, z_in (short_run cap csz site_cat sched) t = fr :: r /\
  exists z2, zstep cap csz site_cat z' (Do (Step t CNone)) = Some z2 /\
  match fr with
  | FCall o => hist (z_log z2) = h ++ [Done t o (RThrow BadAlloc)] /\ code (z_log z2) t = Ret /\ mtx (z_log z2) <> Some t
  | FNested n back => hist (z_log z2) = h ++ [Nested t n (RThrow BadAlloc)] /\ hook_of (code (z_log z2) t) <> None /\ mtx (z_log z2) = Some t
  end.
Proof.
  intros cap csz site_cat sched t p l z' S H h. pose proof (spared_tame _ S) as T.
  assert (Hz : Z cap (short_run cap csz site_cat sched)) by (apply Z_run; intros x Hx; apply T, in_or_app; auto).
  assert (Tl : tame (Lack t p l)) by (apply T, in_or_app; right; now left).
  destruct (Z_answer _ _ _ _ _ _ _ _ Hz Tl H) as [fr [r [E A]]].
  exists fr, r. split; auto. destruct fr as [o|n back]; destruct A as [z2 [A1 A2]]; exists z2; split; auto.
  destruct A2 as [A2 [A3 [A4 A5]]]. rewrite A3. auto.
Qed.
Print Assumptions C86_reported.

(** The failed allocation starts or stops nothing, takes no buffer away (of
    getTraceContext neither) and changes no event; only registering leaves a trace
    in the thread's own state. *)
Theorem C86_kept : forall cap csz site_cat z t p l z', zstep cap csz site_cat z (Lack t p l) = Some z' ->
  enabled (z_log z') = enabled (z_log z) /\ gen (z_log z') = gen (z_log z) /\ bufp (z_log z') = bufp (z_log z) /\
  heap (z_log z') = heap (z_log z) /\ regd (z_log z') = regd (z_log z) /\ hist (z_log z') = hist (z_log z) /\
  mtx (z_log z') = mtx (z_log z) /\ dereg (z_log z') = dereg (z_log z) /\
  (p <> PRegister -> ten (z_log z') = ten (z_log z)) /\
  (p <> PConfig -> cfg (z_log z') = cfg (z_log z)) /\
  (p <> PUpdate -> p <> PDisable -> reg (z_log z') = reg (z_log z)) /\
  (forall u, u <> t -> forall n, In (u, n) (names (z_log z')) <-> In (u, n) (names (z_log z))) /\
  (forall n, In (t, n) (names (z_log z)) -> In (t, n) (names (z_log z'))).
Proof.
  intros cap csz site_cat z t p l z' H. cbn [zstep] in H. destruct (bad (z_log z)); [easy|]. destruct (code (z_log z) t) as [|a k]; [easy|].
  destruct (may (z_in z t) p); [|easy]. destruct (leaves (z_log z) t a p l) as [s'|] eqn:E; [|easy]. injection H as <-.
  destruct p, a; try discriminate E; cbn [leaves] in E;
    repeat match type of E with context [match ?x with _ => _ end] => destruct x end; try discriminate E; injection E as <-; cbn; repeat split; try easy;
    try (intros [Hx|Hx]; [injection Hx as <- _; easy|exact Hx]); now right.
Qed.
Print Assumptions C86_kept.

(** A start that fails while the categories are updated leaves tracing off. *)
Theorem C86_start_leaves_off : forall cap csz site_cat sched t l z', spared sched ->
  zstep cap csz site_cat (short_run cap csz site_cat sched) (Lack t PUpdate l) = Some z' -> enabled (z_log z') = false.
Proof.
  intros cap csz site_cat sched t l z' S H.
  rewrite (proj1 (C86_kept _ _ _ _ _ _ _ _ H)). eapply Z_start_off; [|exact H]. apply Z_run, spared_tame, S.
Qed.
Print Assumptions C86_start_leaves_off.

(** Nobody keeps the lock once their calls have ended. *)
Theorem C86_lock_free : forall cap csz site_cat sched t, spared sched ->
  code (z_log (short_run cap csz site_cat sched)) t = Ret -> mtx (z_log (short_run cap csz site_cat sched)) <> Some t.
Proof.
  intros cap csz site_cat sched t S E M. destruct (z_inv _ _ (Z_run cap csz site_cat sched (spared_tame _ S))) as [_ [f [G V]]].
  specialize (V t). rewrite E in V. cbn in V. unfold quietB in V. apply (lk_hold _ _ (gb_lk _ _ _ G)) in M. now rewrite V in M.
Qed.
Print Assumptions C86_lock_free.

(** Without failures this is the log of the other theorems. *)
Theorem C86_every_run : forall cap csz site_cat sched,
  z_log (short_run cap csz site_cat (map Do sched)) = log_run cap csz site_cat sched.
Proof.
  intros cap csz site_cat sched. unfold short_run, log_run. induction sched as [|a l IH] using rev_ind; auto.
  rewrite map_app. cbn [map]. rewrite !run_snoc. unfold move. cbn [zstep]. rewrite IH.
  destruct (pstep cap csz site_cat (run (pstep cap csz site_cat) log_new l) a); auto.
Qed.
Print Assumptions C86_every_run.

Definition cfg_fix : config := config_factory make_fixed_buffer 25.
Definition calls (t : tid) (o : op) (ch : choice) (n : nat) : list zact := map Do (call t o ch n).
Definition fail (t : tid) (o : op) (ch : choice) (n : nat) (p : point) (l : lack) : list zact :=
  calls t o ch n ++ [Lack t p l; Do (Step t CNone)].

(** Registering is not safe: the thread that could not be entered still logs, is
    not evicted when tracing stops, and then writes to a destroyed buffer. *)
Definition half_registered : list zact :=
  calls 0 (OStart cfg_fix) (CFixed 2 mem0) 12 ++
  fail 1 (ORegister []) CNone 2 PRegister {| k_at := 0; k_list := [] |} ++
  calls 1 (OLog event0) CNone 20 ++
  calls 0 (OStop false) CNone 8 ++
  calls 0 (OStart cfg_fix) (CFixed 2 mem0) 12 ++
  calls 1 (OLog event0) CNone 20.

Theorem C86_register_refuted : exists sched,
  (forall t p l, In (Lack t p l) sched -> p = PRegister) /\ length (filter (fun x => match x with Lack _ _ _ => true | _ => false end) sched) = 1%nat /\
  bad (z_log (short_run 3 10 site0 sched)) = true.
Proof.
  exists half_registered. split; [|split; vm_compute; reflexivity].
  intros t p l H. unfold half_registered, fail, calls, call in H. cbn in H. repeat (destruct H as [H|H]; [try discriminate H|]); try easy.
  now injection H as <- <- <-.
Qed.
Print Assumptions C86_register_refuted.

(** Stopping is not safe: tracing is off but no thread was evicted. Another stop
    does nothing; after the next start the threads write to a destroyed buffer. *)
Definition half_stopped : list zact :=
  calls 1 (ORegister []) CNone 4 ++
  calls 0 (OStart cfg_fix) (CFixed 2 mem0) 12 ++
  calls 1 (OLog event0) CNone 20 ++
  fail 0 (OStop false) CNone 2 PDisable {| k_at := 1; k_list := [] |} ++
  calls 0 (OStop false) CNone 8 ++
  calls 0 (OStart cfg_fix) (CFixed 2 mem0) 12 ++
  calls 1 (OLog event0) CNone 20.

Theorem C86_stop_refuted : exists sched,
  (forall t p l, In (Lack t p l) sched -> p = PDisable) /\ length (filter (fun x => match x with Lack _ _ _ => true | _ => false end) sched) = 1%nat /\
  bad (z_log (short_run 3 10 site0 sched)) = true /\
  In (Done 0 (OStop false) (RThrow BadAlloc)) (hist (z_log (short_run 3 10 site0 sched))) /\
  In (Done 0 (OStop false) RUnit) (hist (z_log (short_run 3 10 site0 sched))).
Proof.
  exists half_stopped. split; [|split; [|split; [|split]]].
  - intros t p l H. unfold half_stopped, fail, calls, call in H. cbn in H. repeat (destruct H as [H|H]; [try discriminate H|]); try easy.
    now injection H as <- <- <-.
  - vm_compute. reflexivity.
  - vm_compute. reflexivity.
  - vm_compute. auto 30.
  - vm_compute. auto 30.
Qed.
Print Assumptions C86_stop_refuted.

Definition none : lack := {| k_at := 0; k_list := [] |}.

(** Everything fails once; then everything works. *)
Definition scarce : list zact :=
  fail 0 (OStart cfg_fix) CNone 1 PConfig none ++
  fail 0 (OStart cfg_fix) (CFixed 2 mem0) 6 PUpdate {| k_at := 2; k_list := [] |} ++
  fail 1 (ORegister ($"a")) CNone 3 PName none ++
  calls 0 (OStart cfg_fix) (CFixed 2 mem0) 12 ++
  calls 1 (OLog event0) CNone 20 ++
  fail 1 (OMacro 0 event0) CNone 1 PCategory none ++
  calls 1 (OMacro 0 event0) CNone 20 ++
  fail 2 OGetConfig CNone 1 PConfigOut none ++
  calls 0 (OStop false) (CPick 1) 12 ++
  fail 2 OGetContext CNone 2 PContext none ++
  calls 2 OGetContext CNone 8 ++
  calls 0 (OStart cfg_fix) (CFixed 2 mem0) 12 ++
  fail 1 ODeregister CNone 5 PDeregister none ++
  calls 1 (ORegister ($"b")) CNone 8.

Definition answers (h : list hev) : list (tid * out) := flat_map (fun e => match e with Done t _ r => [(t, r)] | _ => [] end) h.

Example C86_case : spared scarce /\
  answers (hist (z_log (short_run 3 10 site0 scarce))) =
    [(0, RThrow BadAlloc); (0, RThrow BadAlloc); (1, RThrow BadAlloc); (0, RUnit); (1, RUnit); (1, RThrow BadAlloc); (1, RUnit);
     (2, RThrow BadAlloc); (0, RUnit); (2, RThrow BadAlloc); (2, RCtx (Some 1) []); (0, RUnit); (1, RThrow BadAlloc); (1, RUnit)]%nat /\
  (let z := short_run 3 10 site0 (fail 2 OGetContext CNone 2 PContext none) in bad (z_log z) = false /\ mtx (z_log z) = None).
Proof.
  split; [|split].
  - intros t l. split; intros H; unfold scarce, fail, calls, call in H; cbn in H; repeat (destruct H as [H|H]; [try discriminate H|]); easy.
  - vm_compute. reflexivity.
  - vm_compute. auto.
Qed.
