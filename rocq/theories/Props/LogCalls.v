(** C57 (how a callback's exception ends a call) and C81: how the calls of a
    TraceLog end. *)
From Verif Require Import Base Model.StringUtils Model.Event Model.Queue Model.Buffer Model.Config Spec.Categories Model.Registry
  Model.Interleave Spec.LogHistory Spec.LogFacts Spec.LogCalls Model.TraceLog Proofs.Interleave Proofs.Registry Proofs.LogFrame
  Proofs.LogView Proofs.LogViewInv Proofs.LogContract Proofs.LogCalls Props.Log.

(** ** C57 *)

(** When a stop callback (or a section holding the lock) of thread [t] ends with
    an exception, that exception leaves the call it was run for: this is the
    next thing thread [t] does. When it ends without one, the stop is over
    without one, and a restart goes on to make its buffer. *)
Theorem C57_callback_outcome : forall cap csz site_cat sched t r sched' z e,
  let s := log_run cap csz site_cat sched in
  pstep cap csz site_cat s (HookEnd t r) <> None ->
  hist (log_run cap csz site_cat (sched ++ HookEnd t r :: sched')) = hist s ++ z ->
  first_by t z = Some e ->
  follows_callback t r e.
Proof.
  intros cap csz sc sched t r sched' z e s Hs Ez Fe. unfold log_run in Ez. rewrite run_app in Ez. cbn [run] in Ez. unfold move in Ez.
  destruct (pstep cap csz sc (run (pstep cap csz sc) log_new sched) (HookEnd t r)) as [s1|] eqn:E; [|now destruct Hs].
  assert (hist s1 = hist s) as E1.
  { unfold pstep, step in E. cbn [polite] in E. destruct (bad _); [easy|]. destruct (hook_of _) as [[h k]|]; [|easy]. now injection E as <-. }
  rewrite <- E1 in Ez. eapply after_callback; eauto.
Qed.
Print Assumptions C57_callback_outcome.

(** The logEvent call that ran out of space and stopped the log ends as that
    stop ended. An exception that leaves the stop in the destructor terminates
    the program; without one the log is destroyed. *)
Theorem C57_stop_outcome : forall cap csz site_cat sched t w r x y e,
  hist (log_run cap csz site_cat sched) = x ++ StopTried t w r :: y -> first_by t y = Some e -> follows_stop t w r e.
Proof. intros. eapply after_stop; eauto. Qed.
Print Assumptions C57_stop_outcome.

(** The callback of a restart throws, and so does that of a stop: start and stop
    throw the same exceptions. *)
Example C57_outcome_case :
  filter (fun e => match e with Done _ _ _ | Callback _ _ => true | _ => false end)
    (demo (call 1 (OStart cfgA) (CFixed 2 mem0) 30 ++ call 2 (OStart cfgB) (CFixed 3 mem0) 11 ++ [HookEnd 2 (Some BadAlloc)] ++ repeat (Step 2 (CFixed 3 mem0)) 30 ++
           call 2 (OStart cfgB) (CFixed 3 mem0) 30 ++ call 1 (OStop false) CNone 10 ++ [HookEnd 1 (Some LogicError)] ++ repeat (Step 1 CNone) 9)) =
  [Done 1 (OStart cfgA) RUnit; Callback 2 (Some (user_callback 2)); Done 2 (OStart cfgB) (RThrow BadAlloc);
   Done 2 (OStart cfgB) RUnit; Callback 1 (Some (user_callback 2)); Done 1 (OStop false) (RThrow LogicError)].
Proof. vm_compute. reflexivity. Qed.

(** ** C81 *)

(** A call that returns was made by the same thread, which has made no other
    since; and a thread makes its next call only when the one before returned. *)
Theorem C81_calls_return : forall cap csz site_cat sched,
  let h := hist (log_run cap csz site_cat sched) in
  (forall x t o r y, h = x ++ Done t o r :: y -> exists z, calling x t o z) /\
  (forall x t o y, h = x ++ Invoked t o :: y -> returned x t).
Proof.
  intros cap csz sc sched h. destruct (calls_inv cap csz sc _ (log_run_reached cap csz sc sched)) as [f [_ _ D C]].
  split; [|exact C]. intros x t o r y E. eapply D; eauto.
Qed.
Print Assumptions C81_calls_return.

(** isEnabled returns whether tracing was on at some moment during the call,
    getCategoryStatus the slot it found then. *)
Theorem C81_answers_true : forall cap csz site_cat sched x t o r y,
  hist (log_run cap csz site_cat sched) = x ++ Done t o r :: y -> truthful x t o r.
Proof.
  intros cap csz sc sched x t o r y E. destruct (calls_inv cap csz sc _ (log_run_reached cap csz sc sched)) as [f [_ _ D _]]. eapply D; eauto.
Qed.
Print Assumptions C81_answers_true.

(** isEnabled reads the flag, then tracing is stopped, then it returns. *)
Example C81_case :
  demo (call 1 (OStart (config_factory make_fixed_buffer 25)) (CFixed 2 mem0) 30 ++ [Invoke 2 OIsEnabled; Step 2 CNone] ++
        call 1 (OStop false) CNone 10 ++ [Step 2 CNone] ++ call 3 OIsEnabled CNone 2) =
  [Invoked 1 (OStart (config_factory make_fixed_buffer 25)); Configured 1 (config_factory make_fixed_buffer 25);
   Made 1 0 2 (MadeFixed 0 2); On 1 0 (MadeFixed 0 2); Done 1 (OStart (config_factory make_fixed_buffer 25)) RUnit;
   Invoked 2 OIsEnabled; Invoked 1 (OStop false); Off 1 (Asked false); Callback 1 None; Done 1 (OStop false) RUnit;
   Done 2 OIsEnabled (RBool true); Invoked 3 OIsEnabled; Done 3 OIsEnabled (RBool false)].
Proof. vm_compute. reflexivity. Qed.
