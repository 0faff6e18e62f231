(** C104: when a full buffer ends its trace. *)
From Verif Require Import Base Model.StringUtils Model.Event Model.Queue Model.Buffer Model.Config Spec.Categories Spec.History Model.Registry
  Model.Interleave Spec.LogHistory Spec.LogFacts Model.TraceLog Spec.LogMemory Spec.LogRecords Spec.LogEnd Proofs.Interleave Proofs.Registry Proofs.LogFrame Proofs.LogView Proofs.LogViewInv
  Proofs.LogContract Proofs.LogBuffers Proofs.LogSafe Proofs.LogSafeInv Proofs.LogSafeAT Proofs.LogSafeOW Proofs.LogSafeAll Proofs.LogRaces Proofs.LogHolders
  Proofs.LogHandover Proofs.LogRecords Proofs.LogGhost Proofs.LogDebts Proofs.LogFull Proofs.LogAlone Props.Buffer Props.Log Props.LogSafety Props.LogRecords Props.LogDebts.

(** A logging call that returns without having stored its event found its category
    disabled, or turned tracing off, or at one of its own steps found it off, was being
    evicted, was not registered, or failed to get the lock of the log; or there is a newer
    trace than when it began. A full buffer alone is no excuse. *)
Theorem C104_ends : forall cap csz site_cat sched t ch e,
  let s := log_run cap csz site_cat sched in
  let s' := log_run cap csz site_cat (sched ++ [Step t ch]) in
  let x := excuses cap csz site_cat sched t in
  let met := x_call x = calls (hist s) t /\ x_met x = true in
  (hist s' = hist s ++ [Done t (OLog e) RUnit] -> debt_of (hist s) t = Kept e \/ (debt_of (hist s) t = Owes e /\ met)) /\
  (forall site, hist s' = hist s ++ [Done t (OMacro site e) RUnit] ->
     debt_of (hist s) t = Kept e \/ debt_of (hist s) t = Waived e \/ (debt_of (hist s) t = Owes e /\ met)).
Proof.
  intros cap csz sc sched t ch e s s' x met.
  destruct (full_ends cap csz sc sched) as [f [D V]]. fold (log_run cap csz sc sched) in D, V. fold s in D, V. destruct (D t) as [D1 [D2 _]].
  rewrite <- D1. split; [intros H|intros site H]; apply done_code in H as [k Ec]; auto; specialize (V t); unfold s, log_run in V; rewrite Ec in V; destruct V as [[_ V] _]; cbn in V.
  - destruct V as [V|[V W]]; auto. right. split; auto. now apply D2.
  - destruct V as [V|[V|[V W]]]; auto. right. right. split; auto. now apply D2.
Qed.
Print Assumptions C104_ends.

(** So a registered thread that logs while nobody has the lock and nobody else runs
    stores its event, or the trace is over when the call returns. *)
Theorem C104_alone : forall cap csz site_cat sched t e acts ch,
  let s := log_run cap csz site_cat sched in
  let during := sched ++ Invoke t (OLog e) :: acts in
  let s1 := log_run cap csz site_cat during in
  let s2 := log_run cap csz site_cat (during ++ [Step t ch]) in
  enabled s = true -> mtx s = None -> t_init (ten s t) = true -> code s t = Ret -> closing s = None ->
  Forall (own_step t) acts -> hist s2 = hist s1 ++ [Done t (OLog e) RUnit] ->
  debt_of (hist s1) t = Kept e \/ enabled s2 = false.
Proof.
  intros cap csz sc sched t e acts ch s during s1 s2 On Mx In Id Cl F H.
  destruct (C104_ends cap csz sc during t ch e) as [C _]. destruct (C H) as [K|[K (X1 & X2)]]; [now left|right]. clear C.
  fold s1 in X1. destruct (done_code cap csz sc during t ch (OLog e) H eq_refl) as [k Ec].
  assert (A : alone s1 (excuses cap csz sc during) t (S (calls (hist s) t)) (gen s)) by (apply alone_run; auto).
  destruct A as [(A & _)|(_ & _ & Cn & A)].
  - unfold s2, log_run. rewrite run_snoc. fold (log_run cap csz sc during). fold s1.
    unfold move, pstep, step. cbn [polite]. fold (log_run cap csz sc during) in Ec. fold s1 in Ec. rewrite Ec.
    destruct (bad s1); [exact A|]. cbn [exec]. exact A.
  - destruct (A (eq_trans X1 Cn)) as (_ & A'). congruence.
Qed.
Print Assumptions C104_alone.

(** ** A full buffer that does not end its trace *)

(** One chunk of three events. Thread 1 fills it; while thread 2 asks for the configuration and has
    the lock, thread 1 logs once more: the buffer is full, but the lock is taken. *)
Definition one_chunk : config := setStoppedCallback (config_factory make_fixed_buffer 10) (Some (user_callback 1)).
Definition filled : list sact :=
  call 1 (ORegister $"one") CNone 9 ++ call 3 (OStart one_chunk) (CFixed 1 mem0) 30 ++
  call 1 (OLog (evt 1)) CNone 20 ++ call 1 (OLog (evt 2)) CNone 20 ++ call 1 (OLog (evt 3)) CNone 20.
Definition missed : list sact := filled ++ call 2 OGetConfig CNone 1 ++ call 1 (OLog (evt 4)) CNone 30 ++ repeat (Step 2 CNone) 4.

Lemma missed_idle t : code (log_run 3 10 site0 missed) t = Ret.
Proof. do 4 (destruct t as [|t]; [vm_compute; reflexivity|]). vm_compute. reflexivity. Qed.

Lemma has_not (p : hev -> bool) l : existsb p l = false -> forall x, In x l -> p x = false.
Proof. intros E x I. destruct (p x) eqn:P; [|reflexivity]. rewrite <- E. symmetry. apply existsb_exists. eauto. Qed.

Definition stores4 (x : hev) : bool := match x with Stored _ _ e => (ev_time e =? 4)%N | _ => false end.
Definition turns_off (x : hev) : bool := match x with Off _ _ => true | _ => false end.
Definition calls_back (x : hev) : bool := match x with Callback _ _ => true | _ => false end.

Lemma missed_facts : let s := log_run 3 10 site0 missed in
  (mtx s, enabled s, option_map st_is_full (ls_buffer (log_stats s))) = (None, true, Some true) /\
  nth_error (hist s) 18 = Some (Done 1 (OLog (evt 4)) RUnit) /\
  existsb stores4 (hist s) = false /\ existsb turns_off (hist s) = false /\ existsb calls_back (hist s) = false.
Proof. vm_compute. repeat split; reflexivity. Qed.

(** The claim that a trace ends when its buffer is full and an event did not fit is
    false: no call is under way, an event was lost because the buffer is full, no stop
    was asked for, and tracing is still on; the stopped callback has not run, and does
    not until somebody logs again. *)
Theorem C104_left_on_refuted : exists sched,
  let s := log_run 3 10 site0 sched in
  (forall t, code s t = Ret) /\ mtx s = None /\ enabled s = true /\
  (exists b, ls_buffer (log_stats s) = Some b /\ st_is_full b = true) /\
  In (Done 1 (OLog (evt 4)) RUnit) (hist s) /\ (forall b, ~ In (Stored 1 b (evt 4)) (hist s)) /\
  (forall t w, ~ In (Off t w) (hist s)) /\ (forall t c, ~ In (Callback t c) (hist s)).
Proof.
  exists missed. pose proof missed_facts as F. cbv zeta in *. destruct F as (F1 & F2 & F3 & F4 & F5).
  pose proof missed_idle as Id. pose proof (has_not stores4 _ F3) as N3. pose proof (has_not turns_off _ F4) as N4. pose proof (has_not calls_back _ F5) as N5.
  set (s := log_run 3 10 site0 missed) in *. clearbody s.
  split; [exact Id|]. apply pair_equal_spec in F1 as [F1 F6]. apply pair_equal_spec in F1 as [-> ->]. split; [reflexivity|]. split; [reflexivity|].
  split; [destruct (ls_buffer (log_stats s)) as [b|]; [|discriminate F6]; exists b; split; [reflexivity|]; now injection F6|].
  split; [exact (nth_error_In _ _ F2)|].
  split; [intros b I; apply N3 in I; discriminate I|]. split; [intros t w I; apply N4 in I; discriminate I|intros t w I; apply N5 in I; discriminate I].
Qed.
Print Assumptions C104_left_on_refuted.

(** The next event that thread 1 logs ends the trace: this meets the hypotheses of
    [C104_alone], and those of [C104_ends]. *)
Example C104_case :
  let s := log_run 3 10 site0 missed in
  let during := missed ++ Invoke 1 (OLog (evt 5)) :: repeat (Step 1 (CPick 1)) 40 ++ [HookEnd 1 None; Step 1 CNone] in
  let s1 := log_run 3 10 site0 during in
  let s2 := log_run 3 10 site0 (during ++ [Step 1 CNone]) in
  (enabled s, mtx s, t_init (ten s 1), closing s) = (true, None, true, None) /\
  hist s2 = hist s1 ++ [Done 1 (OLog (evt 5)) RUnit] /\ debt_of (hist s1) 1 = Owes (evt 5) /\ enabled s2 = false /\
  existsb calls_back (hist s2) = true.
Proof. vm_compute. repeat split; reflexivity. Qed.

(** The event that was missed had an excuse: the lock was taken. *)
Example C104_case_missed :
  let sched := filled ++ call 2 OGetConfig CNone 1 ++ call 1 (OLog (evt 4)) CNone 19 in
  let s := log_run 3 10 site0 sched in
  hist (log_run 3 10 site0 (sched ++ [Step 1 CNone])) = hist s ++ [Done 1 (OLog (evt 4)) RUnit] /\
  debt_of (hist s) 1 = Owes (evt 4) /\ x_call (excuses 3 10 site0 sched 1) = calls (hist s) 1 /\ x_met (excuses 3 10 site0 sched 1) = true.
Proof. vm_compute. repeat split; reflexivity. Qed.
