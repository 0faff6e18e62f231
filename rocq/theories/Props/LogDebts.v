(** C69, C70: what becomes of the events threads log. *)
From Verif Require Import Base Model.StringUtils Model.Event Model.Queue Model.Buffer Model.Config Spec.Categories Spec.History Model.Registry
  Model.Interleave Spec.LogHistory Spec.LogFacts Model.TraceLog Spec.LogMemory Spec.LogRecords Proofs.Interleave Proofs.Registry Proofs.LogFrame Proofs.LogView Proofs.LogViewInv
  Proofs.LogContract Proofs.LogBuffers Proofs.LogSafe Proofs.LogSafeInv Proofs.LogSafeAT Proofs.LogSafeOW Proofs.LogSafeAll Proofs.LogRaces Proofs.LogHolders
  Proofs.LogHandover Proofs.LogRecords Proofs.LogGhost Proofs.LogDebts Props.Buffer Props.Log Props.LogSafety Props.LogRecords.

(** ** C69 *)

(** When a thread stores an event, it is inside a logging call for this very
    event, which has stored nothing so far. *)
Theorem C69_stores_are_owed : forall cap csz site_cat sched x t b e y,
  hist (log_run cap csz site_cat sched) = x ++ Stored t b e :: y -> debt_of x t = Owes e.
Proof. intros cap csz sc sched. apply stored_owed. Qed.
Print Assumptions C69_stores_are_owed.

Lemma part_refl_nil {A} (m : list A) : part_of [] m.
Proof. induction m; constructor; auto. Qed.

Lemma part_app {A} (l m k : list A) : part_of l m -> part_of l (m ++ k).
Proof. induction 1; cbn; try (constructor; auto; fail). apply part_refl_nil. Qed.

Lemma part_snoc {A} (l m : list A) x : part_of l m -> part_of (l ++ [x]) (m ++ [x]).
Proof. induction 1; cbn; [apply part_keep; constructor|apply part_skip|apply part_keep]; auto. Qed.

(** So each thread stores its events in the order it logged them, each at most
    once, and nothing else. *)
Theorem C69_stored_in_logged_order : forall cap csz site_cat sched t,
  let h := hist (log_run cap csz site_cat sched) in
  part_of (stored_by h t) (asked_to_log h t).
Proof.
  intros cap csz sc sched t h.
  assert (O : forall x b e y, h = x ++ Stored t b e :: y -> debt_of x t = Owes e) by (intros x b e y; apply stored_owed).
  assert (S : part_of (stored_by h t) (asked_to_log h t) /\
    (forall e, debt_of h t = Owes e -> exists l, asked_to_log h t = l ++ [e] /\ part_of (stored_by h t) l)); [|apply S].
  clearbody h. revert O. induction h as [|z h IH] using rev_ind; intros O; [split; [constructor|discriminate]|].
  destruct IH as [I1 I2]. { intros x b e y E. apply (O x b e (y ++ [z])). now rewrite E, <- app_assoc. }
  rewrite debt_snoc. unfold stored_by, asked_to_log. rewrite !flat_map_app. fold (stored_by h t) (asked_to_log h t). cbn [flat_map]. rewrite !app_nil_r.
  destruct z; rewrite ?app_nil_r; cbn [debt_step]; auto.
  - destruct (Nat.eqb t0 t) eqn:Et; [|destruct o; rewrite ?app_nil_r; auto].
    destruct o; rewrite ?app_nil_r; cbn [new_debt]; (split; [auto using part_app|]); try discriminate; intros x X; injection X as <-; eauto.
  - destruct (Nat.eqb t0 t) eqn:Et; rewrite ?app_nil_r; auto. apply Nat.eqb_eq in Et. subst t0.
    destruct (I2 e) as [l [-> P]]; [now apply (O h b e [])|]. split; [now apply part_snoc|discriminate].
  - match goal with v : bool |- _ => destruct v end; auto. destruct (Nat.eqb t0 t); auto. destruct (debt_of h t); auto. split; auto. discriminate.
Qed.
Print Assumptions C69_stored_in_logged_order.

(** ** C70 *)

(** A logging call returns without having stored its event only if its category
    was found disabled, or an obstacle (see [obstacle]) was there at one of its
    own steps. *)
Theorem C70_dropped_for_a_reason : forall cap csz site_cat sched t ch e,
  let s := log_run cap csz site_cat sched in
  let s' := log_run cap csz site_cat (sched ++ [Step t ch]) in
  let met := obstacles cap csz site_cat sched t = Some (calls (hist s) t) in
  (hist s' = hist s ++ [Done t (OLog e) RUnit] -> debt_of (hist s) t = Kept e \/ (debt_of (hist s) t = Owes e /\ met)) /\
  (forall site, hist s' = hist s ++ [Done t (OMacro site e) RUnit] ->
     debt_of (hist s) t = Kept e \/ debt_of (hist s) t = Waived e \/ (debt_of (hist s) t = Owes e /\ met)).
Proof.
  intros cap csz sc sched t ch e s s' met.
  assert (G : forall o, hist s' = hist s ++ [Done t o RUnit] -> lock_free o = true -> exists k, code s t = Act (ANote (Done t o RUnit)) k).
  { intros o H F. unfold s', log_run in H. rewrite run_snoc in H. fold (log_run cap csz sc sched) in H. fold s in H.
    assert (R : reached cap csz sc s) by apply log_run_reached.
    unfold move in H. destruct (pstep cap csz sc s (Step t ch)) as [s1|] eqn:E.
    2:{ exfalso. apply (f_equal (@length hev)) in H. rewrite app_length in H. cbn in H. lia. }
    unfold pstep, step in E. cbn [polite] in E. rewrite (never_bad _ _ _ s R) in E. destruct (code s t) as [|a k] eqn:Ec; [easy|].
    destruct (exec cap s t ch a) as [| |s2 r] eqn:Ex; [easy| |]; injection E as <-; cbn in H.
    { exfalso. apply (f_equal (@length hev)) in H. rewrite app_length in H. cbn in H. lia. }
    assert (H2 : hist s2 = hist s ++ [Done t o RUnit]) by exact H. clear H.
    destruct (allowed _ _ _ s t a k R Ec) as [g [Ga Oa]].
    destruct a; ex Ex; cbn in H2; try (exfalso; apply (f_equal (@length hev)) in H2; rewrite ?app_length in H2; cbn in H2; lia);
      try (apply app_inv_head in H2; discriminate H2).
    - exfalso. apply app_inv_head in H2. injection H2 as ->. cbn in Oa. unfold insec in Oa. destruct (a_sec (g t)) as [[p q]|]; [|easy]. destruct Oa as [_ [I _]]. cbn in I. congruence.
    - exfalso. destruct (bufp s); apply (f_equal (@length hev)) in H2; rewrite ?app_length in H2; cbn in H2; lia.
    - exfalso. destruct (bufp s); apply (f_equal (@length hev)) in H2; rewrite ?app_length in H2; cbn in H2; lia.
    - exfalso. apply app_inv_head in H2. injection H2 as ->. cbn in Oa. unfold insec in Oa. destruct (a_sec (g t)) as [[p q]|]; [|easy]. now destruct Oa as [_ [[x [X _]]|[x [y [X _]]]]].
    - apply app_inv_head in H2. injection H2 as ->. eauto.
    - exfalso. destruct (bufp s); apply app_inv_head in H2; discriminate H2. }
  destruct (debts_kept cap csz sc sched) as [f [D V]]. fold (log_run cap csz sc sched) in D, V. fold s in D, V. destruct (D t) as [D1 [D2 _]].
  rewrite <- D1. split; [intros H|intros site H]; apply G in H as [k Ec]; auto; specialize (V t); rewrite Ec in V; destruct V as [[_ V] _]; cbn in V.
  - destruct V as [V|[V W]]; auto. right. split; auto. now apply D2.
  - destruct V as [V|[V|[V W]]]; auto. right. right. split; auto. now apply D2.
Qed.
Print Assumptions C70_dropped_for_a_reason.

(** Thread 4 is not registered: its event is dropped; the five of [mixed_run]
    are all stored, and a sixth one comes after tracing was stopped. *)
Definition dropping_run : list sact := mixed_run ++ call 1 (OLog (evt 6)) CNone 9 ++ call 3 (OStart (setStoppedCallback cfgA None)) (CFixed 2 mem0) 30.

Example C69_case :
  let h := demo (dropping_run ++ call 1 (OLog (evt 7)) CNone 30) in
  map ev_time (stored_by h 1) = [1; 3; 5; 7]%N /\ map ev_time (asked_to_log h 1) = [1; 3; 5; 6; 7]%N.
Proof. vm_compute. split; reflexivity. Qed.

Example C70_case :
  let sched := dropping_run ++ call 4 (OLog (evt 8)) CNone 4 in
  let s := log_run 3 10 site0 sched in
  hist (log_run 3 10 site0 (sched ++ [Step 4 CNone])) = hist s ++ [Done 4 (OLog (evt 8)) RUnit] /\
  debt_of (hist s) 4 = Owes (evt 8) /\ obstacles 3 10 site0 sched 4 = Some 1 /\ enabled s = true.
Proof. vm_compute. repeat split; reflexivity. Qed.
