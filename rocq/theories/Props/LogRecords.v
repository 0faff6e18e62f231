(** C50: what a retrieved buffer contains. *)
From Verif Require Import Base Model.StringUtils Model.Event Model.Queue Model.Buffer Model.Config Spec.Categories Spec.History Model.Registry
  Model.Interleave Spec.LogHistory Spec.LogFacts Model.TraceLog Spec.LogMemory Spec.LogRecords Proofs.Interleave Proofs.Registry Proofs.LogFrame Proofs.LogView Proofs.LogViewInv
  Proofs.LogContract Proofs.LogBuffers Proofs.LogSafe Proofs.LogSafeInv Proofs.LogSafeAT Proofs.LogSafeOW Proofs.LogSafeAll Proofs.LogRaces Proofs.LogHolders
  Proofs.LogHandover Proofs.LogRecords Props.Buffer Props.Log Props.LogSafety.

(** ** C50 *)

(** Iterating over a fixed buffer that was retrieved yields, for each thread,
    exactly the events that thread stored into it, in order, labelled with its
    id; and nothing that is not so labelled. *)
Theorem C50_fixed_exact : forall cap csz site_cat sched ev b, (cap < 65536)%N ->
  let s := log_run cap csz site_cat sched in
  In ev (hist s) -> retrieved ev = Some (Some b) -> b_kind (heap s b) = Fixed ->
  exists first fin all, it_begin (buf_view (heap s b)) = Some first /\ it_finish (buf_view (heap s b)) = Some fin /\
    (forall fuel, length all < fuel -> iterate fuel (buf_view (heap s b)) first fin = Some all) /\
    (forall t, labelled t all = stored_in (hist s) t b) /\
    (forall x, In x all -> exists t, snd x = N.of_nat t).
Proof.
  intros cap csz sc sched ev b Hc s Hi Hr K. assert (R : reached cap csz sc s) by apply log_run_reached.
  pose proof (hb_ret _ (handed_over cap csz sc s R) ev b Hi Hr) as Hg.
  destruct (C21_iteration_exact (buf_view (heap s b))) as (first & fin & E1 & E2 & E3). exists first, fin, (contents (buf_view (heap s b))).
  repeat split; auto.
  - apply (exact_fixed cap csz sc); auto.
  - intros x Hx. destruct (nothing_else cap csz sc Hc s b x R Hg Hx) as [t [X _]]. eauto.
Qed.
Print Assumptions C50_fixed_exact.

(** Fixed or ring: nothing appears that its thread did not store into this
    buffer. *)
Theorem C50_nothing_else : forall cap csz site_cat sched ev b, (cap < 65536)%N ->
  let s := log_run cap csz site_cat sched in
  In ev (hist s) -> retrieved ev = Some (Some b) ->
  exists first fin all, it_begin (buf_view (heap s b)) = Some first /\ it_finish (buf_view (heap s b)) = Some fin /\
    (forall fuel, length all < fuel -> iterate fuel (buf_view (heap s b)) first fin = Some all) /\
    (forall e l, In (e, l) all -> exists t, l = N.of_nat t /\ In (Stored t b e) (hist s)).
Proof.
  intros cap csz sc sched ev b Hc s Hi Hr. assert (R : reached cap csz sc s) by apply log_run_reached.
  pose proof (hb_ret _ (handed_over cap csz sc s R) ev b Hi Hr) as Hg.
  destruct (C21_iteration_exact (buf_view (heap s b))) as (first & fin & E1 & E2 & E3). exists first, fin, (contents (buf_view (heap s b))).
  repeat split; auto. intros e l Hx. apply (nothing_else cap csz sc Hc s b (e, l) R Hg Hx).
Qed.
Print Assumptions C50_nothing_else.

(** Fixed or ring: each chunk holds events which its thread stored one right
    after the other. *)
Theorem C50_chunks_are_runs : forall cap csz site_cat sched ev b i, (cap < 65536)%N ->
  let s := log_run cap csz site_cat sched in
  In ev (hist s) -> retrieved ev = Some (Some b) -> (i < v_count (buf_view (heap s b)))%N ->
  let c := v_chunk (buf_view (heap s b)) i in
  exists t pre post, c_tid c = N.of_nat t /\ stored_in (hist s) t b = pre ++ chunk_events c ++ post.
Proof.
  intros cap csz sc sched ev b i Hc s Hi Hr Hl c. assert (R : reached cap csz sc s) by apply log_run_reached.
  pose proof (hb_ret _ (handed_over cap csz sc s R) ev b Hi Hr) as Hg. apply (runs cap csz sc Hc); auto.
Qed.
Print Assumptions C50_chunks_are_runs.

(** Two threads fill three chunks of a fixed buffer between them. *)
Definition evt (n : N) : event := {| ev_tpi := ev_tpi event0; ev_args := (0, 0)%N; ev_time := n; ev_duration := 0 |}.
Definition mixed_run : list sact :=
  call 1 (ORegister $"one") CNone 9 ++ call 2 (ORegister $"two") CNone 9 ++ call 3 (OStart (setStoppedCallback cfgA None)) (CFixed 2 mem0) 30 ++
  call 1 (OLog (evt 1)) CNone 20 ++ call 2 (OLog (evt 2)) CNone 7 ++ call 1 (OLog (evt 3)) CNone 30 ++ repeat (Step 2 CNone) 20 ++
  call 2 (OLog (evt 4)) CNone 30 ++ call 1 (OLog (evt 5)) CNone 30 ++
  call 3 (OStop false) CNone 4 ++ repeat (Step 3 (CPick 2)) 4 ++ repeat (Step 3 (CPick 1)) 20 ++ call 3 OGetBuffer CNone 9.

Example C50_case :
  let h := demo mixed_run in
  (map ev_time (stored_in h 1 0), map ev_time (stored_in h 2 0)) = ([1; 3; 5], [2; 4])%N /\
  existsb (fun e => match retrieved e with Some (Some 0) => true | _ => false end) h = true.
Proof. vm_compute. split; reflexivity. Qed.
