(** The category registry and the status check of trace points with the memory
    orders written in the code, on the memory of Model/WeakMem.v. *)
From Verif Require Import Base Spec.Categories Spec.CategoryHistory Spec.SwitchHistory Model.StringUtils Model.Queue
  Model.Interleave Model.Registry Model.RegistryConc Model.WeakMem Model.WeakRegistry
  Proofs.Interleave Proofs.WeakMem Proofs.WeakRegistry.
Local Open Scope nat_scope.

(** A trace point of category "c" run for the first time by thread [t] (nothing
    else registered), later runs of it reading status number [c], and
    updateEnabled({"c"}, {}) by thread [t]. *)
Definition first_trace (t : tid) : list wract := WCallTrace t 0 :: repeat (WRGo t 0 0 1) 18.
Definition later_trace (t : tid) (c : nat) : list wract := [WCallTrace t 0; WRGo t 0 0 0; WRGo t c 0 0].
Definition switch_on (t : tid) : list wract :=
  WCallSwitch t (Some ([$"c"], [])) :: repeat (WRGo t 0 0 1) 6 ++ [WRGo t 0 1 2; WRGo t 0 0 0; WRGo t 0 0 0].

(** C77: with the orders in category_registry.cc and phosphor-internal.h no two
    accesses to a group name or to the category lists race, slots are handed out
    at most once, and getStatus and trace points use the slot of the category
    asked for (slot 1 once all 250 are taken by others). *)
Theorem C77_registry_race_free : forall site_cat sched,
  let r := wregistry_run site_cat sched in
  let h := wr_hist r in
  let right_slot name slot :=
    nth_error (groups_of h) slot = Some name \/
    (slot = 1 /\ length (groups_of h) = 250 /\ ~ In name (groups_of h)) in
  races (wr_mem r) = [] /\ length (groups_of h) <= 250 /\ NoDup (groups_of h) /\
  (forall a t g i b, h = a ++ SRegistered t g i :: b -> i = length (groups_of a)) /\
  (forall t name slot, In (SGiven t name slot) h -> right_slot name slot) /\
  (forall t site slot on, In (STraced t site slot on) h -> right_slot (c_str (site_cat site)) slot).
Proof.
  intros sc sched r h rs. destruct (wregistry_run_inv sc sched) as (ver & sees & [I T _ _]). fold r in I, T. fold h in I, T.
  split; [exact (v_race _ _ _ _ _ I)|]. split; [apply (v_bnd _ _ _ _ _ I)|]. split; [exact (v_nodup _ _ _ _ _ I)|].
  split; [exact (v_reg _ _ _ _ _ I)|]. split; [exact (v_given _ _ _ _ _ I)|].
  intros t s i on X. apply In_nth_error in X as (j & X). destruct (T j t s i on X) as (g & S & _). exact S.
Qed.
Print Assumptions C77_registry_race_free.

(** Threads 1 and 3 meet the same trace point for the first time, both having
    found no slot for it; thread 1 registers it, thread 3 finds it under the
    mutex and both end up with slot 3. *)
Example C77_case :
  let site_cat (_ : nat) := $"c" in
  let sched := [WCallTrace 3 0] ++ repeat (WRGo 3 0 0 1) 6 ++ first_trace 1 ++ repeat (WRGo 3 0 0 0) 7
               ++ [WRGo 3 0 1 2; WRGo 3 0 0 0] in
  let r := wregistry_run site_cat sched in
  wr_hist r = [SAsked 3 $"c"; SAsked 1 $"c"; SRegistered 1 $"c" 3; SGiven 1 $"c" 3; STraced 1 0 3 false;
               SGiven 3 $"c" 3; STraced 3 0 3 false] /\
  races (wr_mem r) = [] /\ length (accs (wr_mem r)) = 16.
Proof. vm_compute. repeat split; reflexivity. Qed.

(** C78: the calls of updateEnabled and disableAll take places in one order, and
    every check of a status by a trace point sees the setting made by one of
    those placed so far (or the initial one). That is not older than

    - the setting in force when the category was registered;
    - any setting whose call returned in a thread from which the tracing thread
      has heard since (happens-before);
    - any setting of that category seen by such a thread in a trace point. *)
Theorem C78_trace_sees_a_setting : forall site_cat sched, exists sees : nat -> nat,
  let run := wregistry_run site_cat in
  let h := wr_hist (run sched) in
  (forall j t site slot on, nth_error h j = Some (STraced t site slot on) -> exists g,
     nth_error (groups_of h) slot = Some g /\
     sees j <= length (switches (firstn j h)) /\
     (on = true <-> on_by (setting h (sees j)) g) /\
     (forall n, registered_after h slot n -> n <= sees j)) /\
  (forall s1 s2 s3 j t site slot on u,
     sched = s1 ++ s2 ++ s3 ->
     j = length (wr_hist (run (s1 ++ s2))) ->
     nth_error h j = Some (STraced t site slot on) ->
     (forall y, (ts (seen (wr_mem (run s1)) u) y <= ts (seen (wr_mem (run (s1 ++ s2))) t) y)%N) ->
     (forall a l b c, wr_hist (run s1) = a ++ SPlaced u l :: b ++ SSwitched u :: c -> S (length (switches a)) <= sees j) /\
     (forall i site' on', nth_error (wr_hist (run s1)) i = Some (STraced u site' slot on') -> sees i <= sees j)).
Proof.
  intros sc sched. destruct (wregistry_run_inv sc sched) as (ver & sees & R). exists sees. cbv zeta. split.
  - intros j t s i on X. destruct (n_traced _ _ _ _ R j t s i on X) as (g & _ & A). exists g. exact A.
  - intros s1 s2 s3 j t s i on u E Ej X V. split.
    + intros a l b c Eh. destruct (n_traced _ _ _ _ R j t s i on X) as (g & _ & G & _ & _ & Q).
      destruct (slot_registered sc sched ver sees i g R G) as (q & Hq). specialize (Q q Hq).
      destruct (Nat.le_gt_cases q (length (switches a))) as [L|L]; [|lia].
      apply (n_heard _ _ _ _ R s1 s2 s3 j t s i on u); auto. eapply learned_switch; eauto.
      destruct (wrun_prefix sc s1 (s2 ++ s3)) as (e & Ee). rewrite E, Ee in Hq. apply (registered_before sc _ _ _ _ Hq). unfold nsw.
      rewrite Eh, switches_app, app_length. cbn. rewrite switches_app, app_length. lia.
    + intros j' s' on' X'. apply (n_heard _ _ _ _ R s1 s2 s3 j t s i on u); auto. eapply learned_trace; eauto.
Qed.
Print Assumptions C78_trace_sees_a_setting.

(** What a thread has heard of stays heard: in particular a thread's own calls
    and trace points. *)
Theorem C78_own_past_is_heard : forall site_cat s1 s2 t y,
  (ts (seen (wr_mem (wregistry_run site_cat s1)) t) y <= ts (seen (wr_mem (wregistry_run site_cat (s1 ++ s2))) t) y)%N.
Proof. intros sc s1 s2 t y. apply wrun_seen. Qed.
Print Assumptions C78_own_past_is_heard.

(** A trace point need not see a call that has returned in another thread: it
    may still find the category off. *)
Theorem C78_latest_setting_refuted : exists site_cat sched before after t site slot g,
  let h := wr_hist (wregistry_run site_cat sched) in
  h = before ++ STraced t site slot false :: after /\
  In (SSwitched 2) before /\ nth_error (groups_of h) slot = Some g /\
  on_by (setting before (length (switches before))) g.
Proof.
  exists (fun _ => $"c"), (first_trace 1 ++ switch_on 2 ++ later_trace 1 1),
    [SAsked 1 $"c"; SRegistered 1 $"c" 3; SGiven 1 $"c" 3; STraced 1 0 3 false; SPlaced 2 (Some ([$"c"], [])); SSwitched 2],
    [], 1, 0, 3, $"c".
  split; [vm_compute; reflexivity|]. split; [cbn; auto 8|]. split; [vm_compute; reflexivity|].
  cbn. apply Proofs.Registry.calculateEnabled_spec. vm_compute. reflexivity.
Qed.
Print Assumptions C78_latest_setting_refuted.

(** Thread 1 misses the switch of thread 2 once, then sees it, and from then on
    cannot go back: the last reading of the old status is not possible. *)
Example C78_case :
  let site_cat (_ : nat) := $"c" in
  let sched := first_trace 1 ++ switch_on 2 ++ later_trace 1 1 ++ later_trace 1 0 ++ later_trace 1 1 in
  wr_hist (wregistry_run site_cat sched) =
    [SAsked 1 $"c"; SRegistered 1 $"c" 3; SGiven 1 $"c" 3; STraced 1 0 3 false; SPlaced 2 (Some ([$"c"], []));
     SSwitched 2; STraced 1 0 3 false; STraced 1 0 3 true] /\
  wr_pc (wregistry_run site_cat sched) 1 = TStatus 0 3.
Proof. vm_compute. split; reflexivity. Qed.

(** Thread 2, which made the switch, sees it at once. *)
Example C78_own_case :
  let site_cat (_ : nat) := $"c" in
  let sched := first_trace 1 ++ switch_on 2 ++ later_trace 2 1 ++ [WRGo 2 0 0 0] in
  wr_hist (wregistry_run site_cat sched) =
    [SAsked 1 $"c"; SRegistered 1 $"c" 3; SGiven 1 $"c" 3; STraced 1 0 3 false; SPlaced 2 (Some ([$"c"], []));
     SSwitched 2; STraced 2 0 3 true].
Proof. vm_compute. reflexivity. Qed.
