(** C33, C68: the category registry used by any number of threads. *)
From Verif Require Import Base Spec.Glob Spec.Text Spec.Categories Spec.CategoryHistory Model.StringUtils Model.Interleave
  Model.Registry Model.RegistryConc Proofs.Strings Proofs.Registry Proofs.Interleave Proofs.RegistryConc.

(** No thread is ever about to touch a group name or the category lists while
    another is about to write them, and no thread has read a half-written
    name. *)
Theorem C33_no_race : forall sched,
  let r := cregistry_run sched in
  (forall t u loc w, t <> u -> In (loc, true) (r_access r t) -> ~ In (loc, w) (r_access r u)) /\
  (forall t, cr_pc r t <> GCrash).
Proof.
  intros sched r. pose proof (rinv_run sched) as I. fold r in I. split.
  2: { intros t E. pose proof (r_pcs _ I t) as P. now rewrite E in P. }
  intros t u loc w Ne A B. pose proof (r_pcs _ I t) as Pt. pose proof (r_pcs _ I u) as Pu.
  assert (locked (cr_pc r t) = true) as Lt.
  { unfold r_access in A. destruct (cr_pc r t) as [| | | | | | | | | | | | | |[|] | |]; try reflexivity; try contradiction A;
      match type of A with context [if ?b then _ else _] => destruct b end; cbn in A; intuition discriminate. }
  pose proof (others_out r t I Lt u (fun E => Ne (eq_sym E))) as Lu.
  unfold r_access in A, B. destruct (cr_pc r u) as [| |nm i n| | | | | | | | | | | | | |]; try discriminate Lu; try contradiction B.
  cbn in Pu. destruct Pu as (_ & Pu). destruct (Nat.ltb_spec i n) as [Hi|Hi]; [|contradiction B].
  destruct B as [[= <- <-]|[]].
  destruct (cr_pc r t) as [| | | | |nm' i' n'|nm' i'|nm' i'|nm' i'| | | | | |[|] i' n'| |]; try discriminate Lt; cbn [pc_ok] in Pt;
    try (destruct (i' <? n')); cbn [In] in A; try contradiction A; repeat destruct A as [A|A]; try contradiction A; try discriminate A.
  - injection A as ->. lia.
  - injection A as ->. lia.
Qed.
Print Assumptions C33_no_race.

(** At any moment the registered groups are distinct, there are at most 250,
    and every call that has returned was given the slot that holds its group;
    only when 250 other groups are registered is it given the overflow slot. *)
Theorem C33_right_slot : forall sched,
  let r := cregistry_run sched in
  cr_count r <= 250 /\
  (forall i j g, i < cr_count r -> j < cr_count r -> cr_groups r i = Some g -> cr_groups r j = Some g -> i = j) /\
  (forall t name i, In (Given t name i) (cr_hist r) ->
     (i < cr_count r /\ cr_groups r i = Some name) \/
     (cr_groups r i = Some overflow_name /\ cr_count r = 250 /\ forall k, k < 250 -> cr_groups r k <> Some name)).
Proof.
  intros sched r. pose proof (rinv_run sched) as I. fold r in I. split; [apply I|]. split.
  - intros i j g Hi Hj A B. apply (r_distinct _ I); auto. congruence.
  - intros t name i Hi. destruct (r_hist _ I _ _ _ Hi) as [H|(-> & H & H')]; [now left|right].
    split; [|auto]. now rewrite (r_builtin _ I 1) by lia.
Qed.
Print Assumptions C33_right_slot.

(** Nobody waits for ever: a thread inside a call can move, or the thread that
    holds the mutex can. *)
Theorem C33_no_deadlock : forall sched t,
  let r := cregistry_run sched in
  cr_pc r t <> GIdle -> exists u, rstep r (RGo u) <> None /\ (u = t \/ cr_mutex r = Some u).
Proof.
  intros sched t r H. pose proof (rinv_run sched) as I. fold r in I.
  assert (forall u, locked (cr_pc r u) = true -> rstep r (RGo u) <> None) as L.
  { intros u Lu. cbn [rstep]. destruct (cr_pc r u) as [| | | | | | | | | | | | | |[|] | |]; try discriminate Lu; try discriminate;
      repeat (match goal with |- context [if ?b then _ else _] => destruct b | |- context [match ?o with Some _ => _ | None => _ end] => destruct o end; try discriminate). }
  destruct (locked (cr_pc r t)) eqn:Lt; [exists t; auto|].
  pose proof (r_pcs _ I t) as P. 
  destruct (cr_mutex r) as [o|] eqn:Mx.
  - exists o. split; [|auto]. apply L. now apply (r_mutex _ I).
  - exists t. split; [|now left]. cbn [rstep]. rewrite ?Mx. destruct (cr_pc r t); try discriminate Lt; try discriminate; try contradiction.
    destruct (_ <? _); try discriminate. destruct (cr_groups r i); try discriminate. destruct (same_name _ _); discriminate.
Qed.
Print Assumptions C33_no_deadlock.

(** A lock-free lookup and two insertions of the same group, interleaved: one
    slot, both callers get it. *)
Example C33_case :
  let sched := [CallGet 1 $"k"; CallGet 2 $"k"] ++ repeat (RGo 1) 5 ++ repeat (RGo 2) 5 ++ repeat (RGo 1) 12 ++ repeat (RGo 2) 9 in
  let r := cregistry_run sched in
  cr_count r = 4 /\ cr_hist r = [Asked 1 $"k"; Asked 2 $"k"; Given 1 $"k" 3; Given 2 $"k" 3].
Proof. vm_compute. split; reflexivity. Qed.

(** C68: whenever no thread holds the registry's mutex, the status of every
    registered group is what the last finished updateEnabled / disableAll asks
    for, whatever insertions and lookups ran at the same time. *)
Theorem C68_statuses_current : forall sched i g,
  let r := cregistry_run sched in
  cr_mutex r = None -> i < cr_count r -> cr_groups r i = Some g ->
  (cr_status r i = true <-> on_by (last_switch (cr_hist r)) g).
Proof.
  intros sched i g r Mx Hi G. pose proof (rinv_run sched) as I. fold r in I.
  assert (forall u, switching (cr_pc r u) = false) as Calm.
  { intros u. destruct (switching (cr_pc r u)) eqn:X; auto. apply switching_locked in X. apply (r_mutex _ I) in X. congruence. }
  rewrite (r_status _ I Calm i Hi g G).
  destruct (r_lists _ I Calm) as [E|(-> & -> & ->)].
  - destruct (last_switch (cr_hist r)) as [(en, dis)|]; injection E as -> ->; cbn [on_by].
    + apply calculateEnabled_spec.
    + rewrite all_off. split; [discriminate|contradiction].
  - rewrite calculateEnabled_spec. split; [|contradiction]. intros (x & _ & (y & [] & _) & _).
Qed.
Print Assumptions C68_statuses_current.

(** An insertion waits for a running updateEnabled and sees its lists. *)
Example C68_case :
  let sched := [CallSwitch 1 (Some ([$"*"], [$"off"])); RGo 1; CallGet 2 $"off"; CallGet 3 $"on"] ++ repeat (RGo 2) 6
    ++ repeat (RGo 1) 7 ++ repeat (RGo 2) 11 ++ repeat (RGo 3) 30 in
  let r := cregistry_run sched in
  cr_mutex r = None /\ cr_count r = 5 /\ map (cr_status r) [0; 1; 2; 3; 4] = [true; true; true; false; true] /\
  last_switch (cr_hist r) = Some ([$"*"], [$"off"]).
Proof. vm_compute. repeat split; reflexivity. Qed.
