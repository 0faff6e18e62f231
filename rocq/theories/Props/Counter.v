(** C106: RelaxedAtomic counters used by several threads at once. *)
From Verif Require Import Base Spec.Counter Model.Interleave Model.WeakMem Model.Counter Proofs.Interleave Proofs.WeakMem Proofs.Counter.
Local Open Scope N_scope.

(** Counting is exact: every ++ and -- of a counter that is never assigned to is given what
    all those before it, by whichever threads, make the counter, before it (postfix) or
    after it (prefix). *)
Theorem C106_exact : forall init sched x, let h := c_hist (crun init sched) in never_assigned x h ->
  forall p t o v q, h = p ++ CDid t x o v :: q ->
    ((o = CPostInc \/ o = CPostDec) -> v = tally (init x) x p) /\
    ((o = CPreInc \/ o = CPreDec) -> v = tally (init x) x (p ++ [CDid t x o v])).
Proof.
  intros init sched x h NA p t o v q E. destruct (CI_run init sched x NA) as (P & r & C). fold h in C.
  assert (nth_error h (length p) = Some (CDid t x o v)) as N by (rewrite E, nth_error_app2, Nat.sub_diag by auto; auto).
  assert (firstn (length p) h = p) as F0 by (rewrite E, firstn_app, Nat.sub_diag, firstn_all; apply app_nil_r).
  assert (firstn (S (length p)) h = p ++ [CDid t x o v]) as F1.
  { rewrite E, firstn_app. replace (S (length p) - length p)%nat with 1%nat by lia. rewrite firstn_all2 by lia. auto. }
  split; (intros [-> | ->]; destruct (ci_change _ _ _ _ _ _ C _ _ _ _ N I) as (_ & A); rewrite F0, F1 in A; exact A).
Qed.
Print Assumptions C106_exact.

(** A read is given what the counter was at some moment before it: never before a change
    that the thread knows of, and never before what was read by a read that it knows of. *)
Theorem C106_read : forall init sched x, let h := c_hist (crun init sched) in never_assigned x h ->
  exists upto : nat -> nat, forall i t v, nth_error h i = Some (CDid t x CRead v) ->
    (upto i <= i)%nat /\ v = tally (init x) x (firstn (upto i) h) /\
    forall j, heard (firstn i h) t j -> forall u o w, nth_error h j = Some (CDid u x o w) ->
      (changes o -> (j < upto i)%nat) /\ (o = CRead -> (upto j <= upto i)%nat).
Proof.
  intros init sched x h NA. destruct (CI_run init sched x NA) as (P & r & C). fold h in C. exists r.
  intros i t v N. destruct (ci_read _ _ _ _ _ _ C i t v N) as (A & B & D). split; auto. split; auto.
  intros j Hj u o w Nj. assert (r j <= r i)%nat as L by (apply D; auto; exists u, o, w; auto).
  split; auto. intros K. destruct (ci_change _ _ _ _ _ _ C j u o w Nj K) as (E & _). lia.
Qed.
Print Assumptions C106_read.

Lemma net_const x : forall l, (forall j t o v, nth_error l j = Some (CDid t x o v) -> ~ changes o) -> net x l = 0%Z.
Proof.
  induction l as [|[t y o v|t u] l IH]; intros H; cbn; auto.
  - rewrite IH by (intros j; apply (H (S j))). destruct (N.eqb_spec y x) as [->|]; [|lia].
    specialize (H O t o v eq_refl). destruct o; cbn in *; auto; tauto.
  - apply IH. intros j. apply (H (S j)).
Qed.

(** A thread that knows of all changes so far (having joined all others, say) reads exactly
    what was counted. *)
Theorem C106_joined : forall init sched x, let h := c_hist (crun init sched) in never_assigned x h ->
  forall i t v, nth_error h i = Some (CDid t x CRead v) ->
    (forall j u o w, (j < i)%nat -> nth_error h j = Some (CDid u x o w) -> changes o -> heard (firstn i h) t j) ->
    v = tally (init x) x (firstn i h).
Proof.
  intros init sched x h NA i t v N K. destruct (C106_read init sched x NA) as (upto & R). fold h in R.
  destruct (R i t v N) as (A & -> & B). unfold tally. do 3 f_equal.
  replace (firstn i h) with (firstn (upto i) h ++ skipn (upto i) (firstn i h)).
  - rewrite net_app, (net_const x (skipn _ _)); [lia|]. intros j u o w Nj Ch.
    assert (nth_error (firstn i h) (upto i + j) = Some (CDid u x o w)) as Nj'.
    { revert Nj. generalize (firstn i h) (upto i). clear. intros l k. revert l.
      induction k as [|k IH]; intros [|e l]; cbn; auto. now destruct j. }
    assert (upto i + j < i)%nat as L.
    { assert (upto i + j < length (firstn i h))%nat by (apply nth_error_Some; congruence). rewrite firstn_length in *. lia. }
    assert (nth_error h (upto i + j) = Some (CDid u x o w)) as Nh.
    { rewrite <- Nj'. rewrite <- (firstn_skipn i h) at 1. apply nth_error_app1. apply nth_error_Some. congruence. }
    pose proof (K _ _ _ _ L Nh Ch) as Hd. destruct (B _ Hd _ _ _ Nh) as (X & _). specialize (X Ch). lia.
  - rewrite <- (firstn_skipn (upto i) (firstn i h)) at 2. rewrite firstn_firstn. now replace (Nat.min (upto i) i) with (upto i) by lia.
Qed.
Print Assumptions C106_joined.

(** What is given out by x++ is given out once, as long as x is only counted up, and not
    2^64 times. *)
Theorem C106_tickets : forall init sched x, let h := c_hist (crun init sched) in never_assigned x h ->
  (forall t o v, In (CDid t x o v) h -> o <> CPreDec /\ o <> CPostDec) -> (net x h < 2 ^ 64)%Z ->
  forall i j t u v, nth_error h i = Some (CDid t x CPostInc v) -> nth_error h j = Some (CDid u x CPostInc v) -> i = j.
Proof.
  intros init sched x h NA UP FEW.
  assert (forall l, (forall t o v, In (CDid t x o v) l -> o <> CPreDec /\ o <> CPostDec) -> (0 <= net x l)%Z) as POS.
  { induction l as [|[t y o v|t u] l IH]; intros H; cbn [net]; [lia| |apply IH; intros; eapply H; right; eauto].
    assert (0 <= net x l)%Z by (apply IH; intros; eapply H; right; eauto).
    destruct (N.eqb_spec y x) as [->|]; [|lia]. destruct (H t o v) as (A & B); [now left|]. destruct o; cbn [delta]; try lia; congruence. }
  assert (forall i j t u v, (i < j)%nat -> nth_error h i = Some (CDid t x CPostInc v) -> nth_error h j = Some (CDid u x CPostInc v) -> False) as LT.
  { intros i j t u v L Ni Nj. apply nth_error_split in Nj as (p & q & E & Lp). subst j.
    destruct (C106_exact init sched x NA p u CPostInc v q E) as (V & _). specialize (V (or_introl eq_refl)).
    rewrite E, nth_error_app1 in Ni by auto. apply nth_error_split in Ni as (p' & q' & E' & Li).
    destruct (C106_exact init sched x NA p' t CPostInc v (q' ++ CDid u x CPostInc v :: q)) as (V' & _).
    { fold h. now rewrite E, E', <- app_assoc. }
    specialize (V' (or_introl eq_refl)). rewrite V' in V at 1. unfold tally in V.
    apply Z2N.inj in V; [|apply Z.mod_pos_bound; lia|apply Z.mod_pos_bound; lia].
    assert (net x p = net x p' + 1 + net x q')%Z as Np by (rewrite E', net_app; cbn [net]; rewrite N.eqb_refl; cbn [delta]; lia).
    assert (net x h = net x p + (1 + net x q))%Z as Nh by (rewrite E, net_app; cbn [net]; rewrite N.eqb_refl; cbn [delta]; lia).
    assert (0 <= net x p' /\ 0 <= net x q' /\ 0 <= net x q)%Z as (Z1 & Z2 & Z3).
    { split; [|split]; apply POS; intros t' o' v' I; apply (UP t' o' v'); rewrite E, ?E', ?in_app_iff; cbn; rewrite ?in_app_iff; cbn; auto. }
    rewrite Np in V. set (a := (Z.of_N (init x) + net x p')%Z) in *.
    assert ((1 + net x q') mod 2 ^ 64 = 0)%Z as M.
    { replace (1 + net x q')%Z with ((Z.of_N (init x) + (net x p' + 1 + net x q')) - a)%Z by (unfold a; lia).
      rewrite Zminus_mod, <- V, Z.sub_diag. reflexivity. }
    rewrite Z.mod_small in M by lia. lia. }
  intros i j t u v Ni Nj. destruct (Nat.lt_trichotomy i j) as [L|[L|L]]; auto; exfalso; eauto.
Qed.
Print Assumptions C106_tickets.

(** However a counter is used, assignments included, there is one order of all that is done
    to it: changes and assignments each have a place of their own in it, a change finds what
    the one next before it left, a read is given what one left, or what was there at first,
    and what a thread knows of comes before what it does. *)
Theorem C106_one_order : forall init sched x, let h := c_hist (crun init sched) in
  exists at_time : nat -> N,
    (forall i t o v, nth_error h i = Some (CDid t x o v) -> modifying o -> 0 < at_time i) /\
    (forall i j t u o o' v w, nth_error h i = Some (CDid t x o v) -> nth_error h j = Some (CDid u x o' w) ->
      modifying o -> modifying o' -> at_time i = at_time j -> i = j) /\
    (forall i t v, nth_error h i = Some (CDid t x CRead v) -> holds_from (init x mod 2 ^ 64) x h at_time (at_time i) v) /\
    (forall i t o v, nth_error h i = Some (CDid t x o v) -> changes o ->
      exists n b, n < at_time i /\ holds_from (init x mod 2 ^ 64) x h at_time n b /\ v = given o b /\
        forall k u o' w, nth_error h k = Some (CDid u x o' w) -> modifying o' -> ~ (n < at_time k < at_time i)) /\
    (forall i t o v j u o' w, nth_error h i = Some (CDid t x o v) -> nth_error h j = Some (CDid u x o' w) ->
      heard (firstn i h) t j -> at_time j <= at_time i /\ (modifying o -> at_time j < at_time i)).
Proof.
  intros init sched x h. destruct (OI_run init sched x) as (_ & tau & O). fold h in O. exists tau.
  split; [apply O|]. split; [apply O|]. split; [apply O|]. split; [|apply O].
  intros i t o v N K. destruct (oi_rmw _ _ _ _ _ O i t o v N K) as (n & b & A & B & g & G & Fr & To). exists n, b.
  assert (modifying o) as M by (intros ->; destruct K). pose proof (oi_pos _ _ _ _ _ O i t o v N M) as Ps.
  split; [destruct (oi_wf _ _ _ _ _ O g G); lia|]. split; auto. split; auto.
  intros k u o' w Nk Mk (L1 & L2). destruct (oi_own _ _ _ _ _ O k u o' w Nk) as (g' & G' & T').
  pose proof (oi_apart _ _ _ _ _ O g' g G' G). lia.
Qed.
Print Assumptions C106_one_order.

(** Assigned to or not, a counter that is used in turn, each user knowing of all uses before
    (one thread only, or handed over under a mutex), is an ordinary variable. *)
Theorem C106_in_turn : forall init sched x, let h := c_hist (crun init sched) in in_turn x h ->
  forall p t o v q, h = p ++ CDid t x o v :: q ->
    match o with
    | CRead | CPostInc | CPostDec => v = holds x (init x mod 2 ^ 64) p
    | CPreInc | CPreDec => v = holds x (init x mod 2 ^ 64) (p ++ [CDid t x o v])
    | CAssign => True
    end.
Proof. intros init sched x h IT p t o v q E. exact (proj2 (proj2 (TI_run init sched x IT)) p _ q E eq_refl). Qed.
Print Assumptions C106_in_turn.

(** But assigning is not counting: of two threads that each do x = x + 1 one may be lost ... *)
Theorem C106_assign_loses_refuted : exists init sched t u,
  t <> u /\ c_hist (crun init sched) = [CDid t 0 CRead 0; CDid u 0 CRead 0; CDid t 0 CAssign 1; CDid u 0 CAssign 1; CSynced t u; CDid t 0 CRead 1].
Proof.
  exists (fun _ => 0), [RLoad 0%nat 0 0; RLoad 1%nat 0 0; RSet 0%nat 0 1 0 1; RSet 1%nat 0 1 1 2; RSync 0%nat 1%nat; RLoad 0%nat 0 0], 0%nat, 1%nat.
  split; [lia|]. vm_compute. reflexivity.
Qed.
Print Assumptions C106_assign_loses_refuted.

(** ... of two assignments by different threads the one made later may be the one that is
    overwritten, as the next ++ shows ... *)
Theorem C106_assign_order_refuted : exists init sched,
  c_hist (crun init sched) = [CDid 0 0 CAssign 5; CDid 1 0 CAssign 7; CDid 2 0 CPreInc 6; CSynced 1 2; CDid 1 0 CRead 6].
Proof.
  exists (fun _ => 0), [RSet 0%nat 0 5 2 3; RSet 1%nat 0 7 1 2; RPreInc 2%nat 0 1 4; RSync 1%nat 2%nat; RLoad 1%nat 0 0]. vm_compute. reflexivity.
Qed.
Print Assumptions C106_assign_order_refuted.

(** ... and a counter orders nothing else: that one sees it counted up does not mean that
    one sees what was done before, be it another counter or plain data. *)
Theorem C106_orders_nothing_refuted : exists init sched,
  c_hist (crun init sched) = [CDid 0 0 CPreInc 1; CDid 0 1 CPreInc 1; CDid 1 1 CRead 1; CDid 1 0 CRead 0].
Proof.
  exists (fun _ => 0), [RPreInc 0%nat 0 0 1; RPreInc 0%nat 1 0 1; RLoad 1%nat 1 0; RLoad 1%nat 0 1]. vm_compute. reflexivity.
Qed.
Print Assumptions C106_orders_nothing_refuted.
Theorem C106_publishes_nothing_refuted : exists init sched,
  c_hist (crun init sched) = [CDid 0 0 CPreInc 1; CDid 1 0 CRead 1] /\ races (c_mem (crun init sched)) = [user_var 0].
Proof.
  exists (fun _ => 0), [RUse 0%nat 0 true; RPreInc 0%nat 0 0 1; RLoad 1%nat 0 0; RUse 1%nat 0 false]. vm_compute. auto.
Qed.
Print Assumptions C106_publishes_nothing_refuted.

(** Two threads count two counters up and down, past zero; a third reads an old value, and
    the exact one after joining them. *)
Definition ctr_sched : list cact :=
  [RPostInc 0%nat 0 0 1; RPreInc 1%nat 0 0 2; RPreDec 1%nat 5 0 1; RLoad 2%nat 0 2; RPostInc 1%nat 0 0 3; RFrom 0%nat 7 0 0; RPut 0%nat 0 1;
   RSync 2%nat 0%nat; RSync 2%nat 1%nat; RLoad 2%nat 0 0; RLoad 2%nat 0 1; RPostDec 2%nat 5 0 2].
Definition ctr_hist : list cevent := c_hist (crun (fun _ => 0) ctr_sched).
Example C106_case :
  ctr_hist = [CDid 0 0 CPostInc 0; CDid 1 0 CPreInc 2; CDid 1 5 CPreDec (2 ^ 64 - 1); CDid 2 0 CRead 0; CDid 1 0 CPostInc 2;
              CDid 0 0 CRead 3; CDid 0 7 CAssign 3; CSynced 2 0; CSynced 2 1; CDid 2 0 CRead 3; CDid 2 5 CPostDec (2 ^ 64 - 1)] /\
  never_assigned 0 ctr_hist /\ never_assigned 5 ctr_hist /\ net 0 ctr_hist = 3%Z /\
  tally 0 0 (firstn 9 ctr_hist) = 3 /\ tally 0 5 ctr_hist = 2 ^ 64 - 2 /\
  (forall t o v, In (CDid t 0 o v) ctr_hist -> o <> CPreDec /\ o <> CPostDec) /\
  (forall j u o w, (j < 9)%nat -> nth_error ctr_hist j = Some (CDid u 0 o w) -> changes o -> heard (firstn 9 ctr_hist) 2%nat j).
Proof.
  assert (ctr_hist = [CDid 0 0 CPostInc 0; CDid 1 0 CPreInc 2; CDid 1 5 CPreDec (2 ^ 64 - 1); CDid 2 0 CRead 0; CDid 1 0 CPostInc 2;
              CDid 0 0 CRead 3; CDid 0 7 CAssign 3; CSynced 2 0; CSynced 2 1; CDid 2 0 CRead 3; CDid 2 5 CPostDec (2 ^ 64 - 1)]) as E
    by (vm_compute; reflexivity).
  split; [exact E|]. rewrite E. clear E.
  split; [intros t v H; cbn in H; intuition discriminate|].
  split; [intros t v H; cbn in H; intuition discriminate|].
  do 3 (split; [reflexivity|]).
  split; [intros t o v H; cbn in H; intuition congruence|].
  intros j u o w L N C. cbn [firstn].
  change (heard (([CDid 0 0 CPostInc 0; CDid 1 0 CPreInc 2; CDid 1 5 CPreDec (2 ^ 64 - 1); CDid 2 0 CRead 0; CDid 1 0 CPostInc 2;
    CDid 0 0 CRead 3; CDid 0 7 CAssign 3] ++ [CSynced 2 0]) ++ [CSynced 2 1]) 2%nat j).
  destruct j as [|[|[|[|[|[|[|[|[|j]]]]]]]]]; try lia; cbn [nth_error] in N; try discriminate; injection N as <- <- <-; try contradiction.
  - apply heard_keep, heard_sync.
    do 6 (match goal with |- heard ?l _ _ => rewrite (app_removelast_last (CSynced 0 0) (l := l)) by discriminate; cbn [removelast last] end;
          apply heard_keep).
    apply (heard_own [] 0 0 CPostInc 0).
  - apply heard_sync, heard_keep.
    do 5 (match goal with |- heard ?l _ _ => rewrite (app_removelast_last (CSynced 0 0) (l := l)) by discriminate; cbn [removelast last] end;
          apply heard_keep).
    apply (heard_own [CDid 0 0 CPostInc 0] 1 0 CPreInc 2).
  - apply heard_sync, heard_keep.
    do 2 (match goal with |- heard ?l _ _ => rewrite (app_removelast_last (CSynced 0 0) (l := l)) by discriminate; cbn [removelast last] end;
          apply heard_keep).
    apply (heard_own [CDid 0 0 CPostInc 0; CDid 1 0 CPreInc 2; CDid 1 5 CPreDec (2 ^ 64 - 1); CDid 2 0 CRead 0] 1 0 CPostInc 2).
Qed.

Definition turn_hist : list cevent :=
  c_hist (crun (fun _ => 4) [RSet 0%nat 3 7 0 1; RPostInc 0%nat 3 0 2; RSync 1%nat 0%nat; RLoad 1%nat 3 1; RFrom 1%nat 3 9 0; RPut 1%nat 5 6; RPreDec 1%nat 3 0 8]).
Example C106_case_turn :
  turn_hist = [CDid 0 3 CAssign 7; CDid 0 3 CPostInc 7; CSynced 1 0; CDid 1 9 CRead 4; CDid 1 3 CAssign 4; CDid 1 3 CPreDec 3] /\
  in_turn 3 turn_hist /\ holds 3 4 (firstn 2 turn_hist) = 8 /\ holds 3 4 turn_hist = 3.
Proof.
  assert (turn_hist = [CDid 0 3 CAssign 7; CDid 0 3 CPostInc 7; CSynced 1 0; CDid 1 9 CRead 4; CDid 1 3 CAssign 4; CDid 1 3 CPreDec 3]) as E
    by (vm_compute; reflexivity).
  split; [exact E|]. rewrite E. clear E. split; [|split; reflexivity].
  assert (forall j, (j < 2)%nat -> heard [CDid 0 3 CAssign 7; CDid 0 3 CPostInc 7] 0%nat j) as H0.
  { intros [|[|j]] L; [| |lia].
    - apply (heard_keep [CDid 0 3 CAssign 7]), (heard_own []).
    - apply (heard_own [CDid 0 3 CAssign 7]). }
  assert (forall j, (j < 2)%nat -> heard [CDid 0 3 CAssign 7; CDid 0 3 CPostInc 7; CSynced 1 0; CDid 1 9 CRead 4] 1%nat j) as H1.
  { intros j L. apply (heard_keep [CDid 0 3 CAssign 7; CDid 0 3 CPostInc 7; CSynced 1 0]), (heard_sync [CDid 0 3 CAssign 7; CDid 0 3 CPostInc 7]), H0, L. }
  intros p t o v q E j u o' v' N.
  destruct p as [|e0 p]; [destruct j; discriminate|]. injection E as <- E.
  destruct p as [|e0 p]; [injection E as <- <- <- <-; destruct j as [|[|j]]; try discriminate; apply (heard_own [])|]. injection E as <- E.
  destruct p as [|e0 p]; [discriminate|]. injection E as <- E.
  destruct p as [|e0 p]; [discriminate|]. injection E as <- E.
  destruct p as [|e0 p]; [injection E as <- <- <- <-; destruct j as [|[|[|[|[|j]]]]]; try discriminate; apply H1; lia|]. injection E as <- E.
  destruct p as [|e0 p]; [|injection E as _ E; destruct p; discriminate].
  injection E as <- <- <- <-.
  destruct j as [|[|[|[|[|[|j]]]]]]; try discriminate;
    try (apply (heard_keep [CDid 0 3 CAssign 7; CDid 0 3 CPostInc 7; CSynced 1 0; CDid 1 9 CRead 4]), H1; lia).
  apply (heard_own [CDid 0 3 CAssign 7; CDid 0 3 CPostInc 7; CSynced 1 0; CDid 1 9 CRead 4]).
Qed.

(** Two assignments whose order is not that of their making; see C106_assign_order_refuted. *)
Example C106_case_order :
  let h := c_hist (crun (fun _ => 0) [RSet 0%nat 0 5 2 3; RSet 1%nat 0 7 1 2; RPreInc 2%nat 0 1 4]) in
  h = [CDid 0 0 CAssign 5; CDid 1 0 CAssign 7; CDid 2 0 CPreInc 6] /\
  let at_time i := nth i [3; 2; 4] 0 in holds_from 0 0 h at_time 3 5 /\ given CPreInc 5 = 6.
Proof.
  split; [vm_compute; reflexivity|]. split; [|reflexivity]. right. exists 0%nat, 0%nat, CAssign, 5.
  split; [vm_compute; reflexivity|]. split; [discriminate|]. split; reflexivity.
Qed.
