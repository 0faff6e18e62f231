(** C64, C65: scoped events and traced lock guards. *)
From Verif Require Import Base Model.StringUtils Model.Event Model.Guards Spec.Scope.

Lemma tsub_steady clock n m : steady clock -> n <= m -> tsub (clock m) (clock n) = Ok (clock m - clock n)%Z.
Proof.
  intros S L. destruct (S n m L) as (A & B). unfold tsub.
  replace ((- 2 ^ 63 <=? clock m - clock n) && (clock m - clock n <? 2 ^ 63))%Z with true by (symmetry; lia). reflexivity.
Qed.

Lemma plain_logs body : plain_body body -> log_calls body = [] /\ clock_reads body = [] /\ filter is_mutex body = [].
Proof.
  induction 1 as [|e body (A & B & C) _ (IH1 & IH2 & IH3)]; [repeat split|].
  unfold log_calls, clock_reads in *. cbn. rewrite A, B, IH1, IH2, IH3. destruct e; auto. now destruct (C now).
Qed.

Lemma log_calls_app a b : log_calls (a ++ b) = log_calls a ++ log_calls b.
Proof. apply filter_app. Qed.
Lemma clock_reads_app a b : clock_reads (a ++ b) = clock_reads a ++ clock_reads b.
Proof. apply flat_map_app. Qed.

(** Whatever the category status does later, the scope logs exactly one event if
    the category was on at entry and nothing otherwise. The event starts at the
    time read on entry, and start + duration is the time read on exit, after the
    scope's own code. With the category off the clock is not even read. *)
Theorem C64_scoped_event : forall clock status tpi a b body,
  steady clock -> plain_body body ->
  exists tr, trace_event clock status tpi a b body = Ok tr /\
  if status 0 then
    exists start duration,
      log_calls tr = [LogCall tpi start duration a b] /\ clock_reads tr = [start; (start + duration)%Z] /\ (0 <= duration)%Z /\
      exists before after, tr = before ++ body ++ after /\ clock_reads before = [start] /\ clock_reads after = [(start + duration)%Z]
  else log_calls tr = [] /\ clock_reads tr = [] /\ exists before after, tr = before ++ body ++ after.
Proof.
  intros clock status tpi a b body S B. destruct (plain_logs body B) as (B1 & B2 & B3).
  unfold trace_event, load, scoped_enter, scoped_leave, now. cbn [length app]. destruct (status 0); cbn [sg_enabled sg_start sg_tpi sg_a sg_b].
  - rewrite (tsub_steady clock 1) by (auto; rewrite !app_length; cbn; lia).
    set (n := length ([StatusRead true; ClockRead (clock 1)] ++ body)).
    assert (1 <= n) as Hn by (unfold n; rewrite !app_length; cbn; lia).
    eexists. split; [reflexivity|]. exists (clock 1), (clock n - clock 1%nat)%Z.
    replace (clock 1%nat + (clock n - clock 1%nat))%Z with (clock n) by lia.
    rewrite !log_calls_app, !clock_reads_app, B1, B2. clearbody n.
    split; [reflexivity|]. split; [reflexivity|]. split.
    + destruct (S 1 n Hn). lia.
    + exists [StatusRead true; ClockRead (clock 1)]. eexists. split; [now rewrite <- !app_assoc|]. split; reflexivity.
  - eexists. split; [reflexivity|]. rewrite log_calls_app, clock_reads_app, B1, B2. cbn. repeat split.
    exists [StatusRead false], []. now rewrite app_nil_r.
Qed.
Print Assumptions C64_scoped_event.

(** The category is switched off inside the scope; the event is still logged. *)
Example C64_case : trace_event (fun n => Z.of_nat (10 * n)) (fun n => Nat.eqb n 0) 7 1 2 [UserCode 5; UserCode 6] =
  Ok [StatusRead true; ClockRead 10; UserCode 5; UserCode 6; ClockRead 40; LogCall 7 10 30 1 2].
Proof. reflexivity. Qed.

(** The mutex is locked once, before the scope's code, and unlocked once, after
    it, whatever the category status. *)
Theorem C65_locks_once : forall clock status tw th m threshold body,
  steady clock -> plain_body body ->
  exists before between after,
    trace_lockguard clock status tw th m threshold body = Ok (before ++ [MutexLock] ++ between ++ body ++ [MutexUnlock] ++ after) /\
    filter is_mutex (before ++ between ++ body ++ after) = [] /\
    log_calls (before ++ between ++ body) = [].
Proof.
  intros clock status tw th m threshold body S B. destruct (plain_logs body B) as (B1 & B2 & B3).
  unfold trace_lockguard, load, mutex_enter, mutex_leave, now. cbn [length app]. destruct (status 0);
    cbn [mg_enabled mg_start mg_locked mg_wait mg_held mg_mutex mg_threshold].
  - rewrite (tsub_steady clock 1) by (auto; cbn; lia).
    rewrite tsub_steady by (auto; rewrite !app_length; cbn; lia).
    exists [StatusRead true; ClockRead (clock 1)], [ClockRead (clock 3)].
    destruct (_ || _); eexists; (split; [cbn; rewrite <- !app_assoc; reflexivity|]);
      rewrite ?log_calls_app, ?filter_app, ?B1, ?B3; split; reflexivity.
  - exists [StatusRead false], [], []. split; [cbn; rewrite <- ?app_assoc; reflexivity|].
    rewrite ?log_calls_app, ?filter_app, B1, B3. split; reflexivity.
Qed.
Print Assumptions C65_locks_once.

(** The two events are logged exactly when the category was on at entry and the
    waiting time or the holding time exceeds the threshold strictly. The wait
    event runs from before the lock to after it, the held event from there to
    after the unlock. *)
Theorem C65_logs_above_threshold : forall clock status tw th m threshold body tr,
  steady clock -> plain_body body -> trace_lockguard clock status tw th m threshold body = Ok tr ->
  if status 0 then
    exists asked locked released, clock_reads tr = [asked; locked; released] /\ (asked <= locked <= released)%Z /\
      log_calls tr = if ((threshold <? locked - asked) || (threshold <? released - locked))%Z
                     then [LogCall tw asked (locked - asked) m 0; LogCall th locked (released - locked) m 0] else []
  else clock_reads tr = [] /\ log_calls tr = [].
Proof.
  intros clock status tw th m threshold body tr S B E. destruct (plain_logs body B) as (B1 & B2 & B3).
  assert (forall z l, clock_reads (ClockRead z :: l) = z :: clock_reads l) as C1 by reflexivity.
  assert (forall b l, clock_reads (StatusRead b :: l) = clock_reads l) as C2 by reflexivity.
  assert (forall l, clock_reads (MutexLock :: l) = clock_reads l) as C3 by reflexivity.
  assert (forall z l, log_calls (ClockRead z :: l) = log_calls l) as L1 by reflexivity.
  assert (forall b l, log_calls (StatusRead b :: l) = log_calls l) as L2 by reflexivity.
  assert (forall l, log_calls (MutexLock :: l) = log_calls l) as L3 by reflexivity.
  unfold trace_lockguard, load, mutex_enter, mutex_leave, now in E. cbn [length app] in E. destruct (status 0);
    cbn [mg_enabled mg_start mg_locked mg_wait mg_held mg_mutex mg_threshold] in E.
  - rewrite (tsub_steady clock 1) in E by (auto; cbn; lia).
    rewrite tsub_steady in E by (auto; rewrite !app_length; cbn; lia).
    set (n := length (_ ++ [MutexUnlock])) in E.
    assert (3 <= n) as Hn by (unfold n; rewrite !app_length; cbn; lia).
    change (length (([StatusRead true] ++ [ClockRead (clock 1)]) ++ [MutexLock])) with 3 in E.
    exists (clock 1), (clock 3), (clock n). destruct (S 1 3 ltac:(lia)), (S 3 n Hn). clearbody n. cbn [app length] in E.
    destruct (_ || _); injection E as <-; (split; [|split]); try lia;
      repeat rewrite ?C1, ?C2, ?C3, ?L1, ?L2, ?L3;
      rewrite ?clock_reads_app, ?log_calls_app, ?B1, ?B2; reflexivity.
  - injection E as <-. cbn [app]. rewrite C2, C3, L2, L3, log_calls_app, clock_reads_app, B1, B2. split; reflexivity.
Qed.
Print Assumptions C65_logs_above_threshold.

(** Waited 10, held 20, threshold 15: both logged. *)
Example C65_case : trace_lockguard (fun n => Z.of_nat (5 * n)) (fun n => Nat.eqb n 0) 7 8 99 15 [UserCode 5; UserCode 6] =
  Ok [StatusRead true; ClockRead 5; MutexLock; ClockRead 15; UserCode 5; UserCode 6; MutexUnlock; ClockRead 35;
      LogCall 7 5 10 99 0; LogCall 8 15 20 99 0].
Proof. reflexivity. Qed.

(** With the default threshold of zero, TRACE_LOCKGUARD is documented to log
    unconditionally, but a wait and a hold too short for the clock to notice log
    nothing. *)
Theorem C65_always_logs_refuted : exists clock status tr,
  steady clock /\ status 0 = true /\ trace_lockguard clock status 7 8 99 0 [UserCode 1] = Ok tr /\ log_calls tr = [].
Proof.
  exists (fun _ => 42%Z), (fun _ => true). eexists. split; [intros n k _; lia|]. split; [reflexivity|]. split; reflexivity.
Qed.
Print Assumptions C65_always_logs_refuted.
