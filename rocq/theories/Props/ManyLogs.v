(** C66, C71: several logs. *)
From Verif Require Import Base Model.StringUtils Model.Event Model.Queue Model.Buffer Model.Config Spec.Categories Spec.History Model.Registry
  Model.Interleave Spec.LogHistory Spec.LogFacts Model.TraceLog Model.ManyLogs Spec.LogMemory Spec.LogRecords Spec.ManyLogs
  Proofs.LogFrame Proofs.LogSafe Proofs.LogSafeAll Proofs.LogRaces Proofs.LogHolders Proofs.ManyLogs Props.Log Props.LogRecords.

Definition world_run (sched : list (lid * sact)) : world := run (wstep 3 10 site0) world_new sched.
Definition on (x : lid) (l : list sact) : list (lid * sact) := map (pair x) l.

(** Thread 1 registers with log 0 and logs into log 1, which thread 3 starts and
    stops. *)
Definition visit : list (lid * sact) :=
  on 0 (call 1 (ORegister $"one") CNone 9) ++ on 1 (call 3 (OStart (setStoppedCallback cfgA None)) (CFixed 2 mem0) 30) ++
  on 1 (call 1 (OLog (evt 1)) CNone 20).
Definition stopped : list (lid * sact) := visit ++ on 1 (call 3 (OStop false) CNone 20).
Definition restarted : list (lid * sact) := stopped ++ on 1 (call 3 (OStart (setStoppedCallback cfgA None)) (CFixed 2 mem0) 30).

Definition log_hist (w : world) (x : lid) : list hev := hist (w_log w x).
Definition chunk_events (w : world) (x : lid) (b : bid) (i : N) : list event :=
  let c := b_chunk (heap (w_log w x) b) i in map (fun k => c_arr c (N.of_nat k)) (seq 0 (N.to_nat (c_next c))).

Lemma done_only h e : filter (fun x => match x with Done 1 _ _ => true | _ => false end) h = [Done 1 (OLog e) RUnit] ->
  forall o r, In (Done 1 o r) h -> o = OLog e.
Proof.
  intros F o r H. assert (X : In (Done 1 o r) [Done 1 (OLog e) RUnit]) by (rewrite <- F; apply filter_In; split; [exact H|reflexivity]).
  destruct X as [X|[]]. now injection X.
Qed.

(** ** C66 *)

(** A thread registered with log 0 only records in log 1, and after stop() on
    log 1 has returned it still has its chunk of log 1's buffer. *)
Theorem C66_not_evicted : exists sched b i e,
  let w := world_run sched in
  registered 1 (log_hist w 0) = true /\ (forall o r, In (Done 1 o r) (log_hist w 1) -> o = OLog e) /\
  (exists h, log_hist w 1 = h ++ [Done 3 (OStop false) RUnit]) /\ enabled (w_log w 1) = false /\
  t_chunk (w_ten w 1) = Some (b, i) /\ w_tag w 1 = 1 /\ chunk_events w 1 b i = [e].
Proof.
  exists stopped, 0, 0%N, (evt 1). cbv zeta. split; [vm_compute; reflexivity|]. split; [|split; [|split; [|split; [|split]]]].
  - intros o r. apply (done_only (log_hist (world_run stopped) 1) (evt 1)). vm_compute. reflexivity.
  - exists (removelast (log_hist (world_run stopped) 1)). vm_compute. reflexivity.
  - vm_compute. reflexivity.
  - vm_compute. reflexivity.
  - vm_compute. reflexivity.
  - vm_compute. reflexivity.
Qed.
Print Assumptions C66_not_evicted.

(** Starting log 1 again frees the buffer, and the next event of the thread is
    an access to freed memory. *)
Theorem C66_use_after_free : exists sched e ch n,
  (forall x, bad (w_log (world_run sched) x) = false) /\
  registered 1 (log_hist (world_run sched) 0) = true /\
  bad (w_log (world_run (sched ++ on 1 (call 1 (OLog e) ch n))) 1) = true.
Proof.
  exists restarted, (evt 2), CNone, 20%nat. split; [|vm_compute; repeat split; reflexivity].
  intros [|[|x]]; vm_compute; reflexivity.
Qed.
Print Assumptions C66_use_after_free.

(** With both logs started, an event that the thread logs into log 0 is stored in
    a buffer of log 1. *)
Definition mixed : list (lid * sact) :=
  visit ++ on 0 (call 4 (OStart (setStoppedCallback cfgA None)) (CFixed 2 mem0) 30) ++ on 0 (call 1 (OLog (evt 2)) CNone 20).


Lemma below_two (P : N -> Prop) n : n = 2%N -> P 0%N -> P 1%N -> forall i, (i < n)%N -> P i.
Proof. intros -> P0 P1 i L. assert (X : (i = 0 \/ i = 1)%N) by lia. destruct X as [-> | ->]; assumption. Qed.

Lemma not_filtered {A} (f : A -> bool) l x : forallb (fun y => negb (f y)) l = true -> f x = true -> ~ In x l.
Proof. intros F X H. rewrite forallb_forall in F. specialize (F x H). now rewrite X in F. Qed.

Theorem C66_wrong_log : exists sched e b i b0,
  let w := world_run sched in
  (forall x, bad (w_log w x) = false) /\ (exists h, log_hist w 0 = h ++ [Done 1 (OLog e) RUnit]) /\
  In e (chunk_events w 1 b i) /\ (forall t, ~ In (Invoked t (OLog e)) (log_hist w 1)) /\
  bufp (w_log w 0) = Some b0 /\ (forall j, N.lt j (b_size (heap (w_log w 0) b0)) -> chunk_events w 0 b0 j = []).
Proof.
  exists mixed, (evt 2), 0, 0%N, 0. cbv zeta. split; [intros [|[|x]]; vm_compute; reflexivity|].
  split; [exists (removelast (log_hist (world_run mixed) 0)); vm_compute; reflexivity|].
  split; [vm_compute; right; left; reflexivity|].
  split; [|split; [vm_compute; reflexivity|]].
  - intros t. apply (not_filtered (fun x => match x with Invoked _ (OLog e) => N.eqb (ev_time e) 2 | _ => false end)); [vm_compute|]; reflexivity.
  - apply below_two; vm_compute; reflexivity.
Qed.
Print Assumptions C66_wrong_log.

(** ** C71 *)

(** If every thread registers with, and logs into, one log only, each log is in
    the state of a log that is alone and is used by the same calls: what the
    other theorems say about one log is true of each of several. *)
Theorem C71_as_if_alone cap csz site_cat own sched : (forall x a, In (x, a) sched -> keeps_to own x a) ->
  let w := run (wstep cap csz site_cat) world_new sched in
  forall x, exists l, (forall a, In a l -> In (x, a) sched) /\
    let s := w_log w x in
    let alone := run (pstep cap csz site_cat) log_new l in
    hist s = hist alone /\ enabled s = enabled alone /\ bufp s = bufp alone /\ heap s = heap alone /\ regd s = regd alone /\
    code s = code alone /\ (forall t, own t = x -> w_ten w t = ten alone t) /\ bad s = false.
Proof.
  intros D w x. destruct (side_by_side cap csz site_cat own sched D) as (l & Hl & S). exists (l x). split; [intros a; apply Hl|].
  destruct (sb_log _ _ _ _ _ _ S x) as (R & _ & _ & E & T). pose proof (never_bad _ _ _ _ R) as B. cbv zeta. fold w in E, T.
  set (alone := run _ log_new (l x)) in *. rewrite <- B, <- E. repeat split. exact T.
Qed.
Print Assumptions C71_as_if_alone.

(** Threads 1 and 2 log into logs 0 and 1; thread 3 starts both and stops one. *)
Definition apart : list (lid * sact) :=
  on 0 (call 1 (ORegister $"one") CNone 9) ++ on 1 (call 2 (ORegister $"two") CNone 9) ++
  on 0 (call 3 (OStart (setStoppedCallback cfgA None)) (CFixed 2 mem0) 30) ++
  on 1 (call 3 (OStart (setStoppedCallback cfgA None)) (CFixed 2 mem0) 30) ++
  on 0 (call 1 (OLog (evt 1)) CNone 20) ++ on 1 (call 2 (OLog (evt 2)) CNone 20) ++
  on 1 (call 3 (OStop false) (CPick 2) 20) ++ on 0 (call 1 (OLog (evt 3)) CNone 20) ++ on 1 (call 2 (OLog (evt 4)) CNone 20).
Definition keeper (t : tid) : lid := if Nat.eqb t 2 then 1 else 0.
Definition keeps (xa : lid * sact) : bool :=
  match snd xa with
  | Invoke t o => negb (uses_registration o) || Nat.eqb (keeper t) (fst xa)
  | HookDo t (HLog _) => Nat.eqb (keeper t) (fst xa)
  | _ => true
  end.
Lemma keeps_all l : forallb keeps l = true -> forall x a, In (x, a) l -> keeps_to keeper x a.
Proof.
  intros F x a H. rewrite forallb_forall in F. specialize (F _ H). destruct a as [t o|t ch|t h|t r]; cbn in *; auto.
  - intros U. rewrite U in F. now apply Nat.eqb_eq.
  - destruct h; auto. now apply Nat.eqb_eq.
Qed.

Example C71_case :
  (forall x a, In (x, a) apart -> keeps_to keeper x a) /\
  let w := world_run apart in
  t_chunk (w_ten w 1) = Some (0, 0%N) /\ t_chunk (w_ten w 2) = None /\
  chunk_events w 0 0 0%N = [evt 1; evt 3] /\ chunk_events w 1 0 0%N = [evt 2].
Proof.
  split; [apply keeps_all; vm_compute; reflexivity|]. cbv zeta.
  split; [|split; [|split]]; vm_compute; reflexivity.
Qed.
