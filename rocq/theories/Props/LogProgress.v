(** C53: waiting and termination. *)
From Verif Require Import Base Model.StringUtils Model.Event Model.Queue Model.Buffer Model.Config Spec.Categories Spec.History Model.Registry
  Model.Interleave Spec.LogHistory Spec.LogFacts Model.TraceLog Spec.LogMemory Spec.LogRecords Spec.LogProgress Proofs.Interleave Proofs.Registry Proofs.LogFrame Proofs.LogView Proofs.LogViewInv
  Proofs.LogContract Proofs.LogBuffers Proofs.LogSafe Proofs.LogSafeInv Proofs.LogSafeAT Proofs.LogSafeOW Proofs.LogSafeAll Proofs.LogRaces Proofs.LogHolders
  Proofs.LogHandover Proofs.LogRecords Proofs.LogGhost Proofs.LogDebts Proofs.LogProgress Props.Buffer Props.Log Props.LogSafety Props.LogRecords.

(** ** C53 *)

Lemma no_ring_no_wait cap csz sc s t b k : reached cap csz sc s -> no_ring (hist s) -> code s t <> Act (ADeq b) k.
Proof.
  intros R N E. destruct (wait_inv cap csz sc s R) as [f [(_ & B & _) V]]. specialize (V t). rewrite E in V. destruct V as [O _]. cbn in O.
  apply B in O as [(u & g & n & n' & H) _]. now apply N in H.
Qed.

(** Without ring buffers, a thread inside a call can perform its next action, or
    runs a callback, or waits for another thread: the one that has the lock, or
    (having the lock itself, and switching tracing off) one that is storing an
    event, which can go on. *)
Theorem C53_who_waits_for_whom : forall cap csz site_cat sched t,
  let s := log_run cap csz site_cat sched in
  no_ring (hist s) -> code s t <> Ret ->
  can_go cap csz site_cat s t \/ in_callback s t \/ (exists u, u <> t /\ mtx s = Some u) \/
  (mtx s = Some t /\ exists u, u <> t /\ t_lock (ten s u) = BySlave /\ can_go cap csz site_cat s u).
Proof.
  intros cap csz sc sched t s N Nt. assert (R : reached cap csz sc s) by apply log_run_reached.
  destruct (safe_inv cap csz sc s R) as [_ [f [G V]]]. destruct (code s t) as [|a k] eqn:Ec; [easy|].
  destruct (waits cap csz sc s f t a k R G V Ec) as [C|[[-> [u [Nu M]]]|[(v & -> & Nv & Q & M)|[[h ->]|[b [-> Q']]]]]]; eauto 6.
  - right. right. right. split; auto. exists v. repeat split; auto.
    destruct (slave_goes cap csz sc s f v R G V Q) as [C|(b & k' & Ec' & _)]; auto. now apply (no_ring_no_wait cap csz sc s v b k') in N.
  - right. left. unfold in_callback. now rewrite Ec.
  - now apply (no_ring_no_wait cap csz sc s t b k) in N.
Qed.
Print Assumptions C53_who_waits_for_whom.

(** A thread inside a logging call does not even wait for the lock: only when it
    is switching tracing off itself does it wait for others' events. *)
Theorem C53_logging_never_waits : forall cap csz site_cat sched t o,
  let s := log_run cap csz site_cat sched in
  no_ring (hist s) -> last_call (hist s) t = Some o -> is_logging o = true -> code s t <> Ret ->
  can_go cap csz site_cat s t \/ in_callback s t \/
  (mtx s = Some t /\ exists u, u <> t /\ t_lock (ten s u) = BySlave /\ can_go cap csz site_cat s u).
Proof.
  intros cap csz sc sched t o s N El Lo Nt. assert (R : reached cap csz sc s) by apply log_run_reached.
  destruct (wait_inv cap csz sc s R) as [w [(A & _) Vw]].
  destruct (safe_inv cap csz sc s R) as [_ [f [G V]]]. destruct (code s t) as [|a k] eqn:Ec; [easy|].
  destruct (waits cap csz sc s f t a k R G V Ec) as [C|[[-> [u [Nu M]]]|[(v & -> & Nv & Q & M)|[[h ->]|[b [-> Q']]]]]]; eauto 6.
  - exfalso. specialize (Vw t). rewrite Ec in Vw. destruct Vw as [O _]. cbn in O. rewrite A in O. unfold logging in O. rewrite El in O. congruence.
  - right. right. split; auto. exists v. repeat split; auto.
    destruct (slave_goes cap csz sc s f v R G V Q) as [C|(b & k' & Ec' & _)]; auto. now apply (no_ring_no_wait cap csz sc s v b k') in N.
  - right. left. unfold in_callback. now rewrite Ec.
  - now apply (no_ring_no_wait cap csz sc s t b k) in N.
Qed.
Print Assumptions C53_logging_never_waits.

(** Whatever the buffers and the callbacks do: when no new calls are made there
    is no endless sequence of actions. *)
Theorem C53_no_endless_calls : forall cap csz site_cat sched,
  Acc (fun s' s => exists a, continues a = true /\ pstep cap csz site_cat s a = Some s') (log_run cap csz site_cat sched).
Proof. intros cap csz sc sched. apply calls_end, log_run_reached. Qed.
Print Assumptions C53_no_endless_calls.

(** No deadlock: without ring buffers, as long as any call is in progress
    something can go on, and every schedule that does not for ever pick threads
    that cannot go on makes all calls return. *)
Theorem C53_calls_return : forall cap csz site_cat sched sigma,
  let s := log_run cap csz site_cat sched in
  drains cap csz site_cat s sigma -> (forall n, no_ring (hist (state_at cap csz site_cat s sigma n))) ->
  exists n, all_idle (state_at cap csz site_cat s sigma n).
Proof.
  intros cap csz sc sched sigma s D N. assert (R : reached cap csz sc s) by apply log_run_reached.
  apply comes_to_rest; auto. intros n Ni. pose proof (state_reached cap csz sc s sigma n R) as Rn. set (sn := state_at cap csz sc s sigma n) in *.
  assert (X : exists t, code sn t <> Ret).
  { destruct (full_inv cap csz sc sn Rn) as [Al _].
    destruct (List.find (fun t => match code sn t with Ret => false | _ => true end) (busy sn)) as [t|] eqn:F.
    - exists t. apply find_some in F as [_ F]. now destruct (code sn t).
    - destruct Ni. intros t. destruct (code sn t) as [|a k] eqn:Ec; auto. assert (Hb : In t (busy sn)) by (apply (al_busy sn Al); congruence).
      apply (find_none _ _ F) in Hb. now rewrite Ec in Hb. }
  destruct X as [t Ht].
  destruct (someone_goes cap csz sc sn t Rn) as [u [[ch [s' C]]|C]]; auto.
  - intros u b k Ec. destruct (no_ring_no_wait cap csz sc sn u b k Rn (N n) Ec).
  - exists (Step u ch), s'. auto.
  - unfold in_callback in C. destruct (hook_of (code sn u)) as [[h k]|] eqn:Eh; [|easy].
    exists (HookEnd u None). eexists. split; auto. unfold pstep, step. cbn [polite]. now rewrite (never_bad _ _ _ sn Rn), Eh.
Qed.
Print Assumptions C53_calls_return.

(** Thread 1 holds its tenant, thread 3 waits for it inside [stop], thread 2 for
    the lock; then they are scheduled in turns. *)
Definition waiting_run : list sact :=
  call 1 (ORegister $"one") CNone 9 ++ call 2 (ORegister $"two") CNone 9 ++ call 3 (OStart (setStoppedCallback cfgA None)) (CFixed 2 mem0) 30 ++
  call 1 (OLog (evt 1)) CNone 3 ++ call 3 (OStop false) CNone 4 ++ [Step 3 (CPick 1)] ++ call 2 ODeregister CNone 1.
Definition in_turn : list sact := concat (repeat [Step 3 CNone; Step 2 CNone; Step 3 (CPick 2); Step 1 CNone] 15).
Definition turns (n : nat) : sact := nth n in_turn (Step 1 CNone).

Example C53_case :
  let s := log_run 3 10 site0 waiting_run in
  map (fun t => match code s t with Act (AMaster u) _ => Some (Some u) | Act ALock _ => Some None | _ => None end) [1; 2; 3] = [None; Some None; Some (Some 1)] /\
  t_lock (ten s 1) = BySlave /\ mtx s = Some 3 /\
  forallb (fun t => match code (state_at 3 10 site0 s turns 58) t with Ret => true | _ => false end) [1; 2; 3] = true.
Proof. vm_compute. repeat split; reflexivity. Qed.

(** This schedule meets the hypotheses of [C53_calls_return]. *)
Lemma idle_rest cap csz sc s a : all_idle s -> continues a = true -> pstep cap csz sc s a = None.
Proof.
  intros I C. unfold pstep, step. destruct (polite s a); auto. destruct (bad s); auto. destruct a; try discriminate C; now rewrite I.
Qed.

Lemma drained cap csz sc s sigma last X : (forall n, continues (sigma n) = true) ->
  state_at cap csz sc s sigma (S last) = X -> all_idle X -> pstep cap csz sc (state_at cap csz sc s sigma last) (sigma last) <> None ->
  forallb (fun n => forallb (fun x => match x with Made _ _ _ (MadeRing _ _) => false | _ => true end) (hist (state_at cap csz sc s sigma n))) (seq 0 (S (S last))) = true ->
  drains cap csz sc s sigma /\ forall n, no_ring (hist (state_at cap csz sc s sigma n)).
Proof.
  intros C Ex I E N.
  assert (Q : forall n, last < n -> state_at cap csz sc s sigma n = X).
  { intros n H. induction H as [|n H IH]; auto. cbn [state_at]. rewrite IH. unfold move. now rewrite idle_rest. }
  split; [split; auto|].
  - intros n (a & s' & Ca & E'). destruct (Nat.le_gt_cases n last) as [Le|Gt].
    + exists last. destruct (pstep cap csz sc (state_at cap csz sc s sigma last) (sigma last)) as [s1|] eqn:E1; [eauto|easy].
    + rewrite Q in E' by auto. now rewrite idle_rest in E'.
  - assert (Y : forall n, n <= S last -> no_ring (hist (state_at cap csz sc s sigma n))).
    { intros n Hn. rewrite forallb_forall in N. specialize (N n). rewrite forallb_forall in N. intros t g k b n' Hi. apply N in Hi; [discriminate|]. apply in_seq. lia. }
    intros n. destruct (Nat.le_gt_cases n (S last)) as [Le|Gt]; [auto|]. rewrite Q by lia. rewrite <- Ex. now apply Y.
Qed.

Example C53_drains : let s := log_run 3 10 site0 waiting_run in
  drains 3 10 site0 s turns /\ forall n, no_ring (hist (state_at 3 10 site0 s turns n)).
Proof.
  intros s. apply (drained 3 10 site0 s turns 57 (state_at 3 10 site0 s turns 58)).
  - intros n. unfold turns. destruct (nth_in_or_default n in_turn (Step 1 CNone)) as [H| ->]; auto.
    assert (F : forallb continues in_turn = true) by reflexivity. rewrite forallb_forall in F. now apply F.
  - reflexivity.
  - intros t. do 4 (destruct t as [|t]; [vm_compute; reflexivity|]). vm_compute. reflexivity.
  - vm_compute. discriminate.
  - vm_compute. reflexivity.
Qed.
