(** C102: what the log asks of a buffer that a user wrote, whatever its member functions
    answer, however long they take, and if they throw. *)
From Verif Require Import Base Spec.BufferUse Model.Interleave Model.UserBuffer Proofs.Interleave Proofs.UserBuffer.

Definition seen (sched : list uact) : list seen_by_buffer := u_hist (user_run sched).

Lemma seen_proper sched x e y : seen sched = x ++ e :: y -> proper x e.
Proof. apply (a_each _ (all_run sched)). Qed.

(** A member function is only called on a buffer that the log has: made by the factory,
    and neither given to the user nor destroyed; and it is still there when the call
    ends. A thread is in at most one call. *)
Theorem C102_calls : forall sched x e y, seen sched = x ++ e :: y ->
  (forall b, call_of e = Some b -> of_log x b /\ inside x (caller e) = None) /\
  (forall b, ends e = Some b -> of_log x b /\ inside x (caller e) = Some b).
Proof.
  intros sched x e y H. apply seen_proper in H. destruct e; cbn in H |- *; split; intros b' [= <-]; tauto.
Qed.
Print Assumptions C102_calls.

(** A buffer is given to the user or destroyed only while nobody is in a call of it; it is
    given away or destroyed at most once, and made once. *)
Theorem C102_alone : forall sched x t b y,
  (seen sched = x ++ BTaken t b :: y \/ seen sched = x ++ BDestroyed t b :: y -> of_log x b /\ forall u, inside x u <> Some b) /\
  (seen sched = x ++ BMade t b :: y -> forall u, ~ In (BMade u b) x /\ ~ In (BTaken u b) x /\ ~ In (BDestroyed u b) x).
Proof.
  intros sched x t b y. split.
  - intros [H|H]; apply seen_proper in H; exact H.
  - intros H u. apply seen_proper in H. cbn in H. split; [|split]; intros X; apply (H _ X); reflexivity.
Qed.
Print Assumptions C102_alone.

(** A chunk is given back only by the thread it was lent to, to the buffer that lent it,
    and once - as long as returnChunk did not throw. *)
Theorem C102_return : forall sched x t b c y, ~ back_threw x ->
  seen sched = x ++ BBack t b c :: y -> lent x t = Some (b, c).
Proof. intros sched x t b c y N H. apply seen_proper in H. now apply H. Qed.
Print Assumptions C102_return.

(** getChunk is called only by a thread that has no chunk of that buffer. *)
Theorem C102_ask : forall sched x t b y, ~ back_threw x ->
  seen sched = x ++ BAsk t b :: y -> forall c, lent x t <> Some (b, c).
Proof. intros sched x t b y N H. apply seen_proper in H. now apply H. Qed.
Print Assumptions C102_ask.

(** An event is stored in the chunk that was lent to the thread and that it has not given
    back, while the log has the buffer; not while the thread is in a call of the buffer. *)
Theorem C102_stored : forall sched x t c y, ~ back_threw x ->
  seen sched = x ++ BStored t c :: y -> inside x t = None /\ exists b, of_log x b /\ lent x t = Some (b, c).
Proof. intros sched x t c y N H. apply seen_proper in H. destruct H as (A & B). auto. Qed.
Print Assumptions C102_stored.

(** If the buffer does not lend a chunk twice, nobody else has the chunk in which a thread
    stores. *)
Theorem C102_exclusive : forall sched x t c y, ~ back_threw x -> honest (seen sched) ->
  seen sched = x ++ BStored t c :: y ->
  exists b, lent x t = Some (b, c) /\ forall u, lent x u = Some (b, c) -> u = t.
Proof.
  intros sched x t c y N Ho H. destruct (C102_stored sched x t c y N H) as (_ & b & _ & B). exists b. split; auto.
  intros u U. refine (honest_lent x _ u t b c U B). intros x' t' b' c' y' E. apply (Ho x' t' b' c' (y' ++ BStored t c :: y)).
  rewrite H, E, <- app_assoc. reflexivity.
Qed.
Print Assumptions C102_exclusive.

(** A thread outside of all calls holds no lock of the log, also when the call ended by
    an exception of the buffer; and as long as some thread is in a call, some thread can go on,
    or the user's code runs. *)
Theorem C102_goes_on : forall sched t,
  (u_pc (user_run sched) t = UIdle ->
     u_mutex (user_run sched) <> Some t /\ forall u, u_lock (user_run sched) u <> Some t) /\
  (u_pc (user_run sched) t <> UIdle ->
     exists v, (exists s, ustep (user_run sched) (Go v) = Some s) \/
               (exists a s, ustep (user_run sched) (Answer v a) = Some s) \/
               (exists k, u_pc (user_run sched) v = Held k)).
Proof.
  intros sched t. pose proof (inv_run sched) as I. split.
  - now apply idle_free.
  - now apply progress.
Qed.
Print Assumptions C102_goes_on.

(** The log does not spin: from any reachable state there is a bound on the steps that its
    own code and the answers of the user's code can make before a new call begins or the
    holder of the mutex does something else. *)
Theorem C102_ends : forall sched, exists n, forall acts s,
  Forall (fun a => match a with Go _ | Answer _ _ => True | _ => False end) acts ->
  do_all (user_run sched) acts = Some s -> length acts <= n.
Proof. intros sched. destruct (some_within sched) as (l & W). exists (left_over l (user_run sched)). intros acts s F E. eapply calls_end; eauto. Qed.
Print Assumptions C102_ends.

(** ** What a run looks like *)

Definition opens (t : tid) : list uact :=
  [CallLock t; Go t; HeldStart t true; Go t; Answer t (Builds true); Go t; HeldDone t; Go t].
Definition registers (t : tid) : list uact := [CallRegister t; Go t; Go t; Go t].
(** An event of a thread without a chunk, up to the call of getChunk. *)
Definition asks (t : tid) : list uact := [CallLog t; Go t; Go t; Go t; Go t; Go t; Go t; Go t].
Definition gets (t : tid) (c : N) : list uact := [Answer t (Lends (Some c)); Go t; Go t; Go t].
(** An event of a thread whose chunk is full, up to the call of returnChunk. *)
Definition gives (t : tid) : list uact := [CallLog t; Go t; Go t; Go t; Go t; Answer t (Full true); Go t; Go t].
Definition takes (t : tid) (n : nat) : list uact :=
  [CallLock t; Go t; HeldStop t] ++ repeat (Go t) (2 + 3 * n) ++ [HeldTake t; HeldDone t; Go t].

(** The header says that the buffer is only interacted with with the lock of the log held
    (trace_buffer.h:145-147). The log itself calls it without: two threads are in getChunk
    at once, and nobody holds that lock. A buffer has to be safe for threads. *)
Theorem C102_locked_refuted : exists sched t u b, t <> u /\
  inside (seen sched) t = Some b /\ inside (seen sched) u = Some b /\ u_mutex (user_run sched) = None.
Proof. exists (opens 0 ++ registers 1 ++ registers 2 ++ asks 1 ++ asks 2), 1, 2, 0. now vm_compute. Qed.
Print Assumptions C102_locked_refuted.

(** If returnChunk throws, the log keeps the pointer: the thread gives the same chunk back
    again, although it was not lent again. *)
Theorem C102_throw_refuted : exists sched x t b c y z,
  seen sched = x ++ BBack t b c :: y ++ BBack t b c :: z /\
  lent (x ++ [BBack t b c]) t = None /\ (forall u b' c', ~ In (BLent u b' (Some c')) y).
Proof.
  exists (opens 0 ++ registers 1 ++ asks 1 ++ gets 1 7 ++ gives 1 ++ [Answer 1 Throws; Go 1] ++ gives 1).
  exists [BMade 0 0; BAsk 1 0; BLent 1 0 (Some 7%N); BStored 1 7], 1, 0, 7%N, [BThrew 1 0], [].
  split; [now vm_compute|]. split; [reflexivity|]. intros u b' c' [X|[]]. discriminate.
Qed.
Print Assumptions C102_throw_refuted.

(** Two threads log, one replaces a full chunk while the other has asked for one; the log is
    stopped, which takes both chunks away without giving them back, and the buffer is taken. *)
Example C102_case :
  seen (opens 0 ++ registers 1 ++ registers 2 ++ asks 1 ++ gets 1 7 ++ asks 2 ++ gives 1 ++ gets 2 8 ++
        [Answer 1 Done; Go 1; Go 1; Go 1] ++ gets 1 9 ++ takes 0 2) =
  [BMade 0 0; BAsk 1 0; BLent 1 0 (Some 7%N); BStored 1 7; BAsk 2 0; BBack 1 0 7; BLent 2 0 (Some 8%N); BStored 2 8;
   BDone 1 0; BAsk 1 0; BLent 1 0 (Some 9%N); BStored 1 9; BTaken 0 0].
Proof. now vm_compute. Qed.
(** A start over an existing buffer: the new one is made before the old one is destroyed. *)
Example C102_case_again :
  seen (opens 0 ++ registers 1 ++ asks 1 ++ gets 1 7 ++ [CallLock 0; Go 0; HeldStart 0 true; Go 0; Go 0; Go 0; Go 0; Go 0; Go 0; HeldDone 0; Answer 0 (Builds true)]) =
  [BMade 0 0; BAsk 1 0; BLent 1 0 (Some 7%N); BStored 1 7; BMade 0 1; BDestroyed 0 0].
Proof. now vm_compute. Qed.
