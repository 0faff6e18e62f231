(** The trace log with the memory orders it is written with, on the memory of
    Model/WeakMem.v. *)
From Verif Require Import Base Spec.LogUse Model.Queue Model.Interleave Model.WeakMem Model.WeakLog
  Proofs.Interleave Proofs.WeakMem Proofs.WeakLog.
Local Open Scope nat_scope.

(** C79: whatever threads do with a trace log (start, stop, log events, take the
    buffer, ask for statistics, register and deregister, and read and destroy
    the buffers they took), no two of its accesses to plain variables race: not
    those to the buffer pointer, which is read without the mutex, nor those to
    chunks, chunk pointers and buffer objects. *)
Theorem C79_log_race_free : forall cap sched, races (wl_mem (wlog_run cap sched)) = [].
Proof. intros cap sched. destruct (wlog_run_inv cap sched) as (Z & (_ & V & _) & _). apply (v_race _ _ V). Qed.
Print Assumptions C79_log_race_free.

(** Calls by thread [t], as far as they go without being held up. *)
Definition go (t n : nat) : list wlact := repeat (LogGo t 0 0 0) n.
Definition w_register (t : nat) : list wlact := CallRegister t :: go t 3.
Definition w_deregister (t k : nat) : list wlact := CallDeregister t :: go t k.
Definition w_start (t : nat) (ring : bool) (k : nat) (f n g : N) : list wlact :=
  [CallLock t] ++ go t 1 ++ [HeldStart t (ring, k)] ++ go t 1 ++ [LogGo t 0 0 g] ++ go t (2 + k) ++ [LogGo t 0 f n; HeldDone t] ++ go t 1.
Definition w_stop (t : nat) (n : N) (regs : nat) : list wlact :=
  [CallLock t] ++ go t 1 ++ [HeldStop t; LogGo t 0 0 n] ++ go t (2 + 3 * regs) ++ [HeldDone t] ++ go t 1.
Definition w_take (t : nat) : list wlact := [CallLock t] ++ go t 1 ++ [HeldTake t] ++ go t 2 ++ [HeldDone t] ++ go t 1.
Definition w_log (t : nat) (v : N) (k : nat) : list wlact := CallLog t v :: go t k.

(** Thread 1 starts the log, thread 2 fills a chunk and begins another, thread 1
    stops the log, takes the buffer, reads both chunks and destroys it. *)
Example C79_case :
  let s := wlog_run 2 (w_start 1 false 2 0 1 1 ++ w_register 2 ++ w_log 2 7 13 ++ w_log 2 8 7 ++ w_log 2 9 16 ++ w_stop 1 2 1
                       ++ w_take 1 ++ [ReadChunk 1 0 0; ReadChunk 1 0 1; DropBuffer 1 0] ++ go 1 3) in
  wl_hist s = [UMade 1 0; UUsed 2 0; UCleared 2 0 0; UStored 2 0 0 7; UStored 2 0 0 8; UUsed 2 0; UUsed 2 0; UCleared 2 0 1;
               UStored 2 0 1 9; UTaken 1 0; URead 1 0 0 [7%N; 8%N]; URead 1 0 1 [9%N]; UDestroyed 1 0] /\
  wl_pc s 1 = GIdle /\ wl_pc s 2 = GIdle /\ races (wl_mem s) = [] /\ length (accs (wl_mem s)) = 38.
Proof. vm_compute. repeat split; reflexivity. Qed.

(** C80: with these memory orders no buffer is used after it was destroyed, none
    is destroyed twice, one that was taken is used by its taker alone and only
    to be read and destroyed, what they read from a chunk is what was stored in
    it since it was last emptied, no function is called on a null buffer and no
    chunk is returned to a buffer it is not from. *)
Theorem C80_buffers_used_properly : forall cap sched x u y,
  wl_hist (wlog_run cap sched) = x ++ u :: y -> proper x u.
Proof. intros cap sched. destruct (wlog_run_inv cap sched) as (Z & _ & T). exact (d_proper _ _ _ T). Qed.
Print Assumptions C80_buffers_used_properly.

(** In particular nothing happens to a buffer after its destruction. *)
Theorem C80_gone_for_good : forall cap sched x t b y u,
  wl_hist (wlog_run cap sched) = x ++ UDestroyed t b :: y -> In u y -> uses b u = None.
Proof.
  intros cap sched x t b y u E Hu. apply in_split in Hu as (y1 & y2 & ->).
  assert (wl_hist (wlog_run cap sched) = (x ++ UDestroyed t b :: y1) ++ u :: y2) as E' by (rewrite E, <- app_assoc; reflexivity).
  pose proof (C80_buffers_used_properly _ _ _ _ _ E') as P.
  assert (In (UDestroyed t b) (x ++ UDestroyed t b :: y1)) as D by (apply in_app_iff; right; now left).
  destruct u; cbn in P |- *; try reflexivity; try contradiction; destruct (N.eqb_spec b b0) as [->|]; auto; exfalso;
    try (destruct P as (P & _); now apply (P t)).
Qed.
Print Assumptions C80_gone_for_good.

(** And its taker's reads, which give what was stored in it before, are all that
    happens to a buffer after it was taken, until they destroy it. *)
Theorem C80_taken_is_mine : forall cap sched x t b y u,
  wl_hist (wlog_run cap sched) = x ++ UTaken t b :: y -> In u y -> uses b u <> None ->
  (exists i, u = URead t b i (stored_in x b i)) \/ u = UDestroyed t b.
Proof.
  intros cap sched x t b y u E Hu N. set (h := wl_hist (wlog_run cap sched)) in *.
  assert (properly h) as G by exact (C80_buffers_used_properly cap sched).
  apply in_split in Hu as (y1 & y2 & ->). assert (h = (x ++ UTaken t b :: y1) ++ u :: y2) as E' by (rewrite E, <- app_assoc; reflexivity).
  pose proof (G _ _ _ E') as P. assert (In (UTaken t b) (x ++ UTaken t b :: y1)) as D by (apply in_app_iff; right; now left).
  assert (forall t', In (UTaken t' b) (x ++ UTaken t b :: y1) -> t' = t) as O.
  { intros t' X. eapply (taken_once h); eauto. rewrite E'. apply in_app_iff. now left. }
  destruct u; cbn in N, P; try contradiction; destruct (N.eqb_spec b b0) as [<-|]; try contradiction; cbn in P;
    try (destruct P as (_ & P); now apply P in D).
  - destruct P as (_ & T & ->). left. exists i. rewrite (O _ T). f_equal.
    eapply (stored_after h); eauto.
  - right. destruct P as (_ & P). now rewrite (P t D).
Qed.
Print Assumptions C80_taken_is_mine.

(** A ring of one chunk. Thread 2 has it; thread 3 waits for one and gets it when
    thread 2 deregisters. Thread 1 stops the log; thread 3 then still reads that
    it is on, but not once it holds the lock of its tenant, so that event 9 is
    not stored. Thread 1 takes the buffer and reads event 8 in it, while thread 4
    starts the log again. *)
Example C80_case :
  let s := wlog_run 1 (w_register 2 ++ w_register 3 ++ w_start 1 true 1 0 1 1 ++ w_log 2 7 13 ++ w_log 3 8 9 ++ w_deregister 2 8
             ++ go 3 5 ++ [CallLog 3 9] ++ w_stop 1 2 1 ++ [LogGo 3 1 0 0] ++ go 3 3 ++ [LogGo 3 1 0 0; LogGo 3 0 0 0] ++ go 3 1
             ++ w_take 1 ++ [ReadChunk 1 0 0] ++ w_start 4 true 1 2 3 2) in
  wl_hist s = [UMade 1 0; UUsed 2 0; UCleared 2 0 0; UStored 2 0 0 7; UUsed 3 0; UUsed 2 0; UUsed 3 0; UCleared 3 0 0;
               UStored 3 0 0 8; UTaken 1 0; URead 1 0 0 [8%N]; UMade 4 1] /\
  map (wl_pc s) [1; 2; 3; 4] = [GIdle; GIdle; GIdle; GIdle] /\ races (wl_mem s) = [].
Proof. vm_compute. repeat split; reflexivity. Qed.
