(** C25-C27: the lock-free queue under every interleaving of any number of
    threads. [prompt]: no thread uses a position it read 2^62 placements
    earlier (the positions are 64-bit words). *)
From Verif Require Import Base Spec.QueueHistory Model.Queue Model.Interleave Model.QueueConc
  Proofs.Interleave Proofs.QueueConc.

(** C25. Calls are placed in one order, each between its call and its return and
    exactly when it returns true; the dequeue with number i (counting from 0)
    returns the item of the enqueue with number i. *)
Theorem C25_fifo : forall (T : Type) (cap j : N) (sched : list (qact T)),
  cap = (2 ^ j)%N -> (1 <= j)%N -> (j <= 61)%N -> prompt cap sched ->
  let h := cq_hist (queue_run cap sched) in
  (forall t, exists c, calls_to t h c) /\
  (forall before t between v after,
     h = before ++ DeqPlaced t :: between ++ DeqReturned t v :: after ->
     (forall e, In e between -> q_actor e <> t) ->
     exists x, v = Some x /\ nth_error (ins h) (outs before) = Some x) /\
  outs h <= length (ins h).
Proof.
  intros T cap j sched Hc H1 H2 Pr h. destruct (queue_run_inv cap j Hc H1 H2 sched Pr) as (gs & I & (R & _)).
  split; [|split; [exact R|]].
  - intros t. eexists. apply I.
  - pose proof (i_bnd _ _ _ I) as B. unfold placed_in, placed_out in B. fold h in B. lia.
Qed.
Print Assumptions C25_fifo.

(** In particular for every run of fewer than 2^62 steps. *)
Theorem C25_runs_are_prompt : forall (T : Type) (cap : N) (sched : list (qact T)),
  (N.of_nat (length sched) < 2 ^ 62)%N -> prompt cap sched.
Proof. intros T cap sched. apply short_prompt. Qed.
Print Assumptions C25_runs_are_prompt.

(** Two threads enqueue concurrently; the second one publishes first; the
    dequeue still gets the item placed first. *)
Example C25_case :
  let g t := Go t false in
  let sched := [CallEnq 1 10; g 1; g 1; CallEnq 2 20; g 1; g 2; g 2; g 2; g 2; g 2; CallDeq 3; g 3; g 3; g 1; g 1;
                CallDeq 3; g 3; g 3; g 3; g 3; g 3] in
  cq_hist (queue_run 4 sched) =
    [EnqCalled 1 10; EnqCalled 2 20; EnqPlaced 1 10; EnqPlaced 2 20; EnqReturned 2; DeqCalled 3; DeqEmpty 3;
     EnqReturned 1; DeqCalled 3; DeqPlaced 3; DeqReturned 3 (Some 10)] /\
  prompt 4 sched.
Proof. split; [reflexivity|]. apply C25_runs_are_prompt. reflexivity. Qed.

(** C26. No two threads are ever about to touch the data of the same cell. *)
Theorem C26_race_free : forall (T : Type) (cap j : N) (sched : list (qact T)),
  cap = (2 ^ j)%N -> (1 <= j)%N -> (j <= 61)%N -> prompt cap sched ->
  forall t u c w w', t <> u ->
  data_access (queue_run cap sched) t = Some (c, w) ->
  data_access (queue_run cap sched) u <> Some (c, w').
Proof.
  intros T cap j sched Hc H1 H2 Pr t u c w w' Ne At Au.
  destruct (queue_run_inv cap j Hc H1 H2 sched Pr) as (gs & I & _).
  set (q := queue_run cap sched) in *.
  assert (forall v c w, data_access q v = Some (c, w) -> exists i, c = (i mod cap)%N /\ (enq_busy q v i \/ deq_busy q v i)) as K.
  { intros v c0 w0 A. unfold data_access in A. pose proof (i_thr _ _ _ I v) as H.
    destruct (cq_pc q v) as [|x|x pos P|x pos P|x pos P|x pos P| |pos P|pos P|pos P|pos P y] eqn:E; try discriminate;
      injection A as <- _; exists P; cbn [thr_ok] in H; destruct H as (-> & _);
      (split; [apply (slot_of cap j Hc H1 H2); apply I|]).
    - left. exists x. eauto.
    - right. eexists. left. eauto. }
  destruct (K _ _ _ At) as (i & -> & Bi). destruct (K _ _ _ Au) as (i' & E & Bi').
  destruct (busy_cells cap j Hc H1 H2 q gs t i u i' I (fun X => Ne (eq_sym X))) as (X1 & X2 & X3 & X4).
  destruct Bi, Bi'; [apply X1|apply X2|apply X3|apply X4]; auto.
Qed.
Print Assumptions C26_race_free.

Example C26_case :
  let g t := Go t false in
  let sched := [CallEnq 1 10; g 1; g 1; g 1; CallEnq 2 20; g 2; g 2; g 2] in
  data_access (queue_run 4 sched) 1 = Some (0%N, true) /\ data_access (queue_run 4 sched) 2 = Some (1%N, true) /\
  prompt 4 sched.
Proof. split; [reflexivity|]. split; [reflexivity|]. apply C25_runs_are_prompt. reflexivity. Qed.

(** C27. At the moment dequeue returns false either nothing is inside or the
    enqueue of the item at the head has not returned; at the moment enqueue
    returns false either [cap] items are inside or the dequeue that frees the
    cell has not returned; never are more than [cap] items inside. *)
Theorem C27_failures_justified : forall (T : Type) (cap j : N) (sched : list (qact T)),
  cap = (2 ^ j)%N -> (1 <= j)%N -> (j <= 61)%N -> prompt cap sched ->
  let h := cq_hist (queue_run cap sched) in
  (forall before t after, h = before ++ DeqEmpty t :: after ->
     outs before = length (ins before) \/ enqueue_pending before (outs before)) /\
  (forall before t after, h = before ++ EnqFull t :: after ->
     N.of_nat (length (ins before)) = (N.of_nat (outs before) + cap)%N \/
     exists i, N.of_nat (length (ins before)) = (N.of_nat i + cap)%N /\ dequeue_pending before i) /\
  (N.of_nat (length (ins h)) <= N.of_nat (outs h) + cap)%N.
Proof.
  intros T cap j sched Hc H1 H2 Pr h. destruct (queue_run_inv cap j Hc H1 H2 sched Pr) as (gs & I & (_ & A & B)).
  split; [exact A|]. split; [exact B|]. apply (i_bnd _ _ _ I).
Qed.
Print Assumptions C27_failures_justified.

(** A dequeue that fails although an item has been enqueued behind an unfinished
    one, and an enqueue that fails on a full queue. *)
Example C27_case :
  let g t := Go t false in
  let enq t x := [CallEnq t x; g t; g t; g t; g t; g t] in
  let s1 := [CallEnq 1 10; g 1; g 1; g 1] ++ enq 2 20 ++ [CallDeq 3; g 3; g 3] in
  let s2 := enq 1 10 ++ enq 1 11 ++ [CallEnq 1 12; g 1; g 1] in
  cq_hist (queue_run 4 s1) = [EnqCalled 1 10; EnqPlaced 1 10; EnqCalled 2 20; EnqPlaced 2 20; EnqReturned 2;
                              DeqCalled 3; DeqEmpty 3] /\
  cq_hist (queue_run 2 s2) = [EnqCalled 1 10; EnqPlaced 1 10; EnqReturned 1; EnqCalled 1 11; EnqPlaced 1 11;
                              EnqReturned 1; EnqCalled 1 12; EnqFull 1] /\
  prompt 4 s1 /\ prompt 2 s2.
Proof.
  split; [reflexivity|]. split; [reflexivity|]. split; apply C25_runs_are_prompt; reflexivity.
Qed.
