(** The lock and the queue with the memory orders written in the code, on the
    memory of Model/WeakMem.v (threads need not agree on one order of accesses). *)
From Verif Require Import Base Spec.LockHistory Spec.QueueHistory Model.Queue Model.Interleave Model.ChunkLock
  Model.WeakMem Model.WeakLock Model.WeakQueue
  Proofs.Interleave Proofs.QueueConc Proofs.ChunkLock Proofs.WeakMem Proofs.WeakLock Proofs.WeakQueue.
Local Open Scope N_scope.

(** ** What the memory allows *)

(** Two unordered writes race. *)
Example two_writes_race :
  let m := wmem_new (fun _ => 0) (fun _ => 0) in
  let x := Loc 0 0 in
  races (wwrite (wwrite m 1%nat x 5) 2%nat x 6) = [x].
Proof. reflexivity. Qed.

(** Thread 1 writes x and sets the flag; thread 2 sees the flag and reads x: no
    race with release and acquire, a race if either side is relaxed. *)
Example message_passing :
  let m := wmem_new (fun _ => 0) (fun _ => 0) in
  let x := Loc 0 0 in let flag := Loc 1 0 in
  let race release acquire :=
    match wstore (wwrite m 1%nat x 5) 1%nat release flag 1 0 1 with
    | Some m1 => match wload m1 2%nat acquire flag 0%nat with
                 | Some (v, m2) => Some (v, races (snd (wread m2 2%nat x)))
                 | None => None
                 end
    | None => None
    end in
  race true true = Some (1, []) /\ race true false = Some (1, [x]) /\ race false true = Some (1, [x]).
Proof. repeat split. Qed.

(** Each of two threads may miss the other's store (store buffering). *)
Example store_buffering :
  let m := wmem_new (fun _ => 0) (fun _ => 0) in
  match wstore m 1%nat true (Loc 0 0) 1 0 1 with
  | Some m1 => match wstore m1 2%nat true (Loc 1 0) 1 0 1 with
               | Some m2 => match wload m2 1%nat true (Loc 1 0) 1%nat, wload m2 2%nat true (Loc 0 0) 1%nat with
                            | Some (a, _), Some (b, _) => Some (a, b)
                            | _, _ => None
                            end
               | None => None
               end
  | None => None
  end = Some (0, 0).
Proof. reflexivity. Qed.

(** ** C73: the lock *)

(** With the orders in chunk_lock.cc at most one thread is inside, the
    assertions hold, and no two accesses to what the lock protects race. *)
Theorem C73_lock_orders_accesses : forall ndebug sched,
  let s := wlock_run ndebug sched in
  races (wl_mem s) = [] /\ (length (holders (wl_hist s)) <= 1)%nat /\ forall t, ~ In (AssertFailed t) (wl_hist s).
Proof.
  intros nd sched s. destruct (wlock_run_inv nd sched) as (R & A & g & l & _ & _ & I). split; [exact R|]. split; [|exact A].
  destruct I as [(_ & H & _)|(t & sd & _ & H & _)]; unfold s; rewrite H; cbn; lia.
Qed.
Print Assumptions C73_lock_orders_accesses.

(** Thread 1 writes under the lock and leaves; thread 2 may still see the lock
    as it was at the start but cannot take it from that; it gets in after the
    newest store and overwrites. *)
Example C73_case :
  let before := [WCallTry 1%nat; WAttempt 1%nat 0%nat 4 false; WTouch 1%nat 7 (Some 5); WUnlock 1%nat 0%nat 4 9; WCallLock 2%nat Master] in
  let s := wlock_run true before in
  wlstep true s (WAttempt 2%nat 2%nat 3 false) = None /\
  let s' := wlock_run true (before ++ [WAttempt 2%nat 1%nat 0 false; WAttempt 2%nat 0%nat 12 false; WTouch 2%nat 7 None; WTouch 2%nat 7 (Some 6)]) in
  wl_hist s' = [TryCalled 1%nat; Entered 1%nat Slave; Left 1%nat Slave; LockCalled 2%nat Master; Entered 2%nat Master] /\
  plain (wl_mem s') (protected 7) = 6 /\ length (accs (wl_mem s')) = 3%nat.
Proof. repeat split. Qed.

(** ** C74: the queue *)

(** First in, first out for any number of threads; no item is read before it is
    written; no two accesses to a cell race. *)
Theorem C74_fifo_and_race_free : forall (T : Type) (cap j : N) (sched : list (wqact T)),
  cap = 2 ^ j -> 1 <= j -> j <= 61 -> N.of_nat (length sched) <= 2 ^ 62 ->
  let q := wqueue_run cap sched in
  let h := wq_hist q in
  (forall t, exists c, calls_to t h c) /\
  (forall before t between v after,
     h = before ++ DeqPlaced t :: between ++ DeqReturned t v :: after ->
     (forall e, In e between -> q_actor e <> t) ->
     exists x, v = Some x /\ nth_error (ins h) (outs before) = Some x) /\
  (outs h <= length (ins h))%nat /\
  forall c, ~ In (cell_data c) (races (wq_mem q)).
Proof.
  intros T cap j sched Hc H1 H2 L q h. destruct (wqueue_run_inv cap j Hc H1 H2 sched L) as (I & H).
  split; [|split; [exact (h_ret _ H)|split]].
  - intros t. eexists. apply H.
  - pose proof (w_bnd _ _ I) as B. unfold wE, wD in B. fold q h in B. lia.
  - apply I.
Qed.
Print Assumptions C74_fifo_and_race_free.

(** Two threads enqueue, the second one reading a stale position first; a third
    dequeues what was placed first. *)
Example C74_case :
  let g t i n := WGo t i (n - 1) n false in
  let sched := [WCallEnq 1%nat 10; g 1%nat 0%nat 1; g 1%nat 0%nat 1; g 1%nat 0%nat 1;
                WCallEnq 2%nat 20; g 2%nat 1%nat 1; g 2%nat 0%nat 1; g 2%nat 0%nat 2; g 2%nat 0%nat 2; g 2%nat 0%nat 2;
                g 1%nat 0%nat 1; g 1%nat 0%nat 1; g 2%nat 0%nat 2; g 2%nat 0%nat 2;
                WCallDeq 3%nat; g 3%nat 0%nat 1; g 3%nat 0%nat 1; g 3%nat 0%nat 1; g 3%nat 0%nat 1; g 3%nat 0%nat 2] in
  wq_hist (wqueue_run 4 sched) =
    [EnqCalled 1%nat 10; EnqPlaced 1%nat 10; EnqCalled 2%nat 20; EnqPlaced 2%nat 20; EnqReturned 1%nat; EnqReturned 2%nat;
     DeqCalled 3%nat; DeqPlaced 3%nat; DeqReturned 3%nat (Some 10)] /\
  races (wq_mem (wqueue_run 4 sched)) = [].
Proof. split; reflexivity. Qed.

(** ** C75: handing over *)

(** Whatever thread [t] did or had heard of before an enqueue happened before
    whatever thread [u] does after dequeuing that item; in particular what [t]
    wrote into the item is there and can be used without a race. *)
Theorem C75_enqueue_happens_before_dequeue : forall (T : Type) (cap j : N) (s1 s2 : list (wqact T)) a t x b a' u b' v r,
  cap = 2 ^ j -> 1 <= j -> j <= 61 -> N.of_nat (length (s1 ++ s2)) <= 2 ^ 62 ->
  let q := wqueue_run cap s1 in
  let q' := wqueue_run cap (s1 ++ s2) in
  wq_hist q = a ++ EnqPlaced t x :: b -> (forall e, In e b -> q_actor e <> t) ->
  wq_hist q' = a' ++ DeqPlaced u :: b' ++ DeqReturned u v :: r -> (forall e, In e b' -> q_actor e <> u) ->
  outs a' = length (ins a) ->
  (forall e, known (seen (wq_mem q) t) e = true -> known (seen (wq_mem q') u) e = true) /\
  forall y, (forall e c, nth_error (accs (wq_mem q')) e = Some c -> a_loc c = user_var y ->
               known (seen (wq_mem q) t) e = true \/ known (seen (wq_mem q') u) e = true) ->
    races (wtouch (wq_mem q') u (user_var y) true None) = races (wq_mem q').
Proof.
  intros T cap j s1 s2 a t x b a' u b' v r Hc H1 H2 L q q' E1 N1 E2 N2 Ek.
  destruct (hand_over cap j Hc H1 H2 s1 s2 a t x b a' u b' v r L E1 N1 E2 N2 Ek) as (_ & K).
  split; [exact K|]. intros y A. cbn.
  replace (ordered _ _ _ _ _) with true; [reflexivity|]. symmetry. apply (ordered_spec _ _ _ _ 0%nat).
  intros e c Hc' E _. cbn [Nat.add]. destruct (A e c Hc' E) as [X|X]; [apply K; exact X|exact X].
Qed.
Print Assumptions C75_enqueue_happens_before_dequeue.

(** Thread 1 writes a variable and hands it over through the queue. *)
Example C75_case :
  let g t i n := WGo t i (n - 1) n false in
  let s1 := [WUse 1%nat 0 true; WCallEnq 1%nat 10; g 1%nat 0%nat 1; g 1%nat 0%nat 1; g 1%nat 0%nat 1] in
  let s2 := [g 1%nat 0%nat 1; g 1%nat 0%nat 1;
             WCallDeq 3%nat; g 3%nat 0%nat 1; g 3%nat 0%nat 1; g 3%nat 0%nat 1; g 3%nat 0%nat 1; g 3%nat 0%nat 2] in
  wq_hist (wqueue_run 4 s1) = ([EnqCalled 1%nat 10] ++ EnqPlaced 1%nat 10 :: [])%list /\
  wq_hist (wqueue_run 4 (s1 ++ s2)) =
    ([EnqCalled 1%nat 10; EnqPlaced 1%nat 10; EnqReturned 1%nat; DeqCalled 3%nat] ++
     DeqPlaced 3%nat :: [] ++ DeqReturned 3%nat (Some 10) :: [])%list /\
  races (wq_mem (wqueue_run 4 (s1 ++ s2 ++ [WUse 3%nat 0 true]))) = [] /\
  races (wq_mem (wqueue_run 4 (s1 ++ s2 ++ [WUse 2%nat 0 true]))) = [user_var 0].
Proof. repeat split. Qed.

(** ** C76: when a dequeue finds nothing *)

(** With all threads agreeing on one order, a dequeue reports an empty queue only
    if all placed items are taken or the next one is still being enqueued
    (C27). With the orders in the header this is false: an enqueue may have
    returned, nothing may have been dequeued, and a dequeue called afterwards
    by another thread still reports an empty queue. *)
Theorem C76_empty_is_current_refuted : exists (cap : N) (sched : list (wqact N)) before after u,
  let h := wq_hist (wqueue_run cap sched) in
  h = before ++ DeqEmpty u :: after /\
  outs before = 0%nat /\ length (ins before) = 1%nat /\ ~ enqueue_pending before 0.
Proof.
  exists 4, [WCallEnq 1%nat 10; WGo 1%nat 0 0 1 false; WGo 1%nat 0 0 1 false; WGo 1%nat 0 0 1 false; WGo 1%nat 0 0 1 false;
             WGo 1%nat 0 0 1 false; WCallDeq 2%nat; WGo 2%nat 0 0 1 false; WGo 2%nat 1 0 1 false],
    [EnqCalled 1%nat 10; EnqPlaced 1%nat 10; EnqReturned 1%nat; DeqCalled 2%nat], [], 2%nat.
  split; [reflexivity|]. split; [reflexivity|]. split; [reflexivity|].
  intros (a & b & t & x & E & _ & H). destruct a as [|e1 [|e2 [|e3 [|e4 [|e5 a]]]]]; cbn in E; inversion E; subst.
  apply (H (EnqReturned 1%nat)); [now left|reflexivity].
Qed.
Print Assumptions C76_empty_is_current_refuted.

(** What is true: a dequeue that reports an empty queue was looking at a number
    [p] not beyond the next item, and its thread had not heard of the return of
    the enqueue with that number; an enqueue that reports a full queue had not
    heard of the return of the dequeue that makes room. (A thread has heard of
    its own calls, and of those that happened before by some synchronisation.) *)
Theorem C76_empty_means_unheard : forall (T : Type) (cap j : N) (sched : list (wqact T)) u i f n sp q',
  cap = 2 ^ j -> 1 <= j -> j <= 61 -> N.of_nat (length sched) <= 2 ^ 62 ->
  let q := wqueue_run cap sched in
  wqstep q (WGo u i f n sp) = Some q' -> wq_hist q' = wq_hist q ++ [DeqEmpty u] ->
  exists p, (p <= outs (wq_hist q))%nat /\
  forall s1 s2 a t x b r, sched = s1 ++ s2 ->
    wq_hist (wqueue_run cap s1) = a ++ EnqPlaced t x :: b ++ EnqReturned t :: r ->
    (forall e, In e b -> q_actor e <> t) -> length (ins a) = p ->
    ~ forall y, ts (seen (wq_mem (wqueue_run cap s1)) t) y <= ts (seen (wq_mem q) u) y.
Proof.
  intros T cap j sched u i f n sp q' Hc H1 H2 L q E Eh.
  destruct (empty_unheard cap j Hc H1 H2 sched u i f n sp q' L E Eh) as (p & Lp & Np). fold q in Lp, Np.
  exists (N.to_nat p). split; [unfold wD in Lp; lia|]. intros s1 s2 a t x b r -> Ea Hb Ek V. apply Np.
  rewrite app_length in L. destruct (wqueue_run_ended cap j Hc H1 H2 s1 ltac:(lia)) as (D & _).
  specialize (D _ _ _ _ _ Ea Hb). cbv zeta in D. rewrite Ek, N2Nat.id in D. destruct D as (g & Hg & Vg & Tg).
  exists g. split; [apply (run_mem_le cap s1 s2), Hg|]. split; [exact Vg|]. specialize (V (cell_seq (p mod cap))). lia.
Qed.
Print Assumptions C76_empty_means_unheard.

Theorem C76_full_means_unheard : forall (T : Type) (cap j : N) (sched : list (wqact T)) u i f n sp q',
  cap = 2 ^ j -> 1 <= j -> j <= 61 -> N.of_nat (length sched) <= 2 ^ 62 ->
  let q := wqueue_run cap sched in
  wqstep q (WGo u i f n sp) = Some q' -> wq_hist q' = wq_hist q ++ [EnqFull u] ->
  exists p, (p + N.to_nat cap <= length (ins (wq_hist q)))%nat /\
  forall s1 s2 a t b v r, sched = s1 ++ s2 ->
    wq_hist (wqueue_run cap s1) = a ++ DeqPlaced t :: b ++ DeqReturned t v :: r ->
    (forall e, In e b -> q_actor e <> t) -> outs a = p ->
    ~ forall y, ts (seen (wq_mem (wqueue_run cap s1)) t) y <= ts (seen (wq_mem q) u) y.
Proof.
  intros T cap j sched u i f n sp q' Hc H1 H2 L q E Eh.
  destruct (full_unheard cap j Hc H1 H2 sched u i f n sp q' L E Eh) as (p & Lp & Np). fold q in Lp, Np.
  exists (N.to_nat p). split; [unfold wE in Lp; lia|]. intros s1 s2 a t b v r -> Ea Hb Ek V. apply Np.
  rewrite app_length in L. destruct (wqueue_run_ended cap j Hc H1 H2 s1 ltac:(lia)) as (_ & D).
  specialize (D _ _ _ _ _ Ea Hb). cbv zeta in D. rewrite Ek, N2Nat.id in D. destruct D as (g & Hg & Vg & Tg).
  exists g. split; [apply (run_mem_le cap s1 s2), Hg|]. split; [exact Vg|]. specialize (V (cell_seq (p mod cap))). lia.
Qed.
Print Assumptions C76_full_means_unheard.

(** The thread that enqueued does not find the queue empty; the other may. *)
Example C76_case :
  let g t i := WGo t i 0 1 false in
  let enq := [WCallEnq 1%nat 10; g 1%nat 0%nat; g 1%nat 0%nat; g 1%nat 0%nat; g 1%nat 0%nat; g 1%nat 0%nat] in
  let q t := wqueue_run 4 (enq ++ [WCallDeq t; g t 0%nat]) in
  wqstep (q 1%nat) (g 1%nat 1%nat) = None /\
  (exists q', wqstep (q 2%nat) (g 2%nat 1%nat) = Some q' /\ wq_hist q' = (wq_hist (q 2%nat) ++ [DeqEmpty 2%nat])%list).
Proof. cbv zeta. split; [reflexivity|]. eexists. split; reflexivity. Qed.
