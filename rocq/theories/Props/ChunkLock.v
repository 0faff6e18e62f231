(** C28: the chunk lock under every interleaving, in release and debug builds. *)
From Verif Require Import Base Spec.LockHistory Model.Interleave Model.ChunkLock Proofs.Interleave Proofs.ChunkLock.

(** At most one thread is inside at any time, and the assertions in unlock
    never fail. *)
Theorem C28_mutual_exclusion : forall ndebug sched,
  let h := lhist (lock_run ndebug sched) in
  length (holders h) <= 1 /\ forall t, ~ In (AssertFailed t) h.
Proof.
  intros nd sched h. destruct (lock_run_inv nd sched) as (I & (A & _) & _). split; [|exact A].
  destruct I as [(_ & H & _)|(t & sd & _ & H & _)]; unfold h; rewrite H; cbn; lia.
Qed.
Print Assumptions C28_mutual_exclusion.

(** A try_lock fails only if, at some moment during the call, a thread was
    inside on the master side. *)
Theorem C28_try_fails_only_under_master : forall ndebug sched t before after,
  lhist (lock_run ndebug sched) = before ++ TryFailed t :: after ->
  exists earlier m1 m2 u,
    before = earlier ++ TryCalled t :: m1 ++ m2 /\
    (forall e, In e (m1 ++ m2) -> actor e <> t) /\
    holders (earlier ++ TryCalled t :: m1) = [(u, Master)].
Proof.
  intros nd sched t p s E. destruct (lock_run_inv nd sched) as (_ & _ & T).
  exact (proj1 (T t) p s E).
Qed.
Print Assumptions C28_try_fails_only_under_master.

(** Whenever nobody is inside, the next attempt of a thread in lock or try_lock
    that does not fail spuriously gets in; and a thread inside can always leave. *)
Theorem C28_free_lock_is_taken : forall ndebug sched t,
  let s := lock_run ndebug sched in
  (holders (lhist s) = [] -> forall sd,
   lpc_of s t = InLock sd \/ (lpc_of s t = InTry /\ sd = Slave) ->
   holders (lhist (move (lstep ndebug) s (Attempt t false))) = [(t, sd)]) /\
  (forall sd, In (t, sd) (holders (lhist s)) ->
   holders (lhist (move (lstep ndebug) s (CallUnlock t))) = []).
Proof.
  intros nd sched t s. destruct (lock_run_inv nd sched) as (I & _ & _). fold s in I. split.
  - intros H0 sd P. destruct I as [(W & H & Q)|(t0 & sd0 & W & H & Q)]; [|congruence].
    unfold move. cbn [lstep cas_weak]. rewrite W. cbn [lword_eqb andb negb].
    destruct P as [P|(P & ->)]; rewrite P; cbn [lput lhist]; rewrite holders_snoc, H; reflexivity.
  - intros sd Hi. destruct I as [(W & H & Q)|(t0 & sd0 & W & H & Q)]; rewrite H in Hi; [destruct Hi|].
    destruct Hi as [[= -> ->]|[]]. unfold move. cbn [lstep].
    rewrite (proj2 (Q t sd) (conj eq_refl eq_refl)). unfold unlock_step. rewrite W.
    destruct nd; [|destruct sd]; cbn [lword_eqb taken lput lhist]; rewrite holders_snoc, H; cbn; now rewrite Nat.eqb_refl.
Qed.
Print Assumptions C28_free_lock_is_taken.

(** A try_lock does not wait for a master: its next attempt while one is inside, spurious
    failure or not, ends the call. *)
Theorem C28_try_does_not_wait : forall ndebug sched t u spurious,
  let s := lock_run ndebug sched in
  holders (lhist s) = [(u, Master)] -> lpc_of s t = InTry ->
  let s' := move (lstep ndebug) s (Attempt t spurious) in
  lhist s' = lhist s ++ [TryFailed t] /\ lpc_of s' t = Out /\ holders (lhist s') = [(u, Master)].
Proof.
  intros nd sched t u sp s H0 P. destruct (lock_run_inv nd sched) as (I & _ & _). fold s in I.
  destruct I as [(W & H & Q)|(t0 & sd0 & W & H & Q)]; [congruence|]. rewrite H in H0. injection H0 as -> ->.
  unfold move. cbn [lstep cas_weak]. rewrite W, P. cbn [taken lword_eqb andb lput lhist lpc_of].
  split; [reflexivity|]. split; [unfold tset; now rewrite Nat.eqb_refl|]. rewrite holders_snoc, H. reflexivity.
Qed.
Print Assumptions C28_try_does_not_wait.

(** Thread 1 is inside on the slave side, thread 2 spins on the master side,
    gets in when 1 leaves, and then thread 3's try_lock fails. *)
Example C28_case :
  let sched := [CallTry 1; Attempt 1 true; Attempt 1 false; CallLock 2 Master; Attempt 2 false; CallUnlock 1;
                CallTry 3; Attempt 2 false; Attempt 3 false] in
  lhist (lock_run false sched) =
    [TryCalled 1; Entered 1 Slave; LockCalled 2 Master; Left 1 Slave; TryCalled 3; Entered 2 Master; TryFailed 3] /\
  holders (lhist (lock_run false sched)) = [(2, Master)].
Proof. split; reflexivity. Qed.
Example C28_case_try :
  let s := lock_run false [CallTry 1; Attempt 1 false; CallLock 2 Master; CallUnlock 1; CallTry 3; Attempt 2 false] in
  holders (lhist s) = [(2, Master)] /\ lpc_of s 3 = InTry.
Proof. split; reflexivity. Qed.
