(** C103: the ids by which the library calls threads (in chunks, thread names and the
    list of ended threads), when threads start and end and processes fork. *)
From Verif Require Import Base Spec.ThreadIds Model.Interleave Model.ThreadIds Proofs.Interleave Proofs.ThreadIds.
Local Open Scope N_scope.

Definition ids (t : N) (sched : list os_act) : list id_event := sy_hist (os_run t sched).

(** A thread that was not forked is called by its own id. *)
Theorem C103_own : forall t0 sched x h v y, t0 <> 0 -> ids t0 sched = x ++ AskedId h v :: y -> ~ is_forked x h ->
  v <> 0 /\ exists p, lives x h p v.
Proof.
  intros t0 sched x h v y T H F. pose proof (os_inv_run t0 sched T) as I. pose proof (v_each _ I x _ y H) as (p & t & A & _ & B & _ & Z).
  specialize (B F). subst t. eauto.
Qed.
Print Assumptions C103_own.

(** The id of a thread does not change. *)
Theorem C103_stable : forall t0 sched x h v y w, t0 <> 0 -> ids t0 sched = x ++ AskedId h v :: y -> last_id x h = Some w -> v = w.
Proof.
  intros t0 sched x h v y w T H L. pose proof (os_inv_run t0 sched T) as I. destruct (v_each _ I x _ y H) as (p & t & _ & _ & _ & B & _). auto.
Qed.
Print Assumptions C103_stable.

(** Threads that are alive at the same time and that were not forked have different ids. *)
Theorem C103_distinct : forall t0 sched g h p t p' t' v w, t0 <> 0 ->
  let x := ids t0 sched in
  lives x g p t -> lives x h p' t' -> g <> h -> ~ is_forked x g -> ~ is_forked x h ->
  last_id x g = Some v -> last_id x h = Some w -> v <> w.
Proof.
  intros t0 sched g h p t p' t' v w T x A B N F F' L L' ->. pose proof (os_inv_run t0 sched T) as I.
  apply (v_lives _ I) in A as (c & A), B as (c' & B).
  destruct (v_own _ I _ A F) as [Q|Q]; cbn in Q; [rewrite (v_last _ I _ _ L) in Q; discriminate|]. rewrite (v_last _ I _ _ L) in Q. injection Q as ->.
  destruct (v_own _ I _ B F') as [Q|Q]; cbn in Q; [rewrite (v_last _ I _ _ L') in Q; discriminate|]. rewrite (v_last _ I _ _ L') in Q. injection Q as Q.
  apply N. pose proof (v_tids _ I _ _ A B Q) as E. now injection E.
Qed.
Print Assumptions C103_distinct.

(** A forked thread is called by the id that the thread that forked it had, if that had
    asked (or had been forked by one that had), and otherwise by its own. *)
Theorem C103_forked : forall t0 sched x h g p t y v z, t0 <> 0 ->
  ids t0 sched = x ++ Forked h g p t :: y ++ AskedId h v :: z -> (forall w, ~ In (AskedId h w) y) ->
  v = match memory x g with Some w => w | None => t end.
Proof.
  intros t0 sched x h g p t y v z T H N. pose proof (os_inv_run t0 sched T) as I.
  pose proof H as H0. rewrite app_comm_cons, app_assoc in H0. pose proof (v_each _ I _ _ z H0) as (p1 & t1 & A & Ev & _). rewrite Ev.
  assert (forall e, In e y -> began e <> None -> who e <> h) as B.
  { intros e X Q. apply in_split in X as (y1 & y2 & ->).
    assert (ids t0 sched = (x ++ Forked h g p t :: y1) ++ e :: y2 ++ AskedId h v :: z) as H' by (rewrite H, <- !app_assoc; reflexivity).
    pose proof (v_each _ I _ _ _ H') as An.
    intros W. destruct e; try (now destruct Q); cbn in An, W; subst; eapply (An (Forked h g p t)); try reflexivity; apply in_or_app; right; now left. }
  assert (memory (x ++ Forked h g p t :: y) h = memory x g) as ->.
  { clear - N B. induction y as [|e y IH] using rev_ind; [now rewrite memory_snoc, Nat.eqb_refl|].
    rewrite app_comm_cons, app_assoc, memory_snoc. rewrite IH.
    - destruct e; auto.
      + destruct (Nat.eqb_spec h0 h); auto. exfalso. apply (B (Forked h0 by_ pid tid)); [apply in_or_app; right; now left|discriminate|assumption].
      + destruct (Nat.eqb_spec h0 h); auto. subst. exfalso. apply (N v). apply in_or_app; right; now left.
    - intros w X. apply (N w), in_or_app. auto.
    - intros e' X. apply B, in_or_app. auto. }
  destruct (memory x g); auto. destruct A as ((e & X & Q) & _). apply in_app_or in X as [X|[<-|X]].
  - exfalso. pose proof (v_each _ I x _ _ H) as An. cbn in An. apply (An e X). destruct e; cbn in *; congruence.
  - cbn in Q. congruence.
  - exfalso. apply (B e X); destruct e; cbn in *; congruence.
Qed.
Print Assumptions C103_forked.

(** The id of the process is the current one, also after a fork. *)
Theorem C103_pid : forall t0 sched x h v y, t0 <> 0 -> ids t0 sched = x ++ AskedPid h v :: y -> exists t, lives x h v t.
Proof. intros t0 sched x h v y T H. pose proof (os_inv_run t0 sched T) as I. exact (v_each _ I x _ y H). Qed.
Print Assumptions C103_pid.

(** After a fork, two threads of one process that are both alive may have the same id: the
    thread that forked ends, and its id is used again for a thread of the new process. *)
Theorem C103_fork_refuted : exists sched g h p t t' v, let x := ids 10 sched in
  g <> h /\ lives x g p t /\ lives x h p t' /\ last_id x g = Some v /\ last_id x h = Some v.
Proof.
  exists [OAskId 0; OFork 0 20; OEnd 0; OSpawn 1 10; OAskId 1; OAskId 2], 1%nat, 2%nat, 20, 20, 10, 10.
  split; [discriminate|]. split; [|split; [|split; reflexivity]]; (split; [|cbn; intros X; repeat (destruct X as [X|X]; try discriminate); exact X]).
  - exists (Forked 1 0 20 20). split; [cbn; tauto|reflexivity].
  - exists (Spawned 2 1 20 10). split; [cbn; tauto|reflexivity].
Qed.
Print Assumptions C103_fork_refuted.

Example C103_case : ids 10 [OAskId 0; OSpawn 0 11; OAskId 1; OFork 1 20; OAskId 2; OAskPid 2; OSpawn 2 21; OAskId 3; OAskId 1; OEnd 0; OSpawn 1 12; OAskId 4] =
  [Started 0 10 10; AskedId 0 10; Spawned 1 0 10 11; AskedId 1 11; Forked 2 1 20 20; AskedId 2 11; AskedPid 2 20; Spawned 3 2 20 21;
   AskedId 3 21; AskedId 1 11; Ended 0; Spawned 4 1 10 12; AskedId 4 12].
Proof. now vm_compute. Qed.
(** A child forked before anybody asked has its own id. *)
Example C103_case_early : ids 10 [OFork 0 20; OAskId 1; OAskId 0] = [Started 0 10 10; Forked 1 0 20 20; AskedId 1 20; AskedId 0 10].
Proof. now vm_compute. Qed.
