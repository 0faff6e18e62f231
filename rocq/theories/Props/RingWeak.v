(** C92-C93: a ring buffer whose getChunk and returnChunk are called by any number of
    threads, on memory as the C++ standard describes it: with the memory orders that
    the buffer and its queue ask for, and no others. *)
From Verif Require Import Base Spec.QueueHistory Spec.RingHistory Model.Queue Model.Buffer Model.Interleave Model.WeakMem Model.WeakQueue Model.RingConc Model.RingWeak
  Proofs.Interleave Proofs.WeakMem Proofs.WeakQueue Proofs.RingConc Proofs.RingWeak.
Local Open Scope N_scope.

(** The accesses to the contents of chunk [c] that were made so far, each by its number. *)
Definition accessed (r : wring) (c : N) (e : nat) : Prop :=
  exists a, nth_error (accs (wq_mem (v_q r))) e = Some a /\ a_loc a = chunk_var c.
(** Access number [e] happened before whatever thread [t] does next. *)
Definition before_next (r : wring) (t : tid) (e : nat) : Prop := known (seen (wq_mem (v_q r)) t) e = true.

(** There is no data race: neither on the contents of a chunk, which getChunk resets and
    the users read and write, nor on the cells of the queue. *)
Theorem C92_no_race : forall n sched, 1 <= n <= 2 ^ 32 -> N.of_nat (length sched) <= 2 ^ 62 ->
  races (wq_mem (v_q (vrun n sched))) = [].
Proof.
  intros n sched Hn L. destruct (vrun_inv n Hn sched L) as (F & R & _).
  destruct (races (wq_mem (v_q (vrun n sched)))) as [|x l] eqn:E; [reflexivity|exfalso].
  destruct (vi_race _ _ _ R x) as (c & ->); [rewrite E; now left|].
  apply (w_race _ _ (vi_q _ _ _ R) c). rewrite E. now left.
Qed.
Print Assumptions C92_no_race.

(** Whoever has a chunk sees all that was done to it: every access to it so far happened
    before what its user does next. *)
Theorem C92_user_sees : forall n sched t c e, 1 <= n <= 2 ^ 32 -> N.of_nat (length sched) <= 2 ^ 62 ->
  user_of c (v_hist (vrun n sched)) = Some t -> accessed (vrun n sched) c e -> before_next (vrun n sched) t e.
Proof.
  intros n sched t c e Hn L H (a & A & B). destruct (vrun_inv n Hn sched L) as (F & R & _). exact (vi_lent _ _ _ R t c H e a A B).
Qed.
Print Assumptions C92_user_sees.

(** So does the getChunk that resets it. *)
Theorem C92_reset_sees : forall n sched t c e, 1 <= n <= 2 ^ 32 -> N.of_nat (length sched) <= 2 ^ 62 ->
  v_pc (vrun n sched) t = GReset c -> accessed (vrun n sched) c e -> before_next (vrun n sched) t e.
Proof.
  intros n sched t c e Hn L H (a & A & B). destruct (vrun_inv n Hn sched L) as (F & R & _).
  apply (vi_hand _ _ _ R t c) with (a := a); auto. unfold vhand. now rewrite H.
Qed.
Print Assumptions C92_reset_sees.

(** A chunk that nobody has got yet has not been accessed. *)
Theorem C92_untouched : forall n sched c e, 1 <= n <= 2 ^ 32 -> N.of_nat (length sched) <= 2 ^ 62 ->
  N.of_nat (claims (v_hist (vrun n sched))) <= c -> ~ accessed (vrun n sched) c e.
Proof.
  intros n sched c e Hn L H (a & A & B). destruct (vrun_inv n Hn sched L) as (F & R & _).
  pose proof (vi_claims _ _ _ R) as C. pose proof (vi_fresh _ _ _ R c vbot ltac:(lia) e a A B) as X. discriminate X.
Qed.
Print Assumptions C92_untouched.

(** C93. No chunk is lent to two users at a time, none is invented, and no pointer is
    used that the queue never got. *)
Theorem C93_lent_once : forall n sched, 1 <= n <= 2 ^ 32 -> N.of_nat (length sched) <= 2 ^ 62 ->
  NoDup (lent_out (v_hist (vrun n sched))) /\ (forall c, In c (lent_out (v_hist (vrun n sched))) -> c < n) /\ v_bad (vrun n sched) = false.
Proof.
  intros n sched Hn L. destruct (vrun_inv n Hn sched L) as (F & R & _). pose proof (vi_u _ _ _ R) as U1.
  pose proof (u_nodup _ _ _ _ U1) as D. apply nodup_app in D as (D & _). split; [exact D|]. split; [|apply R].
  intros c H. assert (c < N.min F n) by (apply (u_range _ _ _ _ U1), in_or_app; auto). lia.
Qed.
Print Assumptions C93_lent_once.

(** While getChunk prepares a chunk nobody else has it. *)
Theorem C93_exclusive : forall n sched t c, 1 <= n <= 2 ^ 32 -> N.of_nat (length sched) <= 2 ^ 62 ->
  v_pc (vrun n sched) t = GReset c \/ v_pc (vrun n sched) t = GLoan c ->
  user_of c (v_hist (vrun n sched)) = None /\ ~ In c (lent_out (v_hist (vrun n sched))) /\
  forall u, u <> t -> v_pc (vrun n sched) u <> GReset c /\ v_pc (vrun n sched) u <> GLoan c.
Proof.
  intros n sched t c Hn L P. destruct (vrun_inv n Hn sched L) as (F & R & _). pose proof (vi_u _ _ _ R) as U1.
  assert (vhand (vrun n sched) t = Some c) as H by (unfold vhand; destruct P as [P|P]; now rewrite P).
  destruct (u_hand _ _ _ _ U1 _ _ H) as (_ & NI).
  assert (~ In c (lent_out (v_hist (vrun n sched)))) as NL by (intros X; apply NI, in_or_app; auto).
  split; [|split; [exact NL|]].
  - destruct (user_of c _) as [u|] eqn:E; [|reflexivity]. now apply (vi_user _ _ _ R) in E.
  - intros u Ne. split; intros X; apply Ne; apply (u_inj _ _ _ _ U1 u t c); auto; unfold vhand; now rewrite X.
Qed.
Print Assumptions C93_exclusive.

(** Calls of getChunk are served in one order, each at a moment inside the call: every
    chunk once, in the order of the buffer, and then the chunks in the order in
    which they came back, although the threads do not agree on what they see. *)
Theorem C93_order : forall n sched, 1 <= n <= 2 ^ 32 -> N.of_nat (length sched) <= 2 ^ 62 -> forall pre t c post,
  v_hist (vrun n sched) = pre ++ GetReturned t c :: post ->
  exists before between, pre = before ++ Claimed t :: between /\ (forall e, In e between -> r_actor e <> t) /\
    due n (v_hist (vrun n sched)) (claims before) = Some c.
Proof. intros n sched Hn L. destruct (vrun_inv n Hn sched L) as (F & R & _). exact (vi_served _ _ _ R). Qed.
Print Assumptions C93_order.

(** One chunk. Thread 0 gets it, writes it and gives it back; thread 1 first looks at an
    outdated number and finds the queue empty, then gets the chunk and writes it. *)
Arguments VGet t%nat.
Arguments VRet t%nat c%N.
Arguments VUse t%nat c%N write.
Arguments VGo t%nat i%nat f%N n%N spurious.
Definition one_chunk : list vact :=
  [VGet 0; VGo 0 0 0 1 false; VGo 0 0 0 0 false; VGo 0 0 0 1 false; VUse 0 0 true;
   VRet 0 0; VGo 0 0 0 0 false; VGo 0 0 0 0 false; VGo 0 0 0 0 false; VGo 0 0 0 1 false; VGo 0 0 0 0 false; VGo 0 0 0 1 false; VGo 0 0 0 2 false;
   VGet 1; VGo 1 0 0 2 false;
   VGo 1 0 0 0 false; VGo 1 0 0 0 false; VGo 1 1 0 0 false;
   VGo 1 0 0 0 false; VGo 1 0 0 0 false; VGo 1 0 0 0 false; VGo 1 0 0 1 false; VGo 1 0 0 0 false; VGo 1 0 1 2 false;
   VGo 1 0 0 0 false; VGo 1 0 0 3 false; VUse 1 0 true].

Example C92_case :
  let r := vrun 1 one_chunk in
  v_hist r = [GetCalled 0; Claimed 0; GetReturned 0 0; RetCalled 0 0; Placed 0 0; RetReturned 0; GetCalled 1; Claimed 1; GetReturned 1 0] /\
  In (DeqEmpty 1%nat) (wq_hist (v_q r)) /\ user_of 0 (v_hist r) = Some 1%nat /\ v_pc (vrun 1 (firstn 24 one_chunk)) 1%nat = GReset 0 /\
  accessed r 0 0%nat /\ accessed r 0 1%nat /\ before_next r 1%nat 1%nat /\ races (wq_mem (v_q r)) = [].
Proof.
  cbv zeta. split; [vm_compute; reflexivity|]. split; [vm_compute; tauto|]. split; [vm_compute; reflexivity|]. split; [vm_compute; reflexivity|].
  split; [exists {| a_loc := chunk_var 0; a_write := true |}; split; vm_compute; reflexivity|].
  split; [exists {| a_loc := chunk_var 0; a_write := true |}; split; vm_compute; reflexivity|].
  split; vm_compute; reflexivity.
Qed.

(** A thread that uses the chunk without having got it would race. *)
Example C92_case_race :
  let m := wq_mem (v_q (vrun 1 (firstn 23 one_chunk))) in
  races (wtouch m 2%nat (chunk_var 0) true None) = [chunk_var 0] /\ races (wtouch m 1%nat (chunk_var 0) true None) = [].
Proof. split; vm_compute; reflexivity. Qed.

Example C93_case : lent_out (v_hist (vrun 1 one_chunk)) = [0] /\ due 1 (v_hist (vrun 1 one_chunk)) 1 = Some 0.
Proof. split; vm_compute; reflexivity. Qed.
