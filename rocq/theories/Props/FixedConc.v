(** C89: a fixed buffer whose getChunk, returnChunk, isFull and chunk_count are called
    directly by any number of threads, fewer than 2^64 times (after which the
    counter wraps, C18). *)
From Verif Require Import Base Spec.FixedHistory Model.Queue Model.Interleave Model.FixedConc Proofs.Interleave Proofs.RingConc Proofs.FixedConc.
From Coq Require Import Permutation.
Local Open Scope N_scope.

Definition few_calls (n : N) (sched : list fact) : Prop := N.of_nat (calls (f_hist (frun n sched))) < 2 ^ 64.

(** Every chunk is handed out at most once, and carries the id of its user for good. *)
Theorem C89_once : forall n sched, few_calls n sched -> let h := f_hist (frun n sched) in
  NoDup (handed h) /\ (forall c, In c (handed h) -> c < n) /\
  (forall t c, In (FGot t (Some c)) h -> f_user (frun n sched) c = Some t).
Proof.
  intros n sched L h. destruct (run_FI n sched L) as (F & k & b & I). pose proof (fi_u _ _ _ _ _ I) as U0. split; [apply U0|]. split; [|apply I].
  intros c H. assert (c < N.min F n) by (apply (u_range _ _ _ _ U0); exact H). lia.
Qed.
Print Assumptions C89_once.

(** While getChunk prepares a chunk nobody else has it. *)
Theorem C89_exclusive : forall n sched t c, few_calls n sched ->
  f_pc (frun n sched) t = FReset c \/ f_pc (frun n sched) t = FLoan c ->
  ~ In c (handed (f_hist (frun n sched))) /\
  forall u, u <> t -> f_pc (frun n sched) u <> FReset c /\ f_pc (frun n sched) u <> FLoan c.
Proof.
  intros n sched t c L P. destruct (run_FI n sched L) as (F & k & b & I). pose proof (fi_u _ _ _ _ _ I) as U0.
  assert (fhand (frun n sched) t = Some c) as H by (unfold fhand; destruct P as [P|P]; now rewrite P).
  destruct (u_hand _ _ _ _ U0 _ _ H) as (_ & N). split; [exact N|]. intros u Ne.
  split; intros X; apply Ne; apply (u_inj _ _ _ _ U0 u t c); auto; unfold fhand; now rewrite X.
Qed.
Print Assumptions C89_exclusive.

(** When nobody is inside getChunk, the chunks handed out are the first ones, as many as
    there were calls, or all of them. *)
Theorem C89_all : forall n sched, few_calls n sched -> let h := f_hist (frun n sched) in
  answers h = calls h -> Permutation (handed h) (map N.of_nat (seq 0 (Nat.min (calls h) (N.to_nat n)))).
Proof.
  intros n sched L h A. destruct (run_FI n sched L) as (F & k & b & I). pose proof (fi_u _ _ _ _ _ I) as U0.
  destruct (fi_asking _ _ _ _ _ I) as (K1 & K2 & K3). destruct (fi_busy _ _ _ _ _ I) as (B1 & B2 & B3). fold h in K3, B3.
  assert (b = []) as -> by (destruct b; auto; cbn [length] in B3; lia).
  assert (forall t, f_pc (frun n sched) t = FIdle) as Idle by (intros t; destruct (f_pc (frun n sched) t) eqn:P; auto; exfalso; apply (B2 t); congruence).
  assert (k = []) as -> by (destruct k as [|t k]; auto; specialize (proj1 (K2 t) (or_introl eq_refl)); rewrite Idle; discriminate).
  cbn [length] in K3. apply NoDup_Permutation; [apply U0|apply FinFun.Injective_map_NoDup; [intros x y; lia|apply seq_NoDup]|].
  intros c. rewrite in_map_iff. split.
  - intros H. apply (u_range _ _ _ _ U0) in H. exists (N.to_nat c). split; [lia|]. apply in_seq. lia.
  - intros (x & <- & H). apply in_seq in H. destruct (u_all _ _ _ _ U0 (N.of_nat x)) as [X|(t & X)]; [lia|exact X|]. unfold fhand in X. rewrite Idle in X. discriminate.
Qed.
Print Assumptions C89_all.

(** Null means that more calls than chunks were made; full, that as many were made; not
    full, that fewer have been answered. *)
Theorem C89_null_and_full : forall n sched, few_calls n sched -> forall before e after,
  f_hist (frun n sched) = before ++ e :: after ->
  match e with
  | FGot _ None => n < N.of_nat (calls before)
  | FTold _ true => n <= N.of_nat (calls before)
  | FTold _ false => N.of_nat (answers before) < n
  | _ => True
  end.
Proof.
  intros n sched L a e b E. destruct (run_FI n sched L) as (F & k & l & I). pose proof (fi_tells _ _ _ _ _ I a e b E) as T.
  destruct e as [t|t [c|]|t c|t [|]|t x]; auto.
Qed.
Print Assumptions C89_null_and_full.

(** Once it was seen to be full it stays full: isFull says so, and a getChunk that is
    called afterwards returns null. *)
Theorem C89_full_for_good : forall n sched, few_calls n sched -> forall before e between after,
  f_hist (frun n sched) = before ++ e :: between ++ after -> seen_full e ->
  (forall u b rest, after = FTold u b :: rest -> b = true) /\
  (forall u m x rest, after = FCalled u :: m ++ x :: rest -> (forall y, In y m -> f_actor y <> u) -> f_actor x = u -> x = FGot u None).
Proof.
  intros n sched L a e m r E S. destruct (run_FI n sched L) as (F & k & l & I). split.
  - intros u b rest ->. eapply (fi_told _ _ _ _ _ I); eauto.
  - intros u m' x rest -> N Ax. eapply (fi_after _ _ _ _ _ I); eauto.
Qed.
Print Assumptions C89_full_for_good.

(** chunk_count covers every chunk handed out before, and never exceeds the size: it reads
    its counter once. *)
Theorem C89_counted : forall n sched, few_calls n sched -> forall before t k after,
  f_hist (frun n sched) = before ++ FCounted t k :: after ->
  k <= n /\ k <= N.of_nat (calls before) /\ N.min n (N.of_nat (answers before)) <= k /\ forall c, In c (handed before) -> c < k.
Proof. intros n sched L a t k b E. destruct (run_FI n sched L) as (F & q & l & I). exact (fi_tells _ _ _ _ _ I _ _ _ E). Qed.
Print Assumptions C89_counted.

(** on_loan is the number of chunks handed out and not given back. *)
Theorem C89_loaned : forall n sched, few_calls n sched -> n < 2 ^ 64 -> let h := f_hist (frun n sched) in
  N.of_nat (length (handed h)) = f_loan (frun n sched) + N.of_nat (length (came_back h)).
Proof.
  intros n sched L Hn h. destruct (C89_once n sched L) as (D & R & _). destruct (run_FI n sched L) as (F & q & l & I).
  destruct (fi_loan _ _ _ _ _ I) as (L1 & L2). destruct (fi_back _ _ _ _ _ I) as (K1 & K2). fold h in D, R, L1, K1, K2. unfold w64 in *.
  assert (N.of_nat (length (handed h)) <= n) as B.
  { assert (length (handed h) <= length (map N.of_nat (seq 0 (N.to_nat n))))%nat as X; [|rewrite map_length, seq_length in X; lia].
    apply NoDup_incl_length; auto. intros x Hx. apply in_map_iff. exists (N.to_nat x). split; [lia|]. apply in_seq. apply R in Hx. lia. }
  pose proof (NoDup_incl_length K1 K2) as B2. rewrite (N.mod_small (N.of_nat (length (handed h)))) in L1 by lia.
  destruct (N.lt_ge_cases (f_loan (frun n sched) + N.of_nat (length (came_back h))) (2 ^ 64)) as [X|X]; [now rewrite N.mod_small in L1|].
  exfalso. set (s := f_loan (frun n sched) + N.of_nat (length (came_back h))) in *.
  assert (s = (s - 2 ^ 64) + 1 * 2 ^ 64) as Es by lia. rewrite Es, N.mod_add, N.mod_small in L1 by lia. lia.
Qed.
Print Assumptions C89_loaned.

(** getChunk answers within three steps of its own thread, whatever the others do. *)
Theorem C89_wait_free : forall n sched t more, f_pc (frun n sched) t <> FIdle ->
  (3 <= length (filter (fun a => match a with FGo u => Nat.eqb u t | _ => false end) more))%nat ->
  exists e o, f_hist (frun n (sched ++ more)) = f_hist (frun n sched) ++ e /\ In (FGot t o) e.
Proof.
  intros n sched t more P L. unfold frun. rewrite run_app. apply answered; auto. unfold own.
  assert (forall p, left_to_do p <= 3)%nat as K by (intros p; destruct p; cbn; lia). specialize (K (f_pc (run fstep (cfixed_new n) sched) t)). lia.
Qed.
Print Assumptions C89_wait_free.

(** Two chunks and three threads; thread 2 is told that the buffer is full before the
    chunks have been handed out, and then gets null. *)
Example C89_case :
  let sched := [FCallGet 0; FCallGet 1; FGo 1; FGo 0; FGo 0; FGo 0; FIsFull 2; FCount 2; FCallGet 2; FGo 2; FGo 1; FGo 1; FCallRet 2 0%N; FIsFull 0]%nat in
  few_calls 2 sched /\
  f_hist (frun 2 sched) = [FCalled 0; FCalled 1; FGot 0 (Some 1); FTold 2 true; FCounted 2 2; FCalled 2; FGot 2 None; FGot 1 (Some 0); FGaveBack 2 0; FTold 0 true] /\
  f_loan (frun 2 sched) = 1 /\ f_user (frun 2 sched) 1 = Some 0%nat.
Proof. cbv zeta. split; [vm_compute; reflexivity|]. repeat split; vm_compute; reflexivity. Qed.
