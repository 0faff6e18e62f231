(** C87-C88: a ring buffer whose getChunk and returnChunk are called directly by any
    number of threads, with the lock-free queue inside it. *)
From Verif Require Import Base Spec.QueueHistory Spec.RingHistory Model.Queue Model.Buffer Model.Interleave Model.QueueConc Model.RingConc
  Proofs.Buffer Proofs.Interleave Proofs.QueueConc Proofs.RingConc Proofs.RingStage Proofs.RingWait Proofs.RingTurns.
From Coq Require Import Permutation.
Local Open Scope N_scope.

(** A ring of 1 to 2^32 chunks; the words that count do not wrap, and no thread
    uses a position of the queue that it read 2^62 placements ago. *)
Definition used (n : N) (sched : list ract) : Prop :=
  1 <= n <= 2 ^ 32 /\ timely n sched /\ N.of_nat (asked (r_hist (rrun n sched))) < 2 ^ 64.

(** So it is in every run of fewer than 2^62 steps. *)
Theorem C87_short_runs : forall n sched, 1 <= n <= 2 ^ 32 -> N.of_nat (length sched) < 2 ^ 62 -> used n sched.
Proof. intros n sched Hn L. split; auto. now apply short_timely. Qed.
Print Assumptions C87_short_runs.

Lemma used_inv n sched : used n sched -> exists F gs asking giving, RI n (rrun n sched) F gs asking giving.
Proof. intros (Hn & T & L). now apply run_RI. Qed.

(** No chunk is lent to two users at a time, none is invented, and no pointer is used
    that the queue never got. *)
Theorem C87_lent_once : forall n sched, used n sched ->
  NoDup (lent_out (r_hist (rrun n sched))) /\ (forall c, In c (lent_out (r_hist (rrun n sched))) -> c < n) /\ r_bad (rrun n sched) = false.
Proof.
  intros n sched U0. destruct (used_inv _ _ U0) as (F & gs & k & g & R). pose proof (ri_u _ _ _ _ _ _ R) as U1.
  pose proof (u_nodup _ _ _ _ U1) as D. apply nodup_app in D as (D & _). split; [exact D|]. split; [|apply R].
  intros c H. assert (c < N.min F n) by (apply (u_range _ _ _ _ U1), in_or_app; auto). lia.
Qed.
Print Assumptions C87_lent_once.

(** While getChunk prepares a chunk nobody else has it: no user, no other getChunk. *)
Theorem C87_exclusive : forall n sched t c, used n sched ->
  r_pc (rrun n sched) t = GReset c \/ r_pc (rrun n sched) t = GLoan c ->
  ~ In c (lent_out (r_hist (rrun n sched))) /\
  forall u, u <> t -> r_pc (rrun n sched) u <> GReset c /\ r_pc (rrun n sched) u <> GLoan c /\
    (last_of u (r_hist (rrun n sched)) <> Some (RetCalled u c)).
Proof.
  intros n sched t c U0 P. destruct (used_inv _ _ U0) as (F & gs & k & g & R). pose proof (ri_u _ _ _ _ _ _ R) as U1.
  assert (hand (rrun n sched) t = Some c) as H by (unfold hand; destruct P as [P|P]; now rewrite P).
  destruct (u_hand _ _ _ _ U1 _ _ H) as (_ & NI). split; [intros X; apply NI, in_or_app; auto|].
  intros u Ne. assert (hand (rrun n sched) u <> Some c) as Hu by (intros X; apply Ne; eapply (u_inj _ _ _ _ U1); eauto).
  destruct U0 as (Hn & T & L). pose proof (run_stage n Hn _ T L u) as S. unfold hand in Hu.
  split; [|split]; intros X.
  - now rewrite X in Hu.
  - now rewrite X in Hu.
  - unfold outside, stage in S. destruct (r_pc (rrun n sched) u) eqn:Pu; unfold outside in S; try rewrite X in S;
      try discriminate; try contradiction; try (destruct (cq_pc _ u); congruence). destruct S as (d & S). congruence.
Qed.
Print Assumptions C87_exclusive.

(** A chunk that was got carries the id of the thread that got it until it is given back. *)
Theorem C87_marked : forall n sched, used n sched -> forall before t c after,
  r_hist (rrun n sched) = before ++ GetReturned t c :: after -> (forall u, ~ In (RetCalled u c) after) ->
  r_user (rrun n sched) c = Some t.
Proof. intros n sched U0. destruct (used_inv _ _ U0) as (F & gs & k & g & R). exact (ri_marked _ _ _ _ _ _ R). Qed.
Print Assumptions C87_marked.

(** Calls of getChunk are served in one order, each at a moment inside the call: every
    chunk once, in the order of the buffer, and then the chunks in the order in
    which they came back, each at a moment inside its returnChunk. *)
Theorem C87_order : forall n sched, used n sched -> forall pre t c post,
  r_hist (rrun n sched) = pre ++ GetReturned t c :: post ->
  exists before between, pre = before ++ Claimed t :: between /\ (forall e, In e between -> r_actor e <> t) /\
    due n (r_hist (rrun n sched)) (claims before) = Some c.
Proof. intros n sched U0. destruct (used_inv _ _ U0) as (F & gs & k & g & R). exact (ri_served _ _ _ _ _ _ R). Qed.
Print Assumptions C87_order.

(** What the last event of a thread says about the call it is in. *)
Theorem C87_calls : forall n sched t, used n sched -> let h := r_hist (rrun n sched) in
  match r_pc (rrun n sched) t with
  | RIdle => outside t h
  | GCount => last_of t h = Some (GetCalled t)
  | GWait => last_of t h = Some (GetCalled t) \/ last_of t h = Some (Claimed t)
  | GReset _ | GLoan _ => last_of t h = Some (Claimed t)
  | RPut c => last_of t h = Some (RetCalled t c) \/ last_of t h = Some (Placed t c)
  | RLoan => exists c, last_of t h = Some (Placed t c)
  end.
Proof.
  intros n sched t (Hn & T & L) h. pose proof (run_stage n Hn _ T L t) as S. fold h in S. unfold stage in S.
  destruct (r_pc (rrun n sched) t); auto; destruct (cq_pc _ t); auto.
Qed.
Print Assumptions C87_calls.

Lemma no_giving n sched F gs k g : used n sched -> RI n (rrun n sched) F gs k g ->
  forall t, In t g <-> exists c, last_of t (r_hist (rrun n sched)) = Some (RetCalled t c) \/ last_of t (r_hist (rrun n sched)) = Some (Placed t c).
Proof.
  intros U0 R t. destruct (ri_giving _ _ _ _ _ _ R) as (_ & G & _). rewrite (G t). pose proof (C87_calls n sched t U0) as S. cbn zeta in S.
  unfold outside in S. destruct (r_pc (rrun n sched) t) as [| | |d|d|d|] eqn:P.
  1: split; [intros [X|(c & X)]; discriminate|intros (c & [X|X]); now rewrite X in S].
  1,2,3,4: split; [intros [X|(c & X)]; discriminate|intros (c & [X|X]); rewrite X in S; intuition discriminate].
  - split; [intros _; exists d; tauto|intros _; right; eauto].
  - split; [intros _; destruct S as (c & S); exists c; auto|auto].
Qed.

(** No chunk is lost: when nobody is inside a call, the chunks that were ever taken are
    those lent out and those returned and not taken again. *)
Theorem C87_none_lost : forall n sched, used n sched -> let h := r_hist (rrun n sched) in
  (forall t, outside t h) ->
  Permutation (lent_out h ++ skipn (claims h - N.to_nat n) (backs h)) (map N.of_nat (seq 0 (Nat.min (asked h) (N.to_nat n)))).
Proof.
  intros n sched U0 h Out. destruct (used_inv _ _ U0) as (F & gs & k & g & R). pose proof (ri_u _ _ _ _ _ _ R) as U1.
  assert (forall t, r_pc (rrun n sched) t = RIdle) as Idle.
  { intros t. pose proof (C87_calls n sched t U0) as S. fold h in S. cbn zeta in S. specialize (Out t). unfold outside in *.
    destruct (r_pc (rrun n sched) t); auto; exfalso; repeat match goal with H : _ \/ _ |- _ => destruct H as [H|H] | H : exists _, _ |- _ => destruct H as (? & H) end; now rewrite S in Out. }
  destruct (ri_asking _ _ _ _ _ _ R) as (_ & A & EF). assert (k = []) as -> by (destruct k as [|t k]; auto; specialize (proj1 (A t) (or_introl eq_refl)); rewrite Idle; discriminate).
  cbn [length] in EF. pose proof (ri_claims _ _ _ _ _ _ R) as C. pose proof (ri_outs _ _ _ _ _ _ R) as O. fold h in EF, C. unfold placed_out in *.
  assert (skipn (claims h - N.to_nat n) (backs h) = queued (r_q (rrun n sched))) as ->.
  { unfold queued. rewrite <- (ri_backs _ _ _ _ _ _ R). fold h. f_equal. lia. }
  apply NoDup_Permutation.
  - apply U1.
  - apply FinFun.Injective_map_NoDup; [intros x y; lia|apply seq_NoDup].
  - intros c. rewrite in_map_iff. split.
    + intros H. apply (u_range _ _ _ _ U1) in H. exists (N.to_nat c). split; [lia|]. apply in_seq. lia.
    + intros (x & <- & H). apply in_seq in H. destruct (u_all _ _ _ _ U1 (N.of_nat x)) as [X|(t & X)]; [lia|exact X|].
      unfold hand in X. rewrite Idle in X. discriminate.
Qed.
Print Assumptions C87_none_lost.

(** on_loan counts the chunks lent out and the unfinished calls of returnChunk. *)
Theorem C87_loaned : forall n sched, used n sched -> let h := r_hist (rrun n sched) in
  exists giving, NoDup giving /\
    (forall t, In t giving <-> exists c, last_of t h = Some (RetCalled t c) \/ last_of t h = Some (Placed t c)) /\
    r_loan (rrun n sched) = N.of_nat (length (lent_out h) + length giving) mod 2 ^ 64.
Proof.
  intros n sched U0 h. destruct (used_inv _ _ U0) as (F & gs & k & g & R). exists g. split; [apply R|].
  split; [now apply (no_giving n sched F gs k)|]. exact (ri_loan _ _ _ _ _ _ R).
Qed.
Print Assumptions C87_loaned.

(** A returnChunk that finds the queue full waits for another thread that is inside
    getChunk and has its place in the order already: the queue holds fewer chunks
    than it has cells. *)
Theorem C87_full_waits_for_get : forall n sched t sp r', used n sched ->
  rstep (rrun n sched) (RGo t sp) = Some r' -> cq_hist (r_q r') = cq_hist (r_q (rrun n sched)) ++ [EnqFull t] ->
  exists u, u <> t /\ last_of u (r_hist (rrun n sched)) = Some (Claimed u).
Proof.
  intros n sched t sp r' U0 E H. destruct (used_inv _ _ U0) as (F & gs & k & g & R). destruct U0 as (Hn & T & L).
  assert (exists c, r_pc (rrun n sched) t = RPut c) as (c & P).
  { pose proof (ri_fits _ _ _ _ _ _ R t) as Ft. unfold rstep in E. rewrite (ri_bad _ _ _ _ _ _ R) in E.
    destruct (r_pc (rrun n sched) t) eqn:P; try discriminate; eauto; exfalso; cbn [fits] in Ft.
    1: destruct (_ <=? _) in E.
    1,2,4,5,6: injection E as <-; cbn in H; rewrite <- (app_nil_r (cq_hist _)) in H at 1; apply app_inv_head in H; discriminate.
    destruct (cq_pc (r_q (rrun n sched)) t) as [|x|x pos Q|x pos Q|x pos Q|x pos Q| |pos Q|pos Q|pos Q|pos Q y] eqn:Qp; try contradiction.
    all: cbn [qstep] in E; rewrite Qp in E; try destruct y; repeat match type of E with context [if ?b then _ else _] => destruct b end; injection E as <-; cbn in H; apply app_inv_head in H; discriminate. }
  destruct (put_full n Hn _ _ _ _ _ R (fun u => T sched [] (eq_sym (app_nil_r _)) u) t c sp r' P E H) as (u & i & Ne & _ & O).
  exists u. split; auto. eapply last_open; eauto.
Qed.
Print Assumptions C87_full_waits_for_get.

(** A getChunk that finds the queue empty: every chunk that came back has been promised
    to a call already, or another thread is inside returnChunk. *)
Theorem C87_empty_waits : forall n sched t sp r', used n sched -> let h := r_hist (rrun n sched) in
  rstep (rrun n sched) (RGo t sp) = Some r' -> cq_hist (r_q r') = cq_hist (r_q (rrun n sched)) ++ [DeqEmpty t] ->
  N.of_nat (claims h) = n + N.of_nat (length (backs h)) \/
  exists u c, u <> t /\ (last_of u h = Some (RetCalled u c) \/ last_of u h = Some (Placed u c)).
Proof.
  intros n sched t sp r' U0 h E H. destruct (used_inv _ _ U0) as (F & gs & k & g & R). pose proof U0 as (Hn & T & L).
  assert (r_pc (rrun n sched) t = GWait) as P.
  { pose proof (ri_fits _ _ _ _ _ _ R t) as Ft. unfold rstep in E. rewrite (ri_bad _ _ _ _ _ _ R) in E.
    destruct (r_pc (rrun n sched) t) eqn:P; try discriminate; auto; exfalso; cbn [fits] in Ft.
    1: destruct (_ <=? _) in E.
    1,2,3,4,6: injection E as <-; cbn in H; rewrite <- (app_nil_r (cq_hist _)) in H at 1; apply app_inv_head in H; discriminate.
    destruct (cq_pc (r_q (rrun n sched)) t) as [|x|x pos Q|x pos Q|x pos Q|x pos Q| |pos Q|pos Q|pos Q|pos Q y] eqn:Qp; try contradiction.
    all: cbn [qstep] in E; rewrite Qp in E; try destruct y; repeat match type of E with context [if ?b then _ else _] => destruct b end; injection E as <-; cbn in H; apply app_inv_head in H; discriminate. }
  destruct (get_empty n Hn _ _ _ _ _ R (fun u => T sched [] (eq_sym (app_nil_r _)) u) t sp r' P E H) as [X|(u & c & Ne & Pu)]; [left; exact X|].
  right. exists u, c. split; auto. pose proof (C87_calls n sched u U0) as S. cbn zeta in S. now rewrite Pu in S.
Qed.
Print Assumptions C87_empty_waits.

(** A thread inside returnChunk that runs alone comes back within eight steps, unless a
    getChunk has its place in the order and is not finished. *)
Theorem C87_return_alone : forall n sched t c, used n sched -> let h := r_hist (rrun n sched) in
  last_of t h = Some (RetCalled t c) \/ last_of t h = Some (Placed t c) ->
  (forall u, last_of u h <> Some (Claimed u)) ->
  exists k, (k <= 8)%nat /\ r_pc (run rstep (rrun n sched) (repeat (RGo t false) k)) t = RIdle.
Proof.
  intros n sched t c U0 h P NC. destruct (used_inv _ _ U0) as (F & gs & k & g & R). pose proof U0 as (Hn & T & L).
  apply (return_alone n Hn _ F gs k g R (fun u => T sched [] (eq_sym (app_nil_r _)) u) (run_stage n Hn _ T L) t); auto. exists c. exact P.
Qed.
Print Assumptions C87_return_alone.

(** A thread inside getChunk that runs alone comes back within nine steps if it has its
    place or there is a chunk for it, unless a returnChunk has placed its chunk and is
    not finished. *)
Theorem C87_get_alone : forall n sched t, used n sched -> let h := r_hist (rrun n sched) in
  last_of t h = Some (Claimed t) \/ last_of t h = Some (GetCalled t) /\ N.of_nat (claims h) < n + N.of_nat (length (backs h)) ->
  (forall u c, last_of u h <> Some (Placed u c)) ->
  exists k, (k <= 9)%nat /\ r_pc (run rstep (rrun n sched) (repeat (RGo t false) k)) t = RIdle.
Proof.
  intros n sched t U0 h P NP. destruct (used_inv _ _ U0) as (F & gs & k & g & R). pose proof U0 as (Hn & T & L).
  apply (get_alone n Hn _ F gs k g R (fun u => T sched [] (eq_sym (app_nil_r _)) u) (run_stage n Hn _ T L) t); auto.
Qed.
Print Assumptions C87_get_alone.

(** A thread that is inside a call can always take a step. *)
Theorem C87_no_thread_stops : forall n sched t sp, used n sched -> r_pc (rrun n sched) t <> RIdle -> rstep (rrun n sched) (RGo t sp) <> None.
Proof.
  intros n sched t sp U0 P. destruct (used_inv _ _ U0) as (F & gs & k & g & R). pose proof (ri_fits _ _ _ _ _ _ R t) as Ft.
  unfold rstep. rewrite (ri_bad _ _ _ _ _ _ R). destruct (r_pc (rrun n sched) t); try discriminate; cbn [fits] in Ft; try congruence.
  1: destruct (_ <=? _); discriminate.
  all: destruct (cq_pc (r_q (rrun n sched)) t) as [|x|x pos Q|x pos Q|x pos Q|x pos Q| |pos Q|pos Q|pos Q|pos Q y] eqn:Qp; try contradiction;
    cbn [qstep]; rewrite Qp; try destruct y; repeat match goal with |- context [if ?b then _ else _] => destruct b end; discriminate.
Qed.
Print Assumptions C87_no_thread_stops.

(** The finding: returnChunk is not independent of other threads. The queue has room for
    every chunk, and is empty; but thread 2, inside getChunk, has not released the cell
    that it took its chunk from, and thread 1 spins in returnChunk for as long as
    thread 2 does not move. *)
Arguments CallGet t%nat.
Arguments CallRet t%nat c%N.
Arguments RGo t%nat spurious.
Definition go (t k : nat) : list ract := repeat (RGo t false) k.
Definition slow_get : list ract :=
  [CallGet 0] ++ go 0 3 ++ [CallGet 1] ++ go 1 3 ++      (* threads 0 and 1 have chunks 0 and 1 *)
  [CallRet 0 0%N] ++ go 0 7 ++                           (* chunk 0 comes back *)
  [CallGet 2] ++ go 2 5 ++                               (* thread 2 is promised it, and is stopped *)
  [CallRet 1 1%N] ++ go 1 7 ++ [CallGet 1] ++ go 1 9 ++  (* chunk 1 comes back and is lent again *)
  [CallRet 1 1%N].                                       (* chunk 1 is to come back *)

Theorem C87_return_waits_refuted : exists n sched t c,
  used n sched /\ n <= upper_power_of_two n /\
  last_of t (r_hist (rrun n sched)) = Some (RetCalled t c) /\
  N.of_nat (claims (r_hist (rrun n sched))) = n + N.of_nat (length (backs (r_hist (rrun n sched)))) /\
  forall more, (forall a, In a more -> exists sp, a = RGo t sp) ->
    r_pc (run rstep (rrun n sched) more) t = RPut c.
Proof.
  exists 2, slow_get, 1%nat, 1. split; [apply C87_short_runs; [lia|reflexivity]|]. split; [vm_compute; discriminate|].
  split; [vm_compute; reflexivity|]. split; [vm_compute; reflexivity|].
  intros more H. apply spins_on; auto. split; vm_compute; reflexivity.
Qed.
Print Assumptions C87_return_waits_refuted.

(** Three threads and two chunks; thread 2 gets the chunk that came back first although
    thread 1 overtakes it. *)
Example C87_case :
  let sched := slow_get ++ go 1 4 ++ go 2 4 ++ go 1 7 in
  used 2 sched /\
  r_hist (rrun 2 sched) =
    [GetCalled 0; Claimed 0; GetReturned 0 0; GetCalled 1; Claimed 1; GetReturned 1 1; RetCalled 0 0; Placed 0 0; RetReturned 0;
     GetCalled 2; Claimed 2; RetCalled 1 1; Placed 1 1; RetReturned 1; GetCalled 1; Claimed 1; GetReturned 1 1; RetCalled 1 1;
     GetReturned 2 0; Placed 1 1; RetReturned 1] /\
  lent_out (r_hist (rrun 2 sched)) = [0] /\ r_user (rrun 2 sched) 0 = Some 2%nat /\ r_loan (rrun 2 sched) = 1 /\
  In (EnqFull 1%nat) (cq_hist (r_q (rrun 2 sched))).
Proof.
  cbv zeta. split; [apply C87_short_runs; [lia|reflexivity]|]. split; [vm_compute; reflexivity|]. split; [vm_compute; reflexivity|]. split; [vm_compute; reflexivity|]. split; [vm_compute; reflexivity|].
  vm_compute. tauto.
Qed.

(** C88. chunk_count, while other threads use the ring. Its two reads of the counter fall
    into the states after [pre] and after [pre ++ mid]. *)
Definition counted (n : N) (pre mid : list ract) : N :=
  r_chunks (r_size (rrun n pre)) (r_count (rrun n pre)) (r_count (rrun n (pre ++ mid))).

Lemma used_init n pre mid : used n (pre ++ mid) -> used n pre.
Proof.
  intros (Hn & T & L). split; auto. split.
  - intros a b E. apply (T a (b ++ mid)). now rewrite E, <- app_assoc.
  - destruct (count_mono n Hn _ _ T L). lia.
Qed.

(** Every chunk that was handed out before the call is among those counted. *)
Theorem C88_covers : forall n pre mid, used n (pre ++ mid) -> forall t c,
  In (GetReturned t c) (r_hist (rrun n pre)) -> c < counted n pre mid.
Proof.
  intros n pre mid U0 t c H. pose proof (used_init _ _ _ U0) as (Hn & T & L). destruct U0 as (_ & T2 & L2).
  pose proof (got_below n Hn _ T L t c H) as B. destruct (count_mono n Hn _ _ T2 L2) as (M & _).
  destruct (run_RI n Hn _ T L) as (F & gs & k & g & R). unfold counted, r_chunks. rewrite (ri_size _ _ _ _ _ _ R).
  destruct (N.ltb_spec n (r_count (rrun n pre))); lia.
Qed.
Print Assumptions C88_covers.

(** The count is that of the chunks, as long as no getChunk counts itself between the two reads. *)
Theorem C88_bounded : forall n pre mid, used n (pre ++ mid) ->
  r_count (rrun n (pre ++ mid)) = r_count (rrun n pre) -> counted n pre mid <= n.
Proof.
  intros n pre mid U0 E. pose proof (used_init _ _ _ U0) as (Hn & T & L). destruct (run_RI n Hn _ T L) as (F & gs & k & g & R).
  unfold counted, r_chunks. rewrite E, (ri_size _ _ _ _ _ _ R). destruct (N.ltb_spec n (r_count (rrun n pre))); lia.
Qed.
Print Assumptions C88_bounded.

(** Never more than the number of calls. *)
Theorem C88_at_most_asked : forall n pre mid, used n (pre ++ mid) -> counted n pre mid <= N.of_nat (asked (r_hist (rrun n (pre ++ mid)))).
Proof.
  intros n pre mid U0. pose proof (used_init _ _ _ U0) as (Hn & T & L). destruct U0 as (_ & T2 & L2).
  destruct (run_RI n Hn _ T L) as (F & gs & k & g & R). destruct (run_RI n Hn _ T2 L2) as (F' & gs' & k' & g' & R').
  destruct (count_mono n Hn _ _ T2 L2) as (M & _).
  pose proof (count_exact n Hn _ _ _ _ _ R' L2) as C. destruct (ri_asking _ _ _ _ _ _ R') as (_ & _ & A).
  unfold counted, r_chunks. rewrite (ri_size _ _ _ _ _ _ R). destruct (N.ltb_spec n (r_count (rrun n pre))); lia.
Qed.
Print Assumptions C88_at_most_asked.

(** The finding: in a ring of any size chunk_count can be larger than the number of
    chunks, so that chunk_end is past the end of the buffer: once all chunks are handed
    out, one getChunk between the two reads is enough, though it gets nothing. *)
Theorem C88_count_refuted : forall n, 1 <= n <= 2 ^ 32 -> exists pre mid, used n (pre ++ mid) /\ n < counted n pre mid.
Proof.
  intros n Hn. destruct (counts_more n) as (pre & mid & H & Lp & Lm); [lia|unfold w64; lia|]. exists pre, mid. split; [|exact H].
  apply C87_short_runs; auto. rewrite app_length, Lp, Lm. lia.
Qed.
Print Assumptions C88_count_refuted.

(** One chunk, lent to thread 0; thread 1 asks for another between the reads. *)
Example C88_case :
  used 1 ([CallGet 0] ++ go 0 3 ++ [CallGet 1] ++ go 1 1) /\
  counted 1 ([CallGet 0] ++ go 0 3 ++ [CallGet 1]) (go 1 1) = 2 /\ counted 1 ([CallGet 0] ++ go 0 3 ++ [CallGet 1]) [] = 1.
Proof. split; [apply C87_short_runs; [lia|reflexivity]|]. split; vm_compute; reflexivity. Qed.
