(** C90-C91: the statistics of a buffer, taken while other threads get and return chunks. The
    reads fall into the states after [p1], after [p1 ++ p2] and after [p1 ++ p2 ++ p3]. *)
From Verif Require Import Base Spec.QueueHistory Spec.RingHistory Spec.FixedHistory Model.Queue Model.Buffer Model.Interleave Model.QueueConc Model.RingConc Model.FixedConc Model.StatsConc
  Proofs.Interleave Proofs.RingConc Proofs.RingStage Proofs.RingTurns Proofs.FixedConc Proofs.StatsConc Props.RingConc Props.FixedConc.
Local Open Scope N_scope.

Definition ring_stats (n : N) (p1 p2 p3 : list ract) : report :=
  ring_report (rrun n p1) (rrun n (p1 ++ p2)) (rrun n (p1 ++ p2 ++ p3)).

Lemma used_count n sched : used n sched ->
  N.of_nat (got (r_hist (rrun n sched))) <= r_count (rrun n sched) <= N.of_nat (asked (r_hist (rrun n sched))) /\ r_size (rrun n sched) = n.
Proof.
  intros (Hn & T & L). destruct (run_RI n Hn _ T L) as (F & gs & k & g & R). pose proof (count_exact n Hn _ _ _ _ _ R L) as C.
  pose proof (got_counted _ _ _ _ _ _ R). destruct (ri_asking _ _ _ _ _ _ R) as (_ & _ & A). split; [lia|apply R].
Qed.

(** The size is the size, and a ring is never full. The chunk count covers the calls of
    getChunk that had returned, counts no more than were made, and never exceeds the
    size, unlike chunk_count (C88); nor does it exceed the total of chunks ever loaned,
    though that is read later. *)
Theorem C90_counts : forall n p1 p2 p3, used n (p1 ++ p2 ++ p3) -> let s := ring_stats n p1 p2 p3 in
  the_size s = n /\ is_full s = false /\ chunk_total s <= n /\ chunk_total s <= ever_loaned s /\
  N.min n (N.of_nat (got (r_hist (rrun n p1)))) <= chunk_total s <= N.of_nat (asked (r_hist (rrun n p1))) /\
  N.of_nat (got (r_hist (rrun n (p1 ++ p2)))) <= ever_loaned s <= N.of_nat (asked (r_hist (rrun n (p1 ++ p2)))).
Proof.
  intros n p1 p2 p3 U3 s. pose proof U3 as U2. rewrite app_assoc in U2. apply used_init in U2. pose proof (used_init _ _ _ U2) as U1.
  destruct (used_count _ _ U1) as (K1 & S1). destruct (used_count _ _ U2) as (K2 & S2). destruct (used_count _ _ U3) as (_ & S3).
  destruct U2 as (Hn & T2 & L2). destruct (count_mono n Hn _ _ T2 L2) as (M & _). subst s.
  unfold ring_stats, ring_report. cbn [the_size is_full chunk_total ever_loaned]. rewrite S1, S3. repeat split; lia.
Qed.
Print Assumptions C90_counts.

(** Every chunk handed out before is among those counted; a count below the size means
    that fewer calls of getChunk had returned than there are chunks. *)
Theorem C90_covers : forall n p1 p2 p3, used n (p1 ++ p2 ++ p3) -> let s := ring_stats n p1 p2 p3 in
  (forall t c, In (GetReturned t c) (r_hist (rrun n p1)) -> c < chunk_total s) /\
  (chunk_total s < n -> N.of_nat (got (r_hist (rrun n p1))) < n).
Proof.
  intros n p1 p2 p3 U3 s. pose proof U3 as U2. rewrite app_assoc in U2. apply used_init in U2. pose proof (used_init _ _ _ U2) as U1.
  destruct (used_count _ _ U1) as (K1 & S1). destruct U1 as (Hn & T & L). subst s. unfold ring_stats, ring_report. cbn [chunk_total]. rewrite S1. split.
  - intros t c H. pose proof (got_below n Hn _ T L t c H). lia.
  - lia.
Qed.
Print Assumptions C90_covers.

(** The chunks said to be loaned are those that the users have, if nobody is inside
    returnChunk at the moment of the read; so they are at most as many as there are. *)
Theorem C90_loaned : forall n p1 p2 p3, used n (p1 ++ p2 ++ p3) -> let s := ring_stats n p1 p2 p3 in let h := r_hist (rrun n (p1 ++ p2 ++ p3)) in
  (forall t c, last_of t h <> Some (RetCalled t c) /\ last_of t h <> Some (Placed t c)) ->
  now_loaned s = N.of_nat (length (lent_out h)) /\ now_loaned s <= the_size s.
Proof.
  intros n p1 p2 p3 U3 s h Q. destruct (used_count _ _ U3) as (_ & S3). destruct (C87_loaned _ _ U3) as (g & _ & G & L). destruct (C87_lent_once _ _ U3) as (D & B & _).
  fold h in G, L, D, B. assert (g = []) as ->.
  { destruct g as [|t g]; auto. destruct (proj1 (G t) (or_introl eq_refl)) as (c & [X|X]); destruct (Q t c); contradiction. }
  cbn [length] in L. rewrite Nat.add_0_r in L.
  assert (N.of_nat (length (lent_out h)) <= n) as Le.
  { assert (length (lent_out h) <= length (map N.of_nat (seq 0 (N.to_nat n))))%nat as X; [|rewrite map_length, seq_length in X; lia].
    apply NoDup_incl_length; auto. intros x Hx. apply in_map_iff. exists (N.to_nat x). split; [lia|]. apply in_seq. apply B in Hx. lia. }
  destruct U3 as (Hn & _ & _). subst s. unfold ring_stats, ring_report. cbn [now_loaned the_size]. rewrite S3, L, N.mod_small by lia. split; [reflexivity|exact Le].
Qed.
Print Assumptions C90_loaned.

(** In any case they are those chunks and the unfinished calls of returnChunk, at most as
    many as calls of getChunk have returned: the word does not wrap. *)
Theorem C90_loaned_at_most : forall n p1 p2 p3, used n (p1 ++ p2 ++ p3) -> let s := ring_stats n p1 p2 p3 in let h := r_hist (rrun n (p1 ++ p2 ++ p3)) in
  N.of_nat (length (lent_out h)) <= now_loaned s /\ now_loaned s + N.of_nat (given_back h) = N.of_nat (got h).
Proof.
  intros n p1 p2 p3 U3 s h. destruct (used_count _ _ U3) as (K & _). destruct (used_inv _ _ U3) as (F & gs & k & g & R).
  destruct (ri_giving _ _ _ _ _ _ R) as (_ & _ & G). pose proof (ri_loan _ _ _ _ _ _ R) as L. fold h in K, G, L. destruct U3 as (_ & _ & A). fold h in A.
  unfold w64 in L. rewrite N.mod_small in L by lia. subst s. unfold ring_stats, ring_report. cbn [now_loaned]. rewrite L. lia.
Qed.
Print Assumptions C90_loaned_at_most.

(** The finding: in a ring of any size the chunks said to be loaned can be more than there
    are: a chunk is lent again before the returnChunk that gave it back takes it off. *)
Theorem C90_loaned_refuted : forall n, 1 <= n <= 2 ^ 32 -> exists p1 p2 p3, used n (p1 ++ p2 ++ p3) /\
  now_loaned (ring_stats n p1 p2 p3) = the_size (ring_stats n p1 p2 p3) + 1.
Proof.
  intros n Hn. exists (gets (N.to_nat n)), overlap, []. rewrite app_nil_r.
  assert (length (gets (N.to_nat n)) = (4 * N.to_nat n)%nat) as Lg.
  { generalize (N.to_nat n). intros k. induction k as [|k IH]; auto. rewrite gets_S, app_length, IH. cbn [length one_get]. lia. }
  assert (used n (gets (N.to_nat n) ++ overlap)) as U0 by (apply C87_short_runs; auto; rewrite app_length, Lg; cbn [overlap length app repeat]; lia).
  split; [exact U0|]. unfold ring_stats, ring_report. cbn [now_loaned the_size]. rewrite app_nil_r. destruct (used_count _ _ U0) as (_ & ->).
  destruct (gets_run n (N.to_nat n)) as (B & S & C & P); [unfold w64; lia|lia|]. destruct (gets_quiet n (N.to_nat n)) as (Q & L & P1 & I & _); [unfold w64; lia|lia|].
  unfold rrun in *. rewrite run_app. rewrite (over_run _ (upper_power_of_two n)); auto.
  - rewrite L, N.mod_small; unfold w64; lia.
  - apply I. lia.
  - rewrite S, C. lia.
Qed.
Print Assumptions C90_loaned_refuted.

(** And the total of chunks ever loaned counts calls of getChunk that wait: with every chunk
    lent out it is one more than the chunks that were ever loaned, for as long as nobody
    returns one. *)
Theorem C90_total_refuted : forall n, 1 <= n <= 2 ^ 32 -> exists p1 p2 p3, used n (p1 ++ p2 ++ p3) /\
  ever_loaned (ring_stats n p1 p2 p3) = n + 1 /\ N.of_nat (got (r_hist (rrun n (p1 ++ p2 ++ p3)))) = n.
Proof.
  intros n Hn. exists (gets (N.to_nat n)), [CallGet 0; RGo 0 false], []. rewrite app_nil_r.
  assert (length (gets (N.to_nat n)) = (4 * N.to_nat n)%nat) as Lg.
  { generalize (N.to_nat n). intros k. induction k as [|k IH]; auto. rewrite gets_S, app_length, IH. cbn [length one_get]. lia. }
  split; [apply C87_short_runs; auto; rewrite app_length, Lg; cbn [length]; lia|]. unfold ring_stats, ring_report. cbn [ever_loaned].
  destruct (gets_run n (N.to_nat n)) as (B & S & C & P); [unfold w64; lia|lia|]. destruct (gets_quiet n (N.to_nat n)) as (_ & _ & _ & _ & G); [unfold w64; lia|lia|].
  unfold rrun in *. rewrite run_app. revert B S C P G. generalize (run rstep (cring_new n) (gets (N.to_nat n))). intros r B S C P G.
  assert ((r_size r <=? r_count r) = true) as Le by (apply N.leb_le; rewrite S, C; lia).
  do 2 turn. cbn [run r_count r_hist r_goto r_set_count]. rewrite C, !got_snoc, G. split; [rewrite N.mod_small; unfold w64; lia|cbn; lia].
Qed.
Print Assumptions C90_total_refuted.

(** One chunk: it is lent, given back but still counted, and lent again. *)
Example C90_case :
  let s := ring_stats 1 (gets 1) (CallRet 1 0 :: go 1 6) (CallGet 0 :: go 0 9) in
  used 1 (gets 1 ++ (CallRet 1 0 :: go 1 6) ++ CallGet 0 :: go 0 9) /\
  s = {| is_full := false; chunk_total := 1; ever_loaned := 1; now_loaned := 2; the_size := 1 |}.
Proof. cbv zeta. split; [apply C87_short_runs; [lia|reflexivity]|]. vm_compute. reflexivity. Qed.

(** C91. The same of a fixed buffer. *)
Definition fixed_stats (n : N) (p1 p2 p3 : list fact) : report :=
  fixed_report (frun n p1) (frun n (p1 ++ p2)) (frun n (p1 ++ p2 ++ p3)).

Lemma few_init n pre mid : few_calls n (pre ++ mid) -> few_calls n pre.
Proof. unfold few_calls. intros L. pose proof (calls_init n pre mid). lia. Qed.

Lemma few_count n sched : few_calls n sched ->
  N.of_nat (answers (f_hist (frun n sched))) <= f_issued (frun n sched) <= N.of_nat (calls (f_hist (frun n sched))).
Proof.
  intros L. destruct (run_FI n _ L) as (F & k & b & I). rewrite (issued_exact _ _ _ _ _ I L).
  destruct (fi_asking _ _ _ _ _ I) as (D & A & C). destruct (fi_busy _ _ _ _ _ I) as (D' & A' & C').
  assert (length k <= length b)%nat by (apply NoDup_incl_length; auto; intros t Ht; apply A'; apply A in Ht; rewrite Ht; discriminate). lia.
Qed.

(** Full means that every chunk is counted. The count never exceeds the size, and lies
    between the calls of getChunk that were answered and those that were made. *)
Theorem C91_counts : forall n p1 p2 p3, few_calls n (p1 ++ p2 ++ p3) -> let s := fixed_stats n p1 p2 p3 in
  the_size s = n /\ (is_full s = true -> chunk_total s = n) /\ chunk_total s <= n /\ ever_loaned s = chunk_total s /\
  N.min n (N.of_nat (answers (f_hist (frun n (p1 ++ p2))))) <= chunk_total s <= N.of_nat (calls (f_hist (frun n (p1 ++ p2)))) /\
  (is_full s = true -> n <= N.of_nat (calls (f_hist (frun n p1)))) /\
  (is_full s = false -> N.of_nat (answers (f_hist (frun n p1))) < n).
Proof.
  intros n p1 p2 p3 L3 s. pose proof L3 as L2. rewrite app_assoc in L2. apply few_init in L2. pose proof (few_init _ _ _ L2) as L1.
  pose proof (few_count _ _ L1). pose proof (few_count _ _ L2). pose proof (issued_mono n p1 p2 L2) as M. subst s.
  unfold fixed_stats, fixed_report. cbn [the_size is_full chunk_total ever_loaned]. rewrite !size_same.
  destruct (N.leb_spec n (f_issued (frun n p1))), (N.ltb_spec (f_issued (frun n (p1 ++ p2))) n); repeat split; intros; try discriminate; lia.
Qed.
Print Assumptions C91_counts.

(** What the interface asks for: if the count is the size, there are no more chunks to be
    loaned. From the read on, only calls of getChunk that were in progress then, and had
    a chunk already, return one. *)
Theorem C91_exhausted : forall n p1 p2 p3, few_calls n (p1 ++ p2 ++ p3) -> let s := fixed_stats n p1 p2 p3 in
  chunk_total s = the_size s ->
  exists e, f_hist (frun n (p1 ++ p2 ++ p3)) = f_hist (frun n (p1 ++ p2)) ++ e /\
    forall t c, In (FGot t (Some c)) e -> f_pc (frun n (p1 ++ p2)) t = FReset c \/ f_pc (frun n (p1 ++ p2)) t = FLoan c.
Proof.
  intros n p1 p2 p3 L3 s E. subst s. unfold fixed_stats, fixed_report in E. cbn [the_size chunk_total] in E. rewrite !size_same in E. rewrite app_assoc in *.
  destruct (late_chunks n (p1 ++ p2) p3 L3) as (e & Eh & He & _).
  - destruct (N.ltb_spec (f_issued (frun n (p1 ++ p2))) n); lia.
  - exists e. split; [exact Eh|]. intros t c H. apply He in H. unfold fhand in H. destruct (f_pc (frun n (p1 ++ p2)) t); try discriminate; injection H as <-; auto.
Qed.
Print Assumptions C91_exhausted.

(** The chunks said to be loaned are those handed out and not given back. *)
Theorem C91_loaned : forall n p1 p2 p3, few_calls n (p1 ++ p2 ++ p3) -> n < 2 ^ 64 -> let s := fixed_stats n p1 p2 p3 in
  let h := f_hist (frun n (p1 ++ p2 ++ p3)) in
  now_loaned s + N.of_nat (length (came_back h)) = N.of_nat (length (handed h)) /\ now_loaned s <= n.
Proof.
  intros n p1 p2 p3 L3 Hn s h. pose proof (C89_loaned n _ L3 Hn) as K. destruct (C89_once n _ L3) as (D & R & _). cbn zeta in K. fold h in K, D, R.
  assert (N.of_nat (length (handed h)) <= n) as B.
  { assert (length (handed h) <= length (map N.of_nat (seq 0 (N.to_nat n))))%nat as X; [|rewrite map_length, seq_length in X; lia].
    apply NoDup_incl_length; auto. intros x Hx. apply in_map_iff. exists (N.to_nat x). split; [lia|]. apply in_seq. apply R in Hx. lia. }
  subst s. unfold fixed_stats, fixed_report. cbn [now_loaned]. lia.
Qed.
Print Assumptions C91_loaned.

(** The findings: the values need not fit together. A buffer of any size can be said not to
    be full while its count is its size; and more chunks can be said to be loaned now than
    were ever loaned. *)
Theorem C91_full_refuted : forall n, 1 <= n < 2 ^ 62 -> exists p1 p2 p3, few_calls n (p1 ++ p2 ++ p3) /\
  let s := fixed_stats n p1 p2 p3 in is_full s = false /\ chunk_total s = the_size s.
Proof.
  intros n Hn. exists (fgets (N.to_nat n - 1)), one_fget, []. rewrite app_nil_r, <- fgets_S. replace (S (N.to_nat n - 1)) with (N.to_nat n) by lia.
  destruct (fgets_run n (N.to_nat n)) as (S & C & _ & _ & K); [unfold w64; lia|lia|]. destruct (fgets_run n (N.to_nat n - 1)) as (S' & C' & _); [unfold w64; lia|lia|].
  split; [unfold few_calls; rewrite K; lia|]. cbn zeta. unfold fixed_stats, fixed_report. cbn [is_full chunk_total the_size]. rewrite app_nil_r, <- fgets_S.
  replace (Datatypes.S (N.to_nat n - 1)) with (N.to_nat n) by lia. rewrite S, C, S', C'. split; [apply N.leb_gt; lia|]. destruct (N.ltb_spec (N.of_nat (N.to_nat n)) n); lia.
Qed.
Print Assumptions C91_full_refuted.

Theorem C91_loaned_refuted : forall n, 1 <= n < 2 ^ 62 -> exists p1 p2 p3, few_calls n (p1 ++ p2 ++ p3) /\
  let s := fixed_stats n p1 p2 p3 in ever_loaned s = 0 /\ now_loaned s = n.
Proof.
  intros n Hn. exists [], [], (fgets (N.to_nat n)). cbn [app].
  destruct (fgets_run n (N.to_nat n)) as (S & C & O & _ & K); [unfold w64; lia|lia|].
  split; [unfold few_calls; rewrite K; lia|]. cbn zeta. unfold fixed_stats, fixed_report. cbn [ever_loaned now_loaned app]. rewrite O. cbn [frun run f_issued f_size cfixed_new].
  split; [|lia]. destruct (N.ltb_spec 0 n); lia.
Qed.
Print Assumptions C91_loaned_refuted.

(** Two chunks: the second is got after the question whether the buffer is full, and given
    back before the loans are counted. *)
Example C91_case :
  let s := fixed_stats 2 (fgets 1) one_fget [FCallRet 1%nat 1] in
  few_calls 2 (fgets 1 ++ one_fget ++ [FCallRet 1%nat 1]) /\
  s = {| is_full := false; chunk_total := 2; ever_loaned := 2; now_loaned := 1; the_size := 2 |}.
Proof. cbv zeta. split; vm_compute; reflexivity. Qed.
