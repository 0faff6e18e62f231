(** Proofs about chunks and buffers. *)
From Verif Require Import Base Spec.History Model.Event Model.Queue Model.Buffer Proofs.Queue.
From Coq Require Import Permutation.

(** * Chunks *)

Definition add_or_keep (cap : N) (c : chunk) (e : event) : chunk :=
  match chunk_add cap c e with Ok c' => c' | _ => c end.

Lemma chunk_events_length c : length (chunk_events c) = N.to_nat (c_next c).
Proof. unfold chunk_events. now rewrite map_length, seq_length. Qed.

Lemma chunk_events_reset c t : chunk_events (chunk_reset c t) = [].
Proof. reflexivity. Qed.

Lemma chunk_add_ok cap c e : (cap < ushort)%N -> (c_next c < cap)%N ->
  exists c', chunk_add cap c e = Ok c' /\ c_next c' = (c_next c + 1)%N /\
    c_tid c' = c_tid c /\ chunk_events c' = chunk_events c ++ [e].
Proof.
  intros Hc Hn. unfold chunk_add, chunk_isFull.
  destruct (N.eqb_spec (c_next c) cap) as [K|K]; [lia|].
  destruct (N.leb_spec cap (c_next c)) as [K'|K']; [lia|].
  eexists; split; [reflexivity|]. cbn [c_next c_tid].
  assert (((c_next c + 1) mod ushort = c_next c + 1)%N) as E by (apply N.mod_small; lia).
  split; [exact E|]. split; [reflexivity|].
  unfold chunk_events; cbn [c_next c_arr]. rewrite E.
  replace (N.to_nat (c_next c + 1)) with (S (N.to_nat (c_next c))) by lia.
  rewrite seq_S, map_app. cbn [map plus]. rewrite N2Nat.id, upd_same. f_equal.
  apply map_ext_in. intros i Hi%in_seq. apply upd_other. lia.
Qed.

Lemma chunk_add_full cap c e : c_next c = cap -> chunk_add cap c e = Throw OutOfRange.
Proof. intros E. unfold chunk_add, chunk_isFull. rewrite E. now rewrite N.eqb_refl. Qed.

Lemma chunk_fill cap : (cap < ushort)%N -> forall es c, (c_next c <= cap)%N ->
  let c' := fold_left (add_or_keep cap) es c in
  chunk_events c' = firstn (N.to_nat cap) (chunk_events c ++ es) /\
  c_tid c' = c_tid c /\
  c_next c' = N.min (c_next c + lenN es) cap.
Proof.
  intros Hcap. induction es as [|e es IH]; intros c Hn; cbn [fold_left].
  - rewrite app_nil_r. unfold lenN; cbn. split; [|split; [reflexivity|lia]].
    rewrite firstn_all2; [reflexivity|]. rewrite chunk_events_length. lia.
  - destruct (N.eq_dec (c_next c) cap) as [E|E].
    + unfold add_or_keep at 2 4 6. rewrite chunk_add_full by exact E.
      destruct (IH c Hn) as (H1 & H2 & H3).
      split; [|split; [exact H2|rewrite H3; unfold lenN; cbn; lia]].
      rewrite H1. rewrite !firstn_app, chunk_events_length, E, Nat.sub_diag. reflexivity.
    + destruct (chunk_add_ok cap c e Hcap ltac:(lia)) as (c1 & A1 & A2 & A3 & A4).
      unfold add_or_keep at 2 4 6. rewrite A1.
      destruct (IH c1 ltac:(lia)) as (H1 & H2 & H3).
      split; [|split].
      * rewrite H1, A4, <- app_assoc. reflexivity.
      * congruence.
      * rewrite H3, A2. unfold lenN; cbn [length]. lia.
Qed.

(** Above 65535 events the counter wraps before the chunk can become full. *)
Lemma chunk_never_full cap c : (ushort <= cap)%N -> (c_next c < ushort)%N ->
  chunk_isFull cap c = false /\
  forall e, exists c', chunk_add cap c e = Ok c' /\ c_next c' = ((c_next c + 1) mod ushort)%N.
Proof.
  intros Hc Hn. unfold chunk_add, chunk_isFull.
  destruct (N.eqb_spec (c_next c) cap) as [K|K]; [lia|].
  split; [reflexivity|]. intros e.
  destruct (N.leb_spec cap (c_next c)) as [K'|K']; [lia|].
  eexists; split; reflexivity.
Qed.

Lemma chunk_wraps cap : (ushort <= cap)%N -> forall es c, (c_next c < ushort)%N ->
  let c' := fold_left (add_or_keep cap) es c in
  chunk_isFull cap c' = false /\ c_next c' = ((c_next c + lenN es) mod ushort)%N.
Proof.
  intros Hc. induction es as [|e es IH]; intros c Hn; cbn [fold_left].
  - split; [now apply chunk_never_full|]. unfold lenN; cbn. rewrite N.add_0_r.
    symmetry. now apply N.mod_small.
  - destruct (chunk_never_full cap c Hc Hn) as (_ & H).
    destruct (H e) as (c1 & A1 & A2).
    assert (add_or_keep cap c e = c1) as -> by (unfold add_or_keep; now rewrite A1).
    assert (c_next c1 < ushort)%N as H1 by (rewrite A2; apply N.mod_lt; unfold ushort; lia).
    destruct (IH c1 H1) as (I1 & I2). split; [exact I1|].
    cbn zeta in I2. rewrite I2, A2. rewrite N.add_mod_idemp_l by (unfold ushort; lia). f_equal.
    unfold lenN; cbn [length]. lia.
Qed.

(** * Fixed buffer *)

(** What the [i]-th call to getChunk gives. *)
Definition fixed_answer (n i t : N) : done :=
  if (i mod w64 <? n)%N then Lent t (i mod w64) else Refused t.

Fixpoint fixed_expect (n i : N) (cs : list call) : list done :=
  match cs with
  | [] => []
  | Ask t :: r => fixed_answer n i t :: fixed_expect n (i + 1) r
  | GiveBack k :: r => Back k :: fixed_expect n i r
  end.

Lemma w64_pos : (0 < w64)%N. Proof. reflexivity. Qed.
Local Hint Resolve w64_pos : core.
Lemma w64_nz : (w64 <> 0)%N. Proof. discriminate. Qed.

Lemma fixed_run_spec : forall cs b i,
  f_issued b = (i mod w64)%N ->
  let '(h, b') := fixed_run b cs in
  h = fixed_expect (f_size b) i cs /\
  f_issued b' = ((i + lenN (asks cs)) mod w64)%N /\
  f_size b' = f_size b /\ f_gen b' = f_gen b /\
  ((Z.of_N (f_loan b') - (Z.of_N (f_loan b) + Z.of_N (lenN (lent h)) - Z.of_N (lenN (backs h)))) mod 2 ^ 64 = 0)%Z.
Proof.
  induction cs as [|[t|k] cs IH]; intros b i Hi; cbn [fixed_run].
  - cbn. rewrite N.add_0_r. repeat split; auto.
    replace (_ - _)%Z with 0%Z by lia. reflexivity.
  - unfold fixed_getChunk.
    destruct (N.leb_spec (f_size b) (f_issued b)) as [K|K].
    + match goal with |- context [fixed_run ?b1 cs] => specialize (IH b1 (i + 1)%N) end.
      destruct (fixed_run _ cs) as [h b'].
      destruct IH as (I1 & I2 & I3 & I4 & I5).
      { cbn. rewrite Hi. now rewrite N.add_mod_idemp_l by exact w64_nz. }
      cbn [f_size f_gen f_loan] in *.
      split; [|split; [|auto]].
      * cbn [fixed_expect]. rewrite I1. f_equal. unfold fixed_answer.
        rewrite Hi in K. destruct (N.ltb_spec (i mod w64) (f_size b)) as [L|L]; [lia|reflexivity].
      * rewrite I2. f_equal. cbn [asks flat_map]. unfold lenN; rewrite app_length; cbn [length]. fold (asks cs). lia.
    + match goal with |- context [fixed_run ?b1 cs] => specialize (IH b1 (i + 1)%N) end.
      destruct (fixed_run _ cs) as [h b'].
      destruct IH as (I1 & I2 & I3 & I4 & I5).
      { cbn. rewrite Hi. now rewrite N.add_mod_idemp_l by exact w64_nz. }
      cbn [f_size f_gen f_loan] in *.
      split; [|split; [|split; [exact I3|split; [exact I4|]]]].
      * cbn [fixed_expect]. rewrite I1. f_equal. unfold fixed_answer.
        rewrite Hi in K |- *. destruct (N.ltb_spec (i mod w64) (f_size b)) as [L|L]; [reflexivity|lia].
      * rewrite I2. f_equal. cbn [asks flat_map]. unfold lenN; rewrite app_length; cbn [length]. fold (asks cs). lia.
      * cbn [lent backs flat_map app]. fold (lent h) (backs h).
        unfold lenN in *; cbn [length].
        rewrite N2Z.inj_mod, N2Z.inj_add in I5. change (Z.of_N w64) with (2 ^ 64)%Z in I5.
        rewrite <- I5. rewrite !(Zminus_mod (Z.of_N (f_loan b'))). f_equal. f_equal.
        rewrite Nat2N.inj_succ.
        rewrite (Zminus_mod (((_ + _) mod _) + _)), (Zplus_mod ((_ + _) mod _)), Zmod_mod.
        rewrite <- Zplus_mod, <- Zminus_mod. f_equal. lia.
  - specialize (IH (fixed_returnChunk b k) i).
    destruct (fixed_run _ cs) as [h b'].
    destruct IH as (I1 & I2 & I3 & I4 & I5); [exact Hi|].
    unfold fixed_returnChunk in *. cbn [f_size f_gen f_loan] in *.
    split; [cbn [fixed_expect]; now rewrite I1|].
    split; [exact I2|]. split; [exact I3|]. split; [exact I4|].
    cbn [lent backs flat_map app]. fold (lent h) (backs h).
    unfold lenN in *; cbn [length].
    rewrite N2Z.inj_mod, N2Z.inj_sub, N2Z.inj_add in I5 by (unfold w64; lia).
    change (Z.of_N w64) with (2 ^ 64)%Z in I5. rewrite <- I5.
    rewrite !(Zminus_mod (Z.of_N (f_loan b'))). f_equal. f_equal.
    rewrite Nat2N.inj_succ.
    rewrite (Zminus_mod (((_ + _ - _) mod _) + _)), (Zplus_mod ((_ + _ - _) mod _)), Zmod_mod.
    rewrite <- Zplus_mod, <- Zminus_mod.
    replace (Z.of_N (f_loan b) + 2 ^ 64 - Z.of_N 1 + Z.of_N (N.of_nat (length (lent h))) -
     Z.of_N (N.of_nat (length (backs h))))%Z with
     (Z.of_N (f_loan b) + Z.of_N (N.of_nat (length (lent h))) -
     Z.of_N (N.succ (N.of_nat (length (backs h)))) + 1 * 2 ^ 64)%Z by lia.
    symmetry. apply Z_mod_plus_full.
Qed.

Lemma fixed_loan_lt : forall cs b0, (f_loan b0 < w64)%N -> (f_loan (snd (fixed_run b0 cs)) < w64)%N.
Proof.
  induction cs as [|[t|k] cs IH]; intros b0 H0; cbn [fixed_run]; [exact H0| |].
  - unfold fixed_getChunk. destruct (_ <=? _)%N;
      match goal with |- context [fixed_run ?b1 cs] => specialize (IH b1); destruct (fixed_run b1 cs) end;
      apply IH; cbn [f_loan]; [exact H0|]. apply N.mod_lt. exact w64_nz.
  - specialize (IH (fixed_returnChunk b0 k)). destruct (fixed_run _ cs). apply IH.
    cbn [fixed_returnChunk f_loan]. apply N.mod_lt. exact w64_nz.
Qed.

Lemma nth_error_seq0 m i : i < m -> nth_error (seq 0 m) i = Some i.
Proof. intros Hi. rewrite (nth_error_nth' _ 0) by (now rewrite seq_length). now rewrite seq_nth. Qed.

Lemma upto_S n : upto (n + 1) = upto n ++ [n].
Proof.
  unfold upto. replace (N.to_nat (n + 1)) with (S (N.to_nat n)) by lia.
  rewrite seq_S, map_app. cbn. now rewrite N2Nat.id.
Qed.

Lemma fixed_expect_calls n : forall cs i, calls_of (fixed_expect n i cs) = cs.
Proof.
  induction cs as [|[t|k] cs IH]; intros i; cbn [fixed_expect]; [reflexivity| |].
  - unfold fixed_answer. destruct (_ <? _)%N; cbn; now rewrite IH.
  - cbn. now rewrite IH.
Qed.

Lemma fixed_expect_replies n : forall cs i,
  replies (fixed_expect n i cs) =
  map (fun j => if ((i + N.of_nat j) mod w64 <? n)%N then Some ((i + N.of_nat j) mod w64)%N else None)
      (seq 0 (length (asks cs))).
Proof.
  induction cs as [|[t|k] cs IH]; intros i; cbn [fixed_expect]; [reflexivity| |].
  - cbn [asks flat_map app length seq map]. fold (asks cs). rewrite N.add_0_r.
    unfold fixed_answer. cbn [replies flat_map].
    rewrite <- seq_shift, map_map.
    fold (replies (fixed_expect n (i + 1) cs)). rewrite IH.
    destruct (N.ltb_spec (i mod w64) n) as [L|L]; cbn [app];
      (f_equal; apply map_ext; intros j; replace (i + 1 + N.of_nat j)%N with (i + N.of_nat (S j))%N by lia; reflexivity).
  - cbn. apply IH.
Qed.

Lemma lent_replies h : lent h = flat_map (fun o => match o with Some k => [k] | None => [] end) (replies h).
Proof.
  induction h as [|[t k|t|k] h IH]; [reflexivity| | |]; cbn; [f_equal| |]; exact IH.
Qed.

Lemma lent_upto n m : (m <= w64)%N ->
  flat_map (fun o : option N => match o with Some k => [k] | None => [] end)
   (map (fun j => if ((0 + N.of_nat j) mod w64 <? n)%N then Some ((0 + N.of_nat j) mod w64)%N else None)
      (seq 0 (N.to_nat m))) = upto (N.min m n).
Proof.
  intros Hm. rewrite <- (N2Nat.id m) in Hm. rewrite <- (N2Nat.id m) at 2. revert Hm.
  generalize (N.to_nat m) as k. clear m. induction k as [|k IH]; intros Hm.
  - cbn [seq map flat_map]. replace (N.min (N.of_nat 0) n) with 0%N by lia. reflexivity.
  - rewrite seq_S, map_app, flat_map_app, IH by lia. cbn [map plus flat_map].
    rewrite N.mod_small by lia. rewrite N.add_0_l.
    destruct (N.ltb_spec (N.of_nat k) n) as [L|L]; cbn [app].
    + replace (N.min (N.of_nat (S k)) n) with (N.of_nat k + 1)%N by lia.
      replace (N.min (N.of_nat k) n) with (N.of_nat k) by lia. now rewrite upto_S.
    + rewrite app_nil_r. f_equal. lia.
Qed.

(** * Power-of-two rounding *)

(** [x] has bit [i] set iff [v] has a bit set in [i, i+w). *)
Definition cover (w v x : N) : Prop :=
  forall i, N.testbit x i = true <-> exists d, (d < w)%N /\ N.testbit v (i + d) = true.

Lemma cover_1 v : cover 1 v v.
Proof.
  intros i. split.
  - intros H. exists 0%N. rewrite N.add_0_r. split; [lia|exact H].
  - intros (d & Hd & H). replace (i + d)%N with i in H by lia. exact H.
Qed.

Lemma cover_step w v x : cover w v x -> cover (w + w) v (N.lor x (N.shiftr x w)).
Proof.
  intros C i. rewrite N.lor_spec, N.shiftr_spec', orb_true_iff, (C i), (C (i + w)%N). split.
  - intros [(d & Hd & H) | (d & Hd & H)].
    + exists d. split; [lia|exact H].
    + exists (w + d)%N. split; [lia|]. now rewrite N.add_assoc.
  - intros (d & Hd & H). destruct (N.lt_ge_cases d w) as [L|L].
    + left. eauto.
    + right. exists (d - w)%N. split; [lia|]. now replace (i + w + (d - w))%N with (i + d)%N by lia.
Qed.

Lemma cover_ones v x : (0 < v)%N -> (v < 2 ^ 32)%N -> cover 32 v x -> x = N.ones (N.log2 v + 1).
Proof.
  intros Hp Hv C. apply N.bits_inj. intros i.
  assert (N.log2 v < 32)%N as HL by (apply N.log2_lt_pow2; lia).
  destruct (N.lt_ge_cases i (N.log2 v + 1)) as [L|L].
  - rewrite N.ones_spec_low by lia. apply C. exists (N.log2 v - i)%N. split; [lia|].
    replace (i + (N.log2 v - i))%N with (N.log2 v) by lia. apply N.bit_log2. lia.
  - rewrite N.ones_spec_high by lia.
    destruct (N.testbit x i) eqn:E; [|reflexivity].
    apply C in E. destruct E as (d & Hd & E).
    rewrite N.bits_above_log2 in E by lia. discriminate.
Qed.

Lemma upper_pow n : (1 <= n <= 2 ^ 32)%N ->
  exists j, (1 <= j <= 32)%N /\ upper_power_of_two n = (2 ^ j)%N /\ (n <= 2 ^ j)%N /\
    (n = 1 /\ j = 1 \/ 2 ^ j < 2 * n)%N.
Proof.
  intros Hn. unfold upper_power_of_two.
  assert (((n + w64 - 1) mod w64 = n - 1)%N) as ->.
  { replace (n + w64 - 1)%N with (n - 1 + 1 * w64)%N by lia.
    rewrite N.mod_add by exact w64_nz. apply N.mod_small. unfold w64. lia. }
  destruct (N.eq_dec n 1) as [->|H1].
  { exists 1%N. split; [lia|]. split; [vm_compute; reflexivity|]. split; [lia|]. left; lia. }
  set (v := (n - 1)%N).
  pose proof (cover_step _ _ _ (cover_step _ _ _ (cover_step _ _ _ (cover_step _ _ _ (cover_step _ _ _ (cover_1 v)))))) as C.
  cbn [N.add Pos.add Pos.succ] in C.
  apply cover_ones in C; [|unfold v; lia|unfold v; lia].
  rewrite C. rewrite N.ones_equiv, N.add_1_r, N.succ_pred by (apply N.pow_nonzero; lia).
  assert (N.log2 v < 32)%N as HL by (apply N.log2_lt_pow2; unfold v; lia).
  pose proof (N.log2_spec v ltac:(unfold v; lia)) as (L1 & L2).
  assert (2 ^ (N.log2 v + 1) <= 2 ^ 32)%N as HP by (apply N.pow_le_mono_r; lia).
  rewrite N.mod_small by (unfold w64; lia).
  exists (N.log2 v + 1)%N. split; [lia|].
  destruct (N.eqb_spec (2 ^ (N.log2 v + 1)) 1) as [K|K].
  { rewrite N.pow_add_r in K. assert (2 ^ N.log2 v <> 0)%N by (apply N.pow_nonzero; lia). lia. }
  rewrite N.add_1_r in *. split; [reflexivity|]. split; [unfold v in *; lia|].
  right. rewrite N.pow_succ_r'. unfold v in *. lia.
Qed.

(** * Ring buffer *)

Lemma lent_app a b : lent (a ++ b) = lent a ++ lent b.
Proof. apply flat_map_app. Qed.
Lemma backs_app a b : backs (a ++ b) = backs a ++ backs b.
Proof. apply flat_map_app. Qed.
Lemma on_loan_app a b l : on_loan_from l (a ++ b) = on_loan_from (on_loan_from l a) b.
Proof. revert l. induction a as [|[t k|t|k] a IH]; intros l; cbn; auto. Qed.

Lemma remove_one_perm k l : In k l -> Permutation l (k :: remove_one k l).
Proof.
  induction l as [|x l IH]; [easy|]. intros [->|H]; cbn [remove_one].
  - now rewrite N.eqb_refl.
  - destruct (N.eqb_spec x k) as [->|Hn]; [reflexivity|].
    etransitivity; [|apply perm_swap]. constructor. auto.
Qed.

Lemma skipn_app_le {A} (n : nat) (l r : list A) : n <= length l -> skipn n (l ++ r) = skipn n l ++ r.
Proof. intros H. rewrite skipn_app. replace (n - length l) with 0 by lia. reflexivity. Qed.

Lemma nth_error_skipn0 {A} (l : list A) n : nth_error l n = nth_error (skipn n l) 0.
Proof. revert l. induction n as [|n IH]; intros [|x l]; try reflexivity. exact (IH l). Qed.

Lemma skipn_plus {A} (l : list A) a b : skipn (b + a) l = skipn a (skipn b l).
Proof. revert l. induction b as [|b IH]; intros [|x l]; cbn [plus skipn]; [reflexivity|reflexivity|now rewrite skipn_nil|apply IH]. Qed.

Lemma upto_length n : length (upto n) = N.to_nat n.
Proof. unfold upto. now rewrite map_length, seq_length. Qed.

Lemma upto_NoDup n : NoDup (upto n).
Proof. unfold upto. apply FinFun.Injective_map_NoDup; [intros a b; lia|apply seq_NoDup]. Qed.

Lemma upto_In n k : In k (upto n) <-> (k < n)%N.
Proof.
  unfold upto. rewrite in_map_iff. split.
  - intros (x & <- & H%in_seq). lia.
  - intros H. exists (N.to_nat k). split; [lia|]. apply in_seq. lia.
Qed.

(** The chunk the [j]-th request should be given. *)
Definition ring_answer (n : N) (given_back : list N) (j : nat) : option N :=
  if (N.of_nat j <? n)%N then Some (N.of_nat j) else nth_error given_back (j - N.to_nat n).

Record rinv (n : N) (b : ring) (h : list done) : Prop := {
  ri_size : r_size b = n;
  ri_cap : (n <= q_cap (r_queue b))%N;
  ri_count : r_count b = lenN (lent h);
  ri_small : (lenN (lent h) < w64)%N;
  ri_queue : rep (r_queue b) (lenN (backs h)) (lenN (lent h) - n)
                 (skipn (length (lent h) - N.to_nat n) (backs h));
  ri_fifo : forall j, j < length (lent h) -> nth_error (lent h) j = ring_answer n (backs h) j;
  ri_part : Permutation (on_loan h ++ skipn (length (lent h) - N.to_nat n) (backs h))
                        (upto (N.min (lenN (lent h)) n));
  ri_loan : r_loan b = lenN (on_loan h);
  ri_sum : length (lent h) = length (on_loan h) + length (backs h);
}.

Lemma rinv_new mem gen n : (1 <= n <= 2 ^ 32)%N -> rinv n (ring_new mem gen n) [].
Proof.
  intros Hn. destruct (upper_pow n Hn) as (j & Hj & E & Hle & _).
  split; cbn [ring_new r_size r_queue r_count r_loan queue_new q_cap lent backs flat_map on_loan on_loan_from length lenN];
    try reflexivity.
  - now rewrite E.
  - rewrite skipn_nil. rewrite E. apply rep_new. lia.
  - intros j0 H; cbn in H; lia.
  - rewrite skipn_nil. replace (N.min (lenN []) n) with 0%N by (cbn; lia). reflexivity.
Qed.

Lemma rinv_get n b h t : (1 <= n)%N -> rinv n b h -> (lenN (lent h) + 1 < w64)%N ->
  (exists k b', ring_getChunk b t = RDone (k, b') /\ rinv n b' (h ++ [Lent t k]) /\
     r_chunks b' = upd (r_chunks b) k (chunk_reset (r_chunks b k) t) /\ r_gen b' = r_gen b /\
     ring_answer n (backs h) (length (lent h)) = Some k)
  \/ (ring_getChunk b t = RWaits /\ (n <= lenN (lent h))%N /\
      ring_answer n (backs h) (length (lent h)) = None).
Proof.
  intros Hn I Hs. pose proof (ri_queue _ _ _ I) as RQ.
  unfold ring_getChunk. rewrite (ri_size _ _ _ I), (ri_count _ _ _ I).
  assert (((lenN (lent h) + 1) mod w64 = lenN (lent h) + 1)%N) as EC by (now apply N.mod_small).
  assert ((r_loan b + 1) mod w64 = lenN (on_loan h) + 1)%N as EL.
  { rewrite (ri_loan _ _ _ I). apply N.mod_small. pose proof (ri_sum _ _ _ I). unfold lenN in *. lia. }
  assert (forall k q', rep q' (lenN (backs h)) (lenN (lent h) + 1 - n)
             (skipn (S (length (lent h)) - N.to_nat n) (backs h)) ->
           (n <= q_cap q')%N ->
           ring_answer n (backs h) (length (lent h)) = Some k ->
           Permutation (k :: on_loan h ++ skipn (S (length (lent h)) - N.to_nat n) (backs h))
             (upto (N.min (lenN (lent h) + 1) n)) ->
           rinv n {| r_size := n; r_chunks := upd (r_chunks b) k (chunk_reset (r_chunks b k) t);
             r_count := ((lenN (lent h) + 1) mod w64)%N; r_loan := ((r_loan b + 1) mod w64)%N;
             r_queue := q'; r_gen := r_gen b |} (h ++ [Lent t k])) as FIN.
  { intros k q' HR HC HA HP.
    assert (lent (h ++ [Lent t k]) = lent h ++ [k]) as L1 by now rewrite lent_app.
    assert (backs (h ++ [Lent t k]) = backs h) as B1 by (rewrite backs_app; apply app_nil_r).
    assert (on_loan (h ++ [Lent t k]) = k :: on_loan h) as O1 by (unfold on_loan; now rewrite on_loan_app).
    assert (lenN (lent h ++ [k]) = lenN (lent h) + 1)%N as L2 by (unfold lenN; rewrite app_length; cbn; lia).
    split; cbn [r_size r_queue r_count r_loan]; try rewrite L1; try rewrite B1; try rewrite O1; try rewrite L2; auto.
    - rewrite app_length; cbn [length]. now replace (length (lent h) + 1) with (S (length (lent h))) by lia.
    - intros j Hj. rewrite app_length in Hj; cbn in Hj.
      destruct (Nat.eq_dec j (length (lent h))) as [->|Hj'].
      + now rewrite nth_error_app2, Nat.sub_diag by lia.
      + rewrite nth_error_app1 by lia. apply (ri_fifo _ _ _ I). lia.
    - rewrite app_length; cbn [length app]. now replace (length (lent h) + 1) with (S (length (lent h))) by lia.
    - rewrite EL. unfold lenN; cbn [length]. lia.
    - rewrite app_length; cbn [length]. pose proof (ri_sum _ _ _ I). lia. }
  destruct (N.leb_spec n (lenN (lent h))) as [K|K].
  - (* from the queue *)
    assert (HA : ring_answer n (backs h) (length (lent h)) = nth_error (backs h) (length (lent h) - N.to_nat n)).
    { unfold ring_answer. destruct (N.ltb_spec (N.of_nat (length (lent h))) n) as [L|L]; [unfold lenN in K; lia|reflexivity]. }
    destruct (skipn (length (lent h) - N.to_nat n) (backs h)) as [|k l] eqn:EQ.
    + right. rewrite (dequeue_empty _ _ _ RQ). split; [reflexivity|]. split; [exact K|].
      rewrite HA. apply nth_error_None.
      apply (f_equal (@length N)) in EQ. rewrite skipn_length in EQ. cbn in EQ. lia.
    + left. destruct (dequeue_rep _ _ _ _ _ RQ) as (q' & E1 & E2 & E3). rewrite E1.
      exists k. eexists; split; [reflexivity|].
      assert (EA : ring_answer n (backs h) (length (lent h)) = Some k).
      { rewrite HA, nth_error_skipn0, EQ. reflexivity. }
      assert (ES : skipn (S (length (lent h)) - N.to_nat n) (backs h) = l).
      { replace (S (length (lent h)) - N.to_nat n) with (S (length (lent h) - N.to_nat n)) by (unfold lenN in K; lia).
        replace (S (length (lent h) - N.to_nat n)) with ((length (lent h) - N.to_nat n) + 1) by lia.
        rewrite skipn_plus, EQ. reflexivity. }
      split; [|auto]. apply FIN.
      * rewrite ES. replace (lenN (lent h) + 1 - n)%N with (lenN (lent h) - n + 1)%N by lia. exact E2.
      * rewrite E3. exact (ri_cap _ _ _ I).
      * exact EA.
      * rewrite ES. replace (N.min (lenN (lent h) + 1) n) with (N.min (lenN (lent h)) n) by lia.
        rewrite <- (ri_part _ _ _ I), EQ. apply Permutation_middle.
  - left.
    exists (lenN (lent h)). eexists; split; [reflexivity|].
    assert (EA : ring_answer n (backs h) (length (lent h)) = Some (lenN (lent h))).
    { unfold ring_answer. fold (lenN (lent h)). destruct (N.ltb_spec (lenN (lent h)) n) as [L|L]; [reflexivity|lia]. }
    split; [|auto].
    assert (S (length (lent h)) - N.to_nat n = length (lent h) - N.to_nat n) as ES by (unfold lenN in K; lia).
    apply FIN; rewrite ?ES.
    + replace (lenN (lent h) + 1 - n)%N with (lenN (lent h) - n)%N by lia. exact RQ.
    + exact (ri_cap _ _ _ I).
    + exact EA.
    + replace (N.min (lenN (lent h) + 1) n) with (lenN (lent h) + 1)%N by lia.
      rewrite upto_S. rewrite (ri_part _ _ _ I).
      replace (N.min (lenN (lent h)) n) with (lenN (lent h)) by lia. apply Permutation_cons_append.
Qed.

Lemma rinv_back n b h k : (1 <= n)%N -> rinv n b h -> In k (on_loan h) ->
  exists b', ring_returnChunk b k = RDone b' /\ rinv n b' (h ++ [Back k]) /\
     r_chunks b' = r_chunks b /\ r_gen b' = r_gen b.
Proof.
  intros Hn I Hk. pose proof (ri_queue _ _ _ I) as RQ. pose proof (ri_sum _ _ _ I) as HS.
  pose proof (Permutation_length (ri_part _ _ _ I)) as HP.
  rewrite app_length, upto_length in HP.
  assert (0 < length (on_loan h)) as HL by (destruct (on_loan h); [easy|cbn; lia]).
  pose proof (ri_cap _ _ _ I) as HC.
  unfold ring_returnChunk.
  destruct (enqueue_rep _ _ _ _ k RQ) as (q' & E1 & E2 & E3); [lia|].
  rewrite E1. eexists; split; [reflexivity|]. split; [|auto].
  assert (lent (h ++ [Back k]) = lent h) as L1 by (rewrite lent_app; apply app_nil_r).
  assert (backs (h ++ [Back k]) = backs h ++ [k]) as B1 by now rewrite backs_app.
  assert (on_loan (h ++ [Back k]) = remove_one k (on_loan h)) as O1 by (unfold on_loan; now rewrite on_loan_app).
  pose proof (remove_one_perm k _ Hk) as PR. pose proof (Permutation_length PR) as PL. cbn [length] in PL.
  assert (length (lent h) - N.to_nat n <= length (backs h)) as HD.
  { rewrite skipn_length in HP. destruct (Nat.le_gt_cases (length (lent h) - N.to_nat n) (length (backs h))); [assumption|].
    pose proof (rep_len _ _ _ _ RQ) as RL. rewrite skipn_length in RL. unfold lenN in *. lia. }
  split; cbn [r_size r_queue r_count r_loan]; try rewrite L1; try rewrite B1; try rewrite O1.
  - exact (ri_size _ _ _ I).
  - rewrite E3. exact HC.
  - exact (ri_count _ _ _ I).
  - exact (ri_small _ _ _ I).
  - rewrite skipn_app_le by exact HD.
    replace (lenN (backs h ++ [k])) with (lenN (backs h) + 1)%N by (unfold lenN; rewrite app_length; cbn; lia).
    exact E2.
  - intros j Hj. rewrite (ri_fifo _ _ _ I j Hj).
    unfold ring_answer. destruct (N.ltb_spec (N.of_nat j) n) as [L|L]; [reflexivity|].
    rewrite nth_error_app1; [reflexivity|]. lia.
  - rewrite skipn_app_le by exact HD. rewrite <- (ri_part _ _ _ I). rewrite PR at 2.
    rewrite app_assoc. cbn [app]. rewrite <- Permutation_cons_append. reflexivity.
  - rewrite (ri_loan _ _ _ I).
    replace (lenN (on_loan h) + w64 - 1)%N with (lenN (on_loan h) - 1 + 1 * w64)%N by (unfold lenN; lia).
    rewrite N.mod_add by exact w64_nz. rewrite N.mod_small; [unfold lenN; lia|].
    pose proof (ri_small _ _ _ I). unfold lenN in *. lia.
  - rewrite app_length; cbn [length]. lia.
Qed.

(** Any run: finished calls, where it stops, and the invariant at its end. *)
Lemma ring_run_spec n : (1 <= n)%N -> forall cs b h0,
  rinv n b h0 -> (lenN (lent h0) + lenN (asks cs) < w64)%N ->
  let '(h, b', e) := ring_run b cs in
  well_behaved (h0 ++ h) ->
  (forall k, e = WaitsIn (GiveBack k) -> In k (on_loan (h0 ++ h)) -> False) /\
  e <> Crash /\
  r_gen b' = r_gen b /\
  rinv n b' (h0 ++ h) /\
  (exists rest, cs = calls_of h ++ rest /\
     match e with
     | AllDone => rest = []
     | WaitsIn c => exists r, rest = c :: r /\
          forall t, c = Ask t -> ring_answer n (backs (h0 ++ h)) (length (lent (h0 ++ h))) = None
     | Crash => False
     end).
Proof.
  intros Hn. induction cs as [|[t|k] cs IH]; intros b h0 I Hs; cbn [ring_run].
  - intros W. rewrite app_nil_r. split; [discriminate|]. split; [discriminate|]. split; [reflexivity|].
    split; [exact I|]. exists []. auto.
  - cbn [asks flat_map app] in Hs. fold (asks cs) in Hs. unfold lenN in Hs; cbn [length] in Hs. fold (lenN (asks cs)) in Hs.
    destruct (rinv_get n b h0 t Hn I) as [(k & b1 & G1 & G2 & _ & G3 & _)|(G1 & G2 & G3)]; [unfold lenN in *; lia| |].
    + rewrite G1. specialize (IH b1 (h0 ++ [Lent t k]) G2).
      destruct (ring_run b1 cs) as [[h b'] e].
      rewrite <- app_assoc in IH. cbn [app] in IH.
      intros W. destruct IH as (I1 & I2 & I3 & I4 & I5); [|exact W|].
      { rewrite lent_app. unfold lenN in *. rewrite app_length; cbn [lent flat_map app length]. lia. }
      split; [exact I1|]. split; [exact I2|]. split; [congruence|]. split; [exact I4|].
      destruct I5 as (rest & -> & I6). exists rest. split; [reflexivity|exact I6].
    + rewrite G1. intros W. rewrite app_nil_r in *. split; [discriminate|]. split; [discriminate|]. split; [reflexivity|].
      split; [exact I|]. exists (Ask t :: cs). split; [reflexivity|]. exists cs. split; [reflexivity|].
      intros t' [= <-]. exact G3.
  - cbn [asks flat_map app] in Hs. fold (asks cs) in Hs.
    destruct (in_dec N.eq_dec k (on_loan h0)) as [Hk|Hk].
    + destruct (rinv_back n b h0 k Hn I Hk) as (b1 & G1 & G2 & _ & G3).
      rewrite G1. specialize (IH b1 (h0 ++ [Back k]) G2).
      destruct (ring_run b1 cs) as [[h b'] e].
      rewrite <- app_assoc in IH. cbn [app] in IH.
      intros W. destruct IH as (I1 & I2 & I3 & I4 & I5); [|exact W|].
      { rewrite lent_app. unfold lenN in *. rewrite app_length; cbn [lent flat_map app length]. lia. }
      split; [exact I1|]. split; [exact I2|]. split; [congruence|]. split; [exact I4|].
      destruct I5 as (rest & -> & I6). exists rest. split; [reflexivity|exact I6].
    + destruct (ring_returnChunk b k) as [b1| |] eqn:E.
      * destruct (ring_run b1 cs) as [[h b'] e].
        intros W. exfalso. apply Hk. apply (W h0 k h). reflexivity.
      * rewrite app_nil_r. intros W. split; [intros k' [= <-]; exact Hk|]. split; [discriminate|]. split; [reflexivity|].
        split; [exact I|]. exists (GiveBack k :: cs). split; [reflexivity|]. exists cs. split; [reflexivity|].
        discriminate.
      * unfold ring_returnChunk in E. now destruct (enqueue (r_queue b) k).
Qed.

Lemma ring_run_prefix : forall p cs b s b' e, ring_run b cs = (p ++ s, b', e) ->
  exists b1, ring_run b (calls_of p) = (p, b1, AllDone).
Proof.
  induction p as [|d p IH]; intros cs b s b' e H; [eexists; reflexivity|].
  destruct cs as [|[t|k] cs]; cbn [ring_run app] in H; [discriminate| |].
  - destruct (ring_getChunk b t) as [[k b1]| |] eqn:G; try discriminate.
    destruct (ring_run b1 cs) as [[h b2] e2] eqn:R. injection H as <- -> <- <-.
    destruct (IH _ _ _ _ _ R) as (b3 & E). exists b3.
    cbn [calls_of map ring_run]. rewrite G. fold (calls_of p). now rewrite E.
  - destruct (ring_returnChunk b k) as [b1| |] eqn:G; try discriminate.
    destruct (ring_run b1 cs) as [[h b2] e2] eqn:R. injection H as <- -> <- <-.
    destruct (IH _ _ _ _ _ R) as (b3 & E). exists b3.
    cbn [calls_of map ring_run]. rewrite G. fold (calls_of p). now rewrite E.
Qed.

Lemma well_behaved_prefix p s : well_behaved (p ++ s) -> well_behaved p.
Proof. intros W a k r ->. apply (W a k (r ++ s)). now rewrite <- app_assoc. Qed.

Lemma asks_calls_of h : length (asks (calls_of h)) = length (asked h).
Proof. induction h as [|[t k|t|k] h IH]; cbn; auto. Qed.

Lemma asks_app a b : asks (a ++ b) = asks a ++ asks b.
Proof. apply flat_map_app. Qed.

Lemma calls_of_app a b : calls_of (a ++ b) = calls_of a ++ calls_of b.
Proof. apply map_app. Qed.

Lemma ring_run_at mem gen n cs : (1 <= n <= 2 ^ 32)%N -> (lenN (asks cs) < w64)%N ->
  forall h b e, ring_run (ring_new mem gen n) cs = (h, b, e) -> well_behaved h ->
  forall p s, h = p ++ s -> exists b1, rinv n b1 p.
Proof.
  intros Hn Hs h b e R W p s ->.
  destruct (ring_run_prefix _ _ _ _ _ _ R) as (b1 & R1).
  pose proof (ring_run_spec n ltac:(lia) cs _ [] (rinv_new mem gen n Hn)) as S0.
  rewrite R in S0. cbn [app] in S0. destruct S0 as (_ & _ & _ & _ & rest & E & _); [exact Hs|exact W|].
  pose proof (ring_run_spec n ltac:(lia) (calls_of p) _ [] (rinv_new mem gen n Hn)) as S.
  rewrite R1 in S. cbn [app] in S. exists b1. apply S.
  - rewrite E, calls_of_app, <- app_assoc, asks_app in Hs. unfold lenN in *. rewrite app_length in Hs.
    cbn [lent flat_map length]. lia.
  - eapply well_behaved_prefix; exact W.
Qed.

Lemma NoDup_app_l {A} (a b : list A) : NoDup (a ++ b) -> NoDup a.
Proof.
  induction a as [|x a IH]; intros H; [constructor|]. inversion H as [|? ? H1 H2]; subst.
  constructor; [|auto]. intros K. apply H1. apply in_or_app. auto.
Qed.

Lemma rinv_never n b h t k : rinv n b (h ++ [Lent t k]) -> ~ In k (on_loan h) /\ (k < n)%N.
Proof.
  intros I. pose proof (ri_part _ _ _ I) as P.
  assert (NoDup (on_loan (h ++ [Lent t k]) ++
    skipn (length (lent (h ++ [Lent t k])) - N.to_nat n) (backs (h ++ [Lent t k])))) as ND.
  { eapply Permutation_NoDup; [symmetry; exact P|apply upto_NoDup]. }
  apply NoDup_app_l in ND.
  assert (on_loan (h ++ [Lent t k]) = k :: on_loan h) as O1 by (unfold on_loan; now rewrite on_loan_app).
  rewrite O1 in ND, P. split; [now inversion ND|].
  assert (In k (upto (N.min (lenN (lent (h ++ [Lent t k]))) n))) as K.
  { eapply Permutation_in; [exact P|]. now left. }
  apply upto_In in K. lia.
Qed.

(** * Iteration *)

(** The events of chunk [p] from offset [o] on, tagged with the thread id. *)
Definition tagged (c : chunk) : list (event * N) := map (fun e => (e, c_tid c)) (chunk_events c).

Definition from_chunk (v : view) (p : N) : list (event * N) :=
  flat_map (fun i => tagged (v_chunk v (N.of_nat i))) (seq (N.to_nat p) (N.to_nat (v_count v) - N.to_nat p)).

Definition rest_at (v : view) (it : iter) : list (event * N) :=
  if (it_parent it <? v_count v)%N then
    skipn (N.to_nat (snd (it_child it))) (tagged (v_chunk v (it_parent it))) ++ from_chunk v (it_parent it + 1)
  else [].

(** A usable iterator: either at the end or inside a chunk. *)
Definition it_ok (v : view) (it : iter) : Prop :=
  it_end it = v_count v /\
  (it_parent it = v_count v \/
   (it_parent it < v_count v)%N /\ fst (it_child it) = it_parent it /\
   (snd (it_child it) <= c_next (v_chunk v (it_parent it)))%N).

Definition it_settled (v : view) (it : iter) : Prop :=
  it_parent it = v_count v \/ (snd (it_child it) < c_next (v_chunk v (it_parent it)))%N.

Lemma tagged_length c : length (tagged c) = N.to_nat (c_next c).
Proof. unfold tagged. now rewrite map_length, chunk_events_length. Qed.

Lemma from_chunk_step v p : (p < v_count v)%N ->
  from_chunk v p = tagged (v_chunk v p) ++ from_chunk v (p + 1).
Proof.
  intros H. unfold from_chunk.
  replace (N.to_nat (v_count v) - N.to_nat p) with (S (N.to_nat (v_count v) - N.to_nat (p + 1))) by lia.
  cbn [seq flat_map]. rewrite N2Nat.id. now replace (S (N.to_nat p)) with (N.to_nat (p + 1)) by lia.
Qed.

Lemma from_chunk_end v p : (v_count v <= p)%N -> from_chunk v p = [].
Proof. intros H. unfold from_chunk. now replace (N.to_nat (v_count v) - N.to_nat p) with 0 by lia. Qed.

Lemma seek_loop_ok v : forall fuel it, it_ok v it -> (it_parent it < v_count v)%N ->
  N.to_nat (v_count v - it_parent it) < fuel ->
  exists it', seek_loop fuel v it = Some it' /\ it_ok v it' /\ it_settled v it' /\ rest_at v it' = rest_at v it.
Proof.
  induction fuel as [|f IH]; intros it Hok Hp Hf; [lia|].
  destruct Hok as (He & [K|(_ & H1 & H2)]); [lia|].
  cbn [seek_loop]. rewrite H1, N.eqb_refl. cbn [andb].
  assert (rest_at v it = skipn (N.to_nat (snd (it_child it))) (tagged (v_chunk v (it_parent it))) ++ from_chunk v (it_parent it + 1)) as R0.
  { unfold rest_at. destruct (N.ltb_spec (it_parent it) (v_count v)); [reflexivity|lia]. }
  destruct (N.eqb_spec (snd (it_child it)) (c_next (v_chunk v (it_parent it)))) as [E|E].
  - rewrite skipn_all2 in R0 by (rewrite tagged_length; lia). cbn [app] in R0.
    rewrite He. destruct (N.eqb_spec (it_parent it + 1) (v_count v)) as [E'|E'].
    + eexists; split; [reflexivity|]. split; [split; [reflexivity|left; exact E']|].
      split; [left; exact E'|]. rewrite R0. unfold rest_at; cbn [it_parent].
      destruct (N.ltb_spec (it_parent it + 1) (v_count v)); [lia|]. symmetry. apply from_chunk_end. lia.
    + edestruct IH as (it' & S1 & S2 & S3 & S4); [| | |exists it'; split; [exact S1|split; [exact S2|split; [exact S3|]]]].
      * split; [reflexivity|]. right. cbn. lia.
      * cbn; lia.
      * cbn; lia.
      * rewrite S4, R0. unfold rest_at; cbn [it_parent it_child snd].
        destruct (N.ltb_spec (it_parent it + 1) (v_count v)); [|lia].
        change (N.to_nat 0) with 0. cbn [skipn]. symmetry. apply from_chunk_step. lia.
  - exists it. split; [reflexivity|]. split; [split; [exact He|right; auto]|]. split; [right; lia|reflexivity].
Qed.

Lemma seek_ok v it : it_ok v it ->
  exists it', seek v it = Some it' /\ it_ok v it' /\ it_settled v it' /\ rest_at v it' = rest_at v it.
Proof.
  intros Hok. unfold seek. destruct (N.eqb_spec (it_parent it) (it_end it)) as [E|E].
  - exists it. destruct (Hok) as (He & _). split; [reflexivity|]. split; [exact Hok|]. split; [left; congruence|reflexivity].
  - destruct (Hok) as (He & [K|(K & _ & _)]); [congruence|].
    apply seek_loop_ok; [exact Hok|exact K|]. rewrite He. lia.
Qed.

Lemma tagged_nth c i : (i < c_next c)%N ->
  nth_error (tagged c) (N.to_nat i) = Some (c_arr c i, c_tid c).
Proof.
  intros H. unfold tagged, chunk_events. rewrite map_map.
  rewrite nth_error_map. rewrite (nth_error_nth' _ 0) by (rewrite seq_length; lia).
  rewrite seq_nth by lia. cbn. now rewrite N2Nat.id.
Qed.

Lemma skipn_cons_nth {A} (l : list A) n x : nth_error l n = Some x -> skipn n l = x :: skipn (S n) l.
Proof.
  revert l. induction n as [|n IH]; intros [|y l] H; try discriminate.
  - cbn in H. now injection H as ->.
  - cbn in H. cbn [skipn]. apply IH in H. exact H.
Qed.

Lemma iterate_ok v : forall fuel it fin,
  it_ok v it -> it_settled v it -> it_parent fin = v_count v ->
  length (rest_at v it) < fuel ->
  iterate fuel v it fin = Some (rest_at v it).
Proof.
  induction fuel as [|f IH]; intros it fin Hok Hst Hfin Hf; [lia|].
  cbn [iterate]. destruct (Hok) as (He & [K|(Kp & Kc & Ko)]).
  - unfold iter_eqb. rewrite Hfin, K, He, N.eqb_refl. cbn [andb].
    unfold rest_at. rewrite K, N.ltb_irrefl. reflexivity.
  - destruct Hst as [Hst|Hst]; [lia|].
    unfold iter_eqb. rewrite Hfin, He.
    destruct (N.eqb_spec (it_parent it) (v_count v)) as [E|E]; [lia|]. cbn [andb].
    assert (rest_at v it = iter_get v it ::
       rest_at v {| it_parent := it_parent it; it_end := it_end it;
                    it_child := (fst (it_child it), (snd (it_child it) + 1)%N) |}) as R.
    { unfold rest_at; cbn [it_parent it_child snd].
      destruct (N.ltb_spec (it_parent it) (v_count v)); [|lia].
      rewrite (skipn_cons_nth _ _ _ (tagged_nth _ _ Hst)).
      replace (S (N.to_nat (snd (it_child it)))) with (N.to_nat (snd (it_child it) + 1)) by lia.
      cbn [app]. unfold iter_get. now rewrite Kc. }
    unfold iter_next.
    edestruct (seek_ok v) as (it' & S1 & S2 & S3 & S4);
      [|rewrite S1].
    { split; [exact He|]. right. cbn. split; [exact Kp|]. split; [exact Kc|]. lia. }
    rewrite R in Hf |- *. cbn [length] in Hf.
    rewrite IH by (try assumption; rewrite S4; lia). cbn. now rewrite S4.
Qed.

Lemma iterate_all v : exists b e, it_begin v = Some b /\ it_finish v = Some e /\
  forall fuel, length (from_chunk v 0) < fuel -> iterate fuel v b e = Some (from_chunk v 0).
Proof.
  unfold it_begin, it_finish, iter_new.
  destruct (seek_ok v {| it_parent := 0; it_end := v_count v; it_child := (0%N, 0%N) |}) as (b & B1 & B2 & B3 & B4).
  { split; [reflexivity|]. cbn. destruct (N.eq_dec (v_count v) 0) as [E|E]; [left; lia|right; lia]. }
  assert (rest_at v b = from_chunk v 0) as RB.
  { rewrite B4. unfold rest_at; cbn [it_parent it_child snd]. change (N.to_nat 0) with 0. cbn [skipn].
    destruct (N.ltb_spec 0 (v_count v)) as [L|L]; [symmetry; now apply from_chunk_step|symmetry; now apply from_chunk_end]. }
  exists b. unfold seek at 2. cbn [it_parent it_end]. rewrite N.eqb_refl.
  eexists. split; [exact B1|]. split; [reflexivity|]. intros fuel Hf.
  rewrite iterate_ok; auto; rewrite RB; auto.
Qed.

(** * One thread logging into a ring *)

(** The [f]-th run of [c] events. *)
Definition win {A} (c : nat) (es : list A) (f : nat) : list A := firstn c (skipn (f * c) es).

Lemma win_full {A} c (es : list A) f e : (f + 1) * c <= length es -> win c (es ++ [e]) f = win c es f.
Proof.
  intros H. unfold win. rewrite skipn_app_le by lia. rewrite firstn_app, skipn_length.
  replace (c - (length es - f * c)) with 0 by lia. apply app_nil_r.
Qed.

Lemma win_last {A} c (es : list A) f e : f * c <= length es < (f + 1) * c ->
  win c (es ++ [e]) f = win c es f ++ [e].
Proof.
  intros H. unfold win. rewrite skipn_app_le by lia.
  rewrite !firstn_all2; rewrite ?app_length, ?skipn_length; cbn [length]; try lia. reflexivity.
Qed.

Lemma win_length {A} c (es : list A) f : length (win c es f) = Nat.min c (length es - f * c).
Proof. unfold win. now rewrite firstn_length, skipn_length. Qed.

Lemma win_concat {A} c (es : list A) : forall m a,
  flat_map (fun i => win c es (a + i)) (seq 0 m) = firstn (m * c) (skipn (a * c) es).
Proof.
  induction m as [|m IH]; intros a; [reflexivity|].
  rewrite seq_S, flat_map_app, IH. cbn [flat_map plus]. rewrite app_nil_r. unfold win.
  replace ((a + m) * c) with (a * c + m * c) by lia. rewrite skipn_plus.
  set (l := skipn (a * c) es). clearbody l.
  replace (S m * c) with (m * c + c) by lia.
  generalize (m * c) as x. intros x. revert l.
  induction x as [|x IHx]; intros [|y l]; cbn [firstn skipn plus app]; try reflexivity.
  - destruct c; reflexivity.
  - now rewrite IHx.
Qed.

Definition fills (cap k : N) : N := ((k + cap - 1) / cap)%N.

Record linv (n cap tid : N) (es : list event) (b : ring) (cur : option N) (j : N) : Prop := {
  li_h : exists h, rinv n b h /\ lenN (lent h) = (j + 1)%N /\ on_loan h = [(j mod n)%N] /\
          (forall i, i < length (backs h) -> nth_error (backs h) i = Some (N.of_nat i mod n)%N);
  li_cur : cur = Some (j mod n)%N;
  li_lo : N.to_nat j * N.to_nat cap < length es;
  li_hi : length es <= (N.to_nat j + 1) * N.to_nat cap;
  li_win : forall f, (f <= j)%N -> (j < f + n)%N ->
     chunk_events (r_chunks b (f mod n)) = win (N.to_nat cap) es (N.to_nat f) /\
     c_tid (r_chunks b (f mod n)) = tid;
}.

Lemma rinv_set n b h k c : rinv n b h -> rinv n (set_chunk_r b k c) h.
Proof. intros [H1 H2 H3 H4 H5 H6 H7 H8 H9]. split; assumption. Qed.

Lemma ring_store cap b k e : (cap < ushort)%N -> (c_next (r_chunks b k) < cap)%N ->
  exists c, chunk_add cap (r_chunks b k) e = Ok c /\
    chunk_events c = chunk_events (r_chunks b k) ++ [e] /\ c_tid c = c_tid (r_chunks b k).
Proof.
  intros H1 H2. destruct (chunk_add_ok cap (r_chunks b k) e H1 H2) as (c & A & _ & B & D). eauto.
Qed.

Lemma ring_log_first n cap tid mem gen e : (1 <= n <= 2 ^ 32)%N -> (1 <= cap < ushort)%N ->
  exists b, ring_log cap (ring_new mem gen n) None tid e = RDone (b, Some 0%N) /\
    linv n cap tid [e] b (Some 0%N) 0.
Proof.
  intros Hn Hc. unfold ring_log.
  destruct (rinv_get n (ring_new mem gen n) [] tid ltac:(lia) (rinv_new mem gen n Hn) ltac:(reflexivity))
    as [(k & b & G1 & G2 & G3 & _ & G4)|(G1 & G2 & _)].
  2: { cbn in G2. lia. }
  rewrite G1. unfold ring_answer in G4. cbn [lent flat_map length] in G4.
  destruct (N.ltb_spec (N.of_nat 0) n) as [L|L]; [|cbn in L; lia].
  injection G4 as <-. change (N.of_nat 0) with 0%N in *.
  assert (r_chunks b 0%N = chunk_reset (mem 0%N) tid) as RC.
  { rewrite G3, upd_same. reflexivity. }
  destruct (ring_store cap b 0 e) as (c & A & B & D); [lia|rewrite RC; cbn; lia|].
  rewrite A. eexists; split; [reflexivity|]. rewrite RC in B, D. cbn [chunk_reset chunk_events c_next c_tid] in B, D.
  split.
  - eexists. split; [apply rinv_set; exact G2|]. split; [reflexivity|].
    rewrite N.mod_0_l by lia. split; [reflexivity|]. intros i Hi; cbn in Hi; lia.
  - rewrite N.mod_0_l by lia. reflexivity.
  - cbn. lia.
  - cbn. lia.
  - intros f Hf _. replace f with 0%N by lia. rewrite N.mod_0_l by lia.
    cbn [set_chunk_r r_chunks]. rewrite upd_same. split; [|exact D].
    rewrite B. unfold win. cbn [N.to_nat Nat.mul skipn]. rewrite firstn_all2 by (cbn [length]; lia). reflexivity.
Qed.

Lemma ring_log_next n cap tid es b cur j e : (1 <= n <= 2 ^ 32)%N -> (1 <= cap < ushort)%N ->
  linv n cap tid es b cur j -> (lenN es + 1 < w64)%N ->
  exists b' cur' j', ring_log cap b cur tid e = RDone (b', cur') /\
    linv n cap tid (es ++ [e]) b' cur' j'.
Proof.
  intros Hn Hc L Hk. destruct L as [(h & RI & Hlent & Hloan & Hbacks) Hcur Hlo Hhi Hwin].
  pose proof (ri_sum _ _ _ RI) as Hsum. rewrite Hloan in Hsum. cbn [length] in Hsum.
  assert (length (backs h) = N.to_nat j) as Hbl by (unfold lenN in Hlent; lia).
  set (k := (j mod n)%N) in *.
  destruct (Hwin j ltac:(lia) ltac:(lia)) as (We & Wt). fold k in We, Wt.
  assert (N.to_nat (c_next (r_chunks b k)) = length es - N.to_nat j * N.to_nat cap) as Hnext.
  { rewrite <- chunk_events_length, We, win_length. lia. }
  assert (j < w64 - 1)%N as Hj.
  { assert (N.to_nat j < length es)%nat; [|unfold lenN in Hk; lia].
    assert (N.to_nat j * 1 <= N.to_nat j * N.to_nat cap) by (apply Nat.mul_le_mono_l; lia). lia. }
  unfold ring_log. rewrite Hcur. unfold chunk_isFull.
  destruct (N.eqb_spec (c_next (r_chunks b k)) cap) as [F|F].
  - (* full: return it and take the next *)
    destruct (rinv_back n b h k ltac:(lia) RI) as (b1 & B1 & B2 & B3 & _); [rewrite Hloan; now left|].
    rewrite B1.
    set (h1 := h ++ [Back k]) in *.
    assert (lent h1 = lent h) as L1 by (unfold h1; rewrite lent_app; apply app_nil_r).
    assert (backs h1 = backs h ++ [k]) as K1 by (unfold h1; now rewrite backs_app).
    assert (on_loan h1 = []) as O1.
    { unfold h1, on_loan. rewrite on_loan_app. fold (on_loan h). rewrite Hloan. cbn. now rewrite N.eqb_refl. }
    assert (forall i, i < length (backs h1) -> nth_error (backs h1) i = Some (N.of_nat i mod n)%N) as Hb1.
    { intros i Hi. rewrite K1 in Hi |- *. rewrite app_length in Hi; cbn in Hi.
      destruct (Nat.eq_dec i (length (backs h))) as [->|Hne].
      - rewrite nth_error_app2, Nat.sub_diag by lia. cbn. unfold k. do 2 f_equal. lia.
      - rewrite nth_error_app1 by lia. apply Hbacks. lia. }
    assert (ring_answer n (backs h1) (length (lent h1)) = Some ((j + 1) mod n)%N) as HA.
    { unfold ring_answer. rewrite L1. unfold lenN in Hlent.
      destruct (N.ltb_spec (N.of_nat (length (lent h))) n) as [C|C].
      - rewrite Hlent in *. rewrite N.mod_small by lia. reflexivity.
      - rewrite Hb1 by (rewrite K1, app_length; cbn; lia). f_equal.
        replace (N.of_nat (length (lent h) - N.to_nat n)) with (j + 1 - n)%N by lia.
        replace (j + 1)%N with (j + 1 - n + 1 * n)%N at 2 by lia. symmetry. apply N.mod_add. lia. }
    destruct (rinv_get n b1 h1 tid ltac:(lia) B2) as [(k2 & b2 & G1 & G2 & G3 & _ & G4)|(_ & _ & G4)].
    { rewrite L1, Hlent.
      assert (N.to_nat j + 1 <= length es); [|unfold lenN in Hk; lia].
      rewrite F in Hnext.
      assert ((N.to_nat j + 1) * 1 <= (N.to_nat j + 1) * N.to_nat cap) by (apply Nat.mul_le_mono_l; lia). lia. }
    2: { rewrite HA in G4; discriminate. }
    rewrite HA in G4. injection G4 as <-.
    rewrite G1. set (k2 := ((j + 1) mod n)%N) in *.
    assert (r_chunks b2 k2 = chunk_reset (r_chunks b k2) tid) as RC by (rewrite G3, upd_same, B3; reflexivity).
    destruct (ring_store cap b2 k2 e) as (c & A & B & D); [lia|rewrite RC; cbn; lia|].
    rewrite A. rewrite RC in B, D. cbn [chunk_reset chunk_events c_next c_tid] in B, D.
    assert (length es = (N.to_nat j + 1) * N.to_nat cap) as Hlen.
    { rewrite F in Hnext. lia. }
    do 2 eexists. exists (j + 1)%N. split; [reflexivity|]. split.
    + eexists. split; [apply rinv_set; exact G2|]. split; [|split].
      * rewrite lent_app. unfold lenN. rewrite app_length, L1. cbn [lent flat_map app length]. unfold lenN in Hlent. lia.
      * unfold on_loan. rewrite on_loan_app. fold (on_loan h1). rewrite O1. reflexivity.
      * rewrite backs_app. cbn [backs flat_map app]. rewrite app_nil_r. exact Hb1.
    + reflexivity.
    + rewrite app_length; cbn [length]. rewrite Hlen, N2Nat.inj_add. cbn. lia.
    + rewrite app_length; cbn [length]. rewrite Hlen, N2Nat.inj_add. cbn [N.to_nat Pos.to_nat]. change (Pos.to_nat 1) with 1. nia.
    + intros f Hf1 Hf2. cbn [set_chunk_r r_chunks].
      destruct (N.eq_dec f (j + 1)) as [->|Hne].
      * fold k2. rewrite upd_same. split; [|exact D]. rewrite B.
        unfold win. replace (N.to_nat (j + 1) * N.to_nat cap) with (length es) by (rewrite Hlen; lia).
        rewrite skipn_app, skipn_all, Nat.sub_diag. cbn [app skipn map seq N.to_nat].
        rewrite firstn_all2 by (cbn [length]; lia). reflexivity.
      * assert (f mod n <> k2)%N as Hd.
        { intros Q. unfold k2 in Q. apply slot_inj in Q; lia. }
        rewrite upd_other by exact Hd. rewrite G3, upd_other by exact Hd. rewrite B3.
        destruct (Hwin f ltac:(lia) ltac:(lia)) as (W1 & W2). split; [|exact W2].
        rewrite W1. symmetry. apply win_full. rewrite Hlen.
        apply Nat.mul_le_mono_r. lia.
  - assert (c_next (r_chunks b k) < cap)%N as Hlt by lia.
    destruct (ring_store cap b k e) as (c & A & B & D); [lia|exact Hlt|].
    rewrite A. do 2 eexists. exists j. split; [reflexivity|]. split.
    + exists h. split; [apply rinv_set; exact RI|auto].
    + reflexivity.
    + rewrite app_length. lia.
    + rewrite app_length; cbn [length]. lia.
    + intros f Hf1 Hf2. cbn [set_chunk_r r_chunks].
      destruct (N.eq_dec f j) as [->|Hne].
      * fold k. rewrite upd_same. split; [|congruence]. rewrite B, We. symmetry. apply win_last. lia.
      * assert (f mod n <> k)%N as Hd.
        { intros Q. unfold k in Q. apply slot_inj in Q; lia. }
        rewrite upd_other by exact Hd.
        destruct (Hwin f ltac:(lia) ltac:(lia)) as (W1 & W2). split; [|exact W2].
        rewrite W1. symmetry. apply win_full.
        assert ((N.to_nat f + 1) * N.to_nat cap <= N.to_nat j * N.to_nat cap) by (apply Nat.mul_le_mono_r; lia). lia.
Qed.

Lemma ring_log_more n cap tid : (1 <= n <= 2 ^ 32)%N -> (1 <= cap < ushort)%N ->
  forall es2 es b cur j, linv n cap tid es b cur j -> (lenN (es ++ es2) < w64)%N ->
  exists b' cur' j', ring_log_all cap b cur tid es2 = RDone (b', cur') /\
    linv n cap tid (es ++ es2) b' cur' j'.
Proof.
  intros Hn Hc. induction es2 as [|e es2 IH]; intros es b cur j L Hk.
  - rewrite app_nil_r. do 3 eexists. split; [reflexivity|exact L].
  - cbn [ring_log_all].
    destruct (ring_log_next n cap tid es b cur j e Hn Hc L) as (b1 & cur1 & j1 & R1 & L1).
    { unfold lenN in *. rewrite app_length in Hk. cbn [length] in Hk. lia. }
    rewrite R1. destruct (IH _ _ _ _ L1) as (b2 & cur2 & j2 & R2 & L2).
    { now rewrite <- app_assoc. }
    rewrite <- app_assoc in L2. cbn [app] in L2. eauto.
Qed.

Lemma ring_log_done n cap tid mem gen es : (1 <= n <= 2 ^ 32)%N -> (1 <= cap < ushort)%N ->
  es <> [] -> (lenN es < w64)%N ->
  exists b cur j, ring_log_all cap (ring_new mem gen n) None tid es = RDone (b, cur) /\
    linv n cap tid es b cur j.
Proof.
  intros Hn Hc He Hk. destruct es as [|e es]; [easy|]. cbn [ring_log_all].
  destruct (ring_log_first n cap tid mem gen e Hn Hc) as (b & R & L). rewrite R.
  destruct (ring_log_more n cap tid Hn Hc es _ _ _ _ L) as (b2 & c2 & j2 & R2 & L2); [exact Hk|].
  exists b2, c2, j2. auto.
Qed.

Lemma linv_fills n cap tid es b cur j : (1 <= cap)%N -> linv n cap tid es b cur j -> fills cap (lenN es) = (j + 1)%N.
Proof.
  intros Hc L. pose proof (li_lo _ _ _ _ _ _ _ L). pose proof (li_hi _ _ _ _ _ _ _ L).
  unfold fills. symmetry. apply (N.div_unique _ _ _ (lenN es + cap - 1 - cap * (j + 1))%N); unfold lenN; nia.
Qed.

Lemma tagged_win c cap es f tid : chunk_events c = win cap es f -> c_tid c = tid ->
  tagged c = map (fun e => (e, tid)) (win cap es f).
Proof. intros H1 H2. unfold tagged. now rewrite H1, H2. Qed.

Lemma flat_map_map {A B C} (g : B -> C) (f : A -> list B) l :
  flat_map (fun x => map g (f x)) l = map g (flat_map f l).
Proof. induction l as [|x l IH]; cbn; [reflexivity|]. now rewrite map_app, IH. Qed.

Lemma linv_view n cap tid es b cur j : (1 <= n)%N -> (1 <= cap)%N -> linv n cap tid es b cur j ->
  let kept := skipn (N.to_nat (j + 1 - n) * N.to_nat cap) es in
  exists old new, kept = old ++ new /\
    from_chunk (ring_view b) 0 = map (fun e => (e, tid)) (new ++ old).
Proof.
  intros Hn Hc L. pose proof (li_hi _ _ _ _ _ _ _ L) as Hhi.
  destruct (li_h _ _ _ _ _ _ _ L) as (h & RI & Hlent & _ & _).
  pose proof (li_win _ _ _ _ _ _ _ L) as W.
  assert (ring_chunk_count b = N.min (j + 1) n) as HCnt.
  { unfold ring_chunk_count. rewrite (ri_size _ _ _ RI), (ri_count _ _ _ RI), Hlent.
    destruct (N.ltb_spec n (j + 1)); lia. }
  cbn zeta. unfold from_chunk, ring_view; cbn [v_count v_chunk]. rewrite HCnt. change (N.to_nat 0) with 0.
  rewrite Nat.sub_0_r.
  destruct (N.le_gt_cases (j + 1) n) as [K|K].
  - (* not wrapped *)
    exists [], es. replace (j + 1 - n)%N with 0%N by lia. cbn [N.to_nat Nat.mul skipn app]. split; [reflexivity|].
    rewrite app_nil_r. replace (N.min (j + 1) n) with (j + 1)%N by lia.
    transitivity (flat_map (fun i => map (fun e => (e, tid)) (win (N.to_nat cap) es (0 + i))) (seq 0 (N.to_nat (j + 1)))).
    + rewrite !flat_map_concat_map. f_equal. apply map_ext_in. intros i Hi%in_seq.
      destruct (W (N.of_nat i)) as (W1 & W2); [lia|lia|].
      rewrite N.mod_small in W1, W2 by lia. rewrite Nat2N.id in W1. now apply tagged_win.
    + rewrite flat_map_map, win_concat. f_equal. cbn [Nat.mul skipn]. apply firstn_all2.
      rewrite N2Nat.inj_add. exact Hhi.
  - (* wrapped *)
    set (q := (j / n)%N). set (r := (j mod n)%N).
    assert (j = n * q + r)%N as Hqr by (apply N.div_mod; lia).
    assert (r < n)%N as Hr by (apply N.mod_lt; lia).
    assert (1 <= q)%N as Hq by (unfold q; apply N.div_le_lower_bound; lia).
    replace (N.min (j + 1) n) with n by lia.
    set (C := N.to_nat cap) in *.
    exists (firstn (N.to_nat (n - 1 - r) * C) (skipn (N.to_nat (j + 1 - n) * C) es)),
           (skipn (N.to_nat (n * q) * C) es).
    split.
    { rewrite <- (firstn_skipn (N.to_nat (n - 1 - r) * C) (skipn (N.to_nat (j + 1 - n) * C) es)) at 1.
      f_equal. rewrite <- skipn_plus. f_equal. rewrite <- Nat.mul_add_distr_r. f_equal. lia. }
    replace (N.to_nat n) with (N.to_nat (r + 1) + N.to_nat (n - 1 - r)) by lia.
    rewrite seq_app, flat_map_app, map_app. f_equal.
    + transitivity (flat_map (fun i => map (fun e => (e, tid)) (win C es (N.to_nat (n * q) + i))) (seq 0 (N.to_nat (r + 1)))).
      * rewrite !flat_map_concat_map. f_equal. apply map_ext_in. intros i Hi%in_seq.
        destruct (W (n * q + N.of_nat i)%N) as (W1 & W2); [lia|lia|].
        rewrite N.add_comm, N.mul_comm, N.mod_add in W1, W2 by lia. rewrite N.mod_small in W1, W2 by lia.
        replace (N.to_nat (N.of_nat i + q * n)) with (N.to_nat (n * q) + i) in W1 by lia. now apply tagged_win.
      * rewrite flat_map_map, win_concat. f_equal. apply firstn_all2. rewrite skipn_length.
        assert ((N.to_nat j + 1) * C = N.to_nat (n * q) * C + N.to_nat (r + 1) * C) by (rewrite <- Nat.mul_add_distr_r; f_equal; lia).
        lia.
    + cbn [plus].
      transitivity (flat_map (fun i => map (fun e => (e, tid)) (win C es (N.to_nat (j + 1 - n) + i))) (seq 0 (N.to_nat (n - 1 - r)))).
      * rewrite !flat_map_concat_map. f_equal.
        replace (N.to_nat (r + 1)) with (N.to_nat (r + 1) + 0) at 1 by lia.
        assert (forall m a, seq (N.to_nat (r + 1) + a) m = map (fun i => N.to_nat (r + 1) + i) (seq a m)) as SS.
        { induction m as [|m IHm]; intros a; cbn; [reflexivity|]. f_equal. rewrite <- IHm. f_equal. lia. }
        rewrite SS, map_map. apply map_ext_in. intros i Hi%in_seq.
        destruct (W (j + 1 - n + N.of_nat i)%N) as (W1 & W2); [lia|lia|].
        assert (((j + 1 - n + N.of_nat i) mod n = r + 1 + N.of_nat i)%N) as EM.
        { replace (j + 1 - n + N.of_nat i)%N with (r + 1 + N.of_nat i + (q - 1) * n)%N by nia.
          rewrite N.mod_add by lia. apply N.mod_small. lia. }
        rewrite EM in W1, W2.
        replace (N.of_nat (N.to_nat (r + 1) + i)) with (r + 1 + N.of_nat i)%N by lia.
        replace (N.to_nat (j + 1 - n + N.of_nat i)) with (N.to_nat (j + 1 - n) + i) in W1 by lia. now apply tagged_win.
      * rewrite flat_map_map, win_concat. reflexivity.
Qed.
