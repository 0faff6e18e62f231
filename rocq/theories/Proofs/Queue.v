(** The sequential queue refines a bounded FIFO list, for any number of
    operations (positions wrap at 2^64). *)
From Verif Require Import Base Model.Queue.

Lemma upd_same {A} (f : N -> A) k v : upd f k v k = v.
Proof. unfold upd. now rewrite N.eqb_refl. Qed.
Lemma upd_other {A} (f : N -> A) k v i : i <> k -> upd f k v i = f i.
Proof. unfold upd. now intros H%N.eqb_neq; rewrite H. Qed.

(** * Power-of-two arithmetic *)
Lemma slot_mod cap j pos : (cap = 2 ^ j)%N -> N.land pos (cap - 1) = (pos mod cap)%N.
Proof.
  intros ->. rewrite N.sub_1_r, <- N.ones_equiv. apply N.land_ones.
Qed.

Lemma w64_mul j : (j <= 64)%N -> (w64 = 2 ^ j * 2 ^ (64 - j))%N.
Proof.
  intros H. unfold w64. rewrite <- N.pow_add_r. f_equal. lia.
Qed.

Lemma mod_mod_cap j x : (j <= 64)%N -> ((x mod w64) mod 2 ^ j = x mod 2 ^ j)%N.
Proof.
  intros H. rewrite (w64_mul j H).
  rewrite N.mod_mul_r by (apply N.pow_nonzero; lia).
  rewrite N.mul_comm, N.mod_add by (apply N.pow_nonzero; lia).
  apply N.mod_mod, N.pow_nonzero; lia.
Qed.

(** Distinct positions within one lap use distinct slots. *)
Lemma slot_inj cap a b : (0 < cap)%N -> (a mod cap = b mod cap)%N ->
  (a <= b)%N -> (b < a + cap)%N -> a = b.
Proof.
  intros Hc E H1 H2.
  pose proof (N.div_mod a cap ltac:(lia)) as Ha.
  pose proof (N.div_mod b cap ltac:(lia)) as Hb.
  rewrite E in Ha.
  assert (b / cap = a / cap)%N as Q.
  { assert (cap * (b / cap) < cap * (a / cap + 1))%N as H3 by lia.
    assert (cap * (a / cap) <= cap * (b / cap))%N as H4 by lia.
    apply N.mul_lt_mono_pos_l in H3; [|exact Hc].
    apply N.mul_le_mono_pos_l in H4; [|exact Hc]. lia. }
  rewrite Q in Hb. lia.
Qed.

(** * Signed difference *)
Lemma sdif_mod a b : sdif (a mod w64) (b mod w64) = to_s64 (Z.to_N ((Z.of_N a - Z.of_N b) mod 2 ^ 64)).
Proof.
  unfold sdif. f_equal.
  apply N2Z.inj. rewrite Z2N.id by (apply Z.mod_pos_bound; lia).
  rewrite N.mod_mod by (unfold w64; lia).
  assert (b mod w64 < w64)%N by (apply N.mod_lt; unfold w64; lia).
  rewrite N2Z.inj_mod, N2Z.inj_sub, N2Z.inj_add, !N2Z.inj_mod by lia.
  change (Z.of_N w64) with (2 ^ 64)%Z.
  rewrite Zminus_mod, Zplus_mod, Z_mod_same_full, Z.add_0_r.
  rewrite !Zmod_mod. now rewrite <- Zminus_mod.
Qed.

Lemma to_s64_small z : (- 2 ^ 63 <= z < 2 ^ 63)%Z -> to_s64 (Z.to_N (z mod 2 ^ 64)) = z.
Proof.
  intros H. unfold to_s64, to_signed.
  change (2 ^ (64 - 1))%N with (2 ^ 63)%N. change (Z.of_N 64) with 64%Z.
  destruct (Z_lt_le_dec z 0) as [L|L].
  - assert (E : (z mod 2 ^ 64 = z + 2 ^ 64)%Z).
    { symmetry. apply (Z.mod_unique z (2 ^ 64) (-1)); lia. }
    rewrite E.
    destruct (N.ltb_spec (Z.to_N (z + 2 ^ 64)) (2 ^ 63)) as [K|K]; lia.
  - rewrite Z.mod_small by lia.
    destruct (N.ltb_spec (Z.to_N z) (2 ^ 63)) as [K|K]; lia.
Qed.

Lemma sdif_small a b : (- 2 ^ 63 <= Z.of_N a - Z.of_N b < 2 ^ 63)%Z ->
  sdif (a mod w64) (b mod w64) = (Z.of_N a - Z.of_N b)%Z.
Proof. intros H. rewrite sdif_mod. now apply to_s64_small. Qed.

(** * Refinement *)

(** [E] and [D]: how many elements have been enqueued and dequeued. *)
Record rep {T} (q : queue T) (E D : N) (l : list T) : Prop := {
  rep_cap : exists j, (1 <= j <= 62)%N /\ q_cap q = (2 ^ j)%N;
  rep_enq : q_enq q = (E mod w64)%N;
  rep_deq : q_deq q = (D mod w64)%N;
  rep_len : E = (D + N.of_nat (length l))%N;
  rep_fit : (E <= D + q_cap q)%N;
  rep_full : forall i, (i < length l)%nat ->
    q_seq q ((D + N.of_nat i) mod q_cap q)%N = ((D + N.of_nat i + 1) mod w64)%N /\
    q_data q ((D + N.of_nat i) mod q_cap q)%N = nth_error l i;
  rep_free : forall p, (E <= p)%N -> (p < D + q_cap q)%N ->
    q_seq q (p mod q_cap q)%N = (p mod w64)%N;
}.

Lemma rep_new T j : (1 <= j <= 62)%N -> @rep T (queue_new T (2 ^ j)) 0 0 [].
Proof.
  intros H. assert (2 ^ j <= 2 ^ 62)%N by (apply N.pow_le_mono_r; lia).
  split; cbn [queue_new q_cap q_seq q_data q_enq q_deq length]; try reflexivity.
  - now exists j.
  - lia.
  - intros i Hi; cbn in Hi; lia.
  - intros p _ Hp. rewrite N.mod_small by lia. symmetry. apply N.mod_small.
    unfold w64. change (2 ^ 64)%N with (4 * 2 ^ 62)%N. lia.
Qed.

Lemma rep_capb {T} (q : queue T) E D l : rep q E D l ->
  (2 <= q_cap q <= 2 ^ 62)%N /\ (forall x, q_slot q x = x mod q_cap q)%N /\
  (forall x, (x mod w64) mod q_cap q = x mod q_cap q)%N.
Proof.
  intros [(j & Hj & Hc) _ _ _ _ _ _]. rewrite Hc. split; [split|split].
  - change 2%N with (2 ^ 1)%N at 1. apply N.pow_le_mono_r; lia.
  - apply N.pow_le_mono_r; lia.
  - intros x. unfold q_slot. rewrite Hc. now apply (slot_mod _ j).
  - intros x. apply mod_mod_cap. lia.
Qed.

Lemma enqueue_rep {T} (q : queue T) E D l x : rep q E D l ->
  (N.of_nat (length l) < q_cap q)%N ->
  exists q', enqueue q x = QOk q' /\ rep q' (E + 1) D (l ++ [x]) /\ q_cap q' = q_cap q.
Proof.
  intros R HL. pose proof (rep_capb _ _ _ _ R) as (HC & HS & HM).
  pose proof (rep_len _ _ _ _ R) as HE.
  unfold enqueue. rewrite HS, (rep_enq _ _ _ _ R), HM.
  rewrite (rep_free _ _ _ _ R E) by lia.
  rewrite sdif_small by lia. rewrite Z.sub_diag. cbn [Z.eqb].
  eexists; split; [reflexivity|]. cbn [q_cap]. split; [|reflexivity].
  split; cbn [q_cap q_seq q_data q_enq q_deq].
  - exact (rep_cap _ _ _ _ R).
  - rewrite N.add_mod_idemp_l by (unfold w64; lia). reflexivity.
  - exact (rep_deq _ _ _ _ R).
  - rewrite app_length; cbn [length]. lia.
  - lia.
  - intros i Hi. rewrite app_length in Hi; cbn [length] in Hi.
    destruct (Nat.eq_dec i (length l)) as [->|Hn].
    + rewrite <- HE, !upd_same, nth_error_app2, Nat.sub_diag by lia.
      split; [|reflexivity]. now rewrite N.add_mod_idemp_l by (unfold w64; lia).
    + assert (((D + N.of_nat i) mod q_cap q)%N <> (E mod q_cap q)%N) as Hd.
      { intros K. apply slot_inj in K; lia. }
      rewrite !upd_other by exact Hd.
      rewrite nth_error_app1 by lia. apply (rep_full _ _ _ _ R). lia.
  - intros p Hp1 Hp2.
    rewrite upd_other.
    + apply (rep_free _ _ _ _ R); lia.
    + intros K. symmetry in K. apply slot_inj in K; lia.
Qed.

Lemma enqueue_full {T} (q : queue T) E D l x : rep q E D l ->
  N.of_nat (length l) = q_cap q -> enqueue q x = QFail.
Proof.
  intros R HL. pose proof (rep_capb _ _ _ _ R) as (HC & HS & HM).
  pose proof (rep_len _ _ _ _ R) as HE.
  unfold enqueue. rewrite HS, (rep_enq _ _ _ _ R), HM.
  replace (E mod q_cap q)%N with ((D + N.of_nat 0) mod q_cap q)%N.
  2: { rewrite HE, HL, N.add_0_r. symmetry.
       rewrite <- (N.mul_1_l (q_cap q)) at 1. apply N.mod_add. lia. }
  destruct (rep_full _ _ _ _ R 0%nat ltac:(lia)) as [-> _].
  rewrite sdif_small by lia.
  destruct (Z.eqb_spec (Z.of_N (D + N.of_nat 0 + 1) - Z.of_N E) 0) as [K|K]; [lia|].
  destruct (Z.ltb_spec (Z.of_N (D + N.of_nat 0 + 1) - Z.of_N E) 0) as [K'|K']; [reflexivity|lia].
Qed.

Lemma dequeue_rep {T} (q : queue T) E D x l : rep q E D (x :: l) ->
  exists q', dequeue q = QOk (Some x, q') /\ rep q' E (D + 1) l /\ q_cap q' = q_cap q.
Proof.
  intros R. pose proof (rep_capb _ _ _ _ R) as (HC & HS & HM).
  pose proof (rep_len _ _ _ _ R) as HE. pose proof (rep_fit _ _ _ _ R) as HF.
  cbn [length] in HE.
  unfold dequeue. rewrite HS, (rep_deq _ _ _ _ R), HM.
  destruct (rep_full _ _ _ _ R 0%nat ltac:(cbn; lia)) as [H1 H2].
  rewrite N.add_0_r in H1, H2. rewrite H1, H2.
  rewrite N.add_mod_idemp_l by (unfold w64; lia).
  rewrite sdif_small by lia. rewrite Z.sub_diag. cbn [Z.eqb nth_error].
  eexists; split; [reflexivity|]. cbn [q_cap]. split; [|reflexivity].
  split; cbn [q_cap q_seq q_data q_enq q_deq].
  - exact (rep_cap _ _ _ _ R).
  - exact (rep_enq _ _ _ _ R).
  - reflexivity.
  - lia.
  - lia.
  - intros i Hi.
    replace (D + 1 + N.of_nat i)%N with (D + N.of_nat (S i))%N by lia.
    rewrite upd_other.
    + apply (rep_full _ _ _ _ R (S i)). cbn; lia.
    + intros K. symmetry in K. apply slot_inj in K; lia.
  - intros p Hp1 Hp2.
    destruct (N.eq_dec p (D + q_cap q)) as [->|Hn].
    + replace ((D + q_cap q) mod q_cap q)%N with (D mod q_cap q)%N.
      2: { symmetry. rewrite <- (N.mul_1_l (q_cap q)) at 1. apply N.mod_add. lia. }
      rewrite upd_same.
      replace ((D mod w64 + (q_cap q - 1) + 1))%N with (D mod w64 + q_cap q)%N by lia.
      now rewrite N.add_mod_idemp_l by (unfold w64; lia).
    + rewrite upd_other.
      * apply (rep_free _ _ _ _ R); lia.
      * intros K. symmetry in K. apply slot_inj in K; lia.
Qed.

Lemma dequeue_empty {T} (q : queue T) E D : rep q E D [] -> dequeue q = QFail.
Proof.
  intros R. pose proof (rep_capb _ _ _ _ R) as (HC & HS & HM).
  pose proof (rep_len _ _ _ _ R) as HE. cbn in HE. rewrite N.add_0_r in HE. subst E.
  unfold dequeue. rewrite HS, (rep_deq _ _ _ _ R), HM.
  rewrite (rep_free _ _ _ _ R D) by lia.
  rewrite N.add_mod_idemp_l by (unfold w64; lia).
  rewrite sdif_small by lia.
  replace (Z.of_N D - Z.of_N (D + 1))%Z with (-1)%Z by lia. reflexivity.
Qed.
