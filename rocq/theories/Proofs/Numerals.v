(** Printing numerals and reading them back. *)
From Verif Require Import Base Spec.Numeral Spec.Json.

Local Open Scope N_scope.

Definition is_digit (b : N) (c : ascii) : Prop := exists d, d < b /\ c = digit d.

Lemma digit_cases (P : N -> Prop) :
  P 0 -> P 1 -> P 2 -> P 3 -> P 4 -> P 5 -> P 6 -> P 7 -> P 8 -> P 9 -> P 10 ->
  P 11 -> P 12 -> P 13 -> P 14 -> P 15 -> forall d, d < 16 -> P d.
Proof.
  intros. destruct d as [|p]; auto.
  do 5 (destruct p as [p|p|]; auto; try lia).
Qed.

Lemma digit_value_digit b d : b <= 16 -> d < b -> digit_value b (digit d) = Some d.
Proof.
  intros Hb Hd. assert (H : d < 16) by lia. revert d H Hd.
  refine (digit_cases _ _ _ _ _ _ _ _ _ _ _ _ _ _ _ _ _);
    intros Hd; apply N.ltb_lt in Hd;
    lazymatch goal with
    | |- digit_value b (digit ?k) = _ =>
        change (digit_value b (digit k)) with (if k <? b then Some k else None)
    end; now rewrite Hd.
Qed.

Lemma digit_zero b d : b <= 16 -> d < b -> digit d = chr 48 -> d = 0.
Proof.
  intros Hb Hd. assert (H : d < 16) by lia. revert d H Hd.
  refine (digit_cases _ _ _ _ _ _ _ _ _ _ _ _ _ _ _ _ _); auto; discriminate.
Qed.

(** A digit run of value [n] (most significant first). *)
Record numeral (b n : N) (D : bytes) : Prop := {
  num_ne : D <> [];
  num_val : forall a, value_from b a D = Some (a * b ^ N.of_nat (length D) + n);
  num_dig : forall c, In c D -> is_digit b c;
}.

Lemma value_from_app b a D1 D2 :
  value_from b a (D1 ++ D2) =
  match value_from b a D1 with Some v => value_from b v D2 | None => None end.
Proof.
  revert a; induction D1 as [|c D1 IH]; intros a; simpl; auto.
  destruct (digit_value b c); auto.
Qed.

Lemma digits_fuel_spec b : 2 <= b -> b <= 16 -> forall fuel n acc, (0 < fuel)%nat ->
  n < 2 ^ N.of_nat fuel ->
  exists D, digits_fuel b fuel n acc = D ++ acc /\ numeral b n D /\
            (hd (chr 48) D = chr 48 -> D = [chr 48] /\ n = 0) /\
            n < b ^ N.of_nat (length D) /\
            (1 <= n -> b ^ (N.of_nat (length D) - 1) <= n).
Proof.
  intros Hb1 Hb2. induction fuel as [|f IH]; intros n acc Hf Hn; [lia|].
  cbn [digits_fuel].
  assert (Hm : n mod b < b) by (apply N.mod_lt; lia).
  pose proof (N.div_mod n b ltac:(lia)) as Hdm.
  destruct (N.eqb_spec (n / b) 0) as [Hz|Hz].
  - assert (Hnb : n < b) by nia.
    rewrite N.mod_small in * by lia.
    exists [digit n]. repeat split.
    + congruence.
    + intros a. cbn [value_from length]. rewrite digit_value_digit by lia.
      f_equal. change (N.of_nat 1) with 1. rewrite N.pow_1_r. lia.
    + intros c [<-|[]]. exists n. now split.
    + cbn [hd] in H. apply (digit_zero b) in H; subst; auto; lia.
    + cbn [hd] in H. apply (digit_zero b) in H; auto; lia.
    + cbn [length]. change (N.of_nat 1) with 1. rewrite N.pow_1_r. exact Hnb.
    + intros H1. cbn [length]. change (N.of_nat 1 - 1) with 0. rewrite N.pow_0_r. exact H1.
  - assert (Hf2 : (0 < f)%nat).
    { destruct f; [|lia]. exfalso. apply Hz. apply N.div_small.
      change (2 ^ N.of_nat 1) with 2 in Hn. lia. }
    assert (Hlt : n / b < 2 ^ N.of_nat f).
    { apply N.div_lt_upper_bound; [lia|]. rewrite Nat2N.inj_succ, N.pow_succ_r' in Hn.
      pose proof (N.pow_nonzero 2 (N.of_nat f) ltac:(lia)). nia. }
    destruct (IH (n / b) (digit (n mod b) :: acc) Hf2 Hlt)
      as (D & E & [Hne Hv Hd] & Hz2 & Hub & Hlb).
    assert (Hlen : N.of_nat (length (D ++ [digit (n mod b)])) = N.succ (N.of_nat (length D))).
    { rewrite app_length. cbn [length]. lia. }
    exists (D ++ [digit (n mod b)]). repeat split.
    + rewrite E, <- app_assoc. reflexivity.
    + destruct D; discriminate.
    + intros a. rewrite value_from_app, Hv. cbn [value_from].
      rewrite digit_value_digit by lia. f_equal. rewrite Hlen, N.pow_succ_r'.
      clear - Hdm. set (P := b ^ N.of_nat (length D)). clearbody P.
      set (q := n / b) in *. set (m := n mod b) in *. clearbody q m. subst n. ring.
    + intros c Hc. apply in_app_or in Hc as [Hc|[<-|[]]]; auto. eexists; split; eauto.
    + exfalso. destruct D as [|c D]; [congruence|]. cbn [hd app] in *. now apply Hz2 in H.
    + exfalso. destruct D as [|c D]; [congruence|]. cbn [hd app] in *. now apply Hz2 in H.
    + rewrite Hlen, N.pow_succ_r'.
      clear - Hdm Hub Hm. set (P := b ^ N.of_nat (length D)) in *. clearbody P.
      set (q := n / b) in *. set (m := n mod b) in *. clearbody q m. subst n. nia.
    + intros _. rewrite Hlen. replace (N.succ (N.of_nat (length D)) - 1) with (N.of_nat (length D)) by lia.
      assert (H1 : 1 <= n / b) by (clear - Hz; set (q := n / b) in *; clearbody q; lia).
      apply Hlb in H1.
      assert (Hl : N.of_nat (length D) = N.succ (N.of_nat (length D) - 1)).
      { clear - Hne. destruct D; [congruence|]. cbn [length]. lia. }
      rewrite Hl, N.pow_succ_r'.
      clear - Hdm H1. set (P := b ^ (N.of_nat (length D) - 1)) in *. clearbody P.
      set (q := n / b) in *. set (m := n mod b) in *. clearbody q m. subst n. nia.
Qed.

Lemma size_nat_bound n : n < 2 ^ N.of_nat (S (N.size_nat n)).
Proof.
  assert (E : N.of_nat (N.size_nat n) = N.size n).
  { destruct n as [|p]; [reflexivity|]. simpl. induction p; simpl; auto.
    - rewrite <- Pos.add_1_r. simpl in *. lia.
    - rewrite <- Pos.add_1_r. simpl in *. lia. }
  rewrite Nat2N.inj_succ, N.pow_succ_r', E.
  pose proof (N.size_gt n). lia.
Qed.

Lemma digits_spec b n : 2 <= b -> b <= 16 ->
  numeral b n (digits b n) /\
  (hd (chr 48) (digits b n) = chr 48 -> digits b n = [chr 48] /\ n = 0) /\
  n < b ^ N.of_nat (length (digits b n)) /\
  (1 <= n -> b ^ (N.of_nat (length (digits b n)) - 1) <= n).
Proof.
  intros H1 H2. unfold digits.
  destruct (digits_fuel_spec b H1 H2 (S (N.size_nat n)) n []) as (D & E & H).
  - lia.
  - apply size_nat_bound.
  - rewrite E, app_nil_r. exact H.
Qed.

Lemma value_of_digits b n : 2 <= b -> b <= 16 -> value_of b (digits b n) = Some n.
Proof.
  intros H1 H2. destruct (digits_spec b n H1 H2) as ([Hne Hv _] & _).
  unfold value_of. destruct (digits b n) eqn:E; [congruence|]. rewrite <- E in *.
  rewrite Hv. now rewrite N.mul_0_l.
Qed.

Lemma dec_value n : value_of 10 (dec n) = Some n.
Proof. apply value_of_digits; lia. Qed.

Lemma hex_value n : value_of 16 (hex n) = Some n.
Proof. apply value_of_digits; lia. Qed.

Lemma digit10_code c : is_digit 10 c -> 48 <= code c /\ code c <= 57.
Proof.
  intros (d & Hd & ->). assert (H : d < 16) by lia. revert d H Hd.
  refine (digit_cases _ _ _ _ _ _ _ _ _ _ _ _ _ _ _ _ _); intros; try (cbn; lia).
Qed.

Lemma digit16_code c : is_digit 16 c -> (48 <= code c /\ code c <= 57) \/ (97 <= code c /\ code c <= 102).
Proof.
  intros (d & Hd & ->). revert d Hd.
  refine (digit_cases _ _ _ _ _ _ _ _ _ _ _ _ _ _ _ _ _); intros; cbn; lia.
Qed.

Lemma dec_digits n c : In c (dec n) -> is_digit 10 c.
Proof. destruct (digits_spec 10 n) as ([_ _ H] & _); try lia. apply H. Qed.

Lemma hex_digits n c : In c (hex n) -> is_digit 16 c.
Proof. destruct (digits_spec 16 n) as ([_ _ H] & _); try lia. apply H. Qed.

Lemma dec_ne n : dec n <> [].
Proof. destruct (digits_spec 10 n) as ([H _ _] & _); try lia. apply H. Qed.

Lemma dec_inj n m : dec n = dec m -> n = m.
Proof. intros E. apply (f_equal (value_of 10)) in E. rewrite !dec_value in E. congruence. Qed.

Lemma hex_inj n m : hex n = hex m -> n = m.
Proof. intros E. apply (f_equal (value_of 16)) in E. rewrite !hex_value in E. congruence. Qed.

Lemma decZ_value z : zvalue_of (decZ z) = Some z.
Proof.
  unfold decZ. destruct (Z.ltb_spec z 0).
  - cbn -[dec]. rewrite dec_value. cbn. f_equal. lia.
  - unfold zvalue_of. pose proof (dec_value (Z.to_N z)) as V.
    pose proof (dec_digits (Z.to_N z)) as HD.
    destruct (dec (Z.to_N z)) as [|c r] eqn:E; [discriminate|].
    destruct (Ascii.eqb_spec c "-") as [->|_].
    { specialize (HD "-"%char (or_introl eq_refl)). apply digit10_code in HD. cbn in HD. lia. }
    rewrite V. cbn. f_equal. lia.
Qed.

Lemma decZ_inj a b : decZ a = decZ b -> a = b.
Proof. intros E. apply (f_equal zvalue_of) in E. rewrite !decZ_value in E. congruence. Qed.

(** * Reading digits in JSON *)

Definition no_digit_start (s : bytes) : Prop :=
  match s with [] => True | c :: _ => digit_val c = None end.

Lemma digit_val_spec c d : digit_value 10 c = Some d -> digit_val c = Some d.
Proof.
  unfold digit_value, digit_val. fold (code c).
  destruct ((48 <=? code c) && (code c <=? 57)).
  - destruct (code c - 48 <? 10); congruence.
  - destruct ((97 <=? code c) && (code c <=? 102)) eqn:E; [|discriminate].
    destruct (N.ltb_spec (code c - 87) 10); [|discriminate]. lia.
Qed.

Lemma read_digits_run D : forall acc len rest n,
  value_from 10 acc D = Some n -> no_digit_start rest ->
  read_digits (Z.of_N acc) len (D ++ rest) = (Z.of_N n, (len + length D)%nat, rest).
Proof.
  induction D as [|c D IH]; intros acc len rest n Hv Hr.
  - cbn in Hv. injection Hv as ->. cbn [app length]. rewrite Nat.add_0_r.
    destruct rest as [|c r]; [reflexivity|]. cbn [read_digits]. cbn in Hr. now rewrite Hr.
  - cbn [value_from] in Hv. destruct (digit_value 10 c) as [d|] eqn:E; [|discriminate].
    cbn [app read_digits]. rewrite (digit_val_spec _ _ E).
    replace (Z.of_N acc * 10 + Z.of_N d)%Z with (Z.of_N (acc * 10 + d)) by lia.
    rewrite (IH _ _ _ n) by auto. cbn [length]. f_equal. f_equal. lia.
Qed.

Lemma read_digits_dec n rest : no_digit_start rest ->
  read_digits 0 0 (dec n ++ rest) = (Z.of_N n, length (dec n), rest).
Proof.
  intros Hr. rewrite (read_digits_run _ 0 0%nat rest n); auto.
  pose proof (dec_value n) as V. unfold value_of in V. destruct (dec n); congruence.
Qed.

Lemma dec_start n rest : starts_with 45 (dec n ++ rest) = false.
Proof.
  pose proof (dec_digits n) as HD. pose proof (dec_ne n). destruct (dec n) as [|c r]; [congruence|].
  cbn. specialize (HD c (or_introl eq_refl)). apply digit10_code in HD.
  apply N.eqb_neq. lia.
Qed.

Lemma dec_lead0 n rest :
  starts_with 48 (dec n ++ rest) && negb (Nat.eqb (length (dec n)) 1) = false.
Proof.
  destruct (digits_spec 10 n) as (_ & H & _); try lia. fold (dec n) in H.
  pose proof (dec_ne n). destruct (dec n) as [|c r]; [congruence|].
  cbn [app starts_with]. destruct (N.eqb_spec (code c) 48) as [E|E]; [|reflexivity].
  cbn [hd] in H. destruct H as [E2 _].
  - unfold code in E. rewrite <- (ascii_N_embedding c), E. reflexivity.
  - injection E2 as -> ->. reflexivity.
Qed.

(** Text after a number that does not extend it. *)
Definition num_end (s : bytes) : Prop :=
  match s with
  | [] => True
  | c :: _ => ~ In (code c) [46; 101; 69] /\ digit_val c = None
  end.

Lemma num_end_no_digit s : num_end s -> no_digit_start s.
Proof. destruct s; cbn; tauto. Qed.

Lemma num_end_frac s m : num_end s -> read_frac m s = Some (m, 0%Z, s).
Proof.
  destruct s as [|c s]; [reflexivity|]. intros [H _]. unfold read_frac. cbn [starts_with].
  destruct (N.eqb_spec (code c) 46) as [E|_]; [|reflexivity].
  exfalso; apply H; rewrite E; simpl; auto.
Qed.

Lemma num_end_exp s : num_end s -> read_exp s = Some (0%Z, s).
Proof.
  destruct s as [|c s]; [reflexivity|]. intros [H _]. unfold read_exp. cbn [starts_with].
  destruct (N.eqb_spec (code c) 101) as [E|_]; [exfalso; apply H; rewrite E; simpl; auto|].
  destruct (N.eqb_spec (code c) 69) as [E|_]; [exfalso; apply H; rewrite E; simpl; auto|].
  reflexivity.
Qed.

Lemma read_num_dec n rest : num_end rest ->
  read_num (dec n ++ rest) = Some (JNum (Z.of_N n) 0, rest).
Proof.
  intros H. unfold read_num. rewrite dec_start.
  rewrite read_digits_dec by now apply num_end_no_digit.
  pose proof (dec_lead0 n rest) as L. pose proof (dec_ne n) as NE.
  destruct (dec n) as [|c r] eqn:E; [congruence|]. cbn [length Nat.eqb].
  cbn [length Nat.eqb] in L. rewrite L.
  rewrite num_end_frac, num_end_exp by auto. reflexivity.
Qed.

Lemma read_num_neg n rest : num_end rest ->
  read_num (chr 45 :: dec n ++ rest) = Some (JNum (- Z.of_N n) 0, rest).
Proof.
  intros H. unfold read_num. change (starts_with 45 (chr 45 :: dec n ++ rest)) with true.
  cbv beta iota zeta. cbn [tl].
  rewrite read_digits_dec by now apply num_end_no_digit.
  pose proof (dec_lead0 n rest) as L. pose proof (dec_ne n) as NE.
  destruct (dec n) as [|c r] eqn:E; [congruence|]. cbn [length Nat.eqb].
  cbn [length Nat.eqb] in L. rewrite L.
  rewrite num_end_frac, num_end_exp by auto. reflexivity.
Qed.

Lemma read_num_decZ z rest : num_end rest ->
  read_num (decZ z ++ rest) = Some (JNum z 0, rest).
Proof.
  intros H. unfold decZ. destruct (Z.ltb_spec z 0).
  - cbn [app]. rewrite read_num_neg by auto. do 2 f_equal. f_equal. lia.
  - rewrite read_num_dec by auto. do 2 f_equal. f_equal. lia.
Qed.

(** A decimal with an integer part and exactly [w] decimals. *)
Lemma pad0_value w n a : (length (dec n) <= w)%nat ->
  value_from 10 a (pad0 w (dec n)) = Some (a * 10 ^ N.of_nat w + n) /\ length (pad0 w (dec n)) = w.
Proof.
  intros Hl. unfold pad0.
  assert (R : forall k a, value_from 10 a (repeat (chr 48) k) = Some (a * 10 ^ N.of_nat k)).
  { clear. induction k as [|k IH]; intros a.
    - cbn [repeat value_from]. f_equal. change (N.of_nat 0) with 0. rewrite N.pow_0_r. lia.
    - change (value_from 10 a (repeat (chr 48) (S k)))
        with (value_from 10 (a * 10 + 0) (repeat (chr 48) k)).
      rewrite IH. f_equal. rewrite Nat2N.inj_succ, N.pow_succ_r'. nia. }
  destruct (digits_spec 10 n) as ([_ Hv _] & _); try lia. fold (dec n) in Hv.
  split.
  - rewrite value_from_app, R, Hv. f_equal.
    rewrite <- N.mul_assoc, <- N.pow_add_r. do 3 f_equal. lia.
  - rewrite app_length, repeat_length. lia.
Qed.

Lemma dec_length_bound n w : n < 10 ^ N.of_nat w -> (0 < w)%nat -> (length (dec n) <= w)%nat.
Proof.
  intros H Hw. destruct (digits_spec 10 n) as (_ & _ & _ & L); try lia. fold (dec n) in L.
  destruct (N.eq_dec n 0) as [->|Hn].
  - cbn. lia.
  - specialize (L ltac:(lia)).
    assert (10 ^ (N.of_nat (length (dec n)) - 1) < 10 ^ N.of_nat w) by lia.
    apply N.pow_lt_mono_r_iff in H0; lia.
Qed.

Lemma read_num_frac i f w rest : (0 < w)%nat -> f < 10 ^ N.of_nat w -> num_end rest ->
  read_num (dec i ++ chr 46 :: pad0 w (dec f) ++ rest)
  = Some (JNum (Z.of_N (i * 10 ^ N.of_nat w + f)) (- Z.of_nat w), rest).
Proof.
  intros Hw Hf H. unfold read_num. rewrite dec_start.
  rewrite read_digits_dec by reflexivity.
  pose proof (dec_lead0 i (chr 46 :: pad0 w (dec f) ++ rest)) as L. pose proof (dec_ne i) as NE.
  destruct (dec i) as [|c r] eqn:E; [congruence|]. cbn [length Nat.eqb].
  cbn [length Nat.eqb] in L. rewrite L. clear c r E L NE.
  unfold read_frac. change (starts_with 46 (chr 46 :: pad0 w (dec f) ++ rest)) with true.
  cbv beta iota zeta. cbn [tl].
  destruct (pad0_value w f i (dec_length_bound f w Hf Hw)) as [Hv Hlen].
  rewrite (read_digits_run _ _ _ _ _ Hv) by now apply num_end_no_digit.
  rewrite Hlen. destruct w as [|w]; [lia|]. cbn [Nat.eqb Nat.add].
  rewrite num_end_exp by auto. reflexivity.
Qed.
