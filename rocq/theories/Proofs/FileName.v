(** Proofs about the names of the files FileStopCallback saves. *)
From Verif Require Import Base Spec.Text Spec.Json Spec.Numeral Spec.Calendar
  Model.StringUtils Model.Export Model.FileName
  Proofs.Strings Proofs.Numerals.
Local Open Scope N_scope.

(** * The calendar *)

Lemma leap_spec y : is_leap y = true <-> leap_year y.
Proof.
  assert (forall a, a <> 0 -> (y mod a =? 0) = true <-> N.divide a y) as D.
  { intros a Ha. rewrite N.eqb_eq. apply N.mod_divide. exact Ha. }
  unfold is_leap, leap_year. rewrite orb_true_iff, andb_true_iff, negb_true_iff, <- not_true_iff_false.
  rewrite !D by discriminate. split.
  - intros [[H1 H2]|H]; [split; [exact H1|intros K; contradiction]|].
    split; [|intros _; exact H]. destruct H as (k & ->). exists (k * 100). lia.
  - intros [H1 H2].
    destruct (N.eq_dec (y mod 100) 0) as [E|E].
    + right. apply H2. apply D; [discriminate|]. now apply N.eqb_eq.
    + left. split; [exact H1|]. intros K. apply D in K; [|discriminate]. apply N.eqb_eq in K. contradiction.
Qed.

Lemma month_cases (P : N -> Prop) : P 1 -> P 2 -> P 3 -> P 4 -> P 5 -> P 6 -> P 7 -> P 8 -> P 9 -> P 10 -> P 11 -> P 12 ->
  forall m, 1 <= m <= 12 -> P m.
Proof.
  intros. assert (m = 1 \/ m = 2 \/ m = 3 \/ m = 4 \/ m = 5 \/ m = 6 \/ m = 7 \/ m = 8 \/ m = 9 \/ m = 10 \/ m = 11 \/ m = 12) as C by lia.
  repeat (destruct C as [->|C]; [assumption|]). now subst m.
Qed.

Lemma month_has_spec y m n : month_has y m n <-> 1 <= m <= 12 /\ n = month_length y m.
Proof.
  split; intros [R H]; (split; [exact R|]); revert H.
  - revert m R. refine (month_cases _ _ _ _ _ _ _ _ _ _ _ _ _); cbn; intros [(E & L & ->)|(H & E)]; try discriminate E;
      try (injection E as <-; reflexivity).
    + apply leap_spec in L. now rewrite L.
    + injection E as <-. destruct (is_leap y) eqn:L; [|reflexivity]. apply leap_spec in L. exfalso. tauto.
  - intros ->. revert m R. refine (month_cases _ _ _ _ _ _ _ _ _ _ _ _ _); cbn;
      try (right; split; [intros (E & _); discriminate E|reflexivity]).
    destruct (is_leap y) eqn:L.
    + left. apply leap_spec in L. auto.
    + right. split; [|reflexivity]. intros (_ & K). apply leap_spec in K. congruence.
Qed.

Lemma month_length_pos y m : 1 <= month_length y m.
Proof.
  unfold month_length. repeat match goal with |- context [match ?p with _ => _ end] => destruct p; try lia end.
Qed.

(** The counts as functions. *)
Fixpoint mdf (y : N) (k : nat) : N :=
  match k with O => 0 | S k' => mdf y k' + month_length y (N.of_nat k) end.
Fixpoint ydf (k : nat) : N :=
  match k with O => 0 | S k' => ydf k' + mdf (1970 + N.of_nat k') 12 end.

Lemma before_month_spec y m n : before_month y m n -> 1 <= m /\ n = mdf y (N.to_nat (m - 1)).
Proof.
  induction 1 as [|m n k H [M ->] K]; [split; [lia|reflexivity]|].
  apply month_has_spec in K as [R ->]. split; [lia|].
  replace (N.to_nat (m + 1 - 1)) with (S (N.to_nat (m - 1))) by lia. cbn [mdf]. do 2 f_equal. lia.
Qed.
Lemma before_year_spec y n : before_year y n -> 1970 <= y /\ n = ydf (N.to_nat (y - 1970)).
Proof.
  induction 1 as [|y n k H [M ->] K]; [split; [lia|reflexivity]|].
  apply before_month_spec in K as [_ ->]. split; [lia|].
  replace (N.to_nat (y + 1 - 1970)) with (S (N.to_nat (y - 1970))) by lia. cbn [ydf]. f_equal. f_equal. lia.
Qed.

Lemma mdf_mono y : forall k k', (k < k')%nat -> mdf y k + month_length y (N.of_nat (S k)) <= mdf y k'.
Proof.
  intros k k' H. induction H as [|j H IH]; [cbn [mdf]; lia|]. cbn [mdf] in *. lia.
Qed.
Lemma ydf_mono : forall k k', (k < k')%nat -> ydf k + mdf (1970 + N.of_nat k) 12 <= ydf k'.
Proof.
  intros k k' H. induction H as [|j H IH]; [cbn [ydf]; lia|]. cbn [ydf]. lia.
Qed.

(** The date after [k] days. *)
Definition date_ok (k : N) (d : N * N * N) : Prop :=
  let '(y, m, j) := d in
  exists yd md, before_year y yd /\ before_month y m md /\ month_has y m (month_length y m) /\
    1 <= j <= month_length y m /\ k = yd + md + (j - 1).

Lemma next_day_ok k d : date_ok k d -> date_ok (k + 1) (next_day d).
Proof.
  destruct d as [[y m] j]. intros (yd & md & Y & M & H & J & ->). unfold next_day, date_ok.
  destruct (N.ltb_spec j (month_length y m)) as [L|L]; [exists yd, md|].
  - repeat (split; [solve [assumption|lia]|]). lia.
  - pose proof H as H'. apply month_has_spec in H' as [R _].
    assert (j = month_length y m) as -> by lia. clear L J.
    destruct (N.ltb_spec m 12) as [L|L].
    + exists yd, (md + month_length y m). split; [exact Y|]. split; [now constructor|].
      split; [apply month_has_spec; split; [lia|reflexivity]|]. pose proof (month_length_pos y m).
      pose proof (month_length_pos y (m + 1)). lia.
    + assert (m = 12) as -> by lia. exists (yd + (md + month_length y 12)), 0.
      split; [constructor; [exact Y|]; change 13 with (12 + 1); now constructor|]. split; [constructor|].
      split; [apply month_has_spec; split; [lia|reflexivity]|].
      pose proof (month_length_pos y 12). pose proof (month_length_pos (y + 1) 1). lia.
Qed.

Lemma date_after k : date_ok k (N.iter k next_day (1970, 1, 1)).
Proof.
  induction k as [|k IH] using N.peano_ind.
  - exists 0, 0. cbn. split; [constructor|]. split; [constructor|].
    split; [apply month_has_spec; cbn; lia|]. lia.
  - rewrite N.iter_succ, <- N.add_1_r. now apply next_day_ok.
Qed.

Lemma gmtime_denotes t : denotes (gmtime t) t.
Proof.
  unfold gmtime. pose proof (date_after (t / 86400)) as D.
  destruct (N.iter (t / 86400) next_day (1970, 1, 1)) as [[y m] j].
  destruct D as (yd & md & Y & M & H & J & E). exists yd, md, (month_length y m).
  cbn [tm_year tm_mon tm_day tm_hour tm_min tm_sec].
  pose proof (N.mod_lt t 86400 ltac:(discriminate)) as B. pose proof (N.div_mod t 86400 ltac:(discriminate)) as DM.
  set (s := t mod 86400) in *. clearbody s.
  assert (s / 3600 < 24) by (apply N.div_lt_upper_bound; [discriminate|lia]).
  assert (s / 3600 = s / 60 / 60) as E1 by (rewrite N.div_div by discriminate; reflexivity).
  pose proof (N.div_mod s 60 ltac:(discriminate)) as D1. pose proof (N.div_mod (s / 60) 60 ltac:(discriminate)) as D2.
  pose proof (N.mod_lt s 60 ltac:(discriminate)). pose proof (N.mod_lt (s / 60) 60 ltac:(discriminate)).
  do 3 (split; [assumption|]). split; [exact J|]. do 3 (split; [assumption|]).
  rewrite <- E. rewrite E1 in *. lia.
Qed.

(** Dates in order. *)
Definition utc_lt (u v : utc) : Prop :=
  tm_year u < tm_year v \/
  (tm_year u = tm_year v /\ (tm_mon u < tm_mon v \/
  (tm_mon u = tm_mon v /\ (tm_day u < tm_day v \/
  (tm_day u = tm_day v /\ (tm_hour u < tm_hour v \/
  (tm_hour u = tm_hour v /\ (tm_min u < tm_min v \/
  (tm_min u = tm_min v /\ tm_sec u < tm_sec v))))))))).

Lemma denotes_day u t : denotes u t -> exists k, t / 86400 = k /\
  k = ydf (N.to_nat (tm_year u - 1970)) + mdf (tm_year u) (N.to_nat (tm_mon u - 1)) + (tm_day u - 1) /\
  1970 <= tm_year u /\ 1 <= tm_mon u <= 12 /\ 1 <= tm_day u <= month_length (tm_year u) (tm_mon u) /\
  t = k * 86400 + tm_hour u * 3600 + tm_min u * 60 + tm_sec u /\
  tm_hour u < 24 /\ tm_min u < 60 /\ tm_sec u < 60.
Proof.
  intros (yd & md & len & Y & M & H & D & h1 & h2 & h3 & E).
  apply before_year_spec in Y as [Y ->]. apply before_month_spec in M as [M ->].
  apply month_has_spec in H as [R ->]. eexists. split; [reflexivity|].
  assert (t / 86400 = ydf (N.to_nat (tm_year u - 1970)) + mdf (tm_year u) (N.to_nat (tm_mon u - 1)) + (tm_day u - 1)) as Q.
  { symmetry. apply N.div_unique with (r := tm_hour u * 3600 + tm_min u * 60 + tm_sec u); lia. }
  rewrite Q. repeat (split; [solve [assumption|lia|reflexivity]|]). assumption.
Qed.

Lemma day_in_year y m d : 1 <= m <= 12 -> 1 <= d <= month_length y m ->
  mdf y (N.to_nat (m - 1)) + (d - 1) < mdf y 12.
Proof.
  intros M D. pose proof (mdf_mono y (N.to_nat (m - 1)) 12 ltac:(lia)) as H.
  replace (N.of_nat (S (N.to_nat (m - 1)))) with m in H by lia. lia.
Qed.

Lemma denotes_order u v t t' : denotes u t -> denotes v t' -> t < t' -> utc_lt u v.
Proof.
  intros (k & _ & K & Y & M & D & E & h1 & h2 & h3)%denotes_day (k' & _ & K' & Y' & M' & D' & E' & h1' & h2' & h3')%denotes_day L.
  assert (k <= k') as Lk by lia.
  unfold utc_lt.
  destruct (N.lt_trichotomy (tm_year u) (tm_year v)) as [H|[H|H]]; [now left| |].
  2:{ exfalso. pose proof (ydf_mono (N.to_nat (tm_year v - 1970)) (N.to_nat (tm_year u - 1970)) ltac:(lia)) as X.
      replace (1970 + N.of_nat (N.to_nat (tm_year v - 1970))) with (tm_year v) in X by lia.
      pose proof (day_in_year _ _ _ M' D'). lia. }
  right. split; [exact H|]. rewrite <- H in *.
  destruct (N.lt_trichotomy (tm_mon u) (tm_mon v)) as [H1|[H1|H1]]; [now left| |].
  2:{ exfalso. pose proof (mdf_mono (tm_year u) (N.to_nat (tm_mon v - 1)) (N.to_nat (tm_mon u - 1)) ltac:(lia)) as X.
      replace (N.of_nat (S (N.to_nat (tm_mon v - 1)))) with (tm_mon v) in X by lia. lia. }
  right. split; [exact H1|]. rewrite <- H1 in *.
  assert (1 <= tm_day u /\ 1 <= tm_day v) as DD by lia. clear Y Y' M M' D' D H H1. lia.
Qed.

Lemma denotes_year u t y : denotes u t -> t < ydf (N.to_nat (y - 1970)) * 86400 -> 1970 <= y -> tm_year u < y.
Proof.
  intros (k & _ & K & Y & M & D & E & _)%denotes_day L Hy.
  destruct (N.lt_ge_cases (tm_year u) y) as [H|H]; [exact H|]. exfalso.
  assert (ydf (N.to_nat (y - 1970)) <= ydf (N.to_nat (tm_year u - 1970))).
  { destruct (N.eq_dec y (tm_year u)) as [->|N]; [lia|].
    pose proof (ydf_mono (N.to_nat (y - 1970)) (N.to_nat (tm_year u - 1970)) ltac:(lia)). lia. }
  lia.
Qed.
Lemma denotes_year_from u t y : denotes u t -> ydf (N.to_nat (y - 1970)) * 86400 <= t -> 1970 <= y -> y <= tm_year u.
Proof.
  intros (k & _ & K & Y & M & D & E & h1 & h2 & h3)%denotes_day L Hy.
  destruct (N.lt_ge_cases (tm_year u) y) as [H|H]; [|exact H]. exfalso.
  pose proof (ydf_mono (N.to_nat (tm_year u - 1970)) (N.to_nat (y - 1970)) ltac:(lia)) as X.
  replace (1970 + N.of_nat (N.to_nat (tm_year u - 1970))) with (tm_year u) in X by lia.
  pose proof (day_in_year _ _ _ M D). lia.
Qed.

Lemma denotes_unique u v t : denotes u t -> denotes v t -> u = v.
Proof.
  intros D D'. assert (forall u v, denotes u t -> denotes v t -> ~ utc_lt u v) as NL.
  { clear. intros u v (k & _ & K & Y & M & D & E & h1 & h2 & h3)%denotes_day (k' & _ & K' & Y' & M' & D' & E' & h1' & h2' & h3')%denotes_day L.
    assert (k = k') as <- by lia. unfold utc_lt in L.
    destruct L as [L|(H & L)].
    { pose proof (ydf_mono (N.to_nat (tm_year u - 1970)) (N.to_nat (tm_year v - 1970)) ltac:(lia)) as X.
      replace (1970 + N.of_nat (N.to_nat (tm_year u - 1970))) with (tm_year u) in X by lia.
      pose proof (day_in_year _ _ _ M D). lia. }
    rewrite <- H in *.
    destruct L as [L|(H1 & L)].
    { pose proof (mdf_mono (tm_year u) (N.to_nat (tm_mon u - 1)) (N.to_nat (tm_mon v - 1)) ltac:(lia)) as X.
      replace (N.of_nat (S (N.to_nat (tm_mon u - 1)))) with (tm_mon u) in X by lia. lia. }
    rewrite <- H1 in *. lia. }
  pose proof (NL u v D D') as A. pose proof (NL v u D' D) as B. unfold utc_lt in A, B.
  destruct u, v; cbn in *. f_equal; lia.
Qed.

Lemma ydf_10000 : ydf (N.to_nat (10000 - 1970)) * 86400 = 253402300800.
Proof. vm_compute. reflexivity. Qed.

(** * Order of texts *)

(** Differing first in a character that is smaller. *)
Definition splits (a b : bytes) : Prop :=
  exists p c d r s, a = p ++ c :: r /\ b = p ++ d :: s /\ code c < code d.

Lemma splits_sorts a b : splits a b -> sorts_before a b.
Proof. intros (p & c & d & r & s & H). right. exists p, c, d, r, s. exact H. Qed.
Lemma splits_pre q a b : splits a b -> splits (q ++ a) (q ++ b).
Proof. intros (p & c & d & r & s & -> & -> & L). exists (q ++ p), c, d, r, s. rewrite <- !app_assoc. auto. Qed.
Lemma splits_post a b x y : splits a b -> splits (a ++ x) (b ++ y).
Proof.
  intros (p & c & d & r & s & -> & -> & L). exists p, c, d, (r ++ x), (s ++ y).
  rewrite <- !app_assoc. auto.
Qed.
Lemma splits_ne a b : splits a b -> a <> b.
Proof.
  intros (p & c & d & r & s & -> & -> & L) E. apply app_inv_head in E. injection E as -> _. lia.
Qed.

Lemma value_from_bounds : forall s a v, value_from 10 a s = Some v ->
  a * 10 ^ N.of_nat (length s) <= v < (a + 1) * 10 ^ N.of_nat (length s).
Proof.
  induction s as [|c s IH]; intros a v H.
  - cbn in H. injection H as <-. cbn. lia.
  - cbn [value_from] in H. destruct (digit_value 10 c) as [d|] eqn:D; [|discriminate].
    assert (d < 10) as Ld.
    { unfold digit_value in D. cbv zeta in D. revert D.
      repeat match goal with |- context [if ?b then _ else _] => destruct b eqn:?; try discriminate end.
      all: try (intros [= <-]); try discriminate. all: apply N.ltb_lt; assumption. }
    apply IH in H. cbn [length]. rewrite Nat2N.inj_succ, N.pow_succ_r'. nia.
Qed.

Lemma digit_value_code c d : digit_value 10 c = Some d -> code c = 48 + d.
Proof.
  unfold digit_value. cbv zeta. fold (code c).
  destruct ((48 <=? code c) && (code c <=? 57))%bool eqn:B.
  - apply andb_true_iff in B as [B1 B2]. apply N.leb_le in B1. apply N.leb_le in B2.
    destruct (code c - 48 <? 10) eqn:L; [|discriminate]. intros [= <-]. lia.
  - destruct ((97 <=? code c) && (code c <=? 102))%bool eqn:B'; [|discriminate].
    apply andb_true_iff in B' as [B1 B2]. apply N.leb_le in B1.
    destruct (N.ltb_spec (code c - 87) 10); [lia|discriminate].
Qed.

Lemma splits_digits : forall s s' a v v', length s = length s' ->
  value_from 10 a s = Some v -> value_from 10 a s' = Some v' -> v < v' -> splits s s'.
Proof.
  induction s as [|c s IH]; intros [|c' s'] a v v' Hl E E' L; try discriminate.
  - cbn in E, E'. injection E as <-. injection E' as <-. lia.
  - injection Hl as Hl. cbn [value_from] in E, E'.
    destruct (digit_value 10 c) as [d|] eqn:D; [|discriminate].
    destruct (digit_value 10 c') as [d'|] eqn:D'; [|discriminate].
    pose proof (digit_value_code _ _ D) as C. pose proof (digit_value_code _ _ D') as C'.
    destruct (N.lt_trichotomy d d') as [H|[H|H]].
    + exists [], c, c', s, s'. repeat split. lia.
    + subst d'. assert (c = c') as <-.
      { unfold code in C, C'. rewrite <- (ascii_N_embedding c), <- (ascii_N_embedding c'). congruence. }
      change (splits ([c] ++ s) ([c] ++ s')). apply splits_pre. eapply IH; eauto.
    + exfalso. apply value_from_bounds in E. apply value_from_bounds in E'. rewrite <- Hl in E'.
      set (P := 10 ^ N.of_nat (length s)) in *. clearbody P. nia.
Qed.

(** Numerals of a fixed width. *)
Lemma pad0_splits w n m : (0 < w)%nat -> n < m -> m < 10 ^ N.of_nat w ->
  splits (pad0 w (dec n)) (pad0 w (dec m)).
Proof.
  intros Hw L B.
  destruct (pad0_value w n 0 (dec_length_bound n w ltac:(lia) Hw)) as [V1 L1].
  destruct (pad0_value w m 0 (dec_length_bound m w B Hw)) as [V2 L2].
  eapply splits_digits; [congruence|exact V1|exact V2|lia].
Qed.

Lemma dec_4 y : 1000 <= y <= 9999 -> length (dec y) = 4%nat.
Proof.
  intros H. destruct (digits_spec 10 y ltac:(lia) ltac:(lia)) as (_ & _ & U & L). fold (dec y) in U, L.
  specialize (L ltac:(lia)). set (l := length (dec y)) in *.
  assert (10 ^ (N.of_nat l - 1) < 10 ^ 4) as A by lia. apply N.pow_lt_mono_r_iff in A; [|lia].
  assert (10 ^ 3 < 10 ^ N.of_nat l) as B by lia. apply N.pow_lt_mono_r_iff in B; lia.
Qed.
Lemma dec_splits y y' : 1000 <= y -> y < y' -> y' <= 9999 -> splits (dec y) (dec y').
Proof.
  intros H1 H2 H3. pose proof (dec_4 y ltac:(lia)) as L1. pose proof (dec_4 y' ltac:(lia)) as L2.
  assert (pad0 4 (dec y) = dec y) as <- by (unfold pad0; now rewrite L1).
  assert (pad0 4 (dec y') = dec y') as <- by (unfold pad0; now rewrite L2).
  apply pad0_splits; [lia|exact H2|cbn; lia].
Qed.

Definition in_range (u : utc) : Prop :=
  1970 <= tm_year u <= 9999 /\ 1 <= tm_mon u <= 12 /\ 1 <= tm_day u <= 31 /\
  tm_hour u < 24 /\ tm_min u < 60 /\ tm_sec u < 60.

Lemma month_length_le y m : month_length y m <= 31.
Proof.
  unfold month_length. repeat match goal with |- context [match ?p with _ => _ end] => destruct p; try lia end.
Qed.

Lemma denotes_range u t : denotes u t -> t < 253402300800 -> in_range u.
Proof.
  intros D L. pose proof (denotes_year u t 10000 D ltac:(rewrite ydf_10000; exact L) ltac:(lia)) as Y.
  apply denotes_day in D as (k & _ & K & Y' & M & J & E & h). pose proof (month_length_le (tm_year u) (tm_mon u)).
  unfold in_range. repeat split; lia.
Qed.

Lemma timestamp_order u v : in_range u -> in_range v -> utc_lt u v -> splits (timestamp u) (timestamp v).
Proof.
  intros (R1 & R2 & R3 & R4 & R5 & R6) (S1 & S2 & S3 & S4 & S5 & S6) L. unfold timestamp.
  destruct L as [L|(-> & L)]; [apply splits_post, dec_splits; lia|]. apply splits_pre. apply splits_pre.
  destruct L as [L|(-> & L)]; [apply splits_post, pad0_splits; cbn; lia|]. apply splits_pre. apply splits_pre.
  destruct L as [L|(-> & L)]; [apply splits_post, pad0_splits; cbn; lia|]. apply splits_pre. apply splits_pre.
  destruct L as [L|(-> & L)]; [apply splits_post, pad0_splits; cbn; lia|]. apply splits_pre. apply splits_pre.
  destruct L as [L|(-> & L)]; [apply splits_post, pad0_splits; cbn; lia|]. apply splits_pre. apply splits_pre.
  apply splits_post, pad0_splits; cbn; lia.
Qed.

Lemma pad0_2 n : n < 100 -> length (pad0 2 (dec n)) = 2%nat.
Proof. intros H. apply (pad0_value 2 n 0). apply dec_length_bound; cbn; lia. Qed.

Lemma timestamp_length u : in_range u -> length (timestamp u) = 20%nat.
Proof.
  intros (R1 & R2 & R3 & R4 & R5 & R6). unfold timestamp.
  rewrite !app_length, dec_4, !pad0_2 by lia. reflexivity.
Qed.

Lemma stamp_spec t : t < 253402300800 -> stamp t = Some (timestamp (gmtime t)).
Proof.
  intros L. pose proof (timestamp_length _ (denotes_range _ _ (gmtime_denotes t) L)) as Len.
  unfold stamp, strftime. set (s := timestamp (gmtime t)) in *. clearbody s.
  rewrite Len. unfold stamp_room. change (21 <=? 21)%nat with true. cbv iota.
  rewrite app_length, Len. cbn [length Nat.add Nat.sub repeat]. rewrite app_nil_r.
  rewrite firstn_app, Len. rewrite firstn_all2 by lia. cbn. now rewrite app_nil_r.
Qed.

Lemma dec_5 y : 10000 <= y -> (5 <= length (dec y))%nat.
Proof.
  intros H. destruct (digits_spec 10 y ltac:(lia) ltac:(lia)) as (_ & _ & U & _). fold (dec y) in U.
  set (l := length (dec y)) in *.
  assert (10 ^ 4 < 10 ^ N.of_nat l) as B by lia. apply N.pow_lt_mono_r_iff in B; lia.
Qed.

Lemma stamp_late t : 253402300800 <= t -> stamp t = None.
Proof.
  intros L. pose proof (gmtime_denotes t) as D.
  pose proof (denotes_year_from _ t 10000 D ltac:(rewrite ydf_10000; exact L) ltac:(lia)) as Y.
  apply denotes_day in D as (k & _ & K & Y' & M & J & E & h1 & h2 & h3).
  pose proof (month_length_le (tm_year (gmtime t)) (tm_mon (gmtime t))).
  assert (length (timestamp (gmtime t)) >= 21)%nat as Len.
  { unfold timestamp. rewrite !app_length, !pad0_2 by lia. pose proof (dec_5 _ Y) as D5. set (l := length (dec (tm_year (gmtime t)))) in *. clearbody l. cbn. lia. }
  unfold stamp, strftime. destruct (Nat.leb_spec (S (length (timestamp (gmtime t)))) stamp_room); [|reflexivity].
  unfold stamp_room in *. lia.
Qed.

(** * The names *)

(** What the process id is written with. *)
Lemma decZ_chars z c : In c (decZ z) -> code c <> 37 /\ code c <> 100.
Proof.
  unfold decZ. destruct (z <? 0)%Z; [intros [<-|H]; [split; discriminate|]|intros H];
    apply dec_digits, digit10_code in H; lia.
Qed.
Lemma decZ_ne z : decZ z <> [].
Proof. unfold decZ. destruct (z <? 0)%Z; [discriminate|apply dec_ne]. Qed.

(** Where %d is after the process id was put in. *)
Definition has (from s : bytes) : Prop := exists n, occurs_at from s n.

Lemma replace_form from to s : from <> [] ->
  (~ has from s /\ string_replace s from to = s) \/
  (exists a b, s = a ++ from ++ b /\ (forall m, (m < length a)%nat -> ~ occurs_at from s m) /\
     forall to', string_replace s from to' = a ++ to' ++ b).
Proof.
  intros Hf. pose proof (find_spec from s) as F.
  destruct (find from s) as [n|] eqn:E.
  - right. destruct F as ((a & b & Es & La) & F2). exists a, b. subst n. split; [exact Es|]. split; [exact F2|].
    intros to'. destruct (string_replace_spec s from to') as (_ & _ & H3). now apply H3.
  - left. split; [intros (n & H); exact (F n H)|]. destruct (string_replace_spec s from to) as (_ & H2 & _). now apply H2.
Qed.

Lemma occurs_nth c d s n : occurs_at [c; d] s n <-> nth_error s n = Some c /\ nth_error s (S n) = Some d.
Proof.
  split.
  - intros (a & b & -> & <-).
    rewrite (nth_error_app2 a _ (Nat.le_refl _)), (nth_error_app2 a _ (Nat.le_succ_diag_r _)).
    replace (length a - length a)%nat with O by lia. replace (S (length a) - length a)%nat with 1%nat by lia. split; reflexivity.
  - intros [H1 H2]. apply nth_error_split in H1 as (a & r & -> & <-).
    rewrite nth_error_app2 in H2 by lia. replace (S (length a) - length a)%nat with 1%nat in H2 by lia.
    destruct r as [|e r]; [discriminate|]. cbn in H2. injection H2 as ->. exists a, r. auto.
Qed.

Definition inert (P : bytes) : Prop := P <> [] /\ forall c, In c P -> code c <> 37 /\ code c <> 100.
Lemma decZ_inert z : inert (decZ z).
Proof. split; [apply decZ_ne|apply decZ_chars]. Qed.

Notation D := ($"%d").

(** An occurrence in [a ++ P ++ b] is one in [a] or one in [b]. *)
Lemma inert_occurs a P b n : inert P -> occurs_at D (a ++ P ++ b) n ->
  occurs_at D a n \/ ((length a + length P <= n)%nat /\ occurs_at D b (n - (length a + length P))).
Proof.
  intros [Hne HP] H. apply occurs_nth in H as [H1 H2].
  assert (forall c k, nth_error P k = Some c -> c <> chr 37 /\ c <> chr 100) as NP.
  { intros c k E. apply nth_error_In in E. destruct (HP c E) as [A B]. split; intros ->; [apply A|apply B]; reflexivity. }
  change (nth_error (a ++ P ++ b) n = Some (chr 37)) in H1.
  change (nth_error (a ++ P ++ b) (S n) = Some (chr 100)) in H2.
  destruct (Nat.lt_ge_cases n (length a)) as [A|A].
  - left. apply occurs_nth. rewrite nth_error_app1 in H1 by exact A. split; [exact H1|].
    destruct (Nat.lt_ge_cases (S n) (length a)) as [B|B].
    + now rewrite nth_error_app1 in H2 by exact B.
    + rewrite nth_error_app2 in H2 by exact B. replace (S n - length a)%nat with O in H2 by lia.
      destruct P as [|p P]; [contradiction Hne; reflexivity|]. cbn in H2. injection H2 as ->.
      destruct (NP (chr 100) 0%nat eq_refl) as [_ K]. now contradiction K.
  - right. rewrite nth_error_app2 in H1 by exact A. rewrite nth_error_app2 in H2 by lia.
    destruct (Nat.lt_ge_cases (n - length a) (length P)) as [B|B].
    + rewrite nth_error_app1 in H1 by exact B. apply NP in H1 as [K _]. now contradiction K.
    + rewrite nth_error_app2 in H1 by exact B. rewrite nth_error_app2 in H2 by lia. split; [lia|].
      apply occurs_nth. replace (n - (length a + length P))%nat with (n - length a - length P)%nat by lia.
      split; [exact H1|]. replace (S (n - length a - length P)) with (S n - length a - length P)%nat by lia. exact H2.
Qed.

(** The name with the process id [P] and the time stamp [T] in a path with a %p. *)
Lemma name_form a b :
  (~ has D a /\ ~ has D b /\ forall P T, inert P -> string_replace (a ++ P ++ b) D T = a ++ P ++ b) \/
  (exists a1 a2, a = a1 ++ D ++ a2 /\
     forall P T, inert P -> string_replace (a ++ P ++ b) D T = a1 ++ T ++ a2 ++ P ++ b) \/
  (exists b1 b2, b = b1 ++ D ++ b2 /\
     forall P T, inert P -> string_replace (a ++ P ++ b) D T = a ++ P ++ b1 ++ T ++ b2).
Proof.
  destruct (replace_form D [] a ltac:(discriminate)) as [(Na & _)|(a1 & a2 & Ea & Fa & _)].
  2:{ right. left. exists a1, a2. split; [exact Ea|]. intros P T HP.
      destruct (string_replace_spec (a ++ P ++ b) D T) as (_ & _ & H3).
      replace (a1 ++ T ++ a2 ++ P ++ b) with (a1 ++ T ++ (a2 ++ P ++ b)) by reflexivity.
      apply H3; [discriminate|rewrite Ea; rewrite <- !app_assoc; reflexivity|].
      intros m Hm K. apply inert_occurs in K as [K|[K _]]; [exact (Fa m Hm K)| |exact HP].
      rewrite Ea, app_length in K. lia. }
  destruct (replace_form D [] b ltac:(discriminate)) as [(Nb & _)|(b1 & b2 & Eb & Fb & _)].
  - left. split; [exact Na|]. split; [exact Nb|]. intros P T HP.
    destruct (string_replace_spec (a ++ P ++ b) D T) as (_ & H2 & _). apply H2.
    intros n K. apply inert_occurs in K as [K|[_ K]]; [|apply Nb; eexists; exact K|exact HP]. apply Na. eexists. exact K.
  - right. right. exists b1, b2. split; [exact Eb|]. intros P T HP.
    destruct (string_replace_spec (a ++ P ++ b) D T) as (_ & _ & H3).
    replace (a ++ P ++ b1 ++ T ++ b2) with ((a ++ P ++ b1) ++ T ++ b2) by (rewrite <- !app_assoc; reflexivity).
    apply H3; [discriminate|rewrite Eb, <- !app_assoc; reflexivity|].
    intros m Hm K. apply inert_occurs in K as [K|[L K]]; [apply Na; eexists; exact K| |exact HP].
    rewrite !app_length in Hm. apply (Fb (m - (length a + length P))%nat ltac:(lia) K).
Qed.

Lemma occurs_pd a b n : occurs_at D (a ++ $"%p" ++ b) n -> has D a \/ has D b.
Proof.
  intros H. apply occurs_nth in H as [H1 H2].
  change (nth_error (a ++ $"%p" ++ b) n = Some (chr 37)) in H1.
  change (nth_error (a ++ $"%p" ++ b) (S n) = Some (chr 100)) in H2.
  destruct (Nat.lt_ge_cases n (length a)) as [A|A].
  - left. exists n. apply occurs_nth. rewrite nth_error_app1 in H1 by exact A. split; [exact H1|].
    destruct (Nat.lt_ge_cases (S n) (length a)) as [B|B].
    + now rewrite nth_error_app1 in H2 by exact B.
    + rewrite nth_error_app2 in H2 by exact B. replace (S n - length a)%nat with O in H2 by lia. discriminate H2.
  - right. rewrite nth_error_app2 in H1 by exact A. rewrite nth_error_app2 in H2 by lia.
    replace (S n - length a)%nat with (S (n - length a)) in H2 by lia.
    destruct (n - length a)%nat as [|[|k]]; [discriminate H2|discriminate H1|].
    exists k. apply occurs_nth. split; [exact H1|exact H2].
Qed.

(** A path with a %d: the name is the time stamp between fixed texts. *)
Lemma dated_name path pid : has D path -> exists pre post, forall t, file_name path pid t =
  match stamp t with Some s => Some (pre ++ s ++ post) | None => None end.
Proof.
  intros (n & H).
  assert (exists pre post, forall T, string_replace (string_replace path $"%p" (decZ pid)) D T = pre ++ T ++ post) as (pre & post & E).
  { destruct (replace_form $"%p" (decZ pid) path ltac:(discriminate)) as [(N & ->)|(a & b & E & _ & F)].
    - destruct (replace_form D [] path ltac:(discriminate)) as [(K & _)|(a & b & _ & _ & F)].
      + exfalso. apply K. eexists. exact H.
      + exists a, b. exact F.
    - rewrite F. rewrite E in H. apply occurs_pd in H.
      destruct (name_form a b) as [(K & L & _)|[(a1 & a2 & _ & G)|(b1 & b2 & _ & G)]].
      + exfalso. tauto.
      + exists a1, (a2 ++ decZ pid ++ b). intros T. apply G, decZ_inert.
      + exists (a ++ decZ pid ++ b1), b2. intros T. rewrite (G _ T (decZ_inert pid)), <- !app_assoc. reflexivity. }
  exists pre, post. intros t. unfold file_name. destruct (stamp t); [now rewrite E|reflexivity].
Qed.

Lemma app_same_length {A} (a b c d : list A) : length a = length c -> a ++ b = c ++ d -> a = c /\ b = d.
Proof.
  revert c. induction a as [|x a IH]; intros [|y c] L E; try discriminate; [auto|].
  injection L as L. injection E as -> E. destruct (IH c L E) as [-> ->]. auto.
Qed.

(** A path with a %p: names of different processes differ. *)
Lemma pid_name path p p' t t' n : has $"%p" path -> file_name path p t = Some n -> file_name path p' t' = Some n -> p = p'.
Proof.
  intros (k & H) E E'.
  assert (forall t s, stamp t = Some s -> length s = 20%nat) as SL.
  { intros t0 s Hs. destruct (N.lt_ge_cases t0 253402300800) as [L|L].
    - rewrite stamp_spec in Hs by exact L. injection Hs as <-.
      apply timestamp_length, (denotes_range _ t0); [apply gmtime_denotes|exact L].
    - rewrite stamp_late in Hs by exact L. discriminate. }
  unfold file_name in E, E'. destruct (stamp t) as [s|] eqn:S1; [|discriminate]. destruct (stamp t') as [s'|] eqn:S2; [|discriminate].
  injection E as E. injection E' as E'. apply SL in S1. apply SL in S2.
  destruct (replace_form $"%p" [] path ltac:(discriminate)) as [(K & _)|(a & b & _ & _ & F)].
  { exfalso. apply K. eexists. exact H. }
  rewrite F in E, E'. apply decZ_inj.
  destruct (name_form a b) as [(_ & _ & G)|[(a1 & a2 & _ & G)|(b1 & b2 & _ & G)]];
    rewrite G in E, E' by apply decZ_inert; rewrite <- E' in E; clear E' G F; pose proof (f_equal (@length _) E) as L;
    rewrite !app_length in L.
  - apply app_inv_head in E. apply app_same_length in E as [E _]; [exact E|lia].
  - apply app_inv_head in E. apply app_same_length in E as [_ E]; [|lia]. apply app_inv_head in E.
    apply app_same_length in E as [E _]; [exact E|lia].
  - apply app_inv_head in E. apply app_same_length in E as [E _]; [exact E|lia].
Qed.
