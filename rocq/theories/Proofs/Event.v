(** Proofs about argument and event rendering. *)
From Coq Require Import QArith Qabs Qpower.
From Verif Require Import Base Model.StringUtils Model.Event Spec.Json Spec.Text Spec.Numeral Spec.EventValue
  Proofs.Strings Proofs.Numerals Proofs.JsonText.
Local Close Scope Q_scope.

(** * Words *)

Lemma wrap64_range z : (wrap64 z < 2 ^ 64)%N.
Proof. unfold wrap64. pose proof (Z.mod_pos_bound z (2 ^ 64)). lia. Qed.

Lemma to_s64_wrap64 z : (- 2 ^ 63 <= z < 2 ^ 63)%Z -> to_s64 (wrap64 z) = z.
Proof.
  intros H. unfold to_s64, to_signed, wrap64.
  change (2 ^ (64 - 1))%N with (2 ^ 63)%N. change (Z.of_N 64) with 64%Z.
  destruct (Z.ltb_spec z 0) as [Hz|Hz].
  - assert (E : (z mod 2 ^ 64 = z + 2 ^ 64)%Z).
    { symmetry. apply (Z.mod_unique _ _ (-1)); lia. }
    rewrite E. destruct (N.ltb_spec (Z.to_N (z + 2 ^ 64)) (2 ^ 63)); lia.
  - rewrite Z.mod_small by lia.
    destruct (N.ltb_spec (Z.to_N z) (2 ^ 63)); lia.
Qed.

Lemma wrap64_to_s64 w : (w < 2 ^ 64)%N -> wrap64 (to_s64 w) = w.
Proof.
  intros H. unfold to_s64, to_signed, wrap64.
  change (2 ^ (64 - 1))%N with (2 ^ 63)%N. change (Z.of_N 64) with 64%Z.
  destruct (N.ltb_spec w (2 ^ 63)).
  - rewrite Z.mod_small; lia.
  - assert (E : ((Z.of_N w - 2 ^ 64) mod 2 ^ 64 = Z.of_N w)%Z).
    { symmetry. apply (Z.mod_unique _ _ (-1)); lia. }
    rewrite E. lia.
Qed.

Lemma word_bytes_bytes_word z n : length z = n -> word_bytes n (bytes_word z) = z.
Proof.
  revert n. induction z as [|c z IH]; intros n <-; [reflexivity|].
  cbn [bytes_word length word_bytes].
  assert (Hc : (N_of_ascii c < 256)%N) by apply N_ascii_bounded.
  replace ((N_of_ascii c + 256 * bytes_word z) mod 256)%N with (N_of_ascii c).
  2:{ rewrite N.mul_comm, N.mod_add by easy. now rewrite N.mod_small. }
  replace ((N_of_ascii c + 256 * bytes_word z) / 256)%N with (bytes_word z).
  2:{ rewrite N.add_comm, N.mul_comm, N.div_add_l by easy. rewrite N.div_small by easy. lia. }
  rewrite IH by reflexivity. f_equal. apply ascii_N_embedding.
Qed.

Lemma word_bytes_length n w : length (word_bytes n w) = n.
Proof. revert w. induction n; intros w; cbn; congruence. Qed.

(** * inline_zstring *)

Lemma firstn_all_le {A} (l : list A) n : length l <= n -> firstn n l = l.
Proof. apply firstn_all2. Qed.

Lemma c_str_prefix s : exists t, s = c_str s ++ t.
Proof.
  induction s as [|c s (t & IH)]; cbn [c_str]; [now exists []|].
  destruct (Ascii.eqb c NUL); [now exists (c :: s)|].
  exists t. cbn [app]. f_equal. exact IH.
Qed.

Lemma c_str_nonul s c : In c (c_str s) -> c <> NUL.
Proof.
  induction s as [|x s IH]; cbn [c_str]; [easy|].
  destruct (Ascii.eqb_spec x NUL); [easy|]. intros [<-|H]; auto.
Qed.

Lemma c_str_app_nul s n : c_str (s ++ repeat NUL n) = c_str s.
Proof.
  induction s as [|c s IH]; cbn [c_str app].
  - destruct n; reflexivity.
  - now rewrite IH.
Qed.

Lemma c_str_id s : ~ In NUL s -> c_str s = s.
Proof.
  induction s as [|c s IH]; intros H; [reflexivity|]. cbn [c_str].
  destruct (Ascii.eqb_spec c NUL) as [->|]; [elim H; now left|].
  rewrite IH; [reflexivity|]. intros Hi. apply H. now right.
Qed.

Lemma izs_string_spec z : length z = 8 -> izs_string z = Some (c_str z).
Proof.
  intros H. unfold izs_string, strnlen_s.
  rewrite strnlen_loop_spec by (unfold zstring_len; lia).
  unfold zstring_len. rewrite (firstn_all2 (n:=8) z) by lia. cbn [Nat.add].
  destruct (c_str_prefix z) as (t & Ht).
  f_equal. rewrite Ht at 2. rewrite firstn_app.
  rewrite Nat.sub_diag. cbn [firstn]. rewrite app_nil_r.
  apply firstn_all.
Qed.

Lemma izs_roundtrip s len : len <= length s ->
  exists z, izs_make s len = Some z /\ length z = 8 /\
            izs_string z = Some (c_str (firstn (Nat.min len 8) s)).
Proof.
  intros H. unfold izs_make, zstring_len.
  assert (Hm : (if Nat.ltb len 8 then len else 8) = Nat.min len 8).
  { destruct (Nat.ltb_spec len 8); lia. }
  rewrite Hm. set (k := Nat.min len 8).
  destruct (Nat.ltb_spec (length s) k); [lia|].
  eexists. split; [reflexivity|].
  assert (Hl : length (firstn k s ++ repeat NUL (8 - k)) = 8).
  { rewrite app_length, repeat_length, firstn_length. lia. }
  split; [exact Hl|]. rewrite izs_string_spec by exact Hl.
  now rewrite c_str_app_nul.
Qed.

Lemma izs_exact s len : len <= length s -> ~ In NUL (firstn (Nat.min len 8) s) ->
  exists z, izs_make s len = Some z /\ izs_string z = Some (firstn (Nat.min len 8) s).
Proof.
  intros H Hn. destruct (izs_roundtrip s len H) as (z & H1 & _ & H2).
  exists z. split; [exact H1|]. rewrite H2. now rewrite c_str_id.
Qed.

(** * Doubles *)

Lemma round_half_even_spec num den : (0 < den)%N ->
  (2 * Z.abs (Z.of_N (round_half_even num den) * Z.of_N den - Z.of_N num) <= Z.of_N den)%Z.
Proof.
  intros Hd. unfold round_half_even.
  pose proof (N.div_mod num den ltac:(lia)) as E.
  pose proof (N.mod_lt num den ltac:(lia)) as Hr.
  set (q := (num / den)%N) in *. set (r := (num mod den)%N) in *. clearbody q r. subst num.
  destruct (N.ltb_spec (2 * r) den); [nia|].
  destruct (N.ltb_spec den (2 * r)); [nia|].
  destruct (N.even q); nia.
Qed.

Definition finite (w : N) : Prop := double_value w <> None.

Lemma exp_field w : ((w / 2 ^ 52) mod 2048 = w / 2 ^ 52 mod 2 ^ 11)%N.
Proof. reflexivity. Qed.

Lemma sign_field w : (w < 2 ^ 64)%N -> N.testbit w 63 = (w / 2 ^ 63 mod 2 =? 1)%N.
Proof.
  intros H. rewrite N.testbit_eqb. reflexivity.
Qed.

Lemma Qpower_sub (e : N) : (Qpower 2 (Z.of_N e - 1075) == inject_Z (Z.of_N (2 ^ e)) / inject_Z (2 ^ 1075))%Q.
Proof.

  replace (Z.of_N e - 1075)%Z with (Z.of_N e + - (1075))%Z by lia.
  rewrite Qpower_plus by (intros E; discriminate E).
  rewrite Qpower_opp.
  rewrite N2Z.inj_pow. change (Z.of_N 2) with 2%Z.
  rewrite !Zpower_Qpower by lia. reflexivity.
Qed.

Lemma double_to_string_finite w q : (w < 2 ^ 64)%N -> double_value w = Some q ->
  exists m, nearest_millionth m q /\ val_at (JNum m (-6)) (double_to_string w).
Proof.
  intros Hw Hv. unfold double_value in Hv. unfold double_to_string.
  rewrite sign_field by assumption. rewrite exp_field.
  set (ex := (w / 2 ^ 52 mod 2 ^ 11)%N) in *.
  set (man := (w mod 2 ^ 52)%N) in *.
  set (sg := (w / 2 ^ 63 mod 2 =? 1)%N) in *.
  destruct (N.eqb_spec ex 2047) as [|Hex]; [discriminate|].
  set (m := (if (ex =? 0)%N then man else man + 2 ^ 52)%N).
  set (e := (if (ex =? 0)%N then 1 else ex)%N).
  set (mag := if (ex =? 0)%N then _ else _) in Hv.
  assert (Hmag : (mag == inject_Z (Z.of_N m) * (inject_Z (Z.of_N (2 ^ e)) / inject_Z (2 ^ 1075)))%Q).
  { subst mag m e. rewrite <- Qpower_sub. destruct (ex =? 0)%N.
    - reflexivity.
    - now rewrite (N.add_comm man). }
  clearbody mag m e.
  set (r := round_half_even (m * million * 2 ^ e) (2 ^ 1075)).
  assert (Hr : nearest_millionth (Z.of_N r) mag).
  { unfold nearest_millionth. rewrite Hmag.
    pose proof (round_half_even_spec (m * million * 2 ^ e) (2 ^ 1075) eq_refl) as H.
    fold r in H. clearbody r.
    change (Z.of_N (2 ^ 1075)) with (2 ^ 1075)%Z in H.
    rewrite !N2Z.inj_mul in H. change (Z.of_N million) with 1000000%Z in H.
    assert (HD : (0 < 2 ^ 1075)%Z) by easy.
    set (D := (2 ^ 1075)%Z) in *. clearbody D.
    set (X := Z.of_N (2 ^ e)) in *. set (M := Z.of_N m) in *. set (R := Z.of_N r) in *.
    clearbody X M R.
    assert (E : (inject_Z R * (1 # 1000000) - inject_Z M * (inject_Z X / inject_Z D)
                == inject_Z (R * D - M * 1000000 * X) * / (1000000 * inject_Z D))%Q).
    { unfold Z.sub. rewrite inject_Z_plus, inject_Z_opp, !inject_Z_mult.
      change (1 # 1000000)%Q with (/ 1000000)%Q. change (inject_Z 1000000) with 1000000%Q.
      field.
      intros Q0. unfold Qeq in Q0. cbn in Q0. lia. }
    rewrite E, Qabs_Qmult.
    assert (HDq : (0 < 1000000 * inject_Z D)%Q).
    { change 0%Q with (1000000 * 0)%Q. apply Qmult_lt_l; [reflexivity|].
      unfold Qlt. cbn. lia. }
    rewrite (Qabs_pos (/ _)) by (apply Qlt_le_weak, Qinv_lt_0_compat, HDq).
    apply Qle_shift_div_r; [exact HDq|].
    change (Qabs (inject_Z ?x)) with (inject_Z (Z.abs x)).
    unfold Qle. cbn [Qnum Qden inject_Z Qmult]. lia. }
  assert (Hval : val_at (JNum (Z.of_N r) (-6)) (dec (r / million) ++ chr 46 :: pad0 6 (dec (r mod million)))).
  { assert (Hlt : (r mod million < 10 ^ N.of_nat 6)%N) by (apply N.mod_lt; discriminate).
    pose proof (val_at_frac (r / million) (r mod million) 6 ltac:(lia) Hlt) as H.
    change (10 ^ N.of_nat 6)%N with million in H.
    rewrite (N.mul_comm (r / million)), <- N.div_mod in H by discriminate. exact H. }
  assert (Hneg : val_at (JNum (- Z.of_N r) (-6)) (chr 45 :: dec (r / million) ++ chr 46 :: pad0 6 (dec (r mod million)))).
  { assert (Hlt : (r mod million < 10 ^ N.of_nat 6)%N) by (apply N.mod_lt; discriminate).
    pose proof (val_at_neg_frac (r / million) (r mod million) 6 ltac:(lia) Hlt) as H.
    change (10 ^ N.of_nat 6)%N with million in H.
    rewrite (N.mul_comm (r / million)), <- N.div_mod in H by discriminate. exact H. }
  injection Hv as <-. destruct sg.
  - exists (- Z.of_N r)%Z. split; [|exact Hneg].
    unfold nearest_millionth in *. rewrite inject_Z_opp.
    setoid_replace (- inject_Z (Z.of_N r) * (1 # 1000000) - - mag)%Q
      with (- (inject_Z (Z.of_N r) * (1 # 1000000) - mag))%Q by ring.
    now rewrite Qabs_opp.
  - exists (Z.of_N r). split; [exact Hr|exact Hval].
Qed.

Lemma double_to_string_nonfinite w : (w < 2 ^ 64)%N -> double_value w = None ->
  In (double_to_string w) [$"inf"; $"-inf"; $"nan"; $"-nan"].
Proof.
  intros Hw Hv. unfold double_value in Hv. unfold double_to_string. rewrite exp_field.
  set (ex := (w / 2 ^ 52 mod 2 ^ 11)%N) in *. destruct (ex =? 2047)%N; [|discriminate].
  destruct (N.testbit w 63), (w mod 2 ^ 52 =? 0)%N; cbn; tauto.
Qed.

Lemma double_json_iff w : (w < 2 ^ 64)%N ->
  ((exists v, json_parse (double_to_string w) = Some v) <-> double_value w <> None).
Proof.
  intros Hw. destruct (double_value w) as [q|] eqn:E.
  - split; [easy|]. intros _.
    destruct (double_to_string_finite w q Hw E) as (m & _ & H).
    eexists. eapply json_parse_val, H.
  - split; [|easy]. intros (v & Hv).
    destruct (double_to_string_nonfinite w Hw E) as [H|[H|[H|[H|[]]]]];
      rewrite <- H in Hv; discriminate Hv.
Qed.

(** * Arguments *)


Lemma hex_plain n : all_plain (hex n).
Proof.
  intros c Hc. apply hex_digits, digit16_code in Hc. unfold plain. lia.
Qed.

Lemma all_plain_app a b : all_plain a -> all_plain b -> all_plain (a ++ b).
Proof. intros Ha Hb c Hc. apply in_app_or in Hc as [H|H]; auto. Qed.

Lemma lit_plain s : forallb plainb s = true -> all_plain s.
Proof. apply all_plain_b. Qed.

Lemma arg_renders mem v junk : cval_ok v -> renderable mem v ->
  exists text j, arg_to_string mem (asArgument v junk) (getType v) = Ok text /\
                 denotes mem v j /\ val_at j text.
Proof.
  intros Hok Hr. destruct v as [b|z|n|w|a|a|z|]; cbn in Hok; cbn [getType asArgument arg_to_string].
  - replace (((if b then 1 else 0) + 256 * (junk mod 2 ^ 56)) mod 256)%N with (if b then 1 else 0)%N.
    2:{ rewrite N.mul_comm, N.mod_add by easy. now destruct b. }
    destruct b; cbn; eexists; eexists; repeat split; auto using val_at_true, val_at_false.
  - rewrite to_s64_wrap64 by assumption. eexists; eexists; repeat split. apply val_at_decZ.
  - rewrite N.mod_small by assumption. eexists; eexists; repeat split. apply val_at_dec.
  - rewrite N.mod_small by assumption. cbn in Hr.
    destruct (double_value w) as [q|] eqn:E; [|easy].
    destruct (double_to_string_finite w q Hok E) as (m & Hm & Hv).
    eexists; eexists; split; [reflexivity|]. split; [|exact Hv].
    exists m, q. auto.
  - rewrite N.mod_small by assumption.
    eexists; exists (JStr (pointer_to_string a)); split; [reflexivity|]. unfold pointer_to_string.
    destruct (N.eqb_spec a 0) as [->|Ha].
    + split; [exists $"0"; split; auto|]. apply val_at_str, str_at_quoted, lit_plain. reflexivity.
    + split.
      * exists ($"0x" ++ hex a). split; [reflexivity|]. right. exists (hex a). split; auto.
        apply hex_value.
      * apply val_at_str, str_at_quoted, all_plain_app; [apply lit_plain; reflexivity|apply hex_plain].
  - rewrite N.mod_small by assumption. destruct Hr as (s & Hs & Hp). rewrite Hs.
    eexists; exists (JStr (c_str s)); split; [reflexivity|]. split; [exists s; auto|].
    now apply val_at_str, str_at_quoted.
  - rewrite word_bytes_bytes_word by assumption. rewrite izs_string_spec by assumption.
    eexists; eexists; split; [reflexivity|]. split; [reflexivity|].
    now apply val_at_str, str_at_quoted.
  - destruct Hr.
Qed.

(** * Times *)

Lemma micros_nonneg w : (0 <= to_s64 w)%Z -> val_at (JNum (to_s64 w) (-3)) (micros w).
Proof.
  intros H. unfold micros. set (z := to_s64 w) in *. clearbody z.
  rewrite Z.quot_div_nonneg, Z.rem_mod_nonneg by lia.
  pose proof (Z.mod_pos_bound z 1000 ltac:(lia)).
  pose proof (Z.div_pos z 1000 H ltac:(lia)).
  unfold decZ, dec0Z.
  destruct (Z.ltb_spec (z / 1000) 0); [lia|].
  destruct (Z.ltb_spec (z mod 1000) 0); [lia|].
  assert (Hlt : (Z.to_N (z mod 1000) < 10 ^ N.of_nat 3)%N) by (change (10 ^ N.of_nat 3)%N with 1000%N; lia).
  pose proof (val_at_frac (Z.to_N (z / 1000)) (Z.to_N (z mod 1000)) 3 ltac:(lia) Hlt) as Hv.
  change (10 ^ N.of_nat 3)%N with 1000%N in Hv. change (- Z.of_nat 3)%Z with (-3)%Z in Hv.
  replace (Z.of_N (Z.to_N (z / 1000) * 1000 + Z.to_N (z mod 1000))) with z in Hv; [exact Hv|].
  rewrite N2Z.inj_add, N2Z.inj_mul, !Z2N.id by lia.
  change (Z.of_N 1000) with 1000%Z. pose proof (Z.div_mod z 1000 ltac:(lia)). lia.
Qed.

Lemma micros_neg_whole w : (to_s64 w < 0)%Z -> Z.rem (to_s64 w) 1000 = 0%Z ->
  val_at (JNum (to_s64 w) (-3)) (micros w).
Proof.
  intros H Hr. unfold micros. set (z := to_s64 w) in *. clearbody z.
  rewrite Hr. pose proof (Z.quot_rem z 1000 ltac:(lia)) as E. rewrite Hr in E.
  set (q := Z.quot z 1000) in *. clearbody q.
  unfold decZ. destruct (Z.ltb_spec q 0); [|lia].
  pose proof (val_at_neg_frac (Z.to_N (- q)) 0 3 ltac:(lia) ltac:(reflexivity)) as Hv.
  change (10 ^ N.of_nat 3)%N with 1000%N in Hv. change (- Z.of_nat 3)%Z with (-3)%Z in Hv.
  replace (- Z.of_N (Z.to_N (- q) * 1000 + 0))%Z with z in Hv; [exact Hv|].
  rewrite N2Z.inj_add, N2Z.inj_mul, Z2N.id by lia. change (Z.of_N 1000) with 1000%Z. lia.
Qed.

Lemma read_num_bad_frac pre z t :
  (exists n, pre = dec n \/ pre = chr 45 :: dec n) -> (z < 0)%Z ->
  read_num (pre ++ chr 46 :: dec0Z 3 z ++ t) = None.
Proof.
  intros (n & Hn) Hz. unfold dec0Z. destruct (Z.ltb_spec z 0); [|lia].
  set (x := pad0 _ _). clearbody x. cbn [app].
  assert (Hd : forall u, no_digit_start (chr 46 :: u)) by (intros; reflexivity).
  unfold read_num.
  destruct Hn as [-> | ->].
  - rewrite dec_start. rewrite read_digits_dec by apply Hd.
    destruct (Nat.eqb_spec (length (dec n)) 0); [reflexivity|].
    rewrite dec_lead0. reflexivity.
  - change (starts_with 45 ((chr 45 :: dec n) ++ ?u)) with true. cbn [app tl].
    rewrite read_digits_dec by apply Hd.
    destruct (Nat.eqb_spec (length (dec n)) 0); [reflexivity|].
    rewrite dec_lead0. reflexivity.
Qed.

Lemma micros_invalid w rest : (to_s64 w < 0)%Z -> Z.rem (to_s64 w) 1000 <> 0%Z ->
  forall f, read_value f (micros w ++ rest) = None.
Proof.
  intros H Hr f. destruct f as [|f]; [reflexivity|]. unfold micros.
  set (z := to_s64 w) in *. clearbody z.
  assert (Hz : (Z.rem z 1000 < 0)%Z).
  { pose proof (Z.rem_bound_pos_neg z 1000 ltac:(lia) ltac:(lia)). lia. }
  rewrite <- app_assoc. cbn [app].
  assert (Hpre : exists n, decZ (Z.quot z 1000) = dec n \/ decZ (Z.quot z 1000) = chr 45 :: dec n).
  { unfold decZ. destruct (_ <? 0)%Z; eexists; eauto. }
  assert (Hs : num_start (decZ (Z.quot z 1000) ++ chr 46 :: dec0Z 3 (Z.rem z 1000) ++ rest)).
  { destruct Hpre as (n & [-> | ->]); [apply num_start_dec|now left]. }
  destruct (decZ (Z.quot z 1000) ++ chr 46 :: dec0Z 3 (Z.rem z 1000) ++ rest) as [|c r] eqn:E; [easy|].
  rewrite (read_value_num f (c :: r) c r eq_refl Hs). rewrite <- E.
  now apply read_num_bad_frac.
Qed.

Lemma micros_json w :
  json_parse (micros w) =
  if (0 <=? to_s64 w)%Z || (Z.rem (to_s64 w) 1000 =? 0)%Z
  then Some (JNum (to_s64 w) (-3)) else None.
Proof.
  destruct (Z.leb_spec 0 (to_s64 w)) as [H|H]; cbn [orb].
  - now apply json_parse_val, micros_nonneg.
  - destruct (Z.eqb_spec (Z.rem (to_s64 w) 1000) 0) as [Hr|Hr].
    + now apply json_parse_val, micros_neg_whole.
    + unfold json_parse. rewrite <- (app_nil_r (micros w)) at 2.
      now rewrite micros_invalid.
Qed.


Lemma arg_member_renders mem name v junk : name_ok name -> cval_ok v -> renderable mem v ->
  exists ks vs j, arg_member mem name (asArgument v junk) (getType v) = Ok (member ks vs) /\
               denotes mem v j /\ pair_at (c_str name, j) (ks, vs).
Proof.
  intros Hn Hok Hr. destruct (arg_renders mem v junk Hok Hr) as (text & j & H1 & H2 & H3).
  exists (to_json (c_str name)), text, j. unfold arg_member. rewrite H1. cbn.
  repeat split; auto. cbn. now apply str_at_to_json.
Qed.

Lemma getType_none v : is_none_type (getType v) = match v with VNone => true | _ => false end.
Proof. now destruct v. Qed.

Lemma args_render mem t v0 v1 j0 j1 time dur :
  tp_arg_types t = (getType v0, getType v1) ->
  (forall n v, In (n, v) (carried (tp_arg_names t) v0 v1) ->
     name_ok n /\ cval_ok v /\ renderable mem v) ->
  exists ts args,
    args_members mem {| ev_tpi := t; ev_args := (asArgument v0 j0, asArgument v1 j1);
                        ev_time := time; ev_duration := dur |}
      = Ok (glue (chr 44) (map (fun t => member (fst t) (snd t)) ts)) /\
    Forall2 pair_at args ts /\
    Forall2 (fun nv kj => fst kj = c_str (fst nv) /\ denotes mem (snd nv) (snd kj))
            (carried (tp_arg_names t) v0 v1) args.
Proof.
  intros Ht Hc. unfold args_members. cbn [ev_tpi ev_args]. rewrite Ht.
  destruct (tp_arg_names t) as [n0 n1]. rewrite !getType_none.
  destruct (match v0 with VNone => true | _ => false end) eqn:E0.
  { destruct v0; try discriminate. exists [], []. repeat split; constructor. }
  assert (H0 : name_ok n0 /\ cval_ok v0 /\ renderable mem v0).
  { apply Hc. destruct v0; try discriminate; destruct v1; now left. }
  destruct H0 as (Hn0 & Hok0 & Hr0).
  destruct (arg_member_renders mem n0 v0 j0 Hn0 Hok0 Hr0) as (k0 & s0 & d0 & E & Hd0 & Hp0).
  rewrite E. cbn [bind].
  destruct (match v1 with VNone => true | _ => false end) eqn:E1.
  { destruct v1; try discriminate. exists [(k0, s0)], [(c_str n0, d0)].
    split; [reflexivity|]. split; [now constructor|].
    destruct v0; try discriminate; repeat constructor; cbn; auto. }
  assert (H1 : name_ok n1 /\ cval_ok v1 /\ renderable mem v1).
  { apply Hc. destruct v0; try discriminate; destruct v1; try discriminate; right; now left. }
  destruct H1 as (Hn1 & Hok1 & Hr1).
  destruct (arg_member_renders mem n1 v1 j1 Hn1 Hok1 Hr1) as (k1 & s1 & d1 & E' & Hd1 & Hp1).
  rewrite E'. cbn [bind].
  exists [(k0, s0); (k1, s1)], [(c_str n0, d0); (c_str n1, d1)].
  split; [reflexivity|]. split; [constructor; [exact Hp0|constructor; [exact Hp1|constructor]]|].
  destruct v0; try discriminate; destruct v1; try discriminate; repeat constructor; cbn; auto.
Qed.

Lemma asArgument_range v junk : cval_ok v -> (asArgument v junk < 2 ^ 64)%N.
Proof.
  intros H. destruct v; cbn [asArgument cval_ok] in *; try (apply N.mod_lt; discriminate).
  - pose proof (N.mod_lt junk (2 ^ 56) ltac:(discriminate)). destruct b; lia.
  - apply wrap64_range.
  - assert (G : forall z n, length z = n -> (bytes_word z < 256 ^ N.of_nat n)%N).
    { clear. induction z as [|c z IH]; intros n <-; [reflexivity|].
      cbn [length bytes_word]. pose proof (IH _ eq_refl). pose proof (N_ascii_bounded c).
      rewrite Nat2N.inj_succ, N.pow_succ_r by lia. nia. }
    apply (G z 8 H).
Qed.


Lemma key_at k : forallb plainb k = true -> str_at k (quoted k).
Proof. intros H. apply str_at_quoted. now apply all_plain_b. Qed.

Ltac split5 := split; [|split; [|split; [|split]]].

Lemma event_renders mem pid tid t v0 v1 j0 j1 time dur :
  tp_type t <> ev_invalid ->
  name_ok (tp_name t) -> name_ok (tp_category t) ->
  tp_arg_types t = (getType v0, getType v1) ->
  (forall n v, In (n, v) (carried (tp_arg_names t) v0 v1) ->
     name_ok n /\ cval_ok v /\ renderable mem v) ->
  (0 <= to_s64 time)%Z -> (0 <= to_s64 dur)%Z ->
  exists r j,
    event_to_json mem pid tid
      {| ev_tpi := t; ev_args := (asArgument v0 j0, asArgument v1 j1);
         ev_time := time; ev_duration := dur |} = Ok (chr 123 :: r) /\
    val_at j (chr 123 :: r) /\
    event_denotes mem pid tid (tp_category t) (tp_name t) (tp_type t) (tp_arg_names t) v0 v1
      (asArgument v0 j0) (to_s64 time) (to_s64 dur) j.
Proof.
  intros Hty Hname Hcat Htypes Hargs Htime Hdur.
  destruct (args_render mem t v0 v1 j0 j1 time dur Htypes Hargs) as (ts & args & Ea & Hp & Hd).
  set (ev := Build_event _ _ _ _) in *.
  assert (Hty' : exists ph ex ets, typeToJSON ev = Ok (ph, concat (map (fun t => chr 44 :: member (fst t) (snd t)) ets)) /\
             phase (tp_type t) = Some ph /\ all_plain ph /\
             extra_ok (tp_type t) (asArgument v0 j0) (to_s64 dur) ex /\ Forall2 pair_at ex ets).
  { unfold typeToJSON. cbn [ev_tpi ev_args ev_duration ev fst]. subst ev. cbn [ev_tpi ev_args ev_duration fst].
    assert (Hid : forall h, h = hex (asArgument v0 j0) ->
      pair_at ($"id", JStr ($"0x" ++ h)) (quoted $"id", chr 32 :: quoted ($"0x" ++ h))).
    { intros h ->. split; cbn [fst snd].
      - apply key_at. reflexivity.
      - apply val_at_ws; [reflexivity|]. apply val_at_str, str_at_quoted, all_plain_app;
          [apply lit_plain; reflexivity|apply hex_plain]. }
    destruct (tp_type t); try easy.
    - exists $"b", [($"id", JStr ($"0x" ++ hex (asArgument v0 j0)))],
        [(quoted $"id", chr 32 :: quoted ($"0x" ++ hex (asArgument v0 j0)))].
      cbn [map concat]. rewrite app_nil_r. split5; auto.
      + apply lit_plain; reflexivity.
      + eexists; split; [reflexivity|]. apply hex_value.
    - exists $"e", [($"id", JStr ($"0x" ++ hex (asArgument v0 j0)))],
        [(quoted $"id", chr 32 :: quoted ($"0x" ++ hex (asArgument v0 j0)))].
      cbn [map concat]. rewrite app_nil_r. split5; auto.
      + apply lit_plain; reflexivity.
      + eexists; split; [reflexivity|]. apply hex_value.
    - exists $"B", [], []. split5; auto; [|reflexivity]. apply lit_plain; reflexivity.
    - exists $"E", [], []. split5; auto; [|reflexivity]. apply lit_plain; reflexivity.
    - exists $"i", [($"s", JStr $"t")], [(quoted $"s", quoted $"t")].
      split5; auto; [apply lit_plain; reflexivity|reflexivity|].
      constructor; [|constructor]. split; cbn [fst snd]; [|apply val_at_str]; apply key_at; reflexivity.
    - exists $"i", [($"s", JStr $"g")], [(quoted $"s", quoted $"g")].
      split5; auto; [apply lit_plain; reflexivity|reflexivity|].
      constructor; [|constructor]. split; cbn [fst snd]; [|apply val_at_str]; apply key_at; reflexivity.
    - exists $"X", [($"dur", JNum (to_s64 dur) (-3))], [(quoted $"dur", micros dur)].
      cbn [map concat]. rewrite app_nil_r.
      split5; auto; [apply lit_plain; reflexivity|reflexivity|].
      constructor; [|constructor]. split; cbn [fst snd]; [apply key_at; reflexivity|now apply micros_nonneg]. }
  destruct Hty' as (ph & ex & ets & Et & Hph & Hpl & Hex & Hexp).
  unfold event_to_json. rewrite Et, Ea. cbn [bind fst snd].
  set (items := [(quoted $"name", to_json (c_str (tp_name t)));
                 (quoted $"cat", to_json (c_str (tp_category t)));
                 (quoted $"ph", quoted ph)] ++ ets ++
                [(quoted $"ts", micros time); (quoted $"pid", decZ pid); (quoted $"tid", dec tid);
                 (quoted $"args", chr 123 :: glue (chr 44) (map (fun t => member (fst t) (snd t)) ts) ++ [chr 125])]).
  set (vals := [($"name", JStr (c_str (tp_name t))); ($"cat", JStr (c_str (tp_category t)));
                ($"ph", JStr ph)] ++ ex ++
               [($"ts", JNum (to_s64 time) (-3)); ($"pid", JNum pid 0); ($"tid", JNum (Z.of_N tid) 0);
                ($"args", JObj args)]).
  assert (Hall : Forall2 pair_at vals items).
  { apply Forall2_app; [|apply Forall2_app; [exact Hexp|]].
    - repeat constructor; cbn [fst snd]; try (apply key_at; reflexivity);
        try (now apply val_at_str, str_at_to_json). now apply val_at_str, str_at_quoted.
    - repeat constructor; cbn [fst snd]; try (apply key_at; reflexivity).
      + now apply micros_nonneg.
      + apply val_at_decZ.
      + apply val_at_dec.
      + now apply val_at_obj_glue. }
  pose proof (val_at_obj_glue vals items Hall) as Hval.
  exists (glue (chr 44) (map (fun t => member (fst t) (snd t)) items) ++ [chr 125]), (JObj vals).
  split; [|split; [exact Hval|]].
  - f_equal.
    assert (Hg : forall l x, x <> [] -> glue (chr 44) (l :: x) = l ++ concat (map (cons (chr 44)) x)).
    { intros l x. revert l. induction x as [|y x IH]; [easy|]. intros l _.
      rewrite glue_cons by discriminate. destruct x as [|z x].
      - cbn. now rewrite app_nil_r.
      - rewrite IH by discriminate. reflexivity. }
    subst items. cbn [app map fst snd].
    rewrite Hg by discriminate.
    cbn [map concat]. rewrite !map_app, concat_app. cbn [map concat fst snd].
    rewrite map_map. unfold member. cbn [app].
    rewrite app_nil_r. unfold quoted. cbn [ev_tpi ev_time ev lit list_ascii_of_string app].
    repeat (rewrite <- app_assoc; cbn [app]). reflexivity.
  - exists ph, ex, args. repeat split; auto.
Qed.

(** * to_string *)

Lemma split_time_spec w : (0 <= to_s64 w)%Z ->
  let '(d, h, m, s, ns) := split_time w in
  (0 <= d /\ 0 <= h < 24 /\ 0 <= m < 60 /\ 0 <= s < 60 /\ 0 <= ns < 1000000000 /\
   to_s64 w = (((d * 24 + h) * 60 + m) * 60 + s) * 1000000000 + ns)%Z.
Proof.
  intros H. unfold split_time. set (z := to_s64 w) in *. clearbody z.
  assert (Q : forall a b, (0 <= a)%Z -> (0 < b)%Z ->
    (0 <= Z.quot a b)%Z /\ (0 <= a - Z.quot a b * b < b)%Z).
  { intros a b Ha Hb. rewrite Z.quot_div_nonneg by lia.
    pose proof (Z.div_mod a b ltac:(lia)). pose proof (Z.mod_pos_bound a b Hb).
    split; [apply Z.div_pos; lia|]. nia. }
  destruct (Q z 86400000000000 H ltac:(lia))%Z as [Hd Rd].
  set (d := Z.quot z 86400000000000) in *. clearbody d.
  set (t1 := (z - d * 86400000000000)%Z) in *.
  destruct (Q t1 3600000000000 ltac:(lia) ltac:(lia))%Z as [Hh Rh].
  set (h := Z.quot t1 3600000000000) in *. clearbody h.
  set (t2 := (t1 - h * 3600000000000)%Z) in *.
  destruct (Q t2 60000000000 ltac:(lia) ltac:(lia))%Z as [Hm Rm].
  set (m := Z.quot t2 60000000000) in *. clearbody m.
  set (t3 := (t2 - m * 60000000000)%Z) in *.
  destruct (Q t3 1000000000 ltac:(lia) ltac:(lia))%Z as [Hs Rs].
  set (s := Z.quot t3 1000000000) in *. clearbody s.
  set (t4 := (t3 - s * 1000000000)%Z) in *.
  lia.
Qed.

Lemma dec0Z_value w z : 0 < w -> (0 <= z < 10 ^ Z.of_nat w)%Z ->
  length (dec0Z w z) = w /\ zvalue_of (dec0Z w z) = Some z.
Proof.
  intros Hw Hz. unfold dec0Z. destruct (Z.ltb_spec z 0); [lia|].
  assert (Hl : length (dec (Z.to_N z)) <= w).
  { apply dec_length_bound; [|exact Hw].
    assert (Z.of_N (10 ^ N.of_nat w) = 10 ^ Z.of_nat w)%Z.
    { rewrite N2Z.inj_pow, nat_N_Z. reflexivity. }
    lia. }
  destruct (pad0_value w (Z.to_N z) 0 Hl) as [Hv Hlen].
  split; [exact Hlen|].
  destruct (pad0 w (dec (Z.to_N z))) as [|c r] eqn:E; [cbn in Hlen; lia|].
  unfold zvalue_of.
  assert (Hc : digit_value 10 c <> None).
  { cbn [value_from] in Hv. destruct (digit_value 10 c); congruence. }
  destruct (Ascii.eqb_spec c "-") as [->|Hne]; [now elim Hc|].
  unfold value_of. rewrite Hv. cbn. f_equal. lia.
Qed.

Lemma event_to_string_time mem e text : (0 <= to_s64 (ev_time e))%Z ->
  event_to_string mem e = Ok text ->
  exists D H M S NS rest d h m s ns,
    text = $"TraceEvent<" ++ D ++ $"d " ++ H ++ $":" ++ M ++ $":" ++ S ++ $"." ++ NS
           ++ $", " ++ rest /\
    zvalue_of D = Some d /\ zvalue_of H = Some h /\ zvalue_of M = Some m /\
    zvalue_of S = Some s /\ zvalue_of NS = Some ns /\
    length H = 2 /\ length M = 2 /\ length S = 2 /\ length NS = 9 /\
    (0 <= d /\ 0 <= h < 24 /\ 0 <= m < 60 /\ 0 <= s < 60 /\ 0 <= ns < 1000000000 /\
     to_s64 (ev_time e) = (((d * 24 + h) * 60 + m) * 60 + s) * 1000000000 + ns)%Z.
Proof.
  intros Ht He. unfold event_to_string in He. pose proof (split_time_spec _ Ht) as Hs.
  destruct (split_time (ev_time e)) as [[[[d h] m] s] ns].
  destruct (typeToString _) as [ty| |]; try discriminate. cbn [bind] in He.
  destruct (arg_to_string mem (fst _) _) as [a1| |]; try discriminate. cbn [bind] in He.
  destruct (arg_to_string mem (snd _) _) as [a2| |]; try discriminate. cbn [bind] in He.
  injection He as <-.
  destruct (dec0Z_value 2 h ltac:(lia)) as [Lh Vh]; [lia|].
  destruct (dec0Z_value 2 m ltac:(lia)) as [Lm Vm]; [lia|].
  destruct (dec0Z_value 2 s ltac:(lia)) as [Ls Vs]; [lia|].
  destruct (dec0Z_value 9 ns ltac:(lia)) as [Ln Vn]; [lia|].
  exists (decZ d), (dec0Z 2 h), (dec0Z 2 m), (dec0Z 2 s), (dec0Z 9 ns).
  eexists. exists d, h, m, s, ns.
  split; [reflexivity|].
  split; [apply decZ_value|]. repeat (split; [assumption|]). assumption.
Qed.

(** The rest of the text: category, name, type and arguments. *)
Lemma event_to_string_fields mem e text : event_to_string mem e = Ok text ->
  exists pre ty a1 a2, typeToString (tp_type (ev_tpi e)) = Ok ty /\
    arg_to_string mem (fst (ev_args e)) (fst (tp_arg_types (ev_tpi e))) = Ok a1 /\
    arg_to_string mem (snd (ev_args e)) (snd (tp_arg_types (ev_tpi e))) = Ok a2 /\
    text = pre ++ $", " ++ c_str (tp_category (ev_tpi e)) ++ $", " ++ c_str (tp_name (ev_tpi e))
           ++ $", type=" ++ ty ++ $", arg1=" ++ a1 ++ $", arg2=" ++ a2 ++ $">".
Proof.
  intros He. unfold event_to_string in He.
  destruct (split_time (ev_time e)) as [[[[d h] m] s] ns].
  destruct (typeToString _) as [ty| |]; try discriminate. cbn [bind] in He.
  destruct (arg_to_string mem (fst _) _) as [a1| |]; try discriminate. cbn [bind] in He.
  destruct (arg_to_string mem (snd _) _) as [a2| |]; try discriminate. cbn [bind] in He.
  injection He as <-.
  exists ($"TraceEvent<" ++ decZ d ++ $"d " ++ dec0Z 2 h ++ $":" ++ dec0Z 2 m ++ $":"
      ++ dec0Z 2 s ++ $"." ++ dec0Z 9 ns), ty, a1, a2.
  repeat (split; [reflexivity|]).
  repeat rewrite <- app_assoc. reflexivity.
Qed.

(** * Consequences used by the properties *)

Lemma int_arg mem z junk : (- 2 ^ 63 <= z < 2 ^ 63)%Z ->
  exists text, arg_to_string mem (asArgument (VInt z) junk) (getType (VInt z)) = Ok text /\
               zvalue_of text = Some z /\ json_parse text = Some (JNum z 0).
Proof.
  intros H. cbn. fold (to_s64 (wrap64 z)). rewrite to_s64_wrap64 by exact H.
  eexists; split; [reflexivity|]. split; [apply decZ_value|].
  apply json_parse_val, val_at_decZ.
Qed.

Lemma uint_arg mem n junk : (n < 2 ^ 64)%N ->
  exists text, arg_to_string mem (asArgument (VUint n) junk) (getType (VUint n)) = Ok text /\
               value_of 10 text = Some n /\ json_parse text = Some (JNum (Z.of_N n) 0).
Proof.
  intros H. cbn [getType asArgument arg_to_string]. rewrite N.mod_small by exact H.
  eexists; split; [reflexivity|]. split; [apply dec_value|].
  apply json_parse_val, val_at_dec.
Qed.

Lemma bool_arg mem b junk :
  exists text, arg_to_string mem (asArgument (VBool b) junk) (getType (VBool b)) = Ok text /\
               json_parse text = Some (JBool b).
Proof.
  destruct (arg_renders mem (VBool b) junk I I) as (text & j & H1 & H2 & H3).
  exists text. split; [exact H1|]. cbn in H2. subst. now apply json_parse_val.
Qed.

Lemma ptr_arg mem a junk : (a < 2 ^ 64)%N ->
  exists text s, arg_to_string mem (asArgument (VPtr a) junk) (getType (VPtr a)) = Ok text /\
               json_parse text = Some (JStr s) /\
               ((a = 0%N /\ s = $"0") \/ (a <> 0%N /\ exists h, s = $"0x" ++ h /\ value_of 16 h = Some a)).
Proof.
  intros H. destruct (arg_renders mem (VPtr a) junk H I) as (text & j & H1 & H2 & H3).
  destruct H2 as (s & -> & Hs). exists text, s. split; [exact H1|].
  split; [now apply json_parse_val|].
  destruct (N.eq_dec a 0) as [->|Ha]; [left|right; split; [exact Ha|]].
  - split; [reflexivity|]. cbn in H1. injection H1 as <-. apply json_parse_val in H3.
    vm_compute in H3. injection H3 as <-. reflexivity.
  - destruct Hs as [[? _]|Hs]; [easy|exact Hs].
Qed.

(** Two values of one argument type with the same rendering are equal. *)
Lemma int_arg_inj mem z1 z2 j1 j2 : (- 2 ^ 63 <= z1 < 2 ^ 63)%Z -> (- 2 ^ 63 <= z2 < 2 ^ 63)%Z ->
  arg_to_string mem (asArgument (VInt z1) j1) is_int = arg_to_string mem (asArgument (VInt z2) j2) is_int ->
  z1 = z2.
Proof.
  intros H1 H2 E. destruct (int_arg mem z1 j1 H1) as (t1 & E1 & V1 & _).
  destruct (int_arg mem z2 j2 H2) as (t2 & E2 & V2 & _). cbn [getType] in *. congruence.
Qed.

Lemma str_arg_denotes mem a s junk : (a < 2 ^ 64)%N -> mem a = Some s ->
  exists text, arg_to_string mem (asArgument (VStr a) junk) (getType (VStr a)) = Ok text /\
    (json_parse text = Some (JStr (c_str s)) <-> all_plain (c_str s)).
Proof.
  intros H Hs. cbn [getType asArgument arg_to_string]. rewrite N.mod_small by exact H.
  rewrite Hs. eexists. split; [reflexivity|]. apply quoted_denotes.
Qed.

Lemma istr_arg_denotes mem z junk : length z = 8 ->
  exists text, arg_to_string mem (asArgument (VIstr z) junk) (getType (VIstr z)) = Ok text /\
    (json_parse text = Some (JStr (c_str z)) <-> all_plain (c_str z)).
Proof.
  intros H. cbn [getType asArgument arg_to_string].
  rewrite word_bytes_bytes_word by exact H. rewrite izs_string_spec by exact H.
  eexists. split; [reflexivity|]. apply quoted_denotes.
Qed.

Lemma double_arg mem w junk : (w < 2 ^ 64)%N ->
  exists text, arg_to_string mem (asArgument (VDouble w) junk) (getType (VDouble w)) = Ok text /\
    (double_value w = None -> json_parse text = None) /\
    (forall q, double_value w = Some q ->
       exists m, json_parse text = Some (JNum m (-6)) /\ nearest_millionth m q).
Proof.
  intros H. cbn [getType asArgument arg_to_string]. rewrite N.mod_small by exact H.
  eexists. split; [reflexivity|]. split.
  - intros E. destruct (json_parse (double_to_string w)) eqn:Ej; [|reflexivity].
    exfalso. apply (double_json_iff w H); eauto.
  - intros q E. destruct (double_to_string_finite w q H E) as (m & Hm & Hv).
    exists m. split; [now apply json_parse_val|exact Hm].
Qed.

Lemma typeToJSON_total e :
  (tp_type (ev_tpi e) = ev_invalid /\ typeToJSON e = Throw InvalidArgument) \/
  (exists ph extra, typeToJSON e = Ok (ph, extra) /\ phase (tp_type (ev_tpi e)) = Some ph).
Proof.
  unfold typeToJSON. destruct (tp_type (ev_tpi e)); (now left) || (right; eexists; eexists; split; reflexivity).
Qed.

Lemma typeToJSON_inj e1 e2 r : typeToJSON e1 = Ok r -> typeToJSON e2 = Ok r ->
  tp_type (ev_tpi e1) = tp_type (ev_tpi e2).
Proof.
  unfold typeToJSON.
  destruct (tp_type (ev_tpi e1)), (tp_type (ev_tpi e2)); intros H1 H2; try reflexivity;
    try discriminate; rewrite <- H2 in H1; try discriminate.
Qed.

Lemma typeToString_inj t1 t2 s : typeToString t1 = Ok s -> typeToString t2 = Ok s -> t1 = t2.
Proof.
  destruct t1, t2; intros H1 H2; try reflexivity; try discriminate; rewrite <- H2 in H1; discriminate.
Qed.

(** The exported object determines type, name, category, time, thread. *)
Lemma event_denotes_inj mem pid pid' tid tid' cat cat' name name' t t' ns ns' v0 v0' v1 v1' w w'
    time time' dur dur' j :
  event_denotes mem pid tid cat name t ns v0 v1 w time dur j ->
  event_denotes mem pid' tid' cat' name' t' ns' v0' v1' w' time' dur' j ->
  pid = pid' /\ tid = tid' /\ c_str cat = c_str cat' /\ c_str name = c_str name' /\ t = t' /\
  time = time' /\ (t = Complete -> dur = dur').
Proof.
  intros (ph & ex & args & H1 & H2 & _ & ->) (ph' & ex' & args' & H1' & H2' & _ & E).
  injection E as E1 E2 E3 E4.
  assert (L : length ex = length ex').
  { apply (f_equal (@length _)) in E4. rewrite !app_length in E4. cbn in E4. lia. }
  assert (E5 : ex = ex' /\ [($"ts", JNum time (-3)); ($"pid", JNum pid 0); ($"tid", JNum (Z.of_N tid) 0);
                  ($"args", JObj args)] = [($"ts", JNum time' (-3)); ($"pid", JNum pid' 0); ($"tid", JNum (Z.of_N tid') 0);
                  ($"args", JObj args')]).
  { clear - E4 L. revert ex' L E4. induction ex as [|x ex IH]; intros [|x' ex'] L E4; try discriminate.
    - now split.
    - cbn in E4. injection E4 as -> E4. injection L as L. destruct (IH ex' L E4) as [-> ->]. now split. }
  destruct E5 as [-> E5]. injection E5 as E6 E7 E8 E9. subst.
  assert (Ht : t = t').
  { destruct t, t'; cbn in H1, H1'; try congruence; cbn in H2, H2'; subst; try discriminate. }
  subst t'. repeat split; auto; try lia.
  intros ->. cbn in H2, H2'. subst. injection H2' as ->. reflexivity.
Qed.

Lemma micros_exact z : (0 <= z < 2 ^ 63)%Z -> json_parse (micros (wrap64 z)) = Some (JNum z (-3)).
Proof.
  intros H. rewrite micros_json, to_s64_wrap64 by lia.
  destruct (Z.leb_spec 0 z); [reflexivity|lia].
Qed.

Lemma event_json_faithful mem pid tid t v0 v1 j0 j1 time dur :
  tp_type t <> ev_invalid ->
  name_ok (tp_name t) -> name_ok (tp_category t) ->
  tp_arg_types t = (getType v0, getType v1) ->
  (forall n v, In (n, v) (carried (tp_arg_names t) v0 v1) ->
     name_ok n /\ cval_ok v /\ renderable mem v) ->
  (0 <= time < 2 ^ 63)%Z -> (0 <= dur < 2 ^ 63)%Z ->
  exists text j,
    event_to_json mem pid tid
      (make_complete t time dur (asArgument v0 j0, asArgument v1 j1)) = Ok text /\
    json_parse text = Some j /\
    event_denotes mem pid tid (tp_category t) (tp_name t) (tp_type t) (tp_arg_names t) v0 v1
      (asArgument v0 j0) time dur j.
Proof.
  intros H1 H2 H3 H4 H5 Ht Hd.
  destruct (event_renders mem pid tid t v0 v1 j0 j1 (wrap64 time) (wrap64 dur)) as (r & j & E & Hv & Hden);
    try assumption; rewrite ?to_s64_wrap64 by lia; try lia.
  rewrite !to_s64_wrap64 in Hden by lia.
  exists (chr 123 :: r), j. split; [exact E|]. split; [now apply json_parse_val|exact Hden].
Qed.
