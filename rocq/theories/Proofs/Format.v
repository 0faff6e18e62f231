(** Formatted text. *)
From Verif Require Import Base Spec.Numeral Model.StringUtils Model.Event Model.Export Model.Format Spec.Format Proofs.Numerals Proofs.Event.
Open Scope Z_scope.

(** * Numerals *)

Lemma value_from_bound b : (1 <= b)%N -> forall s a v, value_from b a s = Some v -> (v < (a + 1) * b ^ N.of_nat (length s))%N.
Proof.
  intros Hb. induction s as [|c s IH]; intros a v E; cbn [value_from length] in *.
  - injection E as <-. cbn. lia.
  - destruct (digit_value b c) as [d|] eqn:D; [|discriminate]. apply IH in E.
    assert (d < b)%N.
    { unfold digit_value in D. cbn zeta in D. match type of D with match ?o with _ => _ end = _ => destruct o as [x|]; [|discriminate] end.
      destruct (N.ltb_spec x b); [|discriminate]. injection D as <-. auto. }
    rewrite Nat2N.inj_succ, N.pow_succ_r'. pose proof (N.pow_nonzero b (N.of_nat (length s)) ltac:(lia)). nia.
Qed.

Lemma digits_shortest b n m : (2 <= b)%N -> (b <= 16)%N -> value_of b m = Some n -> (length (digits b n) <= length m)%nat.
Proof.
  intros H1 H2 E. destruct (digits_spec b n H1 H2) as (_ & _ & Up & Lo).
  assert (Hm : (1 <= length m)%nat) by (destruct m; [discriminate|cbn; lia]).
  destruct (N.eq_dec n 0) as [->|N0].
  - assert (length (digits b 0) = 1)%nat; [|lia]. unfold digits. cbn [N.size_nat digits_fuel]. rewrite N.div_0_l by lia. reflexivity.
  - assert (V : value_from b 0 m = Some n) by (unfold value_of in E; now destruct m). apply value_from_bound in V; [|lia]. rewrite N.add_0_l, N.mul_1_l in V.
    specialize (Lo ltac:(lia)). assert (X : (b ^ (N.of_nat (length (digits b n)) - 1) < b ^ N.of_nat (length m))%N) by lia.
    apply N.pow_lt_mono_r_iff in X; lia.
Qed.

Lemma decZ_shortest z m : zvalue_of m = Some z -> (length (decZ z) <= length m)%nat.
Proof.
  intros E. unfold zvalue_of in E. destruct m as [|c r]; [discriminate|]. destruct (Ascii.eqb_spec c "-") as [->|N].
  - destruct (value_of 10 r) as [n|] eqn:V; [|discriminate]. injection E as <-.
    assert (L : (length (dec n) <= length r)%nat) by (apply (digits_shortest 10); auto; lia). unfold decZ. destruct (Z.ltb_spec (- Z.of_N n) 0).
    + replace (Z.to_N (- - Z.of_N n)) with n by lia. cbn [length]. lia.
    + replace (Z.to_N (- Z.of_N n)) with n by lia. cbn [length]. lia.
  - destruct (value_of 10 (c :: r)) as [n|] eqn:V; [|discriminate]. injection E as <-. unfold decZ. destruct (Z.ltb_spec (Z.of_N n) 0); [lia|].
    rewrite N2Z.id. apply (digits_shortest 10); auto; lia.
Qed.

Lemma value_zeros b k s : (1 <= b)%N -> (b <= 16)%N -> s <> [] -> value_of b (repeat (chr 48) k ++ s) = value_of b s.
Proof.
  intros H1 H2 Ne. assert (Z : digit_value b (chr 48) = Some 0%N).
  { change (chr 48) with (digit 0). apply digit_value_digit; lia. }
  induction k as [|k IH]; [reflexivity|]. rewrite <- IH. cbn [repeat app]. unfold value_of at 1. cbn [value_from]. rewrite Z. cbn [N.mul N.add].
  unfold value_of. destruct (repeat (chr 48) k ++ s) eqn:E; auto. apply app_eq_nil in E as [_ ->]. easy.
Qed.

Lemma dec0Z_padded w z : padded true w (fun s => zvalue_of s = Some z) (dec0Z w z).
Proof.
  exists (decZ z). split; [apply decZ_value|]. split; [apply decZ_shortest|]. unfold dec0Z, decZ, pad0. destruct (Z.ltb_spec z 0) as [H|H].
  - split; [cbn [length]; rewrite app_length, repeat_length; lia|].
    cbn [zvalue_of]. change (Ascii.eqb (chr 45) "-") with true. cbn iota. rewrite value_zeros; [|lia|lia|apply dec_ne]. rewrite dec_value. cbn. f_equal. lia.
  - split; [rewrite app_length, repeat_length; lia|]. pose proof (decZ_value z) as V. unfold decZ in V. destruct (Z.ltb_spec z 0); [lia|].
    destruct (w - length (dec (Z.to_N z)))%nat as [|k]; [exact V|]. cbn [repeat app zvalue_of]. change (Ascii.eqb (chr 48) "-") with false. cbn iota.
    change (chr 48 :: repeat (chr 48) k ++ dec (Z.to_N z)) with (repeat (chr 48) (S k) ++ dec (Z.to_N z)).
    rewrite value_zeros; [|lia|lia|apply dec_ne]. rewrite dec_value. cbn. f_equal. lia.
Qed.

Lemma spaces_padded w n (value : bytes -> Prop) : value n -> (forall m, value m -> (length n <= length m)%nat) -> padded false w value (spaces w n).
Proof. intros V S. exists n. split; auto. split; auto. unfold spaces. split; [rewrite app_length, repeat_length; lia|eauto]. Qed.

Lemma put_signed_padded s z : padded (sp_zero s) (sp_width s) (fun x => zvalue_of x = Some z) (put_signed s z).
Proof. unfold put_signed. destruct (sp_zero s); [apply dec0Z_padded|]. apply spaces_padded; [apply decZ_value|apply decZ_shortest]. Qed.

Lemma put_hex_padded s n : padded (sp_zero s) (sp_width s) (fun x => value_of 16 x = Some n) (put_hex s n).
Proof.
  assert (Sh : forall m, value_of 16 m = Some n -> (length (hex n) <= length m)%nat) by (intros m; apply (digits_shortest 16); lia).
  unfold put_hex. destruct (sp_zero s); [|apply spaces_padded; [apply hex_value|exact Sh]].
  exists (hex n). split; [apply hex_value|]. split; [exact Sh|]. unfold pad0. split; [rewrite app_length, repeat_length; lia|].
  rewrite value_zeros; [apply hex_value|lia|lia|]. intros X. pose proof (hex_value n) as V. rewrite X in V. discriminate.
Qed.

(** * Arguments *)

Lemma to_signed_range b n : (1 <= b)%N -> (n < 2 ^ b)%N -> - 2 ^ (Z.of_N b - 1) <= to_signed b n < 2 ^ (Z.of_N b - 1).
Proof.
  intros Hb Hn. unfold to_signed. assert (E : Z.of_N (2 ^ (b - 1)) = 2 ^ (Z.of_N b - 1)) by (rewrite N2Z.inj_pow; f_equal; lia).
  assert (E2 : 2 ^ Z.of_N b = 2 * 2 ^ (Z.of_N b - 1)) by (rewrite <- Z.pow_succ_r by lia; f_equal; lia).
  assert (E3 : Z.of_N (2 ^ b) = 2 ^ Z.of_N b) by now rewrite N2Z.inj_pow.
  destruct (N.ltb_spec n (2 ^ (b - 1))); lia.
Qed.

Lemma to_signed_mod b n : exists k, Z.of_N n = to_signed b n + k * 2 ^ Z.of_N b.
Proof. unfold to_signed. destruct (_ <? _)%N; [exists 0|exists 1]; lia. Qed.

Lemma signed_low bits m v : (1 <= bits)%N -> m = Z.to_N (v mod 2 ^ Z.of_N bits) ->
  - 2 ^ (Z.of_N bits - 1) <= to_signed bits m < 2 ^ (Z.of_N bits - 1) /\ exists k, v = to_signed bits m + k * 2 ^ Z.of_N bits.
Proof.
  intros Hb ->. assert (P : 0 < 2 ^ Z.of_N bits) by (apply Z.pow_pos_nonneg; lia). pose proof (Z.mod_pos_bound v _ P) as B. split.
  - apply to_signed_range; auto. apply N2Z.inj_lt. rewrite Z2N.id, N2Z.inj_pow by lia. exact (proj2 B).
  - destruct (to_signed_mod bits (Z.to_N (v mod 2 ^ Z.of_N bits))) as (k & E). rewrite Z2N.id in E by lia.
    exists (k + v / 2 ^ Z.of_N bits). pose proof (Z.div_mod v (2 ^ Z.of_N bits) ltac:(lia)) as D. set (y := to_signed _ _) in *. clearbody y. set (q := v / _) in *. set (x := v mod _) in *. clearbody q x. rewrite D, E. ring.
Qed.

Lemma as_int_low a z : as_int a = Some z -> low_signed 32 a z.
Proof.
  intros E. destruct a as [v|v|v|v|v|v]; try discriminate; injection E as <-; unfold low_signed; cbn [holds]; (eexists; eexists; split; [reflexivity|split; [lia|]]).
  1-3: exact (signed_low 32 _ v ltac:(lia) eq_refl).
  1-2: apply (signed_low 32 _ (Z.of_N v)); [lia|].
  all: change (2 ^ Z.of_N 32) with (Z.of_N (2 ^ 32)); rewrite <- N2Z.inj_mod, N2Z.id; reflexivity.
Qed.

Definition word_sized (a : carg) : Prop := match a with CULong n | CPtr n => (n < 2 ^ 64)%N | _ => True end.

Lemma as_word_signed a n : word_sized a -> as_word a = Some n -> low_signed 64 a (to_s64 n).
Proof.
  intros W E. destruct a as [v|v|v|v|v|v]; try discriminate; injection E as <-; unfold low_signed; cbn [holds]; (eexists; eexists; split; [reflexivity|split; [lia|]]).
  1-2: exact (signed_low 64 _ v ltac:(lia) eq_refl).
  1-2: apply (signed_low 64 _ (Z.of_N v)); [lia|].
  all: change (2 ^ Z.of_N 64) with (Z.of_N (2 ^ 64)); rewrite <- N2Z.inj_mod, N2Z.id, N.mod_small; auto.
Qed.

Lemma as_word_unsigned a n : word_sized a -> as_word a = Some n -> low_unsigned 64 a n.
Proof.
  intros W E. destruct a as [v|v|v|v|v|v]; try discriminate; injection E as <-; unfold low_unsigned; cbn [holds]; (eexists; eexists; split; [reflexivity|split; [lia|]]).
  1-2: unfold wrap64; pose proof (Z.mod_pos_bound v (2 ^ 64) ltac:(lia)); split; [lia|]; exists (v / 2 ^ 64); rewrite Z2N.id by lia; rewrite (Z.div_mod v (2 ^ 64)) at 1 by lia; ring.
  all: cbn in W; split; [lia|exists 0; lia].
Qed.

Lemma convert_prints s c a t : word_sized a -> convert s c a = Some t -> prints (sp_zero s) (sp_width s) (sp_longs s) c a t.
Proof.
  intros W E. unfold convert in E. destruct (Ascii.eqb_spec c "d") as [->|Nd].
  - left. split; auto. destruct (sp_longs s) as [|[|[|k]]]; try discriminate; (split; [lia|]); cbn [Nat.eqb].
    + destruct (as_int a) as [z|] eqn:A; [|discriminate]. injection E as <-. exists z. split; [now apply as_int_low|apply put_signed_padded].
    + destruct (as_word a) as [n|] eqn:A; [|discriminate]. injection E as <-. exists (to_s64 n). split; [now apply as_word_signed|apply put_signed_padded].
    + destruct (as_word a) as [n|] eqn:A; [|discriminate]. injection E as <-. exists (to_s64 n). split; [now apply as_word_signed|apply put_signed_padded].
  - right. destruct (Ascii.eqb_spec c "x") as [->|Nx].
    + left. split; auto. destruct (sp_longs s) as [|[|[|k]]]; try discriminate; (split; [lia|]);
        (destruct (as_word a) as [n|] eqn:A; [|discriminate]); injection E as <-; exists n; (split; [now apply as_word_unsigned|apply put_hex_padded]).
    + right. destruct (Ascii.eqb_spec c "s") as [->|Ns]; [|discriminate]. split; auto.
      destruct s as [[|] [|w] [|k]]; try discriminate. destruct a; try discriminate. injection E as <-. exists s. split; auto.
      split; [intros I; now apply c_str_nonul in I|]. clear W. induction s as [|x s IH]; [now left|]. cbn [c_str]. destruct (Ascii.eqb_spec x NUL) as [->|N].
      * right. now exists s.
      * destruct IH as [IH|(r & IH)]; [left|right; exists r]; cbn [app]; f_equal; exact IH.
Qed.

(** * Directives *)

(** The characters read so far. *)
Definition read_so_far (s : spec) (p : bytes) : Prop :=
  exists zs width, p = zs ++ width ++ repeat "l"%char (sp_longs s) /\
    (forall x, In x zs -> x = "0"%char) /\ (sp_zero s = true <-> zs <> []) /\
    match width with [] => sp_width s = 0%nat | x :: _ => x <> "0"%char /\ value_of 10 width = Some (N.of_nat (sp_width s)) end.

Lemma digit_of_value c d : digit_of c = Some d -> digit_value 10 c = Some (N.of_nat d) /\ (d <= 9)%nat.
Proof.
  unfold digit_of, digit_value. destruct (Nat.leb_spec 48 (nat_of_ascii c)) as [H1|H1]; cbn [andb]; [|discriminate].
  destruct (Nat.leb_spec (nat_of_ascii c) 57) as [H2|H2]; [|discriminate]. intros E. injection E as <-.
  assert (X : N_of_ascii c = N.of_nat (nat_of_ascii c)) by (unfold nat_of_ascii; now rewrite N2Nat.id). rewrite X.
  destruct (N.leb_spec 48 (N.of_nat (nat_of_ascii c))); [|lia]. destruct (N.leb_spec (N.of_nat (nat_of_ascii c)) 57); [|lia]. cbn [andb].
  destruct (N.ltb_spec (N.of_nat (nat_of_ascii c) - 48) 10); [|lia]. split; [f_equal; lia|lia].
Qed.

Lemma digit_of_zero c : digit_of c = Some 0%nat -> c = "0"%char.
Proof.
  unfold digit_of. destruct (Nat.leb_spec 48 (nat_of_ascii c)) as [H1|H1]; cbn [andb]; [|discriminate]. destruct (Nat.leb _ _) eqn:H2; [|discriminate].
  intros E. injection E as E. apply Nat.leb_le in H2. assert (X : nat_of_ascii c = 48%nat) by lia. rewrite <- (ascii_nat_embedding c), X. reflexivity.
Qed.

Lemma printf_expands fmt : forall st args t, Forall word_sized args -> printf fmt st args = Some t ->
  match st with
  | None => expands fmt args t
  | Some s => forall p, read_so_far s p -> expands ("%"%char :: p ++ fmt) args t
  end.
Proof.
  induction fmt as [|c f IH]; intros st args t W E.
  - destruct st; [discriminate|]. injection E as <-. constructor.
  - destruct st as [s|]; cbn [printf] in E.
    + intros p P. destruct (Ascii.eqb_spec c "l") as [->|Nl].
      { specialize (IH _ _ _ W E (p ++ ["l"%char])). rewrite <- app_assoc in IH. apply IH. destruct P as (zs & wd & -> & P).
        exists zs, wd. split; [|exact P]. cbn [sp_longs]. rewrite <- !app_assoc. do 2 f_equal. clear. generalize (sp_longs s) as n. induction n as [|n IHn]; [reflexivity|]. cbn. now rewrite IHn. }
      destruct (digit_of c) as [d|] eqn:D.
      { destruct (sp_longs s) as [|ls] eqn:L; [|discriminate]. destruct P as (zs & wd & -> & Zs & Zz & Wd). rewrite L in *. cbn [repeat] in *. rewrite app_nil_r.
        destruct (Nat.eqb_spec d 0) as [->|D0]; cbn [andb] in E; [destruct (Nat.eqb_spec (sp_width s) 0) as [W0|W0]|].
        - apply digit_of_zero in D as ->. assert (wd = []) as ->.
          { destruct wd as [|x wd]; auto. destruct Wd as (Wx & Wv). exfalso. rewrite W0 in Wv. unfold value_of in Wv.
            apply Wx. cbn [value_from] in Wv. destruct (digit_value 10 x) as [dx|] eqn:Dx; [|discriminate].
            assert (dx = 0)%N as ->.
            { clear - Wv. assert (X : forall s a v, value_from 10 a s = Some v -> (a <= v)%N).
              { induction s as [|y s IHs]; intros a v E; cbn in E; [injection E as <-; lia|]. destruct (digit_value 10 y); [|discriminate]. apply IHs in E. lia. }
              apply X in Wv. cbn in Wv. lia. }
            unfold digit_value in Dx. destruct (N.leb_spec 48 (N_of_ascii x)) as [A|A]; cbn [andb] in Dx.
            2: { destruct (N.leb_spec 97 (N_of_ascii x)); [lia|]. cbn [andb] in Dx. discriminate. }
            destruct (N.leb_spec (N_of_ascii x) 57).
            + destruct (N.ltb_spec (N_of_ascii x - 48) 10); [|discriminate]. injection Dx as Dx. assert (N_of_ascii x = 48%N) as Y by lia.
              rewrite <- (ascii_N_embedding x), Y. reflexivity.
            + destruct (_ && _)%bool eqn:B; [|discriminate]. destruct (N.ltb_spec (N_of_ascii x - 87) 10); [|discriminate]. injection Dx as Dx. lia. }
          specialize (IH _ _ _ W E (zs ++ ["0"%char])). rewrite <- app_assoc in IH. cbn [app]. rewrite app_nil_r. apply IH.
          exists (zs ++ ["0"%char]), []. cbn [sp_longs sp_zero sp_width repeat app]. rewrite app_nil_r. split; auto. split; [|split; [|reflexivity]].
          + intros x Hx. apply in_app_or in Hx as [Hx|[<-|[]]]; auto.
          + split; auto. intros _ X. now destruct zs.
        - specialize (IH _ _ _ W E (zs ++ wd ++ [c])). replace ((zs ++ wd) ++ c :: f) with ((zs ++ wd ++ [c]) ++ f) by now rewrite <- !app_assoc. apply IH.
          exists zs, (wd ++ [c]). cbn [sp_longs sp_zero sp_width repeat]. rewrite app_nil_r. split; auto. split; auto. split; auto.
          destruct wd as [|x wd]; [congruence|]. cbn [app]. destruct Wd as (Wx & Wv). split; auto. change (x :: wd ++ [c]) with ((x :: wd) ++ [c]).
          unfold value_of in *. cbn [app]. change (x :: wd ++ [c]) with ((x :: wd) ++ [c]). rewrite value_from_app, Wv. cbn [value_from].
          apply digit_of_value in D as (-> & _). f_equal. lia.
        - specialize (IH _ _ _ W E (zs ++ wd ++ [c])). replace ((zs ++ wd) ++ c :: f) with ((zs ++ wd ++ [c]) ++ f) by now rewrite <- !app_assoc. apply IH.
          exists zs, (wd ++ [c]). cbn [sp_longs sp_zero sp_width repeat]. rewrite app_nil_r. split; auto. split; auto. split; auto.
          destruct (digit_of_value _ _ D) as (Dv & Dl).
          destruct wd as [|x wd]; cbn [app].
          + rewrite Wd. split; [intros ->; vm_compute in D; congruence|]. unfold value_of. cbn [value_from]. now rewrite Dv.
          + destruct Wd as (Wx & Wv). split; auto. unfold value_of in *. change (x :: wd ++ [c]) with ((x :: wd) ++ [c]). rewrite value_from_app, Wv. cbn [value_from].
            rewrite Dv. f_equal. lia. }
      destruct args as [|a r]; [discriminate|]. inversion W as [|? ? Wa Wr]; subst. destruct (convert s c a) as [q|] eqn:C; [|discriminate].
      destruct (printf f None r) as [t'|] eqn:F; [|discriminate]. injection E as <-. apply convert_prints in C; auto.
      replace (p ++ c :: f) with ((p ++ [c]) ++ f) by now rewrite <- app_assoc. eapply ex_directive; [|exact C|apply (IH None); auto].
      destruct P as (zs & wd & -> & P). exists zs, wd. split; auto. now rewrite <- !app_assoc.
    + destruct (Ascii.eqb_spec c "%") as [->|N].
      * apply (IH (Some spec0) _ _ W E []). exists [], []. cbn. split; auto. split; [easy|]. split; [split; congruence|reflexivity].
      * destruct (printf f None args) as [t'|] eqn:F; [|discriminate]. injection E as <-. constructor; auto. now apply (IH None).
Qed.

(** * format_string *)

Lemma c_str_nul s r : c_str (s ++ NUL :: r) = c_str s.
Proof. induction s as [|c s IH]; [reflexivity|]. cbn [app c_str]. now rewrite IH. Qed.

Lemma format_cases t1 t2 :
  let n1 := Z.of_nat (length t1) in
  let n2 := Z.of_nat (length t2) in
  format_string t1 t2 =
    if n1 =? INT_MAX then Undefined
    else if INT_MAX <? n1 then (if n2 =? 0 then Undefined else Failed)
    else if n2 <=? n1 then Text (c_str t2)
    else if n2 =? n1 + 1 then Text (c_str (firstn (length t1) t2))
    else Failed.
Proof.
  cbn zeta. unfold format_string, vsnprintf. destruct (Z.ltb_spec INT_MAX (Z.of_nat (length t1))) as [H1|H1]; cbn [fst].
  - destruct (Z.eqb_spec (Z.of_nat (length t1)) INT_MAX); [lia|]. change (-1 =? INT_MAX) with false. cbn [Z.add Z.ltb Z.compare Z.opp Z.pos_sub].
    change (-1 + 1 <? 0) with false. cbn iota. change (-1 + 1) with 0. change (Z.to_nat 0) with O. cbn [repeat].
    destruct (Z.ltb_spec INT_MAX (Z.of_nat (length t2))) as [H2|H2].
    + change (-1 <? 0) with true. cbn [orb]. destruct (Z.eqb_spec (Z.of_nat (length t2)) 0); [unfold INT_MAX in *; lia|reflexivity].
    + destruct (Z.ltb_spec (Z.of_nat (length t2)) 0); [lia|]. cbn [orb]. destruct (Z.ltb_spec 0 (Z.of_nat (length t2))); destruct (Z.eqb_spec (Z.of_nat (length t2)) 0); try lia; reflexivity.
  - destruct (Z.eqb_spec (Z.of_nat (length t1)) INT_MAX) as [E|E]; [reflexivity|].
    destruct (Z.ltb_spec (Z.of_nat (length t1) + 1) 0); [lia|]. destruct (Z.eqb_spec (Z.of_nat (length t1) + 1) 0); [lia|].
    assert (Nl : Z.to_nat (Z.of_nat (length t1) + 1) = S (length t1)) by lia. rewrite Nl. replace (S (length t1) - 1)%nat with (length t1) by lia.
    destruct (Z.ltb_spec INT_MAX (Z.of_nat (length t2))) as [H2|H2].
    + change (-1 <? 0) with true. cbn [orb]. destruct (Z.leb_spec (Z.of_nat (length t2)) (Z.of_nat (length t1))); [lia|].
      destruct (Z.eqb_spec (Z.of_nat (length t2)) (Z.of_nat (length t1) + 1)); [lia|reflexivity].
    + destruct (Z.ltb_spec (Z.of_nat (length t2)) 0); [lia|]. cbn [orb].
      destruct (Z.leb_spec (Z.of_nat (length t2)) (Z.of_nat (length t1))) as [L|L].
      * destruct (Z.ltb_spec (Z.of_nat (length t1) + 1) (Z.of_nat (length t2))); [lia|]. cbn [repeat]. rewrite firstn_all2 by lia. f_equal. rewrite <- app_assoc. apply c_str_nul.
      * destruct (Z.eqb_spec (Z.of_nat (length t2)) (Z.of_nat (length t1) + 1)) as [E'|E'].
        -- destruct (Z.ltb_spec (Z.of_nat (length t1) + 1) (Z.of_nat (length t2))); [lia|]. cbn [repeat]. f_equal. rewrite <- app_assoc. apply c_str_nul.
        -- destruct (Z.ltb_spec (Z.of_nat (length t1) + 1) (Z.of_nat (length t2))); [reflexivity|lia].
Qed.

Lemma in_bounds t1 t2 : (written t1 t2 <= room t1)%nat.
Proof.
  unfold written, room. set (z := fst (vsnprintf 0 t1) + 1). assert (P : 0 <= z).
  { unfold z, vsnprintf. destruct (INT_MAX <? _); cbn [fst]; lia. }
  clearbody z. unfold vsnprintf. destruct (INT_MAX <? _); cbn [snd length]; [lia|]. destruct (Z.eqb_spec z 0) as [->|]; cbn [length]; [lia|].
  rewrite app_length, firstn_length. cbn [length]. lia.
Qed.

(** * Texts without a NUL *)

Definition nonul (s : bytes) : Prop := forall c, In c s -> c <> NUL.

Lemma nonul_app s t : nonul s -> nonul t -> nonul (s ++ t).
Proof. intros A B c I. apply in_app_iff in I as [I|I]; auto. Qed.

Lemma nonul_cons c t : c <> NUL -> nonul t -> nonul (c :: t).
Proof. intros A B x [<-|I]; auto. Qed.

Lemma nonul_nil : nonul [].
Proof. intros x []. Qed.

Lemma nonul_c s : nonul s -> c_str s = s.
Proof. intros H. apply c_str_id. intros I. exact (H _ I eq_refl). Qed.

Lemma nonul_c_str s : nonul (c_str s).
Proof. intros c. apply c_str_nonul. Qed.

Lemma digit_nonul d : (d < 16)%N -> digit d <> NUL.
Proof. revert d. apply (digit_cases (fun d => digit d <> NUL)); discriminate. Qed.

Lemma nonul_dec n : nonul (dec n).
Proof. intros c I. apply dec_digits in I as (x & L & ->). apply digit_nonul. lia. Qed.

Lemma nonul_hex n : nonul (hex n).
Proof. intros c I. apply hex_digits in I as (x & L & ->). apply digit_nonul. lia. Qed.

Lemma nonul_decZ z : nonul (decZ z).
Proof. unfold decZ. destruct (z <? 0); [apply nonul_cons; [discriminate|]|]; apply nonul_dec. Qed.

Lemma nonul_pad0 w s : nonul s -> nonul (pad0 w s).
Proof. intros H. apply nonul_app; auto. intros c I. apply repeat_spec in I as ->. discriminate. Qed.

Lemma nonul_quoted s : nonul s -> nonul (quoted s).
Proof. intros H. apply nonul_cons; [discriminate|]. apply nonul_app; auto. apply nonul_cons; [discriminate|apply nonul_nil]. Qed.

Lemma nonul_double w : nonul (double_to_string w).
Proof.
  unfold double_to_string. cbn zeta. set (sg := if N.testbit w 63 then _ else _). assert (S : nonul sg).
  { unfold sg. destruct (N.testbit w 63); intros c I; [destruct I as [<-|[]]; discriminate|destruct I]. }
  clearbody sg. destruct (_ =? 2047)%N.
  - apply nonul_app; auto. destruct (_ =? 0)%N; intros c I; repeat (destruct I as [<-|I]; [discriminate|]); destruct I.
  - apply nonul_app; auto. apply nonul_app; [apply nonul_dec|]. apply nonul_cons; [discriminate|]. apply nonul_pad0, nonul_dec.
Qed.

Lemma pointer_nonul w : nonul (pointer_to_string w).
Proof.
  unfold pointer_to_string. destruct (w =? 0)%N; [intros c [<-|[]]; discriminate|]. repeat (apply nonul_cons; [discriminate|]). apply nonul_hex.
Qed.

Lemma arg_nonul mem w t a : arg_to_string mem w t = Ok a -> nonul a.
Proof.
  pose proof (izs_string_spec _ (word_bytes_length 8 w)) as Hz. destruct t; cbn [arg_to_string]; intros E; rewrite ?Hz in E; try discriminate E; clear Hz; try (revert E; generalize (word_bytes 8 w); intros z E);
    try (destruct (mem w); [|discriminate]); injection E as <-;
    first [apply nonul_decZ | apply nonul_dec | apply nonul_double | apply nonul_quoted, pointer_nonul | apply nonul_quoted, nonul_c_str | idtac].
  all: try (destruct (_ =? 0)%N); intros c I; repeat (destruct I as [<-|I]; [discriminate|]); try now destruct I.
Qed.

Lemma type_nonul t a : typeToString t = Ok a -> nonul a.
Proof. destruct t; intros E; try discriminate; injection E as <-; intros c I; repeat (destruct I as [<-|I]; [discriminate|]); destruct I. Qed.

(** * The calls *)

Lemma int_id z : - 2 ^ 31 <= z < 2 ^ 31 -> to_signed 32 (Z.to_N (z mod 2 ^ 32)) = z.
Proof.
  intros H. destruct (signed_low 32 _ z ltac:(lia) eq_refl) as (R & k & E). change (Z.of_N 32) with 32 in *. set (y := to_signed _ _) in *. clearbody y.
  change (2 ^ (32 - 1)) with (2 ^ 31) in R. nia.
Qed.

Lemma word_id z : - 2 ^ 63 <= z < 2 ^ 63 -> to_s64 (wrap64 z) = z.
Proof.
  intros H. destruct (signed_low 64 _ z ltac:(lia) eq_refl) as (R & k & E). change (Z.of_N 64) with 64 in *. unfold to_s64, wrap64. set (y := to_signed _ _) in *. clearbody y.
  change (2 ^ (64 - 1)) with (2 ^ 63) in R. nia.
Qed.

Lemma s64_range n : (n < 2 ^ 64)%N -> - 2 ^ 63 <= to_s64 n < 2 ^ 63.
Proof. intros H. apply (to_signed_range 64 n); auto. lia. Qed.

Lemma spaces0 s : spaces 0 s = s.
Proof. reflexivity. Qed.

Local Opaque put_signed put_hex decZ dec0Z to_signed to_s64 wrap64 c_str hex.

Lemma put_plain l z : put_signed {| sp_zero := false; sp_width := 0; sp_longs := l |} z = decZ z.
Proof. reflexivity. Qed.

Lemma put_zeros w l z : put_signed {| sp_zero := true; sp_width := w; sp_longs := l |} z = dec0Z w z.
Proof. reflexivity. Qed.

Lemma put_hex_plain l n : put_hex {| sp_zero := false; sp_width := 0; sp_longs := l |} n = hex n.
Proof. reflexivity. Qed.

Lemma micro_range z : - 2 ^ 63 <= z < 2 ^ 63 -> - 2 ^ 63 <= Z.quot z 1000 < 2 ^ 63 /\ - 2 ^ 63 <= Z.rem z 1000 < 2 ^ 63.
Proof.
  change (2 ^ 63) with 9223372036854775808. intros H. pose proof (Z.quot_rem' z 1000) as E. destruct (Z.le_gt_cases 0 z) as [Z0|Z0].
  - pose proof (Z.rem_bound_pos z 1000 Z0 eq_refl) as B. revert E B. generalize (Z.quot z 1000) (Z.rem z 1000). lia.
  - pose proof (Z.rem_bound_pos_neg z 1000 eq_refl ltac:(lia)) as B. revert E B. generalize (Z.quot z 1000) (Z.rem z 1000). lia.
Qed.

Lemma ts_text ns : (ns < 2 ^ 64)%N -> printf ts_fmt None (micros_args ns) = Some ($",""ts"":" ++ micros ns).
Proof.
  intros H. pose proof (s64_range _ H) as R.
  transitivity (Some ($",""ts"":" ++ put_signed {| sp_zero := false; sp_width := 0; sp_longs := 2 |} (to_s64 (wrap64 (Z.quot (to_s64 ns) 1000)))
                        ++ chr 46 :: put_signed {| sp_zero := true; sp_width := 3; sp_longs := 2 |} (to_s64 (wrap64 (Z.rem (to_s64 ns) 1000))) ++ [])); [reflexivity|].
  rewrite put_plain, put_zeros, !word_id, app_nil_r by now apply micro_range. reflexivity.
Qed.

Lemma dur_text ns : (ns < 2 ^ 64)%N -> printf dur_fmt None (micros_args ns) = Some ($",""dur"":" ++ micros ns).
Proof.
  intros H. pose proof (s64_range _ H) as R.
  transitivity (Some ($",""dur"":" ++ put_signed {| sp_zero := false; sp_width := 0; sp_longs := 2 |} (to_s64 (wrap64 (Z.quot (to_s64 ns) 1000)))
                        ++ chr 46 :: put_signed {| sp_zero := true; sp_width := 3; sp_longs := 2 |} (to_s64 (wrap64 (Z.rem (to_s64 ns) 1000))) ++ [])); [reflexivity|].
  rewrite put_plain, put_zeros, !word_id, app_nil_r by now apply micro_range. reflexivity.
Qed.

Lemma id_text w : printf id_fmt None [CPtr w] = Some ($",""id"": ""0x" ++ hex w ++ [chr 34]).
Proof. transitivity (Some ($",""id"": ""0x" ++ put_hex {| sp_zero := false; sp_width := 0; sp_longs := 1 |} w ++ [chr 34])); [reflexivity|]. now rewrite put_hex_plain. Qed.

Lemma thread_text pid a : - 2 ^ 31 <= pid < 2 ^ 31 ->
  printf thread_fmt None (thread_args pid a) = Some (threadAssociationToString pid a).
Proof.
  intros H. transitivity (Some ($"{""name"":""thread_name"",""ph"":""M"",""pid"":" ++ put_signed spec0 (to_signed 32 (Z.to_N (pid mod 2 ^ 32))) ++ $",""tid"":"
    ++ put_signed spec0 (to_signed 32 (fst a mod 2 ^ 32)) ++ $",""args"":{""name"":""" ++ c_str (snd a) ++ $"""}}")); [reflexivity|].
  unfold spec0. rewrite !put_plain, int_id by auto. reflexivity.
Qed.

Lemma quot_const z k b : 0 < k -> - b * k < z < b * k -> - b < Z.quot z k < b /\ (Z.abs (z - Z.quot z k * k) < k).
Proof.
  intros K H. pose proof (Z.quot_rem z k ltac:(lia)) as E. replace (z - Z.quot z k * k) with (Z.rem z k) by lia.
  pose proof (Z.rem_bound_abs z k ltac:(lia)) as B. rewrite (Z.abs_eq k) in B by lia. split; [|exact B].
  destruct (Z.le_gt_cases 0 z) as [P|P].
  - pose proof (Z.rem_bound_pos z k P K) as R. clear B. revert E R. generalize (Z.quot z k) (Z.rem z k). intros q r E R.
    assert (0 < b) by nia. assert (-1 < q) by (apply (Zmult_lt_reg_r _ _ k K); lia). assert (q < b) by (apply (Zmult_lt_reg_r _ _ k K); lia). lia.
  - pose proof (Z.rem_bound_pos_neg z k K ltac:(lia)) as R. clear B. revert E R. generalize (Z.quot z k) (Z.rem z k). intros q r E R.
    assert (0 < b) by nia. assert (q < 1) by (apply (Zmult_lt_reg_r _ _ k K); lia). assert (- b < q) by (apply (Zmult_lt_reg_r _ _ k K); lia). lia.
Qed.

Lemma split_ranges time d h m s ns : (time < 2 ^ 64)%N -> split_time time = (d, h, m, s, ns) ->
  - 2 ^ 31 <= d < 2 ^ 31 /\ - 2 ^ 63 <= h < 2 ^ 63 /\ - 2 ^ 63 <= m < 2 ^ 63 /\ - 2 ^ 63 <= s < 2 ^ 63 /\ - 2 ^ 63 <= ns < 2 ^ 63.
Proof.
  intros H E. pose proof (s64_range _ H) as R. unfold split_time in E. cbn zeta in E. injection E as Ed Eh Em Es En.
  change (2 ^ 63) with 9223372036854775808 in *. change (2 ^ 31) with 2147483648. set (t := to_s64 time) in *. clearbody t.
  destruct (quot_const t 86400000000000 2147483648) as [A1 B1]; [lia|lia|]. rewrite Ed in *. set (t1 := t - d * 86400000000000) in *.
  destruct (quot_const t1 3600000000000 2147483648) as [A2 B2]; [lia|lia|]. rewrite Eh in *. set (t2 := t1 - h * 3600000000000) in *.
  destruct (quot_const t2 60000000000 2147483648) as [A3 B3]; [lia|lia|]. rewrite Em in *. set (t3 := t2 - m * 60000000000) in *.
  destruct (quot_const t3 1000000000 2147483648) as [A4 B4]; [lia|lia|]. rewrite Es in *. lia.
Qed.

Lemma event_text mem e : (ev_time e < 2 ^ 64)%N ->
  match event_args mem e with
  | Ok args => exists t, printf event_fmt None args = Some t /\ event_to_string mem e = Ok t /\ ~ In NUL t
  | Throw x => event_to_string mem e = Throw x
  | UB => event_to_string mem e = UB
  end.
Proof.
  intros H. unfold event_args, event_to_string. destruct (split_time (ev_time e)) as [[[[d h] m] s] ns] eqn:E.
  destruct (split_ranges _ _ _ _ _ _ H E) as (R1 & R2 & R3 & R4 & R5).
  destruct (typeToString (tp_type (ev_tpi e))) as [ty| |] eqn:T; cbn [bind]; auto.
  destruct (arg_to_string mem (fst (ev_args e)) _) as [a1| |] eqn:A1; cbn [bind]; auto.
  destruct (arg_to_string mem (snd (ev_args e)) _) as [a2| |] eqn:A2; cbn [bind]; auto.
  apply type_nonul in T. apply arg_nonul in A1. apply arg_nonul in A2. eexists. split; [|split; [reflexivity|]].
  - transitivity (Some ($"TraceEvent<" ++ put_signed spec0 (to_signed 32 (Z.to_N (d mod 2 ^ 32))) ++ $"d "
      ++ put_signed {| sp_zero := true; sp_width := 2; sp_longs := 1 |} (to_s64 (wrap64 h)) ++ $":"
      ++ put_signed {| sp_zero := true; sp_width := 2; sp_longs := 1 |} (to_s64 (wrap64 m)) ++ $":"
      ++ put_signed {| sp_zero := true; sp_width := 2; sp_longs := 2 |} (to_s64 (wrap64 s)) ++ $"."
      ++ put_signed {| sp_zero := true; sp_width := 9; sp_longs := 2 |} (to_s64 (wrap64 ns)) ++ $", " ++ c_str (tp_category (ev_tpi e))
      ++ $", " ++ c_str (tp_name (ev_tpi e)) ++ $", type=" ++ c_str ty
      ++ $", arg1=" ++ c_str a1 ++ $", arg2=" ++ c_str a2 ++ $">")); [reflexivity|].
    unfold spec0. rewrite put_plain, !put_zeros, int_id, !word_id, (nonul_c ty), (nonul_c a1), (nonul_c a2) by assumption. reflexivity.
  - match goal with |- ~ In NUL ?x => enough (K : nonul x) by (intros J; exact (K _ J eq_refl)) end.
    Local Transparent dec0Z.
    assert (Z : forall w z, nonul (dec0Z w z)).
    { intros w z. unfold dec0Z. destruct (z <? 0); [apply nonul_cons; [discriminate|]|]; apply nonul_pad0, nonul_dec. }
    assert (L : forall x, Forall (fun c => c <> NUL) x -> nonul x) by (intros x F; rewrite Forall_forall in F; exact F).
    repeat first [apply nonul_app | apply nonul_c_str | apply nonul_decZ | apply Z | assumption | apply L; repeat constructor; discriminate].
Qed.
