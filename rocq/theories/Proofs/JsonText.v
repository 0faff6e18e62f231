(** Composition lemmas for the JSON reader of Spec/Json.v: how a text built
    from pieces is read. *)
From Verif Require Import Base Model.StringUtils Spec.Json Spec.Text Proofs.Strings Spec.Numeral Proofs.Numerals.

(** The characters that may follow a value. *)
Definition delim (rest : bytes) : Prop :=
  match rest with [] => True | c :: _ => In (code c) [44; 93; 125; 32; 10]%N end.

(** [s] is read as [v], whatever delimiter follows. *)
Definition val_at (v : json) (s : bytes) : Prop :=
  forall f rest, delim rest -> 2 * length s <= f -> 0 < f ->
                 read_value f (s ++ rest) = Some (v, rest).

Definition members_at (l : list (bytes * json)) (s : bytes) : Prop :=
  forall f rest, 2 * length s <= f -> 0 < f ->
                 read_members f (s ++ chr 125 :: rest) = Some (l, rest).

Definition elems_at (l : list json) (s : bytes) : Prop :=
  forall f rest, 2 * length s < f -> 0 < length s ->
                 read_elems f (s ++ chr 93 :: rest) = Some (l, rest).

(** [s] is a string literal denoting [k]. *)
Definition str_at (k s : bytes) : Prop :=
  exists body, s = chr 34 :: body /\ forall rest, read_str true (body ++ rest) = Some (k, rest).


Definition plainb (c : ascii) : bool :=
  (negb (code c =? 34) && negb (code c =? 92) && (32 <=? code c))%N.

Lemma plainb_spec c : plainb c = true <-> plain c.
Proof. unfold plainb, plain. lia. Qed.


Lemma all_plain_b s : forallb plainb s = true <-> all_plain s.
Proof.
  rewrite forallb_forall. unfold all_plain. split; intros H c Hc.
  - now apply plainb_spec, H.
  - now apply plainb_spec, H.
Qed.

Lemma read_str_plain s rest : all_plain s ->
  read_str true (s ++ chr 34 :: rest) = Some (s, rest).
Proof.
  induction s as [|c s IH]; intros H; [reflexivity|].
  destruct (H c (or_introl eq_refl)) as (H1 & H2 & H3).
  cbn [app read_str].
  destruct (N.eqb_spec (code c) 34); [lia|].
  destruct (N.eqb_spec (code c) 92); [lia|].
  destruct (N.ltb_spec (code c) 32); [lia|].
  cbn [andb]. rewrite IH; [reflexivity|].
  intros d Hd. apply H. now right.
Qed.

Lemma str_at_quoted s : all_plain s -> str_at s (chr 34 :: s ++ [chr 34]).
Proof.
  intros H. exists (s ++ [chr 34]). split; [reflexivity|].
  intros rest. rewrite <- app_assoc. now apply read_str_plain.
Qed.

Lemma str_at_to_json s : (forall c, In c s -> ~ raw_control c) -> str_at s (to_json s).
Proof.
  intros H. exists (escape_json s ++ [chr 34]). split; [reflexivity|].
  intros rest. rewrite <- app_assoc. cbn [app].
  rewrite read_str_escape_json_strict.
  apply existsb_raw in H. now rewrite H.
Qed.

Lemma str_at_length k s : str_at k s -> 2 <= length s.
Proof.
  intros (body & -> & H). destruct body as [|c r]; [|cbn; lia].
  specialize (H []). discriminate.
Qed.

Lemma val_at_str k s : str_at k s -> val_at (JStr k) s.
Proof.
  intros (body & -> & H) f rest _ _ Hf. destruct f as [|f]; [lia|].
  cbn [app]. rewrite read_value_str, H. reflexivity.
Qed.

Lemma read_value_ws f c s : is_ws c = true -> read_value f (c :: s) = read_value f s.
Proof.
  intros H. destruct f as [|f]; [reflexivity|].
  cbn [read_value]. replace (skip_ws (c :: s)) with (skip_ws s); [reflexivity|].
  cbn [skip_ws]. now rewrite H.
Qed.

Lemma val_at_ws v c s : is_ws c = true -> val_at v s -> val_at v (c :: s).
Proof.
  intros H Hv f rest Hd Hf H0. cbn [app]. rewrite read_value_ws by assumption.
  apply Hv; auto. cbn [length] in Hf. lia.
Qed.

Lemma delim_num_end rest : delim rest -> num_end rest.
Proof.
  destruct rest as [|c r]; [easy|]. cbn. unfold digit_val. intros H.
  destruct H as [H|[H|[H|[H|[H|[]]]]]]; rewrite <- H; split;
    try reflexivity; intros [?|[?|[?|[]]]]; discriminate.
Qed.

(** A text read as a number by [read_num], starting with a digit or minus. *)
Lemma read_value_num f s c r :
  s = c :: r -> (code c = 45 \/ (48 <= code c /\ code c <= 57))%N ->
  read_value (S f) s = read_num s.
Proof.
  intros -> Hc.
  assert (Hw : is_ws c = false).
  { unfold is_ws. destruct Hc as [Hc|Hc]; rewrite ?Hc; [reflexivity|]. lia. }
  assert (Hskip : skip_ws (c :: r) = c :: r) by (cbn [skip_ws]; now rewrite Hw).
  cbn [read_value]. rewrite Hskip.
  destruct (N.eqb_spec (code c) 123); [lia|].
  destruct (N.eqb_spec (code c) 91); [lia|].
  destruct (N.eqb_spec (code c) 34); [lia|].
  assert (Ht : forall p q, code p <> code c -> strip (p :: q) (c :: r) = None).
  { intros p q Hp. cbn [strip]. destruct (Ascii.eqb_spec p c); [now subst|reflexivity]. }
  change $"true" with ("t" :: $"rue")%char.
  change $"false" with ("f" :: $"alse")%char.
  change $"null" with ("n" :: $"ull")%char.
  rewrite !Ht; [reflexivity|..].
  all: match goal with |- code ?x <> _ => let n := eval vm_compute in (code x) in
         change (code x) with n end; lia.
Qed.

Definition num_start (s : bytes) : Prop :=
  match s with c :: _ => (code c = 45 \/ (48 <= code c /\ code c <= 57))%N | [] => False end.

Lemma val_at_num v s : num_start s ->
  (forall rest, num_end rest -> read_num (s ++ rest) = Some (v, rest)) -> val_at v s.
Proof.
  intros Hs H f rest Hd _ Hf. destruct f as [|f]; [lia|].
  destruct s as [|c r]; [easy|]. cbn [app].
  rewrite (read_value_num f _ c (r ++ rest)) by easy.
  apply (H rest). now apply delim_num_end.
Qed.

Lemma num_start_dec n t : num_start (dec n ++ t).
Proof.
  destruct (dec n) as [|c r] eqn:E; [now elim (dec_ne n)|].
  cbn. right. apply digit10_code, (dec_digits n). rewrite E. now left.
Qed.

Lemma val_at_dec n : val_at (JNum (Z.of_N n) 0) (dec n).
Proof.
  apply val_at_num.
  - rewrite <- (app_nil_r (dec n)). apply num_start_dec.
  - intros rest H. now apply read_num_dec.
Qed.

Lemma val_at_decZ z : val_at (JNum z 0) (decZ z).
Proof.
  apply val_at_num.
  - unfold decZ. destruct (z <? 0)%Z; [now left|].
    rewrite <- (app_nil_r (dec _)). apply num_start_dec.
  - intros rest H. now apply read_num_decZ.
Qed.

Lemma val_at_frac i f w : 0 < w -> (f < 10 ^ N.of_nat w)%N ->
  val_at (JNum (Z.of_N (i * 10 ^ N.of_nat w + f)) (- Z.of_nat w))
         (dec i ++ chr 46 :: pad0 w (dec f)).
Proof.
  intros Hw Hf. apply val_at_num; [apply num_start_dec|].
  intros rest H. rewrite <- app_assoc. cbn [app]. now apply read_num_frac.
Qed.

Lemma read_num_neg_frac i f w rest : 0 < w -> (f < 10 ^ N.of_nat w)%N -> num_end rest ->
  read_num (chr 45 :: dec i ++ chr 46 :: pad0 w (dec f) ++ rest)
  = Some (JNum (- Z.of_N (i * 10 ^ N.of_nat w + f)) (- Z.of_nat w), rest).
Proof.
  intros Hw Hf Hr. pose proof (read_num_frac i f w rest Hw Hf Hr) as H.
  unfold read_num in *.
  change (starts_with 45 (chr 45 :: dec i ++ chr 46 :: pad0 w (dec f) ++ rest)) with true.
  cbn [tl].
  rewrite dec_start in H.
  set (t := dec i ++ chr 46 :: pad0 w (dec f) ++ rest) in *. clearbody t.
  destruct (read_digits 0 0 t) as [[m len] r].
  destruct (Nat.eqb len 0); [discriminate|].
  destruct (starts_with 48 t && negb (Nat.eqb len 1)); [discriminate|].
  destruct (read_frac m r) as [[[m' f'] r1]|]; [|discriminate].
  destruct (read_exp r1) as [[e r2]|]; [|discriminate].
  injection H as H1 H2 H3. now rewrite H1, H2, H3.
Qed.

Lemma val_at_neg_frac i f w : 0 < w -> (f < 10 ^ N.of_nat w)%N ->
  val_at (JNum (- Z.of_N (i * 10 ^ N.of_nat w + f)) (- Z.of_nat w))
         (chr 45 :: dec i ++ chr 46 :: pad0 w (dec f)).
Proof.
  intros Hw Hf. apply val_at_num; [now left|].
  intros rest H. cbn [app]. rewrite <- app_assoc. cbn [app]. now apply read_num_neg_frac.
Qed.

Lemma val_at_true : val_at (JBool true) $"true".
Proof. intros f rest _ _ Hf. destruct f; [lia|]. reflexivity. Qed.

Lemma val_at_false : val_at (JBool false) $"false".
Proof. intros f rest _ _ Hf. destruct f; [lia|]. reflexivity. Qed.

(** ** Objects *)

(** One member: a key literal and a value text. *)
Definition member (k v : bytes) : bytes := k ++ chr 58 :: v.

Lemma delim_comma rest : delim (chr 44 :: rest).
Proof. now left. Qed.
Lemma delim_brace rest : delim (chr 125 :: rest).
Proof. now right; right; left. Qed.
Lemma delim_bracket rest : delim (chr 93 :: rest).
Proof. now right; left. Qed.

Lemma members_one k ks v s : str_at k ks -> val_at v s -> members_at [(k, v)] (member ks s).
Proof.
  intros (body & -> & Hk) Hv f rest Hl Hf. destruct f as [|f]; [lia|].
  unfold member in *. cbn [app length] in *. rewrite app_length in Hl. cbn [length] in Hl.
  cbn [read_members].
  change (skip_ws (chr 34 :: ?x)) with (chr 34 :: x).
  change (code (chr 34) =? 34)%N with true. cbv iota.
  rewrite <- app_assoc, Hk. cbn [app].
  change (skip_ws (chr 58 :: ?x)) with (chr 58 :: x).
  change (code (chr 58) =? 58)%N with true. cbv iota.
  rewrite (Hv f (chr 125 :: rest)); [|apply delim_brace|lia|lia].
  reflexivity.
Qed.

Lemma members_cons k ks v s l t :
  str_at k ks -> val_at v s -> members_at l t ->
  members_at ((k, v) :: l) (member ks s ++ chr 44 :: t).
Proof.
  intros (body & -> & Hk) Hv Hm f rest Hl Hf. destruct f as [|f]; [lia|].
  unfold member in *. cbn [app length] in *. repeat (rewrite ?app_length in Hl; cbn [length] in Hl).
  cbn [read_members].
  change (skip_ws (chr 34 :: ?x)) with (chr 34 :: x).
  change (code (chr 34) =? 34)%N with true. cbv iota.
  rewrite <- !app_assoc, Hk. cbn [app].
  change (skip_ws (chr 58 :: ?x)) with (chr 58 :: x).
  change (code (chr 58) =? 58)%N with true. cbv iota.
  repeat (rewrite <- app_assoc; cbn [app]).
  rewrite (Hv f (chr 44 :: t ++ chr 125 :: rest)); [|apply delim_comma|lia|lia].
  change (skip_ws (chr 44 :: ?x)) with (chr 44 :: x).
  change (code (chr 44) =? 44)%N with true. cbv iota.
  rewrite (Hm f rest); [reflexivity|lia|lia].
Qed.

(** A list of key/value texts read as a list of key/values. *)
Definition pair_at (kv : bytes * json) (t : bytes * bytes) : Prop :=
  str_at (fst kv) (fst t) /\ val_at (snd kv) (snd t).

Lemma members_glue l ts : Forall2 pair_at l ts -> l <> [] ->
  members_at l (glue (chr 44) (map (fun t => member (fst t) (snd t)) ts)).
Proof.
  induction 1 as [|[k v] [ks s] l ts [H1 H2] H IH]; intros Hne; [easy|].
  destruct H as [|kv t l ts Ht H].
  - now apply members_one.
  - change (map ?f (?a :: ?b :: ?r)) with (f a :: map f (b :: r)).
    rewrite glue_cons by discriminate. apply members_cons; auto. now apply IH.
Qed.

Lemma str_at_no_ws k s : str_at k s -> exists r, s = chr 34 :: r.
Proof. intros (b & -> & _). now exists b. Qed.

Lemma val_at_obj l s : members_at l s -> (exists r, s = chr 34 :: r) ->
  val_at (JObj l) (chr 123 :: s ++ [chr 125]).
Proof.
  intros Hm (r & Hr) f rest Hd Hl Hf. destruct f as [|f]; [lia|].
  cbn [app length] in *. rewrite app_length in Hl. cbn [length] in Hl.
  rewrite <- app_assoc. cbn [app].
  cbn [read_value].
  change (skip_ws (chr 123 :: ?x)) with (chr 123 :: x).
  change (code (chr 123) =? 123)%N with true. cbv iota.
  assert (E : skip_ws (s ++ chr 125 :: rest) = chr 34 :: r ++ chr 125 :: rest)
    by (rewrite Hr; reflexivity).
  rewrite E. change (code (chr 34) =? 125)%N with false. cbv iota.
  rewrite (Hm f rest) by lia. reflexivity.
Qed.

Lemma val_at_obj_nil : val_at (JObj []) [chr 123; chr 125].
Proof. intros f rest _ _ Hf. destruct f; [lia|]. reflexivity. Qed.

Lemma val_at_obj_glue l ts : Forall2 pair_at l ts ->
  val_at (JObj l) (chr 123 :: glue (chr 44) (map (fun t => member (fst t) (snd t)) ts) ++ [chr 125]).
Proof.
  intros H. destruct l as [|kv l].
  - inversion H. apply val_at_obj_nil.
  - apply val_at_obj; [apply members_glue; auto; discriminate|].
    inversion H as [|x [ks s] xs ys [H1 _] H3]; subst.
    cbn [fst] in H1. destruct (str_at_no_ws _ _ H1) as (r & ->). cbn [map].
    destruct (map _ ys) as [|m ms]; unfold member; cbn [fst snd glue app]; eauto.
Qed.

(** ** Arrays *)

Lemma elems_one v s : val_at v s -> elems_at [v] s.
Proof.
  intros Hv f rest Hl Hf. destruct f as [|f]; [lia|]. cbn [read_elems].
  rewrite (Hv f (chr 93 :: rest)); [reflexivity|apply delim_bracket|lia|lia].
Qed.

Lemma elems_cons v s l t : val_at v s -> elems_at l t -> 0 < length s -> 0 < length t ->
  elems_at (v :: l) (s ++ chr 44 :: t).
Proof.
  intros Hv Ht Hs0 Ht0 f rest Hl _. destruct f as [|f]; [lia|].
  rewrite app_length in Hl. cbn [length] in Hl.
  rewrite <- app_assoc. cbn [app read_elems].
  rewrite (Hv f); [|apply delim_comma|lia|lia].
  change (skip_ws (chr 44 :: ?x)) with (chr 44 :: x).
  change (code (chr 44) =? 44)%N with true. cbv iota.
  rewrite (Ht f rest); [reflexivity|lia|lia].
Qed.

Lemma val_at_ne v s : val_at v s -> 0 < length s.
Proof.
  intros H. destruct s; [|cbn; lia].
  assert (read_value 1 ([] ++ []) = Some (v, [])) by (apply H; cbn; auto; lia).
  discriminate.
Qed.

Lemma elems_glue_pos l ts : Forall2 val_at l ts -> l <> [] -> 0 < length (glue (chr 44) ts).
Proof.
  intros H Hne. destruct H as [|v s l ts Hv H]; [easy|].
  apply val_at_ne in Hv. destruct ts; cbn [glue]; rewrite ?app_length; lia.
Qed.

Lemma elems_glue l ts : Forall2 val_at l ts -> l <> [] -> elems_at l (glue (chr 44) ts).
Proof.
  induction 1 as [|v s l ts Hv H IH]; intros Hne; [easy|].
  destruct H as [|v2 s2 l ts H2 H].
  - now apply elems_one.
  - rewrite glue_cons by discriminate.
    apply elems_cons; auto.
    + now apply IH.
    + now apply val_at_ne with v.
    + apply (elems_glue_pos (v2 :: l)); [now constructor|easy].
Qed.

(** An object value's text starts with an opening brace. *)
Lemma val_at_arr l ts : Forall2 val_at l ts ->
  (forall t, In t ts -> exists r, t = chr 123 :: r) ->
  val_at (JArr l) (chr 91 :: glue (chr 44) ts ++ [chr 93]).
Proof.
  intros H Hb f rest Hd Hl Hf. destruct f as [|f]; [lia|].
  destruct H as [|v s l ts Hv H].
  { reflexivity. }
  set (g := glue (chr 44) (s :: ts)) in *.
  assert (Hg : exists r, g = chr 123 :: r).
  { destruct (Hb s (or_introl eq_refl)) as (r & ->). subst g.
    destruct ts; cbn [glue app]; eauto. }
  assert (He : elems_at (v :: l) g).
  { apply elems_glue; [now constructor|easy]. }
  cbn [length] in Hl. rewrite app_length in Hl. cbn [length] in Hl.
  cbn [app]. rewrite <- app_assoc. cbn [app read_value].
  change (skip_ws (chr 91 :: ?x)) with (chr 91 :: x).
  change (code (chr 91) =? 123)%N with false.
  change (code (chr 91) =? 91)%N with true. cbv iota.
  destruct Hg as (r & Hr).
  assert (E : skip_ws (g ++ chr 93 :: rest) = chr 123 :: r ++ chr 93 :: rest)
    by (rewrite Hr; reflexivity).
  rewrite E. change (code (chr 123) =? 93)%N with false. cbv iota.
  rewrite (He f rest); [reflexivity|lia|rewrite Hr; cbn; lia].
Qed.

(** A complete text. *)
Lemma json_parse_val v s : val_at v s -> json_parse s = Some v.
Proof.
  intros H. unfold json_parse. specialize (H (2 * length s + 2) [] I).
  rewrite app_nil_r in H. rewrite H by lia. reflexivity.
Qed.

Lemma json_parse_val_nl v s : val_at v s -> json_parse (s ++ [chr 10]) = Some v.
Proof.
  intros H. unfold json_parse. rewrite H; [reflexivity| |rewrite app_length; lia|lia].
  cbn. tauto.
Qed.

(** ** Which quoted texts denote themselves *)

Lemma read_str_length t : forall x r, read_str true t = Some (x, r) ->
  length x + length r + 1 <= length t /\
  (length t = length x + length r + 1 -> t = x ++ chr 34 :: r /\ all_plain x).
Proof.
  remember (length t) as n. revert t Heqn.
  induction n as [n IH] using (well_founded_induction lt_wf).
  intros t -> x r H. destruct t as [|c t]; [discriminate|].
  cbn [read_str] in H.
  destruct (N.eqb_spec (code c) 34) as [Hc|Hc].
  { injection H as <- <-. cbn. split; [lia|]. intros _. split.
    - cbn. f_equal. unfold code in Hc. rewrite <- (ascii_N_embedding c), Hc. reflexivity.
    - intros ? []. }
  destruct (N.eqb_spec (code c) 92) as [Hb|Hb].
  { destruct t as [|u t1]; [discriminate|].
    destruct (N.eqb_spec (code u) 117) as [Hu|Hu].
    - destruct t1 as [|a [|b [|e [|d t2]]]]; try discriminate.
      destruct (hex4 a b e d) as [m|]; [|discriminate].
      destruct (read_str true t2) as [[y s]|] eqn:E; [|discriminate].
      injection H as <- <-.
      assert (length t2 < length (c :: u :: a :: b :: e :: d :: t2)) by (cbn; lia).
      destruct (IH _ H t2 eq_refl y s E) as [H1 _].
      assert (length (utf8 m) <= 3).
      { unfold utf8. destruct (_ <? _)%N; [cbn; lia|]. destruct (_ <? _)%N; cbn; lia. }
      rewrite app_length. cbn [length]. split; lia.
    - destruct (unescape u); [|discriminate].
      destruct (read_str true t1) as [[y s]|] eqn:E; [|discriminate].
      injection H as <- <-.
      assert (length t1 < length (c :: u :: t1)) by (cbn; lia).
      destruct (IH _ H t1 eq_refl y s E) as [H1 _].
      cbn [length]. split; lia. }
  destruct (N.ltb_spec (code c) 32) as [Hs|Hs]; [discriminate|]. cbn [andb] in H.
  destruct (read_str true t) as [[y s]|] eqn:E; [|discriminate].
  injection H as <- <-.
  assert (length t < length (c :: t)) by (cbn; lia).
  destruct (IH _ H t eq_refl y s E) as [H1 H2].
  cbn [length]. split; [lia|]. intros Hl.
  destruct H2 as [-> H2]; [lia|]. split; [reflexivity|].
  intros d [<-|Hd]; [|now apply H2]. split; [|split]; auto.
Qed.

Lemma quoted_denotes s :
  json_parse (chr 34 :: s ++ [chr 34]) = Some (JStr s) <-> all_plain s.
Proof.
  split.
  - unfold json_parse.
    replace (2 * length (chr 34 :: s ++ [chr 34]) + 2)
      with (S (2 * length (chr 34 :: s ++ [chr 34]) + 1)) by lia.
    rewrite read_value_str.
    destruct (read_str true (s ++ [chr 34])) as [[x r]|] eqn:E; [|discriminate].
    destruct (is_nil (skip_ws r)); [|discriminate].
    intros H. injection H as ->.
    apply read_str_length in E. rewrite app_length in E. cbn [length] in E.
    destruct E as [E1 E2]. apply E2. destruct r; cbn in *; lia.
  - intros H. now apply json_parse_val, val_at_str, str_at_quoted.
Qed.
