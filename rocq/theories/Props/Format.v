(** C98: formatted text. *)
From Verif Require Import Base Spec.Numeral Model.StringUtils Model.Event Model.Export Model.Format Spec.Format Proofs.Event Proofs.Format.
Open Scope Z_scope.

Definition long (t : bytes) : Z := Z.of_nat (length t).

(** Pointers and sizes fit in 64 bits. *)
Definition passable (a : carg) : Prop := forall n, a = CULong n \/ a = CPtr n -> Z.of_N n < 2 ^ 64.

(** C98: a text that is returned is the format with every directive replaced by
    its argument, up to the first NUL if the format itself has one. *)
Theorem C98_text : forall fmt args s, Forall passable args -> format fmt args = Text s ->
  exists t, expands fmt args t /\ long t < 2 ^ 31 - 1 /\ ((t = s /\ ~ In NUL s) \/ exists r, t = s ++ NUL :: r /\ ~ In NUL s).
Proof.
  intros fmt args s W E. unfold format in E. destruct (printf fmt None args) as [t|] eqn:P; [|discriminate]. exists t.
  assert (W' : Forall word_sized args).
  { revert W. apply Forall_impl. intros a H. destruct a as [v|v|v|v|v|v]; cbn [word_sized]; auto; [specialize (H v (or_introl eq_refl))|specialize (H v (or_intror eq_refl))]; lia. }
  split; [exact (printf_expands fmt None args t W' P)|]. rewrite format_cases in E. cbn zeta in E. unfold long.
  destruct (Z.eqb_spec (Z.of_nat (length t)) INT_MAX); [discriminate|].
  destruct (Z.ltb_spec INT_MAX (Z.of_nat (length t))); [destruct (_ =? 0); discriminate|]. split; [unfold INT_MAX in *; lia|].
  rewrite Z.leb_refl in E. injection E as <-. clear. assert (N : ~ In NUL (c_str t)) by (intros I; exact (c_str_nonul _ _ I eq_refl)).
  destruct (in_dec ascii_dec NUL t) as [I|I]; [right|left; split; [now rewrite c_str_id|exact N]].
  clear N. induction t as [|c t IH]; [destruct I|]. cbn [c_str]. destruct (Ascii.eqb_spec c NUL) as [->|Hc]; [exists t; split; [reflexivity|intros []]|].
  destruct I as [->|I]; [now elim Hc|]. destruct (IH I) as (r & E & N). exists r. cbn [app]. rewrite <- E. split; [reflexivity|]. intros [->|J]; [now elim Hc|auto].
Qed.
Print Assumptions C98_text.

(** C98: it is returned whenever the text is shorter than 2^31 - 1, an exception
    is thrown if it is longer. *)
Theorem C98_total : forall t, ~ In NUL t ->
  (long t < 2 ^ 31 - 1 -> format_string t t = Text t) /\ (2 ^ 31 - 1 < long t -> format_string t t = Failed).
Proof.
  intros t N. unfold long. rewrite format_cases. cbn zeta. unfold INT_MAX. rewrite Z.leb_refl, c_str_id by exact N.
  destruct (Z.eqb_spec (Z.of_nat (length t)) (2 ^ 31 - 1)); [split; lia|].
  destruct (Z.ltb_spec (2 ^ 31 - 1) (Z.of_nat (length t))); (split; [|]); try lia; auto.
  intros _. destruct (Z.eqb_spec (Z.of_nat (length t)) 0); [lia|reflexivity].
Qed.
Print Assumptions C98_total.

(** Refuted: "the function returns or throws for every text". For one of exactly
    2^31 - 1 bytes the length is incremented past the largest int. *)
Theorem C98_longest_refuted : exists t, ~ In NUL t /\ format_string t t = Undefined.
Proof.
  exists (repeat "x"%char (Z.to_nat (2 ^ 31 - 1))). split.
  - intros I. apply repeat_spec in I. discriminate.
  - rewrite format_cases. cbn zeta. rewrite repeat_length, Z2Nat.id by lia. reflexivity.
Qed.
Print Assumptions C98_longest_refuted.

(** C98: the buffer is never overrun, whatever the strings have become when they
    are read again. *)
Theorem C98_in_bounds : forall t1 t2, (written t1 t2 <= room t1)%nat.
Proof. exact in_bounds. Qed.
Print Assumptions C98_in_bounds.

(** C98: if the strings change between the two passes, the second text is
    returned if it is not longer than the first, and an exception is thrown if
    it is longer by two or more. *)
Theorem C98_changed : forall t1 t2, long t1 < 2 ^ 31 - 1 -> ~ In NUL t2 ->
  (long t2 <= long t1 -> format_string t1 t2 = Text t2) /\
  (long t2 = long t1 + 1 -> exists c, t2 = removelast t2 ++ [c] /\ format_string t1 t2 = Text (removelast t2)) /\
  (long t1 + 1 < long t2 -> format_string t1 t2 = Failed).
Proof.
  unfold long. intros t1 t2 H N. rewrite format_cases. cbn zeta. unfold INT_MAX.
  destruct (Z.eqb_spec (Z.of_nat (length t1)) (2 ^ 31 - 1)); [lia|]. destruct (Z.ltb_spec (2 ^ 31 - 1) (Z.of_nat (length t1))); [lia|].
  destruct (Z.leb_spec (Z.of_nat (length t2)) (Z.of_nat (length t1))); [rewrite c_str_id by auto; split; [auto|split; lia]|].
  split; [lia|]. destruct (Z.eqb_spec (Z.of_nat (length t2)) (Z.of_nat (length t1) + 1)) as [E|E]; split; try lia; auto.
  intros _. destruct t2 as [|x y] using rev_ind; [cbn [length] in E; lia|]. clear IHy. rewrite app_length in E. cbn [length] in E. exists x.
  rewrite removelast_last. split; [reflexivity|]. replace (length t1) with (length y) by lia. rewrite firstn_app, Nat.sub_diag, firstn_all. cbn [firstn]. rewrite app_nil_r, c_str_id; [reflexivity|].
  intros I. apply N, in_or_app. now left.
Qed.
Print Assumptions C98_changed.

(** Refuted: "a text that is returned is the whole text of one of the passes".
    One that grew by a single character is cut off without an exception. *)
Theorem C98_cut_refuted : exists t1 t2 s, format_string t1 t2 = Text s /\ s <> t1 /\ s <> t2 /\ ~ In NUL (t1 ++ t2).
Proof. exists $"x", $"yz", $"y". split; [reflexivity|]. split; [discriminate|]. split; [discriminate|]. intros I. repeat (destruct I as [I|I]; [discriminate I|]). destruct I. Qed.
Print Assumptions C98_cut_refuted.

(** C98: the directives of the library's own calls fit their arguments, and the
    texts are those of the rendering functions. *)
Theorem C98_event : forall mem e, (ev_time e < 2 ^ 64)%N ->
  match event_args mem e with
  | Ok args => exists t, event_to_string mem e = Ok t /\ (long t < 2 ^ 31 - 1 -> format event_fmt args = Text t)
  | Throw x => event_to_string mem e = Throw x
  | UB => event_to_string mem e = UB
  end.
Proof.
  intros mem e H. pose proof (event_text mem e H) as T. destruct (event_args mem e) as [args|x|]; auto. destruct T as (t & P & E & N).
  exists t. split; [exact E|]. intros L. unfold format. rewrite P. now apply (C98_total t N).
Qed.
Print Assumptions C98_event.

Theorem C98_times : forall ns, (ns < 2 ^ 64)%N ->
  printf ts_fmt None (micros_args ns) = Some ($",""ts"":" ++ micros ns) /\
  printf dur_fmt None (micros_args ns) = Some ($",""dur"":" ++ micros ns).
Proof. intros ns H. split; [now apply ts_text|now apply dur_text]. Qed.
Print Assumptions C98_times.

Theorem C98_id : forall w, printf id_fmt None [CPtr w] = Some ($",""id"": ""0x" ++ hex w ++ [chr 34]).
Proof. exact id_text. Qed.
Print Assumptions C98_id.

(** The thread id is a 64-bit number printed as an int. *)
Theorem C98_thread : forall pid a, - 2 ^ 31 <= pid < 2 ^ 31 ->
  printf thread_fmt None (thread_args pid a) = Some (threadAssociationToString pid a).
Proof. exact thread_text. Qed.
Print Assumptions C98_thread.

(** A padded negative number, a string cut at its NUL, a hexadecimal word. *)
Example C98_case :
  let fmt := $"%05d|%4ld|%s|0x%lx." in
  let args := [CInt (-42); CLong 7; CStr ($"ab" ++ NUL :: $"cd"); CPtr 255%N] in
  Forall passable args /\ format fmt args = Text $"-0042|   7|ab|0xff." /\
  format $"%d" [CULong (2 ^ 32 + 5)%N] = Text $"5" /\ format $"%ld" [CInt 1] = Undefined /\
  format_string $"abc" $"abcd" = Text $"abc" /\ format_string $"abc" $"abcde" = Failed /\
  format_string $"abc" $"xy" = Text $"xy".
Proof.
  cbn zeta. split; [|repeat split; vm_compute; reflexivity].
  repeat constructor; intros n [E|E]; try discriminate E. injection E as <-. reflexivity.
Qed.
