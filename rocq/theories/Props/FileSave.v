(** C84: saving to a file that fails. *)
From Verif Require Import Base Spec.Text Spec.History Spec.Json Spec.Numeral Spec.EventValue Spec.Document Spec.FileSave
  Model.StringUtils Model.Event Model.Queue Model.Buffer Model.Export Model.FileSave
  Proofs.Strings Proofs.Numerals Proofs.Buffer Proofs.JsonText Proofs.Event Proofs.Export Proofs.FileSave Props.Buffer Props.Export.

(** If the file cannot be opened, nothing is written and the buffer stays in the
    log. *)
Theorem C84_not_opened : forall mem pid fuel d c, d_opens d = false ->
  let s := save mem pid fuel d c in
  sv_end s = Throws SystemError /\ sv_file s = None /\ sv_closes s = 0 /\ sv_log s = cx_buffer c.
Proof. intros mem pid fuel d c H. unfold save. rewrite H. cbn. auto. Qed.
Print Assumptions C84_not_opened.

(** If it can, it is closed exactly once, the buffer is gone from the log, and
    the file is a beginning of the document. The callback returns exactly if
    every fwrite took all it was given; otherwise it throws at the first that
    did not, telling how much that one took. *)
Theorem C84_opened : forall mem pid v names text d fuel, document mem pid v names text -> d_opens d = true ->
  length text + file_block <= fuel * file_block ->
  let s := save mem pid fuel d (holding v names) in
  sv_closes s = 1 /\ sv_log s = None /\ (exists f, sv_file s = Some f /\ begins f text) /\ begins (sv_taken s) text /\
  (sv_end s = Returns <-> takes_all file_block (d_takes d) text) /\
  (sv_end s = Returns -> sv_taken s = text /\ (length text <= d_keeps d -> sv_file s = Some text)) /\
  (sv_end s <> Returns -> exists k m, first_short file_block (d_takes d) text k m /\ sv_end s = ThrowsShort m /\ sv_taken s = firstn (file_block * k + m) text).
Proof.
  intros mem pid v names text d fuel HD Ho Hf s. change file_block with block in *. destruct (new_spec mem pid v names text HD) as (x & E & G & R & L).
  assert (B : forall n (l : bytes), begins (firstn n l) l) by (intros n l; exists (skipn n l); symmetry; apply firstn_skipn).
  assert (Bt : forall a b : bytes, begins a b -> forall n, begins (firstn n a) b).
  { intros a b (z & ->) n. exists (skipn n a ++ z). now rewrite app_assoc, firstn_skipn. }
  subst s. unfold save, holding. rewrite Ho, E.
  destruct (save_loop_spec mem pid v names d fuel 0 x []) as [[Es T]|(k & m & F & Es)]; auto; [rewrite R; exact Hf| |]; rewrite Es, R in *; cbn [app sv_end sv_file sv_taken sv_closes sv_log].
  - assert (begins text text) by (exists []; now rewrite app_nil_r).
    split; auto. split; auto. split; [eexists; split; eauto|]. split; auto. split; [split; auto; intros _; exact T|].
    split; [intros _; split; auto; intros Hk; now rewrite firstn_all2|]. now intros X.
  - split; auto. split; auto. split; [eexists; split; eauto|]. split; auto. split.
    + split; [discriminate|]. intros T. exfalso. destruct F as (F1 & F2 & F3 & _). specialize (T k F1). cbn [Nat.add] in F2. lia.
    + split; [discriminate|]. intros _. exists k, m. split; [exact F|auto].
Qed.
Print Assumptions C84_opened.

(** A normal return does not mean that the file is complete: the result of
    fclose is not looked at. *)
Theorem C84_returned_incomplete_refuted : exists mem pid v names text d fuel,
  document mem pid v names text /\ d_opens d = true /\
  let s := save mem pid fuel d (holding v names) in
  sv_end s = Returns /\ sv_file s = Some [] /\ sv_log s = None /\ text <> [].
Proof.
  exists no_mem, 5%Z, empty, long_name, long_text, {| d_opens := true; d_takes := fun _ => 4096; d_keeps := 0 |}, 3.
  split; [exact long_document|]. split; auto. intros s.
  destruct (C84_opened no_mem 5 empty long_name long_text {| d_opens := true; d_takes := fun _ => 4096; d_keeps := 0 |} 3 long_document eq_refl) as (_ & Lg & _ & _ & Re & _).
  { rewrite long_length. unfold file_block. lia. }
  split; [apply Re; intros k _; cbn [d_takes]; unfold file_block; lia|]. split; [|split; [exact Lg|]].
  - subst s. unfold save. cbn [d_opens d_keeps]. destruct (match export_new _ with Ok _ => _ | Throw _ => _ | UB => _ end). reflexivity.
  - intros X. pose proof long_length as Ll. rewrite X in Ll. discriminate Ll.
Qed.
Print Assumptions C84_returned_incomplete_refuted.

(** The second fwrite, of one byte, takes nothing. *)
Example C84_case :
  let d := {| d_opens := true; d_takes := fun k => if Nat.eqb k 0 then 5000%nat else 0; d_keeps := 4096 |} in
  let s := save no_mem 5 3 d (holding empty long_name) in
  document no_mem 5 empty long_name long_text /\ length long_text = 4097 /\
  sv_end s = ThrowsShort 0 /\ option_map (@length _) (sv_file s) = Some 4096 /\ sv_closes s = 1.
Proof.
  cbv zeta. split; [exact long_document|]. split; [exact long_length|]. vm_compute. auto.
Qed.
