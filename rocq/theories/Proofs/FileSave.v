(** Saving to a file that may fail. *)
From Verif Require Import Base Spec.Text Spec.History Spec.Json Spec.Numeral Spec.EventValue Spec.Document Spec.FileSave
  Model.StringUtils Model.Event Model.Queue Model.Buffer Model.Export Model.FileSave
  Proofs.Strings Proofs.Numerals Proofs.Buffer Proofs.JsonText Proofs.Event Proofs.Export.

Section Save.
  Variable mem : memory.
  Variable pid : Z.
  Variable v : view.
  Variable names : list (N * bytes).
  Notation ctx := {| cx_buffer := Some v; cx_names := names |}.
  Notation good := (good mem pid v).
  Notation remaining := (remaining mem pid v).

  Lemma save_loop_spec d : forall fuel k x taken, good x -> length (remaining x) + block <= fuel * block ->
    (save_loop mem pid fuel d k ctx x taken = (Returns, taken ++ remaining x) /\ takes_all block (fun j => d_takes d (k + j)) (remaining x)) \/
    (exists j m, first_short block (fun j => d_takes d (k + j)) (remaining x) j m /\
      save_loop mem pid fuel d k ctx x taken = (ThrowsShort m, taken ++ firstn (block * j + m) (remaining x))).
  Proof.
    assert (1 < block) as B2 by (unfold block; lia).
    induction fuel as [|f IH]; intros k x taken G Hf; [lia|]. cbn [save_loop].
    destruct (read_spec mem pid v names x block G) as (x1 & E1 & G1 & R1). rewrite E1.
    destruct (firstn block (remaining x)) as [|c l] eqn:EF.
    - left. destruct (remaining x) as [|c m] eqn:ER; [|discriminate]. rewrite app_nil_r. split; auto. intros j Hj. cbn in Hj. lia.
    - rewrite <- EF. set (got := firstn block (remaining x)) in *.
      assert (L1 : 1 <= length (remaining x)) by (destruct (remaining x); [discriminate|cbn; lia]).
      assert (Lg : length got = Nat.min block (length (remaining x))) by apply firstn_length.
      assert (ER : remaining x = got ++ remaining x1) by (rewrite R1; symmetry; apply firstn_skipn).
      assert (L2 : length (remaining x1) = length (remaining x) - block) by (rewrite R1; apply skipn_length).
      destruct (Nat.eqb_spec (Nat.min (d_takes d k) (length got)) (length got)) as [Et|Et].
      + destruct (IH (S k) x1 (taken ++ got)) as [[E T]|(j & m & F & E)]; auto.
        * rewrite L2. destruct f as [|f]; [lia|]. cbn [Nat.mul] in *. lia.
        * left. rewrite E, ER, app_assoc. split; auto. rewrite <- ER. intros j Hj. destruct j as [|j].
          -- rewrite Nat.add_0_r, Nat.mul_0_r, Nat.sub_0_r. lia.
          -- specialize (T j). cbn beta in T. replace (S k + j) with (k + S j) in T by lia. rewrite L2 in T.
             replace (length (remaining x) - block - block * j) with (length (remaining x) - block * S j) in T by lia. apply T. lia.
        * right. exists (S j), m. destruct F as (F1 & F2 & F3 & F4). rewrite L2 in F1, F3. split.
          -- split; [lia|]. split; [rewrite F2; f_equal; lia|]. split; [lia|]. intros i Hi. destruct i as [|i].
             ++ rewrite Nat.add_0_r. lia.
             ++ replace (k + S i) with (S k + i) by lia. apply F4. lia.
          -- rewrite E. f_equal. rewrite <- app_assoc. f_equal. rewrite ER. 
             assert (Lb : length got = block) by lia.
             rewrite firstn_app, Lb. rewrite (firstn_all2 got) by lia. f_equal. f_equal. lia.
      + right. exists 0, (Nat.min (d_takes d k) (length got)).
        assert (Nat.min (d_takes d k) (length got) = d_takes d k) as Em by lia. split.
        * unfold first_short. rewrite Nat.mul_0_r, Nat.add_0_r, Nat.sub_0_r. repeat split; [lia|lia|lia|easy].
        * f_equal. f_equal. rewrite Nat.mul_0_r. cbn [Nat.add]. subst got. rewrite firstn_firstn. f_equal. lia.
  Qed.
End Save.
