(** JSONExport::read hands out one fixed document piece by piece. *)
From Verif Require Import Base Spec.Text Spec.History Spec.Document Model.StringUtils Model.Event Model.Queue Model.Buffer
  Model.Export Proofs.Queue Proofs.Buffer Spec.Json Spec.EventValue Proofs.JsonText Proofs.Strings Proofs.Event.

Section Export.
  Variable mem : memory.
  Variable pid : Z.
  Variable v : view.
  Variable names : list (N * bytes).
  Let ctx := {| cx_buffer := Some v; cx_names := names |}.

  (** The text of an event that renders. *)
  Definition txt (p : event * N) : bytes :=
    match event_to_json mem pid (snd p) (fst p) with Ok t => t | _ => [] end.
  Definition renders (p : event * N) : Prop := event_to_json mem pid (snd p) (fst p) = Ok (txt p).
  Definition ntxt := threadAssociationToString pid.

  Definition commas (l : list bytes) : bytes := flat_map (fun t => chr 44 :: t) l.
  Definition foot : bytes := $"]}".
  Definition head : bytes := $"{""traceEvents"":[".

  Lemma glue_commas x l : glue (chr 44) (x :: l) = x ++ commas l.
  Proof.
    revert x. induction l as [|y l IH]; intros x; cbn [glue commas flat_map].
    - now rewrite app_nil_r.
    - f_equal. cbn [app]. f_equal. exact (IH y).
  Qed.

  Definition records (x : exporter) : list bytes := map ntxt (x_tit x) ++ map txt (rest_at v (x_it x)).

  (** What is still to be read. *)
  Definition remaining (x : exporter) : bytes :=
    x_cache x ++
    match x_state x with
    | opening => head ++ glue (chr 44) (records x) ++ foot
    | first_event | first_thread => glue (chr 44) (records x) ++ foot
    | other_events | other_threads => commas (records x) ++ foot
    | footer => foot
    | dead => []
    end.

  Record xwf (x : exporter) : Prop := {
    xw_it : it_ok v (x_it x);
    xw_set : it_settled v (x_it x);
    xw_ren : Forall renders (rest_at v (x_it x));
    xw_st : match x_state x with
            | opening => x_cache x = []
            | first_thread | other_threads => x_tit x <> []
            | first_event | other_events => x_tit x = [] /\ rest_at v (x_it x) <> []
            | footer => x_tit x = [] /\ rest_at v (x_it x) = []
            | dead => length (x_cache x) <= 2
            end;
  }.

  Definition steps_left (x : exporter) : nat :=
    match x_state x with
    | opening => 2 + length (x_tit x) + length (rest_at v (x_it x))
    | dead => 0
    | _ => 1 + length (x_tit x) + length (rest_at v (x_it x))
    end.

  Lemma rest_nil_end i : it_ok v i -> it_settled v i -> rest_at v i = [] <-> it_parent i = v_count v.
  Proof.
    intros (He & Hok) Hs. unfold rest_at.
    destruct (N.ltb_spec (it_parent i) (v_count v)) as [L|L].
    - split; [|lia]. intros E. exfalso. destruct Hs as [Hs|Hs]; [lia|].
      apply app_eq_nil in E. destruct E as [E _].
      apply (f_equal (@length _)) in E. rewrite skipn_length, tagged_length in E. cbn in E. lia.
    - split; [|reflexivity]. intros _. destruct Hok as [K|K]; [exact K|lia].
  Qed.

  Lemma at_end_spec i : it_ok v i -> it_settled v i ->
    at_end v i = Ok (is_nil (rest_at v i)).
  Proof.
    intros Hok Hs. unfold at_end, it_finish, iter_new, seek. cbn [it_parent it_end].
    rewrite N.eqb_refl. cbn [of_opt bind]. f_equal.
    pose proof (rest_nil_end i Hok Hs) as R. destruct Hok as (He & Hok).
    unfold iter_eqb. cbn [it_parent it_child fst snd]. rewrite He.
    destruct (N.eqb_spec (it_parent i) (v_count v)) as [E|E]; cbn [andb].
    - rewrite (proj2 R E). reflexivity.
    - destruct (rest_at v i) as [|p l]; [|reflexivity]. exfalso. apply E, R. reflexivity.
  Qed.

  (** The next event. *)
  Lemma next_spec i : it_ok v i -> it_settled v i -> rest_at v i <> [] ->
    exists i' l, rest_at v i = iter_get v i :: l /\ iter_next v i = Some i' /\
      it_ok v i' /\ it_settled v i' /\ rest_at v i' = l.
  Proof.
    intros Hok Hs Hne. pose proof (rest_nil_end i Hok Hs) as R.
    destruct (Hok) as (He & [K|(Kp & Kc & Ko)]); [exfalso; apply Hne, R, K|].
    destruct Hs as [Hs|Hs]; [lia|].
    assert (rest_at v i = iter_get v i ::
       rest_at v {| it_parent := it_parent i; it_end := it_end i;
                    it_child := (fst (it_child i), (snd (it_child i) + 1)%N) |}) as RR.
    { unfold rest_at; cbn [it_parent it_child snd].
      destruct (N.ltb_spec (it_parent i) (v_count v)); [|lia].
      rewrite (skipn_cons_nth _ _ _ (tagged_nth _ _ Hs)).
      replace (S (N.to_nat (snd (it_child i)))) with (N.to_nat (snd (it_child i) + 1)) by lia.
      cbn [app]. unfold iter_get. now rewrite Kc. }
    unfold iter_next.
    edestruct (seek_ok v) as (i' & S1 & S2 & S3 & S4);
      [|exists i'; eexists; split; [exact RR|split; [exact S1|split; [exact S2|split; [exact S3|exact S4]]]]].
    split; [exact He|]. right. cbn. split; [exact Kp|]. split; [exact Kc|]. lia.
  Qed.

  Lemma emit_event_spec x pre : xwf x -> x_tit x = [] -> rest_at v (x_it x) <> [] ->
    exists x', emit_event mem pid v x pre = Ok x' /\ xwf x' /\
      remaining x' = pre ++ glue (chr 44) (records x) ++ foot /\
      S (steps_left x') = 1 + length (x_tit x) + length (rest_at v (x_it x)).
  Proof.
    intros W Ht Hne. destruct W as [W1 W2 W3 _].
    destruct (next_spec _ W1 W2 Hne) as (i' & l & E & N1 & N2 & N3 & N4).
    rewrite E in W3. inversion W3 as [|? ? R1 R2]; subst.
    unfold emit_event. destruct (iter_get v (x_it x)) as [e t] eqn:EG.
    unfold renders in R1. cbn [fst snd] in R1. rewrite R1. cbn [bind]. rewrite N1. cbn [of_opt bind].
    rewrite at_end_spec by assumption. cbn [bind].
    eexists; split; [reflexivity|]. rewrite Ht, E.
    unfold remaining, records, steps_left; cbn [x_state x_cache x_it x_tit].
    rewrite Ht, E. cbn [map app]. rewrite glue_commas.
    destruct (rest_at v i') as [|p l] eqn:E'; cbn [is_nil].
    - split; [|split].
      + split; cbn [x_it x_state x_tit]; auto. rewrite E'. constructor.
      + cbn [map commas flat_map]. now rewrite app_nil_r, <- app_assoc.
      + cbn. lia.
    - split; [|split].
      + split; cbn [x_it x_state x_tit]; auto.
        * rewrite E'. exact R2.
        * rewrite E'. split; [reflexivity|discriminate].
      + cbn [map app]. rewrite <- !app_assoc. reflexivity.
      + cbn [length]. lia.
  Qed.

  Lemma emit_thread_spec x pre : xwf x -> x_tit x <> [] ->
    exists x', emit_thread pid v x pre = Ok x' /\ xwf x' /\
      remaining x' = pre ++ glue (chr 44) (records x) ++ foot /\
      S (steps_left x') = 1 + length (x_tit x) + length (rest_at v (x_it x)).
  Proof.
    intros W Ht. destruct W as [W1 W2 W3 _].
    unfold emit_thread. unfold remaining, records, steps_left.
    destruct (x_tit x) as [|a r] eqn:ET; [easy|].
    rewrite at_end_spec by assumption. cbn [bind].
    eexists; split; [reflexivity|]. cbn [x_state x_cache x_it x_tit map app].
    rewrite glue_commas.
    destruct r as [|b r].
    - cbn [map app]. destruct (rest_at v (x_it x)) as [|p l] eqn:E'; cbn [is_nil].
      + split; [|split].
        * split; cbn [x_it x_state x_tit]; auto. rewrite E'. constructor.
        * cbn [map commas flat_map]. now rewrite app_nil_r, <- app_assoc.
        * cbn. lia.
      + split; [|split].
        * split; cbn [x_it x_state x_tit]; auto; rewrite E'; [exact W3|]. split; [reflexivity|discriminate].
        * rewrite <- !app_assoc. reflexivity.
        * cbn [length]. lia.
    - split; [|split].
      + split; cbn [x_it x_state x_tit]; auto. discriminate.
      + rewrite <- !app_assoc. reflexivity.
      + cbn [length]. lia.
  Qed.

  Lemma commas_glue l : l <> [] -> commas l = chr 44 :: glue (chr 44) l.
  Proof. destruct l as [|x l]; [easy|]. intros _. rewrite glue_commas. reflexivity. Qed.

  (** One turn of the switch, with an empty cache. *)
  Lemma switch_spec x : xwf x -> x_cache x = [] -> x_state x <> dead ->
    exists x', x_switch mem pid v x = Ok x' /\ xwf x' /\ remaining x' = remaining x /\
      S (steps_left x') = steps_left x.
  Proof.
    intros W Hc Hd. pose proof W as [W1 W2 W3 W4].
    unfold x_switch, remaining at 2, steps_left at 2. rewrite Hc.
    destruct (x_state x) eqn:ES; try easy.
    - (* opening *)
      rewrite at_end_spec by assumption. cbn [bind]. eexists; split; [reflexivity|].
      unfold remaining, records, steps_left; cbn [x_state x_cache x_it x_tit].
      destruct (x_tit x) as [|a r] eqn:ET.
      + destruct (rest_at v (x_it x)) as [|p l] eqn:E'; cbn [is_nil].
        * split; [|split].
          -- split; cbn [x_it x_state x_tit]; rewrite ?E'; auto.
          -- reflexivity.
          -- cbn. lia.
        * split; [|split].
          -- split; cbn [x_it x_state x_tit]; auto; rewrite E'; [exact W3|]. split; [reflexivity|discriminate].
          -- reflexivity.
          -- cbn. lia.
      + split; [|split].
        * split; cbn [x_it x_state x_tit]; auto. discriminate.
        * reflexivity.
        * cbn. lia.
    - (* first_event *)
      destruct W4 as (T1 & T2).
      destruct (emit_event_spec x [] W T1 T2) as (x' & E1 & E2 & E3 & E4). eauto 6.
    - (* other_events *)
      destruct W4 as (T1 & T2). cbn [app].
      destruct (emit_event_spec x $"," W T1 T2) as (x' & E1 & E2 & E3 & E4).
      exists x'. split; [exact E1|]. split; [exact E2|]. split; [|exact E4].
      rewrite E3. rewrite commas_glue; [reflexivity|].
      unfold records. rewrite T1. cbn [map app]. destruct (rest_at v (x_it x)); [easy|discriminate].
    - (* first_thread *)
      destruct (emit_thread_spec x [] W W4) as (x' & E1 & E2 & E3 & E4). eauto 6.
    - (* other_threads *)
      cbn [app]. destruct (emit_thread_spec x $"," W W4) as (x' & E1 & E2 & E3 & E4).
      exists x'. split; [exact E1|]. split; [exact E2|]. split; [|exact E4].
      rewrite E3. rewrite commas_glue; [reflexivity|].
      unfold records. destruct (x_tit x); [easy|discriminate].
    - (* footer *)
      destruct W4 as (T1 & T2). eexists; split; [reflexivity|].
      unfold remaining, steps_left; cbn [x_state x_cache x_it x_tit].
      split; [|split].
      + split; cbn [x_it x_state x_tit x_cache]; auto.
      + reflexivity.
      + rewrite T1, T2. reflexivity.
  Qed.

  Lemma remaining_alive x : x_state x <> dead -> 2 <= length (remaining x).
  Proof.
    intros H. unfold remaining. rewrite app_length.
    assert (length foot = 2) as F by reflexivity.
    destruct (x_state x); try easy; rewrite ?app_length, F; lia.
  Qed.

  Lemma remaining_dead x : x_state x = dead -> remaining x = x_cache x.
  Proof. intros H. unfold remaining. rewrite H. apply app_nil_r. Qed.

  Lemma remaining_with_cache x n : 
    remaining (with_cache x (skipn (Nat.min (length (x_cache x)) n) (x_cache x))) =
      skipn (Nat.min (length (x_cache x)) n) (remaining x).
  Proof.
    unfold remaining. cbn [with_cache x_cache x_state x_it x_tit].
    rewrite skipn_app_le by lia. reflexivity.
  Qed.

  Lemma is_nil_spec {A} (l : list A) : is_nil l = true <-> l = [].
  Proof. destruct l; cbn; split; easy. Qed.

  Lemma dead_dec s : is_dead s = true <-> s = dead.
  Proof. destruct s; cbn; split; easy. Qed.

  Lemma xwf_cache x k : xwf x -> x_state x <> opening -> xwf (with_cache x (skipn k (x_cache x))).
  Proof.
    intros [W1 W2 W3 W4] Ho. split; cbn [with_cache x_it x_tit x_state x_cache]; auto.
    destruct (x_state x); auto; try easy. rewrite skipn_length. lia.
  Qed.

  Lemma xwf_cache_nil x k : xwf x -> x_cache x = [] -> xwf (with_cache x (skipn k (x_cache x))).
  Proof.
    intros [W1 W2 W3 W4] Ho. split; cbn [with_cache x_it x_tit x_state x_cache]; auto.
    rewrite Ho, skipn_nil. destruct (x_state x); auto.
  Qed.

  Lemma read_loop_spec : forall fuel x len out,
    xwf x -> length out <= len -> steps_left x + 1 < fuel ->
    (x_state x = dead -> length (x_cache x) <= 1 \/ length out < len) ->
    exists x', read_loop mem pid fuel v x len out = Ok (out ++ firstn (len - length out) (remaining x), x') /\
      xwf x' /\ remaining x' = skipn (len - length out) (remaining x) /\
      (x_state x' = dead <-> length (remaining x') <= 1) /\
      length (x_tit x') <= length (x_tit x).
  Proof.
    assert (TIT : forall x x', x_switch mem pid v x = Ok x' -> length (x_tit x') <= length (x_tit x)).
    { intros x x'. unfold x_switch, emit_event, emit_thread.
      destruct (x_state x).
      - destruct (at_end v (x_it x)); cbn [bind]; try discriminate. now intros [= <-].
      - destruct (iter_get v (x_it x)). destruct (event_to_json _ _ _ _); cbn [bind]; try discriminate.
        destruct (iter_next v (x_it x)); cbn [bind of_opt]; try discriminate.
        destruct (at_end v _); cbn [bind]; try discriminate. now intros [= <-].
      - destruct (iter_get v (x_it x)). destruct (event_to_json _ _ _ _); cbn [bind]; try discriminate.
        destruct (iter_next v (x_it x)); cbn [bind of_opt]; try discriminate.
        destruct (at_end v _); cbn [bind]; try discriminate. now intros [= <-].
      - destruct (x_tit x); try discriminate. destruct (at_end v _); cbn [bind]; try discriminate.
        intros [= <-]. cbn. lia.
      - destruct (x_tit x); try discriminate. destruct (at_end v _); cbn [bind]; try discriminate.
        intros [= <-]. cbn. lia.
      - now intros [= <-].
      - now intros [= <-]. }
    induction fuel as [|f IH]; intros x len out W Ho Hf Hd; [lia|]. cbn [read_loop].
    destruct (Nat.ltb_spec (length out) len) as [L|L]; cbn [andb].
    2: { replace (len - length out) with 0 by lia. cbn [firstn skipn]. rewrite app_nil_r.
         exists x. split; [reflexivity|]. split; [exact W|]. split; [reflexivity|]. split; [|lia]. split.
         - intros E. rewrite remaining_dead by exact E. destruct (Hd E); lia.
         - intros E. destruct (x_state x) eqn:ES; try reflexivity;
             (pose proof (remaining_alive x ltac:(congruence)); lia). }
    destruct (is_dead (x_state x) && is_nil (x_cache x)) eqn:ED; cbn [negb].
    { apply andb_true_iff in ED as (D1 & D2). apply dead_dec in D1. apply is_nil_spec in D2.
      assert (remaining x = []) as R by (rewrite remaining_dead by exact D1; exact D2).
      rewrite R, firstn_nil, skipn_nil, app_nil_r. exists x. split; [reflexivity|]. split; [exact W|].
      rewrite R. split; [reflexivity|]. split; [|lia]. cbn. split; [lia|auto]. }
    set (n := len - length out) in *.
    set (k := Nat.min (length (x_cache x)) n).
    set (x1 := with_cache x (skipn k (x_cache x))).
    assert (remaining x1 = skipn k (remaining x)) as R1 by apply remaining_with_cache.
    assert (firstn k (x_cache x) = firstn k (remaining x)) as F1.
    { unfold remaining. rewrite firstn_app. replace (k - length (x_cache x)) with 0 by (unfold k; lia).
      now rewrite app_nil_r. }
    assert (length (out ++ firstn k (x_cache x)) = length out + k) as LO.
    { rewrite app_length, firstn_length_le by (unfold k; lia). reflexivity. }
    assert (x_cache x = [] \/ x_state x <> opening) as HO.
    { destruct W as [_ _ _ W4]. destruct (x_state x); auto; right; discriminate. }
    assert (xwf x1) as W1.
    { destruct HO as [HO|HO]; [now apply xwf_cache_nil|now apply xwf_cache]. }
    destruct (negb (is_nil (x_cache x)) && (len <=? length (out ++ firstn k (x_cache x)))) eqn:EB.
    { apply andb_true_iff in EB as (B1 & B2). apply Nat.leb_le in B2. rewrite LO in B2.
      assert (k = n) as Hk by (unfold k in *; lia).
      exists x1. rewrite F1, Hk. split; [reflexivity|]. split; [exact W1|]. split; [now rewrite R1, Hk|]. split; [|cbn; lia].
      change (x_state x1) with (x_state x). split.
      - intros E. pose proof (remaining_dead x E) as RD. rewrite R1, RD, skipn_length.
        destruct W as [_ _ _ W4]. rewrite E in W4. lia.
      - intros E. destruct (x_state x) eqn:ES; try reflexivity;
          (pose proof (remaining_alive x1 ltac:(unfold x1; cbn; congruence)); lia). }
    (* the whole cache was copied *)
    assert (k = length (x_cache x)) as Hk.
    { apply andb_false_iff in EB as [EB|EB].
      - apply negb_false_iff, is_nil_spec in EB. unfold k. rewrite EB. reflexivity.
      - apply Nat.leb_gt in EB. rewrite LO in EB. unfold k in *. lia. }
    assert (k < n) as Hkn.
    { apply andb_false_iff in EB as [EB|EB].
      - apply negb_false_iff, is_nil_spec in EB. rewrite EB in Hk. cbn in Hk. lia.
      - apply Nat.leb_gt in EB. rewrite LO in EB. lia. }
    assert (x_cache x1 = []) as C1 by (unfold x1; cbn; rewrite Hk; apply skipn_all).
    destruct (is_dead (x_state x)) eqn:ED2.
    - (* dead: copied the rest *)
      apply dead_dec in ED2.
      assert (x_switch mem pid v x1 = Ok x1) as XS by (unfold x_switch; change (x_state x1) with (x_state x); now rewrite ED2).
      rewrite XS. cbn [bind].
      destruct f as [|f]; [lia|]. cbn [read_loop]. rewrite C1.
      change (x_state x1) with (x_state x). rewrite ED2. cbn [is_dead is_nil andb negb]. rewrite andb_false_r.
      pose proof (remaining_dead x ED2) as RD.
      assert (remaining x1 = []) as R1' by (rewrite R1, RD, Hk; apply skipn_all).
      exists x1. split; [|split; [exact W1|split; [|split; [|cbn; lia]]]].
      + f_equal. f_equal. f_equal. rewrite RD, Hk, firstn_all. symmetry. apply firstn_all2. lia.
      + rewrite R1'. symmetry. apply skipn_all2. rewrite RD. lia.
      + rewrite R1'. change (x_state x1) with (x_state x). rewrite ED2. cbn. split; [lia|auto].
    - assert (x_state x1 <> dead) as ND.
      { change (x_state x1) with (x_state x). intros E. apply dead_dec in E. congruence. }
      destruct (switch_spec x1 W1 C1 ND) as (x2 & S1 & S2 & S3 & S4).
      rewrite S1. cbn [bind].
      destruct (IH x2 len (out ++ firstn k (x_cache x))) as (x' & E1 & E2 & E3 & E4 & E5).
      + exact S2.
      + rewrite LO. unfold n in *. lia.
      + assert (steps_left x1 = steps_left x) as SE by reflexivity. lia.
      + intros _. right. rewrite LO. unfold n in *. lia.
      + exists x'. rewrite E1, LO. replace (len - (length out + k)) with (n - k) by (unfold n; lia).
        rewrite S3, R1, F1, <- app_assoc.
        split; [|split; [exact E2|split; [|split; [exact E4|]]]].
        * f_equal. f_equal. f_equal. rewrite <- (firstn_skipn k (remaining x)) at 3.
          rewrite firstn_app.
          assert (k <= length (remaining x)) as KR by (unfold remaining; rewrite app_length; lia).
          rewrite firstn_length_le by exact KR.
          rewrite (firstn_all2 (n := n)) by (rewrite firstn_length_le by exact KR; lia). reflexivity.
        * rewrite LO in E3. replace (len - (length out + k)) with (n - k) in E3 by (unfold n; lia).
          rewrite E3, S3, R1, <- skipn_plus. f_equal. lia.
        * apply TIT in S1. cbn in S1. lia.
  Qed.

  Lemma from_chunk_length : forall m p, N.to_nat (v_count v) - N.to_nat p = m ->
    length (from_chunk v p) = list_sum (map (fun i => N.to_nat (c_next (v_chunk v (N.of_nat i)))) (seq (N.to_nat p) m)).
  Proof.
    induction m as [|m IH]; intros p Hm; unfold from_chunk; rewrite Hm; [reflexivity|].
    cbn [seq flat_map map list_sum fold_right]. rewrite app_length, tagged_length. f_equal.
    replace (S (N.to_nat p)) with (N.to_nat (p + 1)) by lia.
    specialize (IH (p + 1)%N ltac:(lia)). unfold from_chunk in IH.
    replace (N.to_nat (v_count v) - N.to_nat (p + 1)) with m in IH by lia. exact IH.
  Qed.

  Lemma from_chunk_le : forall m p, N.to_nat p = m -> length (from_chunk v p) <= length (from_chunk v 0).
  Proof.
    induction m as [|m IH]; intros p Hm; [replace p with 0%N by lia; lia|].
    destruct (N.le_gt_cases (v_count v) p) as [L|L]; [rewrite from_chunk_end by exact L; cbn; lia|].
    specialize (IH (p - 1)%N ltac:(lia)).
    rewrite (from_chunk_step v (p - 1)) in IH by lia. rewrite app_length in IH.
    replace (p - 1 + 1)%N with p in IH by lia. lia.
  Qed.

  Lemma rest_le i : length (rest_at v i) <= total_events v.
  Proof.
    assert (length (from_chunk v 0) = total_events v) as <-.
    { unfold total_events. rewrite (from_chunk_length (N.to_nat (v_count v)) 0) by lia. reflexivity. }
    unfold rest_at. destruct (N.ltb_spec (it_parent i) (v_count v)) as [L|L]; [|cbn; lia].
    rewrite app_length, skipn_length.
    etransitivity; [|apply (from_chunk_le _ (it_parent i) eq_refl)].
    rewrite (from_chunk_step v (it_parent i)) by exact L. rewrite app_length. lia.
  Qed.

  Definition good (x : exporter) : Prop :=
    xwf x /\ (x_state x = dead <-> length (remaining x) <= 1).

  Lemma read_spec x n : good x ->
    exists x', read mem pid ctx x n = Ok (firstn n (remaining x), x') /\ good x' /\
      remaining x' = skipn n (remaining x).
  Proof.
    intros (W & D). unfold read. cbn [ctx cx_buffer of_opt bind].
    destruct (read_loop_spec (read_fuel v x) x n []) as (x' & E1 & E2 & E3 & E4 & _).
    - exact W.
    - cbn; lia.
    - unfold read_fuel, steps_left. pose proof (rest_le (x_it x)). destruct (x_state x); lia.
    - intros E. left. pose proof (remaining_dead x E) as R. apply D in E. rewrite R in E. exact E.
    - exists x'. cbn [app length] in *. rewrite Nat.sub_0_r in *. split; [exact E1|]. split; [split; assumption|exact E3].
  Qed.

  Lemma done_spec x : good x -> done x = true <-> length (remaining x) <= 1.
  Proof. intros (_ & D). unfold done. rewrite dead_dec. exact D. Qed.

  (** The beginning. *)
  Lemma new_spec text : document mem pid v names text ->
    exists x, export_new ctx = Ok x /\ good x /\ remaining x = text /\ 2 <= length text.
  Proof.
    intros (texts & F & ->). unfold export_new. cbn [ctx cx_buffer of_opt bind cx_names].
    unfold it_begin, iter_new.
    destruct (seek_ok v {| it_parent := 0; it_end := v_count v; it_child := (0%N, 0%N) |}) as (b & B1 & B2 & B3 & B4).
    { split; [reflexivity|]. cbn. destruct (N.eq_dec (v_count v) 0) as [E|E]; [left; lia|right; lia]. }
    rewrite B1. cbn [of_opt bind].
    assert (rest_at v b = events_of v) as RB.
    { rewrite B4. unfold rest_at; cbn [it_parent it_child snd]. change (N.to_nat 0) with 0. cbn [skipn].
      transitivity (from_chunk v 0).
      - destruct (N.ltb_spec 0 (v_count v)) as [L|L]; [symmetry; now apply from_chunk_step|symmetry; now apply from_chunk_end].
      - unfold events_of, from_chunk, upto. change (N.to_nat 0) with 0. rewrite Nat.sub_0_r.
        rewrite !flat_map_concat_map, map_map. reflexivity. }
    assert (Forall renders (events_of v) /\ map txt (events_of v) = texts) as (FR & FT).
    { clear -F. induction F as [|p t l ts H F IH]; [split; [constructor|reflexivity]|].
      destruct IH as (I1 & I2). assert (txt p = t) as T by (unfold txt; now rewrite H).
      split; [constructor; [unfold renders; now rewrite T|exact I1]|]. cbn. now rewrite T, I2. }
    eexists. split; [reflexivity|].
    set (x := {| x_state := opening; x_cache := []; x_it := b; x_tit := names |}).
    assert (remaining x = head ++ glue (chr 44) (map ntxt names ++ texts) ++ foot) as R.
    { unfold remaining, records, x. cbn [x_cache x_state x_it x_tit app]. now rewrite RB, FT. }
    assert (2 <= length (remaining x)) as L2 by (apply remaining_alive; discriminate).
    split; [split|split].
    - split; cbn [x x_it x_state x_cache]; auto. now rewrite RB.
    - cbn [x x_state]. split; [discriminate|]. fold x. lia.
    - exact R.
    - rewrite R in L2. exact L2.
  Qed.

  Fixpoint cut (ns : list nat) (text : bytes) : list bytes :=
    match ns with [] => [] | n :: r => firstn n text :: cut r (skipn n text) end.

  Lemma reads_spec : forall ns x, good x ->
    exists x', reads mem pid ctx x ns = Ok (cut ns (remaining x), x') /\ good x' /\
      remaining x' = skipn (list_sum ns) (remaining x).
  Proof.
    induction ns as [|n ns IH]; intros x G; cbn [reads cut list_sum fold_right].
    - exists x. auto.
    - destruct (read_spec x n G) as (x1 & E1 & G1 & R1). rewrite E1. cbn [bind].
      destruct (IH x1 G1) as (x2 & E2 & G2 & R2). rewrite E2. cbn [bind fst snd].
      exists x2. rewrite R1. split; [reflexivity|]. split; [exact G2|].
      rewrite R2, R1, <- skipn_plus. reflexivity.
  Qed.

  Lemma cut_concat : forall ns text, concat (cut ns text) = firstn (list_sum ns) text.
  Proof.
    induction ns as [|n ns IH]; intros text; cbn [cut concat list_sum fold_right]; [reflexivity|].
    rewrite IH. fold (list_sum ns).
    rewrite <- (firstn_skipn n text) at 3. rewrite firstn_app, firstn_firstn.
    replace (Nat.min (n + list_sum ns) n) with n by lia. f_equal.
    rewrite firstn_length. destruct (Nat.le_gt_cases (length text) n) as [L|L].
    - rewrite skipn_all2 by exact L. now rewrite !firstn_nil.
    - f_equal. lia.
  Qed.

  (** read() *)
  Lemma read_all_spec : forall fuel x out, good x -> 1 < length (remaining x) -> length (remaining x) < fuel * block ->
    exists x', read_all_loop mem pid fuel ctx x out =
      Ok (out ++ (if Nat.eqb (length (remaining x) mod block) 1 then removelast (remaining x) else remaining x), x').
  Proof.
    induction fuel as [|f IH]; intros x out G L2 Hf; [lia|]. cbn [read_all_loop].
    destruct (read_spec x block G) as (x1 & E1 & G1 & R1). rewrite E1. cbn [bind].
    pose proof (done_spec x1 G1) as D. rewrite R1, skipn_length in D.
    set (L := length (remaining x)) in *.
    assert (1 < block) as B2 by (unfold block; lia).
    destruct (done x1) eqn:ED.
    - exists x1. f_equal. f_equal.
      assert (L - block <= 1) as HL by (now apply D).
      rewrite app_length, app_length, repeat_length.
      replace (length out + (length (firstn block (remaining x)) + (block - length (firstn block (remaining x)))) -
         (block - length (firstn block (remaining x)))) with (length out + length (firstn block (remaining x))) by lia.
      rewrite firstn_app_2. f_equal. rewrite firstn_app, Nat.sub_diag, firstn_all. cbn [firstn]. rewrite app_nil_r.
      destruct (Nat.eq_dec L (block + 1)) as [E|E].
      + rewrite E. replace ((block + 1) mod block) with 1.
        2: { rewrite Nat.add_mod by lia. rewrite Nat.mod_same, Nat.add_0_l, Nat.mod_mod by lia. symmetry. apply Nat.mod_small. lia. }
        cbn [Nat.eqb]. rewrite removelast_firstn_len. fold L. rewrite E. f_equal; lia.
      + assert (L <= block) as E' by lia.
        destruct (Nat.eq_dec L block) as [E2|E2].
        * rewrite E2, Nat.mod_same by lia. cbn [Nat.eqb]. apply firstn_all2. fold L. lia.
        * rewrite Nat.mod_small by lia. destruct (Nat.eqb_spec L 1); [lia|]. apply firstn_all2. fold L. lia.
    - assert (1 < L - block) as HL.
      { destruct (Nat.le_gt_cases (L - block) 1) as [H|H]; [|exact H]. apply D in H. discriminate. }
      assert (length (firstn block (remaining x)) = block) as HB by (apply firstn_length_le; fold L; lia).
      destruct (IH x1 (out ++ firstn block (remaining x))) as (x' & E2).
      + exact G1.
      + rewrite R1, skipn_length. fold L. exact HL.
      + rewrite R1, skipn_length. fold L. lia.
      + rewrite HB, Nat.sub_diag. cbn [repeat]. rewrite app_nil_r. exists x'. rewrite E2. f_equal. f_equal.
        rewrite <- app_assoc. f_equal. rewrite R1, skipn_length. fold L.
        replace ((L - block) mod block) with (L mod block).
        2: { replace L with (L - block + 1 * block) at 1 by lia. apply Nat.mod_add. lia. }
        destruct (Nat.eqb_spec (L mod block) 1) as [Q|Q].
        * rewrite <- (firstn_skipn block (remaining x)) at 3.
          rewrite removelast_app; [reflexivity|]. intros K. apply (f_equal (@length _)) in K.
          rewrite skipn_length in K. fold L in K. cbn in K. lia.
        * apply firstn_skipn.
  Qed.

  (** FileStopCallback *)
  Lemma write_loop_spec : forall fuel x file, good x -> length (remaining x) + block <= fuel * block ->
    write_loop mem pid fuel ctx x file = Ok (file ++ remaining x).
  Proof.
    assert (1 < block) as B2 by (unfold block; lia).
    induction fuel as [|f IH]; intros x file G Hf; [lia|]. cbn [write_loop].
    destruct (read_spec x block G) as (x1 & E1 & G1 & R1). rewrite E1. cbn [bind].
    destruct (firstn block (remaining x)) as [|c l] eqn:EF.
    - destruct (remaining x) as [|d m] eqn:ER; [now rewrite app_nil_r|]. discriminate.
    - rewrite IH; [|exact G1|].
      + rewrite R1, <- EF, <- app_assoc, firstn_skipn. reflexivity.
      + rewrite R1, skipn_length.
        assert (1 <= length (remaining x)).
        { destruct (remaining x); [discriminate|cbn; lia]. }
        destruct f as [|f]; [lia|]. cbn [Nat.mul] in *. lia.
  Qed.

  (** Reading until done(). *)
  Lemma read_until_done_spec : forall fuel x n, good x -> 1 <= n -> length (remaining x) < fuel ->
    exists x' k, read_until_done mem pid fuel ctx x n = Ok (firstn k (remaining x), x') /\ good x' /\
      remaining x' = skipn k (remaining x) /\ done x' = true.
  Proof.
    induction fuel as [|f IH]; intros x n G Hn Hf; [lia|]. cbn [read_until_done].
    destruct (done x) eqn:D.
    - exists x, 0. auto.
    - destruct (read_spec x n G) as (x1 & E1 & G1 & R1). rewrite E1. cbn [bind].
      assert (1 < length (remaining x)) as L1.
      { destruct (Nat.le_gt_cases (length (remaining x)) 1) as [H|H]; [|exact H].
        apply (done_spec x G) in H. congruence. }
      destruct (IH x1 n G1 Hn) as (x2 & k & E2 & G2 & R2 & D2).
      { rewrite R1, skipn_length. lia. }
      rewrite E2. cbn [bind fst snd]. exists x2, (n + k).
      rewrite R2, R1, <- skipn_plus. repeat split; try assumption; try apply G2.
      f_equal. f_equal.
      rewrite <- (firstn_skipn n (remaining x)) at 3. rewrite firstn_app, firstn_firstn.
      replace (Nat.min (n + k) n) with n by lia. f_equal.
      rewrite firstn_length. destruct (Nat.le_gt_cases (length (remaining x)) n) as [H|H].
      + rewrite skipn_all2 by exact H. now rewrite !firstn_nil.
      + f_equal. lia.
  Qed.
End Export.

(** * The document is JSON *)

Lemma name_renders pid a : (fst a < 2 ^ 31)%N -> all_plain (snd a) -> c_str (snd a) = snd a ->
  exists r, threadAssociationToString pid a = chr 123 :: r /\ val_at (thread_record pid a) (chr 123 :: r).
Proof.
  destruct a as [t nm]; cbn [fst snd]. intros Ht Hp Hc.
  assert (to_signed 32 (t mod 2 ^ 32) = Z.of_N t) as TS.
  { rewrite N.mod_small by lia. unfold to_signed. change (2 ^ (32 - 1))%N with (2 ^ 31)%N.
    destruct (N.ltb_spec t (2 ^ 31)); [reflexivity|lia]. }
  assert (forall k, forallb plainb k = true -> str_at k (quoted k)) as KQ.
  { intros k Hk. apply str_at_quoted, lit_plain, Hk. }
  pose proof (val_at_obj_glue [($"name", JStr nm)] [(quoted $"name", quoted nm)]) as HA.
  assert (val_at (JObj [($"name", JStr nm)]) (chr 123 :: member (quoted $"name") (quoted nm) ++ [chr 125])) as HA'.
  { apply HA. constructor; [|constructor]. split; cbn [fst snd]; [apply KQ; reflexivity|].
    apply val_at_str, str_at_quoted, Hp. }
  pose proof (val_at_obj_glue
    [($"name", JStr $"thread_name"); ($"ph", JStr $"M"); ($"pid", JNum pid 0);
     ($"tid", JNum (Z.of_N t) 0); ($"args", JObj [($"name", JStr nm)])]
    [(quoted $"name", quoted $"thread_name"); (quoted $"ph", quoted $"M"); (quoted $"pid", decZ pid);
     (quoted $"tid", decZ (Z.of_N t)); (quoted $"args", chr 123 :: member (quoted $"name") (quoted nm) ++ [chr 125])]) as HB.
  match type of HB with _ -> val_at _ (_ :: ?r) => exists r end.
  split.
  - unfold threadAssociationToString. cbn [fst snd]. rewrite TS, Hc.
    cbn [map glue fst snd]. unfold member, quoted. repeat (rewrite <- app_assoc || cbn [app]). reflexivity.
  - apply HB. repeat (apply Forall2_cons || apply Forall2_nil); split; cbn [fst snd];
      try (apply KQ; reflexivity); try (apply val_at_str, KQ; reflexivity); try apply val_at_decZ.
    exact HA'.
Qed.

Lemma document_json mem pid v names lgs :
  Forall2 (fun p l => stores l (fst p) /\ clean mem l) (events_of v) lgs ->
  Forall (fun a => (fst a < 2 ^ 31)%N /\ all_plain (snd a) /\ c_str (snd a) = snd a) names ->
  exists text js, document mem pid v names text /\
    json_parse text = Some (JObj [($"traceEvents", JArr (map (thread_record pid) names ++ js))]) /\
    Forall2 (fun pl j => record_of mem pid (snd (fst pl)) (snd pl) j) (combine (events_of v) lgs) js.
Proof.
  intros HE HN.
  assert (exists texts js,
    Forall2 (fun p t => event_to_json mem pid (snd p) (fst p) = Ok t) (events_of v) texts /\
    Forall2 val_at js texts /\ (forall t, In t texts -> exists r, t = chr 123 :: r) /\
    Forall2 (fun pl j => record_of mem pid (snd (fst pl)) (snd pl) j) (combine (events_of v) lgs) js) as (texts & js & T1 & T2 & T3 & T4).
  { induction HE as [|[e t] l es ls (Hs & Hc) HE IH].
    - exists [], []. split; [constructor|]. split; [constructor|]. split; [easy|constructor].
    - destruct IH as (texts & js & I1 & I2 & I3 & I4).
      destruct Hs as (j0 & j1 & Hs). cbn [fst] in Hs. subst e.
      destruct Hc as (C1 & C2 & C3 & C4 & C5 & C6 & C7).
      destruct (event_renders mem pid t (lg_tpi l) (lg_v0 l) (lg_v1 l) j0 j1 (wrap64 (lg_time l)) (wrap64 (lg_dur l)))
        as (r & j & R1 & R2 & R3); try assumption; rewrite ?to_s64_wrap64 by lia; try lia.
      rewrite !to_s64_wrap64 in R3 by lia.
      exists ((chr 123 :: r) :: texts), (j :: js). split; [constructor; [exact R1|exact I1]|].
      split; [constructor; assumption|]. split.
      + intros x [<-|Hx]; eauto.
      + cbn [combine]. constructor; [|exact I4]. cbn [fst snd]. eexists. exact R3. }
  assert (exists nts, map (threadAssociationToString pid) names = nts /\
    Forall2 val_at (map (thread_record pid) names) nts /\ (forall t, In t nts -> exists r, t = chr 123 :: r)) as (nts & N1 & N2 & N3).
  { eexists; split; [reflexivity|]. clear -HN. induction HN as [|a l (H1 & H2 & H3) HN (I1 & I2)].
    - split; [constructor|easy].
    - destruct (name_renders pid a H1 H2 H3) as (r & E & V). cbn [map]. rewrite E.
      split; [constructor; assumption|]. intros t [<-|Ht]; eauto. }
  eexists. exists js. split; [exists texts; split; [exact T1|reflexivity]|]. split; [|exact T4].
  rewrite N1. apply json_parse_val.
  pose proof (val_at_arr (map (thread_record pid) names ++ js) (nts ++ texts)) as HA.
  assert (val_at (JArr (map (thread_record pid) names ++ js)) (chr 91 :: glue (chr 44) (nts ++ texts) ++ [chr 93])) as HA'.
  { apply HA; [now apply Forall2_app|]. intros t [Ht|Ht]%in_app_or; auto. }
  pose proof (val_at_obj_glue [($"traceEvents", JArr (map (thread_record pid) names ++ js))]
    [(quoted $"traceEvents", chr 91 :: glue (chr 44) (nts ++ texts) ++ [chr 93])]) as HO.
  cbn [map fst snd] in HO.
  assert (forall g, $"{""traceEvents"":[" ++ g ++ $"]}" =
    chr 123 :: glue (chr 44) [member (quoted $"traceEvents") (chr 91 :: g ++ [chr 93])] ++ [chr 125]) as ET.
  { intros g. unfold member, quoted. cbn [glue]. repeat (rewrite <- app_assoc || cbn [app]). reflexivity. }
  rewrite ET. apply HO. constructor; [|constructor]. split; cbn [fst snd]; [|exact HA'].
  apply str_at_quoted, lit_plain. reflexivity.
Qed.
