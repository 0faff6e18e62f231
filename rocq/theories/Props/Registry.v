(** C29-C32: categories, one call at a time. *)
From Verif Require Import Base Spec.Text Spec.Glob Spec.Categories Model.StringUtils Model.Queue Model.Registry
  Proofs.Strings Proofs.Registry.

(** C29. *)
Theorem C29_enablement : forall group enabled disabled,
  calculateEnabled group enabled disabled = true <-> switched_on enabled disabled group.
Proof. exact calculateEnabled_spec. Qed.
Print Assumptions C29_enablement.

(** In particular with plain names: no wildcards in the lists. *)
Theorem C29_plain_lists : forall group enabled disabled,
  (forall g c, In g (enabled ++ disabled) -> In c g -> ~ wild c) ->
  (calculateEnabled group enabled disabled = true <->
   exists x, piece (chr 44) group x /\ In x enabled /\ ~ In x disabled).
Proof.
  intros g en dis W. rewrite calculateEnabled_spec.
  assert (forall l x, (forall y, In y l -> In y (en ++ dis)) -> (listed l x <-> In x l)) as L.
  { intros l x Hl. split.
    - intros (y & Hy & M). apply glob_match_exact, glob_literal in M; [now subst|]. intros c Hc. eapply W; eauto.
    - intros H. exists x. split; [exact H|]. apply glob_match_exact, glob_literal; [|reflexivity].
      intros c Hc. eapply W; eauto. }
  split; intros (x & P & H1 & H2); exists x; (split; [exact P|]).
  - rewrite L in H1, H2; auto; intros; apply in_or_app; auto.
  - rewrite !L; auto; intros; apply in_or_app; auto.
Qed.
Print Assumptions C29_plain_lists.

Example C29_case :
  calculateEnabled $"memcached:a,memcached:b" [$"memcached:*"] [$"memcached:a"] = true /\
  calculateEnabled $"memcached:a" [$"memcached:*"] [$"memcached:a"] = false /\
  piece (chr 44) $"memcached:a,memcached:b" $"memcached:b".
Proof.
  split; [reflexivity|]. split; [reflexivity|]. split.
  - cbn. intuition discriminate.
  - exists $"memcached:a,", []. split; [reflexivity|]. split; [right; now exists $"memcached:a"|].
    split; [now left|]. intros (H & _). discriminate.
Qed.

(** C30. [h] are the answers: argument and slot. *)
Theorem C30_slots : forall cs,
  let '(h, r) := registry_run registry_new cs in
  map (fun p => c_str (fst p)) h = names_asked cs /\
  (forall a b i j, In (a, i) h -> In (b, j) h -> c_str a = c_str b -> i = j) /\
  (forall a b i, In (a, i) h -> In (b, i) h -> c_str a <> c_str b -> i = 1 /\ distinct_names cs > 250) /\
  (forall a i, In (a, i) h -> i < registry_stats r) /\
  registry_stats r = Nat.min 250 (distinct_names cs).
Proof.
  intros cs. pose proof (registry_run_spec cs registry_new None rok_new forces_new) as S.
  pose proof (registry_count cs) as C.
  destruct (registry_run registry_new cs) as [h r]. destruct S as (K & G & ST & _ & N & U).
  split; [exact N|]. split; [|split; [|split; [|exact C]]].
  - intros a b i j Ha Hb E. eapply settled_fun; eauto.
  - intros a b i Ha Hb E. pose proof (ST _ _ Ha) as Sa. pose proof (ST _ _ Hb) as Sb.
    assert (exists z, In (z, i) h /\ i = 1 /\ rg_count r = 250 /\ forall k, k < 250 -> rg_groups r k <> c_str z) as (z & Hz & -> & H1 & H2).
    { destruct Sa as [(Sa & Ea)|Sa]; [|exists a; tauto]. destruct Sb as [(Sb & Eb)|Sb]; [|exists b; tauto]. congruence. }
    split; [reflexivity|]. unfold distinct_names.
    assert (incl (c_str z :: used r) (nodup bytes_dec (built_in ++ names_asked cs))) as I.
    { intros g [<-|Hg]; apply nodup_In, in_or_app.
      - right. rewrite <- N. apply in_map_iff. exists (z, 1). auto.
      - apply U in Hg as [Hg|Hg]; [left; exact Hg|now right]. }
    apply NoDup_incl_length in I.
    + cbn [length] in I. unfold used in I. rewrite map_length, seq_length in I. lia.
    + constructor; [|now apply used_nodup]. intros (k & Hk & Ek)%used_in. rewrite H1 in Hk. now apply (H2 k).
  - intros a i Ha. pose proof (rk_lo _ K) as L. unfold registry_stats.
    destruct (ST _ _ Ha) as [(H & _)|(H & _)]; lia.
Qed.
Print Assumptions C30_slots.

(** Another group than "category limit reached" gets that slot only if the
    registry was full when it was first asked for. *)
Theorem C30_overflow_when_full : forall cs rest a,
  let '(_, r) := registry_run registry_new cs in
  let '(i, r') := getStatus r a in
  let '(h, _) := registry_run r' rest in
  (i = 1 -> c_str a <> overflow_name -> registry_stats r = 250 /\ ~ In (c_str a) (used r)) /\
  (forall b j, In (b, j) h -> c_str b = c_str a -> j = i).
Proof.
  intros cs rest a. pose proof (registry_run_spec cs registry_new None rok_new forces_new) as S.
  destruct (registry_run registry_new cs) as [h0 r]. destruct S as (K & G & ST & F & _).
  pose proof (getStatus_spec r a K) as GS. destruct (getStatus r a) as [i r'] eqn:E.
  destruct GS as (K' & G' & ST' & G4 & G5 & G6).
  assert (forces (in_force_from None cs) r') as F' by (unfold forces in *; rewrite G4, G5; exact F).
  pose proof (registry_run_spec rest r' _ K' F') as S.
  destruct (registry_run r' rest) as [h r'']. destruct S as (K'' & G'' & ST'' & _). split.
  - intros -> Ha. destruct ST' as [(H1 & H2)|(_ & H1 & H2)].
    + exfalso. rewrite (rk_def _ K') in H2 by lia. now apply Ha.
    + destruct G6 as [-> |(H3 & H4)].
      * split; [exact H1|]. intros (k & Hk & Ek)%used_in. rewrite H1 in Hk. now apply (H2 k).
      * exfalso. apply (H2 (rg_count r)); [lia|exact H4].
  - intros b j Hb Eb. apply ST'' in Hb. eapply settled_fun; eauto. eapply settled_grows; eauto.
Qed.
Print Assumptions C30_overflow_when_full.

Example C30_case : let '(h, r) := registry_run registry_new
    [GetStatus $"a"; Update [$"*"] []; GetStatus $"b"; GetStatus $"a"; GetStatus $"default"] in
  map snd h = [3; 4; 3; 0] /\ registry_stats r = 5.
Proof. vm_compute. auto. Qed.

(** C31: the status read through any answer, however long ago it was given. (Slot
    1 belongs to the name "category limit reached", see C30 and C32.) *)
Theorem C31_status_current : forall cs,
  let '(h, r) := registry_run registry_new cs in
  forall a i, In (a, i) h ->
    (rg_status r i = true <-> on_after cs (if Nat.eqb i 1 then overflow_name else c_str a)).
Proof.
  intros cs. pose proof (registry_run_spec cs registry_new None rok_new forces_new) as S.
  destruct (registry_run registry_new cs) as [h r]. destruct S as (K & G & ST & F & _).
  intros a i Ha. pose proof (rk_lo _ K) as L.
  assert (i < rg_count r /\ rg_groups r i = if Nat.eqb i 1 then overflow_name else c_str a) as (H1 & H2).
  { destruct (Nat.eqb_spec i 1) as [-> |N].
    - split; [lia|]. now rewrite (rk_def _ K) by lia.
    - destruct (ST _ _ Ha) as [(H1 & H2)|(H1 & _)]; [auto|contradiction]. }
  rewrite (rk_stat _ K) by assumption. rewrite H2. unfold on_after. unfold in_force. destruct (in_force_from None cs) as [(e, d)|].
  - destruct F as (-> & ->). apply calculateEnabled_spec.
  - rewrite F. split; [discriminate|easy].
Qed.
Print Assumptions C31_status_current.

(** After disableAll, every status is off, also for groups asked for later. *)
Theorem C31_disable_all : forall cs later,
  (forall c, In c later -> exists a, c = GetStatus a) ->
  let '(h, r) := registry_run registry_new (cs ++ DisableAll :: later) in
  forall a i, In (a, i) h -> rg_status r i = false.
Proof.
  intros cs later L. pose proof (registry_run_spec (cs ++ DisableAll :: later) registry_new None rok_new forces_new) as S.
  destruct (registry_run registry_new (cs ++ DisableAll :: later)) as [h r]. destruct S as (K & G & ST & F & _).
  intros a i Ha. assert (i < rg_count r) as Hi.
  { pose proof (rk_lo _ K). destruct (ST _ _ Ha) as [(H1 & _)|(H1 & _)]; lia. }
  rewrite (rk_stat _ K) by assumption.
  assert (in_force_from None (cs ++ DisableAll :: later) = None) as E.
  { unfold in_force_from. rewrite fold_left_app. cbn [fold_left]. clear -L.
    induction later as [|c later IH]; [reflexivity|]. cbn. destruct (L c) as (a & ->); [now left|].
    apply IH. intros c Hc. apply L. now right. }
  rewrite E in F. apply F.
Qed.
Print Assumptions C31_disable_all.

Example C31_case : let cs := [GetStatus $"a"; Update [$"*"] [$"b"]; GetStatus $"b"; GetStatus $"c"] in
  let '(h, r) := registry_run registry_new cs in
  map (fun p => rg_status r (snd p)) h = [true; false; true] /\ in_force cs = Some ([$"*"], [$"b"]).
Proof. vm_compute. auto. Qed.

(** C32: a new group asked for when the registry is full gets slot 1, whose
    status is that of the name "category limit reached". *)
Theorem C32_overflow : forall cs rest a,
  250 < distinct_names (cs ++ [GetStatus a]) -> ~ In (c_str a) (built_in ++ names_asked cs) ->
  let '(_, r) := registry_run registry_new cs in
  let '(i, r') := getStatus r a in
  let '(_, r'') := registry_run r' rest in
  i = 1 /\ (rg_status r'' i = true <-> on_after (cs ++ GetStatus a :: rest) overflow_name).
Proof.
  intros cs rest a D N. pose proof (registry_run_spec cs registry_new None rok_new forces_new) as S.
  pose proof (registry_count cs) as C.
  destruct (registry_run registry_new cs) as [h0 r]. destruct S as (K & G & ST & F & N0 & U).
  pose proof (getStatus_spec r a K) as GS. destruct (getStatus r a) as [i r'] eqn:E.
  destruct GS as (K' & G' & ST' & G4 & G5 & G6).
  assert (forces (in_force_from None (cs ++ [GetStatus a])) r') as F'.
  { unfold in_force_from in *. rewrite fold_left_app. cbn [fold_left]. unfold forces in *. rewrite G4, G5. exact F. }
  pose proof (registry_run_spec rest r' _ K' F') as S.
  destruct (registry_run r' rest) as [h r'']. destruct S as (K'' & G'' & ST'' & F'' & _).
  assert (~ In (c_str a) (used r)) as NU.
  { intros H. apply N, in_or_app. apply U in H as [H|H]; [left; exact H|now right]. }
  assert (rg_count r = 250) as FULL.
  { rewrite C. cut (distinct_names (cs ++ [GetStatus a]) <= S (distinct_names cs)); [unfold distinct_names in *; lia|].
    unfold distinct_names. rewrite <- (Nat.add_1_r (length _)). change 1 with (length [c_str a]). rewrite <- app_length.
    apply NoDup_incl_length; [apply NoDup_nodup|]. intros x Hx. apply nodup_In in Hx. unfold names_asked in Hx.
    rewrite flat_map_app, app_assoc in Hx. apply in_app_or in Hx as [Hx|Hx]; apply in_or_app; [left|right].
    - apply nodup_In. exact Hx.
    - cbn in Hx. cbn. tauto. }
  assert (i = 1) as ->.
  { unfold getStatus in E. pose proof (search_spec (rg_groups r) (c_str a) (rg_count r) 0) as S.
    destruct (search (rg_groups r) (c_str a) 0 (rg_count r)) as [k|].
    - destruct S as (Hk & Ek). rewrite (rk_cstr _ K) in Ek by lia. exfalso. apply NU, used_in. exists k. split; [lia|exact Ek].
    - rewrite FULL in E. unfold registry_size in E. rewrite Nat.ltb_irrefl in E. now inversion E. }
  split; [reflexivity|]. pose proof (rk_lo _ K''). rewrite (rk_stat _ K'') by lia. rewrite (rk_def _ K'') by lia.
  change (nth 1 built_in []) with overflow_name. unfold on_after, in_force.
  replace (in_force_from None (cs ++ GetStatus a :: rest)) with (in_force_from (in_force_from None (cs ++ [GetStatus a])) rest).
  2: { unfold in_force_from. rewrite !fold_left_app. reflexivity. }
  destruct (in_force_from (in_force_from None (cs ++ [GetStatus a])) rest) as [(e, d)|].
  - destruct F'' as (-> & ->). apply calculateEnabled_spec.
  - rewrite F''. split; [discriminate|easy].
Qed.
Print Assumptions C32_overflow.

(** 247 different groups. *)
Definition many : list rcall := map (fun i => GetStatus (dec (N.of_nat i))) (seq 0 247).

Example C32_case : 250 < distinct_names (many ++ [GetStatus $"secret"]) /\
  ~ In (c_str $"secret") (built_in ++ names_asked many).
Proof.
  split; [vm_compute; lia|]. intros H.
  assert (existsb (bytes_eqb (c_str $"secret")) (built_in ++ names_asked many) = true) as B
    by (apply existsb_exists; eexists; split; [exact H|now apply bytes_eqb_eq]).
  vm_compute in B. discriminate.
Qed.

(** So a group the configuration disables by name can be reported enabled. *)
Theorem C32_always_current_refuted : exists cs a rest,
  let '(_, r) := registry_run registry_new cs in
  let '(i, r') := getStatus r a in
  let '(_, r'') := registry_run r' rest in
  rg_status r'' i = true /\ ~ on_after (cs ++ GetStatus a :: rest) (c_str a) /\
  in_force (cs ++ GetStatus a :: rest) = Some ([$"*"], [$"secret"]) /\ a = $"secret".
Proof.
  exists many, $"secret", [Update [$"*"] [$"secret"]].
  pose proof (C32_overflow many [Update [$"*"] [$"secret"]] $"secret" (proj1 C32_case) (proj2 C32_case)) as O.
  assert (in_force (many ++ GetStatus $"secret" :: [Update [$"*"] [$"secret"]]) = Some ([$"*"], [$"secret"])) as E.
  { unfold in_force, in_force_from. rewrite fold_left_app. reflexivity. }
  assert (~ on_after (many ++ GetStatus $"secret" :: [Update [$"*"] [$"secret"]]) (c_str $"secret")) as NO.
  { unfold on_after. rewrite E. intros H. apply calculateEnabled_spec in H. vm_compute in H. discriminate. }
  assert (on_after (many ++ GetStatus $"secret" :: [Update [$"*"] [$"secret"]]) overflow_name) as YES.
  { unfold on_after. rewrite E. apply calculateEnabled_spec. vm_compute. reflexivity. }
  destruct (registry_run registry_new many) as [h r]. destruct (getStatus r $"secret") as [i r'].
  destruct (registry_run r' _) as [h' r'']. destruct O as (_ & O). split; [now apply O|]. split; [exact NO|]. split; [exact E|reflexivity].
Qed.
Print Assumptions C32_always_current_refuted.
