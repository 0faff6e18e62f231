(** C62, C63: statistics of the log, and the gate of the trace macros. *)
From Verif Require Import Base Spec.Glob Model.StringUtils Model.Event Model.Queue Model.Buffer Model.Config Spec.Categories Model.Registry
  Model.Interleave Spec.LogHistory Spec.LogFacts Model.TraceLog Proofs.Interleave Proofs.Registry Proofs.LogFrame Proofs.LogView Proofs.LogViewInv
  Proofs.LogContract Proofs.LogBuffers Proofs.LogGate Props.Log.

(** ** C62 *)

Lemma held_view h : v_buf (view_after h) = held_buffer h.
Proof.
  snoc h. rewrite view_snoc. unfold held_buffer in *. rewrite fold_left_app, <- IH. cbn.
  destruct e; auto; cbn; [destruct o, r; reflexivity|destruct h0, r; reflexivity].
Qed.

Lemma registered_list h : NoDup (v_regd (view_after h)).
Proof.
  snoc h; [constructor|]. rewrite view_snoc. destruct e; auto; cbn.
  - destruct o, r; auto; cbn; [now apply NoDup_add|now apply NoDup_del].
  - destruct h0, r; auto.
Qed.

Lemma departed_snoc t h e : departed t (h ++ [e]) =
  if names_thread t e then false else if leaves t e then tracing h || departed t h else departed t h.
Proof. unfold departed. rewrite rev_app_distr. cbn. now rewrite rev_involutive. Qed.

Lemma named_snoc t h e : named t (h ++ [e]) =
  if names_thread t e then true else if leaves t e then tracing h && named t h
  else match e with On _ _ _ => negb (departed t h) && named t h | _ => named t h end.
Proof. unfold named, departed. rewrite rev_app_distr. cbn. now rewrite rev_involutive. Qed.

Lemma departed_list h : NoDup (v_dereg (view_after h)) /\ forall t, mem t (v_dereg (view_after h)) = departed t h.
Proof.
  snoc h; [split; [constructor|reflexivity]|]. destruct IH as [A B]. rewrite view_snoc. split.
  - destruct e; auto; cbn.
    + destruct o, r; auto; cbn; [destruct (is_nil name); auto; now apply NoDup_del|destruct (v_on _); auto; now apply NoDup_add].
    + destruct h0, r; auto.
  - intros t. rewrite departed_snoc. destruct e; cbn [apply v_dereg v_names names_thread leaves]; try apply B.
    + destruct o, r; auto; cbn [after_call v_dereg v_names names_thread leaves].
      * destruct (is_nil name) eqn:Z; [rewrite andb_false_r; apply B|]. rewrite mem_del, B. cbn. rewrite andb_true_r, (Nat.eqb_sym t0).
        destruct (Nat.eqb t t0); reflexivity.
      * rewrite v_on_tracing. destruct (tracing h); [rewrite mem_add|]; rewrite B, (Nat.eqb_sym t0); destruct (Nat.eqb t t0); reflexivity.
    + destruct h0, r; auto; apply B.
Qed.

Lemma named_list h : forall t, In t (map fst (v_names (view_after h))) <-> named t h = true.
Proof.
  assert (D : forall u l t, In t (map fst (name_del u l)) <-> In t (map fst l) /\ t <> u).
  { intros u l t. rewrite !in_map_iff. setoid_rewrite In_name_del. split; [intros [p [<- [X Y]]]; eauto|intros [[p [<- X]] Y]; eauto]. }
  snoc h; [easy|]. intros t. rewrite view_snoc, named_snoc. destruct e; cbn [apply v_dereg v_names names_thread leaves]; try apply IH.
  - rewrite andb_true_iff, negb_true_iff, <- IH, <- (proj2 (departed_list h)), mem_not, !in_map_iff. setoid_rewrite In_name_clear.
    split; [intros [p [<- [X Y]]]; eauto|intros [Y [p [<- X]]]; eauto].
  - destruct o, r; auto; cbn [after_call v_dereg v_names names_thread leaves].
    + destruct (is_nil name) eqn:Z; [rewrite andb_false_r; apply IH|]. cbn [negb]. rewrite andb_true_r.
      unfold name_set. cbn [map fst In]. rewrite D. destruct (Nat.eqb_spec t0 t) as [->|N]; [tauto|]. rewrite <- IH.
      split; [intros [X|[X _]]; congruence|auto].
    + rewrite v_on_tracing. destruct (Nat.eqb_spec t0 t) as [->|N].
      * destruct (tracing h); cbn; [apply IH|]. rewrite D. split; [tauto|easy].
      * destruct (tracing h); [apply IH|]. rewrite D, <- IH. split; [tauto|auto].
  - destruct h0, r; auto.
Qed.

(** getStats reports the truth at the moment it returns: whether tracing is on,
    whether there is a buffer, how many threads have a name, how many left while
    tracing, how many are registered. The number of category groups is right at
    some moment during the call (lookups do not wait for it). *)
Theorem C62_statistics : forall cap csz site_cat sched x t r y,
  hist (log_run cap csz site_cat sched) = x ++ Done t OGetStats r :: y ->
  exists st, r = RStats st /\
    ls_on st = tracing x /\
    ls_has_buffer st = (match held_buffer x with Some _ => true | None => false end) /\
    counts (ls_names st) (fun u => named u x) /\
    counts (ls_dereg st) (fun u => departed u x) /\
    counts (ls_tenants st) (fun u => registered u x) /\
    exists a z1 z2, x = a ++ Invoked t OGetStats :: z1 ++ z2 /\ ls_groups st = group_count (a ++ Invoked t OGetStats :: z1).
Proof.
  intros cap csz sc sched x t r y E.
  destruct (gate_inv cap csz sc _ (log_run_reached cap csz sc sched)) as [_ S].
  pose proof (history_legal cap csz sc _ (log_run_reached cap csz sc sched)) as L.
  pose proof (legal_at _ _ L _ _ _ E eq_refl) as [_ [_ [_ [st [-> [H1 [H2 [H3 [H4 H5]]]]]]]]]. exists st. rewrite status_view in *.
  rewrite H1, H2, H3, H4, H5, v_on_tracing, held_view. repeat split.
  - exists (map fst (v_names (view_after x))). split; [apply names_unique|]. split; [apply map_length|]. intros u. apply named_list.
  - exists (v_dereg (view_after x)). destruct (departed_list x) as [A B]. split; auto. split; auto. intros u. now rewrite <- mem_In, B.
  - exists (v_regd (view_after x)). split; [apply registered_list|]. split; auto. intros u. now rewrite <- mem_In, v_regd_registered.
  - exact (S _ _ _ _ E).
Qed.
Print Assumptions C62_statistics.

Definition stats_in (h : list hev) : list (bool * bool * nat * nat * nat * nat) :=
  flat_map (fun e => match e with
    | Done _ OGetStats (RStats s) => [(ls_on s, ls_has_buffer s, ls_names s, ls_dereg s, ls_tenants s, ls_groups s)]
    | _ => [] end) h.

(** Finding: a thread that left while tracing is counted as deregistered even
    after the next start has forgotten its name. *)
Example C62_case :
  stats_in (demo (call 1 (ORegister $"one") CNone 9 ++ call 2 (ORegister $"two") CNone 9 ++ call 3 (OStart (setStoppedCallback cfgA None)) (CFixed 2 mem0) 30 ++
                  call 2 ODeregister CNone 9 ++ call 1 (OGetStatus $"cat") CNone 9 ++ call 3 OGetStats CNone 9 ++
                  call 3 (OStop false) CNone 4 ++ repeat (Step 3 (CPick 1)) 20 ++ call 3 (OStart (setStoppedCallback cfgA None)) (CFixed 2 mem0) 30 ++ call 3 OGetStats CNone 9)) =
    [(true, true, 2, 1, 1, 4); (true, true, 1, 1, 1, 4)].
Proof. vm_compute. reflexivity. Qed.

(** ** C63 *)

(** An event is recorded only by the call that carries it; if the call comes
    from a trace point, then earlier in that call the status of the point's
    category was found enabled. *)
Theorem C63_recorded_only_if_enabled : forall cap csz site_cat sched x t b e y,
  hist (log_run cap csz site_cat sched) = x ++ Stored t b e :: y ->
  exists o z, in_call x t o z /\
    (o = OLog e \/
     exists site u i, o = OMacro site e /\ In (Looked u (site_cat site) i) x /\ In (Tested t i true) z).
Proof.
  intros cap csz sc sched x t b e y E.
  destruct (gate_inv cap csz sc _ (log_run_reached cap csz sc sched)) as [G _]. exact (G _ _ _ _ _ E).
Qed.
Print Assumptions C63_recorded_only_if_enabled.

(** What a test of a category status shows. While tracing is on it shows
    exactly whether the running trace's configuration switches the category on.
    While tracing is off and nobody is starting or stopping it, every category
    is off; while somebody is, a test may still see the old trace's choice or
    already the new one's. *)
Theorem C63_status_is_configuration : forall cap csz site_cat sched x t i v y u c,
  hist (log_run cap csz site_cat sched) = x ++ Tested t i v :: y -> In (Looked u c i) x ->
  (tracing x = true -> (v = true <-> switched_by (started_with x) (group_of i c))) /\
  (tracing x = false -> v = true -> switched_by (started_with x) (group_of i c) \/ switched_by (configuration x) (group_of i c)) /\
  (tracing x = false -> section x = [] -> v = false).
Proof.
  intros cap csz sc sched x t i v y u c E Lk.
  exact (tested_inv cap csz sc _ (log_run_reached cap csz sc sched) _ _ _ _ _ _ _ E Lk).
Qed.
Print Assumptions C63_status_is_configuration.

(** In every state where nobody is starting or stopping: with tracing off all
    categories are off; with tracing on, exactly those the configuration asks
    for are on. *)
Theorem C63_statuses_at_rest : forall cap csz site_cat sched u c i,
  let s := log_run cap csz site_cat sched in
  mtx s = None -> In (Looked u c i) (hist s) ->
  (rg_status (reg s) i = true <-> tracing (hist s) = true /\ switched_by (started_with (hist s)) (group_of i c)).
Proof.
  intros cap csz sc sched u c i s M Lk. pose proof (log_run_reached cap csz sc sched) as R. fold s in R.
  pose proof (registry_ok cap csz sc s R) as K. destruct (reg_inv cap csz sc _ R) as [St _].
  destruct (lists_inv cap csz sc _ R) as [L1 L2]. specialize (St _ _ _ Lk). destruct (view_holds cap csz sc s R M) as [_ [D F]].
  assert (Hi : i < rg_count (reg s) /\ rg_groups (reg s) i = group_of i c).
  { unfold group_of. destruct (Nat.eqb_spec i 1) as [->|N].
    - pose proof (rk_lo _ K). split; [lia|]. rewrite (rk_def _ K) by lia. reflexivity.
    - destruct St as [St|[St _]]; [exact St|contradiction]. }
  destruct Hi as [Hi Hg]. rewrite (rk_stat _ K) by auto. rewrite Hg. unfold switched_by. destruct (tracing (hist s)).
  - specialize (L1 eq_refl). unfold config_lists in L1. injection L1 as -> ->. rewrite calculateEnabled_spec. tauto.
  - split; [|easy]. destruct (L2 eq_refl) as [X|[[X _]|[X _]]]; [|congruence|congruence]. specialize (X (group_of i c)). cbn in X. now rewrite X.
Qed.
Print Assumptions C63_statuses_at_rest.

Definition gates (h : list hev) : list (tid * (bool + bid)) :=
  flat_map (fun e => match e with Tested t _ v => [(t, inl v)] | Stored t b _ => [(t, inr b)] | _ => [] end) h.

Definition cfgC : config := setCategories (setStoppedCallback cfgA None) [$"cat"] [].
Definition cfgN : config := setCategories (setStoppedCallback cfgA None) [$"other"] [].

(** A trace point before, during and after a trace that wants its category, and
    in a trace that does not. *)
Example C63_case :
  gates (demo (call 1 (ORegister $"one") CNone 9 ++ call 1 (OMacro 0 ev1) CNone 30 ++ call 3 (OStart cfgC) (CFixed 2 mem0) 30 ++
               call 1 (OMacro 0 ev1) CNone 30 ++ call 3 (OStop false) CNone 4 ++ repeat (Step 3 (CPick 1)) 20 ++ call 1 (OMacro 0 ev1) CNone 30 ++
               call 3 (OStart cfgN) (CFixed 2 mem0) 30 ++ call 1 (OMacro 0 ev1) CNone 30)) =
  [(1, inl false); (1, inl true); (1, inr 0); (1, inl false); (1, inl false)].
Proof. vm_compute. reflexivity. Qed.

(** Finding: the test and the write are not one step. If a trace ends and
    another starts in between, the event lands in the new trace although the new
    configuration does not want its category. *)
Definition straddle : list sact :=
  call 1 (ORegister $"one") CNone 9 ++ call 3 (OStart cfgC) (CFixed 2 mem0) 30 ++ call 1 (OMacro 0 ev1) CNone 4 ++
  call 3 (OStop false) CNone 4 ++ repeat (Step 3 (CPick 1)) 20 ++ call 3 (OStart cfgN) (CFixed 2 mem0) 30 ++ repeat (Step 1 CNone) 30.

Fixpoint until_stored (h : list hev) : option (list hev * (tid * bid * event) * list hev) :=
  match h with
  | [] => None
  | Stored t b e :: r => Some ([], (t, b, e), r)
  | e :: r => match until_stored r with Some (x, p, y) => Some (e :: x, p, y) | None => None end
  end.

Lemma until_stored_ok h : forall x t b e y, until_stored h = Some (x, (t, b, e), y) -> h = x ++ Stored t b e :: y.
Proof.
  induction h as [|a h IH]; [easy|]. intros x t b e y E.
  destruct a; cbn in E;
    try (destruct (until_stored h) as [[[x' p] y']|]; [|discriminate]; injection E as <- -> ->; cbn; f_equal; apply IH; reflexivity).
  injection E as <- <- <- <- <-. reflexivity.
Qed.

Theorem C63_only_wanted_categories_refuted :
  exists cap csz site_cat sched x t b e y site z,
    hist (log_run cap csz site_cat sched) = x ++ Stored t b e :: y /\ in_call x t (OMacro site e) z /\ tracing x = true /\
    ~ switched_by (started_with x) (c_str (site_cat site)).
Proof.
  exists 3%N, 10%N, site0, straddle.
  destruct (until_stored (hist (log_run 3 10 site0 straddle))) as [[[x [[t b] e]] y]|] eqn:E; [|vm_compute in E; discriminate].
  pose proof (until_stored_ok _ _ _ _ _ _ E) as H. exists x, t, b, e, y, 0, (skipn 8 x). split; [exact H|]. clear H.
  vm_compute in E. injection E as <- <- <- <- <-. split; [|split; [reflexivity|]].
  - eexists (_ :: _ :: _ :: _ :: _ :: _ :: _ :: []). split; [cbn [app skipn]; reflexivity|]. intros o I. vm_compute in I. intuition discriminate.
  - unfold switched_by. rewrite <- calculateEnabled_spec. vm_compute. discriminate.
Qed.
Print Assumptions C63_only_wanted_categories_refuted.
