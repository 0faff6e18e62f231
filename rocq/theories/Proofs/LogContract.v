(** What legal histories of a TraceLog look like. *)
From Verif Require Import Base Model.StringUtils Model.Event Model.Queue Model.Buffer Model.Config Spec.Categories Model.Registry
  Model.Interleave Spec.LogHistory Spec.LogFacts Model.TraceLog Proofs.Interleave Proofs.Registry Proofs.LogFrame Proofs.LogView Proofs.LogViewInv.

(** ** Plain readings and the view *)

Ltac snoc h := induction h as [|?e h ?IH] using rev_ind; [try reflexivity|].

Lemma tracing_snoc h e : tracing (h ++ [e]) = match e with On _ _ _ => true | Off _ _ => false | _ => tracing h end.
Proof. unfold tracing. rewrite fold_left_app. now destruct e. Qed.

Lemma configuration_snoc h e : configuration (h ++ [e]) = match e with Configured _ c => c | _ => configuration h end.
Proof. unfold configuration. rewrite fold_left_app. now destruct e. Qed.

Lemma registered_snoc t h e : registered t (h ++ [e]) = match e with
    | Done u (ORegister _) RUnit => if Nat.eqb u t then true else registered t h
    | Done u ODeregister RUnit => if Nat.eqb u t then false else registered t h
    | _ => registered t h
    end.
Proof. unfold registered. rewrite fold_left_app. reflexivity. Qed.

Lemma loud_app a b : loud (a ++ b) = loud a ++ loud b.
Proof. apply filter_app. Qed.

Lemma loud_cons e l : loud (e :: l) = if inert e then loud l else e :: loud l.
Proof. unfold loud. cbn. now destruct (inert e). Qed.

Lemma section_snoc h e : section (h ++ [e]) =
  if inert e then section h else match e with Done _ _ _ | StopTried _ _ _ | Freed _ => [] | _ => section h ++ [e] end.
Proof. unfold section. now rewrite fold_left_app. Qed.

Lemma section_since h : since (status_after h) = section h.
Proof.
  snoc h. rewrite status_snoc, section_snoc, <- IH. unfold advance. now destruct (inert e).
Qed.

(** The section is the tail of the loud events. *)
Lemma section_tail h : exists x y, h = x ++ y /\ loud y = section h /\ section x = [].
Proof.
  snoc h; [now exists [], []|]. destruct IH as [x [y [-> [L S]]]]. rewrite section_snoc, <- L.
  assert (A : exists x0 y0, (x ++ y) ++ [e] = x0 ++ y0 /\ loud y0 = loud y ++ loud [e] /\ section x0 = []).
  { exists x, (y ++ [e]). rewrite <- app_assoc, loud_app. auto. }
  assert (B : inert e = false -> match e with Done _ _ _ | StopTried _ _ _ | Freed _ => True | _ => False end ->
    exists x0 y0, (x ++ y) ++ [e] = x0 ++ y0 /\ loud y0 = [] /\ section x0 = []).
  { intros In X. exists ((x ++ y) ++ [e]), []. rewrite app_nil_r. repeat split. rewrite section_snoc, In. now destruct e. }
  rewrite loud_cons in A. cbn [loud filter] in A.
  destruct (inert e) eqn:In; [rewrite app_nil_r in A; exact A|].
  destruct e; auto.
Qed.

Lemma v_on_tracing h : v_on (view_after h) = tracing h.
Proof.
  snoc h. rewrite view_snoc, tracing_snoc, <- IH. destruct e; auto; cbn; [destruct o, r|destruct h0, r]; auto.
Qed.

Lemma v_cfg_configuration h : v_cfg (view_after h) = configuration h.
Proof.
  snoc h. rewrite view_snoc, configuration_snoc, <- IH. destruct e; auto; cbn; [destruct o, r|destruct h0, r]; auto.
Qed.

Lemma v_regd_registered t h : mem t (v_regd (view_after h)) = registered t h.
Proof.
  snoc h. rewrite view_snoc, registered_snoc, <- IH. destruct e; auto; cbn [apply v_regd].
  - destruct o, r; auto; cbn [after_call v_regd].
    + rewrite mem_add, Nat.eqb_sym. now destruct (t0 =? t).
    + rewrite mem_del, Nat.eqb_sym. now destruct (t0 =? t).
  - destruct h0, r; auto.
Qed.

Lemma factory_calls_app a b : factory_calls (a ++ b) = (factory_calls a + factory_calls b)%N.
Proof. induction a as [|e a IH]; auto. cbn [app factory_calls]. destruct e; auto. rewrite IH. lia. Qed.

Lemma loud_snoc_last h x e : loud h = x ++ [e] -> exists a b, h = a ++ e :: b /\ loud b = [] /\ loud a = x.
Proof.
  revert x. snoc h; intros x E; [now destruct x|]. rewrite loud_app, loud_cons in E. cbn [loud filter] in E.
  destruct (inert e0) eqn:In.
  - rewrite app_nil_r in E. apply IH in E as [a [b [-> [L1 L2]]]]. exists a, (b ++ [e0]). rewrite <- app_assoc, loud_app, L1, loud_cons, In. auto.
  - apply app_inj_tail in E as [E ->]. exists h, []. auto.
Qed.

Lemma loud_first l e r : loud l = e :: r -> exists a b, l = a ++ e :: b /\ loud a = [] /\ loud b = r.
Proof.
  induction l as [|z l IH]; [easy|]. rewrite loud_cons. destruct (inert z) eqn:Iz.
  - intros H. destruct (IH H) as [a [b [-> [La Lb]]]]. exists (z :: a), b. rewrite loud_cons, Iz. auto.
  - intros H. inversion H; subst. exists [], l. auto.
Qed.

Lemma loud_nil_inert h : loud h = [] -> forall e, In e h -> inert e = true.
Proof.
  intros L e Hi. destruct (inert e) eqn:E; auto. assert (In e (loud h)) by (apply filter_In; now rewrite E). now rewrite L in *.
Qed.

Lemma view_inert x y : loud y = [] -> view_after (x ++ y) = view_after x.
Proof.
  intros L. unfold view_after. rewrite fold_left_app. generalize (fold_left apply x view0). intros v.
  induction y as [|e y IH] in v, L |- *; auto. rewrite loud_cons in L. destruct (inert e) eqn:E; [|easy]. cbn.
  rewrite inert_apply; auto.
Qed.

Lemma status_inert x y : loud y = [] -> status_after (x ++ y) = status_after x.
Proof.
  intros L. unfold status_after. rewrite fold_left_app. generalize (fold_left advance x status0). intros v.
  induction y as [|e y IH] in v, L |- *; auto. rewrite loud_cons in L. destruct (inert e) eqn:E; [|easy]. cbn.
  unfold advance at 2. rewrite E. auto.
Qed.

Lemma section_inert x y : loud y = [] -> section (x ++ y) = section x.
Proof. intros L. rewrite <- !section_since. now rewrite status_inert. Qed.

(** *** The buffer *)

Lemma v_buf_keep x y : (forall e, In e y -> is_on e = false) -> v_buf (view_after x) = None -> v_buf (view_after (x ++ y)) = None.
Proof.
  revert x. induction y as [|e y IH]; intros x N B; [now rewrite app_nil_r|].
  replace (x ++ e :: y) with ((x ++ [e]) ++ y) by now rewrite <- app_assoc. apply IH; [intros; apply N; now right|].
  rewrite view_snoc. specialize (N e (or_introl eq_refl)). destruct e; auto; try easy; cbn; [destruct o, r|destruct h, r]; auto.
Qed.

Lemma v_buf_same x y : (forall e, In e y -> is_on e = false /\ retrieved e = None /\ (forall t, e <> Freed t)) ->
  v_buf (view_after (x ++ y)) = v_buf (view_after x).
Proof.
  revert x. induction y as [|e y IH]; intros x N; [now rewrite app_nil_r|].
  replace (x ++ e :: y) with ((x ++ [e]) ++ y) by now rewrite <- app_assoc. rewrite IH; [|intros; apply N; now right].
  rewrite view_snoc. destruct (N e (or_introl eq_refl)) as [A [B C]].
  destruct e; auto; try easy; cbn; [destruct o, r|destruct h, r|now destruct (C t)]; cbn; try reflexivity; discriminate B.
Qed.

Lemma v_buf_taken x e o : retrieved e = Some o -> v_buf (view_after (x ++ [e])) = None.
Proof.
  rewrite view_snoc. intros X. destruct e; try discriminate X; [destruct o0, r|destruct h, r]; try discriminate X; reflexivity.
Qed.

Lemma v_buf_on x t g m : v_buf (view_after (x ++ [On t g m])) = made_buffer m.
Proof. now rewrite view_snoc. Qed.

Lemma v_buf_start x : (forall e, In e x -> is_on e = false) -> v_buf (view_after x) = None.
Proof. intros N. now apply (v_buf_keep [] x). Qed.

(** *** Names *)

Definition name_of (t : tid) (l : list (tid * bytes)) (n : bytes) : Prop := In (t, n) l.

Lemma In_name_del p t l : In p (name_del t l) <-> In p l /\ fst p <> t.
Proof. unfold name_del. rewrite filter_In, negb_true_iff, Nat.eqb_neq. split; intros [A B]; split; auto. Qed.

Lemma In_name_clear p ds l : In p (name_clear ds l) <-> In p l /\ ~ In (fst p) ds.
Proof. unfold name_clear. now rewrite filter_In, negb_true_iff, mem_not. Qed.

Lemma names_unique h : NoDup (map fst (v_names (view_after h))).
Proof.
  assert (F : forall (f : tid * bytes -> bool) l, NoDup (map fst l) -> NoDup (map fst (filter f l))).
  { intros f l. induction l as [|p l IH]; cbn; auto. intros N. inversion N; subst. destruct (f p); cbn; auto.
    constructor; auto. rewrite in_map_iff in *. intros [q [E I]]. apply filter_In in I as [I _]. eauto. }
  snoc h; [constructor|]. rewrite view_snoc. destruct e; auto; cbn [apply v_names].
  - now apply F.
  - destruct o, r; auto; cbn [after_call v_names].
    + destruct (is_nil name); auto. unfold name_set. cbn. constructor; [|now apply F].
      rewrite in_map_iff. intros [q [E I]]. apply In_name_del in I. tauto.
    + destruct (v_on _); auto. now apply F.
  - destruct h0, r; auto.
Qed.

(** A name given to a thread stays while the thread does not give itself another
    and does not leave. *)
Lemma name_stays x y t n : In (t, n) (v_names (view_after x)) -> ~ In t (v_dereg (view_after x)) ->
  (forall e, In e y -> names_thread t e = false /\ leaves t e = false) ->
  In (t, n) (v_names (view_after (x ++ y))) /\ ~ In t (v_dereg (view_after (x ++ y))).
Proof.
  revert x. induction y as [|e y IH]; intros x A B N; [now rewrite app_nil_r|].
  replace (x ++ e :: y) with ((x ++ [e]) ++ y) by now rewrite <- app_assoc.
  destruct (N e (or_introl eq_refl)) as [N1 N2].
  apply IH; [| |intros; apply N; now right].
  - rewrite view_snoc. destruct e; auto; cbn [apply v_names].
    + now apply In_name_clear.
    + destruct o, r; auto; cbn [after_call v_names]; cbn in N1, N2.
      * destruct (is_nil name); auto. unfold name_set. right. apply In_name_del. split; auto. cbn.
        rewrite andb_true_r in N1. apply Nat.eqb_neq in N1. congruence.
      * destruct (v_on _); auto. apply In_name_del. split; auto. cbn. apply Nat.eqb_neq in N2. congruence.
    + destruct h, r; auto.
  - rewrite view_snoc. destruct e; auto; cbn [apply v_dereg].
    + destruct o, r; auto; cbn [after_call v_dereg]; cbn in N1, N2.
      * destruct (is_nil name); auto. rewrite In_del. tauto.
      * destruct (v_on _); auto. rewrite In_add. apply Nat.eqb_neq in N2. intros [->|X]; auto.
    + destruct h, r; auto.
Qed.

(** A thread without a name stays without one until it registers with one. *)
Lemma name_absent x y t : (forall n, ~ In (t, n) (v_names (view_after x))) -> (forall e, In e y -> names_thread t e = false) ->
  forall n, ~ In (t, n) (v_names (view_after (x ++ y))).
Proof.
  revert x. induction y as [|e y IH]; intros x A N; [now rewrite app_nil_r|].
  replace (x ++ e :: y) with ((x ++ [e]) ++ y) by now rewrite <- app_assoc.
  pose proof (N e (or_introl eq_refl)) as N1.
  apply IH; [|intros; apply N; now right]. intros n.
  rewrite view_snoc. destruct e; auto; cbn [apply v_names].
  - rewrite In_name_clear. intros [X _]. now apply A in X.
  - destruct o, r; auto; cbn [after_call v_names]; cbn in N1.
    + destruct (is_nil name); auto. unfold name_set. rewrite andb_true_r in N1. apply Nat.eqb_neq in N1.
      intros [X|X]; [congruence|]. apply In_name_del in X as [X _]. now apply A in X.
    + destruct (v_on _); auto. rewrite In_name_del. intros [X _]. now apply A in X.
  - destruct h, r; auto.
Qed.

(** A thread that left while tracing is remembered until it registers with a name. *)
Lemma dereg_stays x y t : In t (v_dereg (view_after x)) -> (forall e, In e y -> names_thread t e = false) ->
  In t (v_dereg (view_after (x ++ y))).
Proof.
  revert x. induction y as [|e y IH]; intros x A N; [now rewrite app_nil_r|].
  replace (x ++ e :: y) with ((x ++ [e]) ++ y) by now rewrite <- app_assoc.
  pose proof (N e (or_introl eq_refl)) as N1.
  apply IH; [|intros; apply N; now right]. rewrite view_snoc. destruct e; auto; cbn [apply v_dereg].
  - destruct o, r; auto; cbn [after_call v_dereg]; cbn in N1.
    + destruct (is_nil name); auto. rewrite In_del. rewrite andb_true_r in N1. apply Nat.eqb_neq in N1. split; auto.
    + destruct (v_on _); auto. rewrite In_add. auto.
  - destruct h, r; auto.
Qed.

(** A name goes only by a start or by the thread leaving. *)
Lemma name_until_start x y t n : In (t, n) (v_names (view_after x)) ->
  (forall e, In e y -> names_thread t e = false /\ leaves t e = false /\ is_on e = false) ->
  In (t, n) (v_names (view_after (x ++ y))).
Proof.
  revert x. induction y as [|e y IH]; intros x A N; [now rewrite app_nil_r|].
  replace (x ++ e :: y) with ((x ++ [e]) ++ y) by now rewrite <- app_assoc.
  destruct (N e (or_introl eq_refl)) as [N1 [N2 N3]].
  apply IH; [|intros; apply N; now right].
  rewrite view_snoc. destruct e; auto; cbn [apply v_names]; [easy| |].
  - destruct o, r; auto; cbn [after_call v_names]; cbn in N1, N2.
    + destruct (is_nil name); auto. unfold name_set. right. apply In_name_del. split; auto. cbn.
      rewrite andb_true_r in N1. apply Nat.eqb_neq in N1. congruence.
    + destruct (v_on _); auto. apply In_name_del. split; auto. cbn. apply Nat.eqb_neq in N2. congruence.
  - destruct h, r; auto.
Qed.

Lemma dereg_fresh x t n : is_nil n = false ->
  In (t, n) (v_names (view_after (x ++ [Done t (ORegister n) RUnit]))) /\ ~ In t (v_dereg (view_after (x ++ [Done t (ORegister n) RUnit]))).
Proof.
  intros E. rewrite view_snoc. cbn [apply after_call v_names v_dereg]. rewrite E. split; [now left|]. rewrite In_del. tauto.
Qed.

Section Legal.
  Variable csz : N.
  Variable h : list hev.
  Hypothesis L : all_legal csz h.

  Lemma legal_at x e y : h = x ++ e :: y -> inert e = false -> 
    match e with
    | Callback t o => exists w, due (status_after x) = Some (t, w) /\ o = callback_due (configuration x) (is_shutdown w) /\ tracing x = false
    | _ => due (status_after x) = None
    end /\
    match e with
    | On t g m => fresh (status_after x) = Some (g, m) /\ tracing x = false
    | _ => fresh (status_after x) = None
    end /\
    match e with
    | Off t w => tracing x = true /\ restart_legal csz (status_after x) t w
    | Made _ g n m => g = v_gen (view_after x) /\ tracing x = false /\ n = wants csz (configuration x) /\ n <> 0%N /\
                      factory_can (cf_factory (configuration x)) n m
    | Done t o r => call_legal csz (status_after x) t o r
    | StopTried t w r => stop_legal (status_after x) t w r /\ (is_shutdown w = true -> tracing x = false)
    | Nested t h r => nested_legal csz (status_after x) t h r
    | Freed _ => tracing x = false
    | _ => True
    end.
  Proof.
    intros E In. specialize (L _ _ _ E). unfold legal in L. rewrite In, status_view, v_on_tracing, v_cfg_configuration in L. exact L.
  Qed.

  (** *** Generations *)

  Lemma v_gen_calls : forall x y, h = x ++ y -> v_gen (view_after x) = factory_calls x.
  Proof.
    intros x. snoc x. intros y E. rewrite <- app_assoc in E. cbn in E. rewrite view_snoc, factory_calls_app. specialize (IH _ E).
    destruct e; cbn [apply v_gen factory_calls]; rewrite ?IH, ?N.add_0_r; auto.
    - apply legal_at in E as [_ [_ [-> _]]]; [|reflexivity]. rewrite IH. lia.
    - destruct o, r; auto.
    - destruct h0, r; auto.
  Qed.

  Lemma fresh_made : forall x y g m, h = x ++ y -> fresh (status_after x) = Some (g, m) ->
    exists a t n b, x = a ++ Made t g n m :: b /\ loud b = [] /\ (forall z, m <> MadeThrow z).
  Proof.
    intros x. snoc x; [easy|]. intros y g m E F. rewrite <- app_assoc in E. cbn in E. rewrite status_snoc in F. unfold advance in F.
    destruct (inert e) eqn:In.
    - destruct (IH _ _ _ E F) as [a [t [n [b [-> [Lb N]]]]]]. exists a, t, n, (b ++ [e]). rewrite <- app_assoc, loud_app, Lb, loud_cons, In. auto.
    - pose proof (legal_at _ _ _ E In) as [_ [Fr _]]. destruct e; cbn in F, Fr; try congruence.
      destruct m0; inversion F; subst; exists x, t, n, []; repeat split; easy.
  Qed.

  Lemma made_gen x t g n m y : h = x ++ Made t g n m :: y -> g = factory_calls x.
  Proof. intros E. rewrite <- (v_gen_calls _ _ E). now apply legal_at in E as [_ [_ [-> _]]]. Qed.

  Lemma factory_calls_inert b : loud b = [] -> factory_calls b = 0%N.
  Proof.
    induction b as [|e b IH]; auto. rewrite loud_cons. destruct (inert e) eqn:In; [|easy]. intros Lb. cbn. destruct e; auto. easy.
  Qed.

  Lemma on_made x t g m y : h = x ++ On t g m :: y ->
    exists a u n b, x = a ++ Made u g n m :: b /\ loud b = [] /\ (forall z, m <> MadeThrow z) /\ (g + 1)%N = factory_calls x /\ g = factory_calls a.
  Proof.
    intros E. pose proof (legal_at _ _ _ E eq_refl) as [_ [[F _] _]].
    destruct (fresh_made _ _ _ _ E F) as [a [u [n [b [-> [Lb N]]]]]].
    rewrite <- app_assoc in E. cbn in E. pose proof (made_gen _ _ _ _ _ _ E) as G.
    exists a, u, n, b. split; [auto|]. split; [auto|]. split; [auto|]. split; [|auto].
    rewrite factory_calls_app. cbn [factory_calls]. rewrite (factory_calls_inert b) by auto. lia.
  Qed.

  Lemma on_next x t g m y u g' m' z : h = x ++ On t g m :: y ++ On u g' m' :: z ->
    (forall e, In e y -> is_on e = false /\ is_throw e = false) -> g' = (g + 1)%N.
  Proof.
    intros E Ny. pose proof (on_made _ _ _ _ _ E) as [_ [_ [_ [_ [_ [_ [_ [G _]]]]]]]].
    assert (E' : h = (x ++ On t g m :: y) ++ On u g' m' :: z) by (rewrite <- app_assoc; exact E).
    pose proof (on_made _ _ _ _ _ E') as [_ [_ [_ [_ [_ [_ [_ [G' _]]]]]]]].
    pose proof (legal_at _ _ _ E' eq_refl) as [_ [[F _] _]].
    rewrite factory_calls_app in G'. cbn [factory_calls] in G'.
    assert (K : forall p r, y = p ++ r -> (fresh (status_after (x ++ On t g m :: p)) = None /\ factory_calls p = 0%N) \/ 
                                  (fresh (status_after (x ++ On t g m :: p)) <> None /\ factory_calls p = 1%N)).
    { intros p. snoc p; intros r Ep.
      - left. rewrite status_snoc. auto.
      - rewrite <- app_assoc in Ep. cbn in Ep. specialize (IH _ Ep). subst y.
        assert (E2 : h = (x ++ On t g m :: p) ++ e :: (r ++ On u g' m' :: z)) by (rewrite E; now repeat (rewrite <- app_assoc; cbn)).
        rewrite (app_assoc x (On t g m :: p) [e] : x ++ On t g m :: p ++ [e] = _), status_snoc, factory_calls_app.
        destruct (Ny e) as [N1 N2]; [apply in_or_app; right; now left|].
        destruct (inert e) eqn:In.
        + unfold advance. rewrite In. destruct IH as [[A B]|[A B]]; [left|right]; split; auto; destruct e; cbn [factory_calls]; try lia; easy.
        + pose proof (legal_at _ _ _ E2 In) as [_ [Fr _]]. unfold advance. rewrite In.
          destruct IH as [[A B]|[A B]].
          * destruct e; cbn [fresh]; try (left; split; [exact A|cbn [factory_calls]; lia]); [right|easy].
            destruct m0; cbn [is_throw] in N2; try easy; split; try discriminate; cbn [factory_calls]; lia.
          * destruct e; try congruence. easy. }
    destruct (K y [] (eq_sym (app_nil_r _))) as [[A B]|[A B]]; [congruence|]. lia.
  Qed.

  Lemma on_later x t g m y u g' m' z : h = x ++ On t g m :: y ++ On u g' m' :: z -> (g < g')%N.
  Proof.
    intros E. assert (E' : h = (x ++ On t g m :: y) ++ On u g' m' :: z) by (rewrite <- app_assoc; exact E).
    destruct (on_made _ _ _ _ _ E) as [_ [_ [_ [_ [_ [_ [_ [G _]]]]]]]].
    destruct (on_made _ _ _ _ _ E') as [_ [_ [_ [_ [_ [_ [_ [G' _]]]]]]]].
    pose proof (legal_at _ _ _ E' eq_refl) as [_ [[F _] _]].
    rewrite factory_calls_app in G'. cbn [factory_calls] in G'.
    assert (K : forall p r, y = p ++ r -> fresh (status_after (x ++ On t g m :: p)) <> None -> (1 <= factory_calls p)%N).
    { intros p. snoc p; intros r Ep Fr.
      - rewrite status_snoc in Fr. now destruct Fr.
      - rewrite <- app_assoc in Ep. cbn in Ep. specialize (IH _ Ep). rewrite factory_calls_app.
        rewrite (app_assoc x (On t g m :: p) [e] : x ++ On t g m :: p ++ [e] = _), status_snoc in Fr. unfold advance in Fr.
        destruct (inert e) eqn:In; [specialize (IH Fr); lia|]. destruct e; cbn in Fr; try (specialize (IH Fr); lia).
        + cbn [factory_calls]. lia.
        + easy. }
    specialize (K y [] (eq_sym (app_nil_r _))). rewrite F in K. specialize (K ltac:(discriminate)). lia.
  Qed.

  (** *** Retrieval *)

  Lemma retrieval_result x e y r : h = x ++ e :: y -> retrieval e = Some r ->
    if tracing x then r = RThrow LogicError else retrieved e = Some (v_buf (view_after x)).
  Proof.
    intros E R. assert (In : inert e = false) by (destruct e; try easy; destruct o; easy).
    pose proof (legal_at _ _ _ E In) as [_ [_ X]]. destruct e; try easy; cbn in R.
    - destruct o; try easy; inversion R; subst; cbn in X; destruct X as [_ X]; rewrite status_view, v_on_tracing in X; destruct (tracing x); now rewrite X.
    - destruct h0; try easy; inversion R; subst; cbn in X; rewrite status_view, v_on_tracing in X; destruct (tracing x); now rewrite X.
  Qed.

  Lemma retrieved_buf x e y o : h = x ++ e :: y -> retrieved e = Some o -> o = v_buf (view_after x).
  Proof.
    intros E Ro. destruct (retrieval e) as [r|] eqn:R.
    - pose proof (retrieval_result _ _ _ _ E R) as X. destruct (tracing x); [|congruence].
      subst r. destruct e; try easy; cbn in R; [destruct o0; try easy|destruct h0; try easy]; inversion R; subst; easy.
    - destruct e; try easy; [destruct o0, r; easy|destruct h0, r; easy].
  Qed.

  Lemma names_result x e y ns : h = x ++ e :: y -> context_names e = Some ns -> ns = v_names (view_after x).
  Proof.
    unfold context_names. destruct (retrieval e) as [r|] eqn:R; [|easy]. intros E Ro. destruct r; try easy. injection Ro as <-.
    assert (In : inert e = false) by (destruct e; try easy; destruct o; easy).
    pose proof (legal_at _ _ _ E In) as [_ [_ X]]. destruct e; try easy; cbn in R.
    - destruct o; try easy; inversion R; subst; cbn in X; destruct X as [_ X]; rewrite status_view in X; destruct (v_on _); congruence.
    - destruct h0; try easy; inversion R; subst; cbn in X; rewrite status_view in X; destruct (v_on _); congruence.
  Qed.

  (** *** Callbacks *)

  Lemma due_off : forall x y t w, h = x ++ y -> due (status_after x) = Some (t, w) ->
    exists a b, x = a ++ Off t w :: b /\ loud b = [].
  Proof.
    intros x. snoc x; [easy|]. intros y t w E F. rewrite <- app_assoc in E. cbn in E. rewrite status_snoc in F. unfold advance in F.
    destruct (inert e) eqn:In.
    - destruct (IH _ _ _ E F) as [a [b [-> Lb]]]. exists a, (b ++ [e]). rewrite <- app_assoc, loud_app, Lb, loud_cons, In. auto.
    - pose proof (legal_at _ _ _ E In) as [D _]. destruct e; cbn in F, D; try congruence.
      inversion F; subst. exists x, []. auto.
  Qed.

  Lemma off_then x t w y e : h = x ++ Off t w :: y -> hd_error (loud y) = Some e -> e = Callback t (callback_due (configuration x) (is_shutdown w)).
  Proof.
    intros E F. assert (exists a b, y = a ++ e :: b /\ loud a = [] /\ inert e = false) as [a [b [-> [La Ie]]]].
    { clear - F. induction y as [|z y IH]; [easy|]. rewrite loud_cons in F. destruct (inert z) eqn:Iz.
      - destruct (IH F) as [a [b [-> [La Ie]]]]. exists (z :: a), b. rewrite loud_cons, Iz. auto.
      - inversion F; subst. exists [], y. auto. }
    assert (E2 : h = (x ++ Off t w :: a) ++ e :: b) by (now rewrite <- app_assoc).
    pose proof (legal_at _ _ _ E2 Ie) as [D _].
    assert (Eq : x ++ Off t w :: a = (x ++ [Off t w]) ++ a) by now rewrite <- app_assoc.
    rewrite Eq, status_inert, status_snoc in D by auto.
    assert (Ec : configuration (x ++ Off t w :: a) = configuration x).
    { rewrite <- !v_cfg_configuration, Eq, view_inert, view_snoc by auto. reflexivity. }
    destruct e; cbn in D; try easy. destruct D as [w' [X [-> _]]]. inversion X; subst. rewrite <- Eq, Ec. reflexivity.
  Qed.

  Lemma callback_of x t o y : h = x ++ Callback t o :: y -> exists a w b, x = a ++ Off t w :: b /\ loud b = [] /\ o = callback_due (configuration a) (is_shutdown w).
  Proof.
    intros E. pose proof (legal_at _ _ _ E eq_refl) as [[w [D [-> _]]] _].
    destruct (due_off _ _ _ _ E D) as [a [b [-> Lb]]]. exists a, w, b. repeat split; auto. f_equal.
    rewrite <- !v_cfg_configuration. replace (a ++ Off t w :: b) with ((a ++ [Off t w]) ++ b) by now rewrite <- app_assoc.
    now rewrite view_inert, view_snoc.
  Qed.

  Lemma restart_of x t y : h = x ++ Off t Restarted :: y ->
    exists a c b, x = a ++ Configured t c :: b /\ loud b = [] /\ wants csz c <> 0%N /\ tracing a = true /\ configuration x = c.
  Proof.
    intros E. pose proof (legal_at _ _ _ E eq_refl) as [_ [_ [T [before [S W]]]]].
    rewrite section_since in S. rewrite status_view, v_cfg_configuration in *.
    destruct (section_tail x) as [x1 [x2 [Ex [Lx _]]]]. rewrite S in Lx. apply loud_snoc_last in Lx as [a [b [E2 [Lb _]]]].
    exists (x1 ++ a), (configuration x), b. subst x2. rewrite <- app_assoc. repeat split; auto.
    assert (T' : tracing ((x1 ++ a ++ [Configured t (configuration x)]) ++ b) = true) by (rewrite <- !app_assoc; cbn; now rewrite <- Ex).
    rewrite <- v_on_tracing, view_inert, app_assoc, view_snoc in T' by auto. rewrite <- v_on_tracing. exact T'.
  Qed.
End Legal.
