(** C52, C55-C61: the calls of a TraceLog, made by any number of threads. *)
From Verif Require Import Base Model.StringUtils Model.Event Model.Queue Model.Buffer Model.Config Spec.Categories Model.Registry
  Model.Interleave Spec.LogHistory Spec.LogFacts Model.TraceLog Proofs.Interleave Proofs.Registry Proofs.LogFrame Proofs.LogView Proofs.LogViewInv
  Proofs.LogContract Proofs.LogBuffers.

(** A run of the log: any threads, any calls, any interleaving, any callbacks
    that keep the two rules of [polite]. *)
Definition log_run (cap csz : N) (site_cat : nat -> bytes) (sched : list sact) : st := run (pstep cap csz site_cat) log_new sched.

Lemma log_run_reached cap csz sc sched : reached cap csz sc (log_run cap csz sc sched).
Proof. now exists sched. Qed.

Ltac legal_run h L := match goal with |- context [log_run ?cap ?csz ?sc ?sched] =>
  pose proof (history_legal cap csz sc _ (log_run_reached cap csz sc sched)) as L; set (h := hist (log_run cap csz sc sched)) in * end.

(** ** Concrete runs for the examples *)

Definition mem0 : N -> chunk := fun _ => {| c_next := 0; c_tid := 0; c_arr := fun _ => event0 |}.

(** Thread [t] makes the call and performs up to [n] actions. *)
Definition call (t : tid) (o : op) (ch : choice) (n : nat) : list sact := Invoke t o :: repeat (Step t ch) n.

Definition cfgA : config := setStoppedCallback (config_factory make_fixed_buffer 25) (Some (user_callback 1)).
Definition cfgB : config := setStoppedCallback (config_factory make_fixed_buffer 35) (Some (user_callback 2)).
Definition tiny : config := setStoppedCallback (config_factory make_fixed_buffer 9) (Some (user_callback 3)).
Definition site0 : nat -> bytes := fun _ => $"cat".

Definition demo (sched : list sact) : list hev := hist (log_run 3 10 site0 sched).

(** ** C52 *)

(** An event enters a buffer only if its thread is registered, and tracing was
    on at some moment since that thread's current call began. *)
Theorem C52_only_registered_and_enabled : forall cap csz site_cat sched x t b e y,
  hist (log_run cap csz site_cat sched) = x ++ Stored t b e :: y ->
  registered t x = true /\
  exists x1 x2, x = x1 ++ x2 /\ tracing x1 = true /\ forall o, ~ In (Invoked t o) x2.
Proof.
  intros cap csz sc sched x t b e y E.
  destruct (stored_legal cap csz sc _ (log_run_reached cap csz sc sched) _ _ _ _ _ E) as [R [x1 [x2 [-> [T N]]]]].
  rewrite v_regd_registered in R. rewrite v_on_tracing in T. split; auto. exists x1, x2. auto.
Qed.
Print Assumptions C52_only_registered_and_enabled.

(** So a call that runs entirely while tracing is off stores nothing. *)
Theorem C52_nothing_while_disabled : forall cap csz site_cat sched x t o y,
  hist (log_run cap csz site_cat sched) = x ++ Invoked t o :: y ->
  (forall y1 y2, y = y1 ++ y2 -> tracing (x ++ Invoked t o :: y1) = false) ->
  (forall o', ~ In (Invoked t o') y) ->
  forall b e, ~ In (Stored t b e) y.
Proof.
  intros cap csz sc sched x t o y E Off1 One b e Hi. apply in_split in Hi as [y1 [y2 ->]].
  assert (E2 : hist (log_run cap csz sc sched) = (x ++ Invoked t o :: y1) ++ Stored t b e :: y2) by (rewrite E, <- app_assoc; reflexivity).
  destruct (C52_only_registered_and_enabled _ _ _ _ _ _ _ _ _ E2) as [_ [x1 [x2 [Ex [T N]]]]].
  assert (exists z, x1 = x ++ Invoked t o :: z /\ exists w, y1 = z ++ w) as [z [-> [w ->]]].
  { clear - Ex N. revert x1 Ex. induction x as [|a x IH]; intros x1 Ex.
    - destruct x1 as [|b x1]; [cbn in Ex; subst; destruct (N o); now left|]. inversion Ex; subst. exists x1. split; auto. eauto.
    - destruct x1 as [|b x1].
      + cbn in Ex. subst x2. destruct (N o). right. apply in_or_app. right. now left.
      + inversion Ex; subst. destruct (IH x1 H1) as [z [-> [w ->]]]. exists z. split; auto. eauto. }
  rewrite (Off1 z (w ++ Stored t b e :: y2)) in T; [easy|]. now rewrite <- app_assoc.
Qed.
Print Assumptions C52_nothing_while_disabled.

Definition ev1 : event := event0.

(** Thread 1 logs before registering, while off, and while on; thread 2 never
    registers. Only the last of 1's calls stores. *)
Example C52_case :
  filter (fun e => match e with Stored _ _ _ => true | _ => false end)
    (demo (call 1 (ORegister ($"one")) CNone 9 ++ call 1 (OLog ev1) CNone 30 ++ call 3 (OStart cfgA) (CFixed 2 mem0) 30 ++
           call 2 (OLog ev1) CNone 30 ++ call 1 (OLog ev1) CNone 30)) = [Stored 1 0 ev1].
Proof. vm_compute. reflexivity. Qed.

(** ** C55 *)

(** The factory called for the (n+1)-th time is given generation n, and a trace
    is switched on with the buffer and the generation of the factory call just
    before. *)
Theorem C55_generations : forall cap csz site_cat sched,
  let s := log_run cap csz site_cat sched in
  (forall x t g n m y, hist s = x ++ Made t g n m :: y -> g = factory_calls x) /\
  (forall x t g m y, hist s = x ++ On t g m :: y ->
     exists a u n b, x = a ++ Made u g n m :: b /\ loud b = [] /\ (g + 1)%N = factory_calls x) /\
  (forall t g n m b, In (Made t g n m) (hist s) -> made_buffer m = Some b -> b_gen (heap s b) = g).
Proof.
  intros cap csz sc sched s. pose proof (history_legal cap csz sc _ (log_run_reached cap csz sc sched)) as L. fold s in L.
  split; [|split].
  - intros. eapply made_gen; eauto.
  - intros x t g m y E. destruct (on_made _ _ L _ _ _ _ _ E) as [a [u [n [b [-> [Lb [_ [G _]]]]]]]]. eauto 9.
  - intros t g n m b Hi Mb. apply in_split in Hi as [x [y E]].
    destruct (bufs_inv cap csz sc s (log_run_reached cap csz sc sched)) as [_ B]. destruct (B _ _ _ _ _ _ _ E Mb) as [_ M].
    destruct m; cbn in Mb, M; try easy; apply M.
Qed.
Print Assumptions C55_generations.

(** Later traces have larger generations; the next trace has the next
    generation unless a factory threw in between. *)
Theorem C55_increasing : forall cap csz site_cat sched x t g m y u g' m' z,
  hist (log_run cap csz site_cat sched) = x ++ On t g m :: y ++ On u g' m' :: z ->
  (g < g')%N /\
  ((forall e, In e y -> is_on e = false /\ is_throw e = false) -> g' = (g + 1)%N).
Proof.
  intros cap csz sc sched. legal_run h L. intros. split; [eapply on_later|eapply on_next]; eauto.
Qed.
Print Assumptions C55_increasing.

(** Two buffers never have the same number. *)
Theorem C55_fresh_buffers : forall cap csz site_cat sched x t g n m y u g' n' m' z b,
  hist (log_run cap csz site_cat sched) = x ++ Made t g n m :: y ++ Made u g' n' m' :: z ->
  made_buffer m = Some b -> made_buffer m' <> Some b.
Proof.
  intros cap csz sc sched x t g n m y u g' n' m' z b E M M'.
  destruct (bufs_inv cap csz sc _ (log_run_reached cap csz sc sched)) as [_ B].
  destruct (B _ _ _ _ _ _ _ E M) as [X1 _].
  assert (E2 : hist (log_run cap csz sc sched) = (x ++ Made t g n m :: y) ++ Made u g' n' m' :: z) by (rewrite E, <- app_assoc; reflexivity).
  destruct (B _ _ _ _ _ _ _ E2 M') as [X2 _]. rewrite buffers_made_app in X2. cbn in X2. rewrite M in X2. lia.
Qed.
Print Assumptions C55_fresh_buffers.

Definition boom : config := config_factory (user_factory 7) 25.
Definition ons (h : list hev) : list N := flat_map (fun e => match e with On _ g _ => [g] | _ => [] end) h.

(** Three traces in a row. *)
Example C55_case :
  ons (demo (call 1 (OStart cfgA) (CFixed 2 mem0) 30 ++ call 2 (OStart cfgB) (CFixed 3 mem0) 11 ++ [HookEnd 2 None] ++ repeat (Step 2 (CFixed 3 mem0)) 30 ++
             call 1 (OStop false) CNone 10 ++ [HookEnd 1 None] ++ repeat (Step 1 CNone) 9 ++ call 2 (OStart cfgA) (CFixed 2 mem0) 30)) = [0; 1; 2]%N.
Proof. vm_compute. reflexivity. Qed.

(** Finding: generations can skip a number. *)
Theorem C55_consecutive_refuted :
  ~ (forall cap csz site_cat sched x t g m y u g' m' z,
      hist (log_run cap csz site_cat sched) = x ++ On t g m :: y ++ On u g' m' :: z ->
      (forall e, In e y -> is_on e = false) -> g' = (g + 1)%N).
Proof.
  intros H.
  set (sched := call 1 (OStart (setStoppedCallback boom None)) (CFixed 2 mem0) 30 ++ call 1 (OStart (setStoppedCallback boom None)) (CThrow BadAlloc) 30 ++
                call 1 (OStart (setStoppedCallback boom None)) (CFixed 2 mem0) 30).
  specialize (H 3%N 10%N site0 sched). 
  assert (E : exists x y z, hist (log_run 3 10 site0 sched) = x ++ On 1 0 (MadeFixed 0 2) :: y ++ On 1 2 (MadeFixed 1 2) :: z /\
             (forall e, In e y -> is_on e = false)).
  { set (h := hist _). vm_compute in h. subst h.
    eexists [_; _; _], [_; _; _; _; _; _; _; _; _; _], [_]. split; [reflexivity|].
    cbn. intros e X. repeat destruct X as [<-|X]; easy. }
  destruct E as [x [y [z [E N]]]]. specialize (H _ _ _ _ _ _ _ _ _ E N). discriminate H.
Qed.
Print Assumptions C55_consecutive_refuted.

(** ** C56 *)

(** getBuffer and getTraceContext throw exactly while tracing is on. *)
Theorem C56_throws_iff_tracing : forall cap csz site_cat sched x e y r,
  hist (log_run cap csz site_cat sched) = x ++ e :: y -> retrieval e = Some r ->
  (tracing x = true -> r = RThrow LogicError) /\ (tracing x = false -> exists o, retrieved e = Some o).
Proof.
  intros cap csz sc sched. legal_run h L. intros x e y r E R. pose proof (retrieval_result _ _ L _ _ _ _ E R) as X.
  destruct (tracing x); split; intros; try easy; eauto.
Qed.
Print Assumptions C56_throws_iff_tracing.

(** The first retrieval after a start returns the buffer of that trace. *)
Theorem C56_returns_the_buffer : forall cap csz site_cat sched x t g m y e o z,
  hist (log_run cap csz site_cat sched) = x ++ On t g m :: y ++ e :: z -> retrieved e = Some o ->
  (forall a, In a y -> is_on a = false /\ retrieved a = None /\ (forall u, a <> Freed u)) ->
  o = made_buffer m.
Proof.
  intros cap csz sc sched. legal_run h L. intros x t g m y e o z E R N.
  assert (E2 : h = ((x ++ [On t g m]) ++ y) ++ e :: z) by (rewrite E; now repeat (rewrite <- app_assoc; cbn)).
  rewrite (retrieved_buf _ _ L _ _ _ _ E2 R), v_buf_same by auto. apply v_buf_on.
Qed.
Print Assumptions C56_returns_the_buffer.

(** After it, and before the first start, retrieval returns null. *)
Theorem C56_then_null : forall cap csz site_cat sched,
  let h := hist (log_run cap csz site_cat sched) in
  (forall x e o y e' o' z, h = x ++ e :: y ++ e' :: z -> retrieved e = Some o -> retrieved e' = Some o' ->
     (forall a, In a y -> is_on a = false) -> o' = None) /\
  (forall x e o y, h = x ++ e :: y -> retrieved e = Some o -> (forall a, In a x -> is_on a = false) -> o = None).
Proof.
  intros cap csz sc sched. legal_run h L. intros h'. subst h'. split.
  - intros x e o y e' o' z E R R' N. assert (E2 : h = ((x ++ [e]) ++ y) ++ e' :: z) by (rewrite E; now repeat (rewrite <- app_assoc; cbn)).
    rewrite (retrieved_buf _ _ L _ _ _ _ E2 R'). apply v_buf_keep; auto. eapply v_buf_taken; eauto.
  - intros x e o y E R N. rewrite (retrieved_buf _ _ L _ _ _ _ E R). now apply v_buf_start.
Qed.
Print Assumptions C56_then_null.

(** No buffer is handed over twice, and one that is was that of a trace. *)
Theorem C56_handed_over_once : forall cap csz site_cat sched x e b y,
  hist (log_run cap csz site_cat sched) = x ++ e :: y -> retrieved e = Some (Some b) ->
  (exists t g m, In (On t g m) x /\ made_buffer m = Some b) /\
  (forall e', In e' y -> retrieved e' <> Some (Some b)).
Proof.
  intros cap csz sc sched. pose proof (bufs_inv cap csz sc _ (log_run_reached cap csz sc sched)) as [_ B]. legal_run h L.
  (* the buffer the log owns was switched on with *)
  assert (Own : forall x y b, h = x ++ y -> v_buf (view_after x) = Some b ->
            exists x1 t g m x2, x = x1 ++ On t g m :: x2 /\ made_buffer m = Some b /\ forall a, In a x2 -> is_on a = false /\ retrieved a = None).
  { intros x. induction x as [|a x IH] using rev_ind; intros y b E V; [easy|]. rewrite <- app_assoc in E. cbn in E. rewrite view_snoc in V.
    destruct (is_on a) eqn:Ia.
    - destruct a; try easy. cbn in V. exists x, t, g, m, []. repeat split; auto; easy.
    - assert (v_buf (view_after x) = Some b /\ retrieved a = None) as [V' Ra].
      { destruct a; try easy; cbn in V; [destruct o, r|destruct h0, r]; try easy. }
      destruct (IH _ _ E V') as [x1 [t [g [m [x2 [-> [M N]]]]]]]. exists x1, t, g, m, (x2 ++ [a]). rewrite <- app_assoc. repeat split; auto.
      + apply in_app_or in H as [H|[<-|[]]]; auto. now apply N.
      + apply in_app_or in H as [H|[<-|[]]]; auto. now apply N. }
  (* buffer numbers come from one factory call *)
  assert (Fac : forall x t g m y, h = x ++ On t g m :: y -> forall b, made_buffer m = Some b -> exists a c, x = a ++ c /\ b = buffers_made a /\ buffers_made x = S b).
  { intros x t g m y E b M. destruct (on_made _ _ L _ _ _ _ _ E) as [a [u [n [c [-> [Lc _]]]]]].
    rewrite <- app_assoc in E. cbn in E. destruct (B _ _ _ _ _ _ _ E M) as [-> _]. exists a, (Made u g n m :: c). repeat split; auto.
    rewrite buffers_made_app. cbn. rewrite M.
    assert (buffers_made c = 0); [|lia]. clear - Lc. induction c as [|e c IH]; auto. rewrite loud_cons in Lc. destruct (inert e) eqn:Ie; [|easy].
    cbn. destruct e; auto; easy. }
  intros x e b y E R. pose proof (retrieved_buf _ _ L _ _ _ _ E R) as V. symmetry in V.
  destruct (Own _ _ _ E V) as [x1 [t [g [m [x2 [-> [M N]]]]]]]. split.
  - exists t, g, m. split; auto. apply in_or_app. right. now left.
  - intros e' Hi R'. apply in_split in Hi as [y1 [y2 ->]].
    assert (E2 : h = ((x1 ++ On t g m :: x2) ++ e :: y1) ++ e' :: y2) by (rewrite E; now repeat (rewrite <- app_assoc; cbn)).
    pose proof (retrieved_buf _ _ L _ _ _ _ E2 R') as V'. symmetry in V'.
    destruct (Own _ _ _ E2 V') as [z1 [t' [g' [m' [z2 [Ez [M' N']]]]]]].
    assert (E3 : h = z1 ++ On t' g' m' :: z2 ++ e' :: y2) by (rewrite E2, Ez; now repeat (rewrite <- app_assoc; cbn)).
    assert (E4 : h = x1 ++ On t g m :: x2 ++ e :: y1 ++ e' :: y2) by (rewrite E; now repeat (rewrite <- app_assoc; cbn)).
    destruct (Fac _ _ _ _ _ E3 _ M') as [_ [_ [_ [_ F3]]]]. destruct (Fac _ _ _ _ _ E4 _ M) as [_ [_ [_ [_ F4]]]].
    (* the second hand-over comes after a later start *)
    assert (exists w, z1 = (x1 ++ On t g m :: x2) ++ e :: w) as [w ->].
    { clear - Ez N' R. revert z1 Ez. generalize (x1 ++ On t g m :: x2) as p. induction p as [|a p IH]; intros z1 Ez.
      - destruct z1 as [|c z1]; cbn in Ez; [injection Ez as -> _; easy|]. injection Ez as <- _. now exists z1.
      - destruct z1 as [|c z1]; cbn in Ez; injection Ez as -> Ez.
        + destruct (N' e) as [_ X]; [rewrite <- Ez; apply in_or_app; right; now left|]. congruence.
        + destruct (IH _ Ez) as [w ->]. now exists w. }
    assert (E5 : h = (x1 ++ On t g m :: x2 ++ e :: w) ++ On t' g' m' :: z2 ++ e' :: y2) by (rewrite E3; now repeat (rewrite <- app_assoc; cbn)).
    destruct (on_made _ _ L _ _ _ _ _ E5) as [a [u [n [c [Ex [Lc [_ [_ Ga]]]]]]]].
    assert (Hm : h = a ++ Made u g' n m' :: c ++ On t' g' m' :: z2 ++ e' :: y2) by (rewrite E5, Ex; now repeat (rewrite <- app_assoc; cbn)).
    destruct (B _ _ _ _ _ _ _ Hm M') as [Eb _].
    assert (Pre : exists v, a = x1 ++ On t g m :: v).
    { clear - Ex Lc. revert a Ex. induction x1 as [|k x1 IH]; intros a Ex.
      - destruct a as [|k a]; cbn in Ex; [discriminate Ex|]. injection Ex as <- _. now exists a.
      - destruct a as [|k' a]; cbn in Ex.
        + exfalso. injection Ex as _ Ec. assert (X : In (On t g m) (loud c)) by (apply filter_In; split; [rewrite <- Ec; apply in_or_app; right; now left|reflexivity]). now rewrite Lc in X.
        + injection Ex as <- Ex. destruct (IH _ Ex) as [v ->]. now exists v. }
    destruct Pre as [v ->]. rewrite buffers_made_app in Eb. cbn in Eb. lia.
Qed.
Print Assumptions C56_handed_over_once.

(** Retrieval before a start, while tracing, after the stop, and again. *)
Example C56_case :
  flat_map (fun e => match retrieval e with Some r => [r] | None => [] end)
   (demo (call 1 OGetBuffer CNone 9 ++ call 3 (OStart (setStoppedCallback cfgA None)) (CFixed 2 mem0) 30 ++ call 1 OGetContext CNone 9 ++
          call 3 (OStop false) CNone 30 ++ call 1 OGetContext CNone 9 ++ call 2 OGetBuffer CNone 9)) =
  [RBuf None; RThrow LogicError; RCtx (Some 0) []; RBuf None].
Proof. vm_compute. reflexivity. Qed.

(** ** C57 *)

(** When tracing is switched off, the next thing that happens under the lock is
    the callback, by the same thread, of the configuration in force (none if
    there is none, or on shutdown unless asked for); and callbacks happen only
    so. *)
Theorem C57_callback_once : forall cap csz site_cat sched,
  let h := hist (log_run cap csz site_cat sched) in
  (forall x t w y e, h = x ++ Off t w :: y -> hd_error (loud y) = Some e ->
     tracing x = true /\ e = Callback t (callback_due (configuration x) (is_shutdown w))) /\
  (forall x t o y, h = x ++ Callback t o :: y ->
     exists a w b, x = a ++ Off t w :: b /\ loud b = [] /\ o = callback_due (configuration a) (is_shutdown w)).
Proof.
  intros cap csz sc sched. legal_run h L. intros h'. subst h'. split.
  - intros x t w y e E Hd. split; [now pose proof (legal_at _ _ L _ _ _ E eq_refl) as [_ [_ [T _]]]|]. eapply off_then; eauto.
  - intros x t o y E. eapply callback_of; eauto.
Qed.
Print Assumptions C57_callback_once.

(** A stop call that returns either found tracing off, or switched it off and
    ran the callback; the same holds for a logEvent call that ran out of
    space. *)
Theorem C57_stop_runs_callback : forall cap csz site_cat sched x e t w r y,
  hist (log_run cap csz site_cat sched) = x ++ e :: y ->
  (exists sd, e = Done t (OStop sd) r /\ w = Asked sd) \/ e = StopTried t w r ->
  (section x = [] /\ r = RUnit) \/
  exists x1 x2, x = x1 ++ Off t w :: x2 /\ section x1 = [] /\ tracing x1 = true /\
    let o := callback_due (configuration x1) (is_shutdown w) in
    hd_error (loud x2) = Some (Callback t o) /\ (o = None -> loud x2 = [Callback t o] /\ r = RUnit /\ tracing x = false).
Proof.
  intros cap csz sc sched. legal_run h L. intros x e t w r y E He.
  assert (S : stop_legal (status_after x) t w r).
  { destruct He as [[sd [-> ->]]| ->]; pose proof (legal_at _ _ L _ _ _ E eq_refl) as [_ [_ [X _]]]; exact X. }
  clear He. unfold stop_legal in S. rewrite section_since in S. destruct (section_tail x) as [xa [xb [Ex [Lx Sx]]]].
  destruct (section x) as [|e1 [|e2 rest]]; [now left|easy|right]. destruct S as [-> [o [-> So]]].
  apply loud_first in Lx as [a [b [-> [La Lb]]]].
  exists (xa ++ a), b.
  assert (Ex' : x = (xa ++ a) ++ Off t w :: b) by (now rewrite <- app_assoc).
  assert (E2 : h = (xa ++ a) ++ Off t w :: (b ++ e :: y)) by (rewrite E, Ex'; now repeat (rewrite <- app_assoc; cbn)).
  assert (Hc : Callback t o = Callback t (callback_due (configuration (xa ++ a)) (is_shutdown w))).
  { eapply (off_then csz h L); [exact E2|]. now rewrite loud_app, Lb. }
  injection Hc as Hc. split; auto. split; [now rewrite section_inert|].
  split; [now pose proof (legal_at _ _ L _ _ _ E2 eq_refl) as [_ [_ [T _]]]|]. cbn. rewrite <- Hc, Lb. split; auto.
  intros No. destruct (So No) as [-> [-> V]]. rewrite status_view, v_on_tracing in V. auto.
Qed.
Print Assumptions C57_stop_runs_callback.

(** A restart has just stored its own configuration, so it is the callback of
    the new configuration that runs for the trace that ends. *)
Theorem C57_restart_runs_new_callback : forall cap csz site_cat sched x t y,
  hist (log_run cap csz site_cat sched) = x ++ Off t Restarted :: y ->
  exists a c b, x = a ++ Configured t c :: b /\ loud b = [] /\ tracing a = true /\
    forall e, hd_error (loud y) = Some e -> e = Callback t (cf_callback c).
Proof.
  intros cap csz sc sched. legal_run h L. intros x t y E.
  destruct (restart_of _ _ L _ _ _ E) as [a [c [b [Ex [Lb [W [T Ec]]]]]]]. exists a, c, b. repeat split; auto.
  intros e He. rewrite (off_then _ _ L _ _ _ _ _ E He), Ec. reflexivity.
Qed.
Print Assumptions C57_restart_runs_new_callback.

(** Finding: it is not the callback of the trace that ends. *)
Theorem C57_own_callback_refuted :
  ~ (forall cap csz site_cat sched x t w y e,
      hist (log_run cap csz site_cat sched) = x ++ Off t w :: y -> hd_error (loud y) = Some e ->
      is_shutdown w = false -> e = Callback t (cf_callback (started_with x))).
Proof.
  intros H.
  set (sched := call 1 (OStart cfgA) (CFixed 2 mem0) 30 ++ call 2 (OStart cfgB) CNone 11).
  specialize (H 3%N 10%N site0 sched).
  assert (E : exists x y, hist (log_run 3 10 site0 sched) = x ++ Off 2 Restarted :: y /\ hd_error (loud y) = Some (Callback 2 (Some (user_callback 2))) /\
             cf_callback (started_with x) = Some (user_callback 1)).
  { set (h := hist _). vm_compute in h. subst h. eexists [_; _; _; _; _; _; _], [_]. repeat split. }
  destruct E as [x [y [E [A B]]]]. specialize (H _ _ _ _ _ E A eq_refl). rewrite B in H. discriminate H.
Qed.
Print Assumptions C57_own_callback_refuted.

(** A trace with callback 1 is restarted with callback 2 and then stopped: 2
    runs twice, 1 never. *)
Example C57_case :
  flat_map (fun e => match e with Off _ w => [inl w] | Callback _ o => [inr o] | _ => [] end)
   (demo (call 1 (OStart cfgA) (CFixed 2 mem0) 30 ++ call 2 (OStart cfgB) (CFixed 3 mem0) 11 ++ [HookEnd 2 None] ++ repeat (Step 2 (CFixed 3 mem0)) 30 ++
          call 1 (OStop false) CNone 10 ++ [HookEnd 1 None] ++ repeat (Step 1 CNone) 9)) =
  [inl Restarted; inr (Some (user_callback 2)); inl (Asked false); inr (Some (user_callback 2))].
Proof. vm_compute. reflexivity. Qed.

(** ** C58 *)

(** A start with less than one chunk throws; under the lock it does nothing but
    store its configuration. *)
Theorem C58_rejected_start : forall cap csz site_cat sched x t c r y,
  hist (log_run cap csz site_cat sched) = x ++ Done t (OStart c) r :: y -> wants csz c = 0%N ->
  r = RThrow InvalidArgument /\
  exists x1 x2, x = x1 ++ Configured t c :: x2 /\ section x1 = [] /\ loud x2 = [] /\
    let v := view_after x1 in
    view_after (x ++ [Done t (OStart c) r]) =
      {| v_on := v_on v; v_gen := v_gen v; v_buf := v_buf v; v_cfg := c; v_names := v_names v; v_dereg := v_dereg v;
         v_regd := v_regd v; v_lists := v_lists v |}.
Proof.
  intros cap csz sc sched. legal_run h L. intros x t c r y E W.
  pose proof (legal_at _ _ L _ _ _ E eq_refl) as [_ [_ [[_ Sl] Ss]]]. specialize (Ss W). rewrite W in Sl. cbn in Sl. destruct Sl as [-> _].
  split; auto. rewrite section_since in Ss. destruct (section_tail x) as [xa [xb [Ex [Lx Sx]]]]. rewrite Ss in Lx.
  apply loud_first in Lx as [a [b [-> [La Lb]]]]. exists (xa ++ a), b. split; [now rewrite <- app_assoc|].
  split; [now rewrite section_inert|]. split; auto. intros v.
  rewrite view_snoc. cbn [apply after_call]. rewrite Ex.
  replace (xa ++ a ++ Configured t c :: b) with (((xa ++ a) ++ [Configured t c]) ++ b) by now repeat (rewrite <- app_assoc; cbn).
  rewrite view_inert, view_snoc by auto. reflexivity.
Qed.
Print Assumptions C58_rejected_start.

(** Any other start that throws leaves tracing off. *)
Theorem C58_failed_start_is_off : forall cap csz site_cat sched x t c z y,
  hist (log_run cap csz site_cat sched) = x ++ Done t (OStart c) (RThrow z) :: y -> wants csz c <> 0%N -> tracing x = false.
Proof.
  intros cap csz sc sched. legal_run h L. intros x t c z y E W.
  pose proof (legal_at _ _ L _ _ _ E eq_refl) as [_ [_ [[_ Sl] _]]]. destruct (N.eqb_spec (wants csz c) 0); [easy|].
  now rewrite status_view, v_on_tracing in Sl.
Qed.
Print Assumptions C58_failed_start_is_off.

(** Every other start succeeds exactly by switching tracing on. *)
Theorem C58_successful_start : forall cap csz site_cat sched x t c y,
  hist (log_run cap csz site_cat sched) = x ++ Done t (OStart c) RUnit :: y ->
  wants csz c <> 0%N /\ configuration x = c /\ tracing x = true /\
  exists x1 g m x2, x = x1 ++ On t g m :: x2 /\ loud x2 = [].
Proof.
  intros cap csz sc sched. legal_run h L. intros x t c y E.
  pose proof (legal_at _ _ L _ _ _ E eq_refl) as [_ [_ [[Sc Sl] _]]]. rewrite status_view, v_cfg_configuration in Sc.
  destruct (N.eqb_spec (wants csz c) 0) as [W|W]; [now destruct Sl|]. split; auto. split; auto.
  destruct Sl as [before [g [m Sl]]]. rewrite section_since in Sl. destruct (section_tail x) as [xa [xb [Ex [Lx Sx]]]]. rewrite Sl in Lx.
  apply loud_snoc_last in Lx as [a [b [-> [Lb _]]]].
  assert (Ex' : x = ((xa ++ a) ++ [On t g m]) ++ b) by (rewrite Ex; now repeat (rewrite <- app_assoc; cbn)).
  split.
  - rewrite <- v_on_tracing, Ex', view_inert, view_snoc by auto. reflexivity.
  - exists (xa ++ a), g, m, b. split; auto. now rewrite <- app_assoc.
Qed.
Print Assumptions C58_successful_start.

(** The running trace of configuration A goes on after the rejected start, but
    getTraceConfig reports the rejected configuration, and the stop runs its
    callback. *)
Example C58_case :
  let h := demo (call 1 (OStart cfgA) (CFixed 2 mem0) 30 ++ call 2 (OStart tiny) (CFixed 3 mem0) 30 ++ call 2 OIsEnabled CNone 9 ++
                 call 2 OGetConfig CNone 9 ++ call 1 (OStop false) CNone 10) in
  wants 10 tiny = 0%N /\
  flat_map (fun e => match e with Done _ (OStart _) r => [r] | Done _ OGetConfig r => [r] | Done _ OIsEnabled r => [r] | _ => [] end) h =
    [RUnit; RThrow InvalidArgument; RBool true; RCfg tiny] /\
  last h (Freed 0) = Callback 1 (Some (user_callback 3)).
Proof. vm_compute. repeat split. Qed.

(** ** C59 *)

(** The names of a context are those of distinct threads. *)
Theorem C59_one_name_per_thread : forall cap csz site_cat sched x e ns y,
  hist (log_run cap csz site_cat sched) = x ++ e :: y -> context_names e = Some ns -> NoDup (map fst ns).
Proof.
  intros cap csz sc sched. legal_run h L. intros x e ns y E C. rewrite (names_result _ _ L _ _ _ _ E C). apply names_unique.
Qed.
Print Assumptions C59_one_name_per_thread.

(** A thread registered with a name is named in every context retrieved while it
    stays registered. *)
Theorem C59_registered_thread_is_named : forall cap csz site_cat sched x t n y e ns z,
  hist (log_run cap csz site_cat sched) = x ++ Done t (ORegister n) RUnit :: y ++ e :: z -> n <> [] -> context_names e = Some ns ->
  (forall a, In a y -> names_thread t a = false /\ leaves t a = false) ->
  In (t, n) ns.
Proof.
  intros cap csz sc sched. legal_run h L. intros x t n y e ns z E Nn C N.
  assert (E2 : h = ((x ++ [Done t (ORegister n) RUnit]) ++ y) ++ e :: z) by (rewrite E; now repeat (rewrite <- app_assoc; cbn)).
  rewrite (names_result _ _ L _ _ _ _ E2 C). destruct (dereg_fresh x t n) as [A B]; [now destruct n|].
  now apply name_stays.
Qed.
Print Assumptions C59_registered_thread_is_named.

(** If it leaves while tracing is on, it is named until the next start. *)
Theorem C59_left_while_tracing_is_named : forall cap csz site_cat sched x t n y w e ns z,
  hist (log_run cap csz site_cat sched) = x ++ Done t (ORegister n) RUnit :: y ++ Done t ODeregister RUnit :: w ++ e :: z ->
  n <> [] -> context_names e = Some ns ->
  (forall a, In a y -> names_thread t a = false /\ leaves t a = false) ->
  tracing (x ++ Done t (ORegister n) RUnit :: y) = true ->
  (forall a, In a w -> names_thread t a = false /\ leaves t a = false /\ is_on a = false) ->
  In (t, n) ns.
Proof.
  intros cap csz sc sched. legal_run h L. intros x t n y w e ns z E Nn C N T Nw.
  set (p := (x ++ [Done t (ORegister n) RUnit]) ++ y).
  assert (Ep : x ++ Done t (ORegister n) RUnit :: y = p) by (unfold p; now rewrite <- app_assoc).
  assert (E2 : h = ((p ++ [Done t ODeregister RUnit]) ++ w) ++ e :: z) by (rewrite E; unfold p; now repeat (rewrite <- app_assoc; cbn)).
  rewrite (names_result _ _ L _ _ _ _ E2 C). apply name_until_start; auto.
  destruct (dereg_fresh x t n) as [A B]; [now destruct n|].
  destruct (name_stays _ y t n A B) as [A2 _]; [auto|]. fold p in A2.
  rewrite view_snoc. cbn [apply after_call v_names]. rewrite v_on_tracing, <- Ep, T, Ep. exact A2.
Qed.
Print Assumptions C59_left_while_tracing_is_named.

(** After that start it is named no more, unless it registers again. *)
Theorem C59_left_threads_disappear : forall cap csz site_cat sched x t y u g m w e ns z,
  hist (log_run cap csz site_cat sched) = x ++ Done t ODeregister RUnit :: y ++ On u g m :: w ++ e :: z ->
  context_names e = Some ns ->
  (forall a, In a (y ++ w) -> names_thread t a = false) ->
  forall n, ~ In (t, n) ns.
Proof.
  intros cap csz sc sched. legal_run h L. intros x t y u g m w e ns z E C N.
  set (p := (x ++ [Done t ODeregister RUnit]) ++ y).
  assert (E2 : h = ((p ++ [On u g m]) ++ w) ++ e :: z) by (rewrite E; unfold p; now repeat (rewrite <- app_assoc; cbn)).
  rewrite (names_result _ _ L _ _ _ _ E2 C). apply name_absent; [|intros; apply N, in_or_app; now right].
  assert (Ny : forall a, In a y -> names_thread t a = false) by (intros; apply N, in_or_app; now left).
  intros n. rewrite view_snoc. cbn [apply v_names]. rewrite In_name_clear. cbn [fst]. intros [X1 X2].
  destruct (tracing x) eqn:T.
  - apply X2. unfold p. apply dereg_stays; auto. rewrite view_snoc. cbn [apply after_call v_dereg]. rewrite v_on_tracing, T. apply In_add. auto.
  - revert X1. unfold p. apply name_absent; auto. intros n'. rewrite view_snoc. cbn [apply after_call v_names]. rewrite v_on_tracing, T, In_name_del. cbn. tauto.
Qed.
Print Assumptions C59_left_threads_disappear.

(** Finding: a thread that leaves after tracing stopped, but before the context
    is retrieved, is lost from the context of the trace it took part in. *)
Theorem C59_left_after_stop_is_lost : forall cap csz site_cat sched x t y e ns z,
  hist (log_run cap csz site_cat sched) = x ++ Done t ODeregister RUnit :: y ++ e :: z -> context_names e = Some ns ->
  tracing x = false -> (forall a, In a y -> names_thread t a = false) ->
  forall n, ~ In (t, n) ns.
Proof.
  intros cap csz sc sched. legal_run h L. intros x t y e ns z E C T N.
  assert (E2 : h = ((x ++ [Done t ODeregister RUnit]) ++ y) ++ e :: z) by (rewrite E; now repeat (rewrite <- app_assoc; cbn)).
  rewrite (names_result _ _ L _ _ _ _ E2 C). apply name_absent; auto.
  intros n'. rewrite view_snoc. cbn [apply after_call v_names]. rewrite v_on_tracing, T, In_name_del. cbn. tauto.
Qed.
Print Assumptions C59_left_after_stop_is_lost.

(** Threads 1, 2 and 3 take part in a trace; 2 leaves while it runs, 3 after it
    was stopped. The next trace's context names only 1. *)
Example C59_case :
  let st := setStoppedCallback cfgA None in
  let picks t l := concat (map (fun u => repeat (Step t (CPick u)) 4) l) in
  flat_map (fun e => match context_names e with Some ns => [map fst ns] | None => [] end)
   (demo (call 1 (ORegister ($"one")) CNone 9 ++ call 2 (ORegister ($"two")) CNone 9 ++ call 3 (ORegister ($"three")) CNone 9 ++
          call 9 (OStart st) (CFixed 2 mem0) 30 ++ call 2 ODeregister CNone 30 ++
          call 9 (OStop false) CNone 4 ++ picks 9 [1; 3] ++ repeat (Step 9 CNone) 9 ++
          call 9 OGetContext CNone 9 ++ call 3 ODeregister CNone 30 ++ call 9 OGetContext CNone 9 ++
          call 9 (OStart st) (CFixed 2 mem0) 30 ++ call 9 (OStop false) CNone 4 ++ picks 9 [1] ++ repeat (Step 9 CNone) 9 ++
          call 9 OGetContext CNone 9)) =
  [[3; 2; 1]; [2; 1]; [1]].
Proof. vm_compute. reflexivity. Qed.

(** ** C60 *)

(** registerThread throws exactly if the thread is registered, deregisterThread
    exactly if it is not. *)
Theorem C60_registration : forall cap csz site_cat sched x t r y,
  let h := hist (log_run cap csz site_cat sched) in
  (forall n, h = x ++ Done t (ORegister n) r :: y -> r = if registered t x then RThrow LogicError else RUnit) /\
  (h = x ++ Done t ODeregister r :: y -> r = if registered t x then RUnit else RThrow LogicError).
Proof.
  intros cap csz sc sched. legal_run h L. intros x t r y h'. subst h'. split.
  - intros n E. pose proof (legal_at _ _ L _ _ _ E eq_refl) as [_ [_ [_ X]]]. now rewrite status_view, v_regd_registered in X.
  - intros E. pose proof (legal_at _ _ L _ _ _ E eq_refl) as [_ [_ [_ X]]]. now rewrite status_view, v_regd_registered in X.
Qed.
Print Assumptions C60_registration.

(** A failing call has no effect at all. *)
Theorem C60_failure_changes_nothing : forall cap csz site_cat sched x t o z y,
  hist (log_run cap csz site_cat sched) = x ++ Done t o (RThrow z) :: y ->
  (exists n, o = ORegister n) \/ o = ODeregister ->
  section x = [] /\ view_after (x ++ [Done t o (RThrow z)]) = view_after x.
Proof.
  intros cap csz sc sched. legal_run h L. intros x t o z y E O.
  destruct O as [[n ->]| ->]; pose proof (legal_at _ _ L _ _ _ E eq_refl) as [_ [_ [X _]]]; rewrite section_since in X; (split; [exact X|]);
    now rewrite view_snoc.
Qed.
Print Assumptions C60_failure_changes_nothing.

Example C60_case :
  flat_map (fun e => match e with Done _ _ r => [r] | _ => [] end)
   (demo (call 1 ODeregister CNone 9 ++ call 1 (ORegister []) CNone 9 ++ call 1 (ORegister ($"a")) CNone 9 ++ call 1 ODeregister CNone 30 ++
          call 1 (ORegister ($"b")) CNone 9)) =
  [RThrow LogicError; RUnit; RThrow LogicError; RUnit; RUnit].
Proof. vm_compute. reflexivity. Qed.

(** ** C61 *)

(** The destructor stops tracing; it runs the callback only if tracing was on
    and stop-on-destruct was asked for. *)
Theorem C61_destruction : forall cap csz site_cat sched x t r y,
  hist (log_run cap csz site_cat sched) = x ++ StopTried t (Asked true) r :: y ->
  tracing x = false /\
  ((section x = [] /\ r = RUnit) \/
   exists x1 x2, x = x1 ++ Off t (Asked true) :: x2 /\ section x1 = [] /\ tracing x1 = true /\
     if cf_stop (configuration x1) then hd_error (loud x2) = Some (Callback t (cf_callback (configuration x1)))
     else loud x2 = [Callback t None] /\ r = RUnit).
Proof.
  intros cap csz sc sched x t r y E.
  pose proof (C57_stop_runs_callback cap csz sc sched x _ t (Asked true) r y E (or_intror eq_refl)) as X.
  revert E X. legal_run h L. intros E X.
  split; [now pose proof (legal_at _ _ L _ _ _ E eq_refl) as [_ [_ [_ T]]]; apply T|].
  destruct X as [X|[x1 [x2 [A [B [C [D F]]]]]]]; auto. right. exists x1, x2. repeat split; auto.
  unfold callback_due in *. cbn [is_shutdown andb negb] in *. destruct (cf_stop (configuration x1)); cbn [negb] in *; auto.
  destruct (F eq_refl) as [F1 [F2 _]]. auto.
Qed.
Print Assumptions C61_destruction.

(** The memory of a log is released only with tracing off. *)
Theorem C61_freed_when_off : forall cap csz site_cat sched x t y,
  hist (log_run cap csz site_cat sched) = x ++ Freed t :: y -> tracing x = false.
Proof.
  intros cap csz sc sched. legal_run h L. intros x t y E. now pose proof (legal_at _ _ L _ _ _ E eq_refl) as [_ [_ X]].
Qed.
Print Assumptions C61_freed_when_off.

Definition cfg_stop_true (c : config) : config :=
  {| cf_mode := cf_mode c; cf_factory := cf_factory c; cf_size := cf_size c; cf_callback := cf_callback c; cf_stop := true;
     cf_enabled := cf_enabled c; cf_disabled := cf_disabled c |}.

Example C61_case :
  let tail := flat_map (fun e => match e with Callback _ o => [o] | _ => [] end) in
  tail (demo (call 1 (OStart cfgA) (CFixed 2 mem0) 30 ++ call 1 ODestroy CNone 30)) = [None] /\
  tail (demo (call 1 (OStart (cfg_stop_true cfgA)) (CFixed 2 mem0) 30 ++ call 1 ODestroy CNone 30 ++ [HookEnd 1 None] ++ repeat (Step 1 CNone) 9)) = [Some (user_callback 1)] /\
  last (demo (call 1 (OStart (cfg_stop_true cfgA)) (CFixed 2 mem0) 30 ++ call 1 ODestroy CNone 30 ++ [HookEnd 1 None] ++ repeat (Step 1 CNone) 9)) (Freed 9) = Done 1 ODestroy RUnit /\
  last (demo (call 1 (OStart (cfg_stop_true cfgA)) (CFixed 2 mem0) 30 ++ call 1 ODestroy CNone 30 ++ [HookEnd 1 (Some LogicError)] ++ repeat (Step 1 CNone) 9)) (Freed 9) = Terminated 1.
Proof. vm_compute. repeat split. Qed.
