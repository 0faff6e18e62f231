(** Theorems about threads that end and ids that are used again. *)
From Verif Require Import Base Model.StringUtils Model.Event Model.Queue Model.Buffer Model.Config Spec.Categories Model.Registry
  Model.Interleave Spec.LogHistory Spec.LogFacts Spec.LogCalls Spec.ThreadLife Model.TraceLog Model.ManyLogs Model.ThreadLife
  Proofs.Interleave Proofs.Registry Proofs.LogFrame Proofs.LogView Proofs.LogViewInv Proofs.LogContract Proofs.LogCalls Proofs.ThreadLife Props.Log.

Definition life_run (cap csz : N) (site_cat : nat -> bytes) (oid : tid -> N) (sched : list lact) : life :=
  run (lstep cap csz site_cat oid) life_new sched.

(** ** C82 *)

(** A log used by threads that end behaves as the log of the other theorems. *)
Theorem C82_same_log : forall cap csz site_cat oid sched,
  exists sched', l_log (life_run cap csz site_cat oid sched) = log_run cap csz site_cat sched'.
Proof. intros cap csz site_cat oid sched. apply (booked_inv cap csz site_cat oid sched). Qed.
Print Assumptions C82_same_log.

(** If no two threads have the same id and none ends, every run is possible. *)
Theorem C82_every_run : forall cap csz site_cat oid sched, (forall t u : tid, oid t = oid u -> t = u) ->
  l_log (life_run cap csz site_cat oid (map Do sched)) = log_run cap csz site_cat sched /\
  l_dangling (life_run cap csz site_cat oid (map Do sched)) = false.
Proof.
  intros cap csz site_cat oid sched Inj. unfold life_run, log_run.
  cut (l_log (run (lstep cap csz site_cat oid) life_new (map Do sched)) = run (pstep cap csz site_cat) log_new sched /\
       l_dangling (run (lstep cap csz site_cat oid) life_new (map Do sched)) = false /\
       forall t, l_stage (run (lstep cap csz site_cat oid) life_new (map Do sched)) t <> Ended); [tauto|].
  induction sched as [|a l IH] using rev_ind; [easy|].
  rewrite map_app. cbn [map]. rewrite !run_snoc. destruct IH as (El & Ed & Es).
  pose proof (lives_inv cap csz site_cat oid (map Do l)) as L. set (w := run _ life_new (map Do l)) in *. rewrite <- El. unfold move.
  assert (Cr : can_run oid w (thread_of a) = true).
  { unfold can_run. destruct (l_stage w (thread_of a)) eqn:St; auto; [|now destruct (Es (thread_of a))].
    apply forallb_forall. intros u Hu. apply (lv_run _ _ L) in Hu. apply negb_true_iff, N.eqb_neq. intros E. apply Inj in E. congruence. }
  destruct (lstep cap csz site_cat oid w (Do a)) as [w'|] eqn:E.
  - apply lstep_do in E as (_ & _ & Ep & Eg & _ & _ & _ & _ & Edg). rewrite Ep. split; auto. split.
    + rewrite Edg. destruct (visits (doing w a)) as [u|]; auto. unfold ended. destruct (l_stage w u) eqn:X; auto. now destruct (Es u).
    + intros t. rewrite Eg. unfold tset. destruct (t =? thread_of a)%nat; [discriminate|auto].
  - unfold lstep in E. rewrite Ed, Cr in E. destruct (pstep cap csz site_cat (l_log w) a); [discriminate|auto].
Qed.
Print Assumptions C82_every_run.

(** If every thread that ends is not registered when it ends, no call ever
    touches what was destroyed with a thread. *)
Theorem C82_exit_safe : forall cap csz site_cat oid sched,
  (forall x t y, sched = x ++ Exit t :: y -> registered t (hist (l_log (life_run cap csz site_cat oid x))) = false) ->
  l_dangling (life_run cap csz site_cat oid sched) = false.
Proof.
  intros cap csz site_cat oid sched H. unfold life_run in *.
  cut (l_dangling (run (lstep cap csz site_cat oid) life_new sched) = false /\
       forall t, l_stage (run (lstep cap csz site_cat oid) life_new sched) t = Ended -> registered t (hist (l_log (run (lstep cap csz site_cat oid) life_new sched))) = false); [tauto|].
  induction sched as [|a l IH] using rev_ind; [easy|].
  destruct IH as (Ed & Er). { intros x t y ->. apply (H x t (y ++ [a])). now rewrite <- app_assoc. }
  rewrite run_snoc. pose proof (lives_inv cap csz site_cat oid l) as L. pose proof (booked_inv cap csz site_cat oid l) as B.
  assert (H' : forall t, a = Exit t -> registered t (hist (l_log (run (lstep cap csz site_cat oid) life_new l))) = false) by (intros t ->; now apply (H l t [])).
  clear H. set (w := run _ life_new l) in *. unfold move.
  destruct (lstep cap csz site_cat oid w a) as [w'|] eqn:E; auto. destruct a as [a|t].
  - apply lstep_do in E as (_ & Cr & Ep & Es & _ & _ & _ & _ & Edg). split.
    + rewrite Edg. destruct (visits (doing w a)) as [u|] eqn:Vi; auto. unfold ended. destruct (l_stage w u) eqn:St; auto.
      exfalso. destruct (visit_regd _ _ _ _ _ _ _ B Vi) as [Hi _]. apply mem_In in Hi.
      rewrite (regd_registered cap csz site_cat oid) in Hi; [rewrite (Er u St) in Hi; discriminate|exact (proj1 B)|]. apply (lv_code _ _ L). congruence.
    + intros t Ht. rewrite Es in Ht. destruct (Nat.eq_dec t (thread_of a)) as [->|N]; [rewrite tset_same in Ht; discriminate|]. rewrite tset_other in Ht by auto.
      destruct (hist_step _ _ _ _ _ _ (proj1 B) Ep) as (z & -> & By). specialize (Er t Ht). clear -Er By N.
      induction z as [|e z IH] using rev_ind; [now rewrite app_nil_r|]. rewrite app_assoc, registered_snoc.
      assert (X : by_thread e <> t) by (rewrite (By e); [congruence|apply in_app_iff; right; now left]).
      rewrite IH by (intros e' Hi; apply By, in_app_iff; auto). destruct e; auto. cbn in X. apply Nat.eqb_neq in X. rewrite X. destruct o; auto; destruct r; auto.
  - apply lstep_exit in E as (_ & _ & _ & El & Es & _ & _ & _ & Edg). split; auto. intros u Hu. rewrite El. rewrite Es in Hu.
    destruct (Nat.eq_dec u t) as [->|N]; [now apply H'|]. rewrite tset_other in Hu by auto. auto.
Qed.
Print Assumptions C82_exit_safe.

(** Without that: a thread that ends while registered is touched by the next
    stop, after it is destroyed. *)
Definition quiet_cfg : config := config_factory make_fixed_buffer 25.

Definition leaver : list lact :=
  map Do (call 1 (ORegister $"worker") CNone 9) ++ [Exit 1] ++ map Do (call 0 (OStart quiet_cfg) (CFixed 2 mem0) 30) ++
  map Do (Invoke 0 (OStop false) :: repeat (Step 0 CNone) 5 ++ repeat (Step 0 (CPick 1)) 2).

Theorem C82_exit_registered_refuted : exists cap csz site_cat oid sched,
  l_dangling (life_run cap csz site_cat oid sched) = true.
Proof. exists 3%N, 10%N, site0, N.of_nat, leaver. vm_compute. reflexivity. Qed.
Print Assumptions C82_exit_registered_refuted.

(** Threads that come and go, each deregistering before it ends. *)
Definition careful : list lact :=
  map Do (call 1 (ORegister $"worker") CNone 9 ++ call 0 (OStart quiet_cfg) (CFixed 2 mem0) 30 ++ call 1 ODeregister CNone 20) ++ [Exit 1] ++
  map Do (call 2 (ORegister $"second") CNone 9) ++ map Do (Invoke 0 (OStop false) :: repeat (Step 0 CNone) 5 ++ repeat (Step 0 (CPick 2)) 2 ++ repeat (Step 0 CNone) 20).

Example C82_case :
  l_dangling (life_run 3 10 site0 N.of_nat careful) = false /\
  l_stage (life_run 3 10 site0 N.of_nat careful) 1 = Ended /\ l_stage (life_run 3 10 site0 N.of_nat careful) 2 = Running /\
  filter (fun e => match e with Done _ _ _ => true | _ => false end) (hist (l_log (life_run 3 10 site0 N.of_nat careful))) =
  [Done 1 (ORegister $"worker") RUnit; Done 0 (OStart quiet_cfg) RUnit; Done 1 ODeregister RUnit; Done 2 (ORegister $"second") RUnit; Done 0 (OStop false) RUnit].
Proof. vm_compute. repeat split. Qed.

(** ** C83 *)

(** A context read at any time names an id at most once, and names it exactly
    with the name that its threads left there. *)
Theorem C83_context_names : forall cap csz site_cat oid sched h ns,
  In (h, ns) (l_read (life_run cap csz site_cat oid sched)) ->
  (exists z, hist (l_log (life_run cap csz site_cat oid sched)) = h ++ z) /\ NoDup (map fst ns) /\
  forall i n, In (i, n) ns <-> id_named oid i n h.
Proof.
  intros cap csz site_cat oid sched h ns Hi. destruct (booked_inv cap csz site_cat oid sched) as (_ & _ & Rd).
  destruct (Rd h ns Hi) as (-> & Z). destruct (book_right oid h) as (ND & Nm & _). auto.
Qed.
Print Assumptions C83_context_names.

(** A running thread that registered with a name and has not deregistered is
    named so in every context read meanwhile, whatever other threads had its id
    before. *)
Theorem C83_running_thread_named : forall cap csz site_cat oid sched x w' h ns t n,
  let w := life_run cap csz site_cat oid sched in
  lstep cap csz site_cat oid w x = Some w' -> l_read w' = l_read w ++ [(h, ns)] ->
  l_stage w t = Running -> holds_name t n h ->
  In (oid t, n) ns /\ forall m, In (oid t, m) ns -> m = n.
Proof.
  intros cap csz site_cat oid sched x w' h ns t n w E Er St Hn.
  pose proof (booked_inv cap csz site_cat oid sched) as B. pose proof (lives_inv cap csz site_cat oid sched) as L. fold (life_run cap csz site_cat oid sched) in B, L. fold w in B, L.
  destruct x as [a|u]; [|apply lstep_exit in E as (_ & _ & _ & _ & _ & _ & _ & X & _); rewrite X in Er; rewrite <- (app_nil_r (l_read w)) in Er at 1; apply app_inv_head in Er; discriminate].
  apply lstep_do in E as (_ & _ & _ & _ & _ & _ & _ & X & _). rewrite X in Er. apply app_inv_head in Er.
  destruct (read_mtx oid w a h ns) as (-> & _ & Eb); [apply B|rewrite Er; now left|].
  destruct (book_right oid (hist (l_log w))) as (ND & Nm & _). rewrite <- Eb in ND, Nm.
  assert (In (oid t, n) ns) as Hi.
  { apply Nm. destruct Hn as (z & y & Eh & Nn & Y). exists z, t, y. split; auto. split; auto. split; auto.
    assert (Same : forall e, In e y -> oid (by_thread e) = oid t -> by_thread e = t).
    { intros e Hi Eo. destruct (Nat.eq_dec (by_thread e) t) as [|N]; auto. exfalso. apply in_split in Hi as (y1 & y2 & ->).
      assert (l_stage w t = Ended) by (apply (lv_order _ _ L z (Done t (ORegister n) RUnit) y1 e y2); auto). congruence. }
    split.
    - intros e m Hi (u & -> & Eo & _). pose proof (Same _ Hi Eo) as X1. cbn in X1. subst u. destruct (Y _ Hi) as [_ Z]. now apply (Z m).
    - intros y1 e y2 -> (u & -> & Eo). exfalso. assert (Hi : In (Done u ODeregister RUnit) (y1 ++ Done u ODeregister RUnit :: y2)) by (apply in_app_iff; right; now left).
      pose proof (Same _ Hi Eo) as X1. cbn in X1. subst u. now destruct (Y _ Hi). }
  split; auto. intros m Hm. clear -ND Hi Hm. induction ns as [|(i & q) ns IH]; [easy|]. cbn in ND. inversion ND as [|? ? Nx Nd]; subst. destruct Hi as [E|Hi], Hm as [E'|Hm].
  - congruence.
  - injection E as -> ->. destruct Nx. apply (in_map fst _ _ Hm).
  - injection E' as -> ->. destruct Nx. apply (in_map fst _ _ Hi).
  - auto.
Qed.
Print Assumptions C83_running_thread_named.

(** It is not so that a thread that registered without a name is not named: it
    gets the name of a thread that ended, if that had its id and deregistered
    during a trace. *)
Definition one_id (t : tid) : N := match t with 1 | 2 => 77 | _ => N.of_nat t end.

Definition handover : list lact :=
  map Do (call 0 (OStart quiet_cfg) (CFixed 2 mem0) 30 ++ call 1 (ORegister $"first") CNone 9 ++ call 1 ODeregister CNone 20) ++ [Exit 1] ++
  map Do (call 2 (ORegister []) CNone 9 ++ Invoke 0 (OStop false) :: repeat (Step 0 CNone) 5 ++ repeat (Step 0 (CPick 2)) 1 ++ repeat (Step 0 CNone) 20 ++
          call 0 OGetContext CNone 9).

Definition unnamed_by_2 (e : hev) : bool := match e with Done 2 (ORegister m) RUnit => is_nil m | _ => true end.

Theorem C83_inherited_name_refuted : exists cap csz site_cat oid sched t h ns n,
  let w := life_run cap csz site_cat oid sched in
  In (h, ns) (l_read w) /\ l_stage w t = Running /\ registered t h = true /\
  (forall m, In (Done t (ORegister m) RUnit) h -> m = []) /\ In (oid t, n) ns.
Proof.
  exists 3%N, 10%N, site0, one_id, handover, 2.
  assert (St : l_stage (life_run 3 10 site0 one_id handover) 2 = Running) by (vm_compute; reflexivity).
  assert (C : match l_read (life_run 3 10 site0 one_id handover) with
              | [(h, [(i, n)])] => registered 2 h && forallb unnamed_by_2 h && N.eqb i 77
              | _ => false
              end = true) by (vm_compute; reflexivity).
  cbv zeta. revert St C. generalize (life_run 3 10 site0 one_id handover). intros w St C.
  destruct (l_read w) as [|(h & ns) [|]] eqn:El; [discriminate| |destruct ns as [|(i & n) [|]]; discriminate]. destruct ns as [|(i & n) [|]]; try discriminate C.
  apply andb_true_iff in C as [C Ci]. apply andb_true_iff in C as [Cr Cf]. apply N.eqb_eq in Ci. subst i.
  exists h, [(77%N, n)], n. split; [now left|]. split; auto. split; auto. split; [|now left].
  intros m Hi. rewrite forallb_forall in Cf. specialize (Cf _ Hi). cbn in Cf. now destruct m.
Qed.
Print Assumptions C83_inherited_name_refuted.

(** Two threads with one id, one after the other, both named, during one trace:
    the context has the name of the one that runs. *)
Definition relay : list lact :=
  map Do (call 0 (OStart quiet_cfg) (CFixed 2 mem0) 30 ++ call 1 (ORegister $"first") CNone 9 ++ call 1 ODeregister CNone 20) ++ [Exit 1] ++
  map Do (call 2 (ORegister $"second") CNone 9 ++ Invoke 0 (OStart quiet_cfg) :: repeat (Step 0 (CPick 2)) 5 ++ repeat (Step 0 (CFixed 2 mem0)) 4 ++ repeat (Step 0 (CPick 2)) 1 ++ repeat (Step 0 (CFixed 2 mem0)) 40 ++
          Invoke 0 (OStop false) :: repeat (Step 0 CNone) 5 ++ repeat (Step 0 (CPick 2)) 1 ++ repeat (Step 0 CNone) 20 ++ call 0 OGetContext CNone 9).

Example C83_case :
  let w := life_run 3 10 site0 one_id relay in
  map snd (l_read w) = [[(77%N, $"second")]] /\ l_stage w 1 = Ended /\ l_stage w 2 = Running /\
  holds_name 2 $"second" (hist (l_log w)).
Proof.
  cbv zeta. split; [vm_compute; reflexivity|]. split; [vm_compute; reflexivity|]. split; [vm_compute; reflexivity|].
  assert (E : exists x y, hist (l_log (life_run 3 10 site0 one_id relay)) = x ++ Done 2 (ORegister $"second") RUnit :: y /\ forallb (fun e => negb (Nat.eqb (by_thread e) 2)) y = true).
  { exists (firstn 10 (hist (l_log (life_run 3 10 site0 one_id relay)))). exists (skipn 11 (hist (l_log (life_run 3 10 site0 one_id relay)))). split; vm_compute; reflexivity. }
  destruct E as (x & y & -> & F). exists x, y. split; auto. split; [discriminate|]. rewrite forallb_forall in F. intros e Hi. specialize (F e Hi).
  split; [intros ->|intros m ->]; discriminate F.
Qed.
