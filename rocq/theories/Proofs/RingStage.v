(** What the last event of a thread says about where it is, and how far the
    counter of a ring reaches. *)
From Verif Require Import Base Spec.QueueHistory Spec.RingHistory Model.Queue Model.Buffer Model.Interleave Model.QueueConc Model.RingConc
  Proofs.Interleave Proofs.Buffer Proofs.QueueConc Proofs.RingConc.
Open Scope N_scope.

Lemma last_snoc t h e : last_of t (h ++ [e]) = if Nat.eqb (r_actor e) t then Some e else last_of t h.
Proof. unfold last_of. now rewrite fold_left_app. Qed.

Lemma last_open h t i : open_claim h t i -> last_of t h = Some (Claimed t).
Proof.
  intros (a & b & -> & _ & H). induction b as [|e b IH] using rev_ind.
  - rewrite last_snoc. cbn. now rewrite Nat.eqb_refl.
  - replace (a ++ Claimed t :: b ++ [e]) with ((a ++ Claimed t :: b) ++ [e]) by now rewrite <- app_assoc.
    rewrite last_snoc. assert (r_actor e <> t) as N by (apply H, in_or_app; right; now left).
    apply Nat.eqb_neq in N. rewrite N. apply IH. intros x Hx. apply H, in_or_app. auto.
Qed.

Definition stage (p : rpc) (qp : qpc N) (t : tid) (h : list ring_event) : Prop :=
  match p with
  | RIdle => outside t h
  | GCount => last_of t h = Some (GetCalled t)
  | GWait => last_of t h = Some (match qp with DData _ _ | DPub _ _ _ => Claimed t | _ => GetCalled t end)
  | GReset _ | GLoan _ => last_of t h = Some (Claimed t)
  | RPut c => last_of t h = Some (match qp with EData _ _ _ | EPub _ _ _ => Placed t c | _ => RetCalled t c end)
  | RLoan => exists c, last_of t h = Some (Placed t c)
  end.

Lemma stage_kept p qp t h e : (e = [] \/ exists x, e = [x] /\ r_actor x <> t) -> stage p qp t h -> stage p qp t (h ++ e).
Proof.
  intros [->|(x & -> & N)] S; [now rewrite app_nil_r|]. apply Nat.eqb_neq in N.
  unfold stage, outside in *. rewrite last_snoc, N. exact S.
Qed.

Definition r_mover (a : ract) : tid := match a with CallGet t | CallRet t _ | RGo t _ => t end.

Ltac leaf :=
  split; [let X := fresh in intros X; cbn; rewrite ?tset_other by auto; auto|];
  eexists; split; [cbn [r_hist r_goto r_set_q r_set_count r_set_user r_set_loan]; first [reflexivity | symmetry; apply app_nil_r]|];
  split; [cbn; eauto|]; cbn; rewrite ?tset_same; cbn.

Lemma stage_step r a r' : (forall t, fits (r_pc r t) (cq_pc (r_q r) t)) -> (forall t, stage (r_pc r t) (cq_pc (r_q r) t) t (r_hist r)) ->
  rstep r a = Some r' -> r_bad r' = false -> forall t, stage (r_pc r' t) (cq_pc (r_q r') t) t (r_hist r').
Proof.
  intros Ft St E B u.
  assert (forall t, t = r_mover a -> (u <> t -> r_pc r' u = r_pc r u /\ cq_pc (r_q r') u = cq_pc (r_q r) u) /\
    exists e, r_hist r' = r_hist r ++ e /\ (e = [] \/ exists x, e = [x] /\ r_actor x = t) /\
    stage (r_pc r' t) (cq_pc (r_q r') t) t (r_hist r ++ e)) as W.
  2:{ destruct (W _ eq_refl) as (O & e & Eh & Ee & S). destruct (Nat.eq_dec u (r_mover a)) as [->|N]; [now rewrite Eh|].
      destruct (O N) as (-> & ->). rewrite Eh. apply stage_kept; auto.
      destruct Ee as [->|(x & -> & Ex)]; [auto|right; exists x; split; auto; congruence]. }
  intros t Et. specialize (Ft t). specialize (St t). unfold rstep in E. destruct (r_bad r) eqn:Br; [discriminate|].
  destruct a as [v|v c|v sp]; cbn [r_mover] in Et; subst v; destruct (r_pc r t) eqn:Pc; try discriminate; cbn [fits stage] in Ft, St.
  - injection E as <-. leaf. rewrite last_snoc. cbn. now rewrite Nat.eqb_refl.
  - destruct (existsb _ _); [|discriminate]. injection E as <-. leaf. rewrite Ft, last_snoc. cbn. now rewrite Nat.eqb_refl.
  - destruct (_ <=? _); injection E as <-; leaf; rewrite ?app_nil_r, ?Ft; auto. rewrite last_snoc. cbn. now rewrite Nat.eqb_refl.
  - destruct (cq_pc (r_q r) t) as [|x|x pos P|x pos P|x pos P|x pos P| |pos P|pos P|pos P|pos P y] eqn:Qp; try contradiction.
    all: cbn [qstep] in E; rewrite Qp in E; try destruct y; repeat match type of E with context [if ?b then _ else _] => destruct b end;
      injection E as <-; cbn in B; try discriminate; unfold placing; cbn [r_q r_set_q r_goto cq_pc cq_goto cq_set_deq cq_set_enq cq_set_data cq_set_seq]; rewrite ?Qp, ?tset_same;
      leaf; rewrite ?app_nil_r, ?Pc; cbn; auto; try (rewrite last_snoc; cbn; now rewrite Nat.eqb_refl).
  - injection E as <-; leaf; rewrite ?app_nil_r, ?Ft; auto.
  - injection E as <-; leaf. unfold outside. rewrite last_snoc. cbn. now rewrite Nat.eqb_refl.
  - destruct (cq_pc (r_q r) t) as [|x|x pos P|x pos P|x pos P|x pos P| |pos P|pos P|pos P|pos P y] eqn:Qp; try contradiction.
    all: cbn [qstep] in E; rewrite Qp in E; try subst x; repeat match type of E with context [if ?b then _ else _] => destruct b end;
      injection E as <-; cbn in B; try discriminate; unfold placing; cbn [r_q r_set_q r_goto cq_pc cq_goto cq_set_deq cq_set_enq cq_set_data cq_set_seq]; rewrite ?Qp, ?tset_same;
      leaf; rewrite ?app_nil_r, ?Pc; cbn; eauto; try (rewrite last_snoc; cbn; now rewrite Nat.eqb_refl).
  - injection E as <-; leaf. unfold outside. rewrite last_snoc. cbn. now rewrite Nat.eqb_refl.
Qed.

Lemma hist_one r a r' : rstep r a = Some r' -> r_hist r' = r_hist r \/ exists e, r_hist r' = r_hist r ++ [e].
Proof.
  unfold rstep. destruct (r_bad r); [discriminate|]. intros E.
  assert (forall q q' t, placing q q' t = [] \/ exists e, placing q q' t = [e]) as K by (intros q q' t; unfold placing; destruct (cq_pc q t), (cq_pc q' t); eauto).
  destruct a as [t|t c|t sp]; destruct (r_pc r t); try discriminate;
    repeat match type of E with context [match ?x with _ => _ end] => destruct x eqn:?; try discriminate end;
    injection E as <-; cbn [r_hist r_goto r_set_q r_set_count r_set_loan r_set_user r_set_bad]; rewrite ?app_nil_r; eauto;
    match goal with |- context [placing ?q ?q' ?t] => destruct (K q q' t) as [->|(e & ->)] end; rewrite ?app_nil_r; eauto.
Qed.

Section Runs.
  Variable n : N.
  Hypothesis Hn : 1 <= n <= 2 ^ 32.

  Lemma timely_init sched a : timely n (sched ++ [a]) -> timely n sched.
  Proof. intros T pre post X. apply (T pre (post ++ [a])). now rewrite X, <- app_assoc. Qed.

  Lemma asked_init sched a : (asked (r_hist (rrun n sched)) <= asked (r_hist (rrun n (sched ++ [a]))))%nat.
  Proof.
    unfold rrun. rewrite run_snoc. unfold move. destruct (rstep _ a) eqn:E; [|lia].
    destruct (hist_grows _ _ _ E) as (e & ->). unfold asked, count. rewrite filter_app, app_length. lia.
  Qed.

  Lemma run_stage sched : timely n sched -> N.of_nat (asked (r_hist (rrun n sched))) < 2 ^ 64 ->
    forall t, stage (r_pc (rrun n sched) t) (cq_pc (r_q (rrun n sched)) t) t (r_hist (rrun n sched)).
  Proof.
    induction sched as [|a sched IH] using rev_ind; intros T L t; [exact I|].
    pose proof (asked_init sched a) as L'. pose proof (timely_init _ _ T) as T'.
    destruct (run_RI n Hn _ T L) as (F & gs & k & g & R).
    assert (N.of_nat (asked (r_hist (rrun n sched))) < 2 ^ 64) as L2 by lia.
    destruct (run_RI n Hn _ T' L2) as (F0 & gs0 & k0 & g0 & R0). specialize (IH T' L2).
    unfold rrun in *. rewrite run_snoc in *. unfold move in *. destruct (rstep (run rstep (cring_new n) sched) a) as [r'|] eqn:E; [|apply IH].
    eapply stage_step; eauto; [apply R0|apply R].
  Qed.

  (** actual_count is the number of calls that got past it, as long as it does not wrap. *)
  Lemma count_exact r F gs asking giving : RI n r F gs asking giving -> N.of_nat (asked (r_hist r)) < 2 ^ 64 -> r_count r = F.
  Proof. intros R L. rewrite (ri_count _ _ _ _ _ _ R). destruct (ri_asking _ _ _ _ _ _ R) as (_ & _ & A). apply N.mod_small. unfold w64. lia. Qed.

  Lemma count_step sched a : timely n (sched ++ [a]) -> N.of_nat (asked (r_hist (rrun n (sched ++ [a])))) < 2 ^ 64 ->
    r_count (rrun n sched) <= r_count (rrun n (sched ++ [a])).
  Proof.
    intros T L. pose proof (asked_init sched a) as L'. pose proof (timely_init _ _ T) as T'.
    assert (N.of_nat (asked (r_hist (rrun n sched))) < 2 ^ 64) as L2 by lia.
    destruct (run_RI n Hn _ T' L2) as (F0 & gs0 & k0 & g0 & R0). pose proof (count_exact _ _ _ _ _ R0 L2) as C0.
    destruct (ri_asking _ _ _ _ _ _ R0) as (A1 & A2 & A3).
    unfold rrun in *. rewrite run_snoc in *. unfold move in *. destruct (rstep (run rstep (cring_new n) sched) a) as [r'|] eqn:E; [|lia].
    set (r := run rstep (cring_new n) sched) in *. clearbody r. unfold rstep in E. destruct (r_bad r); [discriminate|].
    destruct a as [t|t c|t sp]; destruct (r_pc r t) eqn:Pc; try discriminate.
    3:{ assert (F0 + 1 < w64) as Lt.
        { apply A2 in Pc. destruct k0; [contradiction|]. cbn [length] in A3. unfold w64.
          destruct (_ <=? _) in E; injection E as <-; cbn [r_hist r_goto r_set_count] in L; unfold asked, count in *; rewrite filter_app, app_length in L; cbn [length filter] in L; lia. }
        destruct (_ <=? _) in E; injection E as <-; cbn [r_count r_goto r_set_count]; rewrite C0, N.mod_small by exact Lt; lia. }
    all: try destruct (existsb _ _) in E; try (destruct (cq_pc (r_q r) t) as [| | | | | | | | | |? ? [?|]]); try destruct (qstep _ _) in E; try discriminate; injection E as <-; cbn; lia.
  Qed.

  Lemma count_mono sched more : timely n (sched ++ more) -> N.of_nat (asked (r_hist (rrun n (sched ++ more)))) < 2 ^ 64 ->
    r_count (rrun n sched) <= r_count (rrun n (sched ++ more)) /\ (asked (r_hist (rrun n sched)) <= asked (r_hist (rrun n (sched ++ more))))%nat.
  Proof.
    induction more as [|a more IH] using rev_ind; intros T L; [rewrite app_nil_r; lia|]. rewrite app_assoc in *.
    pose proof (asked_init (sched ++ more) a). pose proof (count_step _ _ T L). destruct IH; [eapply timely_init; eauto|lia|lia].
  Qed.

  (** Every chunk ever handed out is below the counter. *)
  Lemma got_below sched : timely n sched -> N.of_nat (asked (r_hist (rrun n sched))) < 2 ^ 64 ->
    forall t c, In (GetReturned t c) (r_hist (rrun n sched)) -> c < N.min n (r_count (rrun n sched)).
  Proof.
    induction sched as [|a sched IH] using rev_ind; intros T L t c H; [contradiction|].
    pose proof (asked_init sched a) as L'. pose proof (timely_init _ _ T) as T'.
    destruct (run_RI n Hn _ T L) as (F & gs & k & g & R). pose proof (count_exact _ _ _ _ _ R L) as C. pose proof (count_step _ _ T L) as M.
    assert (N.of_nat (asked (r_hist (rrun n sched))) < 2 ^ 64) as L2 by lia. specialize (IH T' L2 t c).
    assert (In (GetReturned t c) (r_hist (rrun n sched)) \/ In c (lent_out (r_hist (rrun n (sched ++ [a]))))) as [X|X].
    { clear - H. unfold rrun in *. rewrite run_snoc in *. unfold move in *. destruct (rstep (run rstep (cring_new n) sched) a) as [r'|] eqn:E; [|auto].
      destruct (hist_one _ _ _ E) as [Eh|(e & Eh)]; rewrite Eh in *; auto. apply in_app_or in H as [H|[->|[]]]; auto. right. rewrite lent_snoc. now left. }
    - apply IH in X. lia.
    - assert (c < N.min F n) by (apply (u_range _ _ _ _ (ri_u _ _ _ _ _ _ R)), in_or_app; auto). lia.
  Qed.
End Runs.
