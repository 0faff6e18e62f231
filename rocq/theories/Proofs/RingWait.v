(** Who waits for whom in a ring buffer shared by threads. *)
From Verif Require Import Base Spec.QueueHistory Spec.RingHistory Model.Queue Model.Buffer Model.Interleave Model.QueueConc Model.RingConc
  Proofs.Queue Proofs.Buffer Proofs.Interleave Proofs.QueueConc Proofs.RingConc Proofs.RingStage.
Local Open Scope N_scope.
Local Opaque N.modulo N.pow upper_power_of_two.

Section Cells.
  Variables cap j : N.
  Hypothesis Hcap : cap = 2 ^ j.
  Hypothesis Hj1 : 1 <= j.
  Hypothesis Hj2 : j <= 61.

  (** A call that finds the queue full although it is not: a dequeue has its place
      and is not finished. *)
  Lemma full_for_one (q : cqueue N) gs P : qinv cap q gs -> P <= placed_in q -> gs (P mod cap) < P -> placed_in q < placed_out q + cap ->
    exists u i, deq_busy q u i.
  Proof.
    intros I HP G Lt. destruct (i_cell _ _ _ I _ (slot_lt cap j Hcap Hj1 Hj2 P)) as (i & M & L & H).
    assert (i < P) as Hi by (destruct H as [(A & _)|(A & _)]; klia).
    assert (placed_in q = i + cap) as X.
    { assert (P = i + cap) as X; [|klia].
      destruct (N.lt_ge_cases P (i + cap)) as [Y|Y]; [|klia]. exfalso. assert (i = P); [|klia]. apply (same_slot cap j Hcap Hj1 Hj2); auto. klia. }
    assert (i < placed_out q) as Y by klia. destruct H as [(A & B & C)|(A & B & _ & C)]; [klia|]. destruct (C Y) as (u & Z). eauto.
  Qed.

  (** Likewise empty. *)
  Lemma empty_for_one (q : cqueue N) gs P : qinv cap q gs -> P <= placed_out q -> gs (P mod cap) < P + 1 -> placed_out q < placed_in q ->
    exists u i, enq_busy q u i.
  Proof.
    intros I HP G Lt. pose proof (i_bnd _ _ _ I) as Bd.
    destruct (i_cell _ _ _ I _ (slot_lt cap j Hcap Hj1 Hj2 P)) as (i & M & L & [(A & B & C)|(A & B & _)]).
    - assert (i < placed_in q) as X by klia. destruct (C X) as (u & Z). eauto.
    - exfalso. assert (P = i + cap) as X; [|klia].
      destruct (N.lt_ge_cases P (i + cap)) as [Y|Y]; [|klia]. exfalso. assert (i = P); [|klia]. apply (same_slot cap j Hcap Hj1 Hj2); auto. klia.
  Qed.

  Lemma free_cell (q : cqueue N) gs : qinv cap q gs -> (forall u i, ~ deq_busy q u i) -> placed_in q < placed_out q + cap ->
    cq_seq q (cq_slot q (cq_enq q)) = cq_enq q.
  Proof.
    intros I N Lt. rewrite (i_enq _ _ _ I), (slot_of cap j Hcap Hj1 Hj2) by apply I. rewrite (i_seq _ _ _ I) by apply (slot_lt cap j Hcap Hj1 Hj2). f_equal.
    destruct (N.lt_ge_cases (gs (placed_in q mod cap)) (placed_in q)) as [X|X].
    - exfalso. destruct (full_for_one q gs (placed_in q) I) as (u & i & Y); auto; [lia|]. now apply (N u i).
    - now apply (cell_waits cap j Hcap Hj1 Hj2 q gs).
  Qed.

  Lemma full_cell (q : cqueue N) gs : qinv cap q gs -> (forall u i, ~ enq_busy q u i) -> placed_out q < placed_in q ->
    cq_seq q (cq_slot q (cq_deq q)) = (cq_deq q + 1) mod w64 /\ exists c, cq_data q (cq_slot q (cq_deq q)) = Some c.
  Proof.
    intros I N Lt. rewrite (i_deq _ _ _ I), (slot_of cap j Hcap Hj1 Hj2) by apply I. rewrite (i_seq _ _ _ I) by apply (slot_lt cap j Hcap Hj1 Hj2).
    unfold w64 at 2 3. rewrite N.add_mod_idemp_l by lia. fold w64.
    destruct (N.lt_ge_cases (gs (placed_out q mod cap)) (placed_out q + 1)) as [X|X].
    - exfalso. destruct (empty_for_one q gs (placed_out q) I) as (u & i & Y); auto; [lia|]. now apply (N u i).
    - destruct (cell_holds cap j Hcap Hj1 Hj2 q gs (placed_out q) I eq_refl X) as (A & B & C). rewrite A, C. split; auto.
      unfold val. destruct (nth_error (ins (cq_hist q)) (N.to_nat (placed_out q))) as [c|] eqn:V; [eauto|].
      apply nth_error_None in V. unfold placed_in, placed_out in *. lia.
  Qed.
End Cells.

(** ** A thread that runs alone *)

Definition alone (r : cring) (t : tid) (k : nat) : cring := run rstep r (repeat (RGo t false) k).

Lemma alone_S r t k r1 : rstep r (RGo t false) = Some r1 -> alone r t (S k) = alone r1 t k.
Proof. intros E. unfold alone. cbn [repeat run]. unfold move. now rewrite E. Qed.

Definition ends (r : cring) (t : tid) (m : nat) : Prop := exists k, (k <= m)%nat /\ r_pc (alone r t k) t = RIdle.

Lemma ends_S r t m r1 : rstep r (RGo t false) = Some r1 -> ends r1 t m -> ends r t (S m).
Proof. intros E (k & L & H). exists (S k). split; [lia|]. now rewrite (alone_S _ _ _ _ E). Qed.

Lemma ends_more r t m m' : ends r t m -> (m <= m')%nat -> ends r t m'.
Proof. intros (k & L & H) Le. exists k. split; auto. lia. Qed.

Ltac go := eapply ends_S; [unfold rstep; cbn [r_bad r_pc r_q r_goto r_set_q r_set_count r_set_loan r_set_user qstep cq_pc cq_goto cq_set_data cq_set_seq cq_set_enq cq_set_deq];
  rewrite ?tset_same; repeat match goal with H : r_bad _ = false |- _ => rewrite H | H : r_pc _ _ = _ |- _ => rewrite H | H : cq_pc _ _ = _ |- _ => rewrite H end;
  rewrite ?tset_same; cbn [qstep cq_pc cq_goto]; try reflexivity|].

Section Alone.
  Variable t : tid.

  Lemma ends_idle r : r_pc r t = RIdle -> ends r t 0.
  Proof. intros E. now exists 0%nat. Qed.

  Lemma end_rloan r : r_bad r = false -> r_pc r t = RLoan -> ends r t 1.
  Proof. intros B E. go. apply ends_idle. cbn. apply tset_same. Qed.

  Lemma end_pub r c x pos P : r_bad r = false -> r_pc r t = RPut c -> cq_pc (r_q r) t = EPub x pos P -> ends r t 2.
  Proof. intros B E Q. go. apply end_rloan; cbn; auto. apply tset_same. Qed.

  Lemma end_data r c x pos P : r_bad r = false -> r_pc r t = RPut c -> cq_pc (r_q r) t = EData x pos P -> ends r t 3.
  Proof. intros B E Q. go. eapply end_pub; cbn; auto; apply tset_same. Qed.

  Lemma end_cas r c x pos P : r_bad r = false -> r_pc r t = RPut c -> cq_pc (r_q r) t = ECas x pos P -> cq_enq (r_q r) = pos -> ends r t 4.
  Proof.
    intros B E Q En. subst pos. go; [rewrite N.eqb_refl; cbn [negb andb]; reflexivity|]. eapply end_data; cbn; auto; apply tset_same.
  Qed.

  Definition room (q : cqueue N) : Prop := cq_seq q (cq_slot q (cq_enq q)) = cq_enq q.

  Lemma sdif_self a : a < w64 -> sdif a a = 0%Z.
  Proof. intros L. rewrite <- (N.mod_small a w64) by exact L. rewrite sdif_small by lia. lia. Qed.

  Lemma end_seq r c x pos P : r_bad r = false -> r_pc r t = RPut c -> cq_pc (r_q r) t = ESeq x pos P -> cq_enq (r_q r) = pos -> cq_enq (r_q r) < w64 -> room (r_q r) -> ends r t 5.
  Proof.
    intros B E Q En Lt Ro. subst pos. unfold room in Ro. go.
    { rewrite Ro, sdif_self by auto. reflexivity. }
    eapply end_cas; cbn; auto; apply tset_same.
  Qed.

  Lemma end_pos r c x : r_bad r = false -> r_pc r t = RPut c -> cq_pc (r_q r) t = EPos x -> cq_enq (r_q r) < w64 -> room (r_q r) -> ends r t 6.
  Proof. intros B E Q Lt Ro. go. eapply end_seq; cbn; auto; apply tset_same. Qed.

  Lemma end_put_idle r c : r_bad r = false -> r_pc r t = RPut c -> cq_pc (r_q r) t = QIdle -> cq_enq (r_q r) < w64 -> room (r_q r) -> ends r t 7.
  Proof. intros B E Q Lt Ro. go. eapply end_pos with (c := c) (x := c); cbn; auto; apply tset_same. Qed.

  Lemma end_cas_any r c x pos P : r_bad r = false -> r_pc r t = RPut c -> cq_pc (r_q r) t = ECas x pos P -> cq_enq (r_q r) < w64 -> room (r_q r) -> ends r t 6.
  Proof.
    intros B E Q Lt Ro. destruct (N.eqb_spec (cq_enq (r_q r)) pos) as [En|Ne]; [eapply ends_more; [eapply end_cas; eauto|lia]|].
    go. { destruct (N.eqb_spec (cq_enq (r_q r)) pos); [congruence|]. cbn [andb]. reflexivity. }
    eapply end_seq; cbn; auto; apply tset_same.
  Qed.

  Lemma end_seq_any r c x pos P : r_bad r = false -> r_pc r t = RPut c -> cq_pc (r_q r) t = ESeq x pos P -> cq_enq (r_q r) < w64 -> room (r_q r) -> ends r t 8.
  Proof.
    intros B E Q Lt Ro. destruct (sdif (cq_seq (r_q r) (cq_slot (r_q r) pos)) pos =? 0)%Z eqn:D0.
    - eapply ends_more with (m := 7%nat); [|lia]. go. { rewrite D0. reflexivity. } eapply end_cas_any; cbn; auto; apply tset_same.
    - destruct (sdif (cq_seq (r_q r) (cq_slot (r_q r) pos)) pos <? 0)%Z eqn:D1.
      + go. { rewrite D0, D1. reflexivity. } eapply end_put_idle; cbn; auto; apply tset_same.
      + eapply ends_more with (m := 7%nat); [|lia]. go. { rewrite D0, D1. reflexivity. } eapply end_pos; cbn; auto; apply tset_same.
  Qed.

  Lemma end_put r c : r_bad r = false -> r_pc r t = RPut c -> fits (RPut c) (cq_pc (r_q r) t) -> cq_enq (r_q r) < w64 -> room (r_q r) -> ends r t 8.
  Proof.
    intros B E Ft Lt Ro. cbn [fits] in Ft. destruct (cq_pc (r_q r) t) as [|x|x pos P|x pos P|x pos P|x pos P| |pos P|pos P|pos P|pos P y] eqn:Q; try contradiction.
    - eapply ends_more; [eapply end_put_idle; eauto|lia].
    - eapply ends_more; [eapply end_pos; eauto|lia].
    - eapply end_seq_any; eauto.
    - eapply ends_more; [eapply end_cas_any; eauto|lia].
    - eapply ends_more; [eapply end_data; eauto|lia].
    - eapply ends_more; [eapply end_pub; eauto|lia].
  Qed.

  (** getChunk *)
  Lemma end_gloan r c : r_bad r = false -> r_pc r t = GLoan c -> ends r t 1.
  Proof. intros B E. go. apply ends_idle. cbn. apply tset_same. Qed.

  Lemma end_greset r c : r_bad r = false -> r_pc r t = GReset c -> ends r t 2.
  Proof. intros B E. go. eapply end_gloan; cbn; auto. apply tset_same. Qed.

  Lemma end_dpub r pos P c : r_bad r = false -> r_pc r t = GWait -> cq_pc (r_q r) t = DPub pos P (Some c) -> ends r t 3.
  Proof. intros B E Q. go. eapply end_greset; cbn; auto. apply tset_same. Qed.

  Lemma end_ddata r pos P c : r_bad r = false -> r_pc r t = GWait -> cq_pc (r_q r) t = DData pos P -> cq_data (r_q r) (cq_slot (r_q r) pos) = Some c -> ends r t 4.
  Proof. intros B E Q D. go. eapply end_dpub with (c := c); cbn; auto; rewrite tset_same; auto. now rewrite D. Qed.

  Definition stock (q : cqueue N) : Prop :=
    cq_seq q (cq_slot q (cq_deq q)) = (cq_deq q + 1) mod w64 /\ exists c, cq_data q (cq_slot q (cq_deq q)) = Some c.

  Lemma end_dcas r pos P : r_bad r = false -> r_pc r t = GWait -> cq_pc (r_q r) t = DCas pos P -> cq_deq (r_q r) = pos -> stock (r_q r) -> ends r t 5.
  Proof.
    intros B E Q En (_ & c & D). subst pos. go; [rewrite N.eqb_refl; cbn [negb andb]; reflexivity|]. eapply end_ddata with (c := c); cbn; auto; first [apply tset_same|exact D].
  Qed.

  Lemma end_dseq r pos P : r_bad r = false -> r_pc r t = GWait -> cq_pc (r_q r) t = DSeq pos P -> cq_deq (r_q r) = pos -> stock (r_q r) -> ends r t 6.
  Proof.
    intros B E Q En Ro. subst pos. go.
    { rewrite (proj1 Ro), sdif_self by (apply N.mod_lt; unfold w64; lia). reflexivity. }
    eapply end_dcas; cbn; auto; apply tset_same.
  Qed.

  Lemma end_dpos r : r_bad r = false -> r_pc r t = GWait -> cq_pc (r_q r) t = DPos -> stock (r_q r) -> ends r t 7.
  Proof. intros B E Q Ro. go. eapply end_dseq; cbn; auto; apply tset_same. Qed.

  Lemma end_wait_idle r : r_bad r = false -> r_pc r t = GWait -> cq_pc (r_q r) t = QIdle -> stock (r_q r) -> ends r t 8.
  Proof. intros B E Q Ro. go. apply end_dpos; cbn; auto; apply tset_same. Qed.

  Lemma end_dcas_any r pos P : r_bad r = false -> r_pc r t = GWait -> cq_pc (r_q r) t = DCas pos P -> stock (r_q r) -> ends r t 7.
  Proof.
    intros B E Q Ro. destruct (N.eqb_spec (cq_deq (r_q r)) pos) as [En|Ne]; [eapply ends_more; [eapply end_dcas; eauto|lia]|].
    go. { destruct (N.eqb_spec (cq_deq (r_q r)) pos); [congruence|]. cbn [andb]. reflexivity. }
    eapply end_dseq; cbn; auto; apply tset_same.
  Qed.

  Lemma end_dseq_any r pos P : r_bad r = false -> r_pc r t = GWait -> cq_pc (r_q r) t = DSeq pos P -> stock (r_q r) -> ends r t 9.
  Proof.
    intros B E Q Ro. destruct (sdif (cq_seq (r_q r) (cq_slot (r_q r) pos)) ((pos + 1) mod w64) =? 0)%Z eqn:D0.
    - eapply ends_more with (m := 8%nat); [|lia]. go. { rewrite D0. reflexivity. } eapply end_dcas_any; cbn; auto; apply tset_same.
    - destruct (sdif (cq_seq (r_q r) (cq_slot (r_q r) pos)) ((pos + 1) mod w64) <? 0)%Z eqn:D1.
      + go. { rewrite D0, D1. reflexivity. } eapply end_wait_idle; cbn; auto; apply tset_same.
      + eapply ends_more with (m := 8%nat); [|lia]. go. { rewrite D0, D1. reflexivity. } eapply end_dpos; cbn; auto; apply tset_same.
  Qed.
End Alone.

Lemma bounded_nodup (l : list N) m : NoDup l -> (forall x, In x l -> x < m) -> N.of_nat (length l) <= m.
Proof.
  intros D H. assert (length l <= length (map N.of_nat (seq 0 (N.to_nat m))))%nat as L.
  { apply NoDup_incl_length; auto. intros x Hx. apply in_map_iff. exists (N.to_nat x). split; [lia|]. apply in_seq. apply H in Hx. lia. }
  rewrite map_length, seq_length in L. lia.
Qed.

Section Ring.
  Variable n : N.
  Hypothesis Hn : 1 <= n <= 2 ^ 32.
  Variables (r : cring) (F : N) (gs : N -> N) (asking giving : list tid).
  Hypothesis R : RI n r F gs asking giving.

  Lemma queue_length : N.of_nat (length (queued (r_q r))) + placed_out (r_q r) = placed_in (r_q r).
  Proof. pose proof (i_bnd _ _ _ (ri_q _ _ _ _ _ _ R)) as B. unfold queued, placed_in, placed_out in *. rewrite skipn_length. lia. Qed.

  Lemma queue_room t c : hand r t = Some c -> placed_in (r_q r) < placed_out (r_q r) + upper_power_of_two n.
  Proof.
    intros H. destruct (cap_facts n Hn) as (_ & _ & _ & _ & L). pose proof (ri_u _ _ _ _ _ _ R) as U0.
    destruct (u_hand _ _ _ _ U0 t c H) as (Lc & NI). pose proof (u_nodup _ _ _ _ U0) as D. apply nodup_app in D as (_ & D & _).
    assert (N.of_nat (length (c :: queued (r_q r))) <= N.min F n) as B.
    { apply bounded_nodup; [constructor; auto; intros X; apply NI, in_or_app; auto|]. intros x [<-|Hx]; auto.
      apply (u_range _ _ _ _ U0), in_or_app. auto. }
    pose proof queue_length. cbn [length] in B. lia.
  Qed.

  Hypothesis St : forall u, stale (r_q r) u < 2 ^ 62.

  Lemma deq_busy_open u i : deq_busy (r_q r) u i -> r_pc r u = GWait /\ exists k, open_claim (r_hist r) u k.
  Proof.
    intros (pos & B). pose proof (ri_fits _ _ _ _ _ _ R u) as Ft. pose proof (ri_ticket _ _ _ _ _ _ R u) as Ti. unfold ticket in Ti.
    assert (r_pc r u = GWait) as P.
    { destruct B as [B|(v & B)]; rewrite B in Ft; destruct (r_pc r u); cbn in Ft; auto; try discriminate; contradiction. }
    split; auto. rewrite P in Ti. destruct B as [B|(v & B)]; rewrite B in Ti; eauto.
  Qed.

  Lemma enq_busy_put u i : enq_busy (r_q r) u i -> exists c, r_pc r u = RPut c.
  Proof.
    intros (x & pos & B). pose proof (ri_fits _ _ _ _ _ _ R u) as Ft.
    destruct B as [B|B]; rewrite B in Ft; destruct (r_pc r u); cbn in Ft; eauto; try discriminate; contradiction.
  Qed.

  Lemma app_self {A} (l : list A) a b : l ++ a = l ++ b -> a = b.
  Proof. apply app_inv_head. Qed.

  Lemma put_full t c sp r' : r_pc r t = RPut c -> rstep r (RGo t sp) = Some r' -> cq_hist (r_q r') = cq_hist (r_q r) ++ [EnqFull t] ->
    exists u k, u <> t /\ r_pc r u = GWait /\ open_claim (r_hist r) u k.
  Proof.
    intros Pc E Eh. unfold rstep in E. rewrite (ri_bad _ _ _ _ _ _ R), Pc in E. pose proof (ri_q _ _ _ _ _ _ R) as Q.
    destruct (cap_facts n Hn) as (j & Hc & H1 & H2 & _). pose proof (cap_le _ j Hc H1 H2) as Cl.
    pose proof (i_thr _ _ _ Q t) as Th. specialize (St t) as Stt. unfold stale in Stt.
    assert (Ha : forall x pos P, cq_pc (r_q r) t = ESeq x pos P -> hand r t = Some c) by (intros x pos P X; unfold hand; now rewrite Pc, X).
    destruct (cq_pc (r_q r) t) as [|x|x pos P|x pos P|x pos P|x pos P| |pos P|pos P|pos P|pos P y] eqn:Qp; cbn [qstep] in E; rewrite ?Qp in E.
    3:{ destruct Th as (Hp & Hl). subst pos. rewrite (slot_of _ j Hc H1 H2), (i_seq _ _ _ Q) in E by (apply Q || eapply (slot_lt _ j Hc H1 H2)).
      destruct (gs_near _ j Hc H1 H2 _ _ P Q) as (N1 & N2). rewrite (sdif_near _ j Hc H1 H2) in E by klia.
      destruct (Z.eqb_spec (Z.of_N (gs (P mod upper_power_of_two n)) - Z.of_N P) 0) as [Ed|Ed];
        [|destruct (Z.ltb_spec (Z.of_N (gs (P mod upper_power_of_two n)) - Z.of_N P) 0) as [Lt|Lt]].
      - injection E as <-. cbn in Eh. now apply app_self in Eh.
      - destruct (full_for_one _ j Hc H1 H2 (r_q r) gs P Q Hl) as (u & i & B); [klia|eapply queue_room; eapply Ha; reflexivity|].
        destruct (deq_busy_open u i B) as (X & k & Y). exists u, k. split; auto. intros ->. congruence.
      - injection E as <-. cbn in Eh. now apply app_self in Eh. }
    all: exfalso; repeat match type of E with context [if ?b then _ else _] => destruct b end; try discriminate E; injection E as <-; cbn in Eh; apply app_self in Eh; discriminate.
  Qed.

  Lemma get_empty t sp r' : r_pc r t = GWait -> rstep r (RGo t sp) = Some r' -> cq_hist (r_q r') = cq_hist (r_q r) ++ [DeqEmpty t] ->
    N.of_nat (claims (r_hist r)) = n + N.of_nat (length (backs (r_hist r))) \/ exists u c, u <> t /\ r_pc r u = RPut c.
  Proof.
    intros Pc E Eh. unfold rstep in E. rewrite (ri_bad _ _ _ _ _ _ R), Pc in E. pose proof (ri_q _ _ _ _ _ _ R) as Q.
    destruct (cap_facts n Hn) as (j & Hc & H1 & H2 & _). pose proof (cap_le _ j Hc H1 H2) as Cl. pose proof (i_bnd _ _ _ Q) as Bd.
    pose proof (ri_first _ _ _ _ _ _ R t Pc) as Wf. pose proof (ri_claims _ _ _ _ _ _ R) as Clm.
    pose proof (ri_fits _ _ _ _ _ _ R t) as Ft. rewrite Pc in Ft. cbn [fits] in Ft.
    pose proof (i_thr _ _ _ Q t) as Th. specialize (St t) as Stt. unfold stale in Stt.
    destruct (cq_pc (r_q r) t) as [|x|x pos P|x pos P|x pos P|x pos P| |pos P|pos P|pos P|pos P y] eqn:Qp; cbn [qstep] in E; rewrite ?Qp in E.
    8:{ destruct Th as (Hp & Hl). subst pos. rewrite (slot_of _ j Hc H1 H2), (i_seq _ _ _ Q) in E by (apply Q || eapply (slot_lt _ j Hc H1 H2)).
      assert ((P mod w64 + 1) mod w64 = (P + 1) mod w64) as W by (unfold w64; rewrite N.add_mod_idemp_l by lia; reflexivity).
      rewrite W in E. destruct (gs_near _ j Hc H1 H2 _ _ P Q) as (N1 & N2). rewrite (sdif_near _ j Hc H1 H2) in E by klia.
      destruct (Z.eqb_spec (Z.of_N (gs (P mod upper_power_of_two n)) - Z.of_N (P + 1)) 0) as [Ed|Ed];
        [|destruct (Z.ltb_spec (Z.of_N (gs (P mod upper_power_of_two n)) - Z.of_N (P + 1)) 0) as [Lt|Lt]].
      - injection E as <-. cbn in Eh. now apply app_self in Eh.
      - destruct (N.eq_dec (placed_out (r_q r)) (placed_in (r_q r))) as [X|X].
        + left. rewrite (ri_backs _ _ _ _ _ _ R). fold (placed_in (r_q r)). lia.
        + right. destruct (empty_for_one _ j Hc H1 H2 (r_q r) gs P Q Hl) as (u & i & B); [klia|klia|].
          destruct (enq_busy_put u i B) as (d & Y). exists u, d. split; auto. intros ->. congruence.
      - injection E as <-. cbn in Eh. now apply app_self in Eh. }
    all: exfalso; try contradiction; try destruct y; repeat match type of E with context [if ?b then _ else _] => destruct b end; try discriminate E; injection E as <-; cbn in Eh; try (apply app_self in Eh; discriminate).
  Qed.

  Hypothesis Sg : forall t, stage (r_pc r t) (cq_pc (r_q r) t) t (r_hist r).

  (** Alone, returnChunk returns. *)
  Lemma put_alone t c : r_pc r t = RPut c -> (forall u, last_of u (r_hist r) <> Some (Claimed u)) -> ends r t 8.
  Proof.
    intros Pc NG. pose proof (ri_q _ _ _ _ _ _ R) as Q. destruct (cap_facts n Hn) as (j & Hc & H1 & H2 & _).
    pose proof (ri_fits _ _ _ _ _ _ R t) as Ft. rewrite Pc in Ft. pose proof (ri_bad _ _ _ _ _ _ R) as B.
    destruct (hand r t) as [d|] eqn:Ha.
    - eapply end_put; eauto; [rewrite (i_enq _ _ _ Q); apply N.mod_lt; unfold w64; lia|]. apply (free_cell _ j Hc H1 H2 _ gs); auto.
      + intros u i X. apply deq_busy_open in X as (_ & k & X). apply last_open in X. now apply (NG u).
      + eapply queue_room; eauto.
    - unfold hand in Ha. rewrite Pc in Ha. destruct (cq_pc (r_q r) t) eqn:Qp; try discriminate.
      + eapply ends_more; [eapply end_data; eauto|lia].
      + eapply ends_more; [eapply end_pub; eauto|lia].
  Qed.

  Lemma return_alone t : (exists c, last_of t (r_hist r) = Some (RetCalled t c) \/ last_of t (r_hist r) = Some (Placed t c)) ->
    (forall u, last_of u (r_hist r) <> Some (Claimed u)) -> ends r t 8.
  Proof.
    intros (c & H) NG. specialize (Sg t) as S. destruct (r_pc r t) eqn:Pc; cbn [stage] in S.
    - exfalso. unfold outside in S. destruct H as [H|H]; now rewrite H in S.
    - destruct H as [H|H]; rewrite H in S; discriminate.
    - destruct H as [H|H]; rewrite H in S; destruct (cq_pc (r_q r) t); discriminate.
    - destruct H as [H|H]; rewrite H in S; discriminate.
    - destruct H as [H|H]; rewrite H in S; discriminate.
    - eapply put_alone; eauto.
    - eapply ends_more; [eapply end_rloan; eauto; apply R|lia].
  Qed.

  (** Alone, getChunk returns if it has its chunk or there is one. *)
  Lemma val_some P : P < placed_out (r_q r) -> exists c, val (r_q r) P = Some c.
  Proof.
    intros L. pose proof (i_bnd _ _ _ (ri_q _ _ _ _ _ _ R)) as Bd. unfold val, placed_in, placed_out in *.
    destruct (nth_error (ins (cq_hist (r_q r))) (N.to_nat P)) eqn:E; eauto. apply nth_error_None in E. lia.
  Qed.

  Lemma stocked : (forall u c, last_of u (r_hist r) <> Some (Placed u c)) -> n <= F ->
    N.of_nat (claims (r_hist r)) < n + N.of_nat (length (backs (r_hist r))) -> stock (r_q r).
  Proof.
    intros NP Wf H. pose proof (ri_q _ _ _ _ _ _ R) as Q. destruct (cap_facts n Hn) as (j & Hc & H1 & H2 & _).
    apply (full_cell _ j Hc H1 H2 _ gs); auto.
    - intros u i X. destruct (enq_busy_put u i X) as (c & Y). destruct X as (x & pos & X). specialize (Sg u) as S. rewrite Y in S. cbn [stage] in S.
      apply (NP u c). destruct X as [X|X]; now rewrite X in S.
    - rewrite (ri_claims _ _ _ _ _ _ R), (ri_backs _ _ _ _ _ _ R) in H. fold (placed_in (r_q r)) in H. lia.
  Qed.

  Lemma wait_alone t : r_pc r t = GWait -> (forall u c, last_of u (r_hist r) <> Some (Placed u c)) ->
    last_of t (r_hist r) = Some (Claimed t) \/ N.of_nat (claims (r_hist r)) < n + N.of_nat (length (backs (r_hist r))) -> ends r t 9.
  Proof.
    intros Pc NP Has. pose proof (ri_q _ _ _ _ _ _ R) as Q. destruct (cap_facts n Hn) as (j & Hc & H1 & H2 & _).
    pose proof (ri_fits _ _ _ _ _ _ R t) as Ft. rewrite Pc in Ft. cbn [fits] in Ft. pose proof (ri_bad _ _ _ _ _ _ R) as B.
    pose proof (ri_first _ _ _ _ _ _ R t Pc) as Wf. pose proof (i_thr _ _ _ Q t) as Th. specialize (Sg t) as S0. rewrite Pc in S0. cbn [stage] in S0.
    destruct (cq_pc (r_q r) t) as [|x|x pos P|x pos P|x pos P|x pos P| |pos P|pos P|pos P|pos P y] eqn:Qp; try contradiction.
    5:{ destruct Th as (-> & L & _ & _ & D). destruct (val_some P L) as (c & V). rewrite V in D.
        eapply ends_more; [eapply end_ddata; eauto|lia]. rewrite (slot_of _ j Hc H1 H2) by apply Q. exact D. }
    5:{ destruct Th as (-> & L & _ & _ & D). destruct (val_some P L) as (c & V). subst y. rewrite V in Qp.
        eapply ends_more; [eapply end_dpub; eauto|lia]. }
    all: assert (stock (r_q r)) as S by (apply stocked; auto; destruct Has as [H|H]; [rewrite H in S0; discriminate|exact H]).
    - eapply ends_more; [eapply end_wait_idle; eauto|lia].
    - eapply ends_more; [eapply end_dpos; eauto|lia].
    - eapply end_dseq_any; eauto.
    - eapply ends_more; [eapply end_dcas_any; eauto|lia].
  Qed.

  Lemma get_alone t : (last_of t (r_hist r) = Some (Claimed t) \/
      last_of t (r_hist r) = Some (GetCalled t) /\ N.of_nat (claims (r_hist r)) < n + N.of_nat (length (backs (r_hist r)))) ->
    N.of_nat (asked (r_hist r)) < 2 ^ 64 -> (forall u c, last_of u (r_hist r) <> Some (Placed u c)) -> ends r t 9.
  Proof.
    intros H La NP. specialize (Sg t) as S. pose proof (ri_bad _ _ _ _ _ _ R) as B. destruct (r_pc r t) eqn:Pc; cbn [stage] in S.
    - exfalso. unfold outside in S. destruct H as [H|(H & _)]; now rewrite H in S.
    - destruct H as [H|(_ & H)]; [rewrite H in S; discriminate|]. pose proof (count_exact n Hn _ _ _ _ _ R La) as C.
      pose proof (ri_fits _ _ _ _ _ _ R t) as Ft. rewrite Pc in Ft. cbn [fits] in Ft.
      destruct (N.leb_spec (r_size r) (r_count r)) as [Le|Lt].
      + eapply ends_S; [unfold rstep; rewrite B, Pc, (proj2 (N.leb_le _ _) Le); reflexivity|].
        apply end_wait_idle; cbn [r_bad r_goto r_set_count r_pc r_q]; rewrite ?tset_same; auto. rewrite (ri_size _ _ _ _ _ _ R), C in Le. now apply stocked.
      + eapply ends_more; [eapply ends_S; [unfold rstep; rewrite B, Pc, (proj2 (N.leb_gt _ _) Lt); reflexivity|eapply end_greset; cbn; rewrite ?tset_same; eauto]|lia].
    - apply wait_alone; auto. tauto.
    - eapply ends_more; [eapply end_greset; eauto|lia].
    - eapply ends_more; [eapply end_gloan; eauto|lia].
    - exfalso. destruct H as [H|(H & _)]; rewrite H in S; destruct (cq_pc (r_q r) t); discriminate.
    - exfalso. destruct S as (c & S). destruct H as [H|(H & _)]; rewrite H in S; discriminate.
  Qed.
End Ring.
