(** The bounded queue under every interleaving. *)
From Verif Require Import Base Spec.QueueHistory Model.Queue Model.Interleave Model.QueueConc
  Proofs.Queue Proofs.Interleave.
Local Open Scope N_scope.
Local Opaque N.modulo N.pow.

(** The last event of a kind splits a history in one way only. *)
Lemma last_split {A} (P : A -> Prop) a x b a' x' b' :
  a ++ x :: b = a' ++ x' :: b' -> P x -> P x' ->
  (forall e, In e b -> ~ P e) -> (forall e, In e b' -> ~ P e) -> a = a' /\ x = x' /\ b = b'.
Proof.
  revert a'. induction a as [|y a IH]; intros [|y' a'] E Px Px' Hb Hb'; cbn in E.
  - injection E as -> ->. auto.
  - injection E as -> ->. exfalso. apply (Hb x'); [apply in_elt|exact Px'].
  - injection E as -> <-. exfalso. apply (Hb' x); [apply in_elt|exact Px].
  - injection E as -> E. destruct (IH a' E) as (-> & -> & ->); auto.
Qed.

Lemma snoc_split {A} (h : list A) e p x s :
  h ++ [e] = p ++ x :: s -> (s = [] /\ p = h /\ e = x) \/ exists s', s = s' ++ [e] /\ h = p ++ x :: s'.
Proof.
  intros E. destruct (exists_last (l := x :: s) ltac:(discriminate)) as (l & y & El).
  rewrite El, app_assoc in E. apply app_inj_tail in E as [E ->].
  destruct l as [|z l]; cbn in El; inversion El; subst.
  - left. now rewrite app_nil_r.
  - right. exists l. auto.
Qed.

Ltac splits := repeat match goal with |- _ /\ _ => split end.
(** [lia] with remainders taken as unknowns. *)
Ltac klia :=
  repeat match goal with
  | H : context [(?a mod ?b)%N] |- _ => let x := fresh "m" in set (x := (a mod b)%N) in *; clearbody x
  | |- context [(?a mod ?b)%N] => let x := fresh "m" in set (x := (a mod b)%N) in *; clearbody x
  end;
  repeat match goal with H : ?c = (2 ^ ?j)%N |- _ => clear H end;
  lia.
Ltac unpack := repeat match goal with X : _ /\ _ |- _ => destruct X end.

Section Queue.
  Context {T : Type}.
  Variables cap j : N.
  Hypothesis Hcap : cap = 2 ^ j.
  Hypothesis Hj1 : 1 <= j.
  Hypothesis Hj2 : j <= 61.

  Local Notation cqueue := (cqueue T).

  Lemma cap_ge2 : 2 <= cap.
  Proof. rewrite Hcap. replace 2 with (2 ^ 1) by reflexivity. apply N.pow_le_mono_r; lia. Qed.

  Lemma cap_le : cap <= 2 ^ 61.
  Proof. rewrite Hcap. apply N.pow_le_mono_r; lia. Qed.

  Lemma cap_pos : cap <> 0.
  Proof. pose proof cap_ge2. lia. Qed.

  Lemma w64_mod_cap P : (P mod w64) mod cap = P mod cap.
  Proof.
    assert (w64 = cap * 2 ^ (64 - j)) as -> .
    { rewrite Hcap, <- N.pow_add_r. unfold w64. f_equal. lia. }
    pose proof cap_pos. rewrite N.mod_mul_r; [|auto|apply N.pow_nonzero; lia].
    rewrite N.mul_comm, N.mod_add by auto. apply N.mod_mod; auto.
  Qed.

  Lemma slot_of (q : cqueue) P : cq_cap q = cap -> cq_slot q (P mod w64) = P mod cap.
  Proof. intros E. unfold cq_slot. rewrite E, (slot_mod cap j) by exact Hcap. apply w64_mod_cap. Qed.

  Lemma slot_lt P : P mod cap < cap.
  Proof. apply N.mod_lt, cap_pos. Qed.

  Lemma same_slot a b : a mod cap = b mod cap -> a <= b -> b < a + cap -> a = b.
  Proof. intros. apply (slot_inj cap); auto. pose proof cap_ge2; lia. Qed.

  Lemma slot_succ a : (a + 1) mod cap <> a mod cap.
  Proof.
    intros E. pose proof cap_ge2. assert (a = a + 1); [|lia].
    apply same_slot; [now symmetry|lia|lia].
  Qed.

  Lemma slot_cap a : (a + cap) mod cap = a mod cap.
  Proof. rewrite <- (N.mul_1_l cap) at 1. apply N.mod_add, cap_pos. Qed.

  Definition val (q : cqueue) (i : N) : option T := nth_error (ins (cq_hist q)) (N.to_nat i).

  Definition enq_busy (q : cqueue) (t : tid) (i : N) : Prop :=
    exists x pos, cq_pc q t = EData x pos i \/ cq_pc q t = EPub x pos i.
  Definition deq_busy (q : cqueue) (t : tid) (i : N) : Prop :=
    exists pos, cq_pc q t = DData pos i \/ exists v, cq_pc q t = DPub pos i v.

  Definition enq_open (h : list (queue_event T)) (t : tid) (x : T) (i : N) : Prop :=
    exists a b, h = a ++ EnqPlaced t x :: b /\ N.of_nat (length (ins a)) = i /\
      forall e, In e b -> q_actor e <> t.
  Definition deq_open (h : list (queue_event T)) (t : tid) (i : N) : Prop :=
    exists a b, h = a ++ DeqPlaced t :: b /\ N.of_nat (outs a) = i /\
      forall e, In e b -> q_actor e <> t.

  (** [gs c] is the sequence number of cell [c] without wrap-around: [i] when the
      cell waits for item number [i], [i+1] when it holds it. *)
  Definition cell_ok (q : cqueue) (gs : N -> N) (c : N) : Prop :=
    exists i, i mod cap = c /\ placed_in q <= i + cap /\
      ((gs c = i /\ (placed_out q <= i /\ i < placed_out q + cap) /\ (i < placed_in q -> exists t, enq_busy q t i)) \/
       (gs c = i + 1 /\ i < placed_in q /\ (placed_out q <= i -> cq_data q c = val q i) /\
        (i < placed_out q -> exists t, deq_busy q t i))).

  Definition thr_ok (q : cqueue) (gs : N -> N) (t : tid) (p : qpc T) : Prop :=
    match p with
    | QIdle | EPos _ | DPos => True
    | ESeq _ pos P => pos = P mod w64 /\ P <= placed_in q
    | ECas _ pos P => pos = P mod w64 /\ P <= placed_in q /\ P <= gs (P mod cap)
    | EData x pos P => pos = P mod w64 /\ P < placed_in q /\ gs (P mod cap) = P /\ val q P = Some x /\
        enq_open (cq_hist q) t x P
    | EPub x pos P => pos = P mod w64 /\ P < placed_in q /\ gs (P mod cap) = P /\ val q P = Some x /\
        enq_open (cq_hist q) t x P /\ cq_data q (P mod cap) = Some x
    | DSeq pos P => pos = P mod w64 /\ P <= placed_out q
    | DCas pos P => pos = P mod w64 /\ P <= placed_out q /\ P + 1 <= gs (P mod cap)
    | DData pos P => pos = P mod w64 /\ P < placed_out q /\ gs (P mod cap) = P + 1 /\
        deq_open (cq_hist q) t P /\ cq_data q (P mod cap) = val q P
    | DPub pos P v => pos = P mod w64 /\ P < placed_out q /\ gs (P mod cap) = P + 1 /\
        deq_open (cq_hist q) t P /\ v = val q P
    end.

  Definition cstate_of (p : qpc T) : call_state T :=
    match p with
    | QIdle => NoCall
    | EPos x | ESeq x _ _ | ECas x _ _ => Enqueuing x
    | EData x _ _ | EPub x _ _ => EnqueuePlaced x
    | DPos | DSeq _ _ | DCas _ _ => Dequeuing
    | DData _ _ | DPub _ _ _ => DequeuePlaced
    end.

  Record qinv (q : cqueue) (gs : N -> N) : Prop := {
    i_cap : cq_cap q = cap;
    i_enq : cq_enq q = placed_in q mod w64;
    i_deq : cq_deq q = placed_out q mod w64;
    i_bnd : placed_out q <= placed_in q /\ placed_in q <= placed_out q + cap;
    i_seq : forall c, c < cap -> cq_seq q c = gs c mod w64;
    i_cell : forall c, c < cap -> cell_ok q gs c;
    i_thr : forall t, thr_ok q gs t (cq_pc q t);
    i_eu : forall t u i, enq_busy q t i -> enq_busy q u i -> t = u;
    i_du : forall t u i, deq_busy q t i -> deq_busy q u i -> t = u;
    i_calls : forall t, calls_to t (cq_hist q) (cstate_of (cq_pc q t));
  }.

  (** ** Bookkeeping *)

  Lemma ins_snoc h (e : queue_event T) : ins (h ++ [e]) = ins h ++ ins [e].
  Proof. apply flat_map_app. Qed.

  Lemma outs_snoc h (e : queue_event T) : outs (h ++ [e]) = (outs h + outs [e])%nat.
  Proof. unfold outs. rewrite filter_app, app_length. reflexivity. Qed.

  Lemma val_app (q q' : cqueue) l i : ins (cq_hist q') = ins (cq_hist q) ++ l -> i < placed_in q -> val q' i = val q i.
  Proof. intros E H. unfold val. rewrite E. apply nth_error_app1. unfold placed_in in H. lia. Qed.

  Lemma enq_open_snoc h t x i e : q_actor e <> t -> enq_open h t x i -> enq_open (h ++ [e]) t x i.
  Proof.
    intros N (a & b & -> & L & H). exists a, (b ++ [e]). rewrite <- app_assoc. splits; auto.
    intros y Hy. apply in_app_or in Hy as [Hy|[<-|[]]]; auto.
  Qed.

  Lemma deq_open_snoc h t i e : q_actor e <> t -> deq_open h t i -> deq_open (h ++ [e]) t i.
  Proof.
    intros N (a & b & -> & L & H). exists a, (b ++ [e]). rewrite <- app_assoc. splits; auto.
    intros y Hy. apply in_app_or in Hy as [Hy|[<-|[]]]; auto.
  Qed.

  (** Only the owner of a number is busy with it: its cell says so. *)
  Lemma busy_cells q gs t P u P' : qinv q gs -> u <> t ->
    (enq_busy q t P -> enq_busy q u P' -> P mod cap <> P' mod cap) /\
    (enq_busy q t P -> deq_busy q u P' -> P mod cap <> P' mod cap) /\
    (deq_busy q t P -> enq_busy q u P' -> P mod cap <> P' mod cap) /\
    (deq_busy q t P -> deq_busy q u P' -> P mod cap <> P' mod cap).
  Proof.
    intros I N.
    assert (forall v i, enq_busy q v i -> gs (i mod cap) = i) as Ge.
    { intros v i (x & pos & [E|E]); pose proof (i_thr _ _ I v) as H; rewrite E in H; cbn [thr_ok] in H; tauto. }
    assert (forall v i, deq_busy q v i -> gs (i mod cap) = i + 1) as Gd.
    { intros v i (pos & [E|(w & E)]); pose proof (i_thr _ _ I v) as H; rewrite E in H; cbn [thr_ok] in H; tauto. }
    splits; intros H1 H2 E.
    - apply Ge in H1 as G1. apply Ge in H2 as G2. rewrite E in G1. assert (P = P') as -> by congruence.
      apply N. eapply (i_eu _ _ I); eauto.
    - apply Ge in H1 as G1. apply Gd in H2 as G2. rewrite E in G1. assert (P = P' + 1) as -> by congruence.
      now apply slot_succ in E.
    - apply Gd in H1 as G1. apply Ge in H2 as G2. rewrite E in G1. assert (P' = P + 1) as -> by congruence.
      symmetry in E. now apply slot_succ in E.
    - apply Gd in H1 as G1. apply Gd in H2 as G2. rewrite E in G1. assert (P = P') as -> by lia.
      apply N. eapply (i_du _ _ I); eauto.
  Qed.

  (** ** Steps that only move one thread *)

  Definition busy (p : qpc T) : bool :=
    match p with EData _ _ _ | EPub _ _ _ | DData _ _ | DPub _ _ _ => true | _ => false end.

  Lemma goto_pc (q : cqueue) t p e u : cq_pc (cq_goto q t p e) u = if Nat.eqb u t then p else cq_pc q u.
  Proof. reflexivity. Qed.

  Lemma busy_other q t p e u i : u <> t -> (enq_busy (cq_goto q t p e) u i <-> enq_busy q u i) /\
    (deq_busy (cq_goto q t p e) u i <-> deq_busy q u i).
  Proof. intros N. unfold enq_busy, deq_busy. cbn. rewrite tset_other by auto. tauto. Qed.

  Lemma not_busy q t p e i : busy p = false -> ~ enq_busy (cq_goto q t p e) t i /\ ~ deq_busy (cq_goto q t p e) t i.
  Proof.
    intros B. unfold enq_busy, deq_busy. cbn. rewrite tset_same. split.
    - intros (x & pos & [E|E]); subst p; discriminate.
    - intros (pos & [E|(v & E)]); subst p; discriminate.
  Qed.

  Definition quiet (e : list (queue_event T)) (t : tid) : Prop :=
    ins e = [] /\ outs e = 0%nat /\ (length e <= 1)%nat /\ forall x, In x e -> q_actor x = t.

  Lemma quiet_counts q t p e : quiet e t ->
    placed_in (cq_goto q t p e) = placed_in q /\ placed_out (cq_goto q t p e) = placed_out q /\
    (forall i, val (cq_goto q t p e) i = val q i).
  Proof.
    intros (A & B & _). unfold placed_in, placed_out, val. cbn.
    unfold ins, outs in *. rewrite flat_map_app, A, app_nil_r, filter_app, app_length, B, Nat.add_0_r. auto.
  Qed.

  Lemma quiet_open q t p e u : quiet e t -> u <> t ->
    (forall x i, enq_open (cq_hist q) u x i -> enq_open (cq_hist (cq_goto q t p e)) u x i) /\
    (forall i, deq_open (cq_hist q) u i -> deq_open (cq_hist (cq_goto q t p e)) u i).
  Proof.
    intros (_ & _ & L & A) N. cbn. destruct e as [|x [|y e]]; [| |cbn in L; lia].
    - rewrite app_nil_r. auto.
    - assert (q_actor x <> u) as X by (rewrite (A x (or_introl eq_refl)); auto).
      split; intros; [now apply enq_open_snoc|now apply deq_open_snoc].
  Qed.

  Lemma quiet_calls h u t e c : quiet e t -> u <> t -> calls_to u h c -> calls_to u (h ++ e) c.
  Proof.
    intros (_ & _ & L & A) N H. destruct e as [|x [|y e]]; [| |cbn in L; lia].
    - now rewrite app_nil_r.
    - apply calls_other; auto. rewrite (A x (or_introl eq_refl)); auto.
  Qed.

  (** Moving on without touching the cells: an idle-like thread stays idle-like. *)
  Lemma qinv_move q gs t p e : qinv q gs -> quiet e t -> busy (cq_pc q t) = false -> busy p = false ->
    (thr_ok q gs t p) -> calls_to t (cq_hist q ++ e) (cstate_of p) -> qinv (cq_goto q t p e) gs.
  Proof.
    intros I Q B0 B1 Tp C. destruct (quiet_counts q t p e Q) as (Ei & Eo & Ev).
    assert (forall i, (~ enq_busy q t i) /\ ~ deq_busy q t i) as NB.
    { intros i. split; [intros (x & pos & [E|E])|intros (pos & [E|(v & E)])]; rewrite E in B0; discriminate. }
    assert (forall u i, enq_busy (cq_goto q t p e) u i <-> enq_busy q u i) as Be.
    { intros u i. destruct (Nat.eq_dec u t) as [->|Hu]; [|now apply busy_other].
      pose proof (not_busy q t p e i B1). pose proof (NB i). tauto. }
    assert (forall u i, deq_busy (cq_goto q t p e) u i <-> deq_busy q u i) as Bd.
    { intros u i. destruct (Nat.eq_dec u t) as [->|Hu]; [|now apply busy_other].
      pose proof (not_busy q t p e i B1). pose proof (NB i). tauto. }
    split.
    - apply I.
    - rewrite Ei. apply I.
    - rewrite Eo. apply I.
    - rewrite Ei, Eo. apply I.
    - apply I.
    - intros c Hc. destruct (i_cell _ _ I c Hc) as (i & M & L & H). exists i. rewrite Ei, Eo. cbn [cq_data cq_goto].
      split; [exact M|]. split; [exact L|].
      destruct H as [(G & A & D)|(G & A & D1 & D2)]; [left|right]; (split; [exact G|]); (split; [exact A|]).
      + intros X. destruct (D X) as (u & Hu). exists u. now apply Be.
      + split; [intros X; rewrite Ev; auto|]. intros X. destruct (D2 X) as (u & Hu). exists u. now apply Bd.
    - intros u. rewrite goto_pc. destruct (Nat.eqb_spec u t) as [->|Hu].
      + destruct p; cbn [busy thr_ok] in B1 |- *; try discriminate; cbn [thr_ok] in Tp; rewrite ?Ei, ?Eo; exact Tp.
      + destruct (quiet_open q t p e u Q Hu) as (Oe & Od). pose proof (i_thr _ _ I u) as H.
        destruct (cq_pc q u); cbn [thr_ok] in H |- *; rewrite ?Ei, ?Eo, ?Ev; unpack; splits; auto.
    - intros u v i Hu Hv. apply (i_eu _ _ I u v i); now apply Be.
    - intros u v i Hu Hv. apply (i_du _ _ I u v i); now apply Bd.
    - intros u. rewrite goto_pc. cbn [cq_hist cq_goto]. destruct (Nat.eqb_spec u t) as [->|Hu]; [exact C|].
      apply (quiet_calls _ _ t); auto. apply I.
  Qed.

  (** ** The two compare-exchanges *)

  Lemma cell_waits q gs P : qinv q gs -> placed_in q = P -> P <= gs (P mod cap) ->
    gs (P mod cap) = P /\ P < placed_out q + cap.
  Proof.
    intros I E G. destruct (i_cell _ _ I _ (slot_lt P)) as (i & M & L & [(A & B & _)|(A & B & _)]).
    - assert (P = i) as <-; [|split; [exact A|klia]]. pose proof (i_bnd _ _ I). apply same_slot; [now symmetry|klia|klia].
    - exfalso. assert (i + 1 = P) as X by klia. subst P. rewrite <- X in M. symmetry in M. now apply slot_succ in M.
  Qed.

  Lemma cell_holds q gs P : qinv q gs -> placed_out q = P -> P + 1 <= gs (P mod cap) ->
    gs (P mod cap) = P + 1 /\ P < placed_in q /\ cq_data q (P mod cap) = val q P.
  Proof.
    intros I E G. pose proof (i_bnd _ _ I) as Bd. destruct (i_cell _ _ I _ (slot_lt P)) as (i & M & L & [(A & B & _)|(A & B & C & _)]).
    - exfalso. assert (P = i) as X; [|klia]. apply same_slot; [now symmetry|klia|klia].
    - assert (P = i) as <-; [apply same_slot; [now symmetry|klia|klia]|]. splits; auto. apply C. klia.
  Qed.

  Lemma word_eq a P : a mod w64 = P mod w64 -> P <= a -> a - P < 2 ^ 62 -> a = P.
  Proof.
    intros E L H. symmetry. apply (slot_inj w64); [reflexivity|now symmetry|exact L|]. unfold w64. lia.
  Qed.

  Lemma enq_cas q gs t x pos P : qinv q gs -> cq_pc q t = ECas x pos P -> stale q t < 2 ^ 62 ->
    cq_enq q = pos -> qinv (cq_goto (cq_set_enq q ((pos + 1) mod w64)) t (EData x pos P) [EnqPlaced t x]) gs.
  Proof.
    intros I E St W. pose proof (i_thr _ _ I t) as H. rewrite E in H. cbn [thr_ok] in H. destruct H as (Hp & Hl & Hg).
    unfold stale in St. rewrite E in St. rewrite (i_enq _ _ I), Hp in W.
    assert (placed_in q = P) as EP by (apply word_eq; auto).
    destruct (cell_waits q gs P I EP Hg) as (G & B).
    set (q' := cq_goto _ _ _ _).
    assert (ins (cq_hist q') = ins (cq_hist q) ++ [x]) as Ei by (cbn; apply ins_snoc).
    assert (placed_in q' = P + 1) as Epi.
    { unfold placed_in. rewrite Ei, app_length. unfold placed_in in EP. cbn. klia. }
    assert (placed_out q' = placed_out q) as Epo by (unfold placed_out; cbn [cq_hist q' cq_goto cq_set_enq]; rewrite outs_snoc; cbn; klia).
    assert (forall i, i < P -> val q' i = val q i) as Ev by (intros i Hi; eapply val_app; eauto; klia).
    assert (forall u i, u <> t -> (enq_busy q' u i <-> enq_busy q u i) /\ (deq_busy q' u i <-> deq_busy q u i)) as Bo.
    { intros u i Hu. unfold enq_busy, deq_busy. cbn. rewrite tset_other by auto. tauto. }
    assert (forall i, enq_busy q' t i <-> i = P) as Bt.
    { intros i. unfold enq_busy. cbn. rewrite tset_same. split.
      - intros (y & z & [X|X]); congruence.
      - intros ->. exists x, pos. auto. }
    assert (forall i, ~ deq_busy q' t i) as Bt'.
    { intros i. unfold deq_busy. cbn. rewrite tset_same. intros (z & [X|(v & X)]); congruence. }
    assert (forall i, ~ enq_busy q t i /\ ~ deq_busy q t i) as NB.
    { intros i. split; [intros (y & z & [X|X])|intros (z & [X|(v & X)])]; congruence. }
    split.
    - apply I.
    - rewrite Epi. cbn. rewrite Hp. unfold w64. rewrite N.add_mod_idemp_l by lia. reflexivity.
    - rewrite Epo. apply I.
    - rewrite Epi, Epo. pose proof (i_bnd _ _ I). klia.
    - apply I.
    - intros c Hc. destruct (i_cell _ _ I c Hc) as (i & M & L & H). exists i.
      rewrite Epi, Epo. split; [exact M|]. assert (P < i + cap) as Hi.
      { destruct (N.eq_dec P (i + cap)) as [X|]; [|klia]. exfalso.
        assert (P mod cap = c) as Y by (rewrite X, slot_cap; exact M).
        rewrite Y in G. destruct H as [(A & _)|(A & _)]; pose proof cap_ge2; klia. }
      split; [klia|]. cbn [cq_data q' cq_goto cq_set_enq]. destruct H as [(A & B' & C)|(A & B' & C & D)].
      + left. split; [exact A|]. split; [exact B'|]. intros X. destruct (N.eq_dec i P) as [->|Ne]; [exists t; now apply Bt|].
        destruct C as (u & Hu); [klia|]. exists u. destruct (Nat.eq_dec u t) as [->|Hut]; [now apply NB in Hu|]. now apply Bo.
      + right. split; [exact A|]. split; [klia|]. split.
        * intros X. rewrite C by exact X. symmetry. apply Ev. klia.
        * intros X. destruct (D X) as (u & Hu). exists u. destruct (Nat.eq_dec u t) as [->|Hut]; [now apply NB in Hu|]. now apply Bo.
    - intros u. change (cq_pc q' u) with (tset (cq_pc q) t (EData x pos P) u).
      destruct (Nat.eq_dec u t) as [->|Hu].
      + rewrite tset_same. cbn [thr_ok]. rewrite Epi. splits; auto; [klia| |].
        * unfold val. rewrite Ei. unfold placed_in in EP. rewrite <- EP, Nat2N.id, nth_error_app2, Nat.sub_diag by klia. reflexivity.
        * exists (cq_hist q), []. split; [reflexivity|]. split; [exact EP|]. intros ? [].
      + rewrite tset_other by auto. pose proof (i_thr _ _ I u) as H.
        assert (forall y i, enq_open (cq_hist q) u y i -> enq_open (cq_hist q') u y i) as O1.
        { intros. apply enq_open_snoc; cbn; auto. }
        assert (forall i, deq_open (cq_hist q) u i -> deq_open (cq_hist q') u i) as O2.
        { intros. apply deq_open_snoc; cbn; auto. }
        pose proof (i_bnd _ _ I) as (Bd1 & _).
        destruct (cq_pc q u) as [|y|y z R|y z R|y z R|y z R| |z R|z R|z R|z R v] eqn:Eu;
          cbn [thr_ok] in H |- *; rewrite ?Epi, ?Epo;
          unpack; splits; auto; try klia.
        all: try (rewrite Ev by klia); auto.
    - intros u v i Hu Hv. destruct (Nat.eq_dec u t) as [->|Nu], (Nat.eq_dec v t) as [->|Nv]; auto.
      + apply Bt in Hu as ->. apply Bo in Hv; auto. destruct Hv as (y & z & [X|X]); pose proof (i_thr _ _ I v) as H; rewrite X in H; cbn [thr_ok] in H; klia.
      + apply Bt in Hv as ->. apply Bo in Hu; auto. destruct Hu as (y & z & [X|X]); pose proof (i_thr _ _ I u) as H; rewrite X in H; cbn [thr_ok] in H; klia.
      + apply Bo in Hu; auto. apply Bo in Hv; auto. eapply (i_eu _ _ I); eauto.
    - intros u v i Hu Hv. destruct (Nat.eq_dec u t) as [->|Nu]; [now apply Bt' in Hu|].
      destruct (Nat.eq_dec v t) as [->|Nv]; [now apply Bt' in Hv|].
      apply Bo in Hu; auto. apply Bo in Hv; auto. eapply (i_du _ _ I); eauto.
    - intros u. change (cq_pc q' u) with (tset (cq_pc q) t (EData x pos P) u). cbn [cq_hist q' cq_goto cq_set_enq].
      destruct (Nat.eq_dec u t) as [->|Hu].
      + rewrite tset_same. pose proof (i_calls _ _ I t) as C. rewrite E in C.
        eapply calls_own; [exact C|reflexivity|]. cbn. auto.
      + rewrite tset_other by auto. apply calls_other; [apply I|]. cbn. auto.
  Qed.

  Lemma deq_cas q gs t pos P : qinv q gs -> cq_pc q t = DCas pos P -> stale q t < 2 ^ 62 ->
    cq_deq q = pos -> qinv (cq_goto (cq_set_deq q ((pos + 1) mod w64)) t (DData pos P) [DeqPlaced t]) gs.
  Proof.
    intros I E St W. pose proof (i_thr _ _ I t) as H. rewrite E in H. cbn [thr_ok] in H. destruct H as (Hp & Hl & Hg).
    unfold stale in St. rewrite E in St. rewrite (i_deq _ _ I), Hp in W.
    assert (placed_out q = P) as EP by (apply word_eq; auto).
    destruct (cell_holds q gs P I EP Hg) as (G & B & Dt).
    set (q' := cq_goto _ _ _ _).
    assert (ins (cq_hist q') = ins (cq_hist q)) as Ei by (cbn [cq_hist q' cq_goto cq_set_deq]; rewrite ins_snoc; apply app_nil_r).
    assert (placed_out q' = P + 1) as Epo.
    { unfold placed_out. cbn [cq_hist q' cq_goto cq_set_deq]. rewrite outs_snoc. unfold placed_out in EP. cbn. klia. }
    assert (placed_in q' = placed_in q) as Epi by (unfold placed_in; now rewrite Ei).
    assert (forall i, val q' i = val q i) as Ev by (intros i; unfold val; now rewrite Ei).
    assert (forall u i, u <> t -> (enq_busy q' u i <-> enq_busy q u i) /\ (deq_busy q' u i <-> deq_busy q u i)) as Bo.
    { intros u i Hu. unfold enq_busy, deq_busy. cbn. rewrite tset_other by auto. tauto. }
    assert (forall i, deq_busy q' t i <-> i = P) as Bt.
    { intros i. unfold deq_busy. cbn. rewrite tset_same. split.
      - intros (z & [X|(v & X)]); congruence.
      - intros ->. exists pos. auto. }
    assert (forall i, ~ enq_busy q' t i) as Bt'.
    { intros i. unfold enq_busy. cbn. rewrite tset_same. intros (y & z & [X|X]); congruence. }
    assert (forall i, ~ enq_busy q t i /\ ~ deq_busy q t i) as NB.
    { intros i. split; [intros (y & z & [X|X])|intros (z & [X|(v & X)])]; congruence. }
    split.
    - apply I.
    - rewrite Epi. apply I.
    - rewrite Epo. cbn. rewrite Hp. unfold w64. rewrite N.add_mod_idemp_l by lia. reflexivity.
    - rewrite Epi, Epo. pose proof (i_bnd _ _ I). klia.
    - apply I.
    - intros c Hc. destruct (i_cell _ _ I c Hc) as (i & M & L & H). exists i.
      rewrite Epi, Epo. split; [exact M|]. split; [exact L|].
      cbn [cq_data q' cq_goto cq_set_deq]. destruct H as [(A & B' & C)|(A & B' & C & D)].
      + left. split; [exact A|]. split.
        { assert (i <> P); [|klia]. intros ->. rewrite M in G. klia. }
        intros X.
        destruct (C X) as (u & Hu). exists u. destruct (Nat.eq_dec u t) as [->|Hut]; [now apply NB in Hu|]. now apply Bo.
      + right. split; [exact A|]. split; [klia|]. split.
        * intros X. rewrite Ev. apply C. klia.
        * intros X. destruct (N.eq_dec i P) as [->|Ne]; [exists t; now apply Bt|].
          destruct D as (u & Hu); [klia|]. exists u. destruct (Nat.eq_dec u t) as [->|Hut]; [now apply NB in Hu|]. now apply Bo.
    - intros u. change (cq_pc q' u) with (tset (cq_pc q) t (DData pos P) u).
      destruct (Nat.eq_dec u t) as [->|Hu].
      + rewrite tset_same. cbn [thr_ok]. rewrite Epo, Ev. splits; auto; [klia|].
        exists (cq_hist q), []. split; [reflexivity|]. split; [exact EP|]. intros ? [].
      + rewrite tset_other by auto. pose proof (i_thr _ _ I u) as H.
        assert (forall y i, enq_open (cq_hist q) u y i -> enq_open (cq_hist q') u y i) as O1.
        { intros. apply enq_open_snoc; cbn; auto. }
        assert (forall i, deq_open (cq_hist q) u i -> deq_open (cq_hist q') u i) as O2.
        { intros. apply deq_open_snoc; cbn; auto. }
        pose proof (i_bnd _ _ I) as (Bd1 & _).
        destruct (cq_pc q u) as [|y|y z R|y z R|y z R|y z R| |z R|z R|z R|z R v] eqn:Eu;
          cbn [thr_ok] in H |- *; rewrite ?Epi, ?Epo, ?Ev;
          unpack; splits; auto; try klia.
    - intros u v i Hu Hv. destruct (Nat.eq_dec u t) as [->|Nu]; [now apply Bt' in Hu|].
      destruct (Nat.eq_dec v t) as [->|Nv]; [now apply Bt' in Hv|].
      apply Bo in Hu; auto. apply Bo in Hv; auto. eapply (i_eu _ _ I); eauto.
    - intros u v i Hu Hv. destruct (Nat.eq_dec u t) as [->|Nu], (Nat.eq_dec v t) as [->|Nv]; auto.
      + apply Bt in Hu as ->. apply Bo in Hv; auto. destruct Hv as (z & [X|(w & X)]); pose proof (i_thr _ _ I v) as H; rewrite X in H; cbn [thr_ok] in H; klia.
      + apply Bt in Hv as ->. apply Bo in Hu; auto. destruct Hu as (z & [X|(w & X)]); pose proof (i_thr _ _ I u) as H; rewrite X in H; cbn [thr_ok] in H; klia.
      + apply Bo in Hu; auto. apply Bo in Hv; auto. eapply (i_du _ _ I); eauto.
    - intros u. change (cq_pc q' u) with (tset (cq_pc q) t (DData pos P) u). cbn [cq_hist q' cq_goto cq_set_deq].
      destruct (Nat.eq_dec u t) as [->|Hu].
      + rewrite tset_same. pose proof (i_calls _ _ I t) as C. rewrite E in C.
        eapply calls_own; [exact C|reflexivity|]. cbn. auto.
      + rewrite tset_other by auto. apply calls_other; [apply I|]. cbn. auto.
  Qed.

  (** ** The accesses made by the owner of a cell *)

  Lemma quiet_one t e : ins [e] = [] -> outs [e] = 0%nat -> q_actor e = t -> quiet [e] t.
  Proof. intros A B C. split; [exact A|]. split; [exact B|]. split; [auto|]. intros x [<-|[]]. exact C. Qed.

  Lemma quiet_nil t : quiet [] t.
  Proof. split; [reflexivity|]. split; [reflexivity|]. split; [cbn; lia|]. intros x []. Qed.

  Lemma enq_data q gs t x pos P : qinv q gs -> cq_pc q t = EData x pos P ->
    qinv (cq_goto (cq_set_data q (cq_slot q pos) (Some x)) t (EPub x pos P) []) gs.
  Proof.
    intros I E. pose proof (i_thr _ _ I t) as H. rewrite E in H. cbn [thr_ok] in H. destruct H as (Hp & Hl & Hg & Hv & Ho).
    replace (cq_slot q pos) with (P mod cap) by (rewrite Hp; symmetry; apply slot_of; apply I).
    set (q' := cq_goto _ _ _ _).
    assert (cq_hist q' = cq_hist q) as Eh by apply app_nil_r.
    assert (forall u i, enq_busy q' u i <-> enq_busy q u i) as Be.
    { intros u i. unfold enq_busy. cbn [cq_pc q' cq_goto cq_set_data]. destruct (Nat.eq_dec u t) as [->|Hu]; [|now rewrite tset_other].
      rewrite tset_same, E. split; intros (y & z & [X|X]); try discriminate; injection X as -> -> ->; eauto. }
    assert (forall u i, deq_busy q' u i <-> deq_busy q u i) as Bd.
    { intros u i. unfold deq_busy. cbn [cq_pc q' cq_goto cq_set_data]. destruct (Nat.eq_dec u t) as [->|Hu]; [|now rewrite tset_other].
      rewrite tset_same, E. split; intros (z & [X|(v & X)]); discriminate. }
    assert (placed_in q' = placed_in q) as Ei by (unfold placed_in; now rewrite Eh).
    assert (placed_out q' = placed_out q) as Eo by (unfold placed_out; now rewrite Eh).
    assert (forall i, val q' i = val q i) as Ev by (intros i; unfold val; now rewrite Eh).
    assert (forall c, cq_data q' c = if c =? P mod cap then Some x else cq_data q c) as Ed by reflexivity.
    assert (enq_busy q t P) as Bt by (exists x, pos; auto).
    split.
    - apply I.
    - rewrite Ei. apply I.
    - rewrite Eo. apply I.
    - rewrite Ei, Eo. apply I.
    - apply I.
    - intros c Hc. destruct (i_cell _ _ I c Hc) as (i & M & L & H). exists i. rewrite Ei, Eo, Ed.
      split; [exact M|]. split; [exact L|]. destruct H as [(A & B & C)|(A & B & C & D)].
      + left. split; [exact A|]. split; [exact B|]. intros X. destruct (C X) as (u & Hu). exists u. now apply Be.
      + right. split; [exact A|]. split; [exact B|]. split.
        * intros X. rewrite Ev. destruct (N.eqb_spec c (P mod cap)) as [Ec|Ec]; [|auto].
          exfalso. rewrite Ec in A. rewrite Hg in A. rewrite A in Ec. rewrite <- M in Ec. symmetry in Ec. now apply slot_succ in Ec.
        * intros X. destruct (D X) as (u & Hu). exists u. now apply Bd.
    - intros u. change (cq_pc q' u) with (tset (cq_pc q) t (EPub x pos P) u).
      destruct (Nat.eq_dec u t) as [->|Hu].
      + rewrite tset_same. cbn [thr_ok]. rewrite Ei, Ev, Eh, Ed, N.eqb_refl. splits; auto.
      + rewrite tset_other by auto. pose proof (i_thr _ _ I u) as H.
        destruct (cq_pc q u) as [|y|y z R|y z R|y z R|y z R| |z R|z R|z R|z R v] eqn:Eu;
          cbn [thr_ok] in H |- *; rewrite ?Ei, ?Eo, ?Ev, ?Eh; try exact H; unpack; splits; auto.
        * rewrite Ed. destruct (N.eqb_spec (R mod cap) (P mod cap)) as [Ec|Ec]; [|auto]. exfalso.
          destruct (busy_cells q gs t P u R I Hu) as (X & _). apply X; auto. exists y, z. auto.
        * rewrite Ed. destruct (N.eqb_spec (R mod cap) (P mod cap)) as [Ec|Ec]; [|auto]. exfalso.
          destruct (busy_cells q gs t P u R I Hu) as (_ & X & _). apply X; auto. exists z. auto.
    - intros u v i Hu Hv'. apply Be in Hu, Hv'. eapply (i_eu _ _ I); eauto.
    - intros u v i Hu Hv'. apply Bd in Hu, Hv'. eapply (i_du _ _ I); eauto.
    - intros u. change (cq_pc q' u) with (tset (cq_pc q) t (EPub x pos P) u). rewrite Eh.
      destruct (Nat.eq_dec u t) as [->|Hu]; [rewrite tset_same|rewrite tset_other by auto; apply I].
      pose proof (i_calls _ _ I t) as C. now rewrite E in C.
  Qed.

  Lemma deq_data q gs t pos P : qinv q gs -> cq_pc q t = DData pos P ->
    qinv (cq_goto q t (DPub pos P (cq_data q (cq_slot q pos))) []) gs.
  Proof.
    intros I E. pose proof (i_thr _ _ I t) as H. rewrite E in H. cbn [thr_ok] in H. destruct H as (Hp & Hl & Hg & Ho & Hd).
    replace (cq_slot q pos) with (P mod cap) by (rewrite Hp; symmetry; apply slot_of; apply I).
    rewrite Hd. set (q' := cq_goto _ _ _ _).
    assert (cq_hist q' = cq_hist q) as Eh by apply app_nil_r.
    assert (forall u i, enq_busy q' u i <-> enq_busy q u i) as Be.
    { intros u i. unfold enq_busy. cbn [cq_pc q' cq_goto]. destruct (Nat.eq_dec u t) as [->|Hu]; [|now rewrite tset_other].
      rewrite tset_same, E. split; intros (y & z & [X|X]); discriminate. }
    assert (forall u i, deq_busy q' u i <-> deq_busy q u i) as Bd.
    { intros u i. unfold deq_busy. cbn [cq_pc q' cq_goto]. destruct (Nat.eq_dec u t) as [->|Hu]; [|now rewrite tset_other].
      rewrite tset_same, E. split; intros (z & [X|(v & X)]); try discriminate; injection X as -> ->; eauto. }
    assert (placed_in q' = placed_in q) as Ei by (unfold placed_in; now rewrite Eh).
    assert (placed_out q' = placed_out q) as Eo by (unfold placed_out; now rewrite Eh).
    assert (forall i, val q' i = val q i) as Ev by (intros i; unfold val; now rewrite Eh).
    split.
    - apply I.
    - rewrite Ei. apply I.
    - rewrite Eo. apply I.
    - rewrite Ei, Eo. apply I.
    - apply I.
    - intros c Hc. destruct (i_cell _ _ I c Hc) as (i & M & L & H). exists i. rewrite Ei, Eo, Ev.
      split; [exact M|]. split; [exact L|]. destruct H as [(A & B & C)|(A & B & C & D)]; [left|right].
      + split; [exact A|]. split; [exact B|]. intros X. destruct (C X) as (u & Hu). exists u. now apply Be.
      + split; [exact A|]. split; [exact B|]. split; [exact C|].
        intros X. destruct (D X) as (u & Hu). exists u. now apply Bd.
    - intros u. change (cq_pc q' u) with (tset (cq_pc q) t (DPub pos P (val q P)) u).
      destruct (Nat.eq_dec u t) as [->|Hu].
      + rewrite tset_same. cbn [thr_ok]. rewrite Eo, Ev, Eh. splits; auto.
      + rewrite tset_other by auto. pose proof (i_thr _ _ I u) as H.
        destruct (cq_pc q u) as [|y|y z R|y z R|y z R|y z R| |z R|z R|z R|z R v] eqn:Eu;
          cbn [thr_ok] in H |- *; rewrite ?Ei, ?Eo, ?Ev, ?Eh; exact H.
    - intros u v i Hu Hv. apply Be in Hu, Hv. eapply (i_eu _ _ I); eauto.
    - intros u v i Hu Hv. apply Bd in Hu, Hv. eapply (i_du _ _ I); eauto.
    - intros u. change (cq_pc q' u) with (tset (cq_pc q) t (DPub pos P (val q P)) u). rewrite Eh.
      destruct (Nat.eq_dec u t) as [->|Hu]; [rewrite tset_same|rewrite tset_other by auto; apply I].
      pose proof (i_calls _ _ I t) as C. now rewrite E in C.
  Qed.

  (** Releasing a cell: its owner moves the sequence number on. *)
  Lemma publish q gs t P P' w e :
    qinv q gs -> gs (P mod cap) <= P' -> w = P' mod w64 -> quiet [e] t ->
    calls_to t (cq_hist q ++ [e]) NoCall ->
    (forall u i, u <> t -> enq_busy q u i \/ deq_busy q u i -> i mod cap <> P mod cap) ->
    ((enq_busy q t P /\ P' = P + 1 /\ P < placed_in q /\ placed_out q <= P /\ cq_data q (P mod cap) = val q P) \/
     (deq_busy q t P /\ P' = P + cap /\ P < placed_out q)) ->
    qinv (cq_goto (cq_set_seq q (P mod cap) w) t QIdle [e]) (upd gs (P mod cap) P').
  Proof.
    intros I Mono -> Q C Oth W. set (q' := cq_goto _ _ _ _).
    destruct (quiet_counts (cq_set_seq q (P mod cap) (P' mod w64)) t QIdle [e] Q) as (Ei & Eo & Ev). fold q' in Ei, Eo, Ev.
    change (placed_in (cq_set_seq q (P mod cap) (P' mod w64))) with (placed_in q) in Ei.
    change (placed_out (cq_set_seq q (P mod cap) (P' mod w64))) with (placed_out q) in Eo.
    change (forall i, val q' i = val q i) in Ev.
    assert (forall u i, u <> t -> (enq_busy q' u i <-> enq_busy q u i) /\ (deq_busy q' u i <-> deq_busy q u i)) as Bo.
    { intros u i Hu. unfold enq_busy, deq_busy. cbn [cq_pc q' cq_goto cq_set_seq]. rewrite tset_other by auto. tauto. }
    assert (forall i, ~ enq_busy q' t i /\ ~ deq_busy q' t i) as Bt by (intros i; now apply not_busy).
    assert (forall i, (enq_busy q t i -> i = P) /\ (deq_busy q t i -> i = P)) as Own.
    { intros i. destruct W as [((x & pos & [X|X]) & _)|((pos & [X|(v & X)]) & _)]; split;
        try (intros (x' & pos' & [Y|Y]); congruence); try (intros (pos' & [Y|(v' & Y)]); congruence). }
    assert (forall c, c < cap -> c <> P mod cap -> cell_ok q' (upd gs (P mod cap) P') c) as Other.
    { intros c Hc Ne. destruct (i_cell _ _ I c Hc) as (i & M & L & H). exists i. rewrite Ei, Eo, Ev.
      unfold upd. rewrite (proj2 (N.eqb_neq c (P mod cap)) Ne).
      split; [exact M|]. split; [exact L|]. destruct H as [(A & B & D)|(A & B & D & F)]; [left|right].
      - split; [exact A|]. split; [exact B|]. intros X. destruct (D X) as (u & Hu). exists u.
        destruct (Nat.eq_dec u t) as [->|Hut]; [|now apply Bo]. apply Own in Hu. subst i. congruence.
      - split; [exact A|]. split; [exact B|]. split; [exact D|].
        intros X. destruct (F X) as (u & Hu). exists u.
        destruct (Nat.eq_dec u t) as [->|Hut]; [|now apply Bo]. apply Own in Hu. subst i. congruence. }
    assert (cell_ok q' (upd gs (P mod cap) P') (P mod cap)) as Mine.
    { pose proof (i_bnd _ _ I) as Bd. destruct (i_cell _ _ I _ (slot_lt P)) as (i & M & L & H).
      unfold cell_ok. rewrite Ei, Eo. unfold upd. rewrite N.eqb_refl.
      destruct W as [(_ & -> & Hl & Hd & Dt)|(Db & -> & Hl)].
      - exists P. split; [reflexivity|]. split; [klia|]. right. split; [reflexivity|]. split; [exact Hl|]. split.
        + intros _. rewrite Ev. exact Dt.
        + intros X. klia.
      - assert (gs (P mod cap) = P + 1) as G.
        { destruct Db as (pos & [X|(v & X)]); pose proof (i_thr _ _ I t) as Ht; rewrite X in Ht; cbn [thr_ok] in Ht; tauto. }
        assert (i = P) as ->.
        { destruct H as [(A & _)|(A & _)]; [|klia]. exfalso. assert (i = P + 1) as -> by klia. now apply slot_succ in M. }
        exists (P + cap). split; [apply slot_cap|]. split; [klia|]. left. split; [reflexivity|]. split; [klia|].
        intros X. exfalso. klia. }
    split.
    - apply I.
    - rewrite Ei. apply I.
    - rewrite Eo. apply I.
    - rewrite Ei, Eo. apply I.
    - intros c Hc. cbn [cq_seq q' cq_goto cq_set_seq]. unfold upd. destruct (c =? P mod cap); [reflexivity|]. now apply I.
    - intros c Hc. destruct (N.eq_dec c (P mod cap)) as [->|Ne]; auto.
    - intros u. change (cq_pc q' u) with (tset (cq_pc q) t QIdle u).
      destruct (Nat.eq_dec u t) as [->|Hu]; [rewrite tset_same; exact Logic.I|]. rewrite tset_other by auto.
      pose proof (i_thr _ _ I u) as H.
      destruct (quiet_open (cq_set_seq q (P mod cap) (P' mod w64)) t QIdle [e] u Q Hu) as (Oe & Od). fold q' in Oe, Od.
      assert (forall i, gs (i mod cap) <= upd gs (P mod cap) P' (i mod cap)) as Up.
      { intros i. unfold upd. destruct (N.eqb_spec (i mod cap) (P mod cap)) as [Ec|Ec]; [rewrite Ec; exact Mono|lia]. }
      assert (forall i, enq_busy q u i \/ deq_busy q u i -> upd gs (P mod cap) P' (i mod cap) = gs (i mod cap)) as Same.
      { intros i X. unfold upd. now rewrite (proj2 (N.eqb_neq _ _) (Oth u i Hu X)). }
      destruct (cq_pc q u) as [|y|y z R|y z R|y z R|y z R| |z R|z R|z R|z R v] eqn:Eu;
        cbn [thr_ok] in H |- *; rewrite ?Ei, ?Eo, ?Ev; try exact H; unpack; splits; auto;
        try (etransitivity; [|apply Up]; assumption); try (rewrite Same; [assumption|]); try (apply Oe; assumption); try (apply Od; assumption);
        try (left; exists y, z; auto; fail); try (right; exists z; eauto; fail).
    - intros u v i Hu Hv. destruct (Nat.eq_dec u t) as [->|Nu]; [now apply Bt in Hu|].
      destruct (Nat.eq_dec v t) as [->|Nv]; [now apply Bt in Hv|].
      apply Bo in Hu; auto. apply Bo in Hv; auto. eapply (i_eu _ _ I); eauto.
    - intros u v i Hu Hv. destruct (Nat.eq_dec u t) as [->|Nu]; [now apply Bt in Hu|].
      destruct (Nat.eq_dec v t) as [->|Nv]; [now apply Bt in Hv|].
      apply Bo in Hu; auto. apply Bo in Hv; auto. eapply (i_du _ _ I); eauto.
    - intros u. change (cq_pc q' u) with (tset (cq_pc q) t QIdle u). change (cq_hist q') with (cq_hist q ++ [e]).
      destruct (Nat.eq_dec u t) as [->|Hu]; [rewrite tset_same; exact C|]. rewrite tset_other by auto.
      apply (quiet_calls _ _ t); auto. apply I.
  Qed.

  (** An item that is waited for has not been taken out. *)
  Lemma waits_not_out q gs t P : qinv q gs -> enq_busy q t P -> placed_out q <= P.
  Proof.
    intros I B.
    assert (gs (P mod cap) = P) as G.
    { destruct B as (x & pos & [X|X]); pose proof (i_thr _ _ I t) as H; rewrite X in H; cbn [thr_ok] in H; tauto. }
    destruct (i_cell _ _ I _ (slot_lt P)) as (i & M & L & [(A & B' & _)|(A & _)]); [klia|].
    assert (P = i + 1) as X by klia. rewrite X in M. symmetry in M. now apply slot_succ in M.
  Qed.

  (** The difference tests are exact as long as nobody is too far behind. *)
  Lemma gs_near q gs P : qinv q gs -> placed_in q <= gs (P mod cap) + cap /\ gs (P mod cap) <= placed_in q + cap.
  Proof.
    intros I. pose proof (i_bnd _ _ I) as Bd.
    destruct (i_cell _ _ I _ (slot_lt P)) as (i & M & L & [(A & B & _)|(A & B & _)]); klia.
  Qed.

  Lemma sdif_near a b : a < b + 2 ^ 63 -> b <= a + 2 ^ 63 ->
    sdif (a mod w64) (b mod w64) = (Z.of_N a - Z.of_N b)%Z.
  Proof. intros H1 H2. apply sdif_small. lia. Qed.

  (** ** What the history says *)

  Definition ret_ok (h : list (queue_event T)) : Prop :=
    forall p t m v s, h = p ++ DeqPlaced t :: m ++ DeqReturned t v :: s ->
    (forall e, In e m -> q_actor e <> t) ->
    exists x, v = Some x /\ nth_error (ins h) (outs p) = Some x.
  Definition empty_ok (h : list (queue_event T)) : Prop :=
    forall p t s, h = p ++ DeqEmpty t :: s ->
    outs p = length (ins p) \/ enqueue_pending p (outs p).
  Definition full_ok (h : list (queue_event T)) : Prop :=
    forall p t s, h = p ++ EnqFull t :: s ->
    N.of_nat (length (ins p)) = N.of_nat (outs p) + cap \/
    exists i, N.of_nat (length (ins p)) = N.of_nat i + cap /\ dequeue_pending p i.

  Lemma ret_ok_snoc h e : ret_ok h -> (forall t v, e <> DeqReturned t v) -> ret_ok (h ++ [e]).
  Proof.
    intros R N p t m v s E Hm.
    change (p ++ DeqPlaced t :: m ++ DeqReturned t v :: s) with (p ++ (DeqPlaced t :: m) ++ DeqReturned t v :: s) in E.
    rewrite app_assoc in E. apply snoc_split in E as [(-> & _ & X)|(s' & -> & X)]; [now apply N in X|].
    rewrite <- app_assoc in X. destruct (R p t m v s' X Hm) as (x & -> & Hx). exists x. split; [reflexivity|].
    rewrite ins_snoc. rewrite nth_error_app1; [exact Hx|]. apply nth_error_Some. congruence.
  Qed.

  Lemma ret_ok_return h t v a b x : ret_ok h -> h = a ++ DeqPlaced t :: b -> (forall e, In e b -> q_actor e <> t) ->
    v = Some x -> nth_error (ins h) (outs a) = Some x -> ret_ok (h ++ [DeqReturned t v]).
  Proof.
    intros R Eh Hb -> Hx p t' m v' s E Hm.
    change (p ++ DeqPlaced t' :: m ++ DeqReturned t' v' :: s) with (p ++ (DeqPlaced t' :: m) ++ DeqReturned t' v' :: s) in E.
    rewrite app_assoc in E. apply snoc_split in E as [(-> & X & Y)|(s' & -> & X)].
    - injection Y as <- <-. rewrite Eh in X. symmetry in X. apply (last_split (fun e => q_actor e = t)) in X as (-> & _ & _); auto.
      exists x. split; [reflexivity|]. rewrite ins_snoc. cbn. now rewrite app_nil_r.
    - rewrite <- app_assoc in X. destruct (R p t' m v' s' X Hm) as (y & -> & Hy). exists y. split; [reflexivity|].
      rewrite ins_snoc. rewrite nth_error_app1; [exact Hy|]. apply nth_error_Some. congruence.
  Qed.

  Lemma empty_ok_snoc h e : empty_ok h ->
    (forall t, e = DeqEmpty t -> outs h = length (ins h) \/ enqueue_pending h (outs h)) -> empty_ok (h ++ [e]).
  Proof.
    intros R N p t s E. apply snoc_split in E as [(-> & -> & X)|(s' & -> & X)]; [eapply N; eauto|eapply R; eauto].
  Qed.

  Lemma full_ok_snoc h e : full_ok h ->
    (forall t, e = EnqFull t -> N.of_nat (length (ins h)) = N.of_nat (outs h) + cap \/
      exists i, N.of_nat (length (ins h)) = N.of_nat i + cap /\ dequeue_pending h i) -> full_ok (h ++ [e]).
  Proof.
    intros R N p t s E. apply snoc_split in E as [(-> & -> & X)|(s' & -> & X)]; [eapply N; eauto|eapply R; eauto].
  Qed.

  Definition hist_ok h := ret_ok h /\ empty_ok h /\ full_ok h.

  Lemma hist_ok_plain h e : hist_ok h ->
    (forall t v, e <> DeqReturned t v) -> (forall t, e <> DeqEmpty t) -> (forall t, e <> EnqFull t) -> hist_ok (h ++ [e]).
  Proof.
    intros (A & B & C) H1 H2 H3. split; [now apply ret_ok_snoc|]. split.
    - apply empty_ok_snoc; auto. intros t X. now apply H2 in X.
    - apply full_ok_snoc; auto. intros t X. now apply H3 in X.
  Qed.

  Lemma hist_ok_same h : hist_ok h -> hist_ok (h ++ []).
  Proof. now rewrite app_nil_r. Qed.

  (** ** Every step *)

  Lemma reported_empty q gs P : qinv q gs -> P <= placed_out q -> gs (P mod cap) < P + 1 ->
    outs (cq_hist q) = length (ins (cq_hist q)) \/ enqueue_pending (cq_hist q) (outs (cq_hist q)).
  Proof.
    intros I HP G. pose proof (i_bnd _ _ I) as Bd.
    assert (placed_out q = placed_in q -> outs (cq_hist q) = length (ins (cq_hist q))) as Q by (unfold placed_in, placed_out; lia).
    destruct (i_cell _ _ I _ (slot_lt P)) as (i & M & L & [(A & B & C)|(A & B & _)]).
    - destruct (N.le_gt_cases (placed_in q) i) as [X|X]; [left; apply Q; klia|]. right.
      destruct (C X) as (t & x & pos & Y).
      assert (enq_open (cq_hist q) t x i) as (a & b & Eh & La & Hb).
      { pose proof (i_thr _ _ I t) as H. destruct Y as [Y|Y]; rewrite Y in H; cbn [thr_ok] in H; tauto. }
      exists a, b, t, x. split; [exact Eh|]. split; [|exact Hb].
      assert (i = placed_out q) as Z by klia. unfold placed_out in Z. lia.
    - left. apply Q. assert (P = i + cap) as X; [|klia].
      destruct (N.lt_ge_cases P (i + cap)) as [Y|Y]; [|klia]. exfalso. assert (i = P); [|klia]. apply same_slot; auto. klia.
  Qed.

  Lemma reported_full q gs P : qinv q gs -> P <= placed_in q -> gs (P mod cap) < P ->
    N.of_nat (length (ins (cq_hist q))) = N.of_nat (outs (cq_hist q)) + cap \/
    exists i, N.of_nat (length (ins (cq_hist q))) = N.of_nat i + cap /\ dequeue_pending (cq_hist q) i.
  Proof.
    intros I HP G. pose proof (i_bnd _ _ I) as Bd. fold (placed_in q) (placed_out q).
    destruct (i_cell _ _ I _ (slot_lt P)) as (i & M & L & H).
    assert (i < P) as Hi by (destruct H as [(A & _)|(A & _)]; klia).
    assert (placed_in q = i + cap) as X.
    { assert (P = i + cap) as X; [|klia].
      destruct (N.lt_ge_cases P (i + cap)) as [Y|Y]; [|klia]. exfalso. assert (i = P); [|klia]. apply same_slot; auto. klia. }
    destruct (N.le_gt_cases (placed_out q) i) as [Y|Y]; [left; klia|]. right.
    destruct H as [(A & B & C)|(A & B & _ & C)]; [klia|].
    destruct (C Y) as (t & pos & Z). exists (N.to_nat i). split; [klia|].
    assert (deq_open (cq_hist q) t i) as (a & b & Eh & La & Hb).
    { pose proof (i_thr _ _ I t) as H. destruct Z as [Z|(v & Z)]; rewrite Z in H; cbn [thr_ok] in H; tauto. }
    exists a, b, t. split; [exact Eh|]. split; [lia|exact Hb].
  Qed.

  Lemma qinv_step q gs a q' : qinv q gs -> hist_ok (cq_hist q) -> (forall t, stale q t < 2 ^ 62) -> qstep q a = Some q' ->
    exists gs', qinv q' gs' /\ hist_ok (cq_hist q').
  Proof.
    intros I Ho St E. pose proof cap_le as Cl. destruct a as [t x|t|t sp]; cbn [qstep] in E.
    - destruct (cq_pc q t) eqn:P; try discriminate. injection E as <-. exists gs. split.
      + apply qinv_move; auto; [now apply quiet_one|now rewrite P|exact Logic.I|].
        eapply calls_own; [apply (i_calls _ _ I)|reflexivity|]. now rewrite P.
      + apply hist_ok_plain; auto; discriminate.
    - destruct (cq_pc q t) eqn:P; try discriminate. injection E as <-. exists gs. split.
      + apply qinv_move; auto; [now apply quiet_one|now rewrite P|exact Logic.I|].
        eapply calls_own; [apply (i_calls _ _ I)|reflexivity|]. now rewrite P.
      + apply hist_ok_plain; auto; discriminate.
    - pose proof (i_calls _ _ I t) as Ct. pose proof (i_thr _ _ I t) as Ht. specialize (St t). unfold stale in St.
      destruct (cq_pc q t) as [|x|x pos P|x pos P|x pos P|x pos P| |pos P|pos P|pos P|pos P v] eqn:Pc; try discriminate;
        cbn [thr_ok cstate_of] in Ht, Ct.
      + injection E as <-. exists gs. split; [|now apply hist_ok_same].
        apply qinv_move; auto; [apply quiet_nil|now rewrite Pc| |now rewrite app_nil_r].
        cbn [thr_ok]. split; [apply I|reflexivity].
      + destruct Ht as (Hp & Hl). subst pos. rewrite slot_of in E by apply I. rewrite (i_seq _ _ I) in E by apply slot_lt.
        destruct (gs_near q gs P I) as (N1 & N2). rewrite sdif_near in E by klia.
        destruct (Z.eqb_spec (Z.of_N (gs (P mod cap)) - Z.of_N P) 0) as [Ed|Ed]; [|destruct (Z.ltb_spec (Z.of_N (gs (P mod cap)) - Z.of_N P) 0) as [Lt|Lt]];
          injection E as <-; exists gs.
        * split; [|now apply hist_ok_same]. apply qinv_move; auto; [apply quiet_nil|now rewrite Pc| |now rewrite app_nil_r].
          cbn [thr_ok]. split; [reflexivity|]. split; [exact Hl|]. klia.
        * split.
          -- apply qinv_move; auto; [now apply quiet_one|now rewrite Pc|exact Logic.I|].
             eapply calls_own; [exact Ct|reflexivity|]. reflexivity.
          -- destruct Ho as (H1 & H2 & H3). split; [now apply ret_ok_snoc|]. split; [apply empty_ok_snoc; auto; discriminate|].
             apply full_ok_snoc; auto. intros _ _. apply (reported_full q gs P); auto. klia.
        * split; [|now apply hist_ok_same]. apply qinv_move; auto; [apply quiet_nil|now rewrite Pc|exact Logic.I|now rewrite app_nil_r].
      + destruct ((cq_enq q =? pos) && negb sp)%bool eqn:B; injection E as <-; exists gs.
        * apply andb_prop in B as (B & _). apply N.eqb_eq in B. split; [|apply hist_ok_plain; auto; discriminate].
          apply enq_cas; auto. unfold stale. now rewrite Pc.
        * split; [|now apply hist_ok_same]. apply qinv_move; auto; [apply quiet_nil|now rewrite Pc| |now rewrite app_nil_r].
          cbn [thr_ok]. split; [apply I|reflexivity].
      + injection E as <-. exists gs. split; [|now apply hist_ok_same]. now apply enq_data.
      + injection E as <-. destruct Ht as (Hp & Hl & Hg & Hv & Hopen & Hd).
        assert (enq_busy q t P) as Bt by (exists x, pos; auto).
        replace (cq_slot q pos) with (P mod cap) by (rewrite Hp; symmetry; apply slot_of; apply I).
        exists (upd gs (P mod cap) (P + 1)). split; [|apply hist_ok_plain; auto; discriminate].
        apply publish; auto.
        * rewrite Hg. lia.
        * rewrite Hp. unfold w64. rewrite N.add_mod_idemp_l by lia. reflexivity.
        * now apply quiet_one.
        * eapply calls_own; [exact Ct|reflexivity|]. reflexivity.
        * intros u i Hu X E. destruct (busy_cells q gs t P u i I Hu) as (X1 & X2 & _). symmetry in E. destruct X; [now apply X1|now apply X2].
        * left. split; [exact Bt|]. split; [reflexivity|]. split; [exact Hl|]. split; [eapply waits_not_out; eauto|congruence].
      + injection E as <-. exists gs. split; [|now apply hist_ok_same].
        apply qinv_move; auto; [apply quiet_nil|now rewrite Pc| |now rewrite app_nil_r].
        cbn [thr_ok]. split; [apply I|reflexivity].
      + destruct Ht as (Hp & Hl). subst pos. rewrite slot_of in E by apply I. rewrite (i_seq _ _ I) in E by apply slot_lt.
        assert ((P mod w64 + 1) mod w64 = (P + 1) mod w64) as W by (unfold w64; rewrite N.add_mod_idemp_l by lia; reflexivity).
        rewrite W in E. destruct (gs_near q gs P I) as (N1 & N2). pose proof (i_bnd _ _ I) as Bd. rewrite sdif_near in E by klia.
        destruct (Z.eqb_spec (Z.of_N (gs (P mod cap)) - Z.of_N (P + 1)) 0) as [Ed|Ed]; [|destruct (Z.ltb_spec (Z.of_N (gs (P mod cap)) - Z.of_N (P + 1)) 0) as [Lt|Lt]];
          injection E as <-; exists gs.
        * split; [|now apply hist_ok_same]. apply qinv_move; auto; [apply quiet_nil|now rewrite Pc| |now rewrite app_nil_r].
          cbn [thr_ok]. split; [reflexivity|]. split; [exact Hl|]. klia.
        * split.
          -- apply qinv_move; auto; [now apply quiet_one|now rewrite Pc|exact Logic.I|].
             eapply calls_own; [exact Ct|reflexivity|]. reflexivity.
          -- destruct Ho as (H1 & H2 & H3). split; [now apply ret_ok_snoc|]. split; [|apply full_ok_snoc; auto; discriminate].
             apply empty_ok_snoc; auto. intros _ _. apply (reported_empty q gs P); auto. klia.
        * split; [|now apply hist_ok_same]. apply qinv_move; auto; [apply quiet_nil|now rewrite Pc|exact Logic.I|now rewrite app_nil_r].
      + destruct ((cq_deq q =? pos) && negb sp)%bool eqn:B; injection E as <-; exists gs.
        * apply andb_prop in B as (B & _). apply N.eqb_eq in B. split; [|apply hist_ok_plain; auto; discriminate].
          apply deq_cas; auto. unfold stale. now rewrite Pc.
        * split; [|now apply hist_ok_same]. apply qinv_move; auto; [apply quiet_nil|now rewrite Pc| |now rewrite app_nil_r].
          cbn [thr_ok]. split; [apply I|reflexivity].
      + injection E as <-. exists gs. split; [|now apply hist_ok_same]. now apply deq_data.
      + injection E as <-. destruct Ht as (Hp & Hl & Hg & (a & b & Eh & La & Hb) & Hv).
        assert (deq_busy q t P) as Bt by (exists pos; eauto).
        replace (cq_slot q pos) with (P mod cap) by (rewrite Hp; symmetry; apply slot_of; apply I).
        exists (upd gs (P mod cap) (P + cap)). split.
        * apply publish; auto.
          -- rewrite Hg. pose proof cap_ge2. lia.
          -- rewrite Hp, (i_cap _ _ I). pose proof cap_ge2.
             replace (P mod w64 + (cap - 1) + 1) with (P mod w64 + cap) by klia. unfold w64. rewrite N.add_mod_idemp_l by lia. reflexivity.
          -- now apply quiet_one.
          -- eapply calls_own; [exact Ct|reflexivity|]. reflexivity.
          -- intros u i Hu X E. destruct (busy_cells q gs t P u i I Hu) as (_ & _ & X1 & X2). symmetry in E. destruct X; [now apply X1|now apply X2].
        * destruct Ho as (H1 & H2 & H3). split; [|split; [apply empty_ok_snoc; auto; discriminate|apply full_ok_snoc; auto; discriminate]].
          destruct (val q P) as [y|] eqn:Vy.
          -- subst v. apply (ret_ok_return _ _ _ a b y); auto. unfold val in Vy. rewrite <- La, Nat2N.id in Vy. exact Vy.
          -- exfalso. unfold val in Vy. apply nth_error_None in Vy. pose proof (i_bnd _ _ I) as Bd.
             unfold placed_out, placed_in in *. lia.
  Qed.

  Lemma qinv_new : qinv (cq_new cap) (fun i => i) /\ hist_ok (cq_hist (@cq_new T cap)).
  Proof.
    pose proof cap_ge2. split; [split|].
    - reflexivity.
    - reflexivity.
    - reflexivity.
    - unfold placed_in, placed_out. cbn. lia.
    - intros c Hc. cbn. symmetry. apply N.mod_small. pose proof cap_le. unfold w64. lia.
    - intros c Hc. exists c. split; [now apply N.mod_small|]. unfold placed_in, placed_out. cbn. split; [lia|].
      left. split; [reflexivity|]. split; [lia|]. intros X. lia.
    - intros t. exact Logic.I.
    - intros t u i (x & pos & [X|X]); discriminate.
    - intros t u i (pos & [X|(v & X)]); discriminate.
    - intros t. apply calls_nil.
    - split; [|split].
      + intros p t m v s E. now destruct p.
      + intros p t s E. now destruct p.
      + intros p t s E. now destruct p.
  Qed.

  (** No thread ever uses a position read 2^62 placements ago. *)
  Definition prompt (sched : list (qact T)) : Prop :=
    forall pre post, sched = pre ++ post -> forall t, stale (queue_run cap pre) t < 2 ^ 62.

  Lemma queue_run_inv sched : prompt sched -> exists gs, qinv (queue_run cap sched) gs /\ hist_ok (cq_hist (queue_run cap sched)).
  Proof.
    induction sched as [|a sched IH] using rev_ind; intros Pr.
    - exists (fun i => i). apply qinv_new.
    - destruct IH as (gs & I & H).
      { intros pre post E. apply (Pr pre (post ++ [a])). now rewrite E, <- app_assoc. }
      unfold queue_run in *. rewrite run_snoc. unfold move. destruct (qstep (run qstep (cq_new cap) sched) a) eqn:E; [|eauto].
      apply (qinv_step _ gs a _ I H); [|exact E]. intros t. apply (Pr sched [a] eq_refl).
  Qed.

  (** Short runs are prompt. *)
  Lemma hist_short sched : (length (cq_hist (@queue_run T cap sched)) <= length sched)%nat.
  Proof.
    clear Hj1 Hj2 Hcap j.
    induction sched as [|a sched IH] using rev_ind; [cbn; lia|].
    unfold queue_run in *. rewrite run_snoc, app_length. unfold move.
    destruct (qstep (run qstep (cq_new cap) sched) a) as [q'|] eqn:E; [|cbn; lia].
    assert (length (cq_hist q') <= length (cq_hist (run qstep (cq_new cap) sched)) + 1)%nat; [|cbn; lia].
    revert E. generalize (run qstep (cq_new cap) sched). intros q. clear IH.
    destruct a as [t x|t|t sp]; cbn [qstep]; destruct (cq_pc q t); try discriminate;
      repeat match goal with |- context [if ?b then _ else _] => destruct b end;
      intros [= <-]; cbn [cq_hist cq_goto cq_set_data cq_set_seq cq_set_enq cq_set_deq]; rewrite app_length; cbn; lia.
  Qed.

  Lemma placed_le_hist (q : cqueue) : placed_in q <= N.of_nat (length (cq_hist q)) /\ placed_out q <= N.of_nat (length (cq_hist q)).
  Proof.
    clear Hj1 Hj2 Hcap j.
    unfold placed_in, placed_out, outs, ins. induction (cq_hist q) as [|e h IH]; cbn; [lia|].
    rewrite app_length. destruct e; cbn; lia.
  Qed.

  Lemma short_prompt sched : N.of_nat (length sched) < 2 ^ 62 -> prompt sched.
  Proof.
    clear Hj1 Hj2 Hcap j.
    intros L pre post E t. apply (f_equal (@length _)) in E. rewrite app_length in E.
    pose proof (hist_short pre). destruct (placed_le_hist (queue_run cap pre)) as (A & B).
    unfold stale. destruct (cq_pc _ t); lia.
  Qed.
End Queue.
