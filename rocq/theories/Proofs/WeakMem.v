(** Facts about the memory of Model/WeakMem.v. *)
From Verif Require Import Base Model.Interleave Model.WeakMem Proofs.Interleave.
Local Open Scope N_scope.

Lemma loc_eqb_eq a b : loc_eqb a b = true <-> a = b.
Proof.
  destruct a as [o i], b as [o' i']. cbn. rewrite andb_true_iff, !N.eqb_eq. split; [intros [-> ->]; auto|now intros [= -> ->]].
Qed.

Lemma loc_eqb_refl a : loc_eqb a a = true.
Proof. now apply loc_eqb_eq. Qed.

Lemma lset_same {A} (f : loc -> A) x v : lset f x v x = v.
Proof. unfold lset. now rewrite loc_eqb_refl. Qed.

Lemma lset_other {A} (f : loc -> A) x v y : y <> x -> lset f x v y = f y.
Proof. intros H. unfold lset. destruct (loc_eqb y x) eqn:E; [|auto]. now apply loc_eqb_eq in E. Qed.

(** ** Views *)

Definition vle (a b : view) : Prop :=
  (forall x, ts a x <= ts b x) /\ forall e, known a e = true -> known b e = true.

Lemma vle_refl a : vle a a.
Proof. split; auto. intros; lia. Qed.
Lemma vle_trans a b c : vle a b -> vle b c -> vle a c.
Proof. intros (A & B) (C & D). split; auto. intros x. specialize (A x). specialize (C x). lia. Qed.
Lemma vle_join_l a b : vle a (vjoin a b).
Proof. split; cbn; [intros; lia|]. intros e ->. auto. Qed.
Lemma vle_join_r a b : vle b (vjoin a b).
Proof. split; cbn; [intros; lia|]. intros e ->. apply orb_true_r. Qed.
Lemma vle_vat v x n : vle v (vat v x n).
Proof.
  split; cbn; auto. intros y. destruct (loc_eqb y x) eqn:E.
  - apply loc_eqb_eq in E as ->. rewrite lset_same. lia.
  - rewrite lset_other; [lia|]. intros ->. now rewrite loc_eqb_refl in E.
Qed.
Lemma vle_vknow v e : vle v (vknow v e).
Proof. split; cbn; [intros; lia|]. intros e' ->. apply orb_true_r. Qed.
Lemma vat_ts v x n : n <= ts (vat v x n) x.
Proof. cbn. rewrite lset_same. lia. Qed.
Lemma vknow_self v e : known (vknow v e) e = true.
Proof. cbn. now rewrite Nat.eqb_refl. Qed.
Lemma after_load_le v acq x g : vle v (after_load v acq x g).
Proof.
  unfold after_load. destruct acq; [|apply vle_vat]. eapply vle_trans; [apply vle_vat|apply vle_join_l].
Qed.
Lemma after_load_ts v acq x g : m_to g <= ts (after_load v acq x g) x.
Proof.
  unfold after_load. pose proof (vat_ts v x (m_to g)) as H. destruct acq; [|exact H].
  cbn [vjoin ts]. lia.
Qed.
Lemma after_load_acq v x g : vle (m_view g) (after_load v true x g).
Proof. apply vle_join_r. Qed.

(** ** Orders of stores *)

(** [l], newest first: later in time; a store whose value is in [P] is followed
    without a gap. *)
Inductive chain (P : N -> Prop) : list msg -> Prop :=
| chain_one g : m_from g <= m_to g -> chain P [g]
| chain_cons a b l : chain P (b :: l) -> m_to b <= m_from a -> m_from a < m_to a ->
    (P (m_val b) -> m_from a = m_to b) -> chain P (a :: b :: l).

Lemma chain_head P g l : chain P (g :: l) -> m_from g <= m_to g.
Proof. intros H. inversion H; subst; lia. Qed.

Lemma chain_older P g l : chain P (g :: l) -> forall b, In b l -> m_to b < m_to g.
Proof.
  revert g. induction l as [|c l IH]; intros g H b Hb; [destruct Hb|]. inversion H; subst.
  destruct Hb as [->|Hb]; [lia|]. specialize (IH c ltac:(assumption) b Hb). lia.
Qed.

Lemma free_in f n l : free f n l = true -> f < n /\ forall g, In g l -> n <= m_from g \/ m_to g <= f.
Proof.
  unfold free. rewrite andb_true_iff, forallb_forall, N.ltb_lt. intros (A & B). split; auto.
  intros g Hg. specialize (B g Hg). rewrite orb_true_iff, !N.leb_le in B. exact B.
Qed.

(** A read-modify-write of such a store is one of the newest. *)
Lemma chain_rmw (P : N -> Prop) l i b n :
  chain P l -> nth_error l i = Some b -> P (m_val b) -> free (m_to b) n l = true -> i = O.
Proof.
  intros C E Pb F. apply free_in in F as (Lt & F). destruct i as [|i]; [auto|exfalso].
  revert i E Lt F. induction C as [g|a c l C IH H1 H2 H3]; intros i E Lt F; cbn in E; [destruct i; discriminate|].
  destruct i as [|i]; cbn in E.
  - injection E as ->. destruct (F a) as [X|X]; [now left| |]; rewrite ?H3 in * by auto; lia.
  - apply (IH i); auto. intros g Hg. apply F. now right.
Qed.

Lemma chain_add (P : N -> Prop) g l n v w :
  chain P (g :: l) -> free (m_to g) n (g :: l) = true ->
  chain P ({| m_from := m_to g; m_to := n; m_val := v; m_view := w |} :: g :: l).
Proof. intros C F. apply free_in in F as (Lt & _). constructor; cbn; auto; lia. Qed.

(** Someone who has heard of the newest store reads it, and stores after it. *)
Lemma chain_load P g l i b : chain P (g :: l) -> nth_error (g :: l) i = Some b -> m_to g <= m_to b -> i = O.
Proof.
  intros C E L. destruct i as [|i]; [auto|]. cbn in E. apply nth_error_In in E.
  pose proof (chain_older _ _ _ C _ E). lia.
Qed.

Lemma chain_store (P : N -> Prop) g l f n v w :
  chain P (g :: l) -> ~ P (m_val g) -> m_to g < n -> free f n (g :: l) = true ->
  chain P ({| m_from := f; m_to := n; m_val := v; m_view := w |} :: g :: l).
Proof.
  intros C Np L F. pose proof (chain_head _ _ _ C). apply free_in in F as (Lt & F).
  destruct (F g) as [X|X]; [now left|lia|]. constructor; cbn; auto. intros; contradiction.
Qed.

(** ** Races *)

Lemma ordered_spec v x w l : forall e,
  ordered v x w e l = true <->
  forall i a, nth_error l i = Some a -> a_loc a = x -> (w = true \/ a_write a = true) -> known v (e + i)%nat = true.
Proof.
  induction l as [|a l IH]; intros e; cbn [ordered].
  - split; auto. intros _ [|i] a; discriminate.
  - rewrite andb_true_iff, IH. split.
    + intros (A & B) [|i] c; cbn [nth_error].
      * intros [= ->] <- C. rewrite loc_eqb_refl in A. rewrite Nat.add_0_r. destruct C as [C|C];
          rewrite C, ?orb_true_r in A; cbn in A; exact A.
      * intros E L C. replace (e + S i)%nat with (S e + i)%nat by lia. eapply B; eauto.
    + intros H. split.
      * destruct (loc_eqb (a_loc a) x) eqn:E; [|reflexivity]. apply loc_eqb_eq in E. cbn [andb].
        destruct (w || a_write a) eqn:C; [|reflexivity]. cbn. rewrite <- (Nat.add_0_r e).
        apply (H O a); auto. now apply orb_true_iff in C.
      * intros i c E L C. replace (S e + i)%nat with (e + S i)%nat by lia. eapply H; eauto.
Qed.
