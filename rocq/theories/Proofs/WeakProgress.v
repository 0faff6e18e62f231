(** On the memory of Model/WeakMem.v no access is ever impossible: what a thread has
    heard of never gets ahead of the stores made. *)
From Verif Require Import Base Model.Interleave Model.WeakMem Proofs.Interleave Proofs.WeakMem.
Local Open Scope N_scope.
Local Opaque N.modulo N.pow.

(** The time of the newest store. *)
Definition newest_time (l : list msg) : N := fold_right (fun g k => N.max (m_to g) k) 0 l.

Lemma newest_ge l g : In g l -> m_to g <= newest_time l.
Proof. induction l as [|a l IH]; [easy|]. intros [->|H]; cbn [newest_time fold_right]; [lia|]. specialize (IH H). unfold newest_time in IH. lia. Qed.
Lemma newest_is l : l <> [] -> exists i g, nth_error l i = Some g /\ m_to g = newest_time l.
Proof.
  induction l as [|a l IH]; [easy|intros _]. destruct l as [|b l].
  - exists O, a. split; auto. cbn. lia.
  - destruct IH as (i & g & E & T); [discriminate|]. destruct (N.le_gt_cases (newest_time (b :: l)) (m_to a)) as [L|L].
    + exists O, a. split; auto. change (newest_time (a :: b :: l)) with (N.max (m_to a) (newest_time (b :: l))). lia.
    + exists (S i), g. split; auto. change (newest_time (a :: b :: l)) with (N.max (m_to a) (newest_time (b :: l))). lia.
Qed.

Section Progress.
  Context {V : Type}.
  Notation wmem := (wmem V).

  Definition behind (m : wmem) (v : view) : Prop := forall x, ts v x <= newest_time (hist m x).

  Record sane (m : wmem) : Prop := {
    sa_some : forall x, hist m x <> [];
    sa_times : forall x g, In g (hist m x) -> m_from g <= m_to g;
    sa_seen : forall t, behind m (seen m t);
    sa_msg : forall x g, In g (hist m x) -> behind m (m_view g);
    sa_left : forall x, behind m (left_at m x);
  }.

  Lemma sane_new i p : sane (wmem_new i p).
  Proof.
    split; cbn; try discriminate; try (intros; intros x; cbn; lia).
    - intros x g [<-|[]]. cbn. lia.
    - intros x g [<-|[]]. intros y. cbn. lia.
  Qed.

  Lemma behind_join m a b : behind m a -> behind m b -> behind m (vjoin a b).
  Proof. intros A B x. specialize (A x). specialize (B x). cbn. lia. Qed.
  Lemma behind_vat m v x k : behind m v -> k <= newest_time (hist m x) -> behind m (vat v x k).
  Proof.
    intros A L y. cbn. specialize (A y). destruct (loc_eqb y x) eqn:E.
    - apply loc_eqb_eq in E as ->. rewrite lset_same. lia.
    - rewrite lset_other; [lia|]. intros ->. now rewrite loc_eqb_refl in E.
  Qed.
  Lemma behind_bot m : behind m vbot.
  Proof. intros x. cbn. lia. Qed.
  Lemma behind_know m v e : behind m v -> behind m (vknow v e).
  Proof. intros A x. exact (A x). Qed.
  Lemma behind_load m v a x g : sane m -> behind m v -> In g (hist m x) -> behind m (after_load v a x g).
  Proof.
    intros S A H. unfold after_load. assert (behind m (vat v x (m_to g))) as B by (apply behind_vat; auto; now apply newest_ge).
    destruct a; auto. apply behind_join; auto. eapply sa_msg; eauto.
  Qed.
  Lemma behind_hist m m' v : hist m' = hist m -> behind m v -> behind m' v.
  Proof. intros E A x. rewrite E. apply A. Qed.

  Lemma sane_seen m t v : sane m -> behind m v -> sane (with_seen m t v).
  Proof.
    intros S B. split; cbn [with_seen hist seen left_at]; try apply S.
    intros u. destruct (Nat.eq_dec u t) as [->|N]; [rewrite tset_same; exact B|rewrite tset_other by auto; apply (sa_seen _ S)].
  Qed.

  Lemma behind_msg m x g v : behind m v -> behind (with_msg m x g) v.
  Proof.
    intros A y. cbn [with_msg hist]. specialize (A y). destruct (loc_eqb y x) eqn:E.
    - apply loc_eqb_eq in E as ->. rewrite lset_same. cbn [newest_time fold_right]. unfold newest_time in A. lia.
    - rewrite lset_other; auto. intros ->. now rewrite loc_eqb_refl in E.
  Qed.
  Lemma behind_new m x g v : behind m v -> behind (with_msg m x g) (vat v x (m_to g)).
  Proof. intros A. apply behind_vat; [now apply behind_msg|]. cbn [with_msg hist]. rewrite lset_same. cbn [newest_time fold_right]. lia. Qed.

  Lemma sane_msg m x g : sane m -> m_from g <= m_to g -> behind (with_msg m x g) (m_view g) -> sane (with_msg m x g).
  Proof.
    intros S L B. assert (In' : forall y h, In h (hist (with_msg m x g) y) -> h = g \/ In h (hist m y)).
    { intros y h. cbn [with_msg hist]. destruct (loc_eqb y x) eqn:E.
      - apply loc_eqb_eq in E as ->. rewrite lset_same. intros [->|H]; auto.
      - rewrite lset_other; auto. intros ->. now rewrite loc_eqb_refl in E. }
    split.
    - intros y. cbn [with_msg hist]. destruct (loc_eqb y x) eqn:E.
      + apply loc_eqb_eq in E as ->. rewrite lset_same. discriminate.
      + rewrite lset_other; [apply S|]. intros ->. now rewrite loc_eqb_refl in E.
    - intros y h H. apply In' in H as [->|H]; auto. eapply sa_times; eauto.
    - intros t. apply behind_msg, (sa_seen _ S).
    - intros y h H. apply In' in H as [->|H]; auto. apply behind_msg. eapply sa_msg; eauto.
    - intros y. apply behind_msg, (sa_left _ S).
  Qed.

  Lemma sane_load m t a x i v m' : sane m -> wload m t a x i = Some (v, m') -> sane m'.
  Proof.
    intros S H. unfold wload in H. destruct (nth_error (hist m x) i) as [g|] eqn:E; [|discriminate]. destruct (_ <=? _); [|discriminate]. injection H as <- <-.
    apply sane_seen; auto. apply behind_load; auto; [apply (sa_seen _ S)|eapply nth_error_In; eauto].
  Qed.

  Lemma sane_store m t r x v f k m' : sane m -> wstore m t r x v f k = Some m' -> sane m'.
  Proof.
    intros S H. unfold wstore in H. destruct (_ && _) eqn:C; [|discriminate]. injection H as <-. apply andb_true_iff in C as (_ & C). apply free_in in C as (L & _).
    set (g := {| m_from := f; m_to := k; m_val := v; m_view := if r then vat (seen m t) x k else vat vbot x k |}).
    assert (behind (with_msg m x g) (vat (seen m t) x k)) as B by (apply (behind_new m x g), (sa_seen _ S)).
    change (with_msg (with_seen m t (vat (seen m t) x k)) x g) with (with_seen (with_msg m x g) t (vat (seen m t) x k)).
    apply sane_seen; auto. apply sane_msg; auto; [cbn; lia|]. cbn [m_view g]. destruct r; auto. apply (behind_new m x g), behind_bot.
  Qed.

  Lemma sane_rmw m t a r x g v k m' : sane m -> In g (hist m x) -> wrmw m t a r x g v k = Some m' -> sane m'.
  Proof.
    intros S Ig H. unfold wrmw in H. destruct (_ && _) eqn:C; [|discriminate]. injection H as <-. apply andb_true_iff in C as (_ & C). apply free_in in C as (L & _).
    set (w := vat (after_load (seen m t) a x g) x k).
    set (h := {| m_from := m_to g; m_to := k; m_val := v; m_view := vjoin (m_view g) (if r then w else vat vbot x k) |}).
    assert (behind (with_msg m x h) w) as B by (apply (behind_new m x h), behind_load; auto; apply (sa_seen _ S)).
    change (with_msg (with_seen m t w) x h) with (with_seen (with_msg m x h) t w).
    apply sane_seen; auto. apply sane_msg; auto; [cbn; lia|]. cbn [m_view h]. apply behind_join; [apply behind_msg; eapply sa_msg; eauto|].
    destruct r; auto. apply (behind_new m x h), behind_bot.
  Qed.

  Lemma sane_cas m t a r fa x e d i k sp b v m' : sane m -> wcas m t a r fa x e d i k sp = Some (b, v, m') -> sane m'.
  Proof.
    intros S H. unfold wcas in H. destruct (nth_error (hist m x) i) as [g|] eqn:E; [|discriminate]. destruct (_ && _).
    - destruct (wrmw m t a r x g d k) as [m1|] eqn:R; [|discriminate]. injection H as <- <- <-. eapply sane_rmw; eauto. eapply nth_error_In; eauto.
    - destruct (wload m t fa x i) as [[v1 m1]|] eqn:R; [|discriminate]. injection H as <- <- <-. eapply sane_load; eauto.
  Qed.

  Lemma sane_add m t a r x d i k v m' : sane m -> wfetch_add m t a r x d i k = Some (v, m') -> sane m'.
  Proof.
    intros S H. unfold wfetch_add in H. destruct (nth_error (hist m x) i) as [g|] eqn:E; [|discriminate].
    destruct (wrmw m t a r x g _ k) as [m1|] eqn:R; [|discriminate]. injection H as <- <-. eapply sane_rmw; eauto. eapply nth_error_In; eauto.
  Qed.

  Lemma sane_touch m t x w v : sane m -> sane (wtouch m t x w v).
  Proof.
    intros S. split; cbn [wtouch hist seen left_at]; try apply S.
    intros u. destruct (Nat.eq_dec u t) as [->|N]; [rewrite tset_same; apply (behind_know m), (sa_seen _ S)|rewrite tset_other by auto; apply (sa_seen _ S)].
  Qed.
  Lemma sane_write m t x v : sane m -> sane (wwrite m t x v).
  Proof. apply sane_touch. Qed.
  Lemma sane_read m t x v m' : sane m -> wread m t x = (v, m') -> sane m'.
  Proof. intros S [= _ <-]. now apply sane_touch. Qed.

  Lemma sane_lock m t x m' : sane m -> wlock m t x = Some m' -> sane m'.
  Proof.
    intros S H. unfold wlock in H. destruct (held m x); [discriminate|]. injection H as <-. split; cbn [hist seen left_at]; try apply S.
    intros u. destruct (Nat.eq_dec u t) as [->|N]; [rewrite tset_same; apply (behind_join m); [apply (sa_seen _ S)|apply (sa_left _ S)]|rewrite tset_other by auto; apply (sa_seen _ S)].
  Qed.
  Lemma sane_unlock m t x : sane m -> sane (wunlock m t x).
  Proof.
    intros S. split; cbn [wunlock hist seen left_at]; try apply S.
    intros y. unfold lset. destruct (loc_eqb y x); [apply (sa_seen _ S)|apply (sa_left _ S)].
  Qed.

  (** ** What is always possible *)

  Lemma free_top m x : sane m -> free (newest_time (hist m x)) (newest_time (hist m x) + 1) (hist m x) = true.
  Proof.
    intros S. unfold free. apply andb_true_iff. split; [apply N.ltb_lt; lia|]. apply forallb_forall. intros g H. apply newest_ge in H. apply orb_true_iff. right. apply N.leb_le. lia.
  Qed.

  Lemma can_load m t a x : sane m -> exists i v m', wload m t a x i = Some (v, m').
  Proof.
    intros S. destruct (newest_is (hist m x)) as (i & g & E & T); [apply S|]. exists i. unfold wload. rewrite E, T.
    pose proof (sa_seen _ S t x) as L. apply N.leb_le in L. rewrite L. eauto.
  Qed.
  Lemma can_store m t r x v : sane m -> exists f k m', wstore m t r x v f k = Some m'.
  Proof.
    intros S. exists (newest_time (hist m x)), (newest_time (hist m x) + 1). unfold wstore. rewrite free_top by auto.
    pose proof (sa_seen _ S t x) as L. replace (_ <? _) with true; [cbn; eauto|]. symmetry. apply N.ltb_lt. lia.
  Qed.
  Lemma can_rmw m t a r x : sane m -> exists i g k, nth_error (hist m x) i = Some g /\ forall v, exists m', wrmw m t a r x g v k = Some m'.
  Proof.
    intros S. destruct (newest_is (hist m x)) as (i & g & E & T); [apply S|]. exists i, g, (newest_time (hist m x) + 1). split; auto. intros v. unfold wrmw. rewrite T, free_top by auto.
    pose proof (sa_seen _ S t x) as L. apply N.leb_le in L. rewrite L. cbn. eauto.
  Qed.
  Lemma can_add m t a r x d : sane m -> exists i k v m', wfetch_add m t a r x d i k = Some (v, m').
  Proof.
    intros S. destruct (can_rmw m t a r x S) as (i & g & k & E & H). exists i, k. unfold wfetch_add. rewrite E. destruct (H ((m_val g + d) mod 2 ^ 64)) as (m' & ->). eauto.
  Qed.
  Lemma can_cas m t a r fa x e d : sane m -> exists i k b v m', wcas m t a r fa x e d i k false = Some (b, v, m').
  Proof.
    intros S. destruct (newest_is (hist m x)) as (i & g & E & T); [apply S|]. exists i, (newest_time (hist m x) + 1). unfold wcas, wrmw, wload. rewrite E, T, free_top by auto.
    pose proof (sa_seen _ S t x) as L. apply N.leb_le in L. rewrite L. destruct (_ && _); cbn [andb]; eauto.
  Qed.
  Lemma can_lock (m : wmem) t x : held m x = None -> exists m', wlock m t x = Some m'.
  Proof. intros H. unfold wlock. rewrite H. eauto. Qed.

  (** What was behind the stores stays behind them. *)
  Lemma keeps_load m t a x i v m' w : wload m t a x i = Some (v, m') -> behind m w -> behind m' w.
  Proof. unfold wload. destruct (nth_error (hist m x) i); [|discriminate]. destruct (_ <=? _); [|discriminate]. intros [= _ <-] B. exact B. Qed.
  Lemma keeps_store m t r x v f k m' w : wstore m t r x v f k = Some m' -> behind m w -> behind m' w.
  Proof. unfold wstore. destruct (_ && _); [|discriminate]. intros [= <-] B. now apply behind_msg. Qed.
  Lemma keeps_rmw m t a r x g v k m' w : wrmw m t a r x g v k = Some m' -> behind m w -> behind m' w.
  Proof. unfold wrmw. destruct (_ && _); [|discriminate]. intros [= <-] B. now apply behind_msg. Qed.
  Lemma keeps_add m t a r x d i k v m' w : wfetch_add m t a r x d i k = Some (v, m') -> behind m w -> behind m' w.
  Proof.
    unfold wfetch_add. destruct (nth_error (hist m x) i) as [g|]; [|discriminate]. destruct (wrmw m t a r x g _ k) eqn:E; [|discriminate].
    intros [= _ <-] B. eapply keeps_rmw; eauto.
  Qed.
  Lemma keeps_read m t x v m' w : wread m t x = (v, m') -> behind m w -> behind m' w.
  Proof. intros [= _ <-] B. exact B. Qed.
  Lemma keeps_touch m t x b v w : behind m w -> behind (wtouch m t x b v) w.
  Proof. intros B. exact B. Qed.
  Lemma keeps_write m t x v w : behind m w -> behind (wwrite m t x v) w.
  Proof. intros B. exact B. Qed.
  Lemma keeps_lock m t x m' w : wlock m t x = Some m' -> behind m w -> behind m' w.
  Proof. unfold wlock. destruct (held m x); [discriminate|]. intros [= <-] B. exact B. Qed.
  Lemma keeps_unlock m t x w : behind m w -> behind (wunlock m t x) w.
  Proof. intros B. exact B. Qed.
  Lemma keeps_seen m t v w : behind m w -> behind (with_seen m t v) w.
  Proof. intros B. exact B. Qed.
End Progress.
