(** A fixed buffer shared by threads, with the memory orders it is written with. *)
From Verif Require Import Base Spec.FixedHistory Spec.FixedWeak Model.Queue Model.Interleave Model.WeakMem Model.FixedConc Model.FixedWeak
  Proofs.Interleave Proofs.QueueConc Proofs.WeakMem Proofs.RingConc Proofs.FixedConc.
Local Open Scope N_scope.
Local Opaque N.modulo N.pow.
Local Arguments after_load : simpl never.

(** ** Accesses to chunks *)

Definition covb (b : bool) (m : wmem unit) (c : N) (v : view) : Prop :=
  forall e a, nth_error (accs m) e = Some a -> a_loc a = chunk_var c -> (b = true \/ a_write a = true) -> known v e = true.
Definition untouched (m : wmem unit) (c : N) : Prop := forall a, In a (accs m) -> a_loc a <> chunk_var c.

Lemma covb_le b m m' c v v' : accs m' = accs m -> vle v v' -> covb b m c v -> covb b m' c v'.
Proof. intros E (_ & L) H e a A B. rewrite E in A. intros. apply L. eauto. Qed.
Lemma covb_weak m c v : covb true m c v -> covb false m c v.
Proof. intros H e a A B _. eauto. Qed.
Lemma covb_untouched b m c v : untouched m c -> covb b m c v.
Proof. intros H e a A B. exfalso. apply (H a); auto. eapply nth_error_In; eauto. Qed.

Lemma covb_other b m t y wr x c v : y <> chunk_var c \/ (b = false /\ wr = false) -> covb b m c v -> covb b (wtouch m t y wr x) c v.
Proof.
  intros Ne H e a A B. cbn [wtouch accs] in A. destruct (Nat.lt_ge_cases e (length (accs m))) as [L|L].
  - rewrite nth_error_app1 in A by auto. eapply H; eauto.
  - rewrite nth_error_app2 in A by auto. destruct (e - _)%nat as [|z]; [|destruct z; discriminate].
    injection A as <-. cbn in *. intros [X|X]; destruct Ne as [Ne|(N1 & N2)]; congruence.
Qed.

Lemma covb_touch b m t y c wr x : covb b m c (seen m t) -> covb b (wtouch m t y wr x) c (seen (wtouch m t y wr x) t).
Proof.
  intros K e a A La W. cbn [wtouch accs seen] in *. rewrite tset_same.
  destruct (Nat.lt_ge_cases e (length (accs m))) as [L|L].
  - rewrite nth_error_app1 in A by auto. apply vle_vknow. eapply K; eauto.
  - rewrite nth_error_app2 in A by auto. destruct (e - _)%nat as [|z] eqn:Ez; [|destruct z; discriminate].
    assert (e = length (accs m)) as -> by lia. apply vknow_self.
Qed.

Lemma covb_races m t c wr x : covb wr m c (seen m t) -> races (wtouch m t (chunk_var c) wr x) = races m.
Proof.
  intros K. cbn [wtouch races]. replace (ordered (seen m t) (chunk_var c) wr 0 (accs m)) with true; [auto|].
  symmetry. apply ordered_spec. intros e a A La W. cbn [plus]. eapply K; eauto.
Qed.

Lemma untouched_other m t y wr x c : y <> chunk_var c -> untouched m c -> untouched (wtouch m t y wr x) c.
Proof. intros Ne H a A. cbn [wtouch accs] in A. apply in_app_or in A as [A|[<-|[]]]; [now apply H|exact Ne]. Qed.

Lemma chunk_var_inj c d : chunk_var c = chunk_var d -> c = d.
Proof. now intros [= ->]. Qed.

(** ** Histories *)

Lemma core_snoc h x : core (h ++ [x]) = core h ++ core [x].
Proof. apply flat_map_app. Qed.
Lemma lasting_app a b : lasting (a ++ b) = lasting a ++ lasting b.
Proof. apply filter_app. Qed.
Lemma handed_lasting h : handed (lasting h) = handed h.
Proof. unfold handed, lasting. induction h as [|e h IH]; auto. destruct e as [t|t [c|]|t c|t []|t k]; cbn; rewrite ?IH; auto. Qed.
Lemma came_lasting h : came_back (lasting h) = came_back h.
Proof. unfold came_back, lasting. induction h as [|e h IH]; auto. destruct e as [t|t [c|]|t c|t []|t k]; cbn; rewrite ?IH; auto. Qed.
Lemma calls_lasting h : calls (lasting h) = calls h.
Proof. unfold calls, lasting. induction h as [|e h IH]; auto. destruct e as [t|t [c|]|t c|t []|t k]; cbn; rewrite ?IH; auto. Qed.
Lemma answers_lasting h : answers (lasting h) = answers h.
Proof. unfold answers, lasting. induction h as [|e h IH]; auto. destruct e as [t|t [c|]|t c|t []|t k]; cbn; rewrite ?IH; auto. Qed.

Lemma heard_snoc h x t : heard (h ++ [x]) t = hears (heard h) x t.
Proof. unfold heard. now rewrite fold_left_app. Qed.
Lemma heard_core h t e : In e (heard h t) -> In e (core h).
Proof.
  revert t. induction h as [|x h IH] using rev_ind; intros t; [easy|]. rewrite heard_snoc, core_snoc, in_app_iff. destruct x as [y|v u]; cbn.
  - destruct (Nat.eqb t (f_actor y)); [rewrite in_app_iff|]; intuition eauto.
  - destruct (Nat.eqb t v); [rewrite in_app_iff|]; intuition eauto.
Qed.
Lemma heard_own h e : In e (core h) -> In e (heard h (f_actor e)).
Proof.
  induction h as [|x h IH] using rev_ind; [easy|]. rewrite heard_snoc, core_snoc, in_app_iff. destruct x as [y|v u]; cbn.
  - intros [H|[->|[]]]; [destruct (Nat.eqb _ _); [apply in_or_app|]; auto|]. rewrite Nat.eqb_refl. apply in_or_app. right. now left.
  - intros [H|[]]. destruct (Nat.eqb _ _); [apply in_or_app|]; auto.
Qed.
Lemma informed_in h t c : informed h t c = true <-> exists u, In (FGaveBack u c) (heard h t).
Proof.
  unfold informed, came_back. rewrite existsb_exists. setoid_rewrite in_flat_map. split.
  - intros (d & (e & He & Hd) & E). apply N.eqb_eq in E as <-. destruct e as [x|x o|x d|x b|x k]; cbn in Hd; try easy. destruct Hd as [->|[]]. eauto.
  - intros (u & H). exists c. split; [|apply N.eqb_refl]. eexists. split; [exact H|now left].
Qed.
Lemma in_came u c h : In (FGaveBack u c) h -> In c (came_back h).
Proof. intros H. apply in_flat_map. eexists. split; [exact H|now left]. Qed.
Lemma in_handed u c h : In (FGot u (Some c)) h -> In c (handed h).
Proof. intros H. apply in_flat_map. eexists. split; [exact H|now left]. Qed.
Lemma got_by_in t c h : got_by t c h = true <-> In (FGot t (Some c)) h.
Proof.
  unfold got_by. rewrite existsb_exists. split.
  - intros (e & He & E). destruct e as [|x [d|]| | |]; try discriminate. apply andb_true_iff in E as (E1 & E2). apply Nat.eqb_eq in E1 as ->. apply N.eqb_eq in E2 as ->. exact He.
  - intros H. eexists. split; [exact H|]. cbn. now rewrite Nat.eqb_refl, N.eqb_refl.
Qed.
Lemma not_back c h : negb (existsb (N.eqb c) (came_back h)) = true <-> ~ In c (came_back h).
Proof.
  rewrite negb_true_iff. split.
  - intros E H. assert (existsb (N.eqb c) (came_back h) = true); [|congruence]. apply existsb_exists. exists c. split; auto. apply N.eqb_refl.
  - intros H. destruct (existsb _ _) eqn:E; auto. exfalso. apply H. apply existsb_exists in E as (d & Hd & E). now apply N.eqb_eq in E as ->.
Qed.
Lemma z_has_in z t c : z_has z t c = true <-> In (FGot t (Some c)) (core (z_hist z)) /\ ~ In c (came_back (core (z_hist z))).
Proof. unfold z_has. now rewrite andb_true_iff, got_by_in, not_back. Qed.

(** ** The counters *)

Definition all : N -> Prop := fun _ => True.

Lemma chain_times P l i j a b : chain P l -> nth_error l i = Some a -> nth_error l j = Some b -> m_to a <= m_to b -> (j <= i)%nat.
Proof.
  intros C. revert i j. induction C as [g H|g c l C IH H1 H2 H3]; intros i j A B L.
  - destruct i as [|i]; [|destruct i; discriminate]. destruct j as [|j]; [lia|destruct j; discriminate].
  - destruct j as [|j]; [lia|]. destruct i as [|i].
    + exfalso. cbn in A, B. injection A as <-. apply nth_error_In in B. assert (chain P (g :: c :: l)) as C2 by (constructor; auto).
      pose proof (chain_older _ _ _ C2 _ B). lia.
    + cbn in A, B. specialize (IH _ _ A B L). lia.
Qed.

(** The newest value of a counter that is only added to. *)
Definition newest (m : wmem unit) (x : loc) (v : N) : Prop := exists g l, hist m x = g :: l /\ m_val g = v /\ chain all (hist m x).

Lemma add_newest m t aq re x d i k v v0 m' : newest m x v0 -> wfetch_add m t aq re x d i k = Some (v, m') ->
  v = v0 /\ newest m' x ((v0 + d) mod 2 ^ 64) /\ (forall y, y <> x -> hist m' y = hist m y) /\ accs m' = accs m /\ races m' = races m /\
  (forall u, vle (seen m u) (seen m' u)) /\
  exists g, hist m' x = g :: hist m x /\ m_val g = (v0 + d) mod 2 ^ 64 /\ m_to g <= ts (seen m' t) x.
Proof.
  intros (g & l & Eh & Ev & C) H. unfold wfetch_add, wrmw in H. destruct (nth_error (hist m x) i) as [b|] eqn:Eb; [|discriminate].
  destruct (ts (seen m t) x <=? m_to b) eqn:T; [|discriminate]. destruct (free (m_to b) k (hist m x)) eqn:F; [|discriminate]. cbn [andb] in H.
  assert (i = O) as -> by (eapply chain_rmw; eauto; exact Logic.I). rewrite Eh in Eb. injection Eb as <-. injection H as <- <-. split; auto.
  cbn [with_msg with_seen hist seen accs races]. split; [|split; [|split; [|split; [|split]]]]; auto.
  - eexists _, (g :: l). cbn. rewrite lset_same, Eh. split; [reflexivity|]. split; [cbn; congruence|]. apply chain_add; [now rewrite <- Eh|now rewrite <- Eh].
  - intros y Ne. now rewrite lset_other.
  - intros u. destruct (Nat.eq_dec u t) as [->|Nu]; [|rewrite tset_other by auto; apply vle_refl]. rewrite tset_same. eapply vle_trans; [apply after_load_le|apply vle_vat].
  - eexists. rewrite lset_same. split; [reflexivity|]. cbn [m_val m_to]. split; [congruence|]. rewrite tset_same. apply vat_ts.
Qed.

Definition knows (m : wmem unit) (t : tid) (k : N) : Prop :=
  exists g, In g (hist m issued) /\ k <= m_val g /\ m_to g <= ts (seen m t) issued.

Lemma knows_le m m' t u k : incl (hist m issued) (hist m' issued) -> vle (seen m t) (seen m' u) -> knows m t k -> knows m' u k.
Proof. intros Ic (L & _) (g & A & B & C). exists g. split; auto. split; auto. specialize (L issued). lia. Qed.

(** The values of [issued] count its stores. *)
Definition counts (m : wmem unit) : Prop :=
  forall i g, nth_error (hist m issued) i = Some g -> m_val g + N.of_nat i + 1 = N.of_nat (length (hist m issued)).

Lemma load_sees m t i v m' F : newest m issued F -> counts m -> wload m t true issued i = Some (v, m') ->
  v <= F /\ (forall k, knows m t k -> k <= v) /\ knows m' t v /\ hist m' = hist m /\ accs m' = accs m /\ races m' = races m /\ (forall u, vle (seen m u) (seen m' u)).
Proof.
  intros (h & l & Eh & Ev & C) K H. unfold wload in H. destruct (nth_error (hist m issued) i) as [g|] eqn:E; [|discriminate].
  destruct (N.leb_spec (ts (seen m t) issued) (m_to g)) as [L|]; [|discriminate]. injection H as <- <-. cbn [with_seen hist seen accs races].
  pose proof (K _ _ E) as Kg. assert (nth_error (hist m issued) 0 = Some h) as E0 by now rewrite Eh. pose proof (K _ _ E0) as K0.
  split; [lia|]. split; [|split; [|split; [|split; [|split]]]]; auto.
  - intros k (g0 & I0 & L0 & T0). apply In_nth_error in I0 as (j & Ej). pose proof (K _ _ Ej).
    assert (i <= j)%nat by (eapply chain_times; eauto; lia). lia.
  - exists g. split; [eapply nth_error_In; eauto|]. split; [lia|]. cbn. rewrite tset_same. apply after_load_ts.
  - intros u. destruct (Nat.eq_dec u t) as [->|Nu]; [rewrite tset_same; apply after_load_le|rewrite tset_other by auto; apply vle_refl].
Qed.

(** ** Invariant *)

Definition uses (z : zfixed) (t : tid) (c : N) : Prop :=
  z_pc z t = FLoan c \/ (In (FGot t (Some c)) (core (z_hist z)) /\ ~ In c (came_back (core (z_hist z)))).

Section Inv.
  Variable n : N.

  (** What an event that a thread heard of means to it. *)
  Definition meant (z : zfixed) (t : tid) (e : fixed_event) : Prop :=
    match e with
    | FGot _ (Some c) => knows (z_mem z) t (c + 1)
    | FGot _ None | FTold _ true => knows (z_mem z) t n
    | FCounted _ k => k <= n /\ knows (z_mem z) t k
    | FGaveBack _ c => covb false (z_mem z) c (seen (z_mem z) t) /\ knows (z_mem z) t (c + 1)
    | _ => True
    end.

  Definition says (a : list weak_event) (e : fixed_event) : Prop :=
    match e with
    | FTold t b => (b = true -> n <= N.of_nat (calls (core a))) /\ ((exists x, In x (heard a t) /\ seen_full x) -> b = true)
    | FCounted t k => k <= n /\ k <= N.of_nat (calls (core a)) /\
        (forall u c, In (FGot u (Some c)) (heard a t) -> c < k) /\
        (forall u c, In (FGaveBack u c) (heard a t) -> c < k) /\
        (forall u j, In (FCounted u j) (heard a t) -> j <= k) /\
        ((exists x, In x (heard a t) /\ seen_full x) -> k = n)
    | _ => True
    end.

  Record ZI (z : zfixed) (f : cfixed) : Prop := {
    zi_size : z_size z = n;
    zi_pc : forall t, f_pc f t = z_pc z t;
    zi_hist : f_hist f = lasting (core (z_hist z));
    zi_issued : newest (z_mem z) issued (f_issued f);
    zi_loan : newest (z_mem z) on_loan (f_loan f);
    zi_val : counts (z_mem z);
    zi_fresh : forall c, (f_issued f <= c \/ exists t, z_pc z t = FReset c) -> untouched (z_mem z) c;
    zi_use : forall t c, uses z t c -> covb true (z_mem z) c (seen (z_mem z) t);
    zi_heard : forall t e, In e (heard (z_hist z) t) -> meant z t e;
    zi_pck : forall t c, z_pc z t = FReset c \/ z_pc z t = FLoan c -> knows (z_mem z) t (c + 1);
    zi_says : forall a e b, z_hist z = a ++ Did e :: b -> says a e;
    zi_race : races (z_mem z) = [];
  }.

  Lemma ZI_new : ZI (zfixed_new n) (cfixed_new n).
  Proof.
    split; cbn; auto; try easy.
    - eexists _, _. cbn. split; [reflexivity|]. split; [reflexivity|]. constructor. cbn. lia.
    - eexists _, _. cbn. split; [reflexivity|]. split; [reflexivity|]. constructor. cbn. lia.
    - intros [|i] g; cbn; [intros [= <-]; reflexivity|destruct i; discriminate].
    - intros t c [X|(X & _)]; [discriminate|destruct X].
    - intros t c [X|X]; discriminate.
    - intros [|? ?] e b; discriminate.
  Qed.

  Section Step.
    Variables (z : zfixed) (f : cfixed) (F : N) (asking busy : list tid).
    Hypothesis Z : ZI z f.
    Hypothesis I : FI n f F asking busy.
    Hypothesis Lt : N.of_nat (calls (core (z_hist z))) < 2 ^ 64.

    Lemma lt_calls : N.of_nat (calls (f_hist f)) < 2 ^ 64.
    Proof. rewrite (zi_hist _ _ Z), calls_lasting. exact Lt. Qed.
    Lemma is_F : f_issued f = F.
    Proof. rewrite (fi_issued _ _ _ _ _ I). apply N.mod_small. pose proof lt_calls. pose proof (asked_ge _ _ _ _ _ I). unfold w64. lia. Qed.
    Lemma F_calls : F <= N.of_nat (calls (core (z_hist z))).
    Proof. rewrite <- calls_lasting, <- (zi_hist _ _ Z). eapply asked_ge; eauto. Qed.

    Lemma core_got t c : In (FGot t (Some c)) (core (z_hist z)) -> In (FGot t (Some c)) (f_hist f).
    Proof. intros H. rewrite (zi_hist _ _ Z). apply filter_In. split; auto. Qed.

    Lemma got_range t c : In (FGot t (Some c)) (core (z_hist z)) -> c < n /\ c < F.
    Proof. intros H. apply core_got, in_handed, (u_range _ _ _ _ (fi_u _ _ _ _ _ I)) in H. lia. Qed.
    Lemma back_handed c : In c (came_back (core (z_hist z))) -> In c (handed (f_hist f)).
    Proof. intros H. apply (fi_back _ _ _ _ _ I). now rewrite (zi_hist _ _ Z), came_lasting. Qed.
    Lemma pc_hand t c : z_pc z t = FReset c \/ z_pc z t = FLoan c -> fhand f t = Some c.
    Proof. intros H. unfold fhand. rewrite (zi_pc _ _ Z). now destruct H as [-> | ->]. Qed.
    Lemma pc_fresh t c : z_pc z t = FReset c \/ z_pc z t = FLoan c -> ~ In c (handed (f_hist f)) /\ c < F /\ c < n.
    Proof. intros H. apply pc_hand, (u_hand _ _ _ _ (fi_u _ _ _ _ _ I)) in H as (A & B). split; auto. lia. Qed.

    Lemma uses_not_back t c : uses z t c -> ~ In c (came_back (core (z_hist z))).
    Proof. intros [H|(_ & H)]; auto. intros X. apply back_handed in X. revert X. eapply pc_fresh. right. exact H. Qed.
    Lemma uses_one t u c : uses z t c -> uses z u c -> t = u.
    Proof.
      assert (forall t, uses z t c -> f_user f c = Some t) as K.
      { intros x [H|(H & _)]; [apply (fi_mark _ _ _ _ _ I); now rewrite (zi_pc _ _ Z)|]. apply (fi_marked _ _ _ _ _ I), core_got, H. }
      intros A B. apply K in A, B. congruence.
    Qed.
    Lemma uses_no_reset t u c : uses z t c -> z_pc z u <> FReset c.
    Proof.
      intros [H|(H & _)] X.
      - assert (t = u) as -> by (apply (u_inj _ _ _ _ (fi_u _ _ _ _ _ I) t u c); apply pc_hand; auto). congruence.
      - apply core_got, in_handed in H. revert H. eapply pc_fresh. left. exact X.
    Qed.
    Lemma uses_range t c : uses z t c -> c < F.
    Proof. intros [H|(H & _)]; [eapply pc_fresh; eauto|eapply got_range; eauto]. Qed.
    Lemma reset_one t u c : z_pc z t = FReset c -> z_pc z u = FReset c -> t = u.
    Proof. intros A B. apply (u_inj _ _ _ _ (fi_u _ _ _ _ _ I) t u c); apply pc_hand; auto. Qed.

    Lemma heard_back t u c : In (FGaveBack u c) (heard (z_hist z) t) -> In c (came_back (core (z_hist z))).
    Proof. intros H. apply heard_core in H. eapply in_came; eauto. Qed.

    (** A step of thread [t] that leaves chunks alone. *)
    Lemma ZI_move f' t m p e : (forall x, In x e -> exists y, x = Did y /\ f_actor y = t) -> (length e <= 1)%nat ->
      (forall u, f_pc f' u = tset (z_pc z) t p u) -> f_hist f' = lasting (core (z_hist z ++ e)) ->
      newest m issued (f_issued f') -> newest m on_loan (f_loan f') -> counts m -> F <= f_issued f' ->
      accs m = accs (z_mem z) -> races m = [] -> (forall u, vle (seen (z_mem z) u) (seen m u)) -> incl (hist (z_mem z) issued) (hist m issued) ->
      let z' := {| z_size := z_size z; z_mem := m; z_pc := tset (z_pc z) t p; z_hist := z_hist z ++ e |} in
      (forall c, p = FReset c -> untouched m c /\ knows m t (c + 1)) ->
      (forall c, p = FLoan c -> False) ->
      (forall x, In (Did x) e -> meant z' t x /\ says (z_hist z) x) ->
      (forall c, In (Did (FGot t (Some c))) e -> z_pc z t = FLoan c) ->
      ZI z' f'.
    Proof.
      intros Ae Le Pc Eh N1 N2 Cn LF Ea Er Ls Ic z' Pr Pl Me Ng.
      assert (Sp : e = [] \/ exists y, e = [Did y] /\ f_actor y = t).
      { destruct e as [|x [|? ?]]; cbn in Le; [auto| |lia]. right. destruct (Ae x (or_introl eq_refl)) as (y & -> & ?). eauto. }
      assert (Mm : forall u x, meant z u x -> meant z' u x).
      { intros u x. unfold meant. cbn [z_mem z']. pose proof (fun k => knows_le (z_mem z) m u u k Ic (Ls u)). destruct x as [a|a [c|]|a c|a []|a k]; auto; intros (A & B); split; auto.
        eapply covb_le; eauto. }
      assert (Cb : forall c, ~ In c (came_back (core (z_hist z'))) -> ~ In c (came_back (core (z_hist z)))).
      { intros c H X. apply H. cbn [z_hist z']. unfold core, came_back in *. rewrite flat_map_app, flat_map_app. apply in_or_app. auto. }
      split; cbn [z_size z_mem z_pc z_hist z']; auto.
      - apply Z.
      - intros c [H|(u & H)].
        + intros a. rewrite Ea. apply (zi_fresh _ _ Z). left. rewrite is_F. lia.
        + destruct (Nat.eq_dec u t) as [->|Nu]; [rewrite tset_same in H; now apply Pr|]. rewrite tset_other in H by auto. intros a. rewrite Ea. apply (zi_fresh _ _ Z). eauto.
      - intros u c H. eapply covb_le; [exact Ea|apply Ls|]. apply (zi_use _ _ Z). unfold uses in *. cbn [z_pc z_hist z'] in H. destruct H as [H|(H & Nb)].
        + destruct (Nat.eq_dec u t) as [->|Nu]; [rewrite tset_same in H; now apply Pl in H|]. rewrite tset_other in H by auto. auto.
        + apply Cb in Nb. unfold core in H. rewrite flat_map_app in H. apply in_app_or in H as [H|H]; auto. left.
          destruct Sp as [->|(y & -> & Ay)]; [easy|]. cbn in H. destruct H as [->|[]]. cbn in Ay. subst u. apply Ng. now left.
      - intros u x H. destruct Sp as [->|(y & -> & Ay)]; [rewrite app_nil_r in H; apply Mm, (zi_heard _ _ Z); auto|].
        rewrite heard_snoc in H. cbn [hears] in H. rewrite Ay in H. destruct (Nat.eqb_spec u t) as [->|Nu]; [|apply Mm, (zi_heard _ _ Z); auto].
        apply in_app_or in H as [H|[<-|[]]]; [apply Mm, (zi_heard _ _ Z); auto|]. apply Me. now left.
      - intros u c H. destruct (Nat.eq_dec u t) as [->|Nu]; [rewrite tset_same in H; destruct H as [H|H]; [now apply Pr|now apply Pl in H]|].
        rewrite tset_other in H by auto. eapply knows_le; [exact Ic|apply Ls|]. now apply (zi_pck _ _ Z).
      - intros a x b E. destruct Sp as [->|(y & -> & Ay)]; [rewrite app_nil_r in E; eapply (zi_says _ _ Z); eauto|].
        apply snoc_split in E as [(-> & -> & Ex)|(s & -> & E)]; [injection Ex as ->; apply Me; now left|eapply (zi_says _ _ Z); eauto].
    Qed.

    (** A step of thread [t] that accesses chunk [c]. *)
    Lemma ZI_touch f' t c w p : (z_pc z t = FReset c /\ p = FLoan c /\ w = true) \/ (z_pc z t = FIdle /\ p = FIdle /\ (uses z t c \/ (w = false /\ exists u, In (FGaveBack u c) (heard (z_hist z) t)))) ->
      (forall u, f_pc f' u = tset (z_pc z) t p u) -> f_hist f' = f_hist f -> f_issued f' = f_issued f -> f_loan f' = f_loan f ->
      ZI (z_goto z (wtouch (z_mem z) t (chunk_var c) w tt) t p []) f'.
    Proof.
      intros Cs Pc Eh Ei El. set (m := wtouch (z_mem z) t (chunk_var c) w tt).
      assert (Ls : forall u, vle (seen (z_mem z) u) (seen m u)).
      { intros u. cbn [m wtouch seen]. destruct (Nat.eq_dec u t) as [->|Nu]; [rewrite tset_same; apply vle_vknow|rewrite tset_other by auto; apply vle_refl]. }
      assert (Hm : hist m = hist (z_mem z)) by reflexivity.
      assert (Cr : c < F) by (destruct Cs as [(P & _)|(_ & _ & [U|(_ & u & U)])]; [eapply pc_fresh; eauto|eapply uses_range; eauto|];
        apply heard_back, back_handed, (u_range _ _ _ _ (fi_u _ _ _ _ _ I)) in U; lia).
      assert (Kn : forall u k, knows (z_mem z) u k -> knows m u k) by (intros u k; apply knows_le; [intros x; now rewrite Hm|apply Ls]).
      assert (Co : covb w (z_mem z) c (seen (z_mem z) t)).
      { destruct Cs as [(P & _)|(_ & _ & [U|(-> & u & U)])].
        - apply covb_untouched, (zi_fresh _ _ Z). eauto.
        - apply (zi_use _ _ Z) in U. destruct w; auto. now apply covb_weak.
        - apply (zi_heard _ _ Z) in U. apply U. }
      assert (Pk : forall u d, tset (z_pc z) t p u = FReset d -> z_pc z u = FReset d /\ u <> t).
      { intros u d H. destruct (Nat.eq_dec u t) as [->|Nu]; [|now rewrite tset_other in H]. rewrite tset_same in H. destruct Cs as [(_ & -> & _)|(_ & -> & _)]; discriminate. }
      split; cbn [z_goto z_size z_mem z_pc z_hist]; fold m; rewrite ?Eh, ?Ei, ?El, ?app_nil_r; unfold newest, counts; rewrite ?Hm; auto; try apply Z.
      - intros d H. apply untouched_other.
        + intros X. apply chunk_var_inj in X. subst d. destruct H as [H|(u & H)]; [rewrite is_F in H; lia|]. apply Pk in H as (H & Nu).
          destruct Cs as [(P & _)|(_ & _ & [U|(_ & v & U)])]; [apply Nu; eapply reset_one; eauto|eapply uses_no_reset; eauto|].
          apply heard_back, back_handed in U. revert U. eapply pc_fresh. left. exact H.
        + apply (zi_fresh _ _ Z). destruct H as [H|(u & H)]; auto. right. exists u. now apply Pk.
      - intros u d H. destruct (N.eq_dec d c) as [->|Nd].
        + assert (u = t) as ->.
          { destruct (Nat.eq_dec u t) as [|Nu]; auto. exfalso. assert (uses z u c) as U.
            { destruct H as [H|H]; cbn [z_goto z_pc z_hist] in H; [rewrite tset_other in H by auto; now left|rewrite app_nil_r in H; now right]. }
            destruct Cs as [(P & _)|(_ & _ & [V|(_ & v & V)])]; [eapply uses_no_reset; eauto|apply Nu; eapply uses_one; eauto|].
            apply heard_back in V. revert V. eapply uses_not_back; eauto. }
          apply covb_touch. destruct Cs as [(P & _ & ->)|(P & -> & [V|(-> & v & V)])]; auto; [now apply (zi_use _ _ Z)|].
          exfalso. destruct H as [H|(_ & H)]; cbn [z_goto z_pc z_hist] in H; [rewrite tset_same in H; discriminate|]. rewrite app_nil_r in H. apply heard_back in V. auto.
        + apply covb_other; [left; intros X; apply Nd; now apply chunk_var_inj in X|]. eapply covb_le; [reflexivity|apply Ls|]. apply (zi_use _ _ Z).
          destruct H as [H|H]; cbn [z_goto z_pc z_hist] in H; [|rewrite app_nil_r in H; now right]. destruct (Nat.eq_dec u t) as [->|Nu]; [|rewrite tset_other in H by auto; now left].
          rewrite tset_same in H. destruct Cs as [(_ & -> & _)|(_ & -> & _)]; congruence.
      - intros u x H. apply (zi_heard _ _ Z) in H as M. unfold meant in *. cbn [z_mem z_goto]. fold m. destruct x as [a|a [d|]|a d|a []|a k]; auto; destruct M as (A & B); split; auto.
        destruct (Nat.eq_dec u t) as [->|Nu]; [now apply covb_touch|].
        destruct (N.eq_dec d c) as [->|Nd].
        + apply covb_other; [right; split; auto|eapply covb_le; [reflexivity|apply Ls|exact A]].
          apply heard_back in H. destruct Cs as [(P & _)|(_ & _ & [V|(-> & v & V)])]; auto; exfalso; [apply back_handed in H; revert H; eapply pc_fresh; eauto|revert H; eapply uses_not_back; eauto].
        + apply covb_other; [left; intros X; apply Nd; now apply chunk_var_inj in X|]. eapply covb_le; [reflexivity|apply Ls|exact A].
      - intros u d H. apply Kn, (zi_pck _ _ Z). destruct (Nat.eq_dec u t) as [->|Nu]; [|now rewrite tset_other in H]. rewrite tset_same in H.
        destruct Cs as [(P & -> & _)|(_ & -> & _)]; destruct H as [H|H]; try discriminate. injection H as <-. auto.
      - unfold m. rewrite covb_races by exact Co. apply Z.
    Qed.

    (** A step of thread [t] that hears of what [u] heard of. *)
    Lemma ZI_sync t u : z_pc z t = FIdle ->
      ZI (z_goto z (with_seen (z_mem z) t (vjoin (seen (z_mem z) t) (seen (z_mem z) u))) t FIdle [Synced t u]) f.
    Proof.
      intros P. set (m := with_seen _ _ _).
      assert (Ls : forall v, vle (seen (z_mem z) v) (seen m v)).
      { intros v. cbn [m with_seen seen]. destruct (Nat.eq_dec v t) as [->|Nu]; [rewrite tset_same; apply vle_join_l|rewrite tset_other by auto; apply vle_refl]. }
      assert (Lu : vle (seen (z_mem z) u) (seen m t)) by (cbn [m with_seen seen]; rewrite tset_same; apply vle_join_r).
      assert (Tp : forall v, tset (z_pc z) t FIdle v = z_pc z v) by (intros v; destruct (Nat.eq_dec v t) as [->|]; [now rewrite tset_same|now rewrite tset_other]).
      assert (Ic : incl (hist (z_mem z) issued) (hist m issued)) by (intros x; auto).
      assert (Ec : core (z_hist z ++ [Synced t u]) = core (z_hist z)) by (rewrite core_snoc; apply app_nil_r).
      assert (Mm : forall v w x, vle (seen (z_mem z) v) (seen m w) -> meant z v x -> meant (z_goto z m t FIdle [Synced t u]) w x).
      { intros v w x L. unfold meant. cbn [z_mem z_goto]. pose proof (fun k => knows_le (z_mem z) m v w k Ic L).
        destruct x as [a|a [c|]|a c|a []|a k]; auto; intros (A & B); split; auto. eapply covb_le; [reflexivity|exact L|exact A]. }
      split; cbn [z_goto z_size z_mem z_pc z_hist]; rewrite ?Ec; try apply Z.
      - intros v. rewrite Tp. apply Z.
      - intros c H. apply (zi_fresh _ _ Z). setoid_rewrite Tp in H. exact H.
      - intros v c H. eapply covb_le; [reflexivity|apply Ls|]. apply (zi_use _ _ Z). unfold uses in *. cbn [z_goto z_pc z_hist] in H. now rewrite Ec, Tp in H.
      - intros v x. rewrite heard_snoc. cbn [hears]. destruct (Nat.eqb_spec v t) as [->|Nv]; [rewrite in_app_iff; intros [H|H]|intros H];
          (eapply Mm; [|apply (zi_heard _ _ Z); exact H]); auto.
      - intros v c. rewrite Tp. intros H. eapply knows_le; [exact Ic|apply Ls|]. now apply (zi_pck _ _ Z).
      - intros a x b E. apply snoc_split in E as [(_ & _ & E)|(s & -> & E)]; [discriminate|eapply (zi_says _ _ Z); eauto].
    Qed.

    Lemma counts_add m x : counts (z_mem z) -> hist m issued = x :: hist (z_mem z) issued -> newest (z_mem z) issued F -> m_val x = F + 1 -> counts m.
    Proof.
      intros C E (g & l & Eg & Ev & _) Ex i y. rewrite E. destruct i as [|i]; cbn [nth_error length].
      - intros [= <-]. assert (nth_error (hist (z_mem z) issued) 0 = Some g) as E0 by now rewrite Eg. apply C in E0. lia.
      - intros H. apply C in H. lia.
    Qed.

    Ltac told := intros ? [<-|[]]; eexists; split; [reflexivity|reflexivity].

    Lemma ZI_step a z' : zstep z a = Some z' -> exists l, ZI z' (run fstep f l).
    Proof.
      intros E. assert (newest (z_mem z) issued F) as Nf by (rewrite <- is_F; apply Z). pose proof F_calls as Fc. pose proof (zi_size _ _ Z) as Sz.
      assert (f_size f = n) as Sf by apply I.
      assert (Tz : forall t p, z_pc z t = p -> forall u, tset (z_pc z) t p u = z_pc z u) by (intros t p <- u; destruct (Nat.eq_dec u t) as [->|]; [now rewrite tset_same|now rewrite tset_other]).
      destruct a as [t|t i k|t c i k|t c w|t c|t i|t i|t u]; cbn [zstep] in E.
      - destruct (z_pc z t) eqn:P; try discriminate. injection E as <-. exists [FCallGet t]. cbn [run]. unfold move. cbn [fstep]. rewrite (zi_pc _ _ Z), P.
        eapply ZI_move; cbn [f_goto f_pc f_hist f_issued f_loan]; try apply Z; auto; try discriminate.
        + told.
        + intros u. destruct (Nat.eq_dec u t) as [->|]; [now rewrite !tset_same|rewrite !tset_other by auto; apply Z].
        + rewrite core_snoc, lasting_app, (zi_hist _ _ Z). reflexivity.
        + rewrite is_F. lia.
        + intros u. apply vle_refl.
        + intros x. auto.
        + intros x [[= <-]|[]]. split; exact Logic.I.
        + intros c [X|[]]. discriminate.
      - destruct (z_pc z t) as [| |c|c] eqn:P; try discriminate.
        + destruct (wfetch_add (z_mem z) t true true issued 1 i k) as [[v m]|] eqn:A; [|discriminate].
          destruct (add_newest _ _ _ _ _ _ _ _ _ _ _ Nf A) as (-> & N1 & Ho & Ea & Er & Ls & g & Eg & Vg & Tg). rewrite Sz in E.
          assert (F + 1 < 2 ^ 64) as Lw.
          { destruct (fi_asking _ _ _ _ _ I) as (_ & A2 & A3). assert (In t asking) as It by (apply A2; rewrite (zi_pc _ _ Z); auto). pose proof lt_calls. destruct asking; [easy|]. cbn [length] in A3. lia. }
          rewrite N.mod_small in N1, Vg by exact Lw. exists [FGo t]. cbn [run]. unfold move. cbn [fstep]. rewrite (zi_pc _ _ Z), P, Sf, is_F.
          assert (newest m on_loan (f_loan f)) as N2 by (unfold newest; rewrite Ho by discriminate; apply Z).
          assert (counts m) as Cn by (eapply counts_add; eauto; apply Z).
          assert (incl (hist (z_mem z) issued) (hist m issued)) as Ic by (rewrite Eg; intros x; now right).
          assert (knows m t (F + 1)) as Kn by (exists g; split; [rewrite Eg; now left|split; [lia|exact Tg]]).
          assert (races m = []) as Er0 by (rewrite Er; apply Z).
          destruct (N.leb_spec n F) as [Le|Gt]; injection E as <-.
          * eapply ZI_move; cbn [f_goto f_pc f_hist f_issued f_loan f_set_issued]; try rewrite (N.mod_small (F + 1)) by exact Lw; auto; try discriminate; try lia.
            -- told.
            -- intros u. destruct (Nat.eq_dec u t) as [->|]; [now rewrite !tset_same|rewrite !tset_other by auto; apply Z].
            -- rewrite core_snoc, lasting_app, (zi_hist _ _ Z). reflexivity.
            -- intros x [[= <-]|[]]. split; [|exact Logic.I]. cbn. destruct Kn as (g' & K1 & K2 & K3). exists g'. split; auto. split; auto. lia.
            -- intros c [X|[]]. discriminate.
          * eapply ZI_move; cbn [f_goto f_pc f_hist f_issued f_loan f_set_issued]; try rewrite (N.mod_small (F + 1)) by exact Lw; rewrite ?app_nil_r; auto; try discriminate; try lia; try easy.
            -- intros u. destruct (Nat.eq_dec u t) as [->|]; [now rewrite !tset_same|rewrite !tset_other by auto; apply Z].
            -- apply Z.
            -- intros c [= <-]. split; auto. intros x. rewrite Ea. apply (zi_fresh _ _ Z). left. rewrite is_F. lia.
        + injection E as <-. exists [FGo t]. cbn [run]. unfold move. cbn [fstep]. rewrite (zi_pc _ _ Z), P.
          apply ZI_touch; cbn [f_goto f_pc f_hist f_issued f_loan f_set_user]; rewrite ?app_nil_r; auto.
          intros u. destruct (Nat.eq_dec u t) as [->|]; [now rewrite !tset_same|rewrite !tset_other by auto; apply Z].
        + destruct (wfetch_add (z_mem z) t false false on_loan 1 i k) as [[v m]|] eqn:A; [|discriminate]. injection E as <-.
          destruct (add_newest _ _ _ _ _ _ _ _ _ _ _ (zi_loan _ _ Z) A) as (-> & N1 & Ho & Ea & Er & Ls & g & Eg & Vg & Tg).
          exists [FGo t]. cbn [run]. unfold move. cbn [fstep]. rewrite (zi_pc _ _ Z), P.
          assert (hist m issued = hist (z_mem z) issued) as Hi by (apply Ho; discriminate).
          eapply ZI_move; cbn [f_goto f_pc f_hist f_issued f_loan f_set_loan]; auto; try discriminate.
          * told.
          * intros u. destruct (Nat.eq_dec u t) as [->|]; [now rewrite !tset_same|rewrite !tset_other by auto; apply Z].
          * rewrite core_snoc, lasting_app, (zi_hist _ _ Z). reflexivity.
          * unfold newest. rewrite Hi. apply Z.
          * unfold counts. rewrite Hi. apply Z.
          * rewrite is_F. lia.
          * rewrite Er. apply Z.
          * rewrite Hi. intros x; auto.
          * intros x [[= <-]|[]]. split; [|exact Logic.I]. cbn. apply (knows_le (z_mem z) m t t); [rewrite Hi; intros y; auto|apply Ls|]. apply (zi_pck _ _ Z). auto.
          * intros d [X|[]]. injection X as <-. exact P.
      - destruct (z_pc z t) eqn:P; try discriminate. destruct (z_has z t c) eqn:G; [|discriminate]. apply z_has_in in G as (G1 & G2).
        destruct (wfetch_add (z_mem z) t false false on_loan (w64 - 1) i k) as [[v m]|] eqn:A; [|discriminate]. injection E as <-.
        destruct (add_newest _ _ _ _ _ _ _ _ _ _ _ (zi_loan _ _ Z) A) as (-> & N1 & Ho & Ea & Er & Ls & g & Eg & Vg & Tg).
        exists [FCallRet t c]. cbn [run]. unfold move. cbn [fstep]. rewrite (zi_pc _ _ Z), P.
        assert (existsb (N.eqb c) (handed (f_hist f)) = true) as -> by (apply existsb_exists; exists c; split; [eapply in_handed, core_got; eauto|apply N.eqb_refl]).
        rewrite (zi_hist _ _ Z) at 1. rewrite came_lasting, (proj2 (not_back _ _) G2). cbn [andb].
        assert (hist m issued = hist (z_mem z) issued) as Hi by (apply Ho; discriminate).
        eapply ZI_move; cbn [f_goto f_pc f_hist f_issued f_loan f_set_loan]; auto; try discriminate.
        * told.
        * intros u. destruct (Nat.eq_dec u t) as [->|]; [now rewrite !tset_same|rewrite !tset_other by auto; apply Z].
        * rewrite core_snoc, lasting_app, (zi_hist _ _ Z). reflexivity.
        * unfold newest. rewrite Hi. apply Z.
        * unfold counts. rewrite Hi. apply Z.
        * rewrite is_F. lia.
        * rewrite Er. apply Z.
        * rewrite Hi. intros x; auto.
        * intros x [[= <-]|[]]. split; [|exact Logic.I]. cbn. split.
          -- eapply covb_le; [exact Ea|apply Ls|]. apply covb_weak, (zi_use _ _ Z). right. auto.
          -- apply (knows_le (z_mem z) m t t); [rewrite Hi; intros y; auto|apply Ls|]. apply heard_own in G1. now apply (zi_heard _ _ Z) in G1.
        * intros d [X|[]]. discriminate.
      - destruct (z_pc z t) eqn:P; try discriminate. destruct (z_has z t c) eqn:G; [|discriminate]. apply z_has_in in G. injection E as <-.
        exists []. cbn [run]. apply ZI_touch; auto; [right; split; auto; split; auto; left; now right|]. intros u. rewrite Tz by auto. apply Z.
      - destruct (z_pc z t) eqn:P; try discriminate. destruct (informed (z_hist z) t c) eqn:G; [|discriminate]. apply informed_in in G. injection E as <-.
        exists []. cbn [run]. apply ZI_touch; auto; [right; split; auto|]. intros u. rewrite Tz by auto. apply Z.
      - destruct (z_pc z t) eqn:P; try discriminate. destruct (wload (z_mem z) t true issued i) as [[v m]|] eqn:A; [|discriminate]. injection E as <-.
        destruct (load_sees _ _ _ _ _ _ Nf (zi_val _ _ Z) A) as (L1 & L2 & L3 & Hm & Ea & Er & Ls). rewrite Sz.
        assert (exists l, f_pc (run fstep f l) t = FIdle /\ (forall u, u <> t -> f_pc (run fstep f l) u = f_pc f u) /\ f_hist (run fstep f l) = f_hist f ++ lasting [FTold t (n <=? v)] /\
          f_issued (run fstep f l) = f_issued f /\ f_loan (run fstep f l) = f_loan f) as (l & Q1 & Q2 & Q3 & Q4 & Q5).
        { destruct (N.leb_spec n v) as [Le|Gt].
          - exists [FIsFull t]. cbn [run]. unfold move. cbn [fstep]. rewrite (zi_pc _ _ Z), P. cbn [f_goto f_pc f_hist f_issued f_loan]. rewrite tset_same. split; auto. split; [intros u Nu; now rewrite tset_other|].
            split; auto. rewrite Sf, is_F. cbn. f_equal. f_equal. f_equal. apply N.leb_le. lia.
          - exists []. cbn [run]. rewrite (zi_pc _ _ Z). split; auto. split; auto. split; auto. cbn. now rewrite app_nil_r. }
        exists l. eapply ZI_move; rewrite ?Q4, ?Q5; auto; try discriminate.
        * told.
        * intros u. destruct (Nat.eq_dec u t) as [->|Nu]; [now rewrite tset_same|rewrite tset_other, Q2 by auto; apply Z].
        * rewrite core_snoc, lasting_app, Q3, (zi_hist _ _ Z). reflexivity.
        * unfold newest. rewrite Hm. apply Z.
        * unfold newest. rewrite Hm. apply Z.
        * unfold counts. rewrite Hm. apply Z.
        * rewrite is_F. lia.
        * rewrite Er. apply Z.
        * rewrite Hm. intros x; auto.
        * intros x [[= <-]|[]]. split.
          -- cbn. destruct (N.leb_spec n v) as [Le|]; auto. destruct L3 as (g & K1 & K2 & K3). exists g. split; auto. split; auto. lia.
          -- cbn. split; [intros X; apply N.leb_le in X; lia|]. intros (x & Hx & Sx). apply N.leb_le. apply L2. apply (zi_heard _ _ Z) in Hx. destruct x as [b|b [c|]|b c|b []|b c]; easy.
        * intros c [X|[]]. discriminate.
      - destruct (z_pc z t) eqn:P; try discriminate. destruct (wload (z_mem z) t true issued i) as [[v m]|] eqn:A; [|discriminate]. injection E as <-.
        destruct (load_sees _ _ _ _ _ _ Nf (zi_val _ _ Z) A) as (L1 & L2 & L3 & Hm & Ea & Er & Ls). rewrite Sz.
        replace (if v <? n then v else n) with (N.min v n) by (destruct (N.ltb_spec v n); lia).
        exists []. cbn [run]. eapply ZI_move; auto; try discriminate.
        * told.
        * intros u. rewrite Tz by auto. apply Z.
        * rewrite core_snoc, lasting_app, (zi_hist _ _ Z). cbn. now rewrite app_nil_r.
        * unfold newest. rewrite Hm. apply Z.
        * unfold newest. rewrite Hm. apply Z.
        * unfold counts. rewrite Hm. apply Z.
        * rewrite is_F. lia.
        * rewrite Er. apply Z.
        * rewrite Hm. intros x; auto.
        * intros x [[= <-]|[]]. split.
          -- cbn. split; [lia|]. destruct L3 as (g & K1 & K2 & K3). exists g. split; auto. split; auto. lia.
          -- cbn. split; [lia|]. split; [lia|]. repeat split.
             ++ intros u c H. apply heard_core in H as Hc. apply got_range in Hc. apply (zi_heard _ _ Z) in H. cbn in H. apply L2 in H. lia.
             ++ intros u c H. pose proof H as Hc. apply heard_back, back_handed, (u_range _ _ _ _ (fi_u _ _ _ _ _ I)) in Hc. apply (zi_heard _ _ Z) in H. cbn in H. destruct H as (_ & H). apply L2 in H. lia.
             ++ intros u j H. apply (zi_heard _ _ Z) in H. cbn in H. destruct H as (H1 & H). apply L2 in H. lia.
             ++ intros (x & Hx & Sx). apply (zi_heard _ _ Z) in Hx. assert (n <= v); [|lia]. apply L2. destruct x as [b|b [c|]|b c|b []|b c]; easy.
        * intros c [X|[]]. discriminate.
      - destruct (z_pc z t) eqn:P; try discriminate. injection E as <-. exists []. cbn [run]. now apply ZI_sync.
    Qed.
  End Step.

  Lemma zstep_calls z a z' : zstep z a = Some z' -> (calls (core (z_hist z)) <= calls (core (z_hist z')))%nat.
  Proof.
    intros E. assert (exists e, z_hist z' = z_hist z ++ e) as (e & ->).
    { destruct a as [t|t i k|t c i k|t c w|t c|t i|t i|t u]; cbn [zstep] in E; destruct (z_pc z t); try discriminate;
        repeat match type of E with context [match ?b with _ => _ end] => destruct b end; try discriminate; injection E as <-; eexists; reflexivity. }
    unfold core, calls. rewrite flat_map_app, filter_app, app_length. lia.
  Qed.

  Lemma run_ZI sched : N.of_nat (calls (core (z_hist (zrun n sched)))) < 2 ^ 64 -> exists sched', ZI (zrun n sched) (frun n sched').
  Proof.
    induction sched as [|a sched IH] using rev_ind; intros L.
    - exists []. apply ZI_new.
    - unfold zrun in *. rewrite run_snoc in *. unfold move in *. destruct (zstep (run zstep (zfixed_new n) sched) a) as [z'|] eqn:E; auto.
      pose proof (zstep_calls _ _ _ E) as Lc. destruct IH as (s' & Z); [lia|].
      assert (N.of_nat (calls (f_hist (frun n s'))) < 2 ^ 64) as Lf by (rewrite (zi_hist _ _ Z), calls_lasting; lia).
      destruct (run_FI n s' Lf) as (F & k & b & I). destruct (ZI_step _ _ _ _ _ Z I ltac:(lia) _ _ E) as (l & Z').
      exists (s' ++ l). unfold frun in *. now rewrite run_app.
  Qed.
End Inv.
