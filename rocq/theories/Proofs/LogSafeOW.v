(** Memory safety: who owns which chunk; when a buffer is exhausted. *)
From Coq Require Import Permutation.
From Verif Require Import Base Model.StringUtils Model.Event Model.Queue Model.Buffer Model.Config Spec.Categories Model.Registry
  Model.Interleave Spec.LogHistory Spec.LogFacts Model.TraceLog Proofs.Interleave Proofs.Queue Proofs.Registry Proofs.LogFrame Proofs.LogView Proofs.LogViewInv
  Proofs.LogContract Proofs.LogBuffers Proofs.LogSafe Proofs.LogSafeInv Proofs.LogSafeAT.

(** The same chunks, taken and returned alike. *)
Definition alike (x y : buf) : Prop := b_size y = b_size x /\ b_issued y = b_issued x /\ b_queue y = b_queue x /\ b_chunk y = b_chunk x.

Lemma alike_refl x : alike x x.
Proof. repeat split. Qed.
#[export] Hint Resolve alike_refl : core.

Lemma NoDup_snoc {A} (l : list A) i : NoDup l -> ~ In i l -> NoDup (l ++ [i]).
Proof. intros N H. apply (Permutation_NoDup (Permutation_cons_append l i)). now constructor. Qed.

Section SafeOW.
  Variables cap csz : N.
  Variable site_cat : nat -> bytes.

  Notation reached := (reached cap csz site_cat).
  Notation OW := (OW cap).

  Lemma owned_buf s f u b i : AT s f -> OW s f -> owned s f u = Some (b, i) -> bufp s = Some b.
  Proof.
    intros A W H. unfold owned in H. destruct (m_cm (f u)) as [| |b' i' r] eqn:E; [|easy|].
    - now apply (at_ch _ _ A) in H.
    - injection H as -> ->. now apply (ow_fly _ _ _ W) in E.
  Qed.

  Lemma plain s f : AT s f -> OW s f -> (forall u, ~ attached s f u) -> forall u, m_cm (f u) = Plain /\ t_chunk (ten s u) = None.
  Proof.
    intros A W D u. assert (t_chunk (ten s u) = None) by (destruct (t_chunk (ten s u)) eqn:E; auto; destruct (D u); right; congruence).
    split; auto. destruct (m_cm (f u)) as [| |b i r] eqn:E; auto.
    - now apply (ow_ret _ _ _ W) in E.
    - apply (ow_fly _ _ _ W) in E. destruct (D u). left. tauto.
  Qed.

  (** Fewer chunks are owned. *)
  Lemma OW_less s f s' f' : OW s f -> AT s f -> bufp s' = bufp s ->
    (forall b, bufp s = Some b -> alike (heap s b) (heap s' b)) ->
    (forall u x, owned s' f' u = Some x -> owned s f u = Some x) ->
    (forall u b i, owned s' f' u = Some (b, i) -> m_cm (f' u) <> Flight b i false -> m_cm (f u) <> Flight b i false) ->
    (forall u, m_cm (f' u) = Returned -> t_chunk (ten s' u) <> None /\ steady (f' u)) ->
    (forall u b i r, m_cm (f' u) = Flight b i r -> m_slave (f' u) = true /\ m_pin (f' u) = true /\ bufp s = Some b /\ t_chunk (ten s' u) = None) ->
    OW s' f'.
  Proof.
    intros W A Eb Eh Eo El Er Ef. split; auto.
    - intros u b i r H. rewrite Eb. eauto.
    - intros u b i H. apply Eo in H. pose proof (owned_buf _ _ _ _ _ A W H) as Hb. destruct (Eh _ Hb) as [Z1 [Z2 [Z3 Z4]]]. rewrite ?Z1, ?Z2, ?Z3, ?Z4. now apply (ow_in _ _ _ W) in H.
    - intros u v x Hu Hv. apply Eo in Hu, Hv. eapply (ow_uniq _ _ _ W); eauto.
    - intros b. rewrite Eb. intros Hb. destruct (Eh _ Hb) as [Z1 [Z2 [Z3 Z4]]]. rewrite ?Z1, ?Z2, ?Z3, ?Z4. now apply (ow_queue _ _ _ W).
    - intros u b i H Hl. apply (El _ _ _ H) in Hl. apply Eo in H. pose proof (owned_buf _ _ _ _ _ A W H) as Hb. destruct (Eh _ Hb) as [Z1 [Z2 [Z3 Z4]]]. rewrite ?Z1, ?Z2, ?Z3, ?Z4. now apply (ow_label _ _ _ W) in H.
  Qed.

  Lemma OW_frame s f s' t p' : OW s f -> AT s f -> bufp s' = bufp s -> (forall u, t_chunk (ten s' u) = t_chunk (ten s u)) ->
    (forall b, bufp s = Some b -> alike (heap s b) (heap s' b)) -> m_cm p' = m_cm (f t) ->
    (m_cm p' = Returned -> steady p') -> (forall b i r, m_cm p' = Flight b i r -> m_slave p' = true /\ m_pin p' = true) ->
    OW s' (tset f t p').
  Proof.
    intros W A E1 E2 E3 P1 P2 P3.
    assert (Ec : forall u, m_cm (tset f t p' u) = m_cm (f u)) by (intros u; byt u t; auto).
    apply (OW_less s f); auto.
    - intros u x. unfold owned. now rewrite E2, Ec.
    - intros u b i _. now rewrite Ec.
    - intros u. rewrite Ec, E2. intros H. pose proof (ow_ret _ _ _ W _ H) as [X Y]. split; auto. byt u t; auto. apply P2. congruence.
    - intros u b i r. rewrite Ec, E2. intros H. pose proof (ow_fly _ _ _ W _ _ _ _ H) as [X1 [X2 [X3 X4]]]. split; [|split]; auto; byt u t; auto; rewrite <- P1 in H; now apply P3 in H.
  Qed.

  (** A change in the current buffer. *)
  Lemma OW_upd s f s' t b x p' : OW s f -> AT s f -> bufp s = Some b -> bufp s' = Some b -> ten s' = ten s -> heap s' b = x ->
    b_size x = b_size (heap s b) -> (b_issued (heap s b) <= b_issued x)%N ->
    NoDup (b_queue x) -> (forall i, In i (b_queue x) -> (i < b_size (heap s b))%N /\ (i < b_issued x)%N) ->
    (forall u i, u <> t -> owned s f u = Some (b, i) -> ~ In i (b_queue x) /\ b_chunk x i = b_chunk (heap s b) i) ->
    (forall i, owned s (tset f t p') t = Some (b, i) -> (i < b_size (heap s b))%N /\ (i < b_issued x)%N /\ ~ In i (b_queue x) /\
       (forall u, u <> t -> owned s f u <> Some (b, i)) /\
       (m_cm p' <> Flight b i false -> c_tid (b_chunk x i) = N.of_nat t /\ (c_next (b_chunk x i) <= cap)%N)) ->
    (forall c i r, m_cm p' = Flight c i r -> c = b) ->
    (m_cm p' = Returned -> t_chunk (ten s t) <> None /\ steady p') ->
    (forall c i r, m_cm p' = Flight c i r -> m_slave p' = true /\ m_pin p' = true /\ t_chunk (ten s t) = None) ->
    OW s' (tset f t p').
  Proof.
    intros W A Eb Eb' Et Eh X1 X2 X3 X4 X5 X6 X7 X8 X9.
    assert (Ow : forall u, owned s' (tset f t p') u = owned s (tset f t p') u) by (intros u; unfold owned; now rewrite Et).
    assert (Oo : forall u, u <> t -> owned s (tset f t p') u = owned s f u) by (intros u N; unfold owned; now rewrite tset_other).
    assert (Ob : forall u c i, owned s (tset f t p') u = Some (c, i) -> c = b).
    { intros u c i H. destruct (Nat.eq_dec u t) as [->|N].
      - unfold owned in H. rewrite tset_same in H. destruct (m_cm p') as [| |c' i' r] eqn:Em; [|easy|].
        + apply (at_ch _ _ A) in H. congruence.
        + injection H as -> ->. eauto.
      - rewrite Oo in H by auto. apply (owned_buf _ _ _ _ _ A W) in H. congruence. }
    split.
    - intros u. rewrite Et. byt u t; [auto|apply (ow_ret _ _ _ W)].
    - intros u c i r H. rewrite Et, Eb'. byt u t.
      + rewrite (X7 _ _ _ H). apply X9 in H. tauto.
      + apply (ow_fly _ _ _ W) in H. rewrite <- Eb. exact H.
    - intros u c i. rewrite Ow. intros H. pose proof (Ob _ _ _ H). subst c. rewrite Eh, X1. destruct (Nat.eq_dec u t) as [->|N].
      + apply X6 in H. tauto.
      + rewrite Oo in H by auto. destruct (X5 _ _ N H) as [Y1 _]. apply (ow_in _ _ _ W) in H. repeat split; auto; [tauto|lia].
    - intros u v [c i]. rewrite !Ow. intros Hu Hv. pose proof (Ob _ _ _ Hu). subst c.
      destruct (Nat.eq_dec u t) as [->|Nu], (Nat.eq_dec v t) as [->|Nv]; auto.
      + apply X6 in Hu as [_ [_ [_ [Hu _]]]]. rewrite Oo in Hv by auto. now apply Hu in Hv.
      + apply X6 in Hv as [_ [_ [_ [Hv _]]]]. rewrite Oo in Hu by auto. now apply Hv in Hu.
      + rewrite Oo in Hu, Hv by auto. eapply (ow_uniq _ _ _ W); eauto.
    - intros c. rewrite Eb'. intros H. injection H as <-. rewrite Eh, X1. auto.
    - intros u c i. rewrite Ow. intros H Hl. pose proof (Ob _ _ _ H). subst c. rewrite Eh. byt u t.
      + apply X6 in H as [_ [_ [_ [_ H]]]]. auto.
      + rewrite Oo in H by auto. destruct (X5 _ _ N H) as [_ ->]. apply (ow_label _ _ _ W); auto.
  Qed.

  (** Another buffer, when nobody relies on the current one. *)
  Lemma OW_swap s f s' t p' : OW s f -> AT s f -> (forall u, ~ attached s f u) -> ten s' = ten s -> m_cm p' = Plain ->
    (forall b, bufp s' = Some b -> b_queue (heap s' b) = []) -> OW s' (tset f t p').
  Proof.
    intros W A D Et P1 Q. pose proof (plain s f A W D) as Pl.
    assert (Cm : forall u, m_cm (tset f t p' u) = Plain) by (intros u; byt u t; auto; apply Pl).
    assert (No : forall u, owned s' (tset f t p') u = None) by (intros u; unfold owned; rewrite Cm, Et; apply Pl).
    split; try (intros u; rewrite ?Cm, ?No; easy).
    intros b Hb. apply Q in Hb. rewrite Hb. split; [constructor|easy].
  Qed.

  Lemma chunk_add_ok c e c' : chunk_add cap c e = Ok c' -> c_tid c' = c_tid c /\ (c_next c' <= cap)%N.
  Proof.
    unfold chunk_add. destruct (chunk_isFull cap c); [easy|]. destruct (N.leb_spec cap (c_next c)) as [|H]; [easy|]. intros E. injection E as <-.
    cbn [c_tid c_next]. split; auto. etransitivity; [apply N.mod_le; easy|lia].
  Qed.

  Lemma exec_OW s f t ch a s' r : facts s -> (closing s = None \/ closing s = Some t) -> LK s f -> AT s f -> OW s f ->
    (exists k, code s t = Act a k) -> okB t (f t) a ->
    exec cap s t ch a = Next s' r -> OW s' (tset f t (nextB (enabled s) (regd s) (f t) a r)).
  Proof.
    intros R Cl L A W [k Ec] O E.
    assert (Own : forall u, m_hold (f t) <> None -> m_hold (f u) <> None -> u = t).
    { intros u X Y. apply (lk_hold _ _ L) in X, Y. congruence. }
    pose proof (at_bp _ _ A t) as Ab. pose proof (at_ck _ _ A t) as Ac. pose proof (at_new _ _ A t) as An.
    assert (Rt : m_cm (f t) = Returned -> steady (f t)) by (intros X; now apply (ow_ret _ _ _ W) in X).
    assert (Ft : forall b i r, m_cm (f t) = Flight b i r -> m_slave (f t) = true /\ m_pin (f t) = true) by (intros b i q X; apply (ow_fly _ _ _ W) in X; tauto).
    assert (Lockset : forall u v w, t_chunk (tset (ten s) u (set_tlock (ten s u) v) w) = t_chunk (ten s w)) by (intros u v w; byt w u; auto).
    destruct a; try solve [ex E; cbn [okB] in O; cbn [nextB];
      repeat match goal with |- context [tset _ _ (if ?x then _ else _)] => destruct x eqn:? end;
      apply (OW_frame s); auto; same; fin].
    - (* ALdEnabled *) ex E. cbn [nextB]. destruct (enabled s); [destruct (m_slave (f t) && m_ini (f t))|destruct (m_pin (f t)) eqn:Sl];
        apply (OW_frame s); cbn; auto.
      + intros X. apply Rt in X as [X|X]; [left|right]; cbn; tauto.
      + intros b i q X. apply (ow_fly _ _ _ W) in X. tauto.
      + intros b i q X. apply (ow_fly _ _ _ W) in X. tauto.
      + intros b i q X. apply (ow_fly _ _ _ W) in X. destruct X as [_ [X _]]. congruence.
    - (* AStEnabled *) destruct O as [O _]. ex E. cbn [nextB]. pose proof (detached _ _ _ L A O) as D.
      apply (OW_frame s); cbn; auto; try easy. symmetry. now apply plain with (s := s).
    - (* ABufGet *) ex E. cbn [nextB]. destruct (bufp s) eqn:Eb; [|destruct (m_pin (f t)) eqn:Sl]; apply (OW_frame s); cbn; auto.
      + intros b i q X. apply (ow_fly _ _ _ W) in X. tauto.
      + intros b i q X. apply (ow_fly _ _ _ W) in X. destruct X as [_ [X _]]. congruence.
    - (* ABufTake *) destruct O as [O O1]. ex E. cbn [nextB]. pose proof (detached _ _ _ L A O) as D.
      apply (OW_swap s); cbn; auto; try easy; [destruct (bufp s); reflexivity|]. now apply plain with (s := s).
    - (* ABufSet *) destruct O as [O [O1 _]]. ex E. cbn [nextB]. pose proof (detached _ _ _ L A O) as D.
      apply (OW_swap s); cbn; auto; try easy; [destruct (bufp s); reflexivity| |].
      + now apply plain with (s := s).
      + intros b Hb. rewrite O1 in Hb. apply An in Hb as [X1 [X2 [X3 [X4 [X5 X6]]]]]. destruct (bufp s) as [b0|]; auto. cbn. rewrite tset_other by congruence. auto.
    - (* AFactory *)
      assert (Fresh : forall x b, bufp s = Some b -> alike (heap s b) (tset (heap s) (nbuf s) x b)) by (intros x b Hb; apply (at_buf _ _ A) in Hb as [Hb _]; rewrite tset_other by lia; auto).
      ex E; cbn [nextB]; apply (OW_frame s); cbn; auto.
    - (* AIssue *) destruct O as [O1 [O2 [O3 [O4 O5]]]]. destruct (Ab _ O3) as [Eb _]. destruct (Ac _ O5) as [Et _]. clear Ab Ac An.
      destruct (ow_queue _ _ _ W _ Eb) as [Q1 Q2].
      assert (Np : forall p', m_cm p' = Plain -> owned s (tset f t p') t = None) by (intros p' X; unfold owned; now rewrite tset_same, X).
      ex E; cbn [nextB]; (eapply (OW_upd s f _ t b); [exact W|exact A|exact Eb|exact Eb|reflexivity|cbn; rewrite tset_same; reflexivity|reflexivity|..]; cbn [set_bissued b_issued b_queue b_chunk p_cm m_cm m_slave m_pin p_exh]);
        try lia; auto; try easy; try (intros; congruence); try solve [intros i Hi; apply Q2 in Hi; split; [tauto|lia]];
        try solve [intros u i N Hu; apply (ow_in _ _ _ W) in Hu; tauto]; try solve [intros i; rewrite Np; easy].
      unfold owned. rewrite tset_same. cbn [p_cm m_cm]. intros i X. injection X as <-. apply N.ltb_lt in Heqb1. repeat split; auto; try lia; try easy.
      + intros Hi. apply Q2 in Hi. lia.
      + intros u N Hu. apply (ow_in _ _ _ W) in Hu. lia.
    - (* ADeq *) destruct O as [O1 [O2 [O3 [O4 O5]]]]. destruct (Ab _ O3) as [Eb _]. destruct (Ac _ O5) as [Et _]. clear Ab Ac An.
      destruct (ow_queue _ _ _ W _ Eb) as [Q1 Q2].
      ex E; cbn [nextB]. inversion Q1 as [|? ? Q3 Q4]; subst.
      assert (Qh := Q2 n (or_introl eq_refl)).
      eapply (OW_upd s f _ t b); [exact W|exact A|exact Eb|exact Eb|reflexivity|cbn; rewrite tset_same; reflexivity|reflexivity|..]; cbn [set_bqueue b_issued b_queue b_chunk p_cm m_cm m_slave m_pin p_exh];
        try lia; auto; try easy; try (intros; congruence).
      + intros i Hi. apply Q2. now right.
      + intros u i N Hu. split; auto. intros Hi. apply (ow_in _ _ _ W) in Hu as [_ [_ Hu]]. apply Hu. rewrite Heql. now right.
      + unfold owned. rewrite tset_same. cbn [p_cm m_cm]. intros i X. injection X as <-. repeat split; try easy.
        intros u N Hu. apply (ow_in _ _ _ W) in Hu as [_ [_ Hu]]. apply Hu. rewrite Heql. now left.
    - (* AReset *) cbn in O. pose proof (ow_fly _ _ _ W _ _ _ _ O) as [F1 [F2 [F3 F4]]].
      assert (Ot : owned s f t = Some (b, i)) by (unfold owned; now rewrite O).
      destruct (ow_queue _ _ _ W _ F3) as [Q1 Q2].
      ex E; cbn [nextB].
      eapply (OW_upd s f _ t b); [exact W|exact A|exact F3|exact F3|reflexivity|cbn; rewrite tset_same; reflexivity|reflexivity|..]; cbn [set_bchunk b_issued b_queue b_chunk p_cm m_cm m_slave m_pin p_exh];
        try lia; auto; try easy; try (intros; congruence).
      + intros u j N Hu. split; [now apply (ow_in _ _ _ W) in Hu|]. rewrite upd_other; auto. intros <-. apply N. eapply (ow_uniq _ _ _ W); eauto.
      + unfold owned. rewrite tset_same. cbn [p_cm m_cm]. intros j X. injection X as <-. apply (ow_in _ _ _ W) in Ot as Oi. rewrite upd_same. cbn. repeat split; try tauto; try lia.
        intros u N Hu. apply N. eapply (ow_uniq _ _ _ W); eauto.
    - (* ALoan *) ex E; cbn [nextB]; apply (OW_frame s); cbn; auto; intros c Hc; byt c b; auto; repeat split.
    - (* AReturn *) destruct O as [O1 [O2 O3]]. destruct (Ab _ O1) as [Eb St]. destruct (Ac _ O2) as [Et _].
      assert (Ot : owned s f t = Some (b, i)) by (unfold owned; now rewrite O3).
      destruct (ow_queue _ _ _ W _ Eb) as [Q1 Q2].
      destruct (ow_in _ _ _ W _ _ _ Ot) as [I1 [I2 I3]].
      assert (Nt : forall p', m_cm p' = Returned -> owned s (tset f t p') t = None) by (intros p' X; unfold owned; now rewrite tset_same, X).
      ex E; cbn [nextB]; (eapply (OW_upd s f _ t b); [exact W|exact A|exact Eb|exact Eb|reflexivity|cbn; rewrite ?tset_same; reflexivity|reflexivity|..]; cbn [set_bqueue b_issued b_queue b_chunk p_cm m_cm m_slave m_pin p_exh];
        try lia; auto; try easy; try (intros; congruence)); try solve [intros j; rewrite Nt; easy]; try solve [rewrite Et; easy].
      + intros u j N Hu. apply (ow_in _ _ _ W) in Hu. tauto.
      + apply NoDup_snoc; auto.
      + intros j Hj. apply in_app_or in Hj as [Hj|[<-|[]]]; auto.
      + intros u j N Hu. split; auto. intros Hj. apply in_app_or in Hj as [Hj|[<-|[]]].
        * apply (ow_in _ _ _ W) in Hu. tauto.
        * apply N. eapply (ow_uniq _ _ _ W); eauto.
    - (* AChunkSet *) destruct O as [O1 O2]. ex E; cbn [nextB].
      assert (Oo : forall u, u <> t -> owned (put_ten s t (set_tchunk (ten s t) o)) (tset f t (p_cm Plain (p_ck (Some o) (f t)))) u = owned s f u).
      { intros u N. unfold owned. cbn. now rewrite !tset_other by auto. }
      assert (Ot : owned (put_ten s t (set_tchunk (ten s t) o)) (tset f t (p_cm Plain (p_ck (Some o) (f t)))) t = o).
      { unfold owned. cbn. now rewrite !tset_same. }
      apply (OW_less s f); auto; cbn [put_ten set_ten ten].
      + intros u x Hu. destruct (Nat.eq_dec u t) as [->|N]; [|now rewrite Oo in Hu]. rewrite Ot in Hu. subst o. destruct x as [b i]. unfold owned. now rewrite O2.
      + intros u b i Hu Hl. destruct (Nat.eq_dec u t) as [->|N]; [|now rewrite tset_other in Hl by auto]. rewrite Ot in Hu. subst o. congruence.
      + intros u. byt u t; [easy|apply (ow_ret _ _ _ W)].
      + intros u b i q. byt u t; [easy|apply (ow_fly _ _ _ W)].
    - (* AEvict *) destruct O as [[on [ev O1]] [O2 [O3 [O4 _]]]]. ex E; cbn [nextB]. rewrite O1.
      assert (Su : m_slave (f u) = false).
      { destruct (m_slave (f u)) eqn:Su; auto. apply (lk_slave _ _ L) in Su. apply (lk_mas _ _ L) in O2. congruence. }
      assert (Cu : m_cm (f u) = Plain).
      { destruct (m_cm (f u)) as [| |b i q] eqn:Cu; auto.
        - apply (ow_ret _ _ _ W) in Cu as Hu. destruct Hu as [_ [[Hu _]|Hu]]; [congruence|]. apply Own in Hu; [|congruence]. congruence.
        - apply (ow_fly _ _ _ W) in Cu as [Hu _]. congruence. }
      set (p' := p_hold (Some (on, del u ev)) (f t)).
      assert (Cm : forall w, m_cm (tset f t p' w) = m_cm (f w)) by (intros w; byt w t; auto).
      assert (Sw : forall w, steady (f w) -> steady (tset f t p' w)). { intros w. byt w t; auto. intros _. right. easy. }
      apply (OW_less s f); auto; cbn [put_ten set_ten ten].
      + intros w x. unfold owned. cbn [put_ten set_ten ten]. rewrite Cm. destruct (Nat.eq_dec w u) as [->|N]; [rewrite tset_same, Cu; easy|].
        now rewrite (tset_other (ten s)) by auto.
      + intros w b i _. now rewrite Cm.
      + intros w. rewrite Cm. intros Hw. destruct (Nat.eq_dec w u) as [->|N]; [congruence|]. rewrite (tset_other (ten s)) by auto. apply (ow_ret _ _ _ W) in Hw. destruct Hw; auto.
      + intros w b i q. rewrite Cm. intros Hw. destruct (Nat.eq_dec w u) as [->|N]; [congruence|]. rewrite (tset_other (ten s)) by auto. apply (ow_fly _ _ _ W) in Hw.
        destruct Hw as [H1 [H2 [H3 H4]]]. repeat split; auto; byt w t; auto.
    - (* AInitGet *) ex E; cbn [nextB]. destruct (m_slave (f t)) eqn:Sl; apply (OW_frame s); cbn; auto.
      intros b i q X. apply (ow_fly _ _ _ W) in X. tauto. intros b i q X. apply (ow_fly _ _ _ W) in X. destruct X; congruence.
    - (* AReg *) assert (Tc : forall u, t_chunk (tset (ten s) t (set_tinit (ten s t) v) u) = t_chunk (ten s u)) by (intros u; byt u t; auto).
      cbn [exec] in E. injection E as <- <-. cbn [nextB]. apply (OW_frame s); cbn; auto.
    - (* AStore *) destruct O as [O1 O2]. destruct (Ac _ O1) as [Et _]. pose proof (at_ch _ _ A _ _ _ Et) as Eb.
      assert (Ot : owned s f t = Some (b, i)) by (unfold owned; now rewrite O2).
      destruct (ow_queue _ _ _ W _ Eb) as [Q1 Q2].
      destruct (ow_in _ _ _ W _ _ _ Ot) as [I1 [I2 I3]].
      destruct (ow_label _ _ _ W _ _ _ Ot) as [L1 L2]; [rewrite O2; easy|].
      assert (Nt : owned s (tset f t (f t)) t = Some (b, i)) by (unfold owned; now rewrite tset_same, O2).
      ex E; cbn [nextB]; [|apply (OW_frame s); cbn; auto]. match goal with X : chunk_add _ _ _ = Ok _ |- _ => apply chunk_add_ok in X as [C1 C2] end.
      eapply (OW_upd s f _ t b); [exact W|exact A|exact Eb|exact Eb|reflexivity|cbn; rewrite tset_same; reflexivity|reflexivity|..]; cbn [set_bchunk b_issued b_queue b_chunk];
        try lia; auto; try easy; try (intros; congruence).
      + intros u j N Hu. split; [now apply (ow_in _ _ _ W) in Hu|]. rewrite upd_other; auto. intros <-. apply N. eapply (ow_uniq _ _ _ W); eauto.
      + intros j. rewrite Nt. intros X. injection X as <-. rewrite upd_same. repeat split; auto; try congruence.
        intros u N Hu. apply N. eapply (ow_uniq _ _ _ W); eauto.
    - (* ASnap *) destruct O as [[on [ev O]] O1]. ex E; cbn [nextB]. rewrite O. apply (OW_frame s); cbn; auto. intros _. right. easy.
    - (* ANote *) ex E; cbn [nextB]. cbn in O. destruct O as [rr O]. apply (OW_frame s); cbn; auto; try easy. now rewrite O.
    - (* AFree *) cbn in O. destruct (fa_end s R t k Ec) as [En Mx]. ex E; cbn [nextB].
      apply (OW_swap s); cbn; auto; try easy; [|destruct (bufp s); reflexivity|now rewrite O].
      intros u Hu. apply (at_att _ _ A) in Hu as [_ [Hu|[v [on [ev [Hu _]]]]]]; [congruence|].
      assert (Z : mtx s = Some v) by (apply (lk_hold _ _ L); congruence). congruence.
  Qed.
End SafeOW.
