(** The invariant behind memory safety, and its preservation. *)
From Verif Require Import Base Model.StringUtils Model.Event Model.Queue Model.Buffer Model.Config Spec.Categories Model.Registry
  Model.Interleave Spec.LogHistory Spec.LogFacts Model.TraceLog Proofs.Interleave Proofs.Registry Proofs.LogFrame Proofs.LogView Proofs.LogViewInv
  Proofs.LogContract Proofs.LogBuffers Proofs.LogSafe.

(** The chunk a thread may write. *)
Definition owned (s : st) (f : tid -> mph) (t : tid) : option (bid * N) :=
  match m_cm (f t) with Plain => t_chunk (ten s t) | Returned => None | Flight b i _ => Some (b, i) end.

(** The thread relies on the current buffer. *)
Definition attached (s : st) (f : tid -> mph) (t : tid) : Prop :=
  (m_slave (f t) = true /\ m_pin (f t) = true) \/ t_chunk (ten s t) <> None.

(** There is no buffer, or it has no chunk left. *)
Definition exhausted (s : st) : Prop :=
  match bufp s with None => True | Some b => b_kind (heap s b) = Fixed /\ (b_size (heap s b) <= b_issued (heap s b))%N end.

Record LK (s : st) (f : tid -> mph) : Prop := {
  lk_hold : forall t, m_hold (f t) <> None <-> mtx s = Some t;
  lk_on : forall t on ev, m_hold (f t) = Some (on, ev) -> enabled s = on;
  lk_slave : forall t, t_lock (ten s t) = BySlave <-> m_slave (f t) = true;
  lk_mas : forall t u, t_lock (ten s u) = ByMaster t <-> m_mas (f t) = Some u;
  lk_mash : forall t, m_mas (f t) <> None -> m_hold (f t) <> None;
  lk_sh : forall t, m_slave (f t) = true -> m_hold (f t) = None;
  lk_ini : forall t, m_ini (f t) = true -> m_slave (f t) = true /\ t_init (ten s t) = true;
  lk_pin : forall t, m_pin (f t) = true -> m_slave (f t) = true /\ m_ini (f t) = true;
  lk_gnow : forall t g, m_gnow (f t) = Some g -> m_hold (f t) <> None /\ gen s = g;
}.

Record AT (s : st) (f : tid -> mph) : Prop := {
  at_att : forall t, attached s f t -> t_init (ten s t) = true /\
    (enabled s = true \/ exists v on ev, m_hold (f v) = Some (on, ev) /\ In t ev);
  at_buf : forall b, bufp s = Some b -> b < nbuf s /\ b_owner (heap s b) = Mine;
  at_new : forall t b, m_new (f t) = Some b -> m_hold (f t) <> None /\ b < nbuf s /\ b_owner (heap s b) = Mine /\ bufp s <> Some b /\
    b_issued (heap s b) = 0%N /\ b_queue (heap s b) = [];
  at_bp : forall t x, m_bp (f t) = Some x -> bufp s = x /\ steady (f t);
  at_ck : forall t x, m_ck (f t) = Some x -> t_chunk (ten s t) = x /\ guarded (f t);
  at_ch : forall t b i, t_chunk (ten s t) = Some (b, i) -> bufp s = Some b;
}.

Ltac byt u t := destruct (Nat.eq_dec u t) as [->|?N]; [rewrite ?tset_same in *|rewrite ?tset_other in * by auto].

Ltac same := intros; cbn [set_enabled set_mtx set_gen set_bufp set_heap set_nbuf set_ten set_regd set_cfg set_names set_dereg set_reg set_sites emit set_hist
  put_ten put_buf free_buf give_buf enabled mtx gen bufp heap nbuf ten regd] in *; cbn in *.
Ltac ex E := cbn [exec] in E; unfold exec_factory, with_buf in E;
  repeat match type of E with context [match ?x with _ => _ end] => destruct x eqn:? end; try discriminate E; injection E as <- <-.

Ltac fin := eauto; try discriminate; try congruence; try solve [intuition congruence|eexists; reflexivity|split; congruence].

Section SafeInv.
  Variables cap csz : N.
  Variable site_cat : nat -> bytes.

  Record OW (s : st) (f : tid -> mph) : Prop := {
    ow_ret : forall t, m_cm (f t) = Returned -> t_chunk (ten s t) <> None /\ steady (f t);
    ow_fly : forall t b i r, m_cm (f t) = Flight b i r -> m_slave (f t) = true /\ m_pin (f t) = true /\ bufp s = Some b /\ t_chunk (ten s t) = None;
    ow_in : forall t b i, owned s f t = Some (b, i) -> (i < b_size (heap s b))%N /\ (i < b_issued (heap s b))%N /\ ~ In i (b_queue (heap s b));
    ow_uniq : forall t u x, owned s f t = Some x -> owned s f u = Some x -> t = u;
    ow_queue : forall b, bufp s = Some b -> NoDup (b_queue (heap s b)) /\
      forall i, In i (b_queue (heap s b)) -> (i < b_size (heap s b))%N /\ (i < b_issued (heap s b))%N;
    ow_label : forall t b i, owned s f t = Some (b, i) -> m_cm (f t) <> Flight b i false ->
      c_tid (b_chunk (heap s b) i) = N.of_nat t /\ (c_next (b_chunk (heap s b) i) <= cap)%N;
  }.

  Record RN (s : st) (f : tid -> mph) : Prop := {
    rn_bump : forall t, m_bump (f t) = true -> m_hold (f t) = Some (false, []) /\ forall u g, m_ran (f u) = Some g -> (g < gen s)%N;
    rn_exh : forall t, m_exh (f t) = true -> m_slave (f t) = true /\ m_pin (f t) = true /\ (enabled s = false \/ exhausted s);
    rn_ran : forall t g, m_ran (f t) = Some g -> (g <= gen s)%N /\ (gen s = g -> enabled s = true -> exhausted s);
  }.

  Lemma put_ten_same s t x : ten (put_ten s t x) t = x.
  Proof. cbn. now rewrite tset_same. Qed.
  Lemma put_ten_other s t x u : u <> t -> ten (put_ten s t x) u = ten s u.
  Proof. intros N. cbn. now rewrite tset_other. Qed.

  (** Frames: what each part depends on. *)
  Lemma LK_frame s f s' t p' : LK s f ->
    mtx s' = mtx s -> enabled s' = enabled s -> gen s' = gen s ->
    (forall u, t_lock (ten s' u) = t_lock (ten s u) /\ t_init (ten s' u) = t_init (ten s u)) ->
    (forall on ev, m_hold p' = Some (on, ev) -> exists ev', m_hold (f t) = Some (on, ev')) -> (m_hold p' = None -> m_hold (f t) = None) ->
    m_mas p' = m_mas (f t) -> m_slave p' = m_slave (f t) ->
    (m_ini p' = true -> m_slave (f t) = true /\ t_init (ten s t) = true) ->
    (m_pin p' = true -> m_slave (f t) = true /\ m_ini p' = true) ->
    (forall g, m_gnow p' = Some g -> m_hold (f t) <> None /\ gen s = g) ->
    LK s' (tset f t p').
  Proof.
    intros L E1 E2 E3 E4 H1 H1' H2 H3 H4 H5 H6.
    assert (Hh : m_hold p' <> None <-> m_hold (f t) <> None).
    { destruct (m_hold p') as [[on ev]|]; [|rewrite H1' by auto; tauto]. destruct (H1 _ _ eq_refl) as [ev' ->]. easy. }
    split.
    - intros u. rewrite E1, <- (lk_hold _ _ L). byt u t; tauto.
    - intros u on ev H. rewrite E2. byt u t; [|now apply (lk_on _ _ L) in H]. apply H1 in H as [ev' H]. now apply (lk_on _ _ L) in H.
    - intros u. rewrite (proj1 (E4 u)), (lk_slave _ _ L). byt u t; [rewrite H3|]; tauto.
    - intros v u. rewrite (proj1 (E4 u)), (lk_mas _ _ L). byt v t; [rewrite H2|]; tauto.
    - intros u. byt u t; [rewrite H2, Hh|]; apply (lk_mash _ _ L).
    - intros u. byt u t; [|apply (lk_sh _ _ L)]. rewrite H3. intros Hs. apply (lk_sh _ _ L) in Hs. destruct (m_hold p'); auto. destruct Hh as [Hh _]. destruct Hh; easy.
    - intros u. rewrite (proj2 (E4 u)). byt u t; [rewrite H3; apply H4|apply (lk_ini _ _ L)].
    - intros u. byt u t; [rewrite H3; apply H5|apply (lk_pin _ _ L)].
    - intros u g. rewrite E3. byt u t; [|apply (lk_gnow _ _ L)]. rewrite Hh. apply H6.
  Qed.

  (** Nobody relies on the buffer while a thread is between two traces. *)
  Lemma detached s f t : LK s f -> AT s f -> m_hold (f t) = Some (false, []) -> forall u, ~ attached s f u.
  Proof.
    intros L A H u At. destruct (at_att _ _ A u At) as [_ [E|[v [on [ev [Hv Iv]]]]]].
    - apply (lk_on _ _ L) in H. congruence.
    - assert (v = t).
      { assert (mtx s = Some v) by (apply (lk_hold _ _ L); congruence). assert (mtx s = Some t) by (apply (lk_hold _ _ L); congruence). congruence. }
      subst v. rewrite H in Hv. injection Hv as _ <-. easy.
  Qed.

  Lemma ten_other s u v x : u <> v -> tset (ten s) u x v = ten s v.
  Proof. intros N. now rewrite tset_other by auto. Qed.

  (** Taking the mutex. *)
  Lemma LK_take s f t p' : LK s f -> mtx s = None -> m_hold (f t) = None -> m_slave (f t) = false -> m_mas (f t) = None ->
    m_hold p' = Some (enabled s, []) -> m_slave p' = false -> m_mas p' = None -> m_ini p' = false -> m_pin p' = false -> m_gnow p' = None ->
    LK (set_mtx s (Some t)) (tset f t p').
  Proof.
    intros L M H1 H2 H3 P1 P2 P3 P4 P5 P6.
    assert (No : forall u, m_hold (f u) = None).
    { intros u. destruct (m_hold (f u)) eqn:E; auto. assert (X : mtx s = Some u) by (apply (lk_hold _ _ L); congruence). congruence. }
    split; cbn [set_mtx mtx enabled ten gen].
    - intros u. byt u t; [rewrite P1; easy|]. rewrite No. split; congruence.
    - intros u on ev. byt u t; [rewrite P1|rewrite No]; congruence.
    - intros u. rewrite (lk_slave _ _ L). byt u t; [|tauto]. now rewrite H2, P2.
    - intros v u. rewrite (lk_mas _ _ L). byt v t; [|tauto]. now rewrite H3, P3.
    - intros u. byt u t; [now rewrite P3|apply (lk_mash _ _ L)].
    - intros u. byt u t; [now rewrite P2|apply (lk_sh _ _ L)].
    - intros u. byt u t; [now rewrite P4|apply (lk_ini _ _ L)].
    - intros u. byt u t; [now rewrite P5|apply (lk_pin _ _ L)].
    - intros u g. byt u t; [now rewrite P6|apply (lk_gnow _ _ L)].
  Qed.

  (** Changing the switch, the generation or a flag under the mutex. *)
  Lemma LK_inside s f s' t p' : LK s f -> m_hold (f t) <> None -> m_slave (f t) = false ->
    mtx s' = mtx s -> (forall u, t_lock (ten s' u) = t_lock (ten s u) /\ (u <> t -> t_init (ten s' u) = t_init (ten s u))) ->
    (exists ev, m_hold p' = Some (enabled s', ev)) -> m_slave p' = false -> m_mas p' = m_mas (f t) -> m_ini p' = false -> m_pin p' = false ->
    (forall g, m_gnow p' = Some g -> gen s' = g) ->
    LK s' (tset f t p').
  Proof.
    intros L H1 H2 M T [ev0 P1] P2 P3 P4 P5 P6.
    assert (Mt : mtx s = Some t) by now apply (lk_hold _ _ L).
    assert (No : forall u, u <> t -> m_hold (f u) = None).
    { intros u N. destruct (m_hold (f u)) eqn:E; auto. assert (X : mtx s = Some u) by (apply (lk_hold _ _ L); congruence). congruence. }
    split.
    - intros u. rewrite M, Mt. byt u t; [rewrite P1; easy|]. rewrite No by auto. split; congruence.
    - intros u on ev. byt u t; [rewrite P1|rewrite No by auto]; congruence.
    - intros u. rewrite (proj1 (T u)), (lk_slave _ _ L). byt u t; [|tauto]. now rewrite H2, P2.
    - intros v u. rewrite (proj1 (T u)), (lk_mas _ _ L). byt v t; [|tauto]. now rewrite P3.
    - intros u. byt u t; [now rewrite P1|apply (lk_mash _ _ L)].
    - intros u. byt u t; [now rewrite P2|apply (lk_sh _ _ L)].
    - intros u. byt u t; [now rewrite P4|]. intros Hi. apply (lk_ini _ _ L) in Hi. rewrite (proj2 (T u)) by auto. exact Hi.
    - intros u. byt u t; [now rewrite P5|apply (lk_pin _ _ L)].
    - intros u g. byt u t; [rewrite P1; split; [easy|]; now apply P6|]. intros Hg. apply (lk_gnow _ _ L) in Hg as [Hg _]. now rewrite No in Hg by auto.
  Qed.

  Lemma no_ini s f t : LK s f -> m_slave (f t) = false -> m_ini (f t) = false /\ m_pin (f t) = false.
  Proof.
    intros L H. split.
    - destruct (m_ini (f t)) eqn:E; auto. apply (lk_ini _ _ L) in E. destruct E; congruence.
    - destruct (m_pin (f t)) eqn:E; auto. apply (lk_pin _ _ L) in E. destruct E; congruence.
  Qed.

  Lemma hold_slave s f t : LK s f -> m_hold (f t) <> None -> m_slave (f t) = false.
  Proof. intros L H. destruct (m_slave (f t)) eqn:E; auto. apply (lk_sh _ _ L) in E. congruence. Qed.

  Lemma LK_drop s f t e : LK s f -> m_hold (f t) <> None -> m_mas (f t) = None -> LK (emit (set_mtx s None) e) (tset f t idle).
  Proof.
    intros L H1 H2. pose proof (hold_slave _ _ _ L H1) as Hs.
    assert (Mt : mtx s = Some t) by now apply (lk_hold _ _ L).
    assert (No : forall u, u <> t -> m_hold (f u) = None).
    { intros u N. destruct (m_hold (f u)) eqn:E; auto. assert (X : mtx s = Some u) by (apply (lk_hold _ _ L); congruence). congruence. }
    split; cbn [emit set_hist set_mtx mtx enabled ten gen].
    - intros u. byt u t; [easy|]. rewrite No by auto. split; congruence.
    - intros u on ev. byt u t; [easy|]. rewrite No by auto. easy.
    - intros u. rewrite (lk_slave _ _ L). byt u t; [|tauto]. now rewrite Hs.
    - intros v u. rewrite (lk_mas _ _ L). byt v t; [|tauto]. now rewrite H2.
    - intros u. byt u t; [easy|apply (lk_mash _ _ L)].
    - intros u. byt u t; [easy|apply (lk_sh _ _ L)].
    - intros u. byt u t; [easy|apply (lk_ini _ _ L)].
    - intros u. byt u t; [easy|apply (lk_pin _ _ L)].
    - intros u g. byt u t; [easy|apply (lk_gnow _ _ L)].
  Qed.

  Lemma LK_tenant s f t p' v : LK s f -> m_hold (f t) = None -> m_mas (f t) = None ->
    m_hold p' = None -> m_mas p' = None -> m_ini p' = false -> m_pin p' = false -> m_gnow p' = None ->
    v = (if m_slave p' then BySlave else Free) -> (t_lock (ten s t) = Free \/ t_lock (ten s t) = BySlave) ->
    LK (put_ten s t (set_tlock (ten s t) v)) (tset f t p').
  Proof.
    intros L H1 H2 P1 P2 P3 P4 P5 -> V. split; cbn [put_ten set_ten mtx enabled ten gen].
    - intros u. rewrite <- (lk_hold _ _ L). byt u t; [|tauto]. now rewrite H1, P1.
    - intros u on ev. byt u t; [now rewrite P1|apply (lk_on _ _ L)].
    - intros u. byt u t; [|apply (lk_slave _ _ L)]. cbn. destruct (m_slave p'); easy.
    - intros w u. assert (X : forall x, t_lock (tset (ten s) t (set_tlock (ten s t) (if m_slave p' then BySlave else Free)) u) = ByMaster x <-> t_lock (ten s u) = ByMaster x).
      { intros x. byt u t; [|tauto]. cbn. destruct (m_slave p'), V as [->| ->]; easy. }
      rewrite X, (lk_mas _ _ L). byt w t; [|tauto]. now rewrite H2, P2.
    - intros u. byt u t; [now rewrite P2|apply (lk_mash _ _ L)].
    - intros u. byt u t; [now rewrite P1|apply (lk_sh _ _ L)].
    - intros u. byt u t; [now rewrite P3|apply (lk_ini _ _ L)].
    - intros u. byt u t; [now rewrite P4|apply (lk_pin _ _ L)].
    - intros u g. byt u t; [now rewrite P5|apply (lk_gnow _ _ L)].
  Qed.

  Lemma no_mas s f t : LK s f -> m_hold (f t) = None -> m_mas (f t) = None.
  Proof. intros L H. destruct (m_mas (f t)) eqn:E; auto. destruct (lk_mash _ _ L t); congruence. Qed.

  Lemma LK_master s f t u v p' : LK s f -> m_hold (f t) <> None -> v = (match m_mas p' with Some _ => ByMaster t | None => Free end) ->
    m_hold p' = m_hold (f t) -> m_slave p' = m_slave (f t) -> m_ini p' = m_ini (f t) -> m_pin p' = m_pin (f t) -> m_gnow p' = m_gnow (f t) ->
    (t_lock (ten s u) = Free /\ m_mas (f t) = None /\ m_mas p' = Some u) \/ (m_mas (f t) = Some u /\ m_mas p' = None) ->
    LK (put_ten s u (set_tlock (ten s u) v)) (tset f t p').
  Proof.
    intros L H1 -> P1 P2 P3 P4 P5 V.
    assert (Lu : t_lock (ten s u) = Free \/ t_lock (ten s u) = ByMaster t).
    { destruct V as [[-> _]|[V _]]; auto. apply (lk_mas _ _ L) in V. auto. }
    split; cbn [put_ten set_ten mtx enabled ten gen].
    - intros w. rewrite <- (lk_hold _ _ L). byt w t; [|tauto]. now rewrite P1.
    - intros w on ev. byt w t; [rewrite P1|]; apply (lk_on _ _ L).
    - intros w. assert (X : t_lock (tset (ten s) u (set_tlock (ten s u) (match m_mas p' with Some _ => ByMaster t | None => Free end)) w) = BySlave <-> t_lock (ten s w) = BySlave).
      { byt w u; [|tauto]. cbn. destruct (m_mas p'), Lu as [->| ->]; easy. }
      rewrite X, (lk_slave _ _ L). byt w t; [|tauto]. now rewrite P2.
    - intros w x. byt x u.
      + cbn. destruct V as [[V1 [V2 V3]]|[V1 V2]].
        * rewrite V3. byt w t; [rewrite V3; split; easy|]. rewrite <- (lk_mas _ _ L w), V1. split; congruence.
        * rewrite V2. byt w t; [rewrite V2; split; easy|]. rewrite <- (lk_mas _ _ L w). apply (lk_mas _ _ L) in V1. rewrite V1. split; congruence.
      + rewrite (lk_mas _ _ L). byt w t; [|tauto]. destruct V as [[V1 [V2 V3]]|[V1 V2]]; [rewrite V2, V3|rewrite V1, V2]; split; congruence.
    - intros w. byt w t; [now rewrite P1|apply (lk_mash _ _ L)].
    - intros w. byt w t; [rewrite P1, P2|]; apply (lk_sh _ _ L).
    - assert (X : forall w, t_init (tset (ten s) u (set_tlock (ten s u) (match m_mas p' with Some _ => ByMaster t | None => Free end)) w) = t_init (ten s w)).
      { intros w. byt w u; auto. }
      intros w. rewrite X. byt w t; [rewrite P2, P3|]; apply (lk_ini _ _ L).
    - intros w. byt w t; [rewrite P2, P3, P4|]; apply (lk_pin _ _ L).
    - intros w g. byt w t; [rewrite P1, P5|]; apply (lk_gnow _ _ L).
  Qed.

  Lemma exec_LK s f t ch a s' r : LK s f -> okB t (f t) a -> exec cap s t ch a = Next s' r -> LK s' (tset f t (nextB (enabled s) (regd s) (f t) a r)).
  Proof.
    intros L O E.
    assert (Id : forall u, t_lock (ten s u) = t_lock (ten s u) /\ t_init (ten s u) = t_init (ten s u)) by auto.
    assert (Own : forall u, m_hold (f t) <> None -> m_hold (f u) <> None -> u = t).
    { intros u A B. apply (lk_hold _ _ L) in A, B. congruence. }
    pose proof (lk_ini _ _ L t) as Li. pose proof (lk_pin _ _ L t) as Lp. pose proof (lk_gnow _ _ L t) as Lg.
    assert (Ck : forall u x, u = u -> forall v, t_lock (tset (ten s) u (set_tchunk (ten s u) x) v) = t_lock (ten s v) /\ t_init (tset (ten s) u (set_tchunk (ten s u) x) v) = t_init (ten s v)).
    { intros u x _ v. byt v u; auto. }
    destruct a; try solve [ex E; cbn [okB] in O; cbn [nextB];
      repeat match goal with |- context [tset _ _ (if ?x then _ else _)] => destruct x eqn:? end;
      apply (LK_frame s); auto; same; try destruct (bufp s); same; fin ].
    - (* ALdEnabled *) ex E. cbn [nextB]. destruct (enabled s) eqn:En; [destruct (m_slave (f t) && m_ini (f t)) eqn:Sl|destruct (m_pin (f t)) eqn:Sl];
        apply (LK_frame s); cbn; fin. intros _. now apply andb_true_iff in Sl.
    - (* AXchg *) destruct O as [[on O] [O1 [O2 [O3 [O4 [O5 O6]]]]]]. ex E; cbn [nextB].
      + apply (LK_inside s); cbn; fin.
      + apply (LK_frame s); cbn; fin.
    - (* AStEnabled *) destruct O as [O [O1 [O2 O3]]]. ex E. cbn [nextB]. assert (Hh : m_hold (f t) <> None) by congruence.
      apply (LK_inside s); cbn; fin. now apply (hold_slave _ _ _ L).
    - (* ALock *) ex E. apply LK_take; try apply O; auto.
    - (* ATryLock *) ex E; try (apply LK_take; try apply O; auto); cbn [nextB]; apply (LK_frame s); cbn; fin.
    - (* AUnlock *) ex E. cbn [nextB]. apply LK_drop; try apply O; auto. destruct O as [[on O] _]. congruence.
    - (* ALdGen *) ex E. cbn [nextB]. destruct (m_exh (f t)); [|destruct (m_hold (f t)) as [[]|] eqn:Hh]; apply (LK_frame s); cbn; fin.
      intros g X. apply (lk_gnow _ _ L); auto.
    - (* AIncGen *) ex E. cbn [nextB]. assert (Hh : m_hold (f t) <> None) by (destruct O; congruence).
      assert (Hs : m_slave (f t) = false) by now apply (hold_slave _ _ _ L).
      apply (LK_inside s); cbn; fin; try apply (no_ini s f); auto. exists []. destruct O as [O _]. rewrite (lk_on _ _ L _ _ _ O). exact O.
    - (* ABufGet *) ex E. cbn [nextB]. destruct (bufp s); [|destruct (m_pin (f t)) eqn:Sl]; apply (LK_frame s); cbn; fin.
    - (* ATryTenant *) ex E; cbn [nextB].
      + destruct O as [O1 O2]. apply LK_tenant; auto. now apply (no_mas s f).
      + apply (LK_frame s); cbn; fin.
    - (* AUnTenant *) ex E; cbn [nextB]. destruct O as [O1 [O2 O3]]. apply LK_tenant; auto. now apply (no_mas s f).
    - (* AMaster *) ex E; cbn [nextB]. destruct O as [[on [ev O1]] O2]. eapply LK_master; cbn; eauto; congruence.
    - (* AUnMaster *) ex E; cbn [nextB]. cbn in O. assert (Hh : m_hold (f t) <> None) by (apply (lk_mash _ _ L); congruence).
      eapply LK_master; cbn; eauto.
    - (* AEvict *) ex E; cbn [nextB]. destruct O as [[on [ev O1]] O2]. rewrite O1. apply (LK_frame s); cbn; fin. intros o' ev' X. injection X as <- <-. eauto.
    - (* AReg *) destruct O as [[on Hh] [O2 O3]]. pose proof (lk_on _ _ L _ _ _ Hh) as Ho.
      ex E; cbn [nextB]; apply (LK_inside s); cbn; fin; try apply (no_ini s f); try (intros u; byt u t; split; easy); auto;
      try rewrite Ho; eauto; try (intros g X; now apply (lk_gnow _ _ L) in X).
    - (* ASnap *) ex E; cbn [nextB]. destruct O as [[on [ev O1]] O2]. rewrite O1. apply (LK_frame s); cbn; fin. intros o' ev' X. injection X as <- <-. eauto.
    - (* ANote *) ex E; cbn [nextB]. cbn in O. destruct O as [rr O]. apply (LK_frame s); cbn; fin; rewrite ?O; cbn; fin.
  Qed.
End SafeInv.
