(** Which events end up where in a buffer. *)
From Verif Require Import Base Model.StringUtils Model.Event Model.Queue Model.Buffer Model.Config Spec.Categories Spec.History Model.Registry
  Model.Interleave Spec.LogHistory Spec.LogFacts Model.TraceLog Spec.LogMemory Spec.LogRecords Proofs.Interleave Proofs.Buffer Proofs.Registry Proofs.LogFrame Proofs.LogView Proofs.LogViewInv
  Proofs.LogContract Proofs.LogBuffers Proofs.LogSafe Proofs.LogSafeInv Proofs.LogSafeAT Proofs.LogSafeOW Proofs.LogSafeAll Proofs.LogRaces Proofs.LogHolders Proofs.LogHandover.

Arguments stored_in : simpl never.

Lemma stored_in_app h h' t b : stored_in (h ++ h') t b = stored_in h t b ++ stored_in h' t b.
Proof. unfold stored_in. apply flat_map_app. Qed.

Lemma stored_in_one u c e t b : stored_in [Stored u c e] t b = if Nat.eqb u t && Nat.eqb c b then [e] else [].
Proof. unfold stored_in. cbn. apply app_nil_r. Qed.

Definition not_stored (e : hev) : Prop := match e with Stored _ _ _ => False | _ => True end.

Lemma stored_in_skip h e t b : not_stored e -> stored_in (h ++ [e]) t b = stored_in h t b.
Proof. intros H. rewrite stored_in_app. unfold stored_in at 2. destruct e; cbn; try apply app_nil_r. easy. Qed.

Lemma upto_split n i : (i < n)%N -> exists l1 l2, upto n = l1 ++ i :: l2 /\ (forall j, In j l1 -> (j < i)%N) /\ (forall j, In j l2 -> (i < j)%N).
Proof.
  intros H. exists (upto i), (map N.of_nat (seq (S (N.to_nat i)) (N.to_nat n - S (N.to_nat i)))). split; [|split].
  - unfold upto. replace (N.to_nat n) with (N.to_nat i + S (N.to_nat n - S (N.to_nat i))) at 1 by lia.
    rewrite seq_app, map_app, Nat.add_0_l. cbn [seq map]. rewrite N2Nat.id. reflexivity.
  - intros j. rewrite upto_In. auto.
  - intros j. rewrite in_map_iff. intros [x [<- Hx]]. apply in_seq in Hx. lia.
Qed.

Section Records.
  Variables cap csz : N.
  Variable site_cat : nat -> bytes.
  Hypothesis cap_small : (cap < ushort)%N.
  Notation reached := (reached cap csz site_cat).
  Notation GB := (GB cap).
  Notation valid := (valid okB postB quietB).
  Notation pstep := (pstep cap csz site_cat).

  (** Which chunks were prepared (reset for a thread) at least once. *)
  Definition prepared := bid -> N -> bool.
  Definition note_prep (s : st) (t : tid) (a : act) : ans a -> prepared -> prepared :=
    match a return ans a -> prepared -> prepared with
    | AReset b i => fun _ h c j => (Nat.eqb c b && (j =? i)%N) || h c j
    | _ => fun _ h => h
    end.

  Definition unready (f : tid -> mph) (t : tid) : option (bid * N) :=
    match m_cm (f t) with Flight b i false => Some (b, i) | _ => None end.

  Lemma unready_owned s f t x : unready f t = Some x -> owned s f t = Some x.
  Proof. unfold unready, owned. now destruct (m_cm (f t)) as [| |b i []]. Qed.

  (** Taking and releasing chunks. *)
  Definition note_owned (s : st) (t : tid) (a : act) : ans a -> holding -> holding :=
    match a return ans a -> holding -> holding with
    | AIssue b => fun r h => match r with IGot i => tset h t (Some (b, i)) | _ => h end
    | ADeq b => fun i h => tset h t (Some (b, i))
    | AReturn b i => fun _ h => tset h t None
    | AEvict u => fun _ h => tset h u None
    | _ => fun _ h => h
    end.
  Definition note_unready (s : st) (t : tid) (a : act) : ans a -> holding -> holding :=
    match a return ans a -> holding -> holding with
    | AIssue b => fun r h => match r with IGot i => tset h t (Some (b, i)) | _ => h end
    | ADeq b => fun i h => tset h t (Some (b, i))
    | AReset b i => fun _ h => tset h t None
    | _ => fun _ h => h
    end.

  Lemma owned_next s f t ch a k s' r : reached s -> GB s f -> code s t = Act a k -> okB t (f t) a -> exec cap s t ch a = Next s' r ->
    forall u, owned s' (tset f t (nextB (enabled s) (regd s) (f t) a r)) u = note_owned s t a r (owned s f) u.
  Proof.
    intros R G Ec O E u. destruct G as [L A W I].
    assert (Id : forall s1 p, (forall v, t_chunk (ten s1 v) = t_chunk (ten s v)) -> m_cm p = m_cm (f t) -> owned s1 (tset f t p) u = owned s f u).
    { intros s1 p E1 E2. unfold owned. rewrite E1. byt u t; auto. now rewrite E2. }
    assert (Pt : forall v x, t_chunk x = t_chunk (ten s v) -> forall w, t_chunk (tset (ten s) v x w) = t_chunk (ten s w)).
    { intros v x Ex w. byt w v; auto. }
    assert (Pl : m_hold (f t) = Some (false, []) -> m_cm (f t) = Plain).
    { intros Hh. destruct (m_cm (f t)) as [| |b i r'] eqn:C; auto; exfalso; apply (detached s f t L A Hh t).
      - right. now apply (ow_ret _ _ _ W) in C.
      - left. apply (ow_fly _ _ _ W) in C. tauto. }
    destruct a; cbn [okB] in O; ex E; cbn [nextB note_owned];
      try (apply Id; [reflexivity|reflexivity]);
      try (apply Id; [reflexivity|cbn; repeat match goal with |- context [if ?b then _ else _] => destruct b end; reflexivity]);
      try (apply Id; [intros v; try destruct (bufp s); reflexivity|try reflexivity; cbn; symmetry; tauto || (apply Pl; tauto)]);
      try (apply Id; [cbn; apply Pt; reflexivity|try reflexivity; cbn; symmetry; tauto]);
      try (unfold owned; byt u t; reflexivity).
    - unfold owned. byt u t; auto. cbn. now rewrite O.
    - unfold owned. cbn [put_ten set_ten ten]. byt u t; auto. cbn. destruct O as [_ O]. destruct o as [[b i]|].
      + now rewrite O.
      + destruct O as [->|[-> O]]; auto. apply (at_ck _ _ A) in O. symmetry. apply O.
    - assert (Hm : m_cm (f u0) = Plain).
      { destruct O as [[on [ev O1]] [O2 [O3 [O4 _]]]]. destruct (Nat.eq_dec u0 t) as [->|N]; auto.
        assert (Hs : m_slave (f u0) = false).
        { destruct (m_slave (f u0)) eqn:Hs; auto. apply (lk_slave _ _ L) in Hs. apply (lk_mas _ _ L) in O2. congruence. }
        assert (Ho : m_hold (f u0) = None).
        { destruct (m_hold (f u0)) eqn:Ho; auto. destruct N. assert (X : mtx s = Some u0) by (apply (lk_hold _ _ L); congruence).
          assert (Y : mtx s = Some t) by (apply (lk_hold _ _ L); congruence). congruence. }
        destruct (m_cm (f u0)) as [| |b i r'] eqn:C; auto; exfalso.
        - apply (ow_ret _ _ _ W) in C as [_ [C|C]]; [|easy]. destruct C. congruence.
        - apply (ow_fly _ _ _ W) in C as [C _]. congruence. }
      destruct O as [[on [ev O1]] _]. rewrite O1. unfold owned. cbn [put_ten set_ten ten].
      assert (Hm' : forall v, m_cm (tset f t (p_hold (Some (on, del u0 ev)) (f t)) v) = m_cm (f v)) by (intros v; byt v t; auto).
      rewrite Hm'. byt u u0; [now rewrite Hm|reflexivity].
    - apply Id; auto. destruct (m_hold (f t)) as [[]|]; reflexivity.
    - apply Id; auto. destruct O as [r ->]. reflexivity.
  Qed.

  Lemma unready_next s f t ch a k s' r : reached s -> GB s f -> code s t = Act a k -> okB t (f t) a -> exec cap s t ch a = Next s' r ->
    forall u, unready (tset f t (nextB (enabled s) (regd s) (f t) a r)) u = note_unready s t a r (unready f) u.
  Proof.
    intros R G Ec O E u. destruct G as [L A W I].
    assert (Id : forall p, m_cm p = m_cm (f t) -> unready (tset f t p) u = unready f u).
    { intros p E2. unfold unready. byt u t; auto. now rewrite E2. }
    assert (Pl : m_hold (f t) = Some (false, []) -> m_cm (f t) = Plain).
    { intros Hh. destruct (m_cm (f t)) as [| |b i r'] eqn:C; auto; exfalso; apply (detached s f t L A Hh t).
      - right. now apply (ow_ret _ _ _ W) in C.
      - left. apply (ow_fly _ _ _ W) in C. tauto. }
    destruct a; cbn [okB] in O; ex E; cbn [nextB note_unready];
      try (apply Id; reflexivity);
      try (apply Id; cbn; repeat match goal with |- context [if ?b then _ else _] => destruct b end; reflexivity);
      try (apply Id; try reflexivity; cbn; symmetry; tauto || (apply Pl; tauto));
      try (unfold unready; byt u t; reflexivity).
    - unfold unready. byt u t; auto. cbn. destruct O as [_ [_ ->]]. reflexivity.
    - unfold unready. byt u t; auto. cbn. destruct O as [_ [_ ->]]. reflexivity.
    - unfold unready. byt u t; auto. cbn. destruct O as [_ O]. destruct o as [[b i]|].
      + now rewrite O.
      + now destruct O as [->|[-> O]].
    - apply Id. destruct (m_hold (f t)) as [[]|]; reflexivity.
    - apply Id. destruct (m_hold (f t)) as [[]|]; reflexivity.
    - apply Id. destruct O as [r ->]. reflexivity.
  Qed.

  (** The part of a chunk that counts for a thread. *)
  Definition part (p : N -> bool) (c : N -> chunk) (t : tid) (i : N) : list event :=
    if p i && (c_tid (c i) =? N.of_nat t)%N then chunk_events (c i) else [].

  Record RC (s : st) (f : tid -> mph) (h : prepared) : Prop := {
    rc_in : forall b i, h b i = true -> (i < b_issued (heap s b))%N /\ (i < b_size (heap s b))%N;
    rc_all : forall b i, (i < b_issued (heap s b))%N -> (i < b_size (heap s b))%N -> h b i = true \/ exists t, unready f t = Some (b, i);
    rc_new : forall t b i, b_kind (heap s b) = Fixed -> unready f t = Some (b, i) -> h b i = false;
    rc_parts : forall b t, b_kind (heap s b) = Fixed -> flat_map (part (h b) (b_chunk (heap s b)) t) (upto (b_size (heap s b))) = stored_in (hist s) t b;
    rc_last : forall t b i j, b_kind (heap s b) = Fixed -> owned s f t = Some (b, i) -> (i < j)%N -> h b j = true -> c_tid (b_chunk (heap s b) j) <> N.of_nat t;
    rc_fresh : forall b, nbuf s <= b -> b_issued (heap s b) = 0%N /\ forall t, stored_in (hist s) t b = [];
    rc_queue : forall b, b_kind (heap s b) = Fixed -> b_queue (heap s b) = [];
    rc_own : forall t b i, owned s f t = Some (b, i) -> unready f t = None -> h b i = true;
    rc_run : forall b i, h b i = true -> exists t pre post, c_tid (b_chunk (heap s b) i) = N.of_nat t /\
      stored_in (hist s) t b = pre ++ chunk_events (b_chunk (heap s b) i) ++ post /\
      (owned s f t = Some (b, i) -> unready f t = None -> post = []);
  }.

  Local Ltac sh Eh b := let Z1 := fresh "Fz" in let Z2 := fresh "Fz" in let Z3 := fresh "Fz" in let Z4 := fresh "Fz" in let Z5 := fresh "Fz" in
    destruct (Eh b) as (Z1 & Z2 & Z3 & Z4 & Z5); rewrite ?Z1, ?Z2, ?Z3.

  Definition kept (s s' : st) : Prop := forall b,
    b_kind (heap s' b) = b_kind (heap s b) /\ b_size (heap s' b) = b_size (heap s b) /\ b_chunk (heap s' b) = b_chunk (heap s b) /\
    (b_kind (heap s b) = Fixed -> b_queue (heap s b) = [] -> b_queue (heap s' b) = []) /\
    (b_issued (heap s' b) = b_issued (heap s b) \/ ((b < nbuf s)%nat /\ b_size (heap s b) <= b_issued (heap s b) /\ b_size (heap s b) <= b_issued (heap s' b))%N).

  (** What does not concern the contents of buffers. *)
  Lemma RC_quiet s f s' f' h : RC s f h -> kept s s' ->
    nbuf s' = nbuf s -> (forall t b, stored_in (hist s') t b = stored_in (hist s) t b) ->
    (forall u x, owned s' f' u = Some x -> owned s f u = Some x) -> (forall u, unready f' u = unready f u) -> RC s' f' h.
  Proof.
    intros [H1 H2 H3 H4 H5 H6 H7 H8 H9] Eh En Es Eo Eu. split.
    - intros b i X. apply H1 in X as [X Y]. sh Eh b. destruct Fz3 as [->|Fz3]; auto. split; auto. lia.
    - intros b i. sh Eh b. intros X Y. destruct (H2 b i) as [Z|[t Z]]; auto; [destruct Fz3 as [<-|Fz3]; auto; lia|]. right. exists t. now rewrite Eu.
    - intros t b i. sh Eh b. rewrite Eu. eauto.
    - intros b t. sh Eh b. rewrite Es. auto.
    - intros t b i j. sh Eh b. intros K X. apply Eo in X. eauto.
    - intros b X. rewrite En in X. destruct (H6 b X) as [Y Z]. split; [|intros t; rewrite Es; auto]. sh Eh b. destruct Fz3 as [->|Fz3]; auto. lia.
    - intros b. sh Eh b. auto.
    - intros t b i. rewrite Eu. intros X. apply Eo in X. eauto.
    - intros b i X. sh Eh b. destruct (H9 b i X) as (t & pre & post & Y1 & Y2 & Y3).
      exists t, pre, post. rewrite Es, Eu. repeat split; auto.
  Qed.

  (** A chunk is taken. *)
  Lemma RC_take s f s' f' h t b i : RC s f h -> b < nbuf s ->
    (forall c, b_kind (heap s' c) = b_kind (heap s c) /\ b_size (heap s' c) = b_size (heap s c) /\ b_chunk (heap s' c) = b_chunk (heap s c) /\
      (b_kind (heap s c) = Fixed -> b_queue (heap s c) = [] -> b_queue (heap s' c) = []) /\
      (b_issued (heap s' c) = b_issued (heap s c) \/ (c = b /\ i = b_issued (heap s b) /\ b_issued (heap s' b) = b_issued (heap s b) + 1)%N)) ->
    (b_kind (heap s b) = Fixed -> i = b_issued (heap s b)) ->
    nbuf s' = nbuf s -> hist s' = hist s -> unready f t = None ->
    (forall u, owned s' f' u = tset (owned s f) t (Some (b, i)) u) -> (forall u, unready f' u = tset (unready f) t (Some (b, i)) u) -> RC s' f' h.
  Proof.
    intros [H1 H2 H3 H4 H5 H6 H7 H8 H9] Hb Eh Ei En Es Ut Eo Eu. split.
    - intros c j X. apply H1 in X as [X Y]. sh Eh c. destruct Fz3 as [->|[-> [_ Fz3]]]; split; auto. lia.
    - intros c j. sh Eh c. intros X Y. destruct Fz3 as [Fz3|[-> [F1 F2]]].
      + rewrite Fz3 in X. destruct (H2 c j X Y) as [Z|[u Z]]; auto. right. exists u. rewrite Eu. byt u t; auto. congruence.
      + destruct (N.eq_dec j i) as [->|Nj]; [right; exists t; now rewrite Eu, tset_same|].
        destruct (H2 b j) as [Z|[u Z]]; auto; [lia|]. right. exists u. rewrite Eu. byt u t; auto. congruence.
    - intros u c j. sh Eh c. rewrite Eu. byt u t; eauto. intros K X. injection X as -> ->. rewrite Ei by auto.
      destruct (h c (b_issued (heap s c))) eqn:Hh; auto. apply H1 in Hh. lia.
    - intros c u. sh Eh c. rewrite Es. auto.
    - intros u c j l. sh Eh c. rewrite Eo. byt u t; eauto. intros K X Lj Hl. injection X as -> ->. rewrite Ei in Lj by auto. apply H1 in Hl. lia.
    - intros c X. rewrite En in X. destruct (H6 c X) as [Y Z]. rewrite Es. split; auto. sh Eh c. destruct Fz3 as [->|[-> _]]; auto. lia.
    - intros c. sh Eh c. auto.
    - intros u c j. rewrite Eu, Eo. byt u t; eauto. discriminate.
    - intros c j X. sh Eh c. destruct (H9 c j X) as (u & pre & post & Y1 & Y2 & Y3).
      exists u, pre, post. rewrite Es, Eu, Eo. repeat split; auto. byt u t; auto. discriminate.
  Qed.

  (** A new buffer. *)
  Lemma RC_made s f s' f' h kd g n mem : RC s f h -> heap s' = tset (heap s) (nbuf s) (buf_new kd g n mem) -> nbuf s' = S (nbuf s) ->
    (forall t b, stored_in (hist s') t b = stored_in (hist s) t b) -> (forall u b i, owned s f u = Some (b, i) -> b < nbuf s) ->
    (forall u, owned s' f' u = owned s f u) -> (forall u, unready f' u = unready f u) -> RC s' f' h.
  Proof.
    intros [H1 H2 H3 H4 H5 H6 H7 H8 H9] Eh En Es Ob Eo Eu.
    assert (Hn : forall i, h (nbuf s) i = false).
    { intros i. destruct (h (nbuf s) i) eqn:X; auto. apply H1 in X. destruct (H6 (nbuf s)) as [Y _]; lia. }
    assert (Un : forall u i, unready f u <> Some (nbuf s, i)) by (intros u i X; apply (unready_owned s) in X; apply Ob in X; lia).
    split; rewrite ?Eh.
    - intros b i. byt b (nbuf s); auto. now rewrite Hn.
    - intros b i. byt b (nbuf s); cbn; [lia|]. intros X Y. destruct (H2 b i X Y) as [Z|[u Z]]; auto. right. exists u. now rewrite Eu.
    - intros u b i. rewrite Eu. byt b (nbuf s); eauto.
    - intros b u. byt b (nbuf s); [|rewrite Es; auto]. intros _. cbn. rewrite Es. destruct (H6 (nbuf s)) as [_ ->]; auto.
      induction (upto n) as [|x l IH]; auto. cbn. rewrite IH. unfold part. now rewrite Hn.
    - intros u b i j. rewrite Eo. byt b (nbuf s); [now rewrite Hn|eauto].
    - intros b X. rewrite En in X. byt b (nbuf s); [lia|]. destruct (H6 b) as [Y Z]; [lia|]. split; auto. intros u. now rewrite Es.
    - intros b. byt b (nbuf s); auto.
    - intros u b i. rewrite Eu, Eo. eauto.
    - intros b i X. byt b (nbuf s); [now rewrite Hn in X|]. destruct (H9 b i X) as (u & pre & post & Y1 & Y2 & Y3).
      exists u, pre, post. rewrite Es, Eu, Eo. auto.
  Qed.

  Lemma flat_map_ext_in {A B} (g g' : A -> list B) l : (forall x, In x l -> g x = g' x) -> flat_map g l = flat_map g' l.
  Proof. intros H. induction l as [|x l IH]; auto. cbn. rewrite H by (now left). rewrite IH; auto. intros y Hy. apply H. now right. Qed.

  (** A chunk is prepared. *)
  Lemma RC_reset s f s' f' h t b i : RC s f h -> heap s' = tset (heap s) b (set_bchunk (heap s b) (upd (b_chunk (heap s b)) i (chunk_reset (b_chunk (heap s b) i) (N.of_nat t)))) ->
    nbuf s' = nbuf s -> hist s' = hist s -> unready f t = Some (b, i) -> (i < b_size (heap s b))%N -> (i < b_issued (heap s b))%N ->
    (forall u x, owned s f u = Some x -> owned s f t = Some x -> u = t) ->
    (forall u, owned s' f' u = owned s f u) -> (forall u, unready f' u = tset (unready f) t None u) ->
    RC s' f' (fun c j => (Nat.eqb c b && (j =? i)%N) || h c j).
  Proof.
    intros [H1 H2 H3 H4 H5 H6 H7 H8 H9] Eh En Es Ut Hs Hi Uq Eo Eu.
    assert (Ot : owned s f t = Some (b, i)) by (now apply unready_owned).
    split; rewrite ?Eh.
    - intros c j. byt c b; cbn.
      + rewrite Nat.eqb_refl. destruct (N.eqb_spec j i) as [->|]; cbn; auto.
      + rewrite (proj2 (Nat.eqb_neq c b)) by auto. cbn. auto.
    - intros c j. byt c b; cbn.
      + rewrite Nat.eqb_refl. destruct (N.eqb_spec j i) as [->|Nj]; cbn; auto. intros X Y. destruct (H2 b j X Y) as [Z|[u Z]]; auto.
        right. exists u. rewrite Eu. byt u t; auto. congruence.
      + rewrite (proj2 (Nat.eqb_neq c b)) by auto. cbn. intros X Y. destruct (H2 c j X Y) as [Z|[u Z]]; auto.
        right. exists u. rewrite Eu. byt u t; auto. congruence.
    - intros u c j K. rewrite Eu. byt u t; [discriminate|]. intros X. assert (Kc : b_kind (heap s c) = Fixed) by (byt c b; auto).
      destruct (Nat.eqb_spec c b) as [->|]; cbn; [|eauto]. destruct (N.eqb_spec j i) as [->|]; cbn; [|eauto]. destruct N. apply (Uq u (b, i)); auto. now apply unready_owned.
    - intros c u. byt c b; cbn; intros K; rewrite Es, <- H4 by auto; apply flat_map_ext_in; intros j Hj; unfold part, upd.
      + rewrite Nat.eqb_refl. destruct (N.eqb_spec j i) as [->|Nj]; [|rewrite ?N.eqb_refl; cbn; auto]. cbn. rewrite (H3 t) by auto.
        now destruct (N.of_nat t =? N.of_nat u)%N.
      + rewrite (proj2 (Nat.eqb_neq c b)) by auto. reflexivity.
    - intros u c j l. rewrite Eo. byt c b; cbn; intros K X Lj.
      + rewrite Nat.eqb_refl. unfold upd. destruct (N.eqb_spec l i) as [->|Nl]; cbn; [|eauto]. intros _ Y. apply Nat2N.inj in Y. subst u.
        rewrite Ot in X. injection X as <-. lia.
      + rewrite (proj2 (Nat.eqb_neq c b)) by auto. cbn. eauto.
    - intros c X. rewrite En in X. destruct (H6 c X) as [Y Z]. rewrite Es. split; auto. byt c b; auto.
    - intros c. byt c b; cbn; auto.
    - intros u c j. rewrite Eu, Eo. byt u t.
      + intros X _. rewrite Ot in X. injection X as <- <-. now rewrite Nat.eqb_refl, N.eqb_refl.
      + intros X Y. rewrite (H8 u c j); auto. apply orb_true_r.
    - intros c j X. rewrite Es. assert (D : (c = b /\ j = i) \/ (h c j = true /\ (c <> b \/ j <> i))).
      { destruct (Nat.eqb_spec c b), (N.eqb_spec j i); cbn in X; auto. }
      destruct D as [[-> ->]|[D Dn]].
      + exists t, (stored_in (hist s) t b), []. rewrite tset_same. cbn [set_bchunk b_chunk]. unfold upd. rewrite N.eqb_refl, chunk_events_reset, app_nil_r. auto.
      + assert (Ch : b_chunk (tset (heap s) b (set_bchunk (heap s b) (upd (b_chunk (heap s b)) i (chunk_reset (b_chunk (heap s b) i) (N.of_nat t)))) c) j = b_chunk (heap s c) j).
        { byt c b; auto. cbn. unfold upd. destruct (N.eqb_spec j i); auto. tauto. }
        rewrite Ch. destruct (H9 c j D) as (u & pre & post & Y1 & Y2 & Y3). exists u, pre, post. rewrite Eu, Eo. repeat split; auto.
        byt u t; auto. rewrite Ot. intros Z. injection Z as -> ->. tauto.
  Qed.

  (** An event is stored. *)
  Lemma RC_store s f s' f' h t b i c e : RC s f h -> heap s' = tset (heap s) b (set_bchunk (heap s b) (upd (b_chunk (heap s b)) i c)) ->
    nbuf s' = nbuf s -> hist s' = hist s ++ [Stored t b e] -> owned s f t = Some (b, i) -> unready f t = None -> b < nbuf s -> (i < b_size (heap s b))%N ->
    c_tid (b_chunk (heap s b) i) = N.of_nat t -> c_tid c = N.of_nat t -> chunk_events c = chunk_events (b_chunk (heap s b) i) ++ [e] ->
    (forall u, owned s' f' u = owned s f u) -> (forall u, unready f' u = unready f u) -> RC s' f' h.
  Proof.
    intros [H1 H2 H3 H4 H5 H6 H7 H8 H9] Eh En Es Ot Ut Hb Hs Ht Hc He Eo Eu.
    pose proof (H8 t b i Ot Ut) as Hp.
    assert (Lb : forall d j, c_tid (b_chunk (tset (heap s) b (set_bchunk (heap s b) (upd (b_chunk (heap s b)) i c)) d) j) = c_tid (b_chunk (heap s d) j)).
    { intros d j. byt d b; auto. cbn. unfold upd. destruct (N.eqb_spec j i) as [->|]; congruence. }
    assert (So : forall u d, (u <> t \/ d <> b) -> stored_in (hist s') u d = stored_in (hist s) u d).
    { intros u d D. rewrite Es, stored_in_app, stored_in_one. destruct (Nat.eqb_spec t u), (Nat.eqb_spec b d); cbn; rewrite ?app_nil_r; auto. destruct D; congruence. }
    assert (Sm : stored_in (hist s') t b = stored_in (hist s) t b ++ [e]).
    { rewrite Es, stored_in_app, stored_in_one, !Nat.eqb_refl. reflexivity. }
    split; rewrite ?Eh.
    - intros d j. byt d b; cbn; auto.
    - intros d j X Y. destruct (H2 d j) as [Z|[u Z]]; auto; try (byt d b; auto; fail). right. exists u. now rewrite Eu.
    - intros u d j K. rewrite Eu. apply H3. byt d b; auto.
    - intros d u K. assert (Kd : b_kind (heap s d) = Fixed) by (byt d b; auto).
      destruct (Nat.eq_dec d b) as [->|Nd]; [|rewrite tset_other, So by auto; auto].
      rewrite tset_same. cbn [set_bchunk b_size b_chunk]. destruct (Nat.eq_dec u t) as [->|Nu].
      + rewrite Sm, <- H4 by auto. destruct (upto_split _ _ Hs) as (l1 & l2 & -> & L1 & L2). rewrite !flat_map_app. cbn [flat_map].
        assert (P2 : forall q, (forall j, j <> i -> q j = b_chunk (heap s b) j) -> flat_map (part (h b) q t) l2 = []).
        { intros q Q. clear - L2 H5 Ot Kd Q. induction l2 as [|j l IH]; auto. cbn. rewrite IH by (intros x Hx; apply L2; now right).
          rewrite app_nil_r. unfold part. rewrite Q by (specialize (L2 j (or_introl eq_refl)); lia).
          destruct (h b j) eqn:Hj; auto. cbn. destruct (N.eqb_spec (c_tid (b_chunk (heap s b) j)) (N.of_nat t)) as [X|]; auto.
          exfalso. apply (H5 t b i j); auto. apply L2. now left. }
        rewrite !P2; auto; [|intros j Nj; unfold upd; destruct (N.eqb_spec j i); congruence].
        rewrite !app_nil_r, <- app_assoc. f_equal.
        * apply flat_map_ext_in. intros j Hj. apply L1 in Hj. unfold part, upd. destruct (N.eqb_spec j i); [lia|reflexivity].
        * unfold part, upd. rewrite N.eqb_refl, Hp, Ht, Hc, N.eqb_refl. cbn. exact He.
      + rewrite So, <- H4 by auto. apply flat_map_ext_in. intros j Hj. unfold part, upd. destruct (N.eqb_spec j i) as [->|]; auto.
        rewrite Ht, Hc. destruct (N.eqb_spec (N.of_nat t) (N.of_nat u)) as [X|]; [apply Nat2N.inj in X; congruence|]. now rewrite !andb_false_r.
    - intros u d j l K. rewrite Eo, Lb. apply H5. byt d b; auto.
    - intros d X. rewrite En in X. destruct (H6 d X) as [Y Z]. split; [byt d b; cbn; auto|]. intros u. rewrite So; auto. right. intros ->. lia.
    - intros d. byt d b; cbn; auto.
    - intros u d j. rewrite Eu, Eo. eauto.
    - intros d j X. destruct (H9 d j X) as (u & pre & post & Y1 & Y2 & Y3). rewrite Lb. exists u. destruct (Nat.eq_dec d b) as [->|Nd].
      + rewrite tset_same. cbn [set_bchunk b_chunk]. unfold upd. destruct (N.eqb_spec j i) as [->|Nj].
        * assert (u = t) by (apply Nat2N.inj; congruence). subst u. exists pre, []. rewrite (Y3 Ot Ut) in Y2. rewrite app_nil_r in *. rewrite Sm, He, Y2, app_assoc. auto.
        * destruct (Nat.eq_dec u t) as [->|Nu].
          -- exists pre, (post ++ [e]). rewrite Sm, Y2, !app_assoc. repeat split; auto. rewrite Eo, Ot. congruence.
          -- exists pre, post. rewrite So, Eo, Eu by auto. auto.
      + rewrite tset_other by auto. exists pre, post. rewrite So, Eo, Eu by auto. auto.
  Qed.

  Lemma RC_exec s f h t ch a k s' r : reached s -> GB s f -> code s t = Act a k -> okB t (f t) a -> exec cap s t ch a = Next s' r ->
    RC s f h -> RC s' (tset f t (nextB (enabled s) (regd s) (f t) a r)) (note_prep s t a r h).
  Proof.
    intros R G Ec O E J. destruct (allowed _ _ _ s t a k R Ec) as [g [Ga Oa]].
    pose proof (owned_next s f t ch a k s' r R G Ec O E) as On. pose proof (unready_next s f t ch a k s' r R G Ec O E) as Un.
    set (f' := tset f t (nextB (enabled s) (regd s) (f t) a r)) in *. clearbody f'.
    assert (Fr : forall o, kept s (free_buf s o)).
    { intros [c|] b; cbn; [byt b c|]; cbn; repeat split; auto. }
    assert (Gv : forall o, kept s (give_buf s o)).
    { intros [c|] b; cbn; [byt b c|]; cbn; repeat split; auto. }
    assert (Kp : forall b x, b_kind x = b_kind (heap s b) -> b_size x = b_size (heap s b) -> b_chunk x = b_chunk (heap s b) ->
      (b_kind (heap s b) = Fixed -> b_queue (heap s b) = [] -> b_queue x = []) ->
      (b_issued x = b_issued (heap s b) \/ ((b < nbuf s)%nat /\ b_size (heap s b) <= b_issued (heap s b) /\ b_size (heap s b) <= b_issued x)%N) -> kept s (put_buf s b x)).
    { intros b x X1 X2 X3 X4 X5 c. cbn. byt c b; auto. repeat split; auto. }
    assert (Ks : kept s s) by (intros b; repeat split; auto).
    pose proof (gb_at _ _ _ G) as A. pose proof (gb_ow _ _ _ G) as W.
    assert (Ob : forall u b i, owned s f u = Some (b, i) -> b < nbuf s).
    { intros u b i X. apply (owned_buf cap s f u b i A W) in X. now apply (at_buf _ _ A). }
    destruct a; cbn [okB] in O; ex E; cbn [note_prep note_owned note_unready] in *;
      try (apply (RC_quiet s f); [exact J|first [exact Ks|exact (Fr _)|exact (Gv _)]|first [reflexivity|destruct (bufp s); reflexivity]|
             first [reflexivity|intros; cbn; destruct (bufp s); first [reflexivity|apply stored_in_skip; exact I]|intros; cbn; apply stored_in_skip; exact I]|
             intros zu zx Hv; rewrite On in Hv; first [exact Hv|unfold tset in Hv; destruct (Nat.eqb _ _); [discriminate|exact Hv]]|exact Un]; fail).
    - (* AUnlock *) assert (Ns : not_stored e).
      { cbn in Oa. unfold insec in Oa. destruct (a_sec (g t)) as [[p q]|]; [|easy]. destruct Oa as [_ [Hi _]]. now destruct e. }
      apply (RC_quiet s f); auto; [intros; cbn; now apply stored_in_skip|intros zu zx Hv; now rewrite On in Hv].
    - apply (RC_made s f _ _ _ Fixed g0 n0 mem); auto. intros. cbn. now apply stored_in_skip.
    - apply (RC_made s f _ _ _ Fixed g0 n0 mem); auto. intros. cbn. now apply stored_in_skip.
    - apply (RC_made s f _ _ _ Ring g0 n0 mem); auto. intros. cbn. now apply stored_in_skip.
    - apply (RC_made s f _ _ _ Ring g0 n0 mem); auto. intros. cbn. now apply stored_in_skip.
    - (* AIssue IGot *) destruct O as (_ & _ & O1 & O2 & _). apply (at_bp _ _ A) in O1 as [O1 _]. apply (at_buf _ _ A) in O1 as [O1 _].
      apply (RC_take s f _ _ _ t b (b_issued (heap s b))); auto.
      + intros c. cbn. byt c b; cbn; repeat split; auto.
      + unfold unready. now rewrite O2.
    - (* IFull *) destruct O as (_ & _ & O1 & _). apply (at_bp _ _ A) in O1 as [O1 _]. apply (at_buf _ _ A) in O1 as [O1 _].
      match goal with Q : (_ <? _)%N = false |- _ => apply N.ltb_ge in Q end. apply (RC_quiet s f); auto; [apply Kp; auto; right; cbn; repeat split; auto; lia|intros zu zx Hv; now rewrite On in Hv].
    - (* IWait *) destruct O as (_ & _ & O1 & _). apply (at_bp _ _ A) in O1 as [O1 _]. apply (at_buf _ _ A) in O1 as [O1 _].
      match goal with Q : (_ <? _)%N = false |- _ => apply N.ltb_ge in Q end. apply (RC_quiet s f); auto; [apply Kp; auto; right; cbn; repeat split; auto; lia|intros zu zx Hv; now rewrite On in Hv].
    - (* ADeq *) destruct O as (_ & _ & O1 & O2 & _). apply (at_bp _ _ A) in O1 as [O1 _]. apply (at_buf _ _ A) in O1 as [O1 _].
      assert (Nf : b_kind (heap s b) <> Fixed) by (intros X; apply (rc_queue _ _ _ J) in X; congruence).
      apply (RC_take s f _ _ _ t b n); auto; try easy.
      + intros c. cbn. byt c b; cbn; repeat split; auto. easy.
      + unfold unready. now rewrite O2.
    - (* AReset *) assert (Ut : unready f t = Some (b, i)) by (unfold unready; now rewrite O).
      pose proof (unready_owned s f t _ Ut) as Ot. destruct (ow_in _ _ _ W _ _ _ Ot) as [X1 [X2 _]].
      apply (RC_reset s f _ _ _ t b i); auto. intros u x Y1 Y2. apply (ow_uniq _ _ _ W _ _ x); auto.
    - apply (RC_quiet s f); auto. intros zu zx Hv. now rewrite On in Hv.
    - apply (RC_quiet s f); auto. intros zu zx Hv. now rewrite On in Hv.
    - apply (RC_quiet s f); auto; [apply Kp; auto; congruence|intros zu zx Hv; rewrite On in Hv; unfold tset in Hv; destruct (Nat.eqb _ _); [discriminate|exact Hv]].
    - (* AStore *) destruct O as [O1 O2].
      match goal with Q : chunk_add _ _ _ = Ok _ |- _ => rename Q into Hq end.
      assert (Ot : owned s f t = Some (b, i)) by (unfold owned; rewrite O2; now apply (at_ck _ _ A)).
      assert (Ut : unready f t = None) by (unfold unready; now rewrite O2).
      destruct (ow_label _ _ _ W _ _ _ Ot) as [L1 L2]; [congruence|].
      assert (Ln : (c_next (b_chunk (heap s b) i) < cap)%N).
      { destruct (N.eq_dec (c_next (b_chunk (heap s b) i)) cap) as [X|X]; [|lia]. now rewrite (chunk_add_full _ _ _ X) in Hq. }
      destruct (Proofs.Buffer.chunk_add_ok cap (b_chunk (heap s b) i) e cap_small Ln) as (c' & C1 & C2 & C3 & C4). assert (a = c') by congruence. subst c'.
      apply (RC_store s f _ _ _ t b i a e); auto; try congruence; try (now apply Ob in Ot). now apply (ow_in _ _ _ W) in Ot.
    - (* AEmit *) assert (Ns : not_stored e).
      { cbn in Oa. unfold insec in Oa. destruct (a_sec (g t)) as [[p q]|]; [|easy]. destruct Oa as [_ [[o [-> _]]|[z [r [-> _]]]]]; exact I. }
      apply (RC_quiet s f); auto; [intros; cbn; now apply stored_in_skip|intros zu zx Hv; now rewrite On in Hv].
    - (* ANote *) destruct Oa as [o [r [-> Ho]]].
      apply (RC_quiet s f); auto; [intros; cbn; now apply stored_in_skip|intros zu zx Hv; now rewrite On in Hv].
  Qed.

  Theorem recorded sched : exists f h, GB (run pstep log_new sched) f /\ RC (run pstep log_new sched) f h.
  Proof.
    destruct (ghost_inv cap csz site_cat note_prep (fun _ _ => false) RC) with (sched := sched) as [f [G [_ J]]].
    - split; try discriminate; cbn; auto; intros; try lia.
    - intros s f s' f' h J Ef _ _ _ _ E5 E6 E7 Eh. apply (RC_quiet s f); auto.
      + intros b. rewrite E5. repeat split; auto.
      + destruct Eh as [->|[t [o ->]]]; auto. intros. now apply stored_in_skip.
      + intros u x. unfold owned. now rewrite E7, Ef.
      + intros u. unfold unready. now rewrite Ef.
    - intros s f h t ch a k s' r R G Ec O E J. eapply RC_exec; eauto.
    - eauto.
  Qed.

  (** The chunks of a buffer that was handed over. *)
  Lemma given_chunks s b : reached s -> given s b -> exists f h, RC s f h /\ forall i, h b i = true <-> (i < N.min (b_issued (heap s b)) (b_size (heap s b)))%N.
  Proof.
    intros [sched ->] [Hb Hg]. destruct (recorded sched) as (f & h & G & J). set (s := run pstep log_new sched) in *. exists f, h. split; auto.
    intros i. split.
    - intros X. apply (rc_in _ _ _ J) in X. lia.
    - intros X. destruct (rc_all _ _ _ J b i) as [Y|[t Y]]; auto; try lia. exfalso.
      unfold unready in Y. destruct (m_cm (f t)) as [| |c j []] eqn:C; try discriminate. injection Y as -> ->.
      apply (ow_fly _ _ _ (gb_ow _ _ _ G)) in C as (_ & _ & C & _). apply (at_buf _ _ (gb_at _ _ _ G)) in C. destruct C. congruence.
  Qed.

  Lemma upto_le m n : (m <= n)%N -> exists l, upto n = upto m ++ l /\ forall j, In j l -> (m <= j)%N.
  Proof.
    intros H. exists (map N.of_nat (seq (N.to_nat m) (N.to_nat n - N.to_nat m))). split.
    - unfold upto. replace (N.to_nat n) with (N.to_nat m + (N.to_nat n - N.to_nat m)) at 1 by lia. now rewrite seq_app, map_app, Nat.add_0_l.
    - intros j. rewrite in_map_iff. intros [x [<- Hx]]. apply in_seq in Hx. lia.
  Qed.

  (** All that iteration over a buffer yields. *)
  Definition contents (v : Buffer.view) : list (event * N) :=
    flat_map (fun k => map (fun e => (e, c_tid (v_chunk v k))) (chunk_events (v_chunk v k))) (upto (v_count v)).

  Lemma labelled_app t l l' : labelled t (l ++ l') = labelled t l ++ labelled t l'.
  Proof. unfold labelled. now rewrite filter_app, map_app. Qed.

  Lemma labelled_one t x l : labelled t (map (fun e => (e, x)) l) = if (x =? N.of_nat t)%N then l else [].
  Proof.
    unfold labelled. induction l as [|e l IH]; cbn; [now destruct (x =? N.of_nat t)%N|]. destruct (x =? N.of_nat t)%N; cbn; auto. f_equal. exact IH.
  Qed.

  Lemma flat_map_nil {A B} (g : A -> list B) l : (forall x, In x l -> g x = []) -> flat_map g l = [].
  Proof. intros H. induction l as [|x l IH]; auto. cbn. rewrite H by (now left). apply IH. intros y Hy. apply H. now right. Qed.

  Lemma labelled_flat {A} t (g : A -> list (event * N)) l : labelled t (flat_map g l) = flat_map (fun x => labelled t (g x)) l.
  Proof. induction l as [|x l IH]; auto. cbn [flat_map]. now rewrite labelled_app, IH. Qed.

  Theorem exact_fixed s b : reached s -> given s b -> b_kind (heap s b) = Fixed ->
    forall t, labelled t (contents (buf_view (heap s b))) = stored_in (hist s) t b.
  Proof.
    intros R Hg K t. destruct (given_chunks s b R Hg) as (f & h & J & Hh). rewrite <- (rc_parts _ _ _ J b t K).
    unfold contents, buf_view. cbn [v_count v_chunk]. set (m := N.min _ _) in *.
    destruct (upto_le m (b_size (heap s b))) as [l [-> Hl]]; [lia|]. rewrite flat_map_app.
    rewrite (flat_map_nil _ l).
    2:{ intros j Hj. unfold part. destruct (h b j) eqn:X; auto. apply Hh in X. specialize (Hl j Hj). lia. }
    rewrite app_nil_r, labelled_flat. apply flat_map_ext_in. intros j Hj. rewrite labelled_one. unfold part.
    rewrite (proj2 (Hh j)); [reflexivity|]. now apply upto_In.
  Qed.

  (** Each chunk of a retrieved buffer, fixed or ring, holds a run of events its thread stored one after the other. *)
  Theorem runs s b i : reached s -> given s b -> (i < N.min (b_issued (heap s b)) (b_size (heap s b)))%N ->
    exists t pre post, c_tid (b_chunk (heap s b) i) = N.of_nat t /\ stored_in (hist s) t b = pre ++ chunk_events (b_chunk (heap s b) i) ++ post.
  Proof.
    intros R Hg Hi. destruct (given_chunks s b R Hg) as (f & h & J & Hh). destruct (rc_run _ _ _ J b i (proj2 (Hh i) Hi)) as (t & pre & post & X & Y & _). eauto.
  Qed.

  Lemma stored_in_In h t b e : In e (stored_in h t b) -> In (Stored t b e) h.
  Proof.
    unfold stored_in. rewrite in_flat_map. intros [x [Hx He]]. destruct x; try easy.
    destruct (Nat.eqb_spec t0 t), (Nat.eqb_spec b0 b); try easy. destruct He as [->|[]]. congruence.
  Qed.

  Theorem nothing_else s b x : reached s -> given s b -> In x (contents (buf_view (heap s b))) ->
    exists t, snd x = N.of_nat t /\ In (Stored t b (fst x)) (hist s).
  Proof.
    intros R Hg Hx. unfold contents in Hx. apply in_flat_map in Hx as [i [Hi Hx]]. apply upto_In in Hi. cbn in Hi.
    apply in_map_iff in Hx as [e [<- He]]. cbn in *. destruct (runs s b i R Hg Hi) as (t & pre & post & X & Y). exists t. split; auto.
    apply stored_in_In. rewrite Y. apply in_or_app. right. apply in_or_app. now left.
  Qed.
End Records.
