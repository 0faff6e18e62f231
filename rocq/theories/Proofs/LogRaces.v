(** Memory safety of every access, absence of data races, and the holders of
    chunks. *)
From Verif Require Import Base Model.StringUtils Model.Event Model.Queue Model.Buffer Model.Config Spec.Categories Model.Registry
  Model.Interleave Spec.LogHistory Spec.LogFacts Model.TraceLog Spec.LogMemory Proofs.Interleave Proofs.Registry Proofs.LogFrame Proofs.LogView Proofs.LogViewInv
  Proofs.LogContract Proofs.LogBuffers Proofs.LogSafe Proofs.LogSafeInv Proofs.LogSafeAT Proofs.LogSafeOW Proofs.LogSafeAll.

Ltac junk W := match type of W with
  | _ \/ _ => destruct W as [W|W]; junk W
  | ex _ => destruct W as [? W]; junk W
  | _ /\ _ => destruct W as [? W]; junk W
  | False => destruct W
  | _ => discriminate W
  end.

Section Races.
  Variables cap csz : N.
  Variable site_cat : nat -> bytes.
  Notation reached := (reached cap csz site_cat).
  Notation GB := (GB cap).

  Lemma safe_at s : reached s -> exists f, GB s f /\ forall t a, about_to s t a -> okB t (f t) a.
  Proof.
    intros R. destruct (safe_inv cap csz site_cat s R) as [_ [f [G V]]]. exists f. split; auto.
    intros t a [k E]. specialize (V t). rewrite E in V. apply V.
  Qed.

  (** Actions performed inside the lock only. *)
  Definition inside (a : act) : bool :=
    match a with
    | ABufTake | ABufSet _ | AFactory _ _ _ | ACfgSet _ | ACfgGet | ASnap | APick _ | AMaster _ | AEvict _ | AUnMaster _
    | ANameSet _ | ANameDel | ANames | ADeregAdd | ADeregDel | AClear | AStats | AReg _ => true
    | _ => false
    end.

  Lemma inside_holds s t a : reached s -> about_to s t a -> inside a = true -> mtx s = Some t.
  Proof.
    intros R Ab I. destruct (safe_at s R) as [f [G V]]. pose proof (V t a Ab) as O. destruct Ab as [k Ek].
    destruct (allowed _ _ _ s t a k R Ek) as [g [Ga Oa]].
    assert (S : forall F, insec (g t) F -> mtx s = Some t).
    { intros F H. apply (g_sec _ _ _ Ga). unfold insec in H. now destruct (a_sec (g t)). }
    assert (Hh : m_hold (f t) <> None -> mtx s = Some t) by apply (lk_hold _ _ (gb_lk _ _ _ G)).
    destruct a; try discriminate I; try (now apply S in Oa); try (now apply proj1, S in Oa); cbn [okB] in O; apply Hh.
    - destruct O as [[on [ev O]] _]. congruence.
    - apply (lk_mash _ _ (gb_lk _ _ _ G)). congruence.
    - destruct O as [[on [ev O]] _]. congruence.
    - exact (proj1 O).
  Qed.

  Lemma free_alone s t u a : reached s -> about_to s t AFree -> about_to s u a -> u = t.
  Proof.
    intros R [k E] [k' E']. destruct (allowed _ _ _ s t AFree k R E) as [g [Ga [_ [Om _]]]]. apply (g_mine _ _ _ Ga) in Om.
    destruct (full_inv _ _ _ s R) as [[_ Al] _]. destruct (Nat.eq_dec u t) as [|N]; auto. specialize (Al t Om u N). congruence.
  Qed.

  Section At.
    Variables (s : st) (f : tid -> mph).
    Hypothesis R : reached s.
    Hypothesis G : GB s f.
    Hypothesis V : forall t a, about_to s t a -> okB t (f t) a.

    Lemma one_holder t u : m_hold (f t) <> None -> m_hold (f u) <> None -> t = u.
    Proof. intros A B. apply (lk_hold _ _ (gb_lk _ _ _ G)) in A, B. congruence. Qed.

    Lemma still t u : m_hold (f t) = Some (false, []) -> steady (f u) -> t = u.
    Proof.
      intros A [B|B]; [|apply one_holder; congruence].
      destruct (detached s f t (gb_lk _ _ _ G) (gb_at _ _ _ G) A u). now left.
    Qed.

    Lemma owned_bufp t b i : owned s f t = Some (b, i) -> bufp s = Some b /\ attached s f t.
    Proof.
      unfold owned. destruct (m_cm (f t)) as [| |b' i' r] eqn:C; [| easy |].
      - intros E. split; [eapply (at_ch _ _ (gb_at _ _ _ G)); eauto|]. right. congruence.
      - intros [= -> ->]. apply (ow_fly _ _ _ (gb_ow _ _ _ G)) in C as (A & B & D & _). split; auto. left. auto.
    Qed.

    Lemma object_read t a b : about_to s t a -> reads s t a (PObject b) -> bufp s = Some b /\ steady (f t).
    Proof.
      intros Ab W. pose proof (V t a Ab) as O. pose proof (gb_at _ _ _ G) as A.
      assert (Bp : forall x, m_bp (f t) = Some (Some x) -> bufp s = Some x /\ steady (f t)) by (intros x; apply (at_bp _ _ A)).
      destruct a; cbn in W; try easy; try (injection W as ->); cbn [okB] in O.
      - apply Bp, O.
      - apply Bp, O.
      - apply (ow_fly _ _ _ (gb_ow _ _ _ G)) in O as (A1 & A2 & A3 & _). split; auto. left. auto.
      - apply Bp, O.
      - apply Bp, O.
      - destruct W as [W|[W|[W|[x [W [= ->]]]]]]; try discriminate. split; auto. right. apply (lk_hold _ _ (gb_lk _ _ _ G)).
        now apply (inside_holds s t AStats).
    Qed.

    Lemma object_write t a b : about_to s t a -> writes s t a (PObject b) -> a <> AFree ->
      (bufp s = Some b /\ m_hold (f t) = Some (false, [])) \/ (m_hold (f t) <> None /\ b = nbuf s /\ exists c g n, a = AFactory c g n).
    Proof.
      intros Ab W N. pose proof (V t a Ab) as O. destruct a; cbn in W; try easy; cbn [okB] in O.
      - left. destruct W as [W|W]; [easy|]. split; auto. apply O.
      - right. injection W as ->. destruct O as [O _]. split; [congruence|]. eauto.
      - destruct W; easy.
    Qed.

    Lemma chunk_touch t a b i : about_to s t a -> reads s t a (PChunk b i) \/ writes s t a (PChunk b i) -> a <> AFree ->
      owned s f t = Some (b, i) \/ (bufp s = Some b /\ m_hold (f t) = Some (false, [])) \/
      (m_hold (f t) <> None /\ b = nbuf s /\ exists c g n, a = AFactory c g n).
    Proof.
      intros Ab W N. pose proof (V t a Ab) as O. pose proof (gb_at _ _ _ G) as A.
      assert (Ck : forall b i, m_ck (f t) = Some (Some (b, i)) -> m_cm (f t) = Plain -> owned s f t = Some (b, i)).
      { intros x j H1 H2. unfold owned. rewrite H2. now apply (at_ck _ _ A) in H1 as [H1 _]. }
      destruct a; cbn in W; try (exfalso; junk W); cbn [okB] in O.
      - destruct W as [W|[W|W]]; try easy. right. left. split; auto. apply O.
      - destruct W as [W|[= ->]]; [easy|]. right. right. destruct O as [O _]. split; [congruence|]. eauto.
      - destruct W as [W|[= -> ->]]; [easy|]. left. unfold owned. now rewrite O.
      - destruct W as [[= -> ->]|W]; [|easy]. left. now apply Ck.
      - destruct W as [W|[= -> ->]]; [easy|]. left. now apply Ck.
      - easy.
    Qed.

    Lemma bufp_old b : bufp s = Some b -> b < nbuf s /\ b_owner (heap s b) = Mine.
    Proof. apply (at_buf _ _ (gb_at _ _ _ G)). Qed.

    Lemma chunkof_touch t a v : about_to s t a -> reads s t a (PChunkOf v) \/ writes s t a (PChunkOf v) ->
      (v = t /\ guarded (f t)) \/ m_mas (f t) = Some v.
    Proof.
      intros Ab W. pose proof (V t a Ab) as O. destruct a; cbn in W; try (exfalso; junk W); cbn [okB] in O.
      - left. destruct W as [[= ->]|W]; [|easy]. auto.
      - left. destruct W as [W|[= ->]]; [easy|]. split; auto. apply O.
      - right. destruct W as [W|[= ->]]; [easy|]. apply O.
    Qed.

    Lemma no_race_at t u a a' p : about_to s t a -> about_to s u a' -> writes s t a p -> reads s u a' p \/ writes s u a' p -> t = u.
    Proof.
      intros Ab Ab' W T.
      assert (N : {a = AFree} + {a <> AFree}) by (destruct a; (now left) || (now right)).
      destruct N as [->|N]; [symmetry; eapply free_alone; eauto|].
      assert (N' : {a' = AFree} + {a' <> AFree}) by (destruct a'; (now left) || (now right)).
      destruct N' as [->|N']; [eapply free_alone; eauto|].
      pose proof (gb_lk _ _ _ G) as L.
      assert (M : inside a = true -> inside a' = true -> t = u).
      { intros I I'. apply (inside_holds s t a) in I; auto. apply (inside_holds s u a') in I'; auto. congruence. }
      destruct p as [ | | | |v|v|b|b i].
      - assert (Hw : m_hold (f t) = Some (false, [])).
        { pose proof (V t a Ab) as O. destruct a; cbn in W; try (exfalso; junk W); try easy; apply O. }
        apply (still t u); auto. pose proof (V u a' Ab') as O. destruct T as [T|T].
        + destruct a'; cbn in T; try (exfalso; junk T); try easy. right. apply (lk_hold _ _ L). now apply (inside_holds s u AStats).
        + right. destruct a'; cbn in T; try (exfalso; junk T); try easy; cbn [okB] in O; destruct O as [O _]; congruence.
      - apply M; [destruct a; cbn in W; try (exfalso; junk W); easy|]. destruct T as [T|T]; destruct a'; cbn in T; try (exfalso; junk T); easy.
      - apply M; [destruct a; cbn in W; try (exfalso; junk W); easy|]. destruct T as [T|T]; destruct a'; cbn in T; try (exfalso; junk T); easy.
      - apply M; [destruct a; cbn in W; try (exfalso; junk W); easy|]. destruct T as [T|T]; destruct a'; cbn in T; try (exfalso; junk T); easy.
      - assert (X := chunkof_touch t a v Ab (or_intror W)). assert (Y := chunkof_touch u a' v Ab' T).
        assert (Z : forall x y, v = x -> guarded (f x) -> m_mas (f y) = Some v -> x = y).
        { intros x y -> Gd Hm. destruct Gd as [Gd|Gd].
          - apply (lk_slave _ _ L) in Gd. apply (lk_mas _ _ L) in Hm. congruence.
          - apply one_holder; auto. apply (lk_mash _ _ L). congruence. }
        destruct X as [[X1 X2]|X], Y as [[Y1 Y2]|Y].
        + congruence.
        + eauto.
        + symmetry. eauto.
        + apply (lk_mas _ _ L) in X, Y. congruence.
      - assert (Hv : forall x c, reads s x c (PInitOf v) \/ writes s x c (PInitOf v) -> c <> AFree -> v = x).
        { intros x c [H|H] Nc; destruct c; cbn in H; try (exfalso; junk H); try congruence. destruct H as [H|H]; congruence. }
        rewrite <- (Hv t a), <- (Hv u a'); auto.
      - apply object_write in W as [[W1 W2]|[W1 [W2 W3]]]; auto.
        + apply still; auto. destruct T as [T|T]; [apply object_read in T; tauto|].
          apply object_write in T as [[T1 T2]|[T1 _]]; auto; right; congruence.
        + destruct T as [T|T].
          * apply object_read in T as [T _]; auto. apply bufp_old in T. lia.
          * apply object_write in T as [[T1 T2]|[T1 _]]; auto; apply one_holder; congruence.
      - apply (chunk_touch u) in T; auto. assert (W' := chunk_touch t a b i Ab (or_intror W) N).
        assert (X : forall x y, owned s f x = Some (b, i) -> m_hold (f y) = Some (false, []) -> False).
        { intros x y Ox Hy. apply owned_bufp in Ox as [_ At]. now apply (detached s f y L (gb_at _ _ _ G) Hy x). }
        assert (Y : forall x, owned s f x = Some (b, i) -> b = nbuf s -> False).
        { intros x Ox Hb. apply owned_bufp in Ox as [Ox _]. apply bufp_old in Ox. lia. }
        destruct W' as [W'|[[W1 W2]|[W1 [W2 _]]]], T as [T|[[T1 T2]|[T1 [T2 _]]]]; try (exfalso; eauto; fail); try (apply one_holder; congruence).
        eapply (ow_uniq _ _ _ (gb_ow _ _ _ G)); eauto.
    Qed.

    Lemma alive_bufp b : bufp s = Some b -> alive s b.
    Proof. apply bufp_old. Qed.

    Lemma sound_at t a : about_to s t a -> sound cap s t a.
    Proof.
      intros Ab. pose proof (V t a Ab) as O. pose proof (gb_lk _ _ _ G) as L. split; [|split].
      - intros b [W|W].
        + left. apply alive_bufp. now apply object_read in W.
        + assert (N : {a = AFree} + {a <> AFree}) by (destruct a; (now left) || (now right)). destruct N as [->|N].
          * cbn in W. left. apply alive_bufp. destruct W as [W|[W|[W|[W|W]]]]; easy.
          * apply object_write in W as [[W _]|[_ [W1 [c [g [n W2]]]]]]; auto; [left; now apply alive_bufp|right; eauto].
      - intros b i W. assert (N : {a = AFree} + {a <> AFree}) by (destruct a; (now left) || (now right)). destruct N as [->|N].
        + cbn in W. left. apply alive_bufp. destruct W as [W|[W|[W|[W|[W|W]]]]]; easy.
        + apply chunk_touch in W as [W|[[W _]|[_ [W1 [c [g [n W2]]]]]]]; auto; [left; apply alive_bufp; now apply owned_bufp in W|left; now apply alive_bufp|right; eauto].
      - assert (Ck : forall b i, m_ck (f t) = Some (Some (b, i)) -> m_cm (f t) = Plain ->
          (i < b_size (heap s b))%N /\ (c_next (b_chunk (heap s b) i) <= cap)%N).
        { intros b i H Hc. apply (at_ck _ _ (gb_at _ _ _ G)) in H as [H _]. assert (Ot : owned s f t = Some (b, i)) by (unfold owned; now rewrite Hc).
          split; [now apply (ow_in _ _ _ (gb_ow _ _ _ G)) in Ot|]. apply (ow_label _ _ _ (gb_ow _ _ _ G)) in Ot; [tauto|]. now rewrite Hc. }
        destruct a; auto; cbn [okB] in O.
        + intros M. apply (lk_hold _ _ L) in M. tauto.
        + intros M. apply (lk_hold _ _ L) in M. tauto.
        + apply (lk_hold _ _ L). destruct O as [[on O] _]. congruence.
        + assert (Ot : owned s f t = Some (b, i)) by (unfold owned; now rewrite O). now apply (ow_in _ _ _ (gb_ow _ _ _ G)) in Ot.
        + now apply Ck.
        + intros M. apply (lk_slave _ _ L) in M. destruct O as [_ [O _]]. congruence.
        + now apply (lk_slave _ _ L).
        + intros M. apply (lk_mas _ _ L) in M. destruct O as [_ O]. congruence.
        + now apply (lk_mas _ _ L).
        + now apply Ck.
        + now apply Ck.
    Qed.
  End At.

  Theorem no_race s : reached s -> ~ race s.
  Proof.
    intros R (t & u & a & a' & p & N & Ab & Ab' & W & T). destruct (safe_at s R) as [f [G V]]. apply N.
    eapply (no_race_at s f); eauto.
  Qed.

  Theorem all_sound s t a : reached s -> about_to s t a -> sound cap s t a.
  Proof. intros R Ab. destruct (safe_at s R) as [f [G V]]. eapply sound_at; eauto. Qed.
End Races.
