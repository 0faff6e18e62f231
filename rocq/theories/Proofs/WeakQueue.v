(** The bounded queue with the memory orders it is written with. *)
From Coq Require Import Sorting.Sorted.
From Verif Require Import Base Spec.QueueHistory Model.Queue Model.Interleave Model.WeakMem Model.WeakQueue
  Proofs.Queue Proofs.Interleave Proofs.QueueConc Proofs.WeakMem.
Local Open Scope N_scope.
Local Opaque N.modulo N.pow.
Local Arguments after_load : simpl never.

Section WeakQueue.
  Context {T : Type}.
  Variables cap j : N.
  Hypothesis Hcap : cap = 2 ^ j.
  Hypothesis Hj1 : 1 <= j.
  Hypothesis Hj2 : j <= 61.

  Local Notation wqueue := (wqueue T).
  Local Notation mem := (wmem (option T)).

  Let c2 := cap_ge2 cap j Hcap Hj1 Hj2.
  Let c61 := cap_le cap j Hcap Hj1 Hj2.
  Let same := same_slot cap j Hcap Hj1 Hj2.
  Let succ := slot_succ cap j Hcap Hj1 Hj2.
  Let addc := slot_cap cap j Hcap Hj1 Hj2.
  Let ltc := slot_lt cap j Hcap Hj1 Hj2.

  Definition wE (q : wqueue) : N := N.of_nat (length (ins (wq_hist q))).
  Definition wD (q : wqueue) : N := N.of_nat (outs (wq_hist q)).
  Definition wval (q : wqueue) (i : N) : option T := nth_error (ins (wq_hist q)) (N.to_nat i).

  Definition owns_e (q : wqueue) (t : tid) (i : N) : Prop :=
    exists x, wq_pc q t = WEData x i \/ wq_pc q t = WEPub x i.
  Definition owns_d (q : wqueue) (t : tid) (i : N) : Prop :=
    wq_pc q t = WDData i \/ exists v, wq_pc q t = WDPub i v.
  Definition owns (q : wqueue) (t : tid) (i : N) : Prop := owns_e q t i \/ owns_d q t i.

  (** [v] covers every access to the data of cell [c]. *)
  Definition knows (m : mem) (c : N) (v : view) : Prop :=
    forall e a, nth_error (accs m) e = Some a -> a_loc a = cell_data c -> known v e = true.
  (** A view that covers the store of sequence number [s] to cell [c]. *)
  Definition heard (m : mem) (v : view) (c s : N) : Prop :=
    exists b, In b (hist m (cell_seq c)) /\ m_val b = s /\ vle (m_view b) v /\ m_to b <= ts v (cell_seq c).
  (** The same, and it is the newest one. *)
  Definition newest (m : mem) (v : view) (c s : N) : Prop :=
    exists g l, hist m (cell_seq c) = g :: l /\ m_val g = s /\ vle (m_view g) v /\ m_to g <= ts v (cell_seq c).

  Definition falls (l : list msg) : Prop := StronglySorted (fun a b => m_val b < m_val a) l.

  Definition tok (q : wqueue) (t : tid) (p : wpc T) : Prop :=
    let m := wq_mem q in
    let v := seen m t in
    match p with
    | WIdle | WEPos _ | WDPos => True
    | WESeq _ i => i <= wE q
    | WECas _ i => i <= wE q /\ heard m v (i mod cap) i
    | WEData x i => i < wE q /\ newest m v (i mod cap) i /\ knows m (i mod cap) v /\ wval q i = Some x
    | WEPub x i => i < wE q /\ newest m v (i mod cap) i /\ knows m (i mod cap) v /\ wval q i = Some x /\
        plain m (cell_data (i mod cap)) = Some x
    | WDSeq i => i <= wD q
    | WDCas i => i <= wD q /\ heard m v (i mod cap) (i + 1)
    | WDData i => i < wD q /\ newest m v (i mod cap) (i + 1) /\ knows m (i mod cap) v
    | WDPub i x => i < wD q /\ newest m v (i mod cap) (i + 1) /\ knows m (i mod cap) v /\ x = wval q i
    end.

  Definition cell (q : wqueue) (c : N) : Prop :=
    let m := wq_mem q in
    exists g l i, hist m (cell_seq c) = g :: l /\ chain (fun _ => False) (g :: l) /\ falls (g :: l) /\
      i mod cap = c /\ i < wD q + cap /\
      (m_val g = i \/ (m_val g = i + 1 /\ i < wE q /\ plain m (cell_data c) = wval q i)) /\
      ((forall t k, owns q t k -> k mod cap <> c) -> knows m c (m_view g)).

  (** A position: incremented by one at a time. *)
  Definition position (m : mem) (x : loc) (n : N) : Prop :=
    exists g l, hist m x = g :: l /\ chain (fun _ => True) (g :: l) /\ m_val g = n /\
      forall b, In b (g :: l) -> m_val b <= n.

  Record wqinv (q : wqueue) : Prop := {
    w_cap : wq_cap q = cap;
    w_enq : position (wq_mem q) enqueue_pos (wE q);
    w_deq : position (wq_mem q) dequeue_pos (wD q);
    w_bnd : wD q <= wE q;
    w_small : wE q <= 2 ^ 62;
    w_cell : forall c, c < cap -> cell q c;
    w_thr : forall t, tok q t (wq_pc q t);
    w_ue : forall t u i, owns_e q t i -> owns_e q u i -> t = u;
    w_ud : forall t u i, owns_d q t i -> owns_d q u i -> t = u;
    w_race : forall c, ~ In (cell_data c) (races (wq_mem q));
  }.

  Lemma wslot (q : wqueue) i : wq_cap q = cap -> wq_slot q i = i mod cap.
  Proof. intros E. unfold wq_slot. rewrite E. now apply (slot_mod cap j). Qed.

  Lemma newest_heard m v c s : newest m v c s -> heard m v c s.
  Proof. intros (g & l & E & V & L & Tm). exists g. rewrite E. repeat split; auto; try apply L. now left. Qed.

  Lemma falls_le g l b : falls (g :: l) -> In b (g :: l) -> m_val b <= m_val g.
  Proof.
    intros F. apply StronglySorted_inv in F as (_ & F). rewrite Forall_forall in F.
    intros [->|H]; [lia|]. apply F in H. lia.
  Qed.

  Lemma falls_head g l b : falls (g :: l) -> In b (g :: l) -> m_val b = m_val g -> b = g.
  Proof.
    intros F. apply StronglySorted_inv in F as (_ & F). rewrite Forall_forall in F.
    intros [->|H] E; [auto|]. apply F in H. lia.
  Qed.

  Lemma owner_newest q t i : wqinv q ->
    (owns_e q t i -> i < wE q /\ newest (wq_mem q) (seen (wq_mem q) t) (i mod cap) i /\ knows (wq_mem q) (i mod cap) (seen (wq_mem q) t)) /\
    (owns_d q t i -> i < wD q /\ newest (wq_mem q) (seen (wq_mem q) t) (i mod cap) (i + 1) /\ knows (wq_mem q) (i mod cap) (seen (wq_mem q) t)).
  Proof.
    intros I. pose proof (w_thr _ I t) as H. split.
    - intros (x & [E|E]); rewrite E in H; cbn [tok] in H; tauto.
    - intros [E|(x & E)]; rewrite E in H; cbn [tok] in H; tauto.
  Qed.

  (** A cell has one owner. *)
  Lemma own_cells q t i u k : wqinv q -> t <> u -> owns q t i -> owns q u k -> i mod cap <> k mod cap.
  Proof.
    intros I Nt Ht Hu E.
    destruct (w_cell _ I (i mod cap) (ltc i)) as (g & l & p & Eg & _).
    assert (forall v s, newest (wq_mem q) v (i mod cap) s -> m_val g = s) as X.
    { intros v s (g' & l' & Eg' & V & _). rewrite Eg in Eg'. injection Eg' as <- <-. auto. }
    destruct (owner_newest q t i I) as (O1 & O2). destruct (owner_newest q u k I) as (O3 & O4).
    rewrite <- E in O3, O4.
    assert (owns_e q t i -> m_val g = i) as C1 by (intros O; destruct (O1 O) as (_ & N & _); eapply X; exact N).
    assert (owns_d q t i -> m_val g = i + 1) as C2 by (intros O; destruct (O2 O) as (_ & N & _); eapply X; exact N).
    assert (owns_e q u k -> m_val g = k) as C3 by (intros O; destruct (O3 O) as (_ & N & _); eapply X; exact N).
    assert (owns_d q u k -> m_val g = k + 1) as C4 by (intros O; destruct (O4 O) as (_ & N & _); eapply X; exact N).
    clear O1 O2 O3 O4 X.
    destruct Ht as [Ht|Ht], Hu as [Hu|Hu].
    - assert (i = k) as -> by (rewrite <- (C1 Ht); auto). apply Nt. eapply (w_ue _ I); eauto.
    - assert (i = k + 1) as -> by (rewrite <- (C1 Ht); auto). now apply succ in E.
    - assert (k = i + 1) as -> by (rewrite <- (C3 Hu); auto). symmetry in E. now apply succ in E.
    - assert (i = k) as -> by (specialize (C2 Ht); specialize (C4 Hu); klia). apply Nt. eapply (w_ud _ I); eauto.
  Qed.

  (** ** Frames *)

  Lemma tok_frame q q' u :
    wE q <= wE q' -> wD q <= wD q' -> wD q <= wE q ->
    (forall i, i < wE q -> wval q' i = wval q i) ->
    vle (seen (wq_mem q) u) (seen (wq_mem q') u) ->
    (forall c, incl (hist (wq_mem q) (cell_seq c)) (hist (wq_mem q') (cell_seq c))) ->
    (forall i, owns q u i ->
       hist (wq_mem q') (cell_seq (i mod cap)) = hist (wq_mem q) (cell_seq (i mod cap)) /\
       plain (wq_mem q') (cell_data (i mod cap)) = plain (wq_mem q) (cell_data (i mod cap)) /\
       forall v, knows (wq_mem q) (i mod cap) v -> knows (wq_mem q') (i mod cap) v) ->
    wq_pc q' u = wq_pc q u ->
    tok q u (wq_pc q u) -> tok q' u (wq_pc q' u).
  Proof.
    intros HE HD HDE Hv Hs Hh Ho -> H.
    assert (forall c s, heard (wq_mem q) (seen (wq_mem q) u) c s -> heard (wq_mem q') (seen (wq_mem q') u) c s) as H1.
    { intros c s (b & A & B & C & D). exists b. split; [now apply Hh|]. split; [auto|]. split; [eapply vle_trans; eauto|].
      destruct Hs as (Hs & _). specialize (Hs (cell_seq c)). lia. }
    assert (forall i s, owns q u i -> newest (wq_mem q) (seen (wq_mem q) u) (i mod cap) s ->
              newest (wq_mem q') (seen (wq_mem q') u) (i mod cap) s) as H2.
    { intros i s O (g & l & A & B & C & D). exists g, l. rewrite (proj1 (Ho i O)). split; [auto|]. split; [auto|].
      split; [eapply vle_trans; eauto|]. destruct Hs as (Hs & _). specialize (Hs (cell_seq (i mod cap))). lia. }
    assert (forall i, owns q u i -> knows (wq_mem q) (i mod cap) (seen (wq_mem q) u) ->
              knows (wq_mem q') (i mod cap) (seen (wq_mem q') u)) as H3.
    { intros i O K. apply (proj2 (proj2 (Ho i O))). intros e a A B. apply Hs. eapply K; eauto. }
    assert (forall i, owns q u i -> plain (wq_mem q') (cell_data (i mod cap)) = plain (wq_mem q) (cell_data (i mod cap))) as H4
      by (intros i O; apply (Ho i O)).
    destruct (wq_pc q u) as [|y|y i|y i|y i|y i| |i|i|i|i y] eqn:E; cbn [tok] in H |- *; unpack.
    - exact Logic.I.
    - exact Logic.I.
    - lia.
    - split; [lia|auto].
    - assert (owns q u i) as O by (left; exists y; auto). rewrite Hv by lia. splits; auto. lia.
    - assert (owns q u i) as O by (left; exists y; auto). rewrite Hv, H4 by (auto; lia). splits; auto. lia.
    - exact Logic.I.
    - lia.
    - split; [lia|auto].
    - assert (owns q u i) as O by (right; left; auto). splits; auto. lia.
    - assert (owns q u i) as O by (right; right; exists y; auto). rewrite Hv by lia. splits; auto. lia.
  Qed.

  Lemma cell_frame q q' c :
    wE q <= wE q' -> wD q <= wD q' ->
    (forall i, i < wE q -> wval q' i = wval q i) ->
    hist (wq_mem q') (cell_seq c) = hist (wq_mem q) (cell_seq c) ->
    plain (wq_mem q') (cell_data c) = plain (wq_mem q) (cell_data c) ->
    (forall v, knows (wq_mem q) c v -> knows (wq_mem q') c v) ->
    (forall t k, owns q t k -> k mod cap = c -> exists t', owns q' t' k) ->
    cell q c -> cell q' c.
  Proof.
    intros HE HD Hv Hh Hp Hk Ho (g & l & i & A & B & C & D & E & F & G).
    exists g, l, i. rewrite Hh, Hp. splits; auto; try lia.
    - destruct F as [F|(F1 & F2 & F3)]; [auto|right]. splits; auto; [lia|]. now rewrite Hv.
    - intros U. apply Hk, G. intros t k O X. destruct (Ho t k O X) as (t' & O'). exact (U t' k O' X).
  Qed.

  Definition calm (p : wpc T) : Prop :=
    match p with WEData _ _ | WEPub _ _ | WDData _ | WDPub _ _ => False | _ => True end.

  Lemma calm_owns q t : calm (wq_pc q t) -> forall i, ~ owns q t i.
  Proof.
    intros C i [(x & [E|E])|[E|(x & E)]]; rewrite E in C; exact C.
  Qed.

  Lemma owns_other q m t p e u i : u <> t ->
    (owns_e (wq_goto q m t p e) u i <-> owns_e q u i) /\ (owns_d (wq_goto q m t p e) u i <-> owns_d q u i).
  Proof. intros N. unfold owns_e, owns_d. cbn. rewrite tset_other by auto. tauto. Qed.

  (** ** Steps that only move one thread and what it has heard of *)
  Lemma inv_calm q m t p e :
    wqinv q -> ins e = [] -> outs e = 0%nat -> calm (wq_pc q t) -> calm p ->
    hist m = hist (wq_mem q) -> (forall c, plain m (cell_data c) = plain (wq_mem q) (cell_data c)) ->
    (forall c v, knows (wq_mem q) c v -> knows m c v) ->
    (forall c, In (cell_data c) (races m) -> In (cell_data c) (races (wq_mem q))) ->
    (forall u, vle (seen (wq_mem q) u) (seen m u)) ->
    tok (wq_goto q m t p e) t p -> wqinv (wq_goto q m t p e).
  Proof.
    intros I Ei Eo Ca Cb Hh Hp Xk Hr Hs Ht. set (q' := wq_goto q m t p e) in *.
    assert (ins (wq_hist q') = ins (wq_hist q)) as Xi.
    { cbn. unfold ins in *. rewrite flat_map_app, Ei. apply app_nil_r. }
    assert (wE q' = wE q) as XE by (unfold wE; now rewrite Xi).
    assert (wD q' = wD q) as XD.
    { unfold wD. cbn. unfold outs in *. rewrite filter_app, app_length, Eo. lia. }
    assert (forall i, wval q' i = wval q i) as Xv by (intros i; unfold wval; now rewrite Xi).
    assert (forall u i, (owns_e q' u i <-> owns_e q u i) /\ (owns_d q' u i <-> owns_d q u i)) as Xo.
    { intros u i. destruct (Nat.eq_dec u t) as [->|N]; [|now apply owns_other].
      assert (~ owns q' t i) as N1 by (apply calm_owns; cbn; now rewrite tset_same).
      assert (~ owns q t i) as N2 by now apply calm_owns. unfold owns in *. tauto. }
    split.
    - apply I.
    - rewrite XE. unfold position. cbn [wq_mem q' wq_goto]. rewrite Hh. apply I.
    - rewrite XD. unfold position. cbn [wq_mem q' wq_goto]. rewrite Hh. apply I.
    - rewrite XD, XE. apply I.
    - rewrite XE. apply I.
    - intros c Hc. apply (cell_frame q); rewrite ?XE, ?XD; auto; try lia.
      + cbn. now rewrite Hh.
      + intros u k O _. exists u. unfold owns in *. pose proof (Xo u k). tauto.
      + now apply I.
    - intros u. destruct (Nat.eq_dec u t) as [->|N]; [cbn [wq_pc q' wq_goto]; now rewrite tset_same|].
      apply (tok_frame q); rewrite ?XE, ?XD; auto; try lia; try apply I.
      + intros c. cbn. rewrite Hh. apply incl_refl.
      + intros i O. cbn. rewrite Hh. auto.
      + cbn. now rewrite tset_other.
    - intros u v i Hu Hv. apply (w_ue _ I u v i); now apply Xo.
    - intros u v i Hu Hv. apply (w_ud _ I u v i); now apply Xo.
    - intros c Hc. apply Hr in Hc. now apply I in Hc.
  Qed.

  (** ** Whose turn it is *)

  Lemma enq_turn q v : wqinv q -> heard (wq_mem q) v (wE q mod cap) (wE q) ->
    newest (wq_mem q) v (wE q mod cap) (wE q) /\ knows (wq_mem q) (wE q mod cap) v.
  Proof.
    intros I (b & Hb & Vb & Lb & Tb). set (E := wE q) in *. pose proof (w_bnd _ I) as Bd. fold E in Bd.
    destruct (w_cell _ I (E mod cap) (ltc E)) as (g & l & i & Eg & C & F & Mi & Li & Vg & K). rewrite Eg in Hb.
    pose proof (falls_le _ _ _ F Hb) as Le.
    assert (m_val g = E) as VE.
    { destruct Vg as [Vg|(Vg & Hi & _)].
      - rewrite Vg. symmetry. apply same; [now symmetry|klia|klia].
      - fold E in Hi. rewrite Vg. assert (i + 1 = E) as X by klia. rewrite <- X in Mi. symmetry in Mi. now apply succ in Mi. }
    assert (b = g) as -> by (eapply falls_head; eauto; congruence).
    split; [exists g, l; auto|]. intros e a Ha La. apply Lb. eapply K; eauto.
    intros u k O X. destruct (owner_newest q u k I) as (O1 & O2). rewrite X in O1, O2.
    destruct O as [O|O].
    - destruct (O1 O) as (Lk & (g' & l' & Eg' & V' & _) & _). rewrite Eg in Eg'. injection Eg' as <- <-. fold E in Lk. klia.
    - destruct (O2 O) as (Lk & (g' & l' & Eg' & V' & _) & _). rewrite Eg in Eg'. injection Eg' as <- <-.
      assert (E = k + 1) as Y by klia. rewrite Y in X. symmetry in X. now apply succ in X.
  Qed.

  Lemma deq_turn q v : wqinv q -> heard (wq_mem q) v (wD q mod cap) (wD q + 1) ->
    newest (wq_mem q) v (wD q mod cap) (wD q + 1) /\ knows (wq_mem q) (wD q mod cap) v /\ wD q < wE q.
  Proof.
    intros I (b & Hb & Vb & Lb & Tb). set (D := wD q) in *. pose proof (w_bnd _ I) as Bd. fold D in Bd.
    destruct (w_cell _ I (D mod cap) (ltc D)) as (g & l & i & Eg & C & F & Mi & Li & Vg & K). rewrite Eg in Hb. fold D in Li.
    pose proof (falls_le _ _ _ F Hb) as Le.
    assert (m_val g = D + 1 /\ D < wE q) as (VD & Lt).
    { destruct Vg as [Vg|(Vg & Hi & _)].
      - exfalso. assert (D = i) as X; [apply same; [now symmetry|klia|klia]|]. klia.
      - assert (D = i) as <-; [apply same; [now symmetry|klia|klia]|]. auto. }
    assert (b = g) as -> by (eapply falls_head; eauto; congruence).
    split; [exists g, l; auto|]. split; [|exact Lt]. intros e a Ha La. apply Lb. eapply K; eauto.
    intros u k O X. destruct (owner_newest q u k I) as (O1 & O2). rewrite X in O1, O2.
    destruct O as [O|O].
    - destruct (O1 O) as (Lk & (g' & l' & Eg' & V' & _) & _). rewrite Eg in Eg'. injection Eg' as <- <-.
      assert (k = D + 1) as Y by klia. rewrite Y in X. now apply succ in X.
    - destruct (O2 O) as (Lk & (g' & l' & Eg' & V' & _) & _). rewrite Eg in Eg'. injection Eg' as <- <-. fold D in Lk. klia.
  Qed.

  Lemma position_add m x n t v w k :
    position m x n -> (forall g l, hist m x = g :: l -> free (m_to g) k (g :: l) = true) ->
    forall g l, hist m x = g :: l ->
    position (with_msg (with_seen m t v) x {| m_from := m_to g; m_to := k; m_val := n + 1; m_view := w |}) x (n + 1).
  Proof.
    intros (g & l & E & C & V & B) F g' l' E'. rewrite E in E'. injection E' as <- <-.
    eexists _, (g :: l). cbn [with_msg hist]. rewrite lset_same. cbn [with_seen hist]. rewrite E.
    split; [reflexivity|]. split; [apply chain_add; auto|]. split; [reflexivity|].
    intros b [<-|Hb]; [cbn; lia|]. apply B in Hb. lia.
  Qed.

  (** A compare-exchange of a position that succeeds takes the newest store. *)
  Lemma cas_pos (m : mem) x n t pos des i k sp b fv m' :
    position m x n ->
    wcas m t false false false x pos des i k sp = Some (b, fv, m') ->
    (b = true /\ pos = n /\ exists g l w v, hist m x = g :: l /\ free (m_to g) k (g :: l) = true /\ vle (seen m t) v /\
       m' = with_msg (with_seen m t v) x {| m_from := m_to g; m_to := k; m_val := des; m_view := w |}) \/
    (b = false /\ fv <= n /\ exists v, vle (seen m t) v /\ m' = with_seen m t v).
  Proof.
    intros (g & l & E & C & V & B). unfold wcas, wrmw, wload. destruct (nth_error (hist m x) i) as [c|] eqn:En; [|discriminate].
    destruct ((m_val c =? pos) && negb sp) eqn:D.
    - destruct ((ts (seen m t) x <=? m_to c) && free (m_to c) k (hist m x)) eqn:F; [|discriminate].
      intros [= <- <- <-]. left. split; [reflexivity|]. apply andb_true_iff in D as (D & _), F as (F1 & F2).
      rewrite E in En, F2. pose proof (chain_rmw _ _ _ _ _ C En Logic.I F2) as ->. cbn in En. injection En as <-.
      apply N.eqb_eq in D. split; [congruence|]. exists g, l. eexists _, _. split; [exact E|]. split; [exact F2|]. split; [|reflexivity].
      eapply vle_trans; [apply (after_load_le _ false x g)|apply vle_vat].
    - destruct (ts (seen m t) x <=? m_to c) eqn:F; [|discriminate]. intros [= <- <- <-]. right.
      split; [reflexivity|]. split; [apply B; rewrite <- E; eapply nth_error_In; eauto|].
      eexists. split; [|reflexivity]. apply (after_load_le _ false x c).
  Qed.

  Lemma with_seen_le (m : mem) t v u : vle (seen m t) v -> vle (seen m u) (seen (with_seen m t v) u).
  Proof.
    intros L. cbn. destruct (Nat.eq_dec u t) as [->|N]; [now rewrite tset_same|rewrite tset_other by auto; apply vle_refl].
  Qed.

  Lemma heard_le m v v' c s : vle v v' -> heard m v c s -> heard m v' c s.
  Proof.
    intros L (b & A & B & C & D). exists b. split; [auto|]. split; [auto|]. split; [eapply vle_trans; eauto|].
    destruct L as (L & _). specialize (L (cell_seq c)). lia.
  Qed.

  Lemma newest_le m v v' c s : vle v v' -> newest m v c s -> newest m v' c s.
  Proof.
    intros L (g & l & A & B & C & D). exists g, l. split; [auto|]. split; [auto|]. split; [eapply vle_trans; eauto|].
    destruct L as (L & _). specialize (L (cell_seq c)). lia.
  Qed.

  (** ** The two compare-exchanges *)

  Lemma step_enq_cas q t x i k sp fv m' :
    wqinv q -> wq_pc q t = WECas x i -> wE q + 1 <= 2 ^ 62 ->
    wcas (wq_mem q) t false false false enqueue_pos i ((i + 1) mod w64) fv k sp = Some (true, i, m') ->
    wqinv (wq_goto q m' t (WEData x i) [EnqPlaced t x]).
  Proof.
    intros I P Sm Ec. pose proof (w_thr _ I t) as H. rewrite P in H. cbn [tok] in H. destruct H as (Hl & Hh).
    destruct (cas_pos _ _ _ _ _ _ _ _ _ _ _ _ (w_enq _ I) Ec) as [(_ & -> & g & l & w & v & Eg & F & Lv & ->)|(X & _)]; [|discriminate].
    destruct (enq_turn q _ I Hh) as (Nw & Kn).
    set (E := wE q) in *. set (q' := wq_goto _ _ _ _ _).
    assert (ins (wq_hist q') = ins (wq_hist q) ++ [x]) as Xi by (apply (ins_snoc (wq_hist q))).
    assert (wE q' = E + 1) as XE by (unfold wE; rewrite Xi, app_length; unfold E, wE; cbn; klia).
    assert (wD q' = wD q) as XD by (unfold wD; cbn [wq_hist q' wq_goto]; rewrite outs_snoc; cbn; klia).
    assert (forall i, i < E -> wval q' i = wval q i) as Xv.
    { intros i Hi. unfold wval. rewrite Xi. apply nth_error_app1. unfold E, wE in Hi. klia. }
    assert (E mod w64 = E /\ (E + 1) mod w64 = E + 1) as (_ & M1).
    { assert (2 ^ 62 < w64) by reflexivity. split; apply N.mod_small; klia. }
    assert (forall c, hist (wq_mem q') (cell_seq c) = hist (wq_mem q) (cell_seq c)) as Xh.
    { intros c. cbn [wq_mem q' wq_goto with_msg hist]. rewrite lset_other by discriminate. reflexivity. }
    assert (calm (wq_pc q t)) as Ca by (rewrite P; exact Logic.I).
    pose proof (calm_owns q t Ca) as No.
    pose proof (w_bnd _ I) as Bd. fold E in Bd.
    assert (wE q <= wE q') as X1 by (rewrite XE; fold E; klia).
    assert (wD q <= wD q') as X2 by (rewrite XD; klia).
    assert (seen (wq_mem q') t = v) as Xs by (cbn; apply tset_same).
    split.
    - apply I.
    - rewrite XE. cbn [wq_mem q' wq_goto]. rewrite M1. eapply position_add; [apply I| |exact Eg].
      intros g' l' E'. rewrite Eg in E'. injection E' as <- <-. exact F.
    - rewrite XD. destruct (w_deq _ I) as (g' & l' & A). exists g', l'.
      cbn [wq_mem q' wq_goto with_msg hist]. rewrite lset_other by discriminate. exact A.
    - rewrite XE, XD. klia.
    - rewrite XE. exact Sm.
    - intros c Hc. apply (cell_frame q); auto.
      + intros u c' O _. exists u. destruct (Nat.eq_dec u t) as [->|N]; [now apply No in O|].
        unfold owns in *. pose proof (owns_other q (wq_mem q') t (WEData x E) [EnqPlaced t x] u c' N). tauto.
      + now apply I.
    - intros u. destruct (Nat.eq_dec u t) as [->|N].
      + change (wq_pc q' t) with (tset (wq_pc q) t (WEData x E) t). rewrite tset_same. cbn [tok]. rewrite XE, Xs.
        split; [klia|]. split; [|split].
        * destruct (newest_le _ _ _ _ _ Lv Nw) as (g1 & l1 & A). exists g1, l1. rewrite Xh. exact A.
        * intros e a A B. apply Lv. eapply Kn; eauto.
        * unfold wval. rewrite Xi. unfold E, wE. rewrite Nat2N.id, nth_error_app2, Nat.sub_diag by klia. reflexivity.
      + apply (tok_frame q); auto.
        * cbn [wq_mem q' wq_goto with_msg with_seen seen]. rewrite tset_other by auto. apply vle_refl.
        * intros c. rewrite Xh. apply incl_refl.
        * cbn. now rewrite tset_other.
        * apply I.
    - assert (forall u, u <> t -> forall i, owns_e q' u i -> owns_e q u i /\ i < E) as Y.
      { intros u N i O. apply owns_other in O; auto. split; [exact O|]. destruct (owner_newest q u i I) as (A & _). now apply A. }
      assert (forall i, owns_e q' t i -> i = E) as Z.
      { intros i (y & [A|A]); cbn in A; rewrite tset_same in A; congruence. }
      intros u u' i Hu Hu'. destruct (Nat.eq_dec u t) as [->|N], (Nat.eq_dec u' t) as [->|N']; auto.
      + apply Z in Hu. apply Y in Hu'; auto. klia.
      + apply Z in Hu'. apply Y in Hu; auto. klia.
      + apply Y in Hu, Hu'; auto. eapply (w_ue _ I); [apply Hu|apply Hu'].
    - assert (forall i, ~ owns_d q' t i) as Z.
      { intros i [A|(y & A)]; cbn in A; rewrite tset_same in A; congruence. }
      intros u u' i Hu Hu'. destruct (Nat.eq_dec u t) as [->|N]; [now apply Z in Hu|].
      destruct (Nat.eq_dec u' t) as [->|N']; [now apply Z in Hu'|].
      apply owns_other in Hu, Hu'; auto. eapply (w_ud _ I); eauto.
    - apply I.
  Qed.

  Lemma step_deq_cas q t i k sp fv m' :
    wqinv q -> wq_pc q t = WDCas i ->
    wcas (wq_mem q) t false false false dequeue_pos i ((i + 1) mod w64) fv k sp = Some (true, i, m') ->
    wqinv (wq_goto q m' t (WDData i) [DeqPlaced t]).
  Proof.
    intros I P Ec. pose proof (w_thr _ I t) as H. rewrite P in H. cbn [tok] in H. destruct H as (Hl & Hh).
    destruct (cas_pos _ _ _ _ _ _ _ _ _ _ _ _ (w_deq _ I) Ec) as [(_ & -> & g & l & w & v & Eg & F & Lv & ->)|(X & _)]; [|discriminate].
    destruct (deq_turn q _ I Hh) as (Nw & Kn & Lt).
    set (D := wD q) in *. set (q' := wq_goto _ _ _ _ _).
    assert (ins (wq_hist q') = ins (wq_hist q)) as Xi by (cbn [wq_hist q' wq_goto]; rewrite ins_snoc; apply app_nil_r).
    assert (wE q' = wE q) as XE by (unfold wE; now rewrite Xi).
    assert (wD q' = D + 1) as XD by (unfold wD; cbn [wq_hist q' wq_goto]; rewrite outs_snoc; unfold D, wD; cbn; klia).
    assert (forall i, wval q' i = wval q i) as Xv by (intros i; unfold wval; now rewrite Xi).
    pose proof (w_small _ I) as Sm.
    assert ((D + 1) mod w64 = D + 1) as M1.
    { assert (2 ^ 62 < w64) by reflexivity. apply N.mod_small; klia. }
    assert (forall c, hist (wq_mem q') (cell_seq c) = hist (wq_mem q) (cell_seq c)) as Xh.
    { intros c. cbn [wq_mem q' wq_goto with_msg hist]. rewrite lset_other by discriminate. reflexivity. }
    assert (calm (wq_pc q t)) as Ca by (rewrite P; exact Logic.I).
    pose proof (calm_owns q t Ca) as No.
    pose proof (w_bnd _ I) as Bd. fold D in Bd.
    assert (wE q <= wE q') as X1 by (rewrite XE; klia).
    assert (wD q <= wD q') as X2 by (rewrite XD; fold D; klia).
    assert (seen (wq_mem q') t = v) as Xs by (cbn; apply tset_same).
    split.
    - apply I.
    - rewrite XE. destruct (w_enq _ I) as (g' & l' & A). exists g', l'.
      cbn [wq_mem q' wq_goto with_msg hist]. rewrite lset_other by discriminate. exact A.
    - rewrite XD. cbn [wq_mem q' wq_goto]. rewrite M1. eapply position_add; [apply I| |exact Eg].
      intros g' l' E'. rewrite Eg in E'. injection E' as <- <-. exact F.
    - rewrite XE, XD. klia.
    - rewrite XE. exact Sm.
    - intros c Hc. apply (cell_frame q); auto.
      + intros u c' O _. exists u. destruct (Nat.eq_dec u t) as [->|N]; [now apply No in O|].
        unfold owns in *. pose proof (owns_other q (wq_mem q') t (WDData D) [DeqPlaced t] u c' N). tauto.
      + now apply I.
    - intros u. destruct (Nat.eq_dec u t) as [->|N].
      + change (wq_pc q' t) with (tset (wq_pc q) t (WDData D) t). rewrite tset_same. cbn [tok]. rewrite XD, Xs.
        split; [klia|]. split.
        * destruct (newest_le _ _ _ _ _ Lv Nw) as (g1 & l1 & A). exists g1, l1. rewrite Xh. exact A.
        * intros e a A B. apply Lv. eapply Kn; eauto.
      + apply (tok_frame q); auto.
        * cbn [wq_mem q' wq_goto with_msg with_seen seen]. rewrite tset_other by auto. apply vle_refl.
        * intros c. rewrite Xh. apply incl_refl.
        * cbn. now rewrite tset_other.
        * apply I.
    - assert (forall i, ~ owns_e q' t i) as Z.
      { intros i (y & [A|A]); cbn in A; rewrite tset_same in A; congruence. }
      intros u u' i Hu Hu'. destruct (Nat.eq_dec u t) as [->|N]; [now apply Z in Hu|].
      destruct (Nat.eq_dec u' t) as [->|N']; [now apply Z in Hu'|].
      apply owns_other in Hu, Hu'; auto. eapply (w_ue _ I); eauto.
    - assert (forall u, u <> t -> forall i, owns_d q' u i -> owns_d q u i /\ i < D) as Y.
      { intros u N i O. apply owns_other in O; auto. split; [exact O|]. destruct (owner_newest q u i I) as (_ & A). now apply A. }
      assert (forall i, owns_d q' t i -> i = D) as Z.
      { intros i [A|(y & A)]; cbn in A; rewrite tset_same in A; congruence. }
      intros u u' i Hu Hu'. destruct (Nat.eq_dec u t) as [->|N], (Nat.eq_dec u' t) as [->|N']; auto.
      + apply Z in Hu. apply Y in Hu'; auto. klia.
      + apply Z in Hu'. apply Y in Hu; auto. klia.
      + apply Y in Hu, Hu'; auto. eapply (w_ud _ I); [apply Hu|apply Hu'].
    - apply I.
  Qed.

  (** ** Using the data of a cell *)
  Lemma step_data q t p i wr v :
    wqinv q -> owns q t i ->
    (forall k, owns_e q t k -> owns_e (wq_goto q (wq_mem q) t p []) t k) ->
    (forall k, owns_d q t k -> owns_d (wq_goto q (wq_mem q) t p []) t k) ->
    (forall k, owns_e (wq_goto q (wq_mem q) t p []) t k -> owns_e q t k) ->
    (forall k, owns_d (wq_goto q (wq_mem q) t p []) t k -> owns_d q t k) ->
    (owns_e q t i \/ v = plain (wq_mem q) (cell_data (i mod cap))) ->
    let q' := wq_goto q (wtouch (wq_mem q) t (cell_data (i mod cap)) wr v) t p [] in
    tok q' t p -> wqinv q'.
  Proof.
    intros I O P1 P2 P3 P4 Hv q' Ht.
    assert (ins (wq_hist q') = ins (wq_hist q)) as Xi by (cbn; now rewrite app_nil_r).
    assert (wE q' = wE q) as XE by (unfold wE; now rewrite Xi).
    assert (wD q' = wD q) as XD by (unfold wD; cbn; now rewrite app_nil_r).
    assert (forall i, wval q' i = wval q i) as Xv by (intros k; unfold wval; now rewrite Xi).
    assert (forall u k, (owns_e q' u k <-> owns_e q u k) /\ (owns_d q' u k <-> owns_d q u k)) as Xo.
    { intros u k. destruct (Nat.eq_dec u t) as [->|N]; [|now apply owns_other].
      unfold owns_e, owns_d in *. cbn [wq_pc q' wq_goto] in *. split; split; auto. }
    assert (knows (wq_mem q) (i mod cap) (seen (wq_mem q) t)) as K.
    { destruct (owner_newest q t i I) as (A & B). destruct O as [O|O]; [now apply A|now apply B]. }
    assert (forall c w, c <> i mod cap -> knows (wq_mem q) c w -> knows (wq_mem q') c w) as Xk.
    { intros c w N Kc e a A La. cbn [wq_mem q' wq_goto wtouch accs] in A.
      destruct (Nat.lt_ge_cases e (length (accs (wq_mem q)))) as [L|L].
      - rewrite nth_error_app1 in A by auto. eapply Kc; eauto.
      - rewrite nth_error_app2 in A by auto. destruct (e - _)%nat as [|z]; [|destruct z; discriminate].
        injection A as <-. cbn in La. injection La as La. congruence. }
    assert (forall c, c <> i mod cap -> plain (wq_mem q') (cell_data c) = plain (wq_mem q) (cell_data c)) as Xp.
    { intros c N. cbn. apply lset_other. intros [= X]. auto. }
    assert (wE q <= wE q') as X1 by (rewrite XE; klia).
    assert (wD q <= wD q') as X2 by (rewrite XD; klia).
    pose proof (w_bnd _ I) as Bd.
    split.
    - apply I.
    - rewrite XE. apply I.
    - rewrite XD. apply I.
    - rewrite XE, XD. apply I.
    - rewrite XE. apply I.
    - intros c Hc. destruct (N.eq_dec c (i mod cap)) as [->|N].
      + destruct (w_cell _ I _ Hc) as (g & l & k & A & B & C & D & E & F & G). exists g, l, k.
        split; [exact A|]. split; [exact B|]. split; [exact C|]. split; [exact D|]. split; [rewrite XD; exact E|]. split.
        * destruct F as [F|(F1 & F2 & F3)]; [now left|]. right. split; [exact F1|]. split; [rewrite XE; exact F2|].
          rewrite Xv. cbn. rewrite lset_same. destruct Hv as [Hv| ->]; [|exact F3]. exfalso.
          destruct (owner_newest q t i I) as (X & _). destruct (X Hv) as (_ & (g' & l' & A' & V' & _) & _).
          rewrite A in A'. injection A' as <- <-. assert (i = k + 1) as Y by klia. rewrite Y in D. symmetry in D. now apply succ in D.
        * intros U. exfalso. apply (U t i); [|reflexivity]. unfold owns in *. pose proof (Xo t i). tauto.
      + apply (cell_frame q); auto.
        * intros u k Ok _. exists u. unfold owns in *. pose proof (Xo u k). tauto.
        * now apply I.
    - intros u. destruct (Nat.eq_dec u t) as [->|N].
      + change (wq_pc q' t) with (tset (wq_pc q) t p t). now rewrite tset_same.
      + apply (tok_frame q); auto.
        * cbn [wq_mem q' wq_goto wtouch seen]. rewrite tset_other by auto. apply vle_refl.
        * intros c. apply incl_refl.
        * intros k Ok. assert (k mod cap <> i mod cap) as Nk by (eapply own_cells; eauto). splits; auto.
        * cbn. now rewrite tset_other.
        * apply I.
    - intros u u' k Hu Hu'. apply (w_ue _ I u u' k); now apply Xo.
    - intros u u' k Hu Hu'. apply (w_ud _ I u u' k); now apply Xo.
    - cbn. assert (ordered (seen (wq_mem q) t) (cell_data (i mod cap)) wr 0 (accs (wq_mem q)) = true) as ->; [|apply I].
      apply ordered_spec. intros e a A La _. cbn [plus]. eapply K; eauto.
  Qed.

  Lemma knows_touch (m : mem) t c wr v : knows m c (seen m t) ->
    knows (wtouch m t (cell_data c) wr v) c (seen (wtouch m t (cell_data c) wr v) t).
  Proof.
    intros K e a A La. cbn [wtouch accs seen] in *. rewrite tset_same.
    destruct (Nat.lt_ge_cases e (length (accs m))) as [L|L].
    - rewrite nth_error_app1 in A by auto. apply vle_vknow. eapply K; eauto.
    - rewrite nth_error_app2 in A by auto. destruct (e - _)%nat as [|z] eqn:Ez; [|destruct z; discriminate].
      assert (e = length (accs m)) as -> by lia. apply vknow_self.
  Qed.

  (** ** Giving a cell on *)
  Lemma step_publish q t i e s f n m' i' :
    wqinv q -> owns q t i -> ins [e] = [] -> outs [e] = 0%nat ->
    wstore (wq_mem q) t true (cell_seq (i mod cap)) s f n = Some m' ->
    (forall g l, hist (wq_mem q) (cell_seq (i mod cap)) = g :: l -> m_val g < s) ->
    i' mod cap = i mod cap -> i' < wD q + cap ->
    (s = i' \/ (s = i' + 1 /\ i' < wE q /\ plain (wq_mem q) (cell_data (i mod cap)) = wval q i')) ->
    wqinv (wq_goto q m' t WIdle [e]).
  Proof.
    intros I O Ei Eo Es Mono Mi Li Hs. unfold wstore in Es.
    destruct ((ts (seen (wq_mem q) t) (cell_seq (i mod cap)) <? n) && free f n (hist (wq_mem q) (cell_seq (i mod cap)))) eqn:F; [|discriminate].
    injection Es as <-. apply andb_true_iff in F as (F1 & F2). apply N.ltb_lt in F1.
    set (w := vat (seen (wq_mem q) t) (cell_seq (i mod cap)) n) in *.
    set (q' := wq_goto _ _ _ _ _).
    assert (ins (wq_hist q') = ins (wq_hist q)) as Xi by (cbn [wq_hist q' wq_goto]; rewrite ins_snoc, Ei; apply app_nil_r).
    assert (wE q' = wE q) as XE by (unfold wE; now rewrite Xi).
    assert (wD q' = wD q) as XD by (unfold wD; cbn [wq_hist q' wq_goto]; rewrite outs_snoc, Eo; f_equal; lia).
    assert (forall i, wval q' i = wval q i) as Xv by (intros k; unfold wval; now rewrite Xi).
    assert (forall k, ~ owns q' t k) as No by (apply calm_owns; cbn; rewrite tset_same; exact Logic.I).
    assert (forall u k, u <> t -> (owns_e q' u k <-> owns_e q u k) /\ (owns_d q' u k <-> owns_d q u k)) as Xo
      by (intros; now apply owns_other).
    assert (forall c, c <> i mod cap -> hist (wq_mem q') (cell_seq c) = hist (wq_mem q) (cell_seq c)) as Xh.
    { intros c N. cbn. apply lset_other. intros [= X]. auto. }
    assert (exists g l, hist (wq_mem q) (cell_seq (i mod cap)) = g :: l /\ m_to g <= ts (seen (wq_mem q) t) (cell_seq (i mod cap)) /\
              knows (wq_mem q) (i mod cap) (seen (wq_mem q) t)) as (g & l & Eg & Tg & K).
    { destruct (owner_newest q t i I) as (A & B). destruct O as [O|O];
        [destruct (A O) as (_ & (g & l & X) & Y)|destruct (B O) as (_ & (g & l & X) & Y)]; exists g, l; tauto. }
    assert (wE q <= wE q') as X1 by (rewrite XE; klia).
    assert (wD q <= wD q') as X2 by (rewrite XD; klia).
    assert (forall u, vle (seen (wq_mem q) u) (seen (wq_mem q') u)) as Xs.
    { intros u. cbn [wq_mem q' wq_goto with_msg seen]. destruct (Nat.eq_dec u t) as [->|N].
      - cbn [with_seen seen]. rewrite tset_same. apply vle_vat.
      - cbn [with_seen seen]. rewrite tset_other by auto. apply vle_refl. }
    split.
    - apply I.
    - rewrite XE. destruct (w_enq _ I) as (g' & l' & A). exists g', l'.
      cbn [wq_mem q' wq_goto with_msg hist]. rewrite lset_other by discriminate. exact A.
    - rewrite XD. destruct (w_deq _ I) as (g' & l' & A). exists g', l'.
      cbn [wq_mem q' wq_goto with_msg hist]. rewrite lset_other by discriminate. exact A.
    - rewrite XE, XD. apply I.
    - rewrite XE. apply I.
    - intros c Hc. destruct (N.eq_dec c (i mod cap)) as [->|N].
      + destruct (w_cell _ I _ Hc) as (g' & l' & k & A & B & C & D & E & _). rewrite Eg in A. injection A as <- <-.
        eexists _, (g :: l), i'. cbn [wq_mem q' wq_goto with_msg hist plain accs]. rewrite lset_same. cbn [with_seen hist plain accs]. rewrite Eg in F2 |- *.
        split; [reflexivity|]. split; [refine (chain_store _ _ _ _ _ _ _ B _ _ F2); [auto|klia]|]. split.
        { constructor; [exact C|]. apply Forall_forall. intros b Hb. cbn [m_val].
          pose proof (falls_le _ _ _ C Hb). specialize (Mono g l Eg). klia. }
        split; [exact Mi|]. split; [rewrite XD; exact Li|]. split; [rewrite XE, Xv; exact Hs|].
        intros _ e' a A La. apply vle_vat. eapply K; eauto.
      + apply (cell_frame q); auto.
        * intros u k Ok Mk. exists u. destruct (Nat.eq_dec u t) as [->|Nu].
          -- exfalso. assert (i = k); [|congruence].
             clear - O Ok. destruct O as [(x & [A|A])|[A|(x & A)]], Ok as [(y & [B|B])|[B|(y & B)]]; congruence.
          -- unfold owns in *. pose proof (Xo u k Nu). tauto.
        * now apply I.
    - intros u. destruct (Nat.eq_dec u t) as [->|N].
      + change (wq_pc q' t) with (tset (wq_pc q) t WIdle t). rewrite tset_same. exact Logic.I.
      + apply (tok_frame q); auto; [apply I| | | |apply I].
        * intros c b Hb. destruct (N.eq_dec c (i mod cap)) as [->|Nc]; [|now rewrite Xh].
          cbn [wq_mem q' wq_goto with_msg hist]. rewrite lset_same. now right.
        * intros k Ok. assert (k mod cap <> i mod cap) as Nk by (eapply own_cells; eauto). splits; auto.
        * cbn. now rewrite tset_other.
    - intros u u' k Hu Hu'. destruct (Nat.eq_dec u t) as [->|N]; [exfalso; apply (No k); now left|].
      destruct (Nat.eq_dec u' t) as [->|N']; [exfalso; apply (No k); now left|].
      apply Xo in Hu, Hu'; auto. eapply (w_ue _ I); eauto.
    - intros u u' k Hu Hu'. destruct (Nat.eq_dec u t) as [->|N]; [exfalso; apply (No k); now right|].
      destruct (Nat.eq_dec u' t) as [->|N']; [exfalso; apply (No k); now right|].
      apply Xo in Hu, Hu'; auto. eapply (w_ud _ I); eauto.
    - apply I.
  Qed.

  (** ** Every step *)

  Lemma load_inv (m : mem) t acq x i v m' : wload m t acq x i = Some (v, m') ->
    exists g, In g (hist m x) /\ v = m_val g /\ m' = with_seen m t (after_load (seen m t) acq x g).
  Proof.
    unfold wload. destruct (nth_error (hist m x) i) as [g|] eqn:E; [|discriminate].
    destruct (ts (seen m t) x <=? m_to g); [|discriminate]. intros [= <- <-].
    exists g. split; [eapply nth_error_In; eauto|auto].
  Qed.

  Lemma sdif_words a b : a < 2 ^ 63 -> b < 2 ^ 63 -> sdif a b = (Z.of_N a - Z.of_N b)%Z.
  Proof.
    intros A B. assert (2 ^ 63 < w64) by reflexivity.
    rewrite <- (N.mod_small a w64), <- (N.mod_small b w64) by klia.
    rewrite sdif_small; [rewrite !N.mod_small by klia; reflexivity|]. change (2 ^ 63) with 9223372036854775808 in *. lia.
  Qed.

  Lemma seq_bound q c b : wqinv q -> In b (hist (wq_mem q) (cell_seq (c mod cap))) -> m_val b < 2 ^ 63.
  Proof.
    intros I Hb. destruct (w_cell _ I _ (ltc c)) as (g & l & i & Eg & _ & F & _ & Li & V & _). rewrite Eg in Hb.
    pose proof (falls_le _ _ _ F Hb) as L. pose proof (w_bnd _ I) as B1. pose proof (w_small _ I) as B2.
    change (2 ^ 63) with (2 ^ 62 + 2 ^ 61 + 2 ^ 61). change (2 ^ 62) with 4611686018427387904 in *.
    change (2 ^ 61) with 2305843009213693952 in *. destruct V as [V|(V & _)]; klia.
  Qed.

  Lemma heard_load q t c g : In g (hist (wq_mem q) (cell_seq c)) ->
    heard (wq_mem q) (after_load (seen (wq_mem q) t) true (cell_seq c) g) c (m_val g).
  Proof.
    intros H. exists g. split; [exact H|]. split; [reflexivity|]. split; [apply after_load_acq|apply after_load_ts].
  Qed.

  Lemma inv_load q t p e acq x g :
    wqinv q -> ins e = [] -> outs e = 0%nat -> calm (wq_pc q t) -> calm p ->
    tok (wq_goto q (with_seen (wq_mem q) t (after_load (seen (wq_mem q) t) acq x g)) t p e) t p ->
    wqinv (wq_goto q (with_seen (wq_mem q) t (after_load (seen (wq_mem q) t) acq x g)) t p e).
  Proof.
    intros I A B C D Ht. apply inv_calm; auto. intros u. apply with_seen_le, after_load_le.
  Qed.

  Lemma wE_goto q m t p e : ins e = [] -> wE (wq_goto q m t p e) = wE q.
  Proof. intros E. unfold wE. cbn. unfold ins in *. now rewrite flat_map_app, E, app_nil_r. Qed.
  Lemma wD_goto q m t p e : outs e = 0%nat -> wD (wq_goto q m t p e) = wD q.
  Proof. intros E. unfold wD. cbn. unfold outs in *. rewrite filter_app, app_length, E. f_equal. lia. Qed.
  Lemma wval_goto q m t p e i : ins e = [] -> wval (wq_goto q m t p e) i = wval q i.
  Proof. intros E. unfold wval. cbn. unfold ins in *. now rewrite flat_map_app, E, app_nil_r. Qed.

  Lemma user_not_cell y c : cell_data c <> user_var y.
  Proof. discriminate. Qed.

  (** The users' own variables. *)
  Lemma step_use q t y wr : wqinv q -> wq_pc q t = WIdle ->
    wqinv (wq_goto q (wtouch (wq_mem q) t (user_var y) wr (plain (wq_mem q) (user_var y))) t WIdle []).
  Proof.
    intros I P. apply inv_calm; [exact I|reflexivity|reflexivity|rewrite P; exact Logic.I|exact Logic.I|reflexivity| | | | |].
    - intros c. reflexivity.
    - intros c v K e a A La. cbn [wtouch accs] in A. destruct (Nat.lt_ge_cases e (length (accs (wq_mem q)))) as [L|L].
      + rewrite nth_error_app1 in A by auto. eapply K; eauto.
      + rewrite nth_error_app2 in A by auto. destruct (e - _)%nat as [|z]; [|destruct z; discriminate].
        injection A as <-. cbn in La. symmetry in La. now apply user_not_cell in La.
    - intros c. cbn. destruct (ordered _ _ _ _ _); [auto|]. intros [X|X]; [|auto]. symmetry in X. now apply user_not_cell in X.
    - intros u. cbn. destruct (Nat.eq_dec u t) as [->|N]; [rewrite tset_same; apply vle_vknow|rewrite tset_other by auto; apply vle_refl].
    - exact Logic.I.
  Qed.

  Lemma wqinv_step q a q' : wqinv q -> wE q' <= 2 ^ 62 -> wqstep q a = Some q' -> wqinv q'.
  Proof.
    intros I Sm E. pose proof (w_bnd _ I) as Bd. pose proof (w_small _ I) as Sm0.
    assert (2 ^ 62 < 2 ^ 63) as P63 by reflexivity. assert (2 ^ 63 < w64) as P64 by reflexivity.
    destruct a as [t x|t|t y wr|t i f n sp]; cbn [wqstep] in E.
    - destruct (wq_pc q t) eqn:P; try discriminate. injection E as <-.
      apply inv_calm; [exact I|reflexivity|reflexivity|rewrite P; exact Logic.I|exact Logic.I|reflexivity|reflexivity|auto|auto|intros; apply vle_refl|exact Logic.I].
    - destruct (wq_pc q t) eqn:P; try discriminate. injection E as <-.
      apply inv_calm; [exact I|reflexivity|reflexivity|rewrite P; exact Logic.I|exact Logic.I|reflexivity|reflexivity|auto|auto|intros; apply vle_refl|exact Logic.I].
    - destruct (wq_pc q t) eqn:P; try discriminate. injection E as <-. now apply step_use.
    - pose proof (w_thr _ I t) as H.
      destruct (wq_pc q t) as [|x|x k|x k|x k|x k| |k|k|k|k v] eqn:P; try discriminate; cbn [tok] in H.
      + destruct (wload _ _ _ _ _) as [[pos m']|] eqn:L; [|discriminate]. injection E as <-.
        apply load_inv in L as (g & Hg & -> & ->). apply inv_load; [exact I|reflexivity|reflexivity|rewrite P; exact Logic.I|exact Logic.I|].
        cbn [tok]. rewrite wE_goto by reflexivity. destruct (w_enq _ I) as (g0 & l & Eg & _ & _ & B). apply B. now rewrite <- Eg.
      + destruct (wload _ _ _ _ _) as [[s m']|] eqn:L; [|discriminate]. rewrite (wslot q k (w_cap _ I)) in L.
        apply load_inv in L as (g & Hg & -> & ->). pose proof (seq_bound q k g I Hg) as Sb.
        rewrite sdif_words in E by klia.
        destruct (Z.eqb_spec (Z.of_N (m_val g) - Z.of_N k) 0) as [Z|Z];
          [|destruct (Z.ltb_spec (Z.of_N (m_val g) - Z.of_N k) 0)]; injection E as <-.
        * apply inv_load; [exact I|reflexivity|reflexivity|rewrite P; exact Logic.I|exact Logic.I|].
          cbn [tok]. rewrite wE_goto by reflexivity. split; [exact H|].
          cbn [wq_mem wq_goto with_seen seen]. rewrite tset_same. assert (m_val g = k) as Ek by klia.
          pose proof (heard_load q t (k mod cap) g Hg) as Hd. rewrite Ek in Hd. exact Hd.
        * apply inv_load; [exact I|reflexivity|reflexivity|rewrite P; exact Logic.I|exact Logic.I|exact Logic.I].
        * apply inv_load; [exact I|reflexivity|reflexivity|rewrite P; exact Logic.I|exact Logic.I|exact Logic.I].
      + destruct (wcas _ _ _ _ _ _ _ _ _ _ _) as [[[b fv] m']|] eqn:L; [|discriminate].
        destruct b; injection E as <-.
        * assert (fv = k) as ->.
          { unfold wcas in L. destruct (nth_error _ i) as [g|]; [|discriminate].
            destruct ((m_val g =? k) && negb sp) eqn:D; [|destruct (wload _ _ _ _ _) as [[? ?]|]; discriminate].
            destruct (wrmw _ _ _ _ _ _ _ _); [|discriminate]. injection L as <- _. apply andb_true_iff in D as (D & _). now apply N.eqb_eq. }
          eapply step_enq_cas; eauto.
          unfold wE in Sm. cbn [wq_hist wq_goto] in Sm. rewrite ins_snoc, app_length in Sm. unfold wE. cbn in Sm. klia.
        * destruct (cas_pos _ _ _ _ _ _ _ _ _ _ _ _ (w_enq _ I) L) as [(X & _)|(_ & Lf & v & Lv & ->)]; [discriminate|].
          apply inv_calm; [exact I|reflexivity|reflexivity|rewrite P; exact Logic.I|exact Logic.I|reflexivity|reflexivity|auto|auto|intros u; now apply with_seen_le|].
          cbn [tok]. now rewrite wE_goto by reflexivity.
      + injection E as <-. rewrite (wslot q k (w_cap _ I)). destruct H as (H1 & H2 & H3 & H4).
        assert (owns_e q t k) as O by (exists x; auto).
        apply (step_data q t (WEPub x k) k true (Some x)); auto.
        * now left.
        * intros i' (y & [A|A]); rewrite P in A; [|discriminate]. injection A as <- <-. exists x; right; cbn; now rewrite tset_same.
        * intros i' [A|(y & A)]; rewrite P in A; discriminate.
        * intros i' (y & [A|A]); cbn in A; rewrite tset_same in A; [discriminate|]. injection A as <- <-. exact O.
        * intros i' [A|(y & A)]; cbn in A; rewrite tset_same in A; discriminate.
        * cbn [tok]. rewrite wE_goto, wval_goto by reflexivity. split; [exact H1|]. split; [|split; [|split; [exact H4|]]].
          -- cbn [wq_mem wq_goto wwrite wtouch seen]. rewrite tset_same. eapply newest_le; [apply vle_vknow|exact H2].
          -- apply knows_touch, H3.
          -- cbn. apply lset_same.
      + destruct (wstore _ _ _ _ _ _ _) as [m'|] eqn:L; [|discriminate]. injection E as <-.
        rewrite (wslot q k (w_cap _ I)) in L. destruct H as (H1 & H2 & H3 & H4 & H5).
        assert (owns q t k) as O by (left; exists x; auto).
        rewrite (N.mod_small (k + 1)) in L by klia.
        eapply (step_publish q t k _ (k + 1) f n m' k); eauto.
        * intros g l Eg. destruct H2 as (g' & l' & Eg' & V & _). rewrite Eg in Eg'. injection Eg' as <- <-. klia.
        * destruct (w_cell _ I _ (ltc k)) as (g & l & z & Eg & _ & _ & Mz & Lz & Vz & _).
          destruct H2 as (g' & l' & Eg' & V & _). rewrite Eg in Eg'. injection Eg' as <- <-.
          destruct Vz as [Vz|(Vz & _)]; [klia|]. exfalso. assert (k = z + 1) as Y by klia. rewrite Y in Mz. symmetry in Mz. now apply succ in Mz.
        * right. split; [reflexivity|]. split; [exact H1|]. congruence.
      + destruct (wload _ _ _ _ _) as [[pos m']|] eqn:L; [|discriminate]. injection E as <-.
        apply load_inv in L as (g & Hg & -> & ->). apply inv_load; [exact I|reflexivity|reflexivity|rewrite P; exact Logic.I|exact Logic.I|].
        cbn [tok]. rewrite wD_goto by reflexivity. destruct (w_deq _ I) as (g0 & l & Eg & _ & _ & B). apply B. now rewrite <- Eg.
      + destruct (wload _ _ _ _ _) as [[s m']|] eqn:L; [|discriminate]. rewrite (wslot q k (w_cap _ I)) in L.
        apply load_inv in L as (g & Hg & -> & ->). pose proof (seq_bound q k g I Hg) as Sb.
        rewrite (N.mod_small (k + 1)) in E by klia. rewrite sdif_words in E by (change (2 ^ 63) with (2 ^ 62 + 2 ^ 62) in *; change (2 ^ 62) with 4611686018427387904 in *; klia).
        destruct (Z.eqb_spec (Z.of_N (m_val g) - Z.of_N (k + 1)) 0) as [Z|Z];
          [|destruct (Z.ltb_spec (Z.of_N (m_val g) - Z.of_N (k + 1)) 0)]; injection E as <-.
        * apply inv_load; [exact I|reflexivity|reflexivity|rewrite P; exact Logic.I|exact Logic.I|].
          cbn [tok]. rewrite wD_goto by reflexivity. split; [exact H|].
          cbn [wq_mem wq_goto with_seen seen]. rewrite tset_same. assert (m_val g = k + 1) as Ek by klia.
          pose proof (heard_load q t (k mod cap) g Hg) as Hd. rewrite Ek in Hd. exact Hd.
        * apply inv_load; [exact I|reflexivity|reflexivity|rewrite P; exact Logic.I|exact Logic.I|exact Logic.I].
        * apply inv_load; [exact I|reflexivity|reflexivity|rewrite P; exact Logic.I|exact Logic.I|exact Logic.I].
      + destruct (wcas _ _ _ _ _ _ _ _ _ _ _) as [[[b fv] m']|] eqn:L; [|discriminate].
        destruct b; injection E as <-.
        * assert (fv = k) as ->.
          { unfold wcas in L. destruct (nth_error _ i) as [g|]; [|discriminate].
            destruct ((m_val g =? k) && negb sp) eqn:D; [|destruct (wload _ _ _ _ _) as [[? ?]|]; discriminate].
            destruct (wrmw _ _ _ _ _ _ _ _); [|discriminate]. injection L as <- _. apply andb_true_iff in D as (D & _). now apply N.eqb_eq. }
          eapply step_deq_cas; eauto.
        * destruct (cas_pos _ _ _ _ _ _ _ _ _ _ _ _ (w_deq _ I) L) as [(X & _)|(_ & Lf & v & Lv & ->)]; [discriminate|].
          apply inv_calm; [exact I|reflexivity|reflexivity|rewrite P; exact Logic.I|exact Logic.I|reflexivity|reflexivity|auto|auto|intros u; now apply with_seen_le|].
          cbn [tok]. now rewrite wD_goto by reflexivity.
      + cbn [wread] in E. injection E as <-. rewrite (wslot q k (w_cap _ I)). destruct H as (H1 & H2 & H3).
        assert (owns_d q t k) as O by (left; auto).
        apply (step_data q t _ k false (plain (wq_mem q) (cell_data (k mod cap)))); auto.
        * now right.
        * intros i' (y & [A|A]); rewrite P in A; discriminate.
        * intros i' [A|(y & A)]; rewrite P in A; [|discriminate]. injection A as <-. right. eexists. cbn. now rewrite tset_same.
        * intros i' (y & [A|A]); cbn in A; rewrite tset_same in A; discriminate.
        * intros i' [A|(y & A)]; cbn in A; rewrite tset_same in A; [discriminate|]. injection A as <- _. exact O.
        * cbn [tok]. rewrite wD_goto, wval_goto by reflexivity. split; [exact H1|]. split; [|split].
          -- cbn [wq_mem wq_goto wtouch seen]. rewrite tset_same. eapply newest_le; [apply vle_vknow|exact H2].
          -- apply knows_touch, H3.
          -- destruct (w_cell _ I _ (ltc k)) as (g & l & z & Eg & _ & _ & Mz & Lz & Vz & _).
             destruct H2 as (g' & l' & Eg' & V & _). rewrite Eg in Eg'. injection Eg' as <- <-.
             destruct Vz as [Vz|(Vz & _ & D)].
             ++ exfalso. assert (z = k + 1) as Y by klia. rewrite Y in Mz. now apply succ in Mz.
             ++ assert (z = k) as -> by klia. exact D.
      + destruct (wstore _ _ _ _ _ _ _) as [m'|] eqn:L; [|discriminate]. injection E as <-.
        rewrite (wslot q k (w_cap _ I)) in L. destruct H as (H1 & H2 & H3 & H4).
        assert (owns q t k) as O by (right; right; exists v; auto).
        rewrite (w_cap _ I) in L. replace (k + (cap - 1) + 1) with (k + cap) in L by klia.
        rewrite (N.mod_small (k + cap)) in L by (change (2 ^ 63) with (2 ^ 62 + 2 ^ 62) in *; change (2 ^ 62) with 4611686018427387904 in *; change (2 ^ 61) with 2305843009213693952 in *; klia).
        eapply (step_publish q t k _ (k + cap) f n m' (k + cap)); eauto.
        * intros g l Eg. destruct H2 as (g' & l' & Eg' & V & _). rewrite Eg in Eg'. injection Eg' as <- <-. klia.
        * klia.
  Qed.

  Lemma wq_new_inv : wqinv (wq_new cap).
  Proof.
    split.
    - reflexivity.
    - eexists _, []. split; [reflexivity|]. split; [constructor; cbn; lia|]. split; [reflexivity|].
      intros b [<-|[]]. cbn. lia.
    - eexists _, []. split; [reflexivity|]. split; [constructor; cbn; lia|]. split; [reflexivity|].
      intros b [<-|[]]. cbn. lia.
    - cbn. lia.
    - cbn. lia.
    - intros c Hc. eexists _, [], c. split; [reflexivity|]. split; [constructor; cbn; lia|].
      split; [constructor; constructor|]. split; [now apply N.mod_small|]. split; [cbn; klia|].
      split; [left; reflexivity|]. intros _ e a A. destruct e; discriminate.
    - intros t. exact Logic.I.
    - intros t u i (x & [A|A]); discriminate.
    - intros t u i [A|(x & A)]; discriminate.
    - intros c [].
  Qed.

  (** ** What the history says *)

  Definition wcstate (p : wpc T) : call_state T :=
    match p with
    | WIdle => NoCall
    | WEPos x | WESeq x _ | WECas x _ => Enqueuing x
    | WEData x _ | WEPub x _ => EnqueuePlaced x
    | WDPos | WDSeq _ | WDCas _ => Dequeuing
    | WDData _ | WDPub _ _ => DequeuePlaced
    end.

  Record whinv (q : wqueue) : Prop := {
    h_calls : forall t, calls_to t (wq_hist q) (wcstate (wq_pc q t));
    h_open : forall t i, owns_d q t i -> deq_open (wq_hist q) t i;
    h_ret : ret_ok (wq_hist q);
  }.

  Lemma whinv_goto q m t p e :
    whinv q -> (length e <= 1)%nat -> (forall y, In y e -> q_actor y = t) ->
    calls_to t (wq_hist q ++ e) (wcstate p) ->
    (forall i, (p = WDData i \/ exists v, p = WDPub i v) -> deq_open (wq_hist q ++ e) t i) ->
    ret_ok (wq_hist q ++ e) -> whinv (wq_goto q m t p e).
  Proof.
    intros I L A C O R. split.
    - intros u. cbn [wq_hist wq_pc wq_goto]. destruct (Nat.eq_dec u t) as [->|N]; [now rewrite tset_same|].
      rewrite tset_other by auto. destruct e as [|y [|z e]]; [rewrite app_nil_r; apply I| |cbn in L; lia].
      apply calls_other; [apply I|]. rewrite (A y) by now left. auto.
    - intros u i Ou. cbn [wq_hist wq_goto]. destruct (Nat.eq_dec u t) as [->|N].
      + apply O. unfold owns_d in Ou. cbn in Ou. rewrite tset_same in Ou. exact Ou.
      + apply owns_other in Ou; auto. apply I in Ou.
        destruct e as [|y [|z e]]; [rewrite app_nil_r; exact Ou| |cbn in L; lia].
        apply deq_open_snoc; auto. rewrite (A y) by now left. auto.
    - exact R.
  Qed.

  Lemma whinv_step q a q' : wqinv q -> whinv q -> wqstep q a = Some q' -> whinv q'.
  Proof.
    intros W I E.
    assert (forall m t p, wcstate p = wcstate (wq_pc q t) ->
              (forall i, (p = WDData i \/ exists v, p = WDPub i v) -> owns_d q t i) -> whinv (wq_goto q m t p [])) as Quiet.
    { intros m t p C O. apply whinv_goto; auto.
      - intros y [].
      - rewrite app_nil_r, C. apply I.
      - intros i Hi. rewrite app_nil_r. apply I, O, Hi.
      - rewrite app_nil_r. apply I. }
    assert (forall m t p e, q_actor e = t -> call_next (wcstate (wq_pc q t)) e (wcstate p) ->
              (forall i, ~ (p = WDData i \/ exists v, p = WDPub i v)) -> (forall u v, e <> DeqReturned u v) ->
              whinv (wq_goto q m t p [e])) as One.
    { intros m t p e A C N R. apply whinv_goto; auto.
      - intros y [<-|[]]. exact A.
      - eapply calls_own; [apply I|exact A|exact C].
      - intros i Hi. now apply N in Hi.
      - apply ret_ok_snoc; [apply I|exact R]. }
    assert (forall (p : wpc T), calm p -> forall i, ~ (p = WDData i \/ exists v, p = WDPub i v)) as Nc.
    { intros p C i [->|(v & ->)]; exact C. }
    destruct a as [t x|t|t y wr|t i f n sp]; cbn [wqstep] in E.
    - destruct (wq_pc q t) eqn:P; try discriminate. injection E as <-.
      apply One; try discriminate; [reflexivity|rewrite P; reflexivity|apply Nc; exact Logic.I].
    - destruct (wq_pc q t) eqn:P; try discriminate. injection E as <-.
      apply One; try discriminate; [reflexivity|rewrite P; reflexivity|apply Nc; exact Logic.I].
    - destruct (wq_pc q t) eqn:P; try discriminate. injection E as <-.
      apply Quiet; [now rewrite P|]. intros z [X|(v & X)]; discriminate.
    - destruct (wq_pc q t) as [|x|x k|x k|x k|x k| |k|k|k|k v] eqn:P; try discriminate.
      + destruct (wload _ _ _ _ _) as [[pos m']|]; [|discriminate]. injection E as <-.
        apply Quiet; [now rewrite P|]. intros z [X|(y & X)]; discriminate.
      + destruct (wload _ _ _ _ _) as [[s m']|]; [|discriminate].
        destruct (sdif s k =? 0)%Z; [|destruct (sdif s k <? 0)%Z]; injection E as <-.
        * apply Quiet; [now rewrite P|]. intros z [X|(y & X)]; discriminate.
        * apply One; try discriminate; [reflexivity|rewrite P; reflexivity|apply Nc; exact Logic.I].
        * apply Quiet; [now rewrite P|]. intros z [X|(y & X)]; discriminate.
      + destruct (wcas _ _ _ _ _ _ _ _ _ _ _) as [[[b fv] m']|]; [|discriminate]. destruct b; injection E as <-.
        * apply One; try discriminate; [reflexivity|rewrite P; cbn; auto|]. intros z [X|(y & X)]; discriminate.
        * apply Quiet; [now rewrite P|]. intros z [X|(y & X)]; discriminate.
      + injection E as <-. apply Quiet; [now rewrite P|]. intros z [X|(y & X)]; discriminate.
      + destruct (wstore _ _ _ _ _ _ _) as [m'|]; [|discriminate]. injection E as <-.
        apply One; try discriminate; [reflexivity|rewrite P; reflexivity|apply Nc; exact Logic.I].
      + destruct (wload _ _ _ _ _) as [[pos m']|]; [|discriminate]. injection E as <-.
        apply Quiet; [now rewrite P|]. intros z [X|(y & X)]; discriminate.
      + destruct (wload _ _ _ _ _) as [[s m']|]; [|discriminate].
        destruct (sdif s ((k + 1) mod w64) =? 0)%Z; [|destruct (sdif s ((k + 1) mod w64) <? 0)%Z]; injection E as <-.
        * apply Quiet; [now rewrite P|]. intros z [X|(y & X)]; discriminate.
        * apply One; try discriminate; [reflexivity|rewrite P; reflexivity|apply Nc; exact Logic.I].
        * apply Quiet; [now rewrite P|]. intros z [X|(y & X)]; discriminate.
      + destruct (wcas _ _ _ _ _ _ _ _ _ _ _) as [[[b fv] m']|] eqn:L; [|discriminate]. destruct b; injection E as <-.
        * destruct (cas_pos _ _ _ _ _ _ _ _ _ _ _ _ (w_deq _ W) L) as [(_ & -> & _)|(X & _)]; [|discriminate].
          apply whinv_goto; auto.
          -- intros y [<-|[]]. reflexivity.
          -- eapply calls_own; [apply I|reflexivity|]. rewrite P. reflexivity.
          -- intros z [X|(y & X)]; [|discriminate]. injection X as <-. exists (wq_hist q), []. split; [reflexivity|].
             split; [reflexivity|]. intros y [].
          -- apply ret_ok_snoc; [apply I|discriminate].
        * apply Quiet; [now rewrite P|]. intros z [X|(y & X)]; discriminate.
      + cbn [wread] in E. injection E as <-. apply Quiet; [now rewrite P|].
        intros z [X|(y & X)]; [discriminate|]. injection X as <- _. now left.
      + destruct (wstore _ _ _ _ _ _ _) as [m'|]; [|discriminate]. injection E as <-.
        pose proof (w_thr _ W t) as H. rewrite P in H. cbn [tok] in H. destruct H as (H1 & _ & _ & H4).
        assert (owns_d q t k) as O by (right; exists v; auto). apply (h_open _ I) in O as (a & b & Eh & Oa & Hb).
        apply whinv_goto; auto.
        * intros y [<-|[]]. reflexivity.
        * eapply calls_own; [apply I|reflexivity|]. rewrite P. reflexivity.
        * intros z [X|(y & X)]; discriminate.
        * pose proof (w_bnd _ W) as Bd. unfold wval in H4.
          destruct (nth_error (ins (wq_hist q)) (N.to_nat k)) as [x|] eqn:Ex.
          -- eapply ret_ok_return; [apply I|exact Eh|exact Hb|exact H4|]. rewrite <- Ex. f_equal. klia.
          -- exfalso. apply nth_error_None in Ex. unfold wE in *. klia.
  Qed.

  Lemma whinv_new : whinv (wq_new cap).
  Proof.
    split.
    - intros t. constructor.
    - intros t i [A|(v & A)]; discriminate.
    - intros p t m v s E. destruct p; discriminate.
  Qed.

  (** At most one item is placed per step. *)
  Lemma wE_step q a q' : wqstep q a = Some q' -> wE q' <= wE q + 1.
  Proof.
    assert (forall m t p e, (length (ins e) <= 1)%nat -> wE (wq_goto q m t p e) <= wE q + 1) as X.
    { intros m t p e L. unfold wE. cbn. unfold ins in *. rewrite flat_map_app, app_length. lia. }
    destruct a as [t x|t|t y wr|t i f n sp]; cbn [wqstep].
    - destruct (wq_pc q t); try discriminate. intros [= <-]. apply X. cbn. lia.
    - destruct (wq_pc q t); try discriminate. intros [= <-]. apply X. cbn. lia.
    - destruct (wq_pc q t); try discriminate. intros [= <-]. apply X. cbn. lia.
    - destruct (wq_pc q t); try discriminate.
      all: repeat match goal with
      | |- match wload ?a ?b ?c ?d ?e with _ => _ end = _ -> _ => destruct (wload a b c d e) as [[? ?]|]; [|discriminate]
      | |- match wcas ?a ?b ?c ?d ?e ?f ?g ?h ?i ?k ?l with _ => _ end = _ -> _ => destruct (wcas a b c d e f g h i k l) as [[[[] ?] ?]|]; [| |discriminate]
      | |- match wstore ?a ?b ?c ?d ?e ?f ?g with _ => _ end = _ -> _ => destruct (wstore a b c d e f g) as [?|]; [|discriminate]
      | |- (let '(_, _) := wread ?a ?b ?c in _) = _ -> _ => cbn [wread]
      end; cbv zeta.
      all: repeat match goal with |- (if ?b then _ else _) = _ -> _ => destruct b end.
      all: intros [= <-]; apply X; cbn; lia.
  Qed.

  Lemma wE_run sched : forall q, wE (run wqstep q sched) <= wE q + N.of_nat (length sched).
  Proof.
    induction sched as [|a r IH]; intros q; cbn [run length]; [lia|]. specialize (IH (move wqstep q a)).
    assert (wE (move wqstep q a) <= wE q + 1).
    { unfold move. destruct (wqstep q a) eqn:E; [now apply wE_step in E|lia]. }
    lia.
  Qed.

  Lemma wqueue_run_inv sched : N.of_nat (length sched) <= 2 ^ 62 ->
    wqinv (wqueue_run cap sched) /\ whinv (wqueue_run cap sched).
  Proof.
    induction sched as [|a r IH] using rev_ind; intros L.
    - split; [apply wq_new_inv|apply whinv_new].
    - rewrite app_length in L. cbn in L. destruct IH as (A & B); [lia|].
      unfold wqueue_run in *. rewrite run_snoc. unfold move. destruct (wqstep _ a) as [q'|] eqn:E; [|auto].
      split; [|eapply whinv_step; eauto]. eapply wqinv_step; eauto.
      apply wE_step in E. pose proof (wE_run r (wq_new cap)) as X. change (wE (wq_new cap)) with 0 in X. lia.
  Qed.

  (** ** Handing over *)

  Definition mem_le (m m' : mem) : Prop :=
    (forall x, incl (hist m x) (hist m' x)) /\ forall u, vle (seen m u) (seen m' u).

  Lemma mem_le_refl m : mem_le m m.
  Proof. split; intros; [apply incl_refl|apply vle_refl]. Qed.

  Lemma mem_le_seen m t v : vle (seen m t) v -> mem_le m (with_seen m t v).
  Proof. intros L. split; [intros; apply incl_refl|]. intros u. now apply with_seen_le. Qed.

  Lemma mem_le_msg m t v x g : vle (seen m t) v -> mem_le m (with_msg (with_seen m t v) x g).
  Proof.
    intros L. split; [|intros u; now apply (with_seen_le m t v u)].
    intros y b Hb. cbn. unfold lset. destruct (loc_eqb y x) eqn:E; [|exact Hb]. apply loc_eqb_eq in E as ->. now right.
  Qed.

  Lemma mem_le_touch m t x wr v : mem_le m (wtouch m t x wr v).
  Proof.
    split; [intros; apply incl_refl|]. intros u. cbn.
    destruct (Nat.eq_dec u t) as [->|N]; [rewrite tset_same; apply vle_vknow|rewrite tset_other by auto; apply vle_refl].
  Qed.

  Lemma mem_le_store m t rel x v f n m' : wstore m t rel x v f n = Some m' -> mem_le m m'.
  Proof. unfold wstore. destruct (_ && _); [|discriminate]. intros [= <-]. apply mem_le_msg, vle_vat. Qed.

  Lemma mem_le_load m t acq x i v m' : wload m t acq x i = Some (v, m') -> mem_le m m'.
  Proof. intros L. apply load_inv in L as (g & _ & _ & ->). apply mem_le_seen, after_load_le. Qed.

  Lemma mem_le_cas m t a r fa x e d i n sp b v m' : wcas m t a r fa x e d i n sp = Some (b, v, m') -> mem_le m m'.
  Proof.
    unfold wcas. destruct (nth_error _ i) as [g|]; [|discriminate]. destruct (_ && _).
    - unfold wrmw. destruct (_ && _); [|discriminate]. intros [= _ _ <-]. apply mem_le_msg.
      eapply vle_trans; [apply after_load_le|apply vle_vat].
    - destruct (wload m t fa x i) as [[w m1]|] eqn:L; [|discriminate]. intros [= _ _ <-]. eapply mem_le_load; eauto.
  Qed.

  Lemma step_mem_le q a q' : wqstep q a = Some q' -> mem_le (wq_mem q) (wq_mem q').
  Proof.
    destruct a as [t x|t|t y wr|t i f n sp]; cbn [wqstep].
    - destruct (wq_pc q t); try discriminate. intros [= <-]. apply mem_le_refl.
    - destruct (wq_pc q t); try discriminate. intros [= <-]. apply mem_le_refl.
    - destruct (wq_pc q t); try discriminate. intros [= <-]. apply mem_le_touch.
    - destruct (wq_pc q t); try discriminate.
      all: repeat match goal with
      | |- match wload ?a ?b ?c ?d ?e with _ => _ end = _ -> _ => let E := fresh "L" in destruct (wload a b c d e) as [[? ?]|] eqn:E; [apply mem_le_load in E|discriminate]
      | |- match wcas ?a ?b ?c ?d ?e ?f ?g ?h ?i ?k ?l with _ => _ end = _ -> _ => let E := fresh "L" in destruct (wcas a b c d e f g h i k l) as [[[[] ?] ?]|] eqn:E; [apply mem_le_cas in E|apply mem_le_cas in E|discriminate]
      | |- match wstore ?a ?b ?c ?d ?e ?f ?g with _ => _ end = _ -> _ => let E := fresh "L" in destruct (wstore a b c d e f g) as [?|] eqn:E; [apply mem_le_store in E|discriminate]
      | |- (let '(_, _) := wread ?a ?b ?c in _) = _ -> _ => cbn [wread]
      end; cbv zeta.
      all: repeat match goal with |- (if ?b then _ else _) = _ -> _ => destruct b end.
      all: intros [= <-]; cbn [wq_mem wq_goto]; first [assumption|apply mem_le_touch].
  Qed.

  Ltac split_step :=
    repeat match goal with
    | |- match wload ?a ?b ?c ?d ?e with _ => _ end = _ -> _ => destruct (wload a b c d e) as [[? ?]|]; [|discriminate]
    | |- match wcas ?a ?b ?c ?d ?e ?f ?g ?h ?i ?k ?l with _ => _ end = _ -> _ =>
        let E := fresh "L" in destruct (wcas a b c d e f g h i k l) as [[[[] ?] ?]|] eqn:E; [| |discriminate]
    | |- match wstore ?a ?b ?c ?d ?e ?f ?g with _ => _ end = _ -> _ => destruct (wstore a b c d e f g) as [?|]; [|discriminate]
    | |- (let '(_, _) := wread ?a ?b ?c in _) = _ -> _ => cbn [wread]
    end; cbv zeta;
    repeat match goal with |- (if ?b then _ else _) = _ -> _ => destruct b end.

  (** What a step does to the history. *)
  Lemma step_shape q a q' : wqinv q -> wqstep q a = Some q' ->
    exists u m p e, q' = wq_goto q m u p e /\
      (e = [] \/ exists y, e = [y] /\ q_actor y = u) /\
      (forall x i, p = WEData x i \/ p = WEPub x i ->
         (e = [] /\ (wq_pc q u = WEData x i \/ wq_pc q u = WEPub x i)) \/ (e = [EnqPlaced u x] /\ i = wE q)) /\
      (forall t v, In (DeqReturned t v) e -> t = u /\ exists k, wq_pc q u = WDPub k v).
  Proof.
    intros I. destruct a as [t x|t|t y wr|t i f n sp]; cbn [wqstep].
    - destruct (wq_pc q t) eqn:P; try discriminate. intros [= <-]. do 4 eexists. split; [reflexivity|].
      split; [right; eexists; split; reflexivity|]. split; [intros ? ? [X|X]; discriminate|intros ? ? [X|[]]; discriminate].
    - destruct (wq_pc q t) eqn:P; try discriminate. intros [= <-]. do 4 eexists. split; [reflexivity|].
      split; [right; eexists; split; reflexivity|]. split; [intros ? ? [X|X]; discriminate|intros ? ? [X|[]]; discriminate].
    - destruct (wq_pc q t) eqn:P; try discriminate. intros [= <-]. do 4 eexists. split; [reflexivity|].
      split; [left; reflexivity|]. split; [intros ? ? [X|X]; discriminate|intros ? ? []].
    - destruct (wq_pc q t) as [|x|x k|x k|x k|x k| |k|k|k|k v] eqn:P; try discriminate.
      all: split_step.
      all: intros [= <-]; do 4 eexists; (split; [reflexivity|]).
      all: split; [first [left; reflexivity|right; eexists; split; reflexivity]|].
      all: split; [intros ? ? [X|X]; try discriminate X; injection X as <- <-; rewrite P; auto|].
      all: try match goal with |- _ \/ _ => right; split; [reflexivity|];
        now destruct (cas_pos _ _ _ _ _ _ _ _ _ _ _ _ (w_enq _ I) L) as [(_ & -> & _)|(X & _)] end.
      all: try solve [intros ? ? []].
      all: intros ? ? [X|[]]; try discriminate X; injection X as <- <-; (split; [reflexivity|eexists; exact P]).
  Qed.

  (** An item that is placed and not yet published is that of a running call. *)
  Definition eopen (q : wqueue) : Prop :=
    forall t x i, wq_pc q t = WEData x i \/ wq_pc q t = WEPub x i -> enq_open (wq_hist q) t x i.
  (** Whoever has dequeued has heard of the item being published. *)
  Definition told (q : wqueue) : Prop :=
    forall a u b v r, wq_hist q = a ++ DeqPlaced u :: b ++ DeqReturned u v :: r -> (forall e, In e b -> q_actor e <> u) ->
    heard (wq_mem q) (seen (wq_mem q) u) (N.of_nat (outs a) mod cap) (N.of_nat (outs a) + 1).

  Lemma heard_mem m m' u c s : mem_le m m' -> heard m (seen m u) c s -> heard m' (seen m' u) c s.
  Proof.
    intros (Lh & Ls) (b & Hb & V & L & Tm). exists b. split; [now apply Lh|]. split; [exact V|].
    split; [eapply vle_trans; [exact L|apply Ls]|]. destruct (Ls u) as (X & _). specialize (X (cell_seq c)). lia.
  Qed.

  Lemma eopen_step q a q' : wqinv q -> eopen q -> wqstep q a = Some q' -> eopen q'.
  Proof.
    intros I O E. destruct (step_shape q a q' I E) as (u & m & p & e & -> & A & B & _).
    intros t x i Ht. cbn [wq_goto wq_pc wq_hist] in *. destruct (Nat.eq_dec t u) as [->|N].
    - rewrite tset_same in Ht. apply B in Ht as [(-> & Ht)|(-> & ->)].
      + rewrite app_nil_r. now apply O.
      + exists (wq_hist q), []. split; [reflexivity|]. split; [reflexivity|]. intros y [].
    - rewrite tset_other in Ht by auto. apply O in Ht. destruct A as [->|(y & -> & Hy)]; [now rewrite app_nil_r|].
      apply enq_open_snoc; [congruence|exact Ht].
  Qed.

  Lemma told_step q a q' : wqinv q -> whinv q -> told q -> wqstep q a = Some q' -> told q'.
  Proof.
    intros I H O E. pose proof (step_mem_le q a q' E) as Le.
    destruct (step_shape q a q' I E) as (u & m & p & e & -> & A & _ & B).
    intros h1 t h2 v h3 Eh Hb. apply (heard_mem (wq_mem q)); [exact Le|]. cbn [wq_goto wq_hist] in Eh.
    destruct A as [->|(y & -> & Hy)]; [rewrite app_nil_r in Eh; eapply O; eauto|].
    change (h1 ++ DeqPlaced t :: h2 ++ DeqReturned t v :: h3) with (h1 ++ (DeqPlaced t :: h2) ++ DeqReturned t v :: h3) in Eh.
    rewrite app_assoc in Eh. apply snoc_split in Eh as [(-> & X & Y)|(s' & -> & X)].
    - subst y. destruct (B t v (or_introl eq_refl)) as (-> & k & P). pose proof (w_thr _ I u) as Hu. rewrite P in Hu. cbn [tok] in Hu.
      destruct Hu as (_ & Nw & _). assert (owns_d q u k) as Ok by (right; eauto).
      apply (h_open _ H) in Ok as (c & d & Ec & <- & Hd). rewrite Ec in X.
      apply (last_split (fun e => q_actor e = u)) in X as (-> & _ & _); auto. now apply newest_heard.
    - rewrite <- app_assoc in X. eapply O; eauto.
  Qed.

  Lemma wqueue_run_told sched : N.of_nat (length sched) <= 2 ^ 62 ->
    eopen (wqueue_run cap sched) /\ told (wqueue_run cap sched).
  Proof.
    induction sched as [|a r IH] using rev_ind; intros L.
    - split; [intros t x i [X|X]; discriminate|]. intros h1 u h2 v h3 E. destruct h1; discriminate.
    - rewrite app_length in L. cbn in L. destruct IH as (A & B); [lia|]. destruct (wqueue_run_inv r ltac:(lia)) as (I & H).
      unfold wqueue_run in *. rewrite run_snoc. unfold move. destruct (wqstep _ a) as [q'|] eqn:E; [|auto].
      split; [eapply eopen_step|eapply told_step]; eauto.
  Qed.

  (** Item [k] is still to be published by [t], who has heard of [K], or has been
      published with [K]. *)
  Definition carried (K : view) (t : tid) (k : N) (q : wqueue) : Prop :=
    (owns_e q t k /\ vle K (seen (wq_mem q) t)) \/
    exists b, In b (hist (wq_mem q) (cell_seq (k mod cap))) /\ m_val b = k + 1 /\ vle K (m_view b).

  Lemma carried_step K t k q a q' : wqinv q -> carried K t k q -> wqstep q a = Some q' -> carried K t k q'.
  Proof.
    intros I C E. pose proof (step_mem_le q a q' E) as (Lh & Ls).
    destruct C as [(P & L)|(b & A & B & D)]; [|right; exists b; split; [now apply Lh|auto]].
    destruct (step_shape q a q' I E) as (u & m & p & e & Eq & _).
    destruct (Nat.eq_dec u t) as [->|N].
    - destruct P as (x & P). clear Eq m p e.
      destruct a as [u' y|u'|u' y wr|u' i f n sp]; cbn [wqstep] in E.
      + destruct (Nat.eq_dec u' t) as [->|N]; [destruct P as [P|P]; rewrite P in E; discriminate|].
        left. split; [|eapply vle_trans; [exact L|apply Ls]]. destruct (wq_pc q u'); try discriminate. injection E as <-.
        exists x. cbn. now rewrite tset_other by auto.
      + destruct (Nat.eq_dec u' t) as [->|N]; [destruct P as [P|P]; rewrite P in E; discriminate|].
        left. split; [|eapply vle_trans; [exact L|apply Ls]]. destruct (wq_pc q u'); try discriminate. injection E as <-.
        exists x. cbn. now rewrite tset_other by auto.
      + destruct (Nat.eq_dec u' t) as [->|N]; [destruct P as [P|P]; rewrite P in E; discriminate|].
        left. split; [|eapply vle_trans; [exact L|apply Ls]]. destruct (wq_pc q u'); try discriminate. injection E as <-.
        exists x. cbn. now rewrite tset_other by auto.
      + destruct (Nat.eq_dec u' t) as [->|N].
        * destruct P as [P|P]; rewrite P in E.
          -- left. split; [|eapply vle_trans; [exact L|apply Ls]]. injection E as <-. exists x. right. cbn. now rewrite tset_same.
          -- destruct (wstore _ _ _ _ _ _ _) as [m'|] eqn:W; [|discriminate]. injection E as E. subst q'. rewrite (wslot q k (w_cap _ I)) in W.
             right. unfold wstore in W. destruct (_ && _); [|discriminate]. injection W as W. rewrite <- W.
             eexists. cbn [wq_mem wq_goto with_msg hist]. rewrite lset_same. split; [left; reflexivity|]. cbn [m_val m_view]. split.
             ++ pose proof (w_thr _ I t) as H. rewrite P in H. cbn [tok] in H. pose proof (w_small _ I). apply N.mod_small.
                assert (2 ^ 62 < w64) by reflexivity. klia.
             ++ eapply vle_trans; [exact L|apply vle_vat].
        * left. split; [|eapply vle_trans; [exact L|apply Ls]]. revert E. destruct (wq_pc q u'); try discriminate.
          all: split_step; intros [= <-]; exists x; cbn; now rewrite tset_other by auto.
    - left. split; [|eapply vle_trans; [exact L|apply Ls]]. destruct P as (x & P). exists x. rewrite Eq. cbn. now rewrite tset_other by auto.
  Qed.

  Lemma falls_unique l a b : falls l -> In a l -> In b l -> m_val a = m_val b -> a = b.
  Proof.
    induction l as [|g l IH]; intros F Ha Hb E; [destruct Ha|]. pose proof F as F0.
    apply StronglySorted_inv in F as (F & F'). rewrite Forall_forall in F'.
    destruct Ha as [->|Ha], Hb as [->|Hb]; auto.
    - apply F' in Hb. lia.
    - apply F' in Ha. lia.
  Qed.

  Lemma carried_heard K t k q u : wqinv q -> carried K t k q -> heard (wq_mem q) (seen (wq_mem q) u) (k mod cap) (k + 1) ->
    vle K (seen (wq_mem q) u).
  Proof.
    intros I C (b & Hb & Vb & Lb & _).
    destruct (w_cell _ I _ (ltc k)) as (g & l & i & Eg & _ & F & _). destruct C as [((x & P) & L)|(b' & A & B & D)].
    - exfalso. pose proof (w_thr _ I t) as H.
      assert (newest (wq_mem q) (seen (wq_mem q) t) (k mod cap) k) as (g' & l' & Eg' & V & _).
      { destruct P as [P|P]; rewrite P in H; cbn [tok] in H; tauto. }
      rewrite Eg in Eg', Hb. injection Eg' as <- <-. pose proof (falls_le _ _ _ F Hb). klia.
    - assert (b' = b) as -> by (rewrite <- Eg in F; eapply falls_unique; eauto; congruence). eapply vle_trans; eauto.
  Qed.

  Lemma hand_over (s1 s2 : list (wqact T)) a t (x : T) b a' u b' v r :
    N.of_nat (length (s1 ++ s2)) <= 2 ^ 62 ->
    wq_hist (wqueue_run cap s1) = a ++ EnqPlaced t x :: b -> (forall e, In e b -> q_actor e <> t) ->
    wq_hist (wqueue_run cap (s1 ++ s2)) = a' ++ DeqPlaced u :: b' ++ DeqReturned u v :: r -> (forall e, In e b' -> q_actor e <> u) ->
    outs a' = length (ins a) ->
    vle (seen (wq_mem (wqueue_run cap s1)) t) (seen (wq_mem (wqueue_run cap (s1 ++ s2))) u).
  Proof.
    intros L E1 N1 E2 N2 Ek. set (k := N.of_nat (length (ins a))). set (K := seen (wq_mem (wqueue_run cap s1)) t).
    assert (carried K t k (wqueue_run cap s1)) as C0.
    { left. split; [|apply vle_refl]. rewrite app_length in L. destruct (wqueue_run_inv s1 ltac:(lia)) as (_ & H).
      destruct (wqueue_run_told s1 ltac:(lia)) as (O & _). pose proof (h_calls _ H t) as C.
      assert (exists y i, wq_pc (wqueue_run cap s1) t = WEData y i \/ wq_pc (wqueue_run cap s1) t = WEPub y i) as (y & i & P).
      { rewrite E1 in C. revert C. generalize (wq_pc (wqueue_run cap s1) t). clear - N1. revert N1.
        induction b as [|e b IH] using rev_ind; intros N1 p C.
        - inversion C as [X|h c e X Y Z|h c e d X Y Z W]; [destruct a; discriminate| |].
          + apply app_inj_tail in Z as (-> & ->). now cbn in Y.
          + apply app_inj_tail in W as (-> & ->). cbn in Z. destruct c; try contradiction. destruct Z as (_ & Z).
            destruct p; try discriminate Z; eauto.
        - rewrite app_comm_cons, app_assoc in C. inversion C as [X|h c e' X Y Z|h c e' d X Y Z W].
          + destruct (a ++ _ :: b); discriminate.
          + apply app_inj_tail in Z as (-> & ->). apply IH; auto. intros e' He. apply N1, in_or_app. now left.
          + apply app_inj_tail in W as (-> & ->). exfalso. apply (N1 e); auto. apply in_or_app. right. now left. }
      exists y. assert (i = k) as <-; [|exact P]. destruct (O t y i P) as (c & d & Ec & <- & Hd). unfold k. f_equal. f_equal. f_equal.
      rewrite E1 in Ec. apply (last_split (fun e => q_actor e = t)) in Ec as (-> & _ & _); auto. }
    assert (forall s, N.of_nat (length (s1 ++ s)) <= 2 ^ 62 -> carried K t k (wqueue_run cap (s1 ++ s))) as C.
    { intros s. induction s as [|z r' IH] using rev_ind; intros Ls.
      - now rewrite app_nil_r.
      - rewrite app_assoc in *. rewrite app_length in Ls. cbn in Ls. specialize (IH ltac:(lia)).
        destruct (wqueue_run_inv (s1 ++ r') ltac:(lia)) as (I & _).
        unfold wqueue_run in *. rewrite (run_snoc _ _ (s1 ++ r')). unfold move. destruct (wqstep _ z) as [q'|] eqn:E; [|auto].
        eapply carried_step; eauto. }
    destruct (wqueue_run_inv (s1 ++ s2) L) as (I & _). destruct (wqueue_run_told (s1 ++ s2) L) as (_ & Td).
    eapply carried_heard; [exact I|apply C; exact L|]. specialize (Td _ _ _ _ _ E2 N2). rewrite Ek in Td. exact Td.
  Qed.

  (** ** What a call that has returned leaves behind *)

  (** View [v] covers a store of sequence number [s] to cell [c]. *)
  Definition past (m : mem) (v : view) (c s : N) : Prop :=
    exists g, In g (hist m (cell_seq c)) /\ m_val g = s /\ m_to g <= ts v (cell_seq c).

  Lemma past_mem m m' u c s : mem_le m m' -> past m (seen m u) c s -> past m' (seen m' u) c s.
  Proof.
    intros (Lh & Ls) (b & Hb & V & L). exists b. split; [now apply Lh|]. split; [exact V|].
    destruct (Ls u) as (X & _). specialize (X (cell_seq c)). lia.
  Qed.

  Lemma store_past (m : mem) t c s f n m' : wstore m t true (cell_seq c) s f n = Some m' -> past m' (seen m' t) c s.
  Proof.
    unfold wstore. destruct (_ && _); [|discriminate]. intros [= <-]. eexists. cbn [hist with_msg seen with_seen].
    rewrite lset_same, tset_same. split; [left; reflexivity|]. split; [reflexivity|]. apply vat_ts.
  Qed.

  (** The last step of a call. *)
  Lemma step_return q a q' : wqinv q -> wqstep q a = Some q' ->
    (exists u m p e, q' = wq_goto q m u p e /\ (e = [] \/ exists y, e = [y] /\ q_actor y = u) /\
       (forall t, ~ In (EnqReturned t) e) /\ forall t v, ~ In (DeqReturned t v) e) \/
    (exists u m x k, q' = wq_goto q m u WIdle [EnqReturned u] /\ wq_pc q u = WEPub x k /\ past m (seen m u) (k mod cap) (k + 1)) \/
    (exists u m k v, q' = wq_goto q m u WIdle [DeqReturned u v] /\ wq_pc q u = WDPub k v /\ past m (seen m u) (k mod cap) (k + cap)).
  Proof.
    intros I E. assert (2 ^ 62 < w64 /\ 2 ^ 62 = 2 ^ 61 + 2 ^ 61 /\ w64 = 8 * 2 ^ 61) as (W1 & W2 & W3) by (repeat split).
    pose proof (w_small _ I) as B1. pose proof (w_bnd _ I) as B2.
    destruct a as [t x|t|t y wr|t i f n sp]; cbn [wqstep] in E.
    - left. destruct (wq_pc q t); try discriminate. injection E as <-. do 4 eexists. split; [reflexivity|].
      split; [right; eexists; split; reflexivity|]. split; [intros ? [X|[]]; discriminate|intros ? ? [X|[]]; discriminate].
    - left. destruct (wq_pc q t); try discriminate. injection E as <-. do 4 eexists. split; [reflexivity|].
      split; [right; eexists; split; reflexivity|]. split; [intros ? [X|[]]; discriminate|intros ? ? [X|[]]; discriminate].
    - left. destruct (wq_pc q t); try discriminate. injection E as <-. do 4 eexists. split; [reflexivity|].
      split; [left; reflexivity|]. split; [intros ? []|intros ? ? []].
    - destruct (wq_pc q t) as [|x|x k|x k|x k|x k| |k|k|k|k v] eqn:P; try discriminate.
      5: { right. left. destruct (wstore _ _ _ _ _ _ _) as [m'|] eqn:W; [|discriminate]. injection E as <-.
           rewrite (wslot q k (w_cap _ I)) in W. pose proof (w_thr _ I t) as H. rewrite P in H. cbn [tok] in H.
           rewrite (N.mod_small (k + 1) w64) in W by klia. exists t, m', x, k. split; [reflexivity|]. split; [exact P|].
           eapply store_past; eauto. }
      9: { right. right. destruct (wstore _ _ _ _ _ _ _) as [m'|] eqn:W; [|discriminate]. injection E as <-.
           rewrite (wslot q k (w_cap _ I)) in W. pose proof (w_thr _ I t) as H. rewrite P in H. cbn [tok] in H.
           rewrite (w_cap _ I) in W. rewrite (N.mod_small (k + (cap - 1) + 1) w64) in W by klia. exists t, m', k, v. split; [reflexivity|]. split; [exact P|].
           replace (k + cap) with (k + (cap - 1) + 1) by klia. eapply store_past; eauto. }
      all: left; revert E; split_step.
      all: intros [= <-]; do 4 eexists; (split; [reflexivity|]).
      all: split; [first [left; reflexivity|right; eexists; split; reflexivity]|].
      all: split; [intros ? X|intros ? ? X]; repeat (destruct X as [X|X]; [discriminate X|]); exact X.
  Qed.

  Definition ended (q : wqueue) : Prop :=
    (forall a t x b r, wq_hist q = a ++ EnqPlaced t x :: b ++ EnqReturned t :: r -> (forall e, In e b -> q_actor e <> t) ->
       let k := N.of_nat (length (ins a)) in past (wq_mem q) (seen (wq_mem q) t) (k mod cap) (k + 1)) /\
    (forall a t b v r, wq_hist q = a ++ DeqPlaced t :: b ++ DeqReturned t v :: r -> (forall e, In e b -> q_actor e <> t) ->
       let k := N.of_nat (outs a) in past (wq_mem q) (seen (wq_mem q) t) (k mod cap) (k + cap)).

  Lemma ended_step q a q' : wqinv q -> whinv q -> eopen q -> ended q -> wqstep q a = Some q' -> ended q'.
  Proof.
    intros I H O (D1 & D2) E. pose proof (step_mem_le q a q' E) as Le.
    assert (forall h (y : queue_event T) p z b w r, h ++ [y] = p ++ z :: b ++ w :: r ->
              (r = [] /\ y = w /\ h = p ++ z :: b) \/ exists r', r = r' ++ [y] /\ h = p ++ z :: b ++ w :: r') as Cut.
    { intros h y p z b w r X. change (p ++ z :: b ++ w :: r) with (p ++ (z :: b) ++ w :: r) in X. rewrite app_assoc in X.
      apply snoc_split in X as [(-> & X & Y)|(s' & -> & X)]; [left; auto|]. right. exists s'. split; [reflexivity|].
      rewrite X, <- app_assoc. reflexivity. }
    destruct (step_return q a q' I E) as [(u & m & p & e & -> & A & N1 & N2)|[(u & m & x & k & -> & P & Pa)|(u & m & k & v & -> & P & Pa)]].
    - assert (forall p z b w r, (w = EnqReturned (q_actor w) \/ exists v, w = DeqReturned (q_actor w) v) ->
                wq_hist q ++ e = p ++ z :: b ++ w :: r -> exists r', wq_hist q = p ++ z :: b ++ w :: r') as K.
      { intros p0 z b w r Hw X. destruct A as [->|(y & -> & Hy)]; [rewrite app_nil_r in X; eauto|].
        apply Cut in X as [(-> & <- & _)|(r' & -> & X)]; [|eauto]. exfalso.
        destruct Hw as [Hw|(v & Hw)]; [apply (N1 (q_actor y))|apply (N2 (q_actor y) v)]; rewrite <- Hw; now left. }
      split.
      + intros h1 t x h2 r Eh Hb. cbn [wq_goto wq_hist] in Eh. apply K in Eh as (r' & Eh); [|left; reflexivity].
        apply (past_mem (wq_mem q)); [exact Le|]. exact (D1 _ _ _ _ _ Eh Hb).
      + intros h1 t h2 v r Eh Hb. cbn [wq_goto wq_hist] in Eh. apply K in Eh as (r' & Eh); [|right; eexists; reflexivity].
        apply (past_mem (wq_mem q)); [exact Le|]. exact (D2 _ _ _ _ _ Eh Hb).
    - split.
      + intros h1 t y h2 r Eh Hb. cbn [wq_goto wq_hist] in Eh. apply Cut in Eh as [(-> & X & Eh)|(r' & -> & Eh)].
        * injection X as <-. destruct (O u x k (or_intror P)) as (c & d & Ec & <- & Hd). rewrite Ec in Eh.
          apply (last_split (fun e => q_actor e = u)) in Eh as (<- & _ & _); auto.
        * apply (past_mem (wq_mem q)); [exact Le|]. exact (D1 _ _ _ _ _ Eh Hb).
      + intros h1 t h2 v r Eh Hb. cbn [wq_goto wq_hist] in Eh. apply Cut in Eh as [(_ & X & _)|(r' & -> & Eh)]; [discriminate|].
        apply (past_mem (wq_mem q)); [exact Le|]. exact (D2 _ _ _ _ _ Eh Hb).
    - split.
      + intros h1 t y h2 r Eh Hb. cbn [wq_goto wq_hist] in Eh. apply Cut in Eh as [(_ & X & _)|(r' & -> & Eh)]; [discriminate|].
        apply (past_mem (wq_mem q)); [exact Le|]. exact (D1 _ _ _ _ _ Eh Hb).
      + intros h1 t h2 w r Eh Hb. cbn [wq_goto wq_hist] in Eh. apply Cut in Eh as [(-> & X & Eh)|(r' & -> & Eh)].
        * injection X as <- <-. assert (owns_d q u k) as Ok by (right; eauto). apply (h_open _ H) in Ok as (c & d & Ec & <- & Hd).
          rewrite Ec in Eh. apply (last_split (fun e => q_actor e = u)) in Eh as (<- & _ & _); auto.
        * apply (past_mem (wq_mem q)); [exact Le|]. exact (D2 _ _ _ _ _ Eh Hb).
  Qed.

  Lemma wqueue_run_ended sched : N.of_nat (length sched) <= 2 ^ 62 -> ended (wqueue_run cap sched).
  Proof.
    induction sched as [|a r IH] using rev_ind; intros L.
    - split; [intros h1 t x h2 h3 E|intros h1 t h2 v h3 E]; destruct h1; discriminate.
    - rewrite app_length in L. cbn in L. specialize (IH ltac:(lia)). destruct (wqueue_run_inv r ltac:(lia)) as (I & H).
      destruct (wqueue_run_told r ltac:(lia)) as (O & _).
      unfold wqueue_run in *. rewrite run_snoc. unfold move. destruct (wqstep _ a) as [q'|] eqn:E; [|auto].
      eapply ended_step; eauto.
  Qed.

  Lemma run_mem_le (s1 : list (wqact T)) : forall s2, mem_le (wq_mem (wqueue_run cap s1)) (wq_mem (wqueue_run cap (s1 ++ s2))).
  Proof.
    intros s2. induction s2 as [|a r IH] using rev_ind; [rewrite app_nil_r; apply mem_le_refl|].
    rewrite app_assoc. unfold wqueue_run in *. rewrite (run_snoc _ _ (s1 ++ r)). unfold move.
    destruct (wqstep _ a) as [q'|] eqn:E; [|exact IH]. apply step_mem_le in E.
    destruct IH as (A & B), E as (C & D). split.
    - intros x. eapply incl_tran; [apply A|apply C].
    - intros u. eapply vle_trans; [apply B|apply D].
  Qed.

  (** Stores later in time carry larger numbers. *)
  Lemma later_larger q c a b : wqinv q -> In a (hist (wq_mem q) (cell_seq (c mod cap))) ->
    In b (hist (wq_mem q) (cell_seq (c mod cap))) -> m_to a <= m_to b -> m_val a <= m_val b.
  Proof.
    intros I Ha Hb L. destruct (w_cell _ I _ (ltc c)) as (g & l & i & Eg & C & F & _). rewrite Eg in *. clear Eg.
    revert g C F Ha Hb. induction l as [|d l IH]; intros g C F Ha Hb.
    - destruct Ha as [<-|[]], Hb as [<-|[]]. lia.
    - destruct Hb as [<-|Hb].
      + eapply falls_le; eauto.
      + destruct Ha as [<-|Ha]; [pose proof (chain_older _ _ _ C _ Hb); lia|].
        inversion C; subst. apply StronglySorted_inv in F as (F & _). eapply IH; eauto.
  Qed.

  Lemma empty_unheard (sched : list (wqact T)) u i f n sp q' : N.of_nat (length sched) <= 2 ^ 62 ->
    let q := wqueue_run cap sched in
    wqstep q (WGo u i f n sp) = Some q' -> wq_hist q' = wq_hist q ++ [DeqEmpty u] ->
    exists p, p <= wD q /\ ~ past (wq_mem q) (seen (wq_mem q) u) (p mod cap) (p + 1).
  Proof.
    intros L q E Eh. destruct (wqueue_run_inv sched L) as (I & _). fold q in I. cbn [wqstep] in E.
    destruct (wq_pc q u) as [|x|x k|x k|x k|x k| |k|k|k|k v] eqn:P; try discriminate.
    7: { pose proof (w_thr _ I u) as H. rewrite P in H. cbn [tok] in H. exists k. split; [exact H|]. intros (b & Hb & Vb & Lb).
         rewrite (wslot q k (w_cap _ I)) in E. unfold wload in E.
         destruct (nth_error (hist (wq_mem q) (cell_seq (k mod cap))) i) as [g|] eqn:G; [|discriminate]. apply nth_error_In in G.
         destruct (N.leb_spec (ts (seen (wq_mem q) u) (cell_seq (k mod cap))) (m_to g)) as [Lg|]; [|discriminate].
         pose proof (later_larger q k b g I Hb G ltac:(lia)) as Lv. pose proof (seq_bound q k g I G) as Bg.
         pose proof (w_small _ I) as B1. pose proof (w_bnd _ I) as B2. assert (2 ^ 62 + 1 < w64 /\ 2 ^ 62 + 1 < 2 ^ 63) as (W1 & W2) by (split; reflexivity).
         rewrite (N.mod_small (k + 1) w64) in E by klia. rewrite sdif_words in E by klia.
         destruct (Z.ltb_spec (Z.of_N (m_val g) - Z.of_N (k + 1)) 0); [klia|].
         destruct (_ =? 0)%Z; injection E as <-; cbn in Eh; apply app_inv_head in Eh; discriminate. }
    all: exfalso; revert E; split_step; intros [= <-]; cbn in Eh; apply app_inv_head in Eh; discriminate.
  Qed.

  Lemma full_unheard (sched : list (wqact T)) u i f n sp q' : N.of_nat (length sched) <= 2 ^ 62 ->
    let q := wqueue_run cap sched in
    wqstep q (WGo u i f n sp) = Some q' -> wq_hist q' = wq_hist q ++ [EnqFull u] ->
    exists p, p + cap <= wE q /\ ~ past (wq_mem q) (seen (wq_mem q) u) (p mod cap) (p + cap).
  Proof.
    intros L q E Eh. destruct (wqueue_run_inv sched L) as (I & _). fold q in I. cbn [wqstep] in E.
    destruct (wq_pc q u) as [|x|x k|x k|x k|x k| |k|k|k|k v] eqn:P; try discriminate.
    2: { pose proof (w_thr _ I u) as H. rewrite P in H. cbn [tok] in H.
         rewrite (wslot q k (w_cap _ I)) in E. unfold wload in E.
         destruct (nth_error (hist (wq_mem q) (cell_seq (k mod cap))) i) as [g|] eqn:G; [|discriminate]. apply nth_error_In in G.
         destruct (N.leb_spec (ts (seen (wq_mem q) u) (cell_seq (k mod cap))) (m_to g)) as [Lg|]; [|discriminate].
         pose proof (seq_bound q k g I G) as Bg.
         pose proof (w_small _ I) as B1. pose proof (w_bnd _ I) as B2. assert (2 ^ 62 + 1 < w64 /\ 2 ^ 62 + 1 < 2 ^ 63) as (W1 & W2) by (split; reflexivity).
         rewrite sdif_words in E by klia.
         assert (m_val g < k) as Lk.
         { destruct (Z.ltb_spec (Z.of_N (m_val g) - Z.of_N k) 0); [klia|].
           destruct (_ =? 0)%Z; injection E as <-; cbn in Eh; apply app_inv_head in Eh; discriminate. }
         assert (k mod cap <= m_val g) as Lc.
         { destruct (run_mem_le [] sched) as (X & _). specialize (X (cell_seq (k mod cap)) _ (or_introl eq_refl)).
           exact (later_larger q k _ g I X G (N.le_0_l _)). }
         assert (cap <= k) as Ck.
         { destruct (N.lt_ge_cases k cap) as [X|X]; [|exact X]. rewrite N.mod_small in Lc by exact X. lia. }
         exists (k - cap). split; [klia|]. assert ((k - cap) mod cap = k mod cap) as Em.
         { rewrite <- (addc (k - cap)). f_equal. lia. }
         rewrite Em. intros (b & Hb & Vb & Lb). pose proof (later_larger q k b g I Hb G ltac:(lia)) as Lv. lia. }
    all: exfalso; revert E; split_step; intros [= <-]; cbn in Eh; apply app_inv_head in Eh; discriminate.
  Qed.
End WeakQueue.
