(** A ring buffer shared by any number of threads, with the memory orders it is
    written with. *)
From Coq Require Import Sorting.Sorted.
From Verif Require Import Base Spec.QueueHistory Spec.RingHistory Model.Queue Model.Buffer Model.Interleave Model.WeakMem Model.WeakQueue Model.RingConc Model.RingWeak
  Proofs.Queue Proofs.Buffer Proofs.Interleave Proofs.QueueConc Proofs.WeakMem Proofs.WeakQueue Proofs.RingConc.
Local Open Scope N_scope.
Local Opaque N.modulo N.pow upper_power_of_two.
Local Arguments after_load : simpl never.

(** ** Accesses to chunks *)

Definition cov (m : wmem (option N)) (c : N) (v : view) : Prop :=
  forall e a, nth_error (accs m) e = Some a -> a_loc a = chunk_var c -> known v e = true.

Lemma cov_le m c v v' : vle v v' -> cov m c v -> cov m c v'.
Proof. intros (_ & L) H e a A B. apply L. eauto. Qed.

Lemma cov_touch_other m t y wr x c v : y <> chunk_var c -> cov m c v -> cov (wtouch m t y wr x) c v.
Proof.
  intros Ne H e a A B. cbn [wtouch accs] in A. destruct (Nat.lt_ge_cases e (length (accs m))) as [L|L].
  - rewrite nth_error_app1 in A by auto. eapply H; eauto.
  - rewrite nth_error_app2 in A by auto. destruct (e - _)%nat as [|z]; [|destruct z; discriminate].
    injection A as <-. cbn in B. congruence.
Qed.

Lemma cov_touch m t c wr x : cov m c (seen m t) -> cov (wtouch m t (chunk_var c) wr x) c (seen (wtouch m t (chunk_var c) wr x) t).
Proof.
  intros K e a A La. cbn [wtouch accs seen] in *. rewrite tset_same.
  destruct (Nat.lt_ge_cases e (length (accs m))) as [L|L].
  - rewrite nth_error_app1 in A by auto. apply vle_vknow. eapply K; eauto.
  - rewrite nth_error_app2 in A by auto. destruct (e - _)%nat as [|z] eqn:Ez; [|destruct z; discriminate].
    assert (e = length (accs m)) as -> by lia. apply vknow_self.
Qed.

Lemma touch_races m t c wr x : cov m c (seen m t) -> races (wtouch m t (chunk_var c) wr x) = races m.
Proof.
  intros K. cbn [wtouch races]. replace (ordered (seen m t) (chunk_var c) wr 0 (accs m)) with true; [auto|].
  symmetry. apply ordered_spec. intros e a A La _. cbn [plus]. eapply K; eauto.
Qed.

(** ** Histories *)

Lemma user_snoc c h e : user_of c (h ++ [e]) =
  match e with
  | GetReturned t d => if d =? c then Some t else user_of c h
  | RetCalled _ d => if d =? c then None else user_of c h
  | _ => user_of c h
  end.
Proof. unfold user_of. rewrite fold_left_app. reflexivity. Qed.

Definition wqueued (q : wqueue N) : list N := skipn (outs (wq_hist q)) (ins (wq_hist q)).

Lemma in_queued q i c : wD q <= i -> wval q i = Some c -> In c (wqueued q).
Proof.
  unfold wD, wval, wqueued. intros L E. apply nth_error_In with (n := (N.to_nat i - outs (wq_hist q))%nat).
  replace (N.to_nat i) with (outs (wq_hist q) + (N.to_nat i - outs (wq_hist q)))%nat in E by lia.
  revert E. generalize (N.to_nat i - outs (wq_hist q))%nat. intros k. generalize (outs (wq_hist q)), (ins (wq_hist q)). clear.
  intros o. induction o as [|o IH]; intros l E; [exact E|]. destruct l; [destruct k; discriminate|]. cbn in *. auto.
Qed.

Lemma ins_app h (e : list (queue_event N)) : ins (h ++ e) = ins h ++ ins e.
Proof. apply flat_map_app. Qed.
Lemma outs_app h (e : list (queue_event N)) : outs (h ++ e) = (outs h + outs e)%nat.
Proof. unfold outs. rewrite filter_app, app_length. reflexivity. Qed.

Definition vhand (r : wring) (t : tid) : option N :=
  match v_pc r t with
  | GReset c | GLoan c => Some c
  | RPut c => match wq_pc (v_q r) t with WEData _ _ | WEPub _ _ => None | _ => Some c end
  | GWait => match wq_pc (v_q r) t with WDData i | WDPub i _ => wval (v_q r) i | _ => None end
  | _ => None
  end.

Definition vfits (p : rpc) (qp : wpc N) : Prop :=
  match p with
  | RIdle | GCount | GReset _ | GLoan _ | RLoan => qp = WIdle
  | GWait => match qp with WIdle | WDPos | WDSeq _ | WDCas _ | WDData _ | WDPub _ _ => True | _ => False end
  | RPut c => match qp with WIdle => True | WEPos x | WESeq x _ | WECas x _ | WEData x _ | WEPub x _ => x = c | _ => False end
  end.

Section Ring.
  Variable n : N.
  Local Notation cap := (upper_power_of_two n).

  Definition vticket (r : wring) (t : tid) : Prop :=
    match v_pc r t with
    | GReset c | GLoan c => exists i, open_claim (v_hist r) t i /\ due n (v_hist r) i = Some c
    | GWait => match wq_pc (v_q r) t with
               | WDData i | WDPub i _ => open_claim (v_hist r) t (N.to_nat n + N.to_nat i)
               | _ => True
               end
    | _ => True
    end.

  Record VI (r : wring) (F : N) : Prop := {
    vi_q : wqinv cap (v_q r);
    vi_size : v_size r = n;
    vi_bad : v_bad r = false;
    vi_fits : forall t, vfits (v_pc r t) (wq_pc (v_q r) t);
    vi_count : position (wq_mem (v_q r)) actual_count F;
    vi_u : U (N.min F n) (lent_out (v_hist r)) (wqueued (v_q r)) (vhand r);
    vi_user : forall c t, user_of c (v_hist r) = Some t -> In c (lent_out (v_hist r));
    vi_hand : forall t c, vhand r t = Some c -> cov (wq_mem (v_q r)) c (seen (wq_mem (v_q r)) t);
    vi_lent : forall t c, user_of c (v_hist r) = Some t -> cov (wq_mem (v_q r)) c (seen (wq_mem (v_q r)) t);
    vi_put : forall t c i, wq_pc (v_q r) t = WEData c i \/ wq_pc (v_q r) t = WEPub c i -> wD (v_q r) <= i ->
      cov (wq_mem (v_q r)) c (seen (wq_mem (v_q r)) t);
    vi_msg : forall i c g, wD (v_q r) <= i -> wval (v_q r) i = Some c -> In g (hist (wq_mem (v_q r)) (cell_seq (i mod cap))) ->
      m_val g = i + 1 -> cov (wq_mem (v_q r)) c (m_view g);
    vi_fresh : forall c v, N.min F n <= c -> cov (wq_mem (v_q r)) c v;
    vi_race : forall x, In x (races (wq_mem (v_q r))) -> exists c, x = cell_data c;
    vi_claims : N.of_nat (claims (v_hist r)) = N.min F n + wD (v_q r);
    vi_first : forall t, v_pc r t = GWait -> n <= F;
    vi_outs : wD (v_q r) <> 0 -> n <= F;
    vi_backs : backs (v_hist r) = ins (wq_hist (v_q r));
    vi_ticket : forall t, vticket r t;
    vi_served : served n (v_hist r);
  }.

  (** What a step that touches no chunk does to the memory. *)
  Record quietly (t : tid) (q q' : wqueue N) : Prop := {
    y_cov : forall c v, cov (wq_mem q) c v -> cov (wq_mem q') c v;
    y_seen : forall u, vle (seen (wq_mem q) u) (seen (wq_mem q') u);
    y_msg : forall c g, In g (hist (wq_mem q') (cell_seq c)) -> In g (hist (wq_mem q) (cell_seq c)) \/
      (exists x i, wq_pc q t = WEPub x i /\ c = i mod cap /\ m_val g = i + 1 /\ vle (seen (wq_mem q) t) (m_view g)) \/
      (exists i, c = i mod cap /\ m_val g = i + cap);
    y_race : forall x, In x (races (wq_mem q')) -> In x (races (wq_mem q)) \/ exists c, x = cell_data c;
  }.

  Hypothesis Hn : 1 <= n <= 2 ^ 32.

  Lemma VI_move r r' t F F' e l :
    VI r F ->
    (forall u, u <> t -> v_pc r' u = v_pc r u) -> (forall u, u <> t -> wq_pc (v_q r') u = wq_pc (v_q r) u) ->
    ins (wq_hist (v_q r')) = ins (wq_hist (v_q r)) ++ l -> wD (v_q r) <= wD (v_q r') ->
    v_hist r' = v_hist r ++ e -> (e = [] \/ exists x, e = [x] /\ r_actor x = t) ->
    (forall u, u <> t -> vhand r' u = vhand r u) -> F <= F' ->
    quietly t (v_q r) (v_q r') ->
    wqinv cap (v_q r') -> v_size r' = n -> v_bad r' = false -> vfits (v_pc r' t) (wq_pc (v_q r') t) ->
    position (wq_mem (v_q r')) actual_count F' ->
    U (N.min F' n) (lent_out (v_hist r')) (wqueued (v_q r')) (vhand r') ->
    (forall c u, user_of c (v_hist r') = Some u -> In c (lent_out (v_hist r')) /\ (user_of c (v_hist r) = Some u \/ u = t /\ vhand r t = Some c)) ->
    (forall c, vhand r' t = Some c -> cov (wq_mem (v_q r')) c (seen (wq_mem (v_q r')) t)) ->
    (forall c i, wq_pc (v_q r') t = WEData c i \/ wq_pc (v_q r') t = WEPub c i -> wq_pc (v_q r) t = WEData c i \/ vhand r t = Some c) ->
    (forall i c, wval (v_q r') i = Some c -> wval (v_q r) i = Some c \/ owns_e (v_q r') t i) ->
    N.of_nat (claims (v_hist r')) = N.min F' n + wD (v_q r') ->
    (v_pc r' t = GWait -> n <= F') -> (wD (v_q r') <> 0 -> n <= F') ->
    backs (v_hist r') = ins (wq_hist (v_q r')) ->
    vticket r' t -> served n (v_hist r') ->
    VI r' F'.
  Proof.
    intros R Op Oq Ei Ed Eh He Oh Lf Y Q Sz Bd Ft Ct Hu Us Hc Pu Va Cl Fi Ou Ba Ti Se.
    destruct (cap_facts n Hn) as (j & Hcap & Hj1 & Hj2 & _).
    assert (forall c v u, cov (wq_mem (v_q r)) c (seen (wq_mem (v_q r)) u) -> vle (seen (wq_mem (v_q r')) u) v -> cov (wq_mem (v_q r')) c v) as Tr.
    { intros c v u C L. eapply cov_le; [exact L|]. eapply cov_le; [apply (y_seen _ _ _ Y)|]. now apply (y_cov _ _ _ Y). }
    split; auto.
    - intros u; destruct (Nat.eq_dec u t) as [->|X]; auto. rewrite Op, Oq by auto. apply R.
    - intros c u H. now apply (Us c u).
    - intros u c H; destruct (Nat.eq_dec u t) as [->|X]; auto. rewrite Oh in H by auto. apply (Tr _ _ u); [now apply (vi_hand _ _ R)|apply vle_refl].
    - intros u c H. apply Us in H as (_ & [H|(-> & H)]); (eapply Tr; [|apply vle_refl]); [now apply (vi_lent _ _ R)|now apply (vi_hand _ _ R)].
    - intros u c i H L. assert (wD (v_q r) <= i) as L0 by lia. apply (Tr _ _ u); [|apply vle_refl]. destruct (Nat.eq_dec u t) as [->|X].
      + apply Pu in H as [H|H]; [apply (vi_put _ _ R t c i); auto|now apply (vi_hand _ _ R)].
      + rewrite Oq in H by auto. apply (vi_put _ _ R u c i); auto.
    - intros i c g L V G Vg. destruct (Va i c V) as [V0|O].
      + assert (wD (v_q r) <= i) as L0 by lia. destruct (y_msg _ _ _ Y _ _ G) as [G0|[(x & i0 & P & Ec & Vg' & Lv)|(i0 & Ec & Vg')]].
        * apply (y_cov _ _ _ Y). now apply (vi_msg _ _ R i c g).
        * assert (i0 = i) as -> by lia. pose proof (w_thr _ _ (vi_q _ _ R) t) as T0. rewrite P in T0. cbn [tok] in T0.
          destruct T0 as (_ & _ & _ & V1 & _). assert (x = c) as -> by congruence.
          eapply cov_le; [exact Lv|]. apply (y_cov _ _ _ Y). apply (vi_put _ _ R t c i); auto.
        * exfalso. pose proof (cap_ge2 cap j Hcap Hj1 Hj2). assert (i = i0 + cap - 1) as -> by lia.
          apply (slot_succ cap j Hcap Hj1 Hj2 (i0 + cap - 1)). rewrite Ec. replace (i0 + cap - 1 + 1) with (i0 + cap) by lia.
          apply (slot_cap cap j Hcap Hj1 Hj2).
      + exfalso. destruct (owner_newest cap _ t i Q) as (O1 & _). destruct (O1 O) as (_ & (g' & l' & Eg & Vg' & _) & _).
        destruct (w_cell _ _ Q (i mod cap) (slot_lt cap j Hcap Hj1 Hj2 i)) as (g2 & l2 & i2 & Eg2 & _ & Fa & _).
        rewrite Eg in Eg2. injection Eg2 as <- <-. rewrite Eg in G. pose proof (falls_le cap j Hcap Hj1 Hj2 _ _ _ Fa G). lia.
    - intros c v L. apply (y_cov _ _ _ Y), (vi_fresh _ _ R). lia.
    - intros x H. destruct (y_race _ _ _ Y x H) as [H0|H0]; auto. now apply (vi_race _ _ R).
    - intros u; destruct (Nat.eq_dec u t) as [->|X]; auto. rewrite Op by auto. intros Z. pose proof (vi_first _ _ R u Z). lia.
    - intros u; destruct (Nat.eq_dec u t) as [->|X]; auto. pose proof (vi_ticket _ _ R u) as T0. unfold vticket in *. rewrite Op, Oq by auto. rewrite Eh.
      destruct He as [->|(x & -> & Hx)]; [now rewrite app_nil_r|].
      destruct (v_pc r u); auto; [destruct (wq_pc (v_q r) u); auto; apply open_more; auto; congruence| |];
        (destruct T0 as (i & T1 & T2); exists i; split; [apply open_more; auto; congruence|now apply due_more]).
  Qed.

  Lemma vhand_other r r' u l : wqinv cap (v_q r) -> v_pc r' u = v_pc r u -> wq_pc (v_q r') u = wq_pc (v_q r) u ->
    ins (wq_hist (v_q r')) = ins (wq_hist (v_q r)) ++ l -> vhand r' u = vhand r u.
  Proof.
    intros Q Ep Eq Ei. unfold vhand. rewrite Ep, Eq. destruct (v_pc r u); auto.
    pose proof (w_thr _ _ Q u) as T. pose proof (w_bnd _ _ Q) as B.
    destruct (wq_pc (v_q r) u); auto; cbn [tok] in T; destruct T as (T & _); unfold wval; rewrite Ei; apply nth_error_app1; unfold wE, wD in *; lia.
  Qed.

  Definition dull (t : tid) (e : list ring_event) : Prop :=
    e = [] \/ exists x, e = [x] /\ r_actor x = t /\ match x with GetCalled _ | RetReturned _ => True | _ => False end.

  (** A step that places nothing. *)
  Lemma VI_quiet r r' t F e :
    VI r F ->
    (forall u, u <> t -> v_pc r' u = v_pc r u) -> (forall u, u <> t -> wq_pc (v_q r') u = wq_pc (v_q r) u) ->
    ins (wq_hist (v_q r')) = ins (wq_hist (v_q r)) -> outs (wq_hist (v_q r')) = outs (wq_hist (v_q r)) ->
    v_hist r' = v_hist r ++ e -> dull t e -> quietly t (v_q r) (v_q r') ->
    hist (wq_mem (v_q r')) actual_count = hist (wq_mem (v_q r)) actual_count ->
    wqinv cap (v_q r') -> v_size r' = v_size r -> v_bad r' = v_bad r -> vfits (v_pc r' t) (wq_pc (v_q r') t) ->
    vhand r' t = vhand r t ->
    (forall c i, wq_pc (v_q r') t = WEData c i \/ wq_pc (v_q r') t = WEPub c i -> wq_pc (v_q r) t = WEData c i) ->
    (v_pc r' t = GWait -> v_pc r t = GWait) -> vticket r' t ->
    VI r' F.
  Proof.
    intros R Op Oq Ei Eo Eh He Y Ec Q Es Eb Ft Ha Pu W Ti.
    assert (wD (v_q r') = wD (v_q r)) as ED by (unfold wD; now rewrite Eo).
    assert (lent_out (v_hist r') = lent_out (v_hist r) /\ (forall c, user_of c (v_hist r') = user_of c (v_hist r)) /\
      claims (v_hist r') = claims (v_hist r) /\ backs (v_hist r') = backs (v_hist r) /\ (served n (v_hist r) -> served n (v_hist r')))
      as (E1 & E2 & E3 & E4 & E5).
    { rewrite Eh. destruct He as [->|(x & -> & _ & Hx)]; [rewrite app_nil_r; auto|].
      split; [rewrite lent_snoc; now destruct x|]. split; [intros c; rewrite user_snoc; now destruct x|].
      split; [unfold claims; rewrite count_snoc; destruct x; try contradiction; lia|].
      split; [rewrite backs_snoc; destruct x; try contradiction; apply app_nil_r|].
      intros S. apply served_plain; auto. intros u c ->. exact Hx. }
    apply (VI_move r r' t F F e []); auto; rewrite ?E1, ?E3, ?E4, ?ED, ?app_nil_r; auto; try lia; try apply R.
    - destruct He as [->|(x & -> & Hx & _)]; eauto.
    - intros u X. apply (vhand_other r r' u []); auto; [apply R|now rewrite app_nil_r].
    - rewrite Es. apply R.
    - rewrite Eb. apply R.
    - unfold position. rewrite Ec. apply R.
    - apply (U_same _ _ _ (vhand r)) with (t := t); auto; [|intros u X; apply (vhand_other r r' u []); auto; [apply R|now rewrite app_nil_r]].
      unfold wqueued. rewrite Ei, Eo. apply R.
    - intros c u H. rewrite E2 in H. split; [|auto]. now apply (vi_user _ _ R c u).
    - intros c H. rewrite Ha in H. eapply cov_le; [apply (y_seen _ _ _ Y)|]. apply (y_cov _ _ _ Y). now apply (vi_hand _ _ R).
    - intros i c H. left. unfold wval in *. now rewrite Ei in H.
    - intros X. apply (vi_first _ _ R t). auto.
    - rewrite Ei. apply R.
    - apply E5, R.
  Qed.

  (** ** Memory *)

  Lemma quietly_refl t q m p e : m = wq_mem q -> quietly t q (wq_goto q m t p e).
  Proof. intros ->. split; cbn; auto. intros; apply vle_refl. Qed.

  Lemma quiet_seen t q p e v : vle (seen (wq_mem q) t) v -> quietly t q (wq_goto q (with_seen (wq_mem q) t v) t p e).
  Proof. intros L. split; cbn [wq_goto wq_mem]; auto. intros u. now apply with_seen_le. Qed.

  Lemma quiet_msg t q p e v x g : vle (seen (wq_mem q) t) v -> (forall c, x <> cell_seq c) ->
    quietly t q (wq_goto q (with_msg (with_seen (wq_mem q) t v) x g) t p e).
  Proof.
    intros L Nx. split; cbn [wq_goto wq_mem]; auto.
    - intros u. now apply (with_seen_le (wq_mem q) t v u).
    - intros c g' H. cbn [hist with_msg] in H. rewrite lset_other in H by (intros E; now apply (Nx c)). auto.
  Qed.

  Lemma quiet_store t q p e v c s f k m' : wstore (wq_mem q) t true (cell_seq c) s f k = Some m' -> v = tt ->
    ((exists x i, wq_pc q t = WEPub x i /\ c = i mod cap /\ s = i + 1) \/ (exists i, c = i mod cap /\ s = i + cap)) ->
    quietly t q (wq_goto q m' t p e) /\ hist m' actual_count = hist (wq_mem q) actual_count.
  Proof.
    intros E _ Hs. unfold wstore in E. destruct (_ && _); [|discriminate]. injection E as <-.
    split; [|cbn [hist with_msg wq_mem wq_goto]; now rewrite lset_other by discriminate]. split; cbn [wq_goto wq_mem]; auto.
    - intros u. apply (with_seen_le (wq_mem q) t _ u), vle_vat.
    - intros c' g H. cbn [hist with_msg] in H. destruct (N.eq_dec c' c) as [->|Ne].
      + rewrite lset_same in H. destruct H as [<-|H]; [|auto]. right. cbn [m_val m_view]. destruct Hs as [(x & i & A & B & C)|Hs]; [left|right; auto].
        exists x, i. repeat split; auto. apply vle_vat.
      + rewrite lset_other in H by (intros E; injection E as E; now apply Ne). auto.
  Qed.

  Lemma quiet_data t q p e c wr v : quietly t q (wq_goto q (wtouch (wq_mem q) t (cell_data c) wr v) t p e).
  Proof.
    split; cbn [wq_goto wq_mem]; auto.
    - intros d w H. apply cov_touch_other; auto. discriminate.
    - intros u. apply mem_le_touch.
    - intros x H. cbn in H. destruct (ordered _ _ _ _ _); auto. destruct H as [<-|H]; eauto.
  Qed.

  Lemma qmem t q a q' : wqinv cap q -> wqstep q a = Some q' ->
    match a with WCallEnq u _ | WCallDeq u | WGo u _ _ _ _ => u = t | WUse _ _ _ => False end ->
    quietly t q q' /\ hist (wq_mem q') actual_count = hist (wq_mem q) actual_count.
  Proof.
    intros I E Ha. destruct (cap_facts n Hn) as (j & Hcap & Hj1 & Hj2 & _).
    pose proof (cap_ge2 cap j Hcap Hj1 Hj2) as C2. pose proof (cap_le cap j Hcap Hj1 Hj2) as C61.
    assert (2 ^ 62 < w64 /\ 2 ^ 62 = 2 ^ 61 + 2 ^ 61 /\ w64 = 8 * 2 ^ 61) as (W1 & W2 & W3) by (repeat split).
    pose proof (w_small _ _ I) as B1. pose proof (w_bnd _ _ I) as B2.
    destruct a as [u x|u|u y wr|u i f k sp]; try contradiction; subst u; cbn [wqstep] in E.
    - destruct (wq_pc q t); try discriminate. injection E as <-. split; [now apply quietly_refl|reflexivity].
    - destruct (wq_pc q t); try discriminate. injection E as <-. split; [now apply quietly_refl|reflexivity].
    - pose proof (w_thr _ _ I t) as T.
      destruct (wq_pc q t) as [|x|x z|x z|x z|x z| |z|z|z|z v] eqn:P; try discriminate; cbn [tok] in T.
      + destruct (wload _ _ _ _ _) as [[? m']|] eqn:L; [|discriminate]. apply (load_inv) in L as (g & _ & _ & ->). injection E as <-.
        split; [apply quiet_seen, after_load_le|reflexivity].
      + destruct (wload _ _ _ _ _) as [[? m']|] eqn:L; [|discriminate]. apply (load_inv) in L as (g & _ & _ & ->). cbv zeta in E.
        repeat match type of E with context [if ?b then _ else _] => destruct b end; injection E as <-; (split; [apply quiet_seen, after_load_le|reflexivity]).
      + destruct (wcas _ _ _ _ _ _ _ _ _ _ _) as [[[b ?] m']|] eqn:L; [|discriminate].
        apply (cas_pos _ _ _ _ _ _ _ _ _ _ _ _ (w_enq _ _ I)) in L as [(-> & _ & g & l & w & v & _ & _ & Lv & ->)|(-> & _ & v & Lv & ->)]; injection E as <-.
        * split; [apply quiet_msg; auto; discriminate|]. cbn [hist with_msg wq_mem wq_goto plain wtouch]; now rewrite lset_other by discriminate.
        * split; [now apply quiet_seen|reflexivity].
      + injection E as <-. split; [apply quiet_data|reflexivity].
      + destruct (wstore _ _ _ _ _ _ _) as [m'|] eqn:W; [|discriminate]. injection E as <-. rewrite (wslot cap j Hcap q z (w_cap _ _ I)) in W.
        rewrite (N.mod_small (z + 1) w64) in W by klia. apply (quiet_store t q _ _ tt _ _ _ _ _ W eq_refl). left. exists x, z. auto.
      + destruct (wload _ _ _ _ _) as [[? m']|] eqn:L; [|discriminate]. apply (load_inv) in L as (g & _ & _ & ->). injection E as <-.
        split; [apply quiet_seen, after_load_le|reflexivity].
      + destruct (wload _ _ _ _ _) as [[? m']|] eqn:L; [|discriminate]. apply (load_inv) in L as (g & _ & _ & ->). cbv zeta in E.
        repeat match type of E with context [if ?b then _ else _] => destruct b end; injection E as <-; (split; [apply quiet_seen, after_load_le|reflexivity]).
      + destruct (wcas _ _ _ _ _ _ _ _ _ _ _) as [[[b ?] m']|] eqn:L; [|discriminate].
        apply (cas_pos _ _ _ _ _ _ _ _ _ _ _ _ (w_deq _ _ I)) in L as [(-> & _ & g & l & w & v & _ & _ & Lv & ->)|(-> & _ & v & Lv & ->)]; injection E as <-.
        * split; [apply quiet_msg; auto; discriminate|]. cbn [hist with_msg wq_mem wq_goto plain wtouch]; now rewrite lset_other by discriminate.
        * split; [now apply quiet_seen|reflexivity].
      + cbn [wread] in E. injection E as <-. split; [apply quiet_data|reflexivity].
      + destruct (wstore _ _ _ _ _ _ _) as [m'|] eqn:W; [|discriminate]. injection E as <-. rewrite (wslot cap j Hcap q z (w_cap _ _ I)) in W.
        rewrite (w_cap _ _ I) in W. rewrite (N.mod_small (z + (cap - 1) + 1) w64) in W by klia. apply (quiet_store t q _ _ tt _ _ _ _ _ W eq_refl). right. exists z. split; auto. lia.
  Qed.

  (** The buffer's own counters. *)
  Lemma fetch_inv (m : wmem (option N)) t a r x d i k v m' : wfetch_add m t a r x d i k = Some (v, m') ->
    exists g w b, nth_error (hist m x) i = Some g /\ v = m_val g /\ free (m_to g) k (hist m x) = true /\ vle (seen m t) w /\
      m' = with_msg (with_seen m t w) x {| m_from := m_to g; m_to := k; m_val := (m_val g + d) mod 2 ^ 64; m_view := b |}.
  Proof.
    unfold wfetch_add, wrmw. destruct (nth_error (hist m x) i) as [g|] eqn:E; [|discriminate].
    destruct ((_ <=? _) && _) eqn:B; [|discriminate]. apply andb_prop in B as (_ & B). intros [= <- <-].
    exists g. eexists _, _. split; [auto|]. split; [auto|]. split; [auto|]. split; [|reflexivity].
    eapply vle_trans; [apply after_load_le|apply vle_vat].
  Qed.

  Lemma fetch_pos (m : wmem (option N)) t a r x i k v m' F : position m x F -> F + 1 < 2 ^ 64 -> wfetch_add m t a r x 1 i k = Some (v, m') ->
    v = F /\ position m' x (F + 1).
  Proof.
    intros P L E. apply fetch_inv in E as (g & w & b & Eg & -> & Fr & _ & ->). pose proof P as (g0 & l & El & C & V & Bd).
    rewrite El in Eg, Fr. pose proof (chain_rmw _ _ _ _ _ C Eg Logic.I Fr) as ->. cbn in Eg. injection Eg as ->. split; [exact V|].
    rewrite V, N.mod_small by lia. destruct (cap_facts n Hn) as (j & Hcap & Hj1 & Hj2 & _).
    apply (position_add cap j Hcap Hj1 Hj2 _ _ F) with (l := l); auto.
    intros g1 l1 E1. rewrite El in E1. injection E1 as <- <-. exact Fr.
  Qed.

  Lemma inv_aside (q : wqueue N) t v x g : wqinv cap q -> wq_pc q t = WIdle -> vle (seen (wq_mem q) t) v ->
    (x = actual_count \/ x = on_loan) -> wqinv cap (wq_goto q (with_msg (with_seen (wq_mem q) t v) x g) t (wq_pc q t) []).
  Proof.
    intros I P L Hx. destruct (cap_facts n Hn) as (j & Hcap & Hj1 & Hj2 & _). rewrite P.
    set (q' := wq_goto _ _ _ _ _).
    assert (forall y, y <> actual_count -> y <> on_loan -> hist (wq_mem q') y = hist (wq_mem q) y) as Hh.
    { intros y A B. cbn. apply lset_other. intros ->. tauto. }
    assert (ins (wq_hist q') = ins (wq_hist q)) as Xi by (cbn; now rewrite app_nil_r).
    assert (outs (wq_hist q') = outs (wq_hist q)) as Xo by (cbn; now rewrite app_nil_r).
    assert (wE q' = wE q) as XE by (unfold wE; now rewrite Xi).
    assert (wD q' = wD q) as XD by (unfold wD; now rewrite Xo).
    assert (forall i, wval q' i = wval q i) as Xv by (intros i; unfold wval; now rewrite Xi).
    assert (forall u, wq_pc q' u = wq_pc q u) as Xp.
    { intros u. cbn. destruct (Nat.eq_dec u t) as [->|X]; [now rewrite tset_same|now rewrite tset_other]. }
    assert (forall u i, (owns_e q' u i <-> owns_e q u i) /\ (owns_d q' u i <-> owns_d q u i)) as Xw.
    { intros u i. unfold owns_e, owns_d. rewrite Xp. tauto. }
    split.
    - apply I.
    - rewrite XE. unfold position. rewrite Hh by discriminate. apply I.
    - rewrite XD. unfold position. rewrite Hh by discriminate. apply I.
    - rewrite XD, XE. apply I.
    - rewrite XE. apply I.
    - intros c Hc. apply (cell_frame cap j Hcap Hj1 Hj2 q); rewrite ?XE, ?XD; auto; try lia.
      + now apply Hh.
      + intros u k O _. exists u. unfold owns in *. pose proof (Xw u k). tauto.
      + now apply I.
    - intros u. apply (tok_frame cap j Hcap Hj1 Hj2 q); rewrite ?XE, ?XD; auto; try lia; try apply I.
      + cbn. now apply (with_seen_le (wq_mem q) t v u).
      + intros c. rewrite Hh by discriminate. apply incl_refl.
      + intros i O. rewrite Hh by discriminate. auto.
    - intros u w i Hu Hv. apply (w_ue _ _ I u w i); now apply Xw.
    - intros u w i Hu Hv. apply (w_ud _ _ I u w i); now apply Xw.
    - intros c Hc. now apply I in Hc.
  Qed.

  (** ** Touching a chunk that one has *)
  Lemma VI_touch r t c wr x p F : VI r F -> wq_pc (v_q r) t = WIdle ->
    (vhand r t = Some c \/ user_of c (v_hist r) = Some t) ->
    let r' := v_goto r (v_mem r (wtouch (wq_mem (v_q r)) t (chunk_var c) wr x) t) t p [] in
    vfits p WIdle -> vhand r' t = vhand r t -> vticket r' t -> (p = GWait -> n <= F) ->
    VI r' F.
  Proof.
    intros R P Own r' Ft Ha Ti Fi. destruct (cap_facts n Hn) as (j & Hcap & Hj1 & Hj2 & _).
    set (m := wq_mem (v_q r)) in *. set (m' := wtouch m t (chunk_var c) wr x) in *.
    assert (cov m c (seen m t)) as C0 by (destruct Own; [now apply (vi_hand _ _ R)|now apply (vi_lent _ _ R)]).
    assert (forall u, v_pc r' u = if Nat.eq_dec u t then p else v_pc r u) as Ep.
    { intros u. cbn. destruct (Nat.eq_dec u t) as [->|]; [now rewrite tset_same|now rewrite tset_other]. }
    assert (forall u, wq_pc (v_q r') u = wq_pc (v_q r) u) as Eq.
    { intros u. cbn. destruct (Nat.eq_dec u t) as [->|]; [now rewrite tset_same|now rewrite tset_other]. }
    assert (v_hist r' = v_hist r) as Eh by (cbn; apply app_nil_r).
    assert (wq_hist (v_q r') = wq_hist (v_q r)) as Ew by (cbn; apply app_nil_r).
    assert (wq_mem (v_q r') = m') as Em by reflexivity.
    assert (wD (v_q r') = wD (v_q r)) as ED by (unfold wD; now rewrite Ew).
    assert (forall i, wval (v_q r') i = wval (v_q r) i) as EV by (intros i; unfold wval; now rewrite Ew).
    assert (forall u, vhand r' u = vhand r u) as Hh.
    { intros u. destruct (Nat.eq_dec u t) as [->|X]; auto. apply (vhand_other r r' u []); auto; [apply R|rewrite Ep; now destruct (Nat.eq_dec u t)|rewrite Ew, app_nil_r; auto]. }
    pose proof (vi_u _ _ R) as U0.
    assert (forall u, vle (seen m u) (seen m' u)) as Ls by (intros u; apply mem_le_touch).
    assert (forall d v, d <> c -> cov m d v -> cov m' d v) as Ot.
    { intros d v Ne C. apply cov_touch_other; auto. intros E. injection E as E. now apply Ne. }
    assert (~ In c (wqueued (v_q r))) as Nq.
    { intros X. destruct Own as [O|O].
      - apply (u_hand _ _ _ _ U0) in O as (_ & O). apply O, in_or_app. auto.
      - apply (vi_user _ _ R) in O. pose proof (u_nodup _ _ _ _ U0) as D. apply nodup_app in D as (_ & _ & D). exact (D c O X). }
    assert (cov m' c (seen m' t)) as C1 by now apply cov_touch.
    split; rewrite ?Em, ?Eh, ?Ew, ?ED; auto; try apply R.
    - subst r'. cbn [v_q v_goto]. unfold v_mem. rewrite P. fold m.
      apply (inv_calm cap j Hcap Hj1 Hj2); [apply R|reflexivity|reflexivity|rewrite P; exact Logic.I|exact Logic.I|reflexivity| | | | |exact Logic.I].
      + intros d. unfold m'. cbn [plain wtouch]. now rewrite lset_other by discriminate.
      + intros d v K e a A La. cbn [wtouch accs m'] in A. destruct (Nat.lt_ge_cases e (length (accs m))) as [L|L].
        * rewrite nth_error_app1 in A by auto. eapply K; eauto.
        * rewrite nth_error_app2 in A by auto. destruct (e - _)%nat as [|z]; [|destruct z; discriminate].
          injection A as <-. discriminate La.
      + intros d H. unfold m' in H. rewrite touch_races in H by exact C0. exact H.
      + exact Ls.
    - intros u. rewrite Ep, Eq. destruct (Nat.eq_dec u t) as [->|X]; [now rewrite P|apply R].
    - unfold wqueued. rewrite Ew. fold (wqueued (v_q r)). apply (U_same _ _ _ (vhand r)) with (t := t); auto.
    - intros u d H. rewrite Hh in H. destruct (N.eq_dec d c) as [->|Ne].
      + assert (u = t) as ->; [|exact C1]. destruct Own as [O|O]; [now apply (u_inj _ _ _ _ U0 u t c)|].
        apply (vi_user _ _ R) in O. apply (u_hand _ _ _ _ U0) in H as (_ & H). exfalso. apply H, in_or_app. auto.
      + eapply cov_le; [apply Ls|]. apply Ot; auto. now apply (vi_hand _ _ R).
    - intros u d H. destruct (N.eq_dec d c) as [->|Ne].
      + destruct Own as [O|O]; [|assert (u = t) as -> by congruence; exact C1].
        apply (u_hand _ _ _ _ U0) in O as (_ & O). exfalso. apply O, in_or_app. left. now apply (vi_user _ _ R c u).
      + eapply cov_le; [apply Ls|]. apply Ot; auto. now apply (vi_lent _ _ R).
    - intros u d i H L. rewrite Eq in H. destruct (N.eq_dec d c) as [->|Ne].
      + exfalso. apply Nq. pose proof (w_thr _ _ (vi_q _ _ R) u) as T. apply (in_queued _ i); auto.
        destruct H as [H|H]; rewrite H in T; cbn [tok] in T; tauto.
      + eapply cov_le; [apply Ls|]. apply Ot; auto. now apply (vi_put _ _ R u d i).
    - intros i d g L V G Vg. rewrite EV in V. destruct (N.eq_dec d c) as [->|Ne]; [now apply in_queued in V|].
      apply Ot; auto. now apply (vi_msg _ _ R i d g).
    - intros d v L. apply Ot; [|now apply (vi_fresh _ _ R)]. intros ->. destruct Own as [O|O].
      + apply (u_hand _ _ _ _ U0) in O as (O & _). lia.
      + apply (vi_user _ _ R) in O. assert (c < N.min F n) by (apply (u_range _ _ _ _ U0), in_or_app; auto). lia.
    - unfold m'. rewrite touch_races by exact C0. apply R.
    - intros u. rewrite Ep. destruct (Nat.eq_dec u t) as [->|X]; auto. apply (vi_first _ _ R).
    - intros u. destruct (Nat.eq_dec u t) as [->|X]; auto. pose proof (vi_ticket _ _ R u) as T0. unfold vticket in *. rewrite Ep, Eq, Eh.
      now destruct (Nat.eq_dec u t).
  Qed.

  (** ** Steps *)

  Ltac vc := cbn [v_q v_goto v_pc v_hist v_size v_bad wq_hist wq_pc wq_goto v_mem wq_mem].
  Ltac others := intros u X; try match goal with r' := _ |- _ => unfold r' end; vc; rewrite ?tset_other by auto; reflexivity.
  Ltac qnil := vc; rewrite ?ins_app, ?outs_app; cbn [ins outs flat_map filter app length]; rewrite ?app_nil_r, ?Nat.add_0_r; reflexivity.

  Lemma has_user r t c : has r t c = true -> user_of c (v_hist r) = Some t.
  Proof. unfold has. destruct (user_of c (v_hist r)) as [u|]; [|discriminate]. intros H. apply Nat.eqb_eq in H. congruence. Qed.

  Lemma step_get r t r' F : VI r F -> vstep r (VGet t) = Some r' -> VI r' F.
  Proof.
    intros R E. unfold vstep in E. rewrite (vi_bad _ _ R) in E. destruct (v_pc r t) eqn:Pc; try discriminate. injection E as <-.
    pose proof (vi_fits _ _ R t) as Ft. rewrite Pc in Ft. cbn [vfits] in Ft.
    apply (VI_quiet r _ t F [GetCalled t]); auto; try (apply R).
    - others.
    - right. exists (GetCalled t). auto.
    - split; cbn [v_q v_goto]; auto. intros; apply vle_refl.
    - vc. now rewrite tset_same.
    - unfold vhand. vc. now rewrite tset_same, Pc.
    - vc. rewrite Ft. intros c i [X|X]; discriminate.
    - vc. rewrite tset_same. discriminate.
    - unfold vticket. vc. now rewrite tset_same.
  Qed.

  Lemma step_ret r t c r' F : VI r F -> vstep r (VRet t c) = Some r' -> VI r' F.
  Proof.
    intros R E. unfold vstep in E. rewrite (vi_bad _ _ R) in E. destruct (v_pc r t) eqn:Pc; try discriminate.
    destruct (has r t c) eqn:Hs; [|discriminate]. injection E as <-. apply has_user in Hs. pose proof (vi_user _ _ R _ _ Hs) as Il.
    pose proof (vi_fits _ _ R t) as Ft. rewrite Pc in Ft. cbn [vfits] in Ft. pose proof (vi_u _ _ R) as U0.
    assert (NoDup (lent_out (v_hist r))) as D by (pose proof (u_nodup _ _ _ _ U0) as D; now apply nodup_app in D as (D & _)).
    assert (vhand r t = None) as H0 by (unfold vhand; now rewrite Pc).
    set (r' := v_goto _ _ _ _ _). assert (vhand r' t = Some c) as H1 by (unfold vhand, r'; vc; now rewrite tset_same, Ft).
    assert (forall u, u <> t -> vhand r' u = vhand r u) as Oh.
    { intros u X. apply (vhand_other r r' u []); auto; [apply R|unfold r'; vc; now rewrite tset_other|now rewrite app_nil_r]. }
    apply (VI_move r r' t F F [RetCalled t c] []); auto; try (apply R).
    - others.
    - now rewrite app_nil_r.
    - unfold r'; vc; lia.
    - right. exists (RetCalled t c). auto.
    - lia.
    - split; cbn [v_q v_goto r']; auto. intros; apply vle_refl.
    - unfold r'; vc. rewrite tset_same, Ft. exact Logic.I.
    - unfold r'. vc. rewrite lent_snoc. apply (U_back _ _ _ (vhand r)) with (t := t); auto.
    - intros d u. unfold r'. vc. rewrite user_snoc, lent_snoc. destruct (N.eqb_spec c d) as [->|Ne]; [discriminate|]. intros H.
      split; [apply take_out_in; auto; split; [now apply (vi_user _ _ R d u)|congruence]|auto].
    - intros d Hd. rewrite H1 in Hd. injection Hd as <-. now apply (vi_lent _ _ R).
    - unfold r'. vc. rewrite Ft. intros d i [X|X]; discriminate.
    - unfold r'. vc. unfold claims. rewrite count_snoc, Nat.add_0_r. apply R.
    - unfold r'. vc. rewrite tset_same. discriminate.
    - unfold r'. vc. rewrite backs_snoc, app_nil_r. apply R.
    - unfold vticket, r'. vc. now rewrite tset_same.
    - unfold r'. vc. apply served_plain; [apply R|discriminate].
  Qed.

  Lemma step_vuse r t c w r' F : VI r F -> vstep r (VUse t c w) = Some r' -> VI r' F.
  Proof.
    intros R E. unfold vstep in E. rewrite (vi_bad _ _ R) in E. destruct (v_pc r t) eqn:Pc; try discriminate.
    destruct (has r t c) eqn:Hs; [|discriminate]. injection E as <-. apply has_user in Hs.
    pose proof (vi_fits _ _ R t) as Ft. rewrite Pc in Ft. cbn [vfits] in Ft.
    apply VI_touch; auto.
    - reflexivity.
    - unfold vhand. vc. now rewrite tset_same, Pc.
    - unfold vticket. vc. now rewrite tset_same.
    - discriminate.
  Qed.

  Lemma step_reset r t c i f k sp r' F : VI r F -> v_pc r t = GReset c -> vstep r (VGo t i f k sp) = Some r' -> VI r' F.
  Proof.
    intros R Pc E. unfold vstep in E. rewrite (vi_bad _ _ R), Pc in E. injection E as <-.
    pose proof (vi_fits _ _ R t) as Ft. rewrite Pc in Ft. cbn [vfits] in Ft.
    pose proof (vi_ticket _ _ R t) as Ti. unfold vticket in Ti. rewrite Pc in Ti.
    apply VI_touch; auto.
    - left. unfold vhand. now rewrite Pc.
    - reflexivity.
    - unfold vhand. vc. now rewrite tset_same, Pc.
    - unfold vticket. vc. rewrite tset_same, app_nil_r. exact Ti.
    - discriminate.
  Qed.

  Lemma step_count r t i f k sp r' F : VI r F -> F + 1 < 2 ^ 64 -> v_pc r t = GCount -> vstep r (VGo t i f k sp) = Some r' -> VI r' (F + 1).
  Proof.
    intros R B Pc E. unfold vstep in E. rewrite (vi_bad _ _ R), Pc in E.
    destruct (wfetch_add _ _ _ _ _ _ _ _) as [[o m']|] eqn:W; [|discriminate].
    pose proof (vi_fits _ _ R t) as Ft. rewrite Pc in Ft. cbn [vfits] in Ft. pose proof (vi_u _ _ R) as U0.
    destruct (fetch_pos _ _ _ _ _ _ _ _ _ F (vi_count _ _ R) B W) as (-> & Po).
    apply fetch_inv in W as (g & w & b & _ & _ & _ & Lw & Em).
    assert (wqinv cap (v_mem r m' t)) as Q by (subst m'; apply inv_aside; auto; apply R).
    assert (quietly t (v_q r) (v_mem r m' t)) as Y by (subst m'; apply quiet_msg; auto; discriminate).
    rewrite (vi_size _ _ R) in E.
    assert (vhand r t = None) as H0 by (unfold vhand; now rewrite Pc).
    destruct (N.leb_spec n F) as [Le|Lt]; injection E as <-.
    - set (r' := v_goto _ _ _ _ _). assert (vhand r' t = None) as H1 by (unfold vhand, r'; vc; now rewrite !tset_same, Ft).
      assert (forall u, u <> t -> vhand r' u = vhand r u) as Oh.
      { intros u X. apply (vhand_other r r' u []); auto; [apply R|unfold r'; vc; now rewrite tset_other|unfold r'; vc; now rewrite tset_other|unfold r'; qnil]. }
      apply (VI_move r r' t F (F + 1) [] []); auto; try (apply R).
      + others.
      + others.
      + unfold r'; qnil.
      + unfold r'. vc. unfold wD. vc. rewrite outs_app. lia.
      + lia.
      + unfold r'. vc. now rewrite !tset_same, Ft.
      + unfold r'. cbn [v_hist v_goto]. rewrite app_nil_r. fold r'. replace (N.min (F + 1) n) with (N.min F n) by lia.
        apply (U_same _ _ _ (vhand r)) with (t := t); auto; [|congruence]. unfold wqueued, r'. vc. rewrite app_nil_r. apply R.
      + intros c u. unfold r'. vc. rewrite app_nil_r. intros H. split; auto. now apply (vi_user _ _ R c u).
      + intros c. now rewrite H1.
      + unfold r'. vc. rewrite tset_same, Ft. intros c z [X|X]; discriminate.
      + intros z c H. left. unfold wval, r' in H. cbn [v_q v_goto v_mem wq_hist wq_goto] in H. rewrite app_nil_r in H. exact H.
      + unfold r', wD. vc. rewrite !app_nil_r. replace (N.min (F + 1) n) with (N.min F n) by lia. apply R.
      + intros _. lia.
      + intros _. lia.
      + unfold r'. vc. rewrite !app_nil_r. apply R.
      + unfold vticket, r'. vc. now rewrite !tset_same, Ft.
      + unfold r'. vc. rewrite app_nil_r. apply R.
    - set (r' := v_goto _ _ _ _ _). assert (vhand r' t = Some F) as H1 by (unfold vhand, r'; vc; now rewrite !tset_same).
      assert (forall u, u <> t -> vhand r' u = vhand r u) as Oh.
      { intros u X. apply (vhand_other r r' u []); auto; [apply R|unfold r'; vc; now rewrite tset_other|unfold r'; vc; now rewrite tset_other|unfold r'; qnil]. }
      assert (wD (v_q r') = wD (v_q r)) as ED by (unfold r', wD; vc; now rewrite app_nil_r).
      assert (wD (v_q r) = 0 /\ claims (v_hist r) = N.to_nat F) as (D0 & Cl).
      { pose proof (vi_claims _ _ R) as C. assert (wD (v_q r) = 0); [|lia]. destruct (N.eq_dec (wD (v_q r)) 0) as [|Nz]; auto. exfalso.
        pose proof (vi_outs _ _ R Nz). lia. }
      apply (VI_move r r' t F (F + 1) [Claimed t] []); auto; try (apply R).
      + others.
      + others.
      + unfold r'; qnil.
      + rewrite ED. lia.
      + right. exists (Claimed t). auto.
      + lia.
      + unfold r'. vc. now rewrite !tset_same.
      + unfold r'. cbn [v_hist v_goto]. rewrite lent_snoc. fold r'. replace (N.min (F + 1) n) with (F + 1) by lia.
        apply (U_fresh _ _ _ (vhand r)) with (t := t); auto.
        unfold wqueued, r'. vc. rewrite app_nil_r. pose proof (vi_u _ _ R) as X. replace (N.min F n) with F in X by lia. exact X.
      + intros c u. unfold r'. vc. rewrite user_snoc, lent_snoc. intros H. split; auto. now apply (vi_user _ _ R c u).
      + intros c H. rewrite H1 in H. injection H as <-. apply (y_cov _ _ _ Y), (vi_fresh _ _ R). lia.
      + unfold r'. vc. rewrite tset_same, Ft. intros c z [X|X]; discriminate.
      + intros z c H. left. unfold wval, r' in H. cbn [v_q v_goto v_mem wq_hist wq_goto] in H. rewrite app_nil_r in H. exact H.
      + rewrite ED. unfold r'. vc. unfold claims in *. rewrite count_snoc. lia.
      + unfold r'. vc. rewrite tset_same. discriminate.
      + rewrite ED. lia.
      + unfold r'. vc. rewrite backs_snoc, !app_nil_r. apply R.
      + unfold vticket, r'. vc. rewrite tset_same. exists (N.to_nat F). split.
        * exists (v_hist r), []. split; auto.
        * unfold due. rewrite N2Nat.id. destruct (N.ltb_spec F n); [reflexivity|lia].
      + unfold r'. vc. apply served_plain; [apply R|discriminate].
  Qed.

  Lemma step_aside r t m' v g F : VI r F -> wq_pc (v_q r) t = WIdle -> vle (seen (wq_mem (v_q r)) t) v ->
    m' = with_msg (with_seen (wq_mem (v_q r)) t v) on_loan g ->
    let q' := v_mem r m' t in
    wqinv cap q' /\ quietly t (v_q r) q' /\ hist (wq_mem q') actual_count = hist (wq_mem (v_q r)) actual_count /\
    (forall u, wq_pc q' u = wq_pc (v_q r) u) /\ wq_hist q' = wq_hist (v_q r).
  Proof.
    intros R P L -> q'. split; [apply inv_aside; auto; apply R|]. split; [apply quiet_msg; auto; discriminate|].
    split; [cbn [q' v_mem wq_goto wq_mem hist with_msg]; now rewrite lset_other by discriminate|].
    split; [|cbn; apply app_nil_r]. intros u. cbn. destruct (Nat.eq_dec u t) as [->|X]; [now rewrite tset_same|now rewrite tset_other].
  Qed.

  Lemma step_rloan r t i f k sp r' F : VI r F -> v_pc r t = RLoan -> vstep r (VGo t i f k sp) = Some r' -> VI r' F.
  Proof.
    intros R Pc E. unfold vstep in E. rewrite (vi_bad _ _ R), Pc in E.
    destruct (wfetch_add _ _ _ _ _ _ _ _) as [[o m']|] eqn:W; [|discriminate]. injection E as <-.
    pose proof (vi_fits _ _ R t) as Ft. rewrite Pc in Ft. cbn [vfits] in Ft.
    apply fetch_inv in W as (g & w & b & _ & _ & _ & Lw & Em).
    destruct (step_aside r t m' w _ F R Ft Lw Em) as (Q & Y & Hc & Hp & Hh). clear Em.
    apply (VI_quiet r _ t F [RetReturned t]); auto; cbn [v_q v_goto]; auto; try (now rewrite Hh).
    - others.
    - right. exists (RetReturned t). auto.
    - rewrite Hp. cbn [v_pc v_goto]. now rewrite tset_same.
    - unfold vhand. cbn [v_pc v_goto]. now rewrite tset_same, Pc.
    - rewrite Hp, Ft. intros c z [X|X]; discriminate.
    - cbn [v_pc v_goto]. rewrite tset_same. discriminate.
    - unfold vticket. cbn [v_pc v_goto]. now rewrite tset_same.
  Qed.

  Lemma step_gloan r t c i f k sp r' F : VI r F -> v_pc r t = GLoan c -> vstep r (VGo t i f k sp) = Some r' -> VI r' F.
  Proof.
    intros R Pc E. unfold vstep in E. rewrite (vi_bad _ _ R), Pc in E.
    destruct (wfetch_add _ _ _ _ _ _ _ _) as [[o m']|] eqn:W; [|discriminate]. injection E as <-.
    pose proof (vi_fits _ _ R t) as Ft. rewrite Pc in Ft. cbn [vfits] in Ft. pose proof (vi_u _ _ R) as U0.
    pose proof (vi_ticket _ _ R t) as Ti. unfold vticket in Ti. rewrite Pc in Ti. destruct Ti as (z & (h1 & h2 & Eh & Ez & Hb) & Du).
    apply fetch_inv in W as (g & w & b & _ & _ & _ & Lw & Em).
    destruct (step_aside r t m' w _ F R Ft Lw Em) as (Q & Y & Hc & Hp & Hh). clear Em.
    assert (vhand r t = Some c) as H0 by (unfold vhand; now rewrite Pc).
    set (r' := v_goto _ _ _ _ _). assert (vhand r' t = None) as H1 by (unfold vhand, r'; cbn [v_pc v_goto]; now rewrite tset_same).
    assert (forall u, u <> t -> vhand r' u = vhand r u) as Oh.
    { intros u X. apply (vhand_other r r' u []); auto; [apply R|unfold r'; vc; now rewrite tset_other|unfold r'; cbn [v_q v_goto]; now rewrite Hh, app_nil_r]. }
    apply (VI_move r r' t F F [GetReturned t c] []); auto; unfold r'; cbn [v_q v_goto v_pc v_hist v_size v_bad]; unfold wD, wqueued, wval; rewrite ?tset_same, ?Hh, ?Hp, ?app_nil_r; auto; try (apply R); try lia.
    - others.
    - right. exists (GetReturned t c). auto.
    - unfold position. rewrite Hc. apply R.
    - rewrite lent_snoc. fold r'. apply (U_lend _ _ _ (vhand r)) with (t := t); auto.
    - intros d u. rewrite user_snoc, lent_snoc. destruct (N.eqb_spec c d) as [->|Ne].
      + intros [= <-]. split; [now left|auto].
      + intros H. split; [|auto]. right. now apply (vi_user _ _ R d u).
    - fold r'. intros d. now rewrite H1.
    - rewrite Ft. intros d y [X|X]; discriminate.
    - unfold claims. rewrite count_snoc, Nat.add_0_r. apply R.
    - discriminate.
    - rewrite backs_snoc, app_nil_r. apply R.
    - unfold vticket. cbn [v_pc v_goto]. now rewrite tset_same.
    - apply (served_more _ _ _ _ h1 h2); auto; [apply R|]. now rewrite Ez.
  Qed.

  Lemma q_next r a q' F : VI r F -> wE (v_q r) + 1 <= 2 ^ 62 -> wqstep (v_q r) a = Some q' -> wqinv cap q'.
  Proof.
    intros R L E. destruct (cap_facts n Hn) as (j & Hcap & Hj1 & Hj2 & _).
    apply (wqinv_step cap j Hcap Hj1 Hj2 (v_q r) a); auto; [apply R|]. apply (wE_step cap j Hcap Hj1 Hj2) in E. lia.
  Qed.

  Ltac qcase Eq :=
    repeat match type of Eq with
    | match wload ?a ?b ?c ?d ?e with _ => _ end = _ => destruct (wload a b c d e) as [[? ?]|]; [|discriminate Eq]
    | match wstore ?a ?b ?c ?d ?e ?f ?g with _ => _ end = _ => destruct (wstore a b c d e f g) as [?|]; [|discriminate Eq]
    | (let '(_, _) := wread ?a ?b ?c in _) = _ => cbn [wread] in Eq
    end; cbv zeta in Eq;
    repeat match type of Eq with (if ?b then _ else _) = _ => destruct b end; injection Eq as <-.
  Ltac silent R Pc Qp :=
    match type of Qp with wq_pc _ ?t = _ => apply (VI_quiet _ _ t _ [] R) end; cbn [v_q v_goto];
    [ others | others | qnil | qnil | reflexivity | now left | assumption | assumption | assumption | reflexivity | reflexivity
    | cbn [v_pc v_goto wq_pc wq_goto]; rewrite ?tset_same; cbn [vfits]; auto
    | unfold vhand; vc; rewrite ?tset_same, ?Pc, ?Qp; auto
    | vc; rewrite ?tset_same; intros ? ? [X|X]; try discriminate X; injection X as <- <-; exact Qp
    | try (vc; rewrite ?tset_same, ?Pc; auto; discriminate); intros _; exact Pc
    | try (unfold vticket; vc; rewrite ?tset_same, ?app_nil_r; auto; fail) ].

  Lemma step_vwait r t i f k sp r' F : VI r F -> wE (v_q r) + 1 <= 2 ^ 62 -> v_pc r t = GWait -> vstep r (VGo t i f k sp) = Some r' -> VI r' F.
  Proof.
    intros R Le Pc E. unfold vstep in E. rewrite (vi_bad _ _ R), Pc in E.
    destruct (cap_facts n Hn) as (j & Hcap & Hj1 & Hj2 & _).
    pose proof (vi_fits _ _ R t) as Ft. rewrite Pc in Ft. cbn [vfits] in Ft.
    pose proof (vi_ticket _ _ R t) as Ti. unfold vticket in Ti. rewrite Pc in Ti.
    pose proof (w_thr _ _ (vi_q _ _ R) t) as Th.
    destruct (wq_pc (v_q r) t) as [|x|x z|x z|x z|x z| |z|z|z|z v] eqn:Qp; try contradiction.
    all: match type of E with context [wqstep ?q ?a] => destruct (wqstep q a) as [q'|] eqn:Eq; [|discriminate E];
      pose proof (q_next r a q' F R Le Eq) as Q; destruct (qmem t q a q' (vi_q _ _ R) Eq eq_refl) as (Y & Hc) end;
      cbn [wqstep] in Eq; rewrite Qp in Eq.
    - injection E as <-. qcase Eq. silent R Pc Qp.
    - injection E as <-. qcase Eq. silent R Pc Qp.
    - injection E as <-. qcase Eq; silent R Pc Qp.
    - (* the compare-exchange *)
      destruct (wcas _ _ _ _ _ _ _ _ _ _ _) as [[[b found] m']|] eqn:Wc; [|discriminate Eq].
      destruct (cas_pos _ _ _ _ _ _ _ _ _ _ _ _ (w_deq _ _ (vi_q _ _ R)) Wc) as [(-> & Ez & _)|(-> & _)]; injection Eq as <-; injection E as <-.
      2:{ cbn [wq_pc wq_goto]. rewrite tset_same. silent R Pc Qp. }
      clear Wc. subst z. cbn [tok] in Th. destruct Th as (_ & Hd). pose proof Hd as (g & Hg & Vg & Lg & _).
      destruct (deq_turn cap j Hcap Hj1 Hj2 (v_q r) _ (vi_q _ _ R) Hd) as (_ & _ & LT).
      destruct (nth_error (ins (wq_hist (v_q r))) (outs (wq_hist (v_q r)))) as [c|] eqn:V.
      2:{ apply nth_error_None in V. unfold wD, wE in LT. lia. }
      assert (wval (v_q r) (wD (v_q r)) = Some c) as Vw by (unfold wval, wD; now rewrite Nat2N.id).
      cbn [wq_pc wq_goto]. rewrite tset_same. set (r' := v_goto _ _ _ _ _).
      assert (ins (wq_hist (v_q r')) = ins (wq_hist (v_q r))) as Ei by (unfold r'; vc; rewrite ins_app; apply app_nil_r).
      assert (outs (wq_hist (v_q r')) = S (outs (wq_hist (v_q r)))) as Eo by (unfold r'; vc; rewrite outs_app; cbn; lia).
      assert (forall y, wval (v_q r') y = wval (v_q r) y) as Ev by (intros y; unfold wval; now rewrite Ei).
      assert (ED : wD (v_q r') = wD (v_q r) + 1) by (unfold wD; rewrite Eo; lia).
      assert (H0 : vhand r t = None) by (unfold vhand; now rewrite Pc, Qp).
      assert (H1 : vhand r' t = Some c) by (rewrite <- Vw, <- Ev; unfold vhand, r'; vc; now rewrite !tset_same).
      assert (W : n <= F) by now apply (vi_first _ _ R t).
      assert (forall u, u <> t -> vhand r' u = vhand r u) as Oh.
      { intros u X. apply (vhand_other r r' u []); auto; [apply R|unfold r'; vc; now rewrite tset_other|unfold r'; vc; now rewrite tset_other|now rewrite Ei, app_nil_r]. }
      apply (VI_move r r' t F F [Claimed t] []); auto; try (apply R).
      + others.
      + others.
      + now rewrite app_nil_r.
      + lia.
      + right. exists (Claimed t). auto.
      + lia.
      + unfold r'. vc. rewrite !tset_same. exact Logic.I.
      + unfold position, r'. cbn [v_q v_goto]. rewrite Hc. apply R.
      + replace (lent_out (v_hist r')) with (lent_out (v_hist r)) by (unfold r'; cbn [v_hist v_goto]; now rewrite lent_snoc).
        apply (U_get _ _ (wqueued (v_q r)) (vhand r)) with (t := t) (c := c); auto; [apply R|]. unfold wqueued. rewrite Ei, Eo. now apply nth_skipn.
      + intros d u. unfold r'. vc. rewrite user_snoc, lent_snoc. intros H. split; auto. now apply (vi_user _ _ R d u).
      + intros d H. rewrite H1 in H. injection H as <-. eapply cov_le; [apply (y_seen _ _ _ Y)|]. eapply cov_le; [exact Lg|].
        apply (y_cov _ _ _ Y). apply (vi_msg _ _ R (wD (v_q r)) c g); auto. lia.
      + unfold r'. vc. rewrite tset_same. intros d y [X|X]; discriminate.
      + intros y d H. rewrite Ev in H. auto.
      + rewrite ED. unfold r'. vc. unfold claims in *. rewrite count_snoc. pose proof (vi_claims _ _ R) as C. unfold claims in C. lia.
      + rewrite Ei. unfold r'. vc. rewrite backs_snoc, !app_nil_r. apply R.
      + unfold vticket, r'. vc. rewrite !tset_same. exists (v_hist r), []. split; auto. split; auto.
        pose proof (vi_claims _ _ R) as C. lia.
      + unfold r'. vc. apply served_plain; [apply R|discriminate].
    - injection E as <-. qcase Eq. silent R Pc Qp. unfold wval. vc. now rewrite app_nil_r.
    - cbn [tok] in Th. destruct Th as (Lz & _ & _ & Ev). pose proof (w_bnd _ _ (vi_q _ _ R)) as Bd.
      destruct v as [c|].
      2:{ exfalso. symmetry in Ev. unfold wval in Ev. apply nth_error_None in Ev. unfold wD, wE in *. lia. }
      injection E as <-. qcase Eq. silent R Pc Qp.
      unfold vticket. vc. rewrite tset_same, app_nil_r. exists (N.to_nat n + N.to_nat z)%nat. split; [exact Ti|].
      unfold due. destruct (N.ltb_spec (N.of_nat (N.to_nat n + N.to_nat z)) n); [lia|]. rewrite (vi_backs _ _ R), Ev. unfold wval. f_equal. lia.
  Qed.

  Lemma step_vput r t c i f k sp r' F : VI r F -> wE (v_q r) + 1 <= 2 ^ 62 -> v_pc r t = RPut c -> vstep r (VGo t i f k sp) = Some r' -> VI r' F.
  Proof.
    intros R Le Pc E. unfold vstep in E. rewrite (vi_bad _ _ R), Pc in E.
    pose proof (vi_fits _ _ R t) as Ft. rewrite Pc in Ft. cbn [vfits] in Ft.
    destruct (wq_pc (v_q r) t) as [|x|x z|x z|x z|x z| |z|z|z|z v] eqn:Qp; try contradiction; try subst x.
    all: match type of E with context [wqstep ?q ?a] => destruct (wqstep q a) as [q'|] eqn:Eq; [|discriminate E];
      pose proof (q_next r a q' F R Le Eq) as Q; destruct (qmem t q a q' (vi_q _ _ R) Eq eq_refl) as (Y & Hc) end;
      cbn [wqstep] in Eq; rewrite Qp in Eq.
    - injection E as <-. qcase Eq. silent R Pc Qp.
    - injection E as <-. qcase Eq. silent R Pc Qp.
    - injection E as <-. qcase Eq; silent R Pc Qp.
    - (* the compare-exchange *)
      destruct (wcas _ _ _ _ _ _ _ _ _ _ _) as [[[b found] m']|] eqn:Wc; [|discriminate Eq].
      destruct (cas_pos _ _ _ _ _ _ _ _ _ _ _ _ (w_enq _ _ (vi_q _ _ R)) Wc) as [(-> & Ez & _)|(-> & _)]; injection Eq as <-; injection E as <-.
      2:{ cbn [wq_pc wq_goto]. rewrite tset_same. silent R Pc Qp. }
      clear Wc. subst z. cbn [wq_pc wq_goto]. rewrite tset_same. set (r' := v_goto _ _ _ _ _).
      assert (ins (wq_hist (v_q r')) = ins (wq_hist (v_q r)) ++ [c]) as Ei by (unfold r'; vc; rewrite ins_app; reflexivity).
      assert (outs (wq_hist (v_q r')) = outs (wq_hist (v_q r))) as Eo by (unfold r'; vc; rewrite outs_app; cbn; lia).
      assert (ED : wD (v_q r') = wD (v_q r)) by (unfold wD; now rewrite Eo).
      assert (H0 : vhand r t = Some c) by (unfold vhand; now rewrite Pc, Qp).
      assert (H1 : vhand r' t = None) by (unfold vhand, r'; vc; now rewrite !tset_same).
      assert (forall u, u <> t -> vhand r' u = vhand r u) as Oh.
      { intros u X. apply (vhand_other r r' u [c]); auto; [apply R|unfold r'; vc; now rewrite tset_other|unfold r'; vc; now rewrite tset_other]. }
      apply (VI_move r r' t F F [Placed t c] [c]); auto; try (apply R).
      + others.
      + others.
      + lia.
      + right. exists (Placed t c). auto.
      + lia.
      + unfold r'. vc. rewrite !tset_same. reflexivity.
      + unfold position, r'. cbn [v_q v_goto]. rewrite Hc. apply R.
      + replace (lent_out (v_hist r')) with (lent_out (v_hist r)) by (unfold r'; cbn [v_hist v_goto]; now rewrite lent_snoc).
        replace (wqueued (v_q r')) with (wqueued (v_q r) ++ [c]).
        * apply (U_put _ _ _ (vhand r)) with (t := t); auto. apply R.
        * unfold wqueued. rewrite Ei, Eo, skipn_app. f_equal. pose proof (w_bnd _ _ (vi_q _ _ R)) as Bd. unfold wD, wE in Bd.
          replace (outs _ - length _)%nat with 0%nat by lia. reflexivity.
      + intros d u. unfold r'. vc. rewrite user_snoc, lent_snoc. intros H. split; auto. now apply (vi_user _ _ R d u).
      + intros d. now rewrite H1.
      + unfold r'. vc. rewrite tset_same. intros d y [X|X]; [|discriminate]. injection X as <- <-. auto.
      + intros y d H. unfold wval in *. rewrite Ei in H. destruct (Nat.lt_ge_cases (N.to_nat y) (length (ins (wq_hist (v_q r))))) as [L|L].
        * rewrite nth_error_app1 in H by exact L. auto.
        * right. rewrite nth_error_app2 in H by exact L. destruct (N.to_nat y - _)%nat as [|z] eqn:Ey; [|destruct z; discriminate].
          exists c. left. unfold r'. vc. rewrite tset_same. f_equal. unfold wE. lia.
      + rewrite ED. unfold r'. vc. unfold claims in *. rewrite count_snoc. pose proof (vi_claims _ _ R) as C. unfold claims in C. lia.
      + unfold r'. vc. rewrite tset_same. discriminate.
      + rewrite ED. apply R.
      + rewrite Ei. unfold r'. vc. rewrite backs_snoc. f_equal. apply R.
      + unfold vticket, r'. vc. now rewrite tset_same.
      + unfold r'. vc. apply served_plain; [apply R|discriminate].
    - injection E as <-. qcase Eq. silent R Pc Qp.
    - injection E as <-. qcase Eq. silent R Pc Qp.
  Qed.

  Lemma VI_step r a r' F : VI r F -> F + 1 < 2 ^ 64 -> wE (v_q r) + 1 <= 2 ^ 62 -> vstep r a = Some r' ->
    (VI r' F \/ VI r' (F + 1)).
  Proof.
    intros R B L E. destruct a as [t|t c|t c w|t i f k sp].
    - left. eapply step_get; eauto.
    - left. eapply step_ret; eauto.
    - left. eapply step_vuse; eauto.
    - destruct (v_pc r t) eqn:Pc.
      + unfold vstep in E. rewrite (vi_bad _ _ R), Pc in E. discriminate.
      + right. eapply step_count; eauto.
      + left. eapply step_vwait; eauto.
      + left. eapply step_reset; eauto.
      + left. eapply step_gloan; eauto.
      + left. eapply step_vput; eauto.
      + left. eapply step_rloan; eauto.
  Qed.

  Lemma vE_step r a r' : vstep r a = Some r' -> wE (v_q r') <= wE (v_q r) + 1.
  Proof.
    destruct (cap_facts n Hn) as (j & Hcap & Hj1 & Hj2 & _). pose proof (wE_step (T := N) cap j Hcap Hj1 Hj2) as S. intros E. unfold vstep in E.
    assert (forall m t, wE (v_mem r m t) = wE (v_q r)) as M by (intros m t; unfold wE, v_mem; cbn; now rewrite app_nil_r).
    destruct (v_bad r); [discriminate|].
    destruct a as [t|t c|t c w|t i f k sp]; destruct (v_pc r t); try discriminate E; try destruct (has r t c); try discriminate E.
    all: try (injection E as <-; cbn [v_q v_goto]; rewrite ?M; lia).
    all: try (destruct (wfetch_add _ _ _ _ _ _ _ _) as [[? ?]|]; [|discriminate E]; try destruct (_ <=? _); injection E as <-; cbn [v_q v_goto]; rewrite M; lia).
    all: destruct (wq_pc (v_q r) t) eqn:P; match type of E with context [wqstep ?q ?a] => destruct (wqstep q a) as [q'|] eqn:Eq; [apply S in Eq|discriminate E] end.
    all: try match type of E with (match ?v with Some _ => _ | None => _ end) = _ => destruct v end.
    all: injection E as <-; cbn [v_q v_goto v_set_bad]; exact Eq.
  Qed.

  Lemma wring_new_inv : VI (wring_new n) 0.
  Proof.
    destruct (cap_facts n Hn) as (j & Hcap & Hj1 & Hj2 & _). split; try reflexivity; try discriminate.
    - apply (wq_new_inv cap j Hcap Hj1 Hj2).
    - eexists _, []. split; [reflexivity|]. split; [constructor; cbn; lia|]. split; [reflexivity|]. intros b [<-|[]]. reflexivity.
    - replace (N.min 0 n) with 0 by lia. split; cbn; try constructor; try contradiction; try discriminate. lia.
    - intros t c i [X|X]; discriminate.
    - intros i c g _ V. unfold wval in V. cbn in V. destruct (N.to_nat i); discriminate.
    - intros c v _ e a A. cbn in A. destruct e; discriminate.
    - intros x [].
    - unfold wD. cbn. lia.
    - intros X. now destruct X.
    - intros p t c q E. destruct p; discriminate.
  Qed.

  Lemma vrun_inv sched : N.of_nat (length sched) <= 2 ^ 62 -> exists F, VI (vrun n sched) F /\
    F <= N.of_nat (length sched) /\ wE (v_q (vrun n sched)) <= N.of_nat (length sched).
  Proof.
    induction sched as [|a r IH] using rev_ind; intros L.
    - exists 0. split; [apply wring_new_inv|]. split; [lia|]. cbn. unfold wE. cbn. lia.
    - rewrite app_length in *. cbn [length] in *. destruct IH as (F & R & B1 & B2); [lia|].
      unfold vrun in *. rewrite run_snoc. unfold move. destruct (vstep _ a) as [r'|] eqn:E.
      + pose proof (vE_step _ _ _ E) as Es.
        assert (2 ^ 62 + 1 < 2 ^ 64) by reflexivity.
        destruct (VI_step _ _ _ F R ltac:(lia) ltac:(lia) E) as [R'|R']; [exists F|exists (F + 1)].
        all: split; [exact R'|]; split; lia.
      + exists F. split; [exact R|]. split; lia.
  Qed.
End Ring.
