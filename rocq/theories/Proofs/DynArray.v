(** The ledger of arrays and buffers. *)
From Coq Require Import Permutation.
From Verif Require Import Base Model.StringUtils Model.Event Model.Queue Model.Buffer Spec.Ledger Model.DynArray.

Lemma audits_snoc : forall l a a' e, audits a l = Some a' -> audits a (l ++ [e]) = audit a' e.
Proof.
  induction l as [|x l IH]; cbn [audits app]; intros a a' e H.
  - injection H as <-. now destruct (audit a e).
  - destruct (audit a x); [eauto|discriminate].
Qed.

Lemma drop_in : forall A (same : A -> bool) l x, In x l -> same x = true -> (forall y, In y l -> same y = true -> y = x) ->
  exists r, drop same l = Some r /\ Permutation l (x :: r).
Proof.
  induction l as [|y l IH]; intros x I S U; [destruct I|]. cbn [drop]. destruct (same y) eqn:Y.
  - rewrite (U y (or_introl eq_refl) Y). eexists; split; eauto.
  - destruct I as [->|I]; [congruence|]. destruct (IH x I S) as (r & E & P); [intros; apply U; auto; now right|].
    rewrite E. eexists; split; eauto. rewrite P. apply perm_swap.
Qed.

Definition acct (s : mst) (B : list (nat * N)) (O : list (nat * N * N)) : Prop :=
  (exists a, audits ([], []) (m_log s) = Some a /\ amounts a B O) /\
  NoDup (map fst B) /\ (forall p, In p B -> fst p < m_req s) /\ (forall o, In o O -> exists k, In (fst (fst o), k) B).

Lemma acct_perm : forall s B O B' O', Permutation B B' -> Permutation O O' -> acct s B O -> acct s B' O'.
Proof.
  intros s B O B' O' PB PO ((a & E & P1 & P2) & N & F & G). split; [exists a; split; auto; split; etransitivity; eauto|]. split.
  - eapply Permutation_NoDup; [apply Permutation_map; exact PB|exact N].
  - split; intros x I.
    + apply F. eapply Permutation_in; [symmetry; exact PB|exact I].
    + destruct (G x) as (k & K); [eapply Permutation_in; [symmetry; exact PO|exact I]|]. exists k. eapply Permutation_in; eauto.
Qed.

Lemma acct_req : forall s s' B O, acct s B O -> m_log s' = m_log s -> m_req s <= m_req s' -> acct s' B O.
Proof.
  intros s s' B O (A & N & F & G) L R. unfold acct. rewrite L. split; auto. split; auto. split; auto.
  intros p I. specialize (F p I). lia.
Qed.

Lemma acct_got : forall s B O b n, acct s B O -> (forall k, ~ In (b, k) B) -> b < m_req s -> acct (note s (Got b n)) ((b, n) :: B) O.
Proof.
  intros s B O b n ((a & E & P1 & P2) & N & F & G) Fr R. split; [|split; [|split]].
  - exists ((b, n) :: fst a, snd a). split; [|split; auto; cbn; now constructor].
    unfold note; cbn [m_log]. rewrite (audits_snoc _ _ _ _ E). destruct a as [ab ao]. cbn [audit fst snd] in *.
    destruct (existsb _ ab) eqn:X; auto. exfalso. apply existsb_exists in X as ([b' k] & I & Q). cbn in Q. apply Nat.eqb_eq in Q as ->.
    apply (Fr k). eapply Permutation_in; eauto.
  - cbn [map fst]. constructor; auto. intros I. apply in_map_iff in I as ([b' k] & <- & I). now apply (Fr k).
  - intros p [<-|I]; cbn; auto.
  - intros o I. destruct (G o I) as (k & K). exists k. now right.
Qed.

Lemma acct_made : forall s B O b at_ n k, acct s B O -> In (b, k) B -> (at_ + n <= k)%N ->
  (forall at' n', In (b, at', n') O -> apart at_ n at' n' = true) -> acct (note s (Made b at_ n)) B ((b, at_, n) :: O).
Proof.
  intros s B O b at_ n k ((a & E & P1 & P2) & N & F & G) I Le Ap. split; [|split; [|split]]; auto.
  - exists (fst a, (b, at_, n) :: snd a). split; [|split; auto; cbn; now constructor].
    unfold note; cbn [m_log]. rewrite (audits_snoc _ _ _ _ E). destruct a as [ab ao]. cbn [audit fst snd] in *.
    replace (existsb _ ab) with true. replace (forallb _ ao) with true; auto.
    + symmetry. apply forallb_forall. intros [[b' at'] n'] J. cbn. destruct (Nat.eqb_spec b' b) as [->|]; auto. cbn.
      apply Ap. eapply Permutation_in; eauto.
    + symmetry. apply existsb_exists. exists (b, k). split; [eapply Permutation_in; [symmetry; exact P1|exact I]|]. cbn.
      rewrite Nat.eqb_refl. now apply N.leb_le.
  - intros o [<-|J]; eauto.
Qed.

Lemma acct_gone : forall s B O b at_ n, acct s B ((b, at_, n) :: O) -> acct (note s (Gone b at_ n)) B O.
Proof.
  intros s B O b at_ n ((a & E & P1 & P2) & N & F & G). split; [|split; [|split]]; auto.
  - unfold note; cbn [m_log]. rewrite (audits_snoc _ _ _ _ E). destruct a as [ab ao]. cbn [audit fst snd] in *.
    edestruct (drop_in _ (fun p => Nat.eqb (fst (fst p)) b && (snd (fst p) =? at_)%N && (snd p =? n)%N) ao (b, at_, n)) as (r & D & P).
    + eapply Permutation_in; [symmetry; exact P2|now left].
    + cbn. now rewrite Nat.eqb_refl, !N.eqb_refl.
    + intros [[b' at'] n'] _ Q. cbn in Q. apply andb_prop in Q as [Q Q3]. apply andb_prop in Q as [Q1 Q2].
      apply Nat.eqb_eq in Q1. apply N.eqb_eq in Q2. apply N.eqb_eq in Q3. now subst.
    + rewrite D. exists (ab, r). split; auto. split; auto. cbn. apply (Permutation_cons_inv (a := (b, at_, n))). etransitivity; [symmetry; exact P|exact P2].
  - intros o I. apply G. now right.
Qed.

Lemma acct_back : forall s B O b k, acct s ((b, k) :: B) O -> (forall at_ n, ~ In (b, at_, n) O) -> acct (note s (Back b)) B O.
Proof.
  intros s B O b k ((a & E & P1 & P2) & N & F & G) No. cbn [map fst] in N. inversion N as [|x l N1 N2]; subst.
  split; [|split; [|split]]; auto.
  - unfold note; cbn [m_log]. rewrite (audits_snoc _ _ _ _ E). destruct a as [ab ao]. cbn [audit fst snd] in *.
    destruct (existsb _ ao) eqn:X.
    { exfalso. apply existsb_exists in X as ([[b' at'] n'] & I & Q). cbn in Q. apply Nat.eqb_eq in Q as ->.
      apply (No at' n'). eapply Permutation_in; eauto. }
    edestruct (drop_in _ (fun p => Nat.eqb (fst p) b) ab (b, k)) as (r & D & P).
    + eapply Permutation_in; [symmetry; exact P1|now left].
    + cbn. apply Nat.eqb_refl.
    + intros [b' k'] I Q. cbn in Q. apply Nat.eqb_eq in Q as ->. assert (J : In (b, k') ((b, k) :: B)) by (eapply Permutation_in; eauto).
      destruct J as [J|J]; [congruence|]. exfalso. apply N1. change b with (fst (b, k')). now apply in_map.
    + rewrite D. exists (r, ao). split; auto. split; auto. cbn. apply (Permutation_cons_inv (a := (b, k))). etransitivity; [symmetry; exact P|exact P1].
  - intros p I. apply F. now right.
  - intros [[b' at'] n'] I. destruct (G _ I) as (k' & [J|J]); [|eauto]. exfalso. cbn in J. injection J as -> ->. eapply No; eauto.
Qed.

Lemma elems_S : forall b sz n, Permutation (elems b sz (S n)) ((b, sz * N.of_nat n, sz)%N :: elems b sz n).
Proof.
  intros b sz n. unfold elems. rewrite seq_S, map_app. cbn [map Nat.add]. symmetry. apply Permutation_cons_append.
Qed.

Lemma elems_in : forall b sz n o, In o (elems b sz n) <-> exists i, i < n /\ o = (b, sz * N.of_nat i, sz)%N.
Proof.
  intros b sz n o. unfold elems. rewrite in_map_iff. split.
  - intros (i & <- & I). apply in_seq in I. exists i. split; auto. lia.
  - intros (i & L & ->). exists i. split; auto. apply in_seq. lia.
Qed.

Section E.
  Variable E : env.
  Definition lacks (b : nat) (O : list (nat * N * N)) : Prop := forall at_ n, ~ In (b, at_, n) O.

  Lemma op_new_spec : forall s B O n, acct s B O ->
    match op_new E s n with
    | (Ok b, s') => acct s' ((b, n) :: B) O /\ lacks b O /\ m_req s <= m_req s' /\ m_built s' = m_built s
    | (Throw e, s') => e = BadAlloc /\ acct s' B O /\ grants E (m_req s) = false /\ m_req s' = S (m_req s) /\ m_built s' = m_built s
    | (UB, _) => False
    end.
  Proof.
    intros s B O n A. unfold op_new. destruct (grants E (m_req s)) eqn:Gr.
    - pose proof A as (_ & _ & F & G). cbn [m_req m_built note]. split; [|split; [|split; auto]].
      + apply acct_got; cbn [m_req]; auto.
        * eapply acct_req; [exact A|reflexivity|cbn; lia].
        * intros k I. specialize (F _ I). cbn in F. lia.
      + intros at_ k I. destruct (G _ I) as (k' & I'). specialize (F _ I'). cbn in F. lia.
    - split; auto. split; auto. eapply acct_req; [exact A|reflexivity|cbn; lia].
  Qed.

  (** What a failing call of the environment explains. *)
  Definition failed (s s' : mst) : Prop :=
    (exists k, m_req s <= k < m_req s' /\ grants E k = false) \/ (exists k, m_built s <= k < m_built s' /\ builds E k = false).

  Lemma fill_spec : forall b sz cnt B O, lacks b O -> forall n i s, i + n = cnt ->
    acct s ((b, sz * N.of_nat cnt)%N :: B) (elems b sz i ++ O) ->
    let '(ok, j, s') := fill E s b sz i n in
    acct s' ((b, sz * N.of_nat cnt)%N :: B) (elems b sz j ++ O) /\ m_req s' = m_req s /\ m_built s <= m_built s' /\
    (if ok then j = cnt else exists k, m_built s <= k < m_built s' /\ builds E k = false).
  Proof.
    intros b sz cnt B O La. induction n as [|n IH]; intros i s Hn A; cbn [fill].
    - split; auto. split; auto. split; auto. lia.
    - destruct (builds E (m_built s)) eqn:Bu.
      + set (s1 := {| m_req := m_req s; m_built := S (m_built s); m_log := m_log s |}).
        assert (A1 : acct (note s1 (Made b (slot sz i) sz)) ((b, sz * N.of_nat cnt)%N :: B) (elems b sz (S i) ++ O)).
        { eapply acct_perm; [reflexivity| |eapply (acct_made s1 _ (elems b sz i ++ O) b (slot sz i) sz)].
          - change ((b, slot sz i, sz) :: elems b sz i ++ O) with (((b, slot sz i, sz) :: elems b sz i) ++ O). apply Permutation_app_tail. symmetry. apply elems_S.
          - eapply acct_req; [exact A|reflexivity|cbn; lia].
          - now left.
          - unfold slot. nia.
          - intros at' n' I. apply in_app_or in I as [I|I]; [|now apply La in I].
            apply elems_in in I as (j & J & Q). injection Q as -> ->. unfold apart, slot. apply orb_true_iff. right. apply N.leb_le. nia. }
        specialize (IH (S i) (note s1 (Made b (slot sz i) sz)) ltac:(lia) A1).
        destruct (fill E (note s1 _) b sz (S i) n) as [[ok j] s']. destruct IH as (A2 & R & Bt & C). cbn [note m_req m_built s1] in *.
        split; auto. split; auto. split; [lia|]. destruct ok; auto. destruct C as (k & K & K'). exists k. split; auto. lia.
      + cbn [m_req m_built]. split; [eapply acct_req; [exact A|reflexivity|cbn; lia]|]. split; auto. split; auto. exists (m_built s). split; auto; lia.
  Qed.

  Lemma unfill_spec : forall b sz B O i s, acct s B (elems b sz i ++ O) ->
    acct (unfill s b sz i) B O /\ m_req (unfill s b sz i) = m_req s /\ m_built (unfill s b sz i) = m_built s.
  Proof.
    intros b sz B O. induction i as [|i IH]; intros s A; cbn [unfill]; [auto|].
    apply (IH (note s (Gone b (slot sz i) sz))). apply acct_gone. eapply acct_perm; [reflexivity| |exact A].
    change ((b, slot sz i, sz) :: elems b sz i ++ O) with (((b, slot sz i, sz) :: elems b sz i) ++ O). apply Permutation_app_tail. apply elems_S.
  Qed.

  Lemma dyn_delete_spec : forall b sz B O n k s, lacks b O -> acct s ((b, k) :: B) (elems b sz n ++ O) ->
    let s' := dyn_delete s {| da_base := Some b; da_size := n |} sz in
    acct s' B O /\ m_req s' = m_req s /\ m_built s' = m_built s.
  Proof.
    intros b sz B O n k s La A. cbn [dyn_delete da_base da_size]. destruct (unfill_spec b sz ((b, k) :: B) O n s A) as (A' & R & Bt).
    cbn [note m_req m_built]. split; auto. eapply acct_back; eauto.
  Qed.

  Lemma fits_sound : forall sz count, (0 < sz)%N -> ((w64 - 1) / sz <=? count)%N = false -> (sz * count < w64)%N.
  Proof.
    intros sz count P H. apply N.leb_gt in H. assert (X : (sz * ((w64 - 1) / sz) <= w64 - 1)%N) by (apply N.mul_div_le; lia).
    assert (0 < w64)%N by reflexivity. nia.
  Qed.

  Lemma dyn_new_spec : forall s B O sz count, (0 < sz)%N -> acct s B O ->
    match dyn_new E s sz count with
    | (Ok d, s') => exists b, d = {| da_base := Some b; da_size := N.to_nat count |} /\ (sz * count < w64)%N /\ lacks b O /\
        acct s' ((b, sz * count)%N :: B) (elems b sz (N.to_nat count) ++ O) /\ m_req s <= m_req s' /\ m_built s <= m_built s'
    | (Throw e, s') => acct s' B O /\ m_req s <= m_req s' /\ m_built s <= m_built s' /\
        (e = OutOfRange /\ s' = s /\ ((w64 - 1) / sz <= count)%N \/ e = BadAlloc /\ (count < (w64 - 1) / sz)%N /\ failed s s')
    | (UB, _) => False
    end.
  Proof.
    intros s B O sz count P A. unfold dyn_new, allocate. destruct ((w64 - 1) / sz <=? count)%N eqn:Fi.
    - cbn [dyn_delete da_base]. split; auto. split; auto. split; auto. left. repeat split; auto. now apply N.leb_le.
    - pose proof (fits_sound sz count P Fi) as W. rewrite N.mod_small by auto. apply N.leb_gt in Fi.
      pose proof (op_new_spec s B O (sz * count)%N A) as H. destruct (op_new E s (sz * count)%N) as [[b|e|] s1]; [| |destruct H].
      + destruct H as (A1 & La & R & Bt). assert (Hc : N.of_nat (N.to_nat count) = count) by apply N2Nat.id.
        pose proof (fill_spec b sz (N.to_nat count) B O La (N.to_nat count) 0 s1 eq_refl) as HF. rewrite Hc in HF. specialize (HF A1).
        destruct (fill E s1 b sz 0 (N.to_nat count)) as [[ok j] s2]. destruct HF as (A2 & R2 & Bt2 & C). destruct ok.
        * subst j. exists b. repeat split; auto; try lia. exact (proj1 A2). apply A2. apply A2. apply A2.
        * destruct (dyn_delete_spec b sz B O j _ s2 La A2) as (A3 & R3 & Bt3). rewrite R3, Bt3. split; auto. split; [lia|]. split; [lia|].
          right. split; auto. split; auto. right. destruct C as (k & K & K'). exists k. rewrite Bt3. split; auto. lia.
      + destruct H as (-> & A1 & Gr & R & Bt). cbn [dyn_delete da_base]. split; auto. split; [lia|]. split; [lia|]. right. split; auto. split; auto.
        left. exists (m_req s). split; auto. lia.
  Qed.
End E.

Definition shaped (csz qsz : N) (m : made_buffer) (h : shape) : Prop :=
  sh_own h = mb_block m /\ sh_bytes h = mb_bytes m /\
  exists bc n, mb_chunks m = {| da_base := Some bc; da_size := n |} /\
    match mb_cells m with
    | None => sh_arrays h = [(bc, csz, n)]
    | Some q => exists bq nq, q = {| da_base := Some bq; da_size := nq |} /\ sh_arrays h = [(bq, qsz, nq); (bc, csz, n)]
    end.

Section Buffers.
  Variable E : env.
  Variables csz qsz : N.
  Hypothesis Hc : (0 < csz)%N.
  Hypothesis Hq : (0 < qsz)%N.

  Definition binv (s : mst) (live : list made_buffer) : Prop :=
    exists shapes, Forall2 (shaped csz qsz) live shapes /\ acct s (flat_map blocks_of shapes) (flat_map objs_of shapes).

  Lemma failed_l : forall s s1 s2, failed E s s1 -> m_req s1 <= m_req s2 -> m_built s1 <= m_built s2 -> failed E s s2.
  Proof. intros s s1 s2 [(k & K & G)|(k & K & G)] R B; [left|right]; exists k; split; auto; lia. Qed.
  Lemma failed_r : forall s s1 s2, failed E s1 s2 -> m_req s <= m_req s1 -> m_built s <= m_built s1 -> failed E s s2.
  Proof. intros s s1 s2 [(k & K & G)|(k & K & G)] R B; [left|right]; exists k; split; auto; lia. Qed.

  Lemma lacks_app : forall b O O', lacks b O -> lacks b O' -> lacks b (O ++ O').
  Proof. intros b O O' H H' at_ n I. apply in_app_or in I as [I|I]; [eapply H|eapply H']; eauto. Qed.
  Lemma lacks_elems : forall b b' sz n, b <> b' -> lacks b (elems b' sz n).
  Proof. intros b b' sz n D at_ k I. apply elems_in in I as (i & _ & Q). congruence. Qed.
  Lemma lacks_app_inv : forall b O O', lacks b (O ++ O') -> lacks b O /\ lacks b O'.
  Proof. intros b O O' H. split; intros at_ n I; apply (H at_ n), in_or_app; auto. Qed.

  Lemma in_fst : forall b k (B : list (nat * N)), In (b, k) B -> In b (map fst B).
  Proof. intros b k B I. change b with (fst (b, k)). now apply in_map. Qed.

  Lemma fixed_new_spec : forall s live osz count, binv s live ->
    match fixed_new E csz s osz count with
    | (Ok m, s') => binv s' (m :: live) /\ mb_bytes m = osz /\ da_size (mb_chunks m) = N.to_nat count /\ mb_cells m = None /\ (csz * count < w64)%N
    | (Throw e, s') => binv s' live /\ (e = OutOfRange /\ ((w64 - 1) / csz <= count)%N \/ e = BadAlloc /\ failed E s s')
    | (UB, _) => False
    end.
  Proof.
    intros s live osz count (sh & F & A). unfold fixed_new. pose proof (op_new_spec E s _ _ osz A) as H.
    destruct (op_new E s osz) as [[b|e|] s1]; [| |destruct H].
    - destruct H as (A1 & La & R1 & B1). pose proof (dyn_new_spec E s1 _ _ csz count Hc A1) as H2.
      destruct (dyn_new E s1 csz count) as [[d|e|] s2]; [| |destruct H2].
      + destruct H2 as (bc & -> & W & La2 & A2 & R2 & B2). cbn [mb_bytes mb_chunks mb_cells da_size]. split; auto.
        exists ({| sh_own := b; sh_bytes := osz; sh_arrays := [(bc, csz, N.to_nat count)] |} :: sh). split.
        * constructor; auto. unfold shaped. cbn. split; auto. split; auto. exists bc, (N.to_nat count). auto.
        * cbn [flat_map]. unfold blocks_of at 1, objs_of at 1. cbn [sh_own sh_bytes sh_arrays flat_map map app]. rewrite N2Nat.id, app_nil_r.
          assert (D : b <> bc). { intros ->. destruct A2 as (_ & N & _). cbn in N. inversion N as [|x l N1 N2]. apply N1. now left. }
          eapply acct_perm; [apply perm_swap|reflexivity|]. eapply acct_made; [exact A2|right; now left|lia|].
          intros at' n' I. exfalso. eapply (lacks_app b _ _ (lacks_elems b bc csz (N.to_nat count) D) La); eauto.
      + destruct H2 as (A2 & R2 & B2 & H2). split.
        * exists sh. split; auto. eapply acct_back; eauto.
        * destruct H2 as [(-> & -> & W)|(-> & W & Fl)]; [left; auto|right]. split; auto. change (failed E s s2). eapply failed_r; eauto; lia.
    - destruct H as (-> & A1 & Gr & R1 & B1). split; [exists sh; auto|]. right. split; auto. left. exists (m_req s). split; auto. lia.
  Qed.

  Lemma ring_new_spec : forall s live osz count, binv s live ->
    match ring_new E csz qsz s osz count with
    | (Ok m, s') => binv s' (m :: live) /\ mb_bytes m = osz /\ da_size (mb_chunks m) = N.to_nat count /\
        option_map da_size (mb_cells m) = Some (N.to_nat (upper_power_of_two count)) /\ (csz * count < w64)%N
    | (Throw e, s') => binv s' live /\ (e = OutOfRange /\ ((w64 - 1) / csz <= count \/ (w64 - 1) / qsz <= upper_power_of_two count)%N \/ e = BadAlloc /\ failed E s s')
    | (UB, _) => False
    end.
  Proof.
    intros s live osz count (sh & F & A). unfold ring_new. pose proof (op_new_spec E s _ _ osz A) as H.
    destruct (op_new E s osz) as [[b|e|] s1]; [| |destruct H].
    - destruct H as (A1 & La & R1 & B1). pose proof (dyn_new_spec E s1 _ _ csz count Hc A1) as H2.
      destruct (dyn_new E s1 csz count) as [[d|e|] s2]; [| |destruct H2].
      + destruct H2 as (bc & -> & W & La2 & A2 & R2 & B2). generalize (upper_power_of_two count). intros cells.
        pose proof (dyn_new_spec E s2 _ _ qsz cells Hq A2) as H3.
        assert (D : b <> bc). { intros ->. destruct A2 as (_ & N & _). cbn in N. inversion N as [|x l N1 N2]. apply N1. now left. }
        destruct (dyn_new E s2 qsz cells) as [[q|e|] s3]; [| |destruct H3].
        * destruct H3 as (bq & -> & W3 & La3 & A3 & R3 & B3). cbn [mb_bytes mb_chunks mb_cells da_size option_map]. split; [|repeat split; auto].
          exists ({| sh_own := b; sh_bytes := osz; sh_arrays := [(bq, qsz, N.to_nat cells); (bc, csz, N.to_nat count)] |} :: sh). split.
          -- constructor; auto. unfold shaped. cbn. split; auto. split; auto. exists bc, (N.to_nat count). split; auto. exists bq, (N.to_nat cells). auto.
          -- cbn [flat_map]. unfold blocks_of at 1, objs_of at 1. cbn [sh_own sh_bytes sh_arrays flat_map map app]. rewrite !N2Nat.id, app_nil_r.
             assert (D' : b <> bq). { intros ->. destruct A3 as (_ & N & _). cbn in N. inversion N as [|x l N1 N2]. apply N1. right. now left. }
             eapply acct_perm; [|reflexivity|].
             { apply Permutation_sym. eapply perm_trans; [apply perm_swap|]. apply perm_skip. apply perm_swap. }
             rewrite <- app_assoc.
             eapply acct_made; [exact A3|right; right; now left|lia|].
             intros at' n' I. exfalso. eapply (lacks_app b _ _ (lacks_elems b bq qsz (N.to_nat cells) D') (lacks_app b _ _ (lacks_elems b bc csz (N.to_nat count) D) La)); eauto.
        * destruct H3 as (A3 & R3 & B3 & H3). destruct (dyn_delete_spec bc csz _ _ (N.to_nat count) _ s3 La2 A3) as (A4 & R4 & B4). split.
          -- exists sh. split; auto. eapply acct_back; eauto.
          -- destruct H3 as [(-> & -> & W3)|(-> & W3 & Fl)]; [left; auto|right]. split; auto.
             eapply failed_l; [eapply failed_r; [exact Fl| |]|..]; cbn [note m_req m_built]; rewrite ?R4, ?B4; lia.
      + destruct H2 as (A2 & R2 & B2 & H2). split.
        * exists sh. split; auto. eapply acct_back; eauto.
        * destruct H2 as [(-> & -> & W)|(-> & W & Fl)]; [left; auto|right]. split; auto. change (failed E s s2). eapply failed_r; eauto; lia.
    - destruct H as (-> & A1 & Gr & R1 & B1). split; [exists sh; auto|]. right. split; auto. left. exists (m_req s). split; auto. lia.
  Qed.

  Lemma take_nth_perm : forall A (l : list A) i x r, take_nth l i = Some (x, r) -> Permutation l (x :: r).
  Proof.
    induction l as [|y l IH]; intros i x r H; cbn in H; [discriminate|]. destruct i as [|i].
    - injection H as <- <-. reflexivity.
    - destruct (take_nth l i) as [[z r']|] eqn:T; [|discriminate]. injection H as <- <-. rewrite (IH _ _ _ T). apply perm_swap.
  Qed.

  Lemma binv_perm : forall s l l', Permutation l l' -> binv s l -> binv s l'.
  Proof.
    intros s l l' P (sh & F & A). destruct (Permutation_Forall2 P F) as (sh' & P' & F'). exists sh'. split; auto.
    eapply acct_perm; [| |exact A]; now apply Permutation_flat_map.
  Qed.

  Lemma acct_lacks : forall s b k B O1 O2, acct s ((b, k) :: B) (O1 ++ O2) -> (forall o, In o O2 -> exists k', In (fst (fst o), k') B) -> lacks b O2.
  Proof.
    intros s b k B O1 O2 (_ & N & _) H at_ n I. destruct (H _ I) as (k' & J). cbn in N. inversion N as [|x l N1 N2]; subst. apply N1.
    eapply in_fst; exact J.
  Qed.

  (** The objects of shapes lie in their blocks. *)
  Lemma objs_in_blocks : forall sh o, In o (flat_map objs_of sh) -> exists k, In (fst (fst o), k) (flat_map blocks_of sh).
  Proof.
    intros sh o I. apply in_flat_map in I as (h & Ih & I). unfold objs_of in I. destruct I as [<-|I].
    - exists (sh_bytes h). apply in_flat_map. exists h. split; auto. now left.
    - apply in_flat_map in I as ([[b sz] n] & Ia & I). apply elems_in in I as (i & _ & ->). exists (sz * N.of_nat n)%N.
      apply in_flat_map. exists h. split; auto. right. apply in_map_iff. exists (b, sz, n). auto.
  Qed.

  Lemma buffer_delete_spec : forall s m live, binv s (m :: live) -> binv (buffer_delete csz qsz s m) live.
  Proof.
    intros s m live (sh & F & A). inversion F as [|m' h l' sh' Hm F' E1 E2]; subst. exists sh'. split; auto.
    destruct Hm as (Ho & Hb & bc & n & Hch & Har). pose proof (objs_in_blocks sh') as OB. revert OB A. cbn [flat_map].
    generalize (flat_map blocks_of sh') (flat_map objs_of sh'). intros B O OB A.
    unfold blocks_of, objs_of in A. rewrite Ho, Hb in A. unfold buffer_delete. rewrite Hch.
    pose proof A as (_ & N & _). destruct (mb_cells m) as [q|].
    - destruct Har as (bq & nq & -> & Ea). rewrite Ea in A, N. cbn [map flat_map app fst] in A, N. rewrite app_nil_r, <- app_assoc in A.
      inversion N as [|x l N1 N2]; subst. inversion N2 as [|x l N3 N4]; subst. inversion N4 as [|x l N5 N6]; subst.
      assert (L : forall b, ~ In b (map fst B) -> lacks b O). { intros b Nb at_ k I. destruct (OB _ I) as (k' & J). apply Nb. eapply in_fst; exact J. }
      assert (L1 : lacks bq (elems bc csz n ++ O)).
      { apply lacks_app; [apply lacks_elems; intros ->; apply N3; now left|]. apply L. intros I. apply N3. now right. }
      assert (L2 : lacks bc O) by (apply L; auto).
      assert (L3 : lacks (mb_block m) O) by (apply L; intros I; apply N1; right; now right).
      apply acct_gone in A. eapply acct_perm in A; [|apply perm_swap|reflexivity].
      destruct (dyn_delete_spec bq qsz _ _ nq _ _ L1 A) as (A2 & _). eapply acct_perm in A2; [|apply perm_swap|reflexivity].
      destruct (dyn_delete_spec bc csz _ _ n _ _ L2 A2) as (A3 & _). eapply acct_back; [exact A3|exact L3].
    - rewrite Har in A, N. cbn [map flat_map app fst] in A, N. rewrite app_nil_r in A.
      inversion N as [|x l N1 N2]; subst. inversion N2 as [|x l N3 N4]; subst.
      assert (L : forall b, ~ In b (map fst B) -> lacks b O). { intros b Nb at_ k I. destruct (OB _ I) as (k' & J). apply Nb. eapply in_fst; exact J. }
      apply acct_gone in A. eapply acct_perm in A; [|apply perm_swap|reflexivity].
      destruct (dyn_delete_spec bc csz _ _ n _ _ (L _ N3) A) as (A3 & _). eapply acct_back; [exact A3|].
      apply L. intros I. apply N1. now right.
  Qed.

  Lemma buffer_op_inv : forall s live o, binv s live -> let '(s', live') := buffer_op E csz qsz (s, live) o in binv s' live'.
  Proof.
    intros s live [osz count|osz count|i] I; cbn [buffer_op].
    - pose proof (fixed_new_spec s live osz count I) as H. destruct (fixed_new E csz s osz count) as [[m|e|] s']; cbn [keep_made]; [apply H|apply H|destruct H].
    - pose proof (ring_new_spec s live osz count I) as H. destruct (ring_new E csz qsz s osz count) as [[m|e|] s']; cbn [keep_made]; [apply H|apply H|destruct H].
    - destruct (take_nth live i) as [[m rest]|] eqn:T; auto. apply buffer_delete_spec. eapply binv_perm; [|exact I]. eapply take_nth_perm; eauto.
  Qed.

  Lemma buffers_inv : forall ops s live, binv s live -> let '(s', live') := fold_left (buffer_op E csz qsz) ops (s, live) in binv s' live'.
  Proof.
    induction ops as [|o ops IH]; intros s live I; cbn [fold_left]; auto. pose proof (buffer_op_inv s live o I) as H.
    destruct (buffer_op E csz qsz (s, live) o) as [s' live']. now apply IH.
  Qed.

  Lemma binv0 : binv mst0 [].
  Proof.
    exists []. split; auto. split; [exists ([], []); split; auto; split; reflexivity|]. split; [constructor|]. split; intros x [].
  Qed.
End Buffers.
