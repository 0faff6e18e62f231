(** The chunk lock with the memory orders it is written with. *)
From Verif Require Import Base Spec.LockHistory Model.Interleave Model.ChunkLock Model.WeakMem Model.WeakLock
  Proofs.Interleave Proofs.ChunkLock Proofs.WeakMem.
Local Open Scope N_scope.

(** All accesses so far are known. *)
Definition knows_all (m : wmem N) (v : view) : Prop := forall e, (e < length (accs m))%nat -> known v e = true.

Definition wl_inv (s : wlstate) : Prop :=
  let m := wl_mem s in
  races m = [] /\ (forall t, ~ In (AssertFailed t) (wl_hist s)) /\
  exists g l, hist m lock_word = g :: l /\ chain (fun v => v = word_val Unlocked) (g :: l) /\
  ((m_val g = word_val Unlocked /\ holders (wl_hist s) = [] /\ (forall t sd, wl_pc s t <> Inside sd) /\
    knows_all m (m_view g)) \/
   exists t sd, m_val g = word_val (taken sd) /\ holders (wl_hist s) = [(t, sd)] /\
     (forall u sd', wl_pc s u = Inside sd' <-> u = t /\ sd' = sd) /\
     m_to g <= ts (seen m t) lock_word /\ knows_all m (seen m t)).

Lemma knows_le m v w : vle v w -> knows_all m v -> knows_all m w.
Proof. intros (_ & L) H e He. auto. Qed.

(** Steps that neither enter nor leave. *)
Lemma wl_inv_same s m t p ev :
  wl_inv s ->
  races m = races (wl_mem s) -> hist m lock_word = hist (wl_mem s) lock_word -> accs m = accs (wl_mem s) ->
  (forall u, vle (seen (wl_mem s) u) (seen m u)) ->
  (forall sd, wl_pc s t <> Inside sd) -> (forall sd, p <> Inside sd) ->
  (forall e, In e ev -> (forall u, e <> AssertFailed u)) -> (forall l, holders_from l ev = l) ->
  wl_inv (wl_put s m t p ev).
Proof.
  intros (R & A & g & l & E & C & I) Er Eh Ea Ls Np Np' Ne Hl. split; [|split].
  - cbn. congruence.
  - intros u Hu. cbn in Hu. apply in_app_or in Hu as [Hu|Hu]; [now apply (A u)|]. exact (Ne _ Hu u eq_refl).
  - exists g, l. cbn [wl_put wl_mem wl_hist wl_pc]. rewrite Eh. split; [auto|]. split; [auto|].
    unfold holders. rewrite holders_from_app. fold (holders (wl_hist s)). rewrite Hl.
    destruct I as [(V & H & Q & K)|(t0 & sd0 & V & H & Q & L & K)]; [left|right].
    + repeat split; auto.
      * intros u sd. destruct (Nat.eq_dec u t) as [->|Nu]; [rewrite tset_same; auto|rewrite tset_other by auto; auto].
      * intros e He. rewrite Ea in He. auto.
    + exists t0, sd0. assert (t0 <> t) as Nt.
      { intros ->. apply (Np sd0). now apply Q. }
      split; [auto|]. split; [auto|]. split; [|split].
      * intros u sd. destruct (Nat.eq_dec u t) as [->|Nu].
        -- rewrite tset_same. split; [intros; exfalso; eapply Np'; eauto|intros (-> & _); congruence].
        -- rewrite tset_other by auto. apply Q.
      * destruct (Ls t0) as (L' & _). specialize (L' lock_word). lia.
      * intros e He. rewrite Ea in He. apply (Ls t0). auto.
Qed.

Lemma seen_with t v (m : wmem N) u : vle (seen m t) v -> vle (seen m u) (seen (with_seen m t v) u).
Proof.
  intros L. cbn. destruct (Nat.eq_dec u t) as [->|N]; [now rewrite tset_same|rewrite tset_other by auto; apply vle_refl].
Qed.

(** A compare-exchange that succeeds takes the newest store. *)
Lemma cas_inv (m : wmem N) t exp des i n sp b fv m' :
  wcas m t true true true lock_word exp des i n sp = Some (b, fv, m') ->
  exists g, nth_error (hist m lock_word) i = Some g /\ ts (seen m t) lock_word <= m_to g /\ fv = m_val g /\
    ((b = true /\ m_val g = exp /\ free (m_to g) n (hist m lock_word) = true /\
      m' = with_msg (with_seen m t (vat (after_load (seen m t) true lock_word g) lock_word n)) lock_word
             {| m_from := m_to g; m_to := n; m_val := des;
                m_view := vjoin (m_view g) (vat (after_load (seen m t) true lock_word g) lock_word n) |}) \/
     (b = false /\ (m_val g = exp -> sp = true) /\
      m' = with_seen m t (after_load (seen m t) true lock_word g))).
Proof.
  unfold wcas, wrmw, wload. destruct (nth_error (hist m lock_word) i) as [g|] eqn:E; [|discriminate].
  destruct ((m_val g =? exp) && negb sp) eqn:D.
  - destruct ((ts (seen m t) lock_word <=? m_to g) && free (m_to g) n (hist m lock_word)) eqn:F; [|discriminate].
    intros [= <- <- <-]. apply andb_true_iff in D as (D1 & D2), F as (F1 & F2).
    exists g. split; [auto|]. split; [lia|]. split; [auto|]. left. repeat split; auto. lia.
  - destruct (ts (seen m t) lock_word <=? m_to g) eqn:F; [|discriminate]. intros [= <- <- <-].
    exists g. split; [auto|]. split; [lia|]. split; [auto|]. right. repeat split; auto.
    intros X. rewrite X, N.eqb_refl in D. now destruct sp.
Qed.

(** Getting in. *)
Lemma wl_inv_enter s t sd i n g p :
  wl_inv s -> nth_error (hist (wl_mem s) lock_word) i = Some g -> m_val g = word_val Unlocked ->
  free (m_to g) n (hist (wl_mem s) lock_word) = true -> wl_pc s t = p -> (forall sd', p <> Inside sd') ->
  wl_inv (wl_put s (with_msg (with_seen (wl_mem s) t (vat (after_load (seen (wl_mem s) t) true lock_word g) lock_word n))
                     lock_word
             {| m_from := m_to g; m_to := n; m_val := word_val (taken sd);
                m_view := vjoin (m_view g) (vat (after_load (seen (wl_mem s) t) true lock_word g) lock_word n) |})
            t (Inside sd) [Entered t sd]).
Proof.
  intros (R & A & g0 & l & E & C & I) En Ev F Hp Np. rewrite E in *.
  pose proof (chain_rmw _ _ _ _ _ C En Ev F) as ->. cbn in En. injection En as <-.
  destruct I as [(V & H & Q & K)|(t0 & sd0 & V & H & Q & L & K)].
  2: { exfalso. rewrite V in Ev. destruct sd0; discriminate. }
  split; [exact R|]. split.
  { intros u Hu. cbn in Hu. apply in_app_or in Hu as [Hu|[Hu|[]]]; [now apply (A u)|discriminate]. }
  eexists _, (g0 :: l). cbn [wl_put wl_mem wl_hist wl_pc with_msg hist]. rewrite lset_same. cbn [with_seen hist seen accs].
  rewrite E. split; [reflexivity|]. split; [now apply chain_add|]. right. exists t, sd.
  split; [reflexivity|]. split; [now rewrite holders_snoc, H|]. split.
  { intros u sd'. destruct (Nat.eq_dec u t) as [->|Nu].
    - rewrite tset_same. split; [intros [= ->]; auto|intros (_ & ->); auto].
    - rewrite tset_other by auto. split; [intros X; exfalso; eapply Q; eauto|intros (-> & _); congruence]. }
  assert (forall (a : wmem N) v g', seen (with_msg (with_seen a t v) lock_word g') t = v) as X by (intros; cbn; apply tset_same).
  rewrite X. split; [cbn [m_to]; apply vat_ts|].
  intros e He. cbn [accs] in He. apply K in He. cbn. now rewrite He, !orb_true_r.
Qed.

(** Getting out. *)
Lemma wl_inv_leave s t sd g l f n w m :
  races (wl_mem s) = [] -> (forall t, ~ In (AssertFailed t) (wl_hist s)) ->
  chain (fun v => v = word_val Unlocked) ({| m_from := f; m_to := n; m_val := word_val Unlocked; m_view := w |} :: g :: l) ->
  holders (wl_hist s) = [(t, sd)] -> (forall u sd', wl_pc s u = Inside sd' <-> u = t /\ sd' = sd) ->
  hist m lock_word = {| m_from := f; m_to := n; m_val := word_val Unlocked; m_view := w |} :: g :: l ->
  races m = [] -> knows_all m w ->
  wl_inv (wl_put s m t Out [Left t sd]).
Proof.
  intros R A C H Q E R' K. split; [exact R'|]. split.
  { intros u Hu. cbn in Hu. apply in_app_or in Hu as [Hu|[Hu|[]]]; [now apply (A u)|discriminate]. }
  eexists _, _. split; [exact E|]. split; [exact C|]. left. split; [reflexivity|]. split; [|split; [|exact K]].
  - cbn [wl_put wl_hist]. rewrite holders_snoc, H. cbn. now rewrite Nat.eqb_refl.
  - intros u sd'. cbn [wl_put wl_pc]. destruct (Nat.eq_dec u t) as [->|Nu]; [rewrite tset_same; discriminate|].
    rewrite tset_other by auto. intros X. apply Q in X. tauto.
Qed.

Lemma wl_inv_step nd s a s' : wl_inv s -> wlstep nd s a = Some s' -> wl_inv s'.
Proof.
  intros Hi. destruct a as [t sd|t|t i n sp|t i f n|t x w]; cbn [wlstep].
  - destruct (wl_pc s t) eqn:P; try discriminate. intros [= <-].
    apply wl_inv_same; auto; try congruence; try (intros; apply vle_refl).
    intros e [<-|[]] u; discriminate.
  - destruct (wl_pc s t) eqn:P; try discriminate. intros [= <-].
    apply wl_inv_same; auto; try congruence; try (intros; apply vle_refl).
    intros e [<-|[]] u; discriminate.
  - destruct (wl_pc s t) eqn:P; try discriminate.
    + destruct (wcas _ _ _ _ _ _ _ _ _ _ _) as [[[b fv] m']|] eqn:Ec; [|discriminate].
      apply cas_inv in Ec as (g & Eg & Lg & -> & [(-> & V & F & ->)|(-> & _ & ->)]); intros [= <-].
      * eapply wl_inv_enter; eauto. congruence.
      * apply wl_inv_same; auto; try congruence; try (intros e []).
        intros u. apply seen_with, (after_load_le _ true lock_word g).
    + destruct (wcas _ _ _ _ _ _ _ _ _ _ _) as [[[b fv] m']|] eqn:Ec; [|discriminate].
      apply cas_inv in Ec as (g & Eg & Lg & -> & [(-> & V & F & ->)|(-> & _ & ->)]).
      * intros [= <-]. apply (wl_inv_enter s t Slave i n g InTry); auto. discriminate.
      * destruct (m_val g =? word_val MasterLocked); intros [= <-].
        all: apply wl_inv_same; auto; try congruence; try (intros u; apply seen_with, (after_load_le _ true lock_word g)).
        all: try (intros e []; fail); intros e [<-|[]] u; discriminate.
  - destruct (wl_pc s t) as [| | |sd|] eqn:P; try discriminate.
    destruct Hi as (R & A & g0 & l & E & C & I).
    destruct I as [(V & H & Q & K)|(t0 & sd0 & V & H & Q & L & K)]; [exfalso; eapply Q; eauto|].
    destruct (proj1 (Q t sd) P) as (<- & <-).
    destruct nd.
    + unfold wstore. destruct ((ts (seen (wl_mem s) t) lock_word <? n) && free f n (hist (wl_mem s) lock_word)) eqn:F; [|discriminate].
      intros [= <-]. apply andb_true_iff in F as (F1 & F2). rewrite E in F2.
      eapply wl_inv_leave; [exact R|exact A| |exact H|exact Q| |exact R|].
      * refine (chain_store _ _ _ _ _ _ _ C _ _ F2); [rewrite V; destruct sd; discriminate|lia].
      * cbn [with_msg hist]. rewrite lset_same. cbn [with_seen hist]. rewrite E. reflexivity.
      * intros e He. apply K in He. exact He.
    + destruct (wcas _ _ _ _ _ _ _ _ _ _ _) as [[[b fv] m']|] eqn:Ec; [|discriminate].
      apply cas_inv in Ec as (g & Eg & Lg & -> & B). rewrite E in *.
      pose proof (chain_load _ _ _ _ _ C Eg ltac:(lia)) as ->. cbn in Eg. injection Eg as <-.
      destruct B as [(-> & _ & F & ->)|(-> & F & ->)]; [|specialize (F V); discriminate].
      intros [= <-]. eapply wl_inv_leave; [exact R|exact A| |exact H|exact Q| |exact R|].
      * eapply chain_add; [exact C|exact F].
      * cbn [with_msg hist]. rewrite lset_same. cbn [with_seen hist]. rewrite E. reflexivity.
      * intros e He. apply K in He. cbn. now rewrite He, !orb_true_r.
  - destruct (wl_pc s t) as [| | |sd|] eqn:P; try discriminate. intros [= <-].
    destruct Hi as (R & A & g0 & l & E & C & I).
    destruct I as [(V & H & Q & K)|(t0 & sd0 & V & H & Q & L & K)]; [exfalso; eapply Q; eauto|].
    destruct (proj1 (Q t sd) P) as (<- & <-).
    assert (forall wr v, wl_inv (wl_put s (wtouch (wl_mem s) t (protected x) wr v) t (Inside sd) [])) as X.
    { intros wr v. split; [|split].
      - cbn. assert (ordered (seen (wl_mem s) t) (protected x) wr 0 (accs (wl_mem s)) = true) as ->; [|exact R].
        apply ordered_spec. intros j a Ej _ _. apply K. apply nth_error_Some. cbn [plus]. rewrite Ej. discriminate.
      - intros u Hu. cbn in Hu. rewrite app_nil_r in Hu. now apply (A u).
      - exists g0, l. split; [exact E|]. split; [exact C|]. right. exists t, sd.
        cbn [wl_put wl_mem wl_hist wl_pc]. rewrite app_nil_r. split; [auto|]. split; [auto|]. split; [|split].
        + intros u sd'. destruct (Nat.eq_dec u t) as [->|Nu]; [rewrite tset_same|rewrite tset_other by auto; apply Q].
          rewrite <- Q, P. reflexivity.
        + cbn [wtouch seen]. rewrite tset_same. exact L.
        + intros e He. cbn [wtouch seen accs] in *. rewrite tset_same. rewrite app_length in He. cbn in He |- *.
          apply orb_true_iff. destruct (Nat.eq_dec e (length (accs (wl_mem s)))) as [->|Ne].
          * left. apply Nat.eqb_refl.
          * right. apply K. lia. }
    destruct w; apply X.
Qed.

Lemma wlock_run_inv nd sched : wl_inv (wlock_run nd sched).
Proof.
  apply run_inv with (I := wl_inv); [intros; eapply wl_inv_step; eauto|].
  split; [reflexivity|]. split; [intros t []|]. eexists _, []. split; [reflexivity|].
  split; [constructor; cbn; lia|]. left. repeat split; auto; [discriminate|]. intros e He. cbn in He. lia.
Qed.
