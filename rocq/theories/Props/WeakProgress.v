(** C101: with the memory orders that the code is written with, no call is stuck: a
    thread inside a call can always perform its next access, unless it waits for a lock or
    a chunk that somebody else has. The theorems about weakly ordered memory are thus
    about runs that go on. *)
From Verif Require Import Base Spec.FixedHistory Spec.FixedWeak Model.Interleave Model.WeakMem Proofs.Interleave Proofs.WeakMem Proofs.WeakProgress.
From Verif Require Model.ChunkLock Model.WeakLock Model.WeakQueue Model.RingConc Model.RingWeak Model.FixedConc Model.FixedWeak Model.WeakRegistry Model.WeakLog
  Proofs.WeakRegistry Proofs.WeakLog.
Local Open Scope N_scope.
Local Opaque N.modulo N.pow.

Ltac split_step E :=
  repeat match type of E with
         | (let '(_, _) := ?x in _) = Some _ => destruct x eqn:?
         | (if ?x then _ else _) = Some _ => destruct x eqn:?
         | (match ?x with _ => _ end) = Some _ => destruct x eqn:?
         end; try discriminate; injection E as <-.
Ltac keep_sane := repeat first
  [ assumption | apply sane_touch | apply sane_write | apply sane_unlock
  | match goal with
    | H : wload _ _ _ _ _ = Some (_, ?m) |- sane ?m => eapply sane_load; [|exact H]
    | H : wstore _ _ _ _ _ _ _ = Some ?m |- sane ?m => eapply sane_store; [|exact H]
    | H : wcas _ _ _ _ _ _ _ _ _ _ _ = Some (_, _, ?m) |- sane ?m => eapply sane_cas; [|exact H]
    | H : wfetch_add _ _ _ _ _ _ _ _ = Some (_, ?m) |- sane ?m => eapply sane_add; [|exact H]
    | H : wread _ _ _ = (_, ?m) |- sane ?m => eapply sane_read; [|exact H]
    | H : wlock _ _ _ = Some ?m |- sane ?m => eapply sane_lock; [|exact H]
    end ].

(** ** The queue *)
Section Queue.
  Import Model.WeakQueue.
  Lemma queue_step_sane {T} (q : wqueue T) a q' : sane (wq_mem q) -> wqstep q a = Some q' -> sane (wq_mem q').
  Proof. intros S E. destruct a; cbn [wqstep] in E; split_step E; cbn [wq_goto wq_mem]; keep_sane. Qed.
  Lemma queue_go {T} (q : wqueue T) t : sane (wq_mem q) -> wq_pc q t <> WIdle -> exists i f n q', wqstep q (WGo t i f n false) = Some q'.
  Proof.
    intros S P. cbn [wqstep]. destruct (wq_pc q t) as [|x|x pos|x pos|x pos|x pos| |pos|pos|pos|pos v]; try easy.
    - destruct (can_load (wq_mem q) t false enqueue_pos S) as (i & v & m' & H). exists i, 0, 0. rewrite H. eauto.
    - destruct (can_load (wq_mem q) t true (cell_seq (wq_slot q pos)) S) as (i & v & m' & H). exists i, 0, 0. rewrite H. cbn zeta. destruct (_ =? _)%Z; [eauto|]. destruct (_ <? _)%Z; eauto.
    - destruct (can_cas (wq_mem q) t false false false enqueue_pos pos ((pos + 1) mod Model.Queue.w64) S) as (i & k & b & v & m' & H). exists i, 0, k. rewrite H. destruct b; eauto.
    - exists O, 0, 0. eauto.
    - destruct (can_store (wq_mem q) t true (cell_seq (wq_slot q pos)) ((pos + 1) mod Model.Queue.w64) S) as (f & k & m' & H). exists O, f, k. rewrite H. eauto.
    - destruct (can_load (wq_mem q) t false dequeue_pos S) as (i & v & m' & H). exists i, 0, 0. rewrite H. eauto.
    - destruct (can_load (wq_mem q) t true (cell_seq (wq_slot q pos)) S) as (i & v & m' & H). exists i, 0, 0. rewrite H. cbn zeta. destruct (_ =? _)%Z; [eauto|]. destruct (_ <? _)%Z; eauto.
    - destruct (can_cas (wq_mem q) t false false false dequeue_pos pos ((pos + 1) mod Model.Queue.w64) S) as (i & k & b & v & m' & H). exists i, 0, k. rewrite H. destruct b; eauto.
    - exists O, 0, 0. cbn. eauto.
    - destruct (can_store (wq_mem q) t true (cell_seq (wq_slot q pos)) ((pos + (wq_cap q - 1) + 1) mod Model.Queue.w64) S) as (f & k & m' & H). exists O, f, k. rewrite H. eauto.
  Qed.
End Queue.

Theorem C101_queue : forall (T : Type) cap (sched : list (WeakQueue.wqact T)) t, let q := WeakQueue.wqueue_run cap sched in
  WeakQueue.wq_pc q t <> WeakQueue.WIdle -> exists i f n q', WeakQueue.wqstep q (WeakQueue.WGo t i f n false) = Some q'.
Proof.
  intros T cap sched t q. apply queue_go. apply (run_inv WeakQueue.wqstep (fun q => sane (WeakQueue.wq_mem q))); [apply queue_step_sane|apply sane_new].
Qed.
Print Assumptions C101_queue.

(** ** The ring buffer *)
Section Ring.
  Import Model.WeakQueue Model.RingConc Model.RingWeak.
  Lemma ring_step_sane r a r' : sane (wq_mem (v_q r)) -> vstep r a = Some r' -> sane (wq_mem (v_q r')).
  Proof.
    intros S E. unfold vstep in E. cbn zeta in E. destruct (v_bad r); [discriminate|]. pose proof (@queue_step_sane N (v_q r)) as K.
    destruct a as [t|t c|t c w|t i f n sp].
    - destruct (v_pc r t); try discriminate. injection E as <-. exact S.
    - split_step E. exact S.
    - split_step E. cbn. keep_sane.
    - destruct (v_pc r t); try discriminate.
      all: try (split_step E; cbn; keep_sane; fail).
      all: destruct (wq_pc (v_q r) t); try (match type of E with match ?x with Some _ => _ | None => _ end = Some _ => destruct x as [q1|] eqn:Q end; try discriminate; apply K in Q; auto; split_step E; cbn; exact Q).
  Qed.
  Lemma ring_go r t : sane (wq_mem (v_q r)) -> v_bad r = false -> v_pc r t <> RIdle -> exists i f n r', vstep r (VGo t i f n false) = Some r'.
  Proof.
    intros S B P. unfold vstep. rewrite B. cbn zeta. pose proof (queue_go (v_q r) t S) as K. destruct (v_pc r t); try easy.
    all: try (match goal with |- context [wfetch_add ?m ?t ?a ?b ?x ?d] => destruct (can_add m t a b x d S) as (i & k & v & m' & H); exists i, 0, k; rewrite H; try destruct (_ <=? _); eauto; fail end).
    all: try (exists O, 0, 0; eauto; fail).
    all: destruct (wq_pc (v_q r) t) eqn:Q; try (exists O, 0, 0; cbn; rewrite ?Q; eauto; fail).
    all: destruct K as (i & f & n & q' & K); [discriminate|]; exists i, f, n; rewrite K; eauto.
    destruct v; eauto.
  Qed.
End Ring.

Theorem C101_ring : forall n sched t, let r := RingWeak.vrun n sched in RingWeak.v_bad r = false ->
  RingWeak.v_pc r t <> RingConc.RIdle -> exists i f k r', RingWeak.vstep r (RingWeak.VGo t i f k false) = Some r'.
Proof.
  intros n sched t r. apply ring_go. apply (run_inv RingWeak.vstep (fun r => sane (WeakQueue.wq_mem (RingWeak.v_q r)))); [apply ring_step_sane|apply sane_new].
Qed.
Print Assumptions C101_ring.

(** ** The fixed buffer: getChunk answers within three accesses. *)
Section Fixed.
  Import Model.FixedConc Model.FixedWeak.
  Lemma fixed_step_sane z a z' : sane (z_mem z) -> zstep z a = Some z' -> sane (z_mem z').
  Proof.
    intros S E. destruct a; cbn [zstep] in E; split_step E; cbn [z_goto z_mem]; keep_sane.
    apply sane_seen; auto. apply behind_join; apply S.
  Qed.
  Lemma fixed_go z t : sane (z_mem z) -> z_pc z t <> FIdle -> exists i k z', zstep z (ZGo t i k) = Some z'.
  Proof.
    intros S P. cbn [zstep]. destruct (z_pc z t) as [| |c|c]; try easy.
    - destruct (can_add (z_mem z) t true true issued 1 S) as (i & k & v & m' & H). exists i, k. rewrite H. destruct (_ <=? _); eauto.
    - exists O, 0. eauto.
    - destruct (can_add (z_mem z) t false false on_loan 1 S) as (i & k & v & m' & H). exists i, k. rewrite H. eauto.
  Qed.
End Fixed.

Theorem C101_fixed : forall n sched t, let z := FixedWeak.zrun n sched in
  FixedWeak.z_pc z t <> FixedConc.FIdle -> exists i k z', FixedWeak.zstep z (FixedWeak.ZGo t i k) = Some z'.
Proof.
  intros n sched t z. apply fixed_go. apply (run_inv FixedWeak.zstep (fun z => sane (FixedWeak.z_mem z))); [apply fixed_step_sane|apply sane_new].
Qed.
Print Assumptions C101_fixed.

(** Every access that a thread performs inside getChunk brings it nearer to its answer; what
    others do takes nothing from it. *)
Definition accesses_left (p : FixedConc.fpc) : nat :=
  match p with FixedConc.FIdle => 0 | FixedConc.FIssue => 3 | FixedConc.FReset _ => 2 | FixedConc.FLoan _ => 1 end.
Theorem C101_fixed_wait_free : forall z a z' t, FixedWeak.zstep z a = Some z' -> FixedWeak.z_pc z t <> FixedConc.FIdle ->
  (FixedWeak.z_pc z' t = FixedWeak.z_pc z t /\ forall i k, a <> FixedWeak.ZGo t i k) \/
  ((exists i k, a = FixedWeak.ZGo t i k) /\ (accesses_left (FixedWeak.z_pc z' t) < accesses_left (FixedWeak.z_pc z t))%nat /\
   (FixedWeak.z_pc z' t = FixedConc.FIdle -> exists o, FixedWeak.z_hist z' = FixedWeak.z_hist z ++ [Did (FGot t o)])).
Proof.
  intros z a z' t E P. assert (forall u m p e, FixedWeak.z_pc (FixedWeak.z_goto z m u p e) t = if Nat.eqb t u then p else FixedWeak.z_pc z t) as K by reflexivity.
  destruct a as [u|u i k|u c i k|u c w|u c|u i|u i|u v]; cbn [FixedWeak.zstep] in E; destruct (Nat.eq_dec t u) as [->|N].
  all: try (split_step E; left; (split; [rewrite K; apply Nat.eqb_neq in N; now rewrite N|intros ? ? X; try discriminate; injection X; intros; congruence])).
  all: try (split_step E; congruence).
  right. split; [eauto|]. destruct (FixedWeak.z_pc z u) eqn:Q; try easy; split_step E; rewrite K, Nat.eqb_refl; cbn [accesses_left]; (split; [lia|]); intros X; try discriminate; cbn; eauto.
Qed.
Print Assumptions C101_fixed_wait_free.

(** ** The chunk lock: an attempt can always be made, and the holder can always unlock. *)
Section Lock.
  Import Model.ChunkLock Model.WeakLock.
  Lemma lock_step_sane nd s a s' : sane (wl_mem s) -> wlstep nd s a = Some s' -> sane (wl_mem s').
  Proof.
    intros S E. destruct a as [t sd|t|t i n sp|t i f n|t x w]; cbn [wlstep] in E.
    5: { destruct (wl_pc s t); try discriminate. injection E as <-. cbn [wl_put wl_mem]. destruct w; keep_sane. }
    all: split_step E; cbn [wl_put wl_mem]; keep_sane.
  Qed.
  Lemma lock_go nd s t : sane (wl_mem s) -> wl_pc s t <> Out -> wl_pc s t <> Aborted ->
    exists i f k s', wlstep nd s (match wl_pc s t with Inside _ => WUnlock t i f k | _ => WAttempt t i k false end) = Some s'.
  Proof.
    intros S P1 P2. destruct (wl_pc s t) as [|sd| |sd|] eqn:P; try easy; cbn [wlstep]; rewrite P.
    - destruct (can_cas (wl_mem s) t true true true lock_word (word_val Unlocked) (word_val (taken sd)) S) as (i & k & b & v & m' & H). exists i, 0, k. rewrite H. destruct b; eauto.
    - destruct (can_cas (wl_mem s) t true true true lock_word (word_val Unlocked) (word_val SlaveLocked) S) as (i & k & b & v & m' & H). exists i, 0, k. rewrite H. destruct b; [eauto|]. destruct (_ =? _); eauto.
    - destruct nd.
      + destruct (can_store (wl_mem s) t true lock_word (word_val Unlocked) S) as (f & k & m' & H). exists O, f, k. rewrite H. eauto.
      + destruct (can_cas (wl_mem s) t true true true lock_word (word_val (taken sd)) (word_val Unlocked) S) as (i & k & b & v & m' & H). exists i, 0, k. rewrite H. destruct b; eauto.
  Qed.
End Lock.

Theorem C101_lock : forall nd sched t, let s := WeakLock.wlock_run nd sched in
  WeakLock.wl_pc s t <> ChunkLock.Out -> WeakLock.wl_pc s t <> ChunkLock.Aborted ->
  exists i f k s', WeakLock.wlstep nd s (match WeakLock.wl_pc s t with ChunkLock.Inside _ => WeakLock.WUnlock t i f k | _ => WeakLock.WAttempt t i k false end) = Some s'.
Proof.
  intros nd sched t s. apply lock_go. apply (run_inv (WeakLock.wlstep nd) (fun s => sane (WeakLock.wl_mem s))); [apply lock_step_sane|apply sane_new].
Qed.
Print Assumptions C101_lock.

(** ** The category registry: a thread can go on, or it waits for the mutex and the thread
    that has the mutex can go on. *)
Section Registry.
  Import Model.WeakRegistry.
  Variable site_cat : nat -> bytes.
  Lemma registry_step_sane r a r' : sane (wr_mem r) -> wrstep site_cat r a = Some r' -> sane (wr_mem r').
  Proof. intros S E. destruct a; cbn [wrstep] in E; split_step E; cbn [wr_goto wr_mem]; keep_sane. Qed.
  Definition wants_mutex (p : wrpc) : bool := match p with WGLock _ _ | WULock _ => true | _ => false end.
  Lemma registry_go r t : sane (wr_mem r) -> wr_pc r t <> WRIdle -> (wants_mutex (wr_pc r t) = true -> held (wr_mem r) reg_mutex = None) ->
    exists c f n r', wrstep site_cat r (WRGo t c f n) = Some r'.
  Proof.
    intros S P W. cbn [wrstep]. destruct (wr_pc r t) as [|s|s i|s i|k name|k name i n0|k name|k name|k name i n0|k name i|k name i|k name i|k name i|l|l|l|l i n0|l] eqn:Q; try easy; cbn [wants_mutex] in W.
    all: try (match goal with |- context [wload ?m ?t ?a ?x] => destruct (can_load m t a x S) as (i0 & v0 & m0 & H); exists i0, 0, 0; rewrite H; try destruct v0; eauto; fail end).
    all: try (match goal with |- context [wstore ?m ?t ?a ?x ?v] => destruct (can_store m t a x v S) as (f0 & k0 & m0 & H); exists O, f0, k0; rewrite H; eauto; fail end).
    all: try (match goal with |- context [wfetch_add ?m ?t ?a ?b ?x ?d] => destruct (can_add m t a b x d S) as (i0 & k0 & v0 & m0 & H); exists i0, 0, k0; rewrite H; eauto; fail end).
    all: try (match goal with |- context [wlock ?m ?t ?x] => destruct (can_lock m t x (W eq_refl)) as (m0 & H); exists O, 0, 0; rewrite H; eauto; fail end).
    all: try (exists O, 0, 0; cbn; eauto; fail).
    1,2: exists O, 0, 0; destruct (_ <? _)%nat; [|try destruct (_ <? _)%nat; eauto]; unfold wread; destruct (RegistryConc.same_name _ _); eauto.
    - unfold wread. match goal with |- context [wstore ?m ?t ?a ?x ?v] => destruct (can_store m t a x v ltac:(keep_sane)) as (f0 & k0 & m0 & H); exists O, f0, k0; rewrite H; eauto end.
    - destruct (i <? n0)%nat; [|exists O, 0, 0; eauto]. destruct l as [l|].
      + unfold wread. match goal with |- context [wstore ?m ?t ?a ?x ?v] => destruct (can_store m t a x v ltac:(keep_sane)) as (f0 & k0 & m0 & H); exists O, f0, k0; rewrite H; eauto end.
      + match goal with |- context [wstore ?m ?t ?a ?x ?v] => destruct (can_store m t a x v S) as (f0 & k0 & m0 & H); exists O, f0, k0; rewrite H; eauto end.
  Qed.
End Registry.

Theorem C101_registry : forall site_cat sched t, let r := WeakRegistry.wregistry_run site_cat sched in
  WeakRegistry.wr_pc r t <> WeakRegistry.WRIdle ->
  exists u, (u = t \/ wants_mutex (WeakRegistry.wr_pc r t) = true /\ u <> t /\ held (WeakRegistry.wr_mem r) WeakRegistry.reg_mutex = Some u) /\
    exists c f n r', WeakRegistry.wrstep site_cat r (WeakRegistry.WRGo u c f n) = Some r'.
Proof.
  intros site_cat sched t r P. destruct (WeakRegistry.wregistry_run_inv site_cat sched) as (ver & sees & [I _]). fold r in I.
  pose proof (WeakRegistry.v_held _ _ _ _ _ I) as L.
  assert (sane (WeakRegistry.wr_mem r)) as S.
  { apply (run_inv (WeakRegistry.wrstep site_cat) (fun x => sane (WeakRegistry.wr_mem x)) (registry_step_sane site_cat)). apply sane_new. }
  destruct (wants_mutex (WeakRegistry.wr_pc r t)) eqn:W; [destruct (held (WeakRegistry.wr_mem r) WeakRegistry.reg_mutex) as [u|] eqn:H|].
  - pose proof (proj2 (L u) eq_refl) as K. exists u. split.
    + right. repeat split; auto. intros ->. destruct (WeakRegistry.wr_pc r t); discriminate.
    + apply registry_go; auto; intros X; [rewrite X in K; discriminate|]. destruct (WeakRegistry.wr_pc r u); discriminate.
  - exists t. split; auto. now apply registry_go.
  - exists t. split; auto. apply registry_go; auto. congruence.
Qed.
Print Assumptions C101_registry.

(** ** The log: a thread inside a call can go on; or it waits for a lock whose holder can go
    on, or waits for a lock in turn whose holder can go on. The others are at a turn of the
    program that uses the log, which has the mutex; or in a ring buffer all of whose chunks
    are in use. *)
Section Log.
  Import Model.WeakLog.
  Variable cap : nat.

  Record log_sane (s : wlog) : Prop := {
    ls_mem : sane (wl_mem s);
    ls_queue : forall b i w, In (i, w) (wl_queue s b) -> behind (wl_mem s) w;
    ls_old : forall t v, wl_pc s t <> LOld v None;
  }.
  Lemma take_nth_in {A} n (l : list A) x r : take_nth n l = Some (x, r) -> In x l /\ forall y, In y r -> In y l.
  Proof.
    revert l x r. induction n as [|n IH]; intros [|a l] x r; cbn; try discriminate.
    - intros [= <- <-]. auto.
    - destruct (take_nth n l) as [[y r']|] eqn:E; [|discriminate]. intros [= <- <-]. destruct (IH _ _ _ E) as (A1 & A2). split; auto. intros z [->|Z]; auto.
  Qed.
  Ltac keep_behind := repeat first
    [ assumption | apply keeps_touch | apply keeps_write | apply keeps_unlock | apply keeps_seen
    | match goal with
      | H : wload _ _ _ _ _ = Some (_, ?m) |- behind ?m _ => eapply keeps_load; [exact H|]
      | H : wstore _ _ _ _ _ _ _ = Some ?m |- behind ?m _ => eapply keeps_store; [exact H|]
      | H : wrmw _ _ _ _ _ _ _ _ = Some ?m |- behind ?m _ => eapply keeps_rmw; [exact H|]
      | H : wfetch_add _ _ _ _ _ _ _ _ = Some (_, ?m) |- behind ?m _ => eapply keeps_add; [exact H|]
      | H : wread _ _ _ = (_, ?m) |- behind ?m _ => eapply keeps_read; [exact H|]
      | H : wlock _ _ _ = Some ?m |- behind ?m _ => eapply keeps_lock; [exact H|]
      end ].
  Lemma log_goto s s0 m t p e : log_sane s -> wl_pc s0 = wl_pc s -> sane m -> (forall v, p <> LOld v None) ->
    (forall b i w, In (i, w) (wl_queue s0 b) -> In (i, w) (wl_queue s b) \/ behind m w) ->
    (forall w, behind (wl_mem s) w -> behind m w) -> log_sane (goto s0 m t p e).
  Proof.
    intros [S Q O] Ep Sm Np Qi K. split; cbn [goto wl_mem wl_queue wl_pc].
    - exact Sm.
    - intros b i w H. destruct (Qi b i w H) as [X|X]; eauto.
    - intros u v. destruct (Nat.eq_dec u t) as [->|N]; [rewrite tset_same; auto|rewrite tset_other by auto; rewrite Ep; auto].
  Qed.
  Lemma give_back_pc s t b i : wl_pc (give_back s t b i) = wl_pc s.
  Proof. unfold give_back. now destruct (fst (wl_shape s b)). Qed.
  Lemma set_buffer_queue s b n q b' x : In x (wl_queue (set_buffer s b n q) b') -> In x (wl_queue s b') \/ In x q.
  Proof. cbn [set_buffer wl_queue]. unfold Model.Queue.upd. destruct (b' =? b); auto. Qed.
  Lemma give_back_behind s t b i (m : wmem lval) : log_sane s -> (forall w, behind (wl_mem s) w -> behind m w) ->
    forall b' j w, In (j, w) (wl_queue (give_back s t b i) b') -> In (j, w) (wl_queue s b') \/ behind m w.
  Proof.
    intros L K b' j w. unfold give_back. destruct (fst (wl_shape s b)); auto. intros H. apply set_buffer_queue in H as [H|H]; auto.
    right. apply K. apply in_app_iff in H as [H|[[= _ <-]|[]]]; [eapply ls_queue; eauto|]. apply (sa_seen _ (ls_mem _ L)).
  Qed.
  Lemma log_step_sane s a s' : log_sane s -> wlstep cap s a = Some s' -> log_sane s'.
  Proof.
    intros L E. pose proof (ls_mem _ L) as S.
    destruct a; cbn [wlstep] in E; split_step E.
    all: try (match goal with |- log_sane (match ?x with _ => _ end) => destruct x end).
    all: try (eapply log_goto; [exact L|first [reflexivity|apply give_back_pc]|keep_sane|try discriminate; try (intros; repeat match goal with |- context [match ?x with _ => _ end] => destruct x end; discriminate)|auto|intros; keep_behind]; fail).
    - eapply log_goto; [exact L|reflexivity|keep_sane|apply (ls_old _ L)|auto|intros; keep_behind].
    - eapply log_goto; [exact L|apply give_back_pc|keep_sane|discriminate|apply give_back_behind; auto; intros; keep_behind|intros; keep_behind].
    - eapply log_goto; [exact L|reflexivity|keep_sane|intros; destruct (_ <? _)%nat; [|destruct (fst _)]; discriminate| |intros; keep_behind].
      intros b' j x H. apply set_buffer_queue in H as [H|H]; auto. right. keep_behind. eapply ls_queue; eauto.
    - match goal with H : take_nth _ _ = Some _ |- _ => apply take_nth_in in H as (T1 & T2) end.
      assert (sane w) as Sw.
      { eapply sane_read; [|eassumption]. apply sane_seen; auto. apply behind_join; [apply (sa_seen _ S)|]. eapply ls_queue; eauto. }
      eapply log_goto; [exact L|reflexivity|exact Sw|discriminate| |intros; keep_behind].
      intros b' j x H. apply set_buffer_queue in H as [H|H]; auto. right. keep_behind. eapply ls_queue; eauto.
    - match goal with H : nth_error _ _ = Some _ |- _ => apply nth_error_In in H end.
      eapply log_goto; [exact L|reflexivity|eapply sane_rmw; eauto|intros; destruct (_ =? _); discriminate|auto|intros; keep_behind].
    - eapply log_goto; [exact L|reflexivity|keep_sane|discriminate| |intros; keep_behind].
      intros b' j x H. cbn [new_buffer wl_queue] in H. unfold Model.Queue.upd in H. destruct (b' =? wl_count s); [easy|auto].
    - eapply log_goto; [exact L|reflexivity|keep_sane|intros; destruct k; discriminate|auto|intros; keep_behind].
    - eapply log_goto; [exact L|apply give_back_pc|keep_sane|discriminate|apply give_back_behind; auto; intros; keep_behind|intros; keep_behind].
  Qed.

  (** The lock that a thread waits for. *)
  Definition wants_lock (p : wlpc) : option loc :=
    match p with HWait | RWait | DWait => Some log_mutex | SEvict _ (u :: _) => Some (tenant_lock u) | _ => None end.
  (** The program that uses the log has the mutex and is to move. *)
  Definition users_turn (p : wlpc) : Prop := exists k, p = Held k.
  (** All the chunks of the ring buffer are in use. *)
  Definition no_chunk (s : wlog) (t : tid) : Prop := exists v b, wl_pc s t = LDeq v b /\ wl_queue s b = [].
  Definition can_go (s : wlog) (t : tid) : Prop := exists c f n s', wlstep cap s (LogGo t c f n) = Some s'.
  Definition waits_for (s : wlog) (t u : tid) : Prop := exists x, wants_lock (wl_pc s t) = Some x /\ held (wl_mem s) x = Some u.

  Lemma log_go s t : log_sane s -> wl_pc s t <> GIdle -> (forall x, wants_lock (wl_pc s t) = Some x -> held (wl_mem s) x = None) ->
    can_go s t \/ users_turn (wl_pc s t) \/ no_chunk s t.
  Proof.
    intros L P W. pose proof (ls_mem _ L) as S. pose proof (ls_old _ L t) as Old. unfold can_go, users_turn, no_chunk. cbn [wlstep].
    destruct (wl_pc s t) eqn:Q; try easy; cbn [wants_lock] in W.
    all: try (match goal with |- context [wload ?m ?t ?a ?x] => destruct (can_load m t a x S) as (i0 & v0 & m0 & H); left; exists i0, 0, 0; rewrite H; try destruct v0; eauto; fail end).
    all: try (match goal with |- context [wstore ?m ?t ?a ?x ?v] => destruct (can_store m t a x v S) as (f0 & k0 & m0 & H); left; exists O, f0, k0; rewrite H; eauto; fail end).
    all: try (match goal with |- context [wfetch_add ?m ?t ?a ?b ?x ?d] => destruct (can_add m t a b x d S) as (i0 & k0 & v0 & m0 & H); left; exists i0, 0, k0; rewrite H; eauto; fail end).
    all: try (match goal with |- context [wlock ?m ?t ?x] => destruct (can_lock m t x (W _ eq_refl)) as (m0 & H); left; exists O, 0, 0; rewrite H; eauto; fail end).
    all: try (left; exists O, 0, 0; cbn; eauto; fail).
    all: try (left; exists O, 0, 0; cbn; repeat match goal with |- context [match ?x with _ => _ end] => destruct x end; eauto; fail).
    all: try (left; exists O, 0, 0; cbn; destruct (wlock _ _ _); eauto; fail).
    - left. destruct c as [[b i]|]; [|now destruct (Old v)]. exists O, 0, 0. cbn. destruct (buf_in _); eauto.
    - destruct (wl_queue s b) as [|[i w] l] eqn:X; [right; right; eauto|]. left. exists O, 0, 0. cbn. eauto.
    - right. left. eauto.
    - destruct (can_rmw (wl_mem s) t true true log_enabled S) as (i & g & k0 & X & Y). left. destruct (Y 0) as (m' & H). exists i, 0, k0. rewrite X, H. eauto.
    - left. exists O, 0, 0. destruct l as [|u l]; [eauto|]. destruct (can_lock (wl_mem s) t (tenant_lock u) (W _ eq_refl)) as (m0 & H). rewrite H. eauto.
  Qed.
End Log.

Theorem C101_log : forall cap sched t, let s := WeakLog.wlog_run cap sched in WeakLog.wl_pc s t <> WeakLog.GIdle ->
  exists u, (u = t \/ waits_for s t u \/ exists h, waits_for s t h /\ waits_for s h u) /\
    (can_go cap s u \/ users_turn (WeakLog.wl_pc s u) \/ no_chunk s u).
Proof.
  intros cap sched t s P. destruct (WeakLog.wlog_run_inv cap sched) as (Z & I & _). fold s in I.
  assert (WeakLog.locks (WeakLog.wl_mem s) (WeakLog.wl_pc s)) as (LM & LT) by apply I.
  assert (log_sane s) as S.
  { apply (run_inv (WeakLog.wlstep cap) log_sane (log_step_sane cap)). split; cbn; try easy. apply sane_new. }
  assert (forall v x, wants_lock (WeakLog.wl_pc s v) = Some x -> x = WeakLog.log_mutex \/ exists u, x = WeakLog.tenant_lock u) as K.
  { intros v x H. destruct (WeakLog.wl_pc s v); try (match goal with l : list tid |- _ => destruct l end); inversion H; eauto. }
  (* the holder of a tenant's lock waits for nothing *)
  assert (forall h u, held (WeakLog.wl_mem s) (WeakLog.tenant_lock u) = Some h -> WeakLog.wl_pc s h <> WeakLog.GIdle /\ wants_lock (WeakLog.wl_pc s h) = None) as KT.
  { intros h u H. apply LT in H. destruct (WeakLog.wl_pc s h); try discriminate; split; auto; discriminate. }
  destruct (wants_lock (WeakLog.wl_pc s t)) as [x|] eqn:W; [|exists t; split; auto; apply log_go; auto; congruence].
  destruct (held (WeakLog.wl_mem s) x) as [h|] eqn:H; [|exists t; split; auto; apply log_go; auto; congruence].
  assert (waits_for s t h) as Wh by (exists x; auto).
  destruct (K _ _ W) as [->|(u & ->)].
  - assert (WeakLog.mpc (WeakLog.wl_pc s h) = true) as M by (now apply LM).
    assert (WeakLog.wl_pc s h <> WeakLog.GIdle) as Ph by (intros X; now rewrite X in M).
    destruct (wants_lock (WeakLog.wl_pc s h)) as [y|] eqn:W2; [|exists h; split; auto; apply log_go; auto; congruence].
    destruct (held (WeakLog.wl_mem s) y) as [h2|] eqn:H2; [|exists h; split; auto; apply log_go; auto; congruence].
    destruct (K _ _ W2) as [->|(u & ->)]; [destruct (WeakLog.wl_pc s h); try discriminate; match goal with l : list tid |- _ => destruct l end; discriminate|].
    destruct (KT _ _ H2) as (Q1 & Q2). exists h2. split; [right; right; exists h; split; auto; exists (WeakLog.tenant_lock u); auto|]. apply log_go; auto. congruence.
  - destruct (KT _ _ H) as (Q1 & Q2). exists h. split; auto. apply log_go; auto. congruence.
Qed.
Print Assumptions C101_log.

(** The hypotheses can be met: a thread waits for another, which is to move. *)
Example C101_case :
  let s := WeakLog.wlog_run 4%nat [WeakLog.CallLock 1%nat; WeakLog.LogGo 1%nat 0%nat 0 0; WeakLog.CallRegister 2%nat; WeakLog.CallLog 3%nat 7] in
  WeakLog.wl_pc s 2%nat = WeakLog.RWait /\ waits_for s 2%nat 1%nat /\ users_turn (WeakLog.wl_pc s 1%nat) /\ can_go 4%nat s 3%nat /\ ~ can_go 4%nat s 2%nat.
Proof.
  cbv zeta. repeat split.
  - exists WeakLog.log_mutex. vm_compute. auto.
  - exists None. reflexivity.
  - exists O, 0, 0. eexists. reflexivity.
  - intros (c & f & n & s' & H). discriminate H.
Qed.
Example C101_registry_case :
  let r := WeakRegistry.wregistry_run (fun _ => []) [WeakRegistry.WCallSwitch 1%nat None; WeakRegistry.WRGo 1%nat 0%nat 0 0; WeakRegistry.WCallSwitch 2%nat None] in
  wants_mutex (WeakRegistry.wr_pc r 2%nat) = true /\ held (WeakRegistry.wr_mem r) WeakRegistry.reg_mutex = Some 1%nat.
Proof. split; reflexivity. Qed.
