(** A ring of any size can be exhausted by the threads that are registered. *)
From Verif Require Import Base Model.StringUtils Model.Event Model.Queue Model.Buffer Model.Config Spec.Categories Model.Registry
  Model.Interleave Spec.LogHistory Spec.LogFacts Model.TraceLog Spec.LogProgress Proofs.Interleave Proofs.Queue Proofs.LogFrame.

Section Stuck.
  Variables cap csz : N.
  Variable site_cat : nat -> bytes.
  Notation pstep := (pstep cap csz site_cat).
  Notation run := (run pstep).

  (** [s'] can be reached from [s]. *)
  Definition to (s s' : st) : Prop := exists l, run s l = s'.

  Lemma to_refl s : to s s.
  Proof. now exists []. Qed.

  Lemma to_trans s1 s2 s3 : to s1 s2 -> to s2 s3 -> to s1 s3.
  Proof. intros [l <-] [m <-]. exists (l ++ m). apply run_app. Qed.

  Lemma to_step s t ch a k s1 r s' : bad s = false -> code s t = Act a k -> exec cap s t ch a = Next s1 r ->
    to (set_cmd s1 t (k r)) s' -> to s s'.
  Proof.
    intros B C E T. apply (to_trans _ (set_cmd s1 t (k r))); auto. exists [Step t ch]. cbn. unfold move, TraceLog.pstep, step. cbn [polite].
    now rewrite B, C, E.
  Qed.

  Lemma to_call s t o s' : bad s = false -> code s t = Ret -> closing s = None -> is_destroy o = false ->
    to (set_cmd (emit s (Invoked t o)) t (code_of csz site_cat t o)) s' -> to s s'.
  Proof.
    intros B C E D T. apply (to_trans _ (set_cmd (emit s (Invoked t o)) t (code_of csz site_cat t o))); auto. exists [Invoke t o].
    cbn. unfold move, TraceLog.pstep, step. cbn [polite]. now rewrite B, C, E, D.
  Qed.

  Lemma code_cmd s t c : code (set_cmd s t c) t = c.
  Proof. apply tset_same. Qed.

  Lemma code_cmd_other s t c u : u <> t -> code (set_cmd s t c) u = code s u.
  Proof. intros N. cbn. now rewrite tset_other by auto. Qed.

  Lemma last_call_snoc h x t : last_call (h ++ [x]) t = match x with Invoked u o => if Nat.eqb u t then Some o else last_call h t | _ => last_call h t end.
  Proof. unfold last_call. rewrite fold_left_app. reflexivity. Qed.

  (** At rest. *)
  Record rest (s : st) : Prop := {
    r_bad : bad s = false;
    r_closing : closing s = None;
    r_mtx : mtx s = None;
    r_code : forall t, code s t = Ret;
  }.

  (** The first [k] threads are registered and nothing else has happened. *)
  Record registered_first (k : nat) (s : st) : Prop := {
    f_rest : rest s;
    f_off : enabled s = false;
    f_buf : bufp s = None;
    f_in : forall t, t < k -> In t (regd s);
    f_len : length (regd s) = k;
    f_ten : forall t, ten s t = {| t_lock := Free; t_chunk := None; t_init := Nat.ltb t k |};
    f_regd : forall t, In t (regd s) -> t < k;
  }.

  Ltac stp := eapply (to_step _ _ CNone); [cbn; assumption|apply code_cmd|cbn [exec]|].

  Lemma register_next k s : registered_first k s -> exists s', to s s' /\ registered_first (S k) s'.
  Proof.
    intros [[B C M R] Of Bu Fi Le Te Rg]. eexists. split.
    - eapply (to_call s k (ORegister [])); [exact B|apply (R k)|exact C|reflexivity|]. cbn [code_of]. unfold locked.
      stp; [cbn; rewrite M; reflexivity|]. stp; [reflexivity|]. cbn [set_cmd set_busy set_code set_mtx emit set_hist ten]. rewrite Te. cbn [t_init]. rewrite Nat.ltb_irrefl.
      stp; [reflexivity|]. cbn [is_nil]. stp; [cbn; unfold owns; cbn; rewrite Nat.eqb_refl; reflexivity|]. apply to_refl.
    - assert (Nm : mem k (regd s) = false) by (apply mem_not; intros H; apply Rg in H; lia).
      split; [split; cbn; auto|..]; cbn; auto.
      + intros t. unfold tset. now destruct (Nat.eqb t k).
      + intros t H. apply In_add. destruct (Nat.eq_dec t k) as [->|N]; auto. right. apply Fi. lia.
      + unfold add. rewrite Nm. cbn. now rewrite Le.
      + intros t. unfold tset. rewrite !Te. destruct (Nat.eqb_spec t k) as [->|N]; unfold set_tinit; cbn [t_lock t_chunk t_init].
        * f_equal. symmetry. apply Nat.leb_refl.
        * f_equal. apply eq_true_iff_eq. rewrite Nat.ltb_lt, Nat.leb_le. lia.
      + intros t H. apply In_add in H as [->|H]; [lia|]. apply Rg in H. lia.
  Qed.

  Lemma register_all k : exists s, to log_new s /\ registered_first k s.
  Proof.
    induction k as [|k [s [T F]]].
    - exists log_new. split; [apply to_refl|]. split; [split; cbn; easy|..]; cbn; easy.
    - destruct (register_next k s F) as [s' [T' F']]. exists s'. split; auto. eapply to_trans; eauto.
  Qed.

  (** Tracing into a ring of [n] chunks; the first [j] of [m] threads have one. *)
  Record logged (m : nat) (n : N) (b : bid) (j : nat) (s : st) : Prop := {
    g_rest : rest s;
    g_on : enabled s = true;
    g_buf : bufp s = Some b;
    g_kind : b_kind (heap s b) = Ring;
    g_size : b_size (heap s b) = n;
    g_issued : b_issued (heap s b) = N.of_nat j;
    g_queue : b_queue (heap s b) = [];
    g_owner : b_owner (heap s b) = Mine;
    g_in : forall t, t < m -> In t (regd s);
    g_len : length (regd s) = m;
    g_init : forall t, t < m -> t_init (ten s t) = true;
    g_lock : forall t, t_lock (ten s t) = Free;
    g_chunk : forall t, j <= t -> t_chunk (ten s t) = None;
  }.

  Definition chunk0 : chunk := {| c_next := 0; c_tid := 0; c_arr := fun _ => event0 |}.
  Definition ring_config (n : N) : config := setStoppedCallback (config_factory make_ring_buffer (csz * n)) None.

  Lemma start_ring m s n : registered_first m s -> (0 < csz)%N -> (0 < n)%N ->
    exists s', to s s' /\ logged m n (nbuf s) 0 s'.
  Proof.
    intros [[B C M R] Of Bu Fi Le Te Rg] Hc Hn.
    assert (Q : (csz * n / csz)%N = n) by (rewrite N.mul_comm; apply N.div_mul; lia).
    eexists. split.
    - eapply (to_call s m (OStart (ring_config n))); [exact B|apply R|exact C|reflexivity|]. cbn [code_of]. unfold locked, start_lh.
      stp; [cbn; rewrite M; reflexivity|]. stp; [reflexivity|].
      cbn [cf_size ring_config setStoppedCallback config_factory]. rewrite Q. destruct (N.eqb_spec n 0) as [->|_]; [lia|].
      stp; [reflexivity|]. cbn [set_cmd set_busy set_code set_mtx emit set_hist set_cfg enabled]. rewrite Of.
      stp; [reflexivity|]. eapply (to_step _ m (CRing n (fun _ => chunk0))); [cbn; assumption|apply code_cmd| |].
      + cbn [exec]. unfold exec_factory. cbn [cf_factory ring_config setStoppedCallback config_factory]. rewrite N.eqb_refl. reflexivity.
      + cbn [made_buffer]. stp; [cbn; rewrite Bu; reflexivity|]. stp; [reflexivity|]. stp; [reflexivity|]. stp; [reflexivity|].
        stp; [|apply to_refl]. unfold owns. cbn. rewrite Nat.eqb_refl. reflexivity.
    - split; [split; cbn|..]; cbn; rewrite ?tset_same; auto.
      + intros t. unfold tset. now destruct (Nat.eqb t m).
      + intros t H. rewrite Te. cbn. now apply Nat.ltb_lt.
      + intros t. now rewrite Te.
      + intros t _. now rewrite Te.
  Qed.

  Ltac sw := cbn [set_cmd set_busy set_code set_mtx emit set_hist put_ten put_buf set_ten set_heap enabled ten heap bufp mtx].

  (** What a thread does once it has asked for a chunk. *)
  Definition after_issue (b : bid) (j : tid) (e : event) (r : issue) : cmd :=
    match r with
    | IGot i => AReset b i;;; ALoan b true;;; AChunkSet (Some (b, i));;;
        (c <- AChunkGet;; match c with None => ACrash;;; Ret | Some (b, i) => x <- AStore b i e;; AUnTenant;;; ANote (Done j (OLog e) (out_of x));;; Ret end)
    | IFull => AChunkSet None;;; g <- ALdGen;; AUnTenant;;; maybe_stop j g (fun r => ANote (Done j (OLog e) (out_of r));;; Ret)
    | IWait => i <- ADeq b;; AReset b i;;; ALoan b true;;; AChunkSet (Some (b, i));;;
        (c <- AChunkGet;; match c with None => ACrash;;; Ret | Some (b, i) => x <- AStore b i e;; AUnTenant;;; ANote (Done j (OLog e) (out_of x));;; Ret end)
    end.

  (** Thread [j] is about to ask, in a log that was in [s]. *)
  Record asking (s : st) (b : bid) (j : tid) (e : event) (s1 : st) : Prop := {
    k_bad : bad s1 = false;
    k_closing : closing s1 = None;
    k_mtx : mtx s1 = None;
    k_other : forall u, u <> j -> code s1 u = Ret;
    k_code : code s1 j = Act (AIssue b) (after_issue b j e);
    k_on : enabled s1 = true;
    k_buf : bufp s1 = Some b;
    k_heap : heap s1 = heap s;
    k_regd : regd s1 = regd s;
    k_ten : forall u, u <> j -> ten s1 u = ten s u;
    k_own : ten s1 j = {| t_lock := BySlave; t_chunk := None; t_init := true |};
    k_hist : hist s1 = hist s ++ [Invoked j (OLog e)];
  }.

  (** A thread without a chunk gets as far as asking for one. *)
  Lemma ask m n b j s (e : event) : logged m n b j s -> j < m -> exists s1, to s s1 /\ asking s b j e s1.
  Proof.
    intros [[B C M R] On Bu Kd Sz Is Qu Ow Gi Le Ini Lk Ch] Hj. eexists. split.
    - eapply (to_call s j (OLog e)); [exact B|apply R|exact C|reflexivity|]. cbn [code_of]. unfold logEvent.
      stp; [sw; rewrite On; reflexivity|]. cbn [negb].
      stp; [sw; rewrite (Lk j); reflexivity|]. cbn [negb].
      stp; [sw; rewrite tset_same; cbn [set_tlock t_init]; rewrite (Ini j Hj); reflexivity|]. cbn [negb].
      stp; [sw; rewrite tset_same; cbn [set_tlock t_chunk]; rewrite (Ch j (le_n j)); reflexivity|].
      stp; [sw; rewrite On; reflexivity|]. cbn [negb]. unfold replaceChunk.
      stp; [sw; rewrite tset_same; cbn [set_tlock t_chunk]; rewrite (Ch j (le_n j)); reflexivity|].
      stp; [sw; rewrite On; reflexivity|]. cbn [negb].
      stp; [sw; rewrite Bu; reflexivity|].
      stp; [sw; rewrite Bu; reflexivity|]. apply to_refl.
    - split; try (cbn; assumption); try reflexivity.
      + intros u Nu. cbn. rewrite !tset_other by auto. apply R.
      + apply code_cmd.
      + intros u Nu. cbn. now rewrite tset_other by auto.
      + cbn. rewrite tset_same. unfold set_tlock. now rewrite (Ini j Hj), (Ch j (le_n j)).
  Qed.

  Lemma log_next m n b j s (e : event) : (0 < cap)%N -> logged m n b j s -> j < m -> (N.of_nat j < n)%N -> exists s', to s s' /\ logged m n b (S j) s'.
  Proof.
    intros Hc L Hj Hn. destruct (ask m n b j s e L Hj) as [s1 [T [B C M R E On Bu Hp Rg Te Tj Hi]]].
    destruct L as [_ _ _ Kd Sz Is Qu Ow Gi Le Ini Lk Ch]. rewrite <- Hp in *.
    assert (Lt : (N.of_nat j <? n)%N = true) by (now apply N.ltb_lt).
    eexists. split.
    - eapply to_trans; [exact T|]. eapply (to_step _ j CNone); [exact B|exact E|cbn [exec]; unfold with_buf; rewrite Ow, Is, Sz, Lt; reflexivity|].
      cbn [after_issue].
      stp; [unfold with_buf; sw; rewrite tset_same; cbn [b_owner set_bissued b_size]; rewrite Ow, Sz, Lt; reflexivity|].
      stp; [unfold with_buf; sw; rewrite tset_same; cbn [b_owner set_bissued set_bchunk]; rewrite Ow; reflexivity|].
      stp; [reflexivity|].
      stp; [sw; rewrite tset_same; reflexivity|].
      cbn [set_tchunk t_chunk]. stp.
      { unfold with_buf. sw. rewrite tset_same. cbn [b_owner b_size b_chunk set_bissued set_bchunk set_bloan]. rewrite Ow, Sz, Lt. unfold chunk_add, chunk_isFull.
        rewrite upd_same. cbn [chunk_reset c_next]. destruct (N.eqb_spec 0 cap); [lia|]. destruct (N.leb_spec cap 0); [lia|]. reflexivity. }
      stp; [sw; rewrite tset_same; rewrite Tj; reflexivity|].
      stp; [reflexivity|]. apply to_refl.
    - split; [split; cbn; auto|..]; cbn; rewrite ?tset_same; cbn; auto; try congruence.
      + intros u. unfold tset. destruct (Nat.eqb_spec u j); auto.
      + lia.
      + intros t Ht. rewrite Rg. auto.
      + intros t Ht. unfold tset. destruct (Nat.eqb_spec t j) as [->|Nj]; cbn; [try rewrite Tj; reflexivity|]. rewrite Te; auto.
      + intros t. unfold tset. destruct (Nat.eqb_spec t j) as [->|Nj]; cbn; auto. rewrite Te; auto.
      + intros t Ht. unfold tset. destruct (Nat.eqb_spec t j) as [->|Nj]; cbn; [lia|]. rewrite Te; auto. apply Ch. lia.
  Qed.

  Lemma log_all m n b s (e : event) : (0 < cap)%N -> logged m n b 0 s -> forall j, j <= m -> (N.of_nat j <= n)%N -> exists s', to s s' /\ logged m n b j s'.
  Proof.
    intros Hc L. induction j as [|j IH]; intros Hm Hn; [exists s; split; [apply to_refl|exact L]|].
    destruct IH as [s1 [T1 L1]]; [lia|lia|]. destruct (log_next m n b j s1 e Hc L1) as [s2 [T2 L2]]; [lia|lia|].
    exists s2. split; auto. eapply to_trans; eauto.
  Qed.

  (** One more thread waits for a chunk; whoever stops tracing waits for it. *)
  Lemma jam m n b s (e : event) w : logged m (N.of_nat n) b n s -> n < m -> w <> n -> exists s' kv kw, to s s' /\
    mtx s' = Some w /\ enabled s' = false /\ code s' n = Act (ADeq b) kv /\ code s' w = Act (AMaster n) kw /\
    (forall u, u <> n -> u <> w -> code s' u = Ret) /\
    t_lock (ten s' n) = BySlave /\ b_queue (heap s' b) = [] /\ b_owner (heap s' b) = Mine /\
    bufp s' = Some b /\ b_kind (heap s' b) = Ring /\ b_size (heap s' b) = N.of_nat n /\ length (regd s') = m /\
    last_call (hist s') n = Some (OLog e) /\ last_call (hist s') w = Some (OStop false).
  Proof.
    intros L Hm Nw. destruct (ask m (N.of_nat n) b n s e L Hm) as [s1 [T [B C M R E On Bu Hp Rg Te Tj Hi]]].
    destruct L as [_ _ _ Kd Sz Is Qu Ow Gi Le Ini Lk Ch]. rewrite <- Hp in *. rewrite <- Rg in *.
    assert (Lt : (N.of_nat n <? N.of_nat n)%N = false) by (apply N.ltb_irrefl).
    assert (Mm : mem n (regd s1) = true) by (apply mem_In; auto).
    destruct (length (regd s1)) as [|len] eqn:Len; [lia|].
    eexists _, _, _. split.
    - eapply to_trans; [exact T|]. eapply (to_step _ n CNone); [exact B|exact E|cbn [exec]; unfold with_buf; rewrite Ow, Is, Sz, Lt, Kd; reflexivity|].
      cbn [after_issue].
      eapply (to_call _ w (OStop false)); [exact B|rewrite code_cmd_other by auto; cbn; auto|exact C|reflexivity|]. cbn [code_of]. unfold locked.
      stp; [sw; rewrite M; reflexivity|]. unfold stop_lh.
      stp; [sw; rewrite On; reflexivity|]. stp; [reflexivity|]. stp; [reflexivity|].
      cbn [set_cmd set_busy set_code set_mtx set_enabled set_reg emit set_hist put_buf set_heap regd]. rewrite Len. cbn [evict].
      eapply (to_step _ w (CPick n)); [cbn; assumption|apply code_cmd|cbn [exec]; rewrite Mm; reflexivity|]. apply to_refl.
    - cbn -[last_call]. rewrite !tset_same. rewrite ?(tset_other _ w _ n) by auto. rewrite ?tset_same. repeat split; auto; try congruence.
      + intros u N1 N2. rewrite !tset_other by auto. auto.
      + rewrite Tj. reflexivity.
      + rewrite !last_call_snoc. destruct (Nat.eqb_spec w n) as [X|_]; [congruence|]. rewrite Hi, last_call_snoc, Nat.eqb_refl. reflexivity.
      + rewrite !last_call_snoc. now rewrite Nat.eqb_refl.
  Qed.
End Stuck.
