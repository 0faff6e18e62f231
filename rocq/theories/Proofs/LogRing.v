(** Ring buffers: a deadlock, and when there is none. *)
From Verif Require Import Base Model.StringUtils Model.Event Model.Queue Model.Buffer Model.Config Spec.Categories Model.Registry
  Model.Interleave Spec.LogHistory Spec.LogFacts Spec.LogRecords Model.TraceLog Spec.LogMemory Spec.LogProgress Proofs.Interleave Proofs.Registry Proofs.LogFrame Proofs.LogView Proofs.LogViewInv
  Proofs.LogContract Proofs.LogBuffers Proofs.LogSafe Proofs.LogSafeInv Proofs.LogSafeAT Proofs.LogSafeOW Proofs.LogSafeAll Proofs.LogRaces Proofs.LogHolders Proofs.LogRecords Proofs.LogGhost Proofs.LogProgress.

(** ** Stuck for ever *)

(** Thread [v] waits for a chunk of ring [b] with its tenant held; thread [w]
    has the lock, has switched tracing off, and waits for that tenant. *)
Section Stuck.
  Variables cap csz : N.
  Variable site_cat : nat -> bytes.
  Variables (v w : tid) (b : bid) (kv : ans (ADeq b) -> cmd) (kw : ans (AMaster v) -> cmd).
  Notation pstep := (pstep cap csz site_cat).

  (** What the others can do then. *)
  Definition okF (t : tid) (p : unit) (a : act) : Prop :=
    match a with ALock | ATryLock | ALdEnabled | ANote _ | AGetStatus _ | AStatus _ | ASiteGet _ | ASiteSet _ _ => True | _ => False end.
  Definition postF (t : tid) (p : unit) (a : act) : ans a -> unit -> Prop :=
    match a return ans a -> unit -> Prop with ALock => fun _ _ => False | ATryLock | ALdEnabled => fun r _ => r = false | _ => fun _ _ => True end.
  Definition quietF (p : unit) : Prop := True.
  Notation vF := (valid okF postF quietF).

  Record stuck (s : st) : Prop := {
    sk_mtx : mtx s = Some w;
    sk_off : enabled s = false;
    sk_v : code s v = Act (ADeq b) kv;
    sk_w : code s w = Act (AMaster v) kw;
    sk_ten : t_lock (ten s v) = BySlave;
    sk_queue : b_queue (heap s b) = [];
    sk_owner : b_owner (heap s b) = Mine;
    sk_busy : busy s <> [];
    sk_rest : forall u, u <> v -> u <> w -> vF u (code s u) tt;
  }.

  Ltac act r p H := cbn [LogFrame.valid]; split; [exact I|intros r p H; cbn [postF] in H; try contradiction; destruct p].

  Lemma log_F t e k : vF t (k None) tt -> vF t (logEvent t e k) tt.
  Proof. intros K. unfold logEvent. act on p H. now rewrite H. Qed.

  Lemma code_F t o : is_destroy o = false -> vF t (code_of csz site_cat t o) tt.
  Proof.
    intros D. assert (Nt : forall x, vF t (ANote x;;; Ret) tt) by (intros x; act r p H; exact I).
    destruct o; try discriminate D; cbn [code_of]; unfold locked; try (act r1 p1 H1; fail).
    - destruct startup; act r1 p1 H1.
    - act r1 p1 H1. apply Nt.
    - act r1 p1 H1. apply Nt.
    - apply log_F. apply Nt.
    - unfold macro. assert (Gt : forall i, vF t (on <- AStatus i;; if on then logEvent t e (fun r => ANote (Done t (OMacro site e) (out_of r));;; Ret) else ANote (Done t (OMacro site e) (out_of None));;; Ret) tt).
      { intros i. act on p H. destruct on; [apply log_F|]; apply Nt. }
      act x p1 H1. destruct x; auto. act i p2 H2. act r3 p3 H3. apply Gt.
  Qed.

  Lemma busy_add (t : tid) l : add t l <> [].
  Proof. unfold add. destruct (mem t l) eqn:M; [|easy]. now destruct l. Qed.

  Lemma busy_del (t u : tid) l : In u l -> u <> t -> del t l <> [].
  Proof. intros H N E. assert (X : In u (del t l)); [|now rewrite E in X]. unfold del. apply filter_In. split; auto. apply negb_true_iff. apply Nat.eqb_neq. auto. Qed.

  Lemma In_add (t u : tid) l : In u l -> In u (add t l).
  Proof. unfold add. destruct (mem t l); auto. now right. Qed.
  Lemma In_del (t u : tid) l : In u l -> t <> u -> In u (del t l).
  Proof. intros H N. unfold del. apply filter_In. split; auto. apply negb_true_iff. now apply Nat.eqb_neq. Qed.

  Lemma stuck_step s a : v <> w -> In v (busy s) -> stuck s -> stuck (move pstep s a) /\ In v (busy (move pstep s a)).
  Proof.
    intros Nvw Hb [M Of Cv Cw Tl Q Ow Bs Re]. unfold move.
    assert (Same : stuck s /\ In v (busy s)) by (split; [now split|auto]).
    destruct (pstep s a) as [s'|] eqn:E; auto. unfold TraceLog.pstep, step in E. destruct (polite s a); [|easy]. destruct (bad s); [easy|].
    destruct a as [t o|t ch|t n|t r].
    - destruct (code s t) eqn:Ec; [|easy]. assert (Nv : t <> v) by congruence. assert (Nw : t <> w) by congruence.
      destruct (closing s); [easy|]. destruct (is_destroy o) eqn:D; [now destruct (busy s)|]. injection E as <-. split.
      + split; cbn; auto; try (rewrite tset_other by auto; auto).
        * destruct (code_of csz site_cat t o); [apply (busy_del t v); auto|apply busy_add].
        * intros u Nu Nu'. byt u t; auto. now apply code_F.
      + cbn. destruct (code_of csz site_cat t o); [now apply In_del|]. now apply In_add.
    - destruct (code s t) as [|a k] eqn:Ec; [easy|].
      destruct (Nat.eq_dec t v) as [->|Nv].
      { rewrite Cv in Ec. injection Ec as <- _. cbn in E. unfold with_buf in E. now rewrite Ow, Q in E. }
      destruct (Nat.eq_dec t w) as [->|Nw].
      { rewrite Cw in Ec. injection Ec as <- _. cbn in E. now rewrite Tl in E. }
      pose proof (Re t Nv Nw) as Vt. rewrite Ec in Vt. destruct Vt as [O Vk].
      assert (Put : forall s1 c, mtx s1 = mtx s -> enabled s1 = enabled s -> ten s1 = ten s -> heap s1 = heap s -> code s1 = code s -> busy s1 = busy s -> vF t c tt ->
        stuck (set_cmd s1 t c) /\ In v (busy (set_cmd s1 t c))).
      { intros s1 c E1 E2 E3 E4 E5 E6 Vc. split.
        - split; cbn; rewrite ?E1, ?E2, ?E3, ?E4, ?E5, ?E6; auto; try (rewrite tset_other by auto; auto).
          + destruct c; [apply (busy_del t v); auto|apply busy_add].
          + intros u Nu Nu'. byt u t; auto.
        - cbn. rewrite E6. destruct c; [now apply In_del|now apply In_add]. }
      destruct a; try contradiction O; cbn [exec] in E.
      + injection E as <-. apply Put; auto; apply Vk; cbn; congruence.
      + rewrite M in E. destruct (Nat.eqb w t) eqn:X; [apply Nat.eqb_eq in X; congruence|easy].
      + rewrite M in E. destruct (Nat.eqb w t) eqn:X; [apply Nat.eqb_eq in X; congruence|]. injection E as <-. apply Put; auto; now apply Vk.
      + destruct (getStatus (reg s) category) as [i r]. injection E as <-. apply Put; auto; now apply Vk.
      + injection E as <-. apply Put; auto; now apply Vk.
      + injection E as <-. apply Put; auto; now apply Vk.
      + injection E as <-. apply Put; auto; now apply Vk.
      + injection E as <-. apply Put; auto; now apply Vk.
    - destruct (hook_of (code s t)) as [[h k]|] eqn:Eh; [|easy]. apply hook_of_some in Eh.
      assert (Nv : t <> v) by (intros ->; rewrite Cv in Eh; discriminate Eh). assert (Nw : t <> w) by (intros ->; rewrite Cw in Eh; discriminate Eh).
      pose proof (Re t Nv Nw) as Vt. rewrite Eh in Vt. now destruct Vt.
    - destruct (hook_of (code s t)) as [[h k]|] eqn:Eh; [|easy]. apply hook_of_some in Eh.
      assert (Nv : t <> v) by (intros ->; rewrite Cv in Eh; discriminate Eh). assert (Nw : t <> w) by (intros ->; rewrite Cw in Eh; discriminate Eh).
      pose proof (Re t Nv Nw) as Vt. rewrite Eh in Vt. now destruct Vt.
  Qed.

  Lemma stuck_for_ever s sched : v <> w -> In v (busy s) -> stuck s -> stuck (run pstep s sched).
  Proof.
    intros N Hb S. enough (X : stuck (run pstep s sched) /\ In v (busy (run pstep s sched))) by apply X.
    induction sched as [|a sched IH] using rev_ind; auto. rewrite run_snoc. destruct IH. now apply stuck_step.
  Qed.
End Stuck.

(** ** Enough chunks for everybody *)

Section Enough.
  Variables cap csz : N.
  Variable site_cat : nat -> bytes.
  Notation reached := (reached cap csz site_cat).
  Notation GB := (GB cap).
  Notation valid := (valid okB postB quietB).
  Notation pstep := (pstep cap csz site_cat).

  (** The last chunk a thread took and did not return; taking the chunk from a
      thread does not count as returning it. *)
  Definition note_kept (s : st) (t : tid) (a : act) : ans a -> holding -> holding :=
    match a return ans a -> holding -> holding with
    | AIssue b => fun r h => match r with IGot i => tset h t (Some (b, i)) | _ => h end
    | ADeq b => fun i h => tset h t (Some (b, i))
    | AReturn b i => fun _ h => tset h t None
    | _ => fun _ h => h
    end.

  Definition pinned (f : tid -> mph) (t : tid) : Prop := m_slave (f t) = true /\ m_pin (f t) = true.

  Record KP (s : st) (f : tid -> mph) (h : holding) : Prop := {
    kp_own : forall u x, owned s f u = Some x -> h u = Some x;
    kp_in : forall u b i, h u = Some (b, i) -> b < nbuf s /\ (i < b_issued (heap s b))%N;
    kp_set : forall t, m_set (f t) = true -> m_bump (f t) = true /\ forall b, bufp s = Some b -> b_issued (heap s b) = 0%N;
    kp_cover : forall b i, bufp s = Some b -> b_kind (heap s b) = Ring -> (i < b_size (heap s b))%N -> (i < b_issued (heap s b))%N ->
      In i (b_queue (heap s b)) \/ exists u, h u = Some (b, i);
    kp_live : forall u b i, enabled s = true \/ pinned f u -> h u = Some (b, i) -> bufp s = Some b -> owned s f u = Some (b, i);
    kp_reg : (enabled s = true \/ exists v, pinned f v) -> forall u b i, h u = Some (b, i) -> bufp s = Some b -> t_init (ten s u) = true;
  }.

  (** Nothing relevant changes. *)
  Lemma KP_frame s s' f f' h : KP s f h -> (forall u, owned s' f' u = owned s f u) -> (forall u, pinned f' u -> pinned f u \/ enabled s = true) ->
    (forall u, m_set (f' u) = true -> m_set (f u) = true /\ (m_bump (f u) = true -> m_bump (f' u) = true)) -> nbuf s' = nbuf s ->
    (forall b, b_kind (heap s' b) = b_kind (heap s b) /\ b_size (heap s' b) = b_size (heap s b) /\ b_issued (heap s' b) = b_issued (heap s b) /\ b_queue (heap s' b) = b_queue (heap s b)) ->
    bufp s' = bufp s -> (enabled s' = true -> enabled s = true) -> (forall u, t_init (ten s' u) = t_init (ten s u)) -> KP s' f' h.
  Proof.
    intros [K1 K2 K3 K4 K5 K6] Eo Ep Es En Eh Eb Ee Ei. split.
    - intros u x. rewrite Eo. apply K1.
    - intros u b i Hu. rewrite En. destruct (Eh b) as [_ [_ [-> _]]]. now apply (K2 u).
    - intros u Hu. apply Es in Hu as [Hu Hb]. rewrite Eb. destruct (K3 u Hu) as [X Y]. split; auto. intros b Hb'. destruct (Eh b) as [_ [_ [-> _]]]. auto.
    - intros b i. rewrite Eb. destruct (Eh b) as [-> [-> [-> ->]]]. apply K4.
    - intros u b i Hu. rewrite Eb, Eo. apply K5. destruct Hu as [Hu|Hu]; auto. apply Ep in Hu as [Hu|Hu]; auto.
    - intros Hu u b i. rewrite Eb, Ei. apply K6. destruct Hu as [Hu|[v Hv]]; auto. apply Ep in Hv as [Hv|Hv]; eauto.
  Qed.

  (** Tracing is off and no thread relies on the buffer. *)
  Lemma KP_off s s' f f' h : KP s f h -> (forall u, owned s' f' u = owned s f u) -> (forall u, ~ pinned f' u) -> enabled s' = false ->
    (forall b, b < nbuf s -> b < nbuf s' /\ (b_issued (heap s b) <= b_issued (heap s' b))%N) ->
    (forall b, bufp s' = Some b -> b_issued (heap s' b) = 0%N) -> (forall u, m_set (f' u) = true -> m_bump (f' u) = true) -> KP s' f' h.
  Proof.
    intros [K1 K2 K3 K4 K5 K6] Eo Ep Ee Eh Eb Es. split.
    - intros u x. rewrite Eo. apply K1.
    - intros u b i Hu. destruct (K2 u b i Hu) as [X Y]. destruct (Eh b X). split; auto; lia.
    - intros u Hu. split; auto.
    - intros b i Hb _ _ Hi. apply Eb in Hb. lia.
    - intros u b i [Hu|Hu]; [congruence|]. now apply Ep in Hu.
    - intros [Hu|[v Hv]]; [congruence|]. now apply Ep in Hv.
  Qed.

  (** A thread takes a chunk. *)
  Lemma KP_take s s' f p h t b i : KP s f h -> pinned f t -> t_init (ten s t) = true -> bufp s = Some b -> owned s f t = None -> b < nbuf s ->
    (forall u, owned s' (tset f t p) u = tset (owned s f) t (Some (b, i)) u) ->
    (m_slave p = m_slave (f t) /\ m_pin p = m_pin (f t) /\ m_set p = m_set (f t)) -> (forall u, m_set (f u) = false) ->
    nbuf s' = nbuf s -> bufp s' = bufp s -> enabled s' = enabled s -> ten s' = ten s -> (forall c, c <> b -> heap s' c = heap s c) ->
    (b_kind (heap s' b) = b_kind (heap s b) /\ b_size (heap s' b) = b_size (heap s b) /\ (b_issued (heap s b) <= b_issued (heap s' b))%N /\ (i < b_issued (heap s' b))%N) ->
    (forall j, (j < b_size (heap s b))%N -> (j < b_issued (heap s' b))%N -> j = i \/ ((j < b_issued (heap s b))%N /\ (In j (b_queue (heap s b)) -> In j (b_queue (heap s' b))))) ->
    KP s' (tset f t p) (tset h t (Some (b, i))).
  Proof.
    intros [K1 K2 K3 K4 K5 K6] Pt Ti Eb Ow Lb Eo [P1 [P2 P3]] Ns En Eb' Ee Et Eh [H1 [H2 [H3 H4]]] Hq.
    assert (Ht : forall j, h t <> Some (b, j)) by (intros j Hj; rewrite (K5 t b j) in Ow; auto; discriminate).
    assert (Ep : forall u, pinned (tset f t p) u -> pinned f u) by (intros u; unfold pinned; byt u t; auto).
    split.
    - intros u x. rewrite Eo. byt u t; auto.
    - intros u c j. rewrite En. byt u t.
      + intros X. injection X as <- <-. auto.
      + intros Hu. destruct (K2 u c j Hu) as [X Y]. split; auto. destruct (Nat.eq_dec c b) as [->|N']; [lia|]. now rewrite Eh.
    - intros u Hu. exfalso. assert (X : m_set (f u) = true) by (byt u t; congruence). rewrite Ns in X. discriminate.
    - intros c j Hc. rewrite Eb', Eb in Hc. injection Hc as <-. rewrite H1, H2. intros Hk Hs Hi. destruct (Hq j Hs Hi) as [->|[Hi' Q]].
      + right. exists t. now rewrite tset_same.
      + destruct (K4 b j Eb Hk Hs Hi') as [X|[u X]]; auto. right. exists u. rewrite tset_other; auto. intros ->. now apply Ht in X.
    - intros u c j Hu. rewrite Eo, Eb'. byt u t; auto. intros X Y. apply K5; auto. rewrite Ee in Hu. destruct Hu as [Hu|Hu]; auto.
    - intros _ u c j. rewrite Et, Eb'. byt u t; auto. intros X Y. apply (K6 (or_intror (ex_intro _ t Pt)) u c j); auto.
  Qed.

  Lemma exec_KP s f h t ch a k s' r : reached s -> GB s f -> code s t = Act a k -> okB t (f t) a -> exec cap s t ch a = Next s' r ->
    KP s f h -> KP s' (tset f t (nextB (enabled s) (regd s) (f t) a r)) (note_kept s t a r h).
  Proof.
    intros R G Ec O E K. pose proof (owned_next cap csz site_cat s f t ch a k s' r R G Ec O E) as On.
    destruct G as [L A W I].
    assert (Nodet : forall u, m_hold (f t) = Some (false, []) -> ~ pinned f u).
    { intros u Hh Hp. apply (detached s f t L A Hh u). now left. }
    assert (Fr : forall p, (forall u, owned s' (tset f t p) u = owned s f u) -> (m_slave p = true /\ m_pin p = true -> pinned f t \/ enabled s = true) ->
      (m_set p = true -> m_set (f t) = true /\ (m_bump (f t) = true -> m_bump p = true)) -> nbuf s' = nbuf s ->
      (forall b, b_kind (heap s' b) = b_kind (heap s b) /\ b_size (heap s' b) = b_size (heap s b) /\ b_issued (heap s' b) = b_issued (heap s b) /\ b_queue (heap s' b) = b_queue (heap s b)) ->
      bufp s' = bufp s -> (enabled s' = true -> enabled s = true) -> (forall u, t_init (ten s' u) = t_init (ten s u)) -> KP s' (tset f t p) h).
    { intros p Eo Ep Es En Eh Eb Ee Ei. apply (KP_frame s s' f); auto.
      - intros u. unfold pinned in *. byt u t; auto.
      - intros u. byt u t; auto. }
    destruct a; cbn [note_kept note_owned] in *; cbn [okB] in O;
      try (cbn [exec] in E; injection E as <- <-; apply Fr; auto; fail).
    all: try (ex E; apply Fr; [exact On|..]; cbn [nextB]; cbn; unfold pinned;
      repeat match goal with
             | |- context [tset (heap _) ?c _ _] => let b := fresh "b" in intros b; byt b c; cbn; auto
             | |- context [tset (ten _) ?c _ _] => let b := fresh "b" in intros b; byt b c; cbn; auto
             | |- context [match ?x with _ => _ end] => destruct x eqn:?; cbn
             end; try easy; try tauto; auto; fail).
    - (* ALdEnabled *) ex E. apply Fr; [exact On|..]; auto; cbn [nextB].
      + destruct (enabled s) eqn:En; auto. unfold pinned. destruct (m_pin (f t)) eqn:Pn; cbn; intros [? ?]; auto; congruence.
      + destruct (enabled s), (m_slave (f t) && m_ini (f t))%bool, (m_pin (f t)); cbn; auto.
    - (* AXchg *) ex E; (apply Fr; [exact On|..]); cbn; unfold pinned; auto; try easy; congruence.
    - (* AStEnabled *) cbn [exec] in E. injection E as <- <-. destruct O as [O1 [O2 [O3 [O4 O5]]]]. destruct (kp_set _ _ _ K t O5) as [_ Z].
      assert (No : forall u b i, h u = Some (b, i) -> bufp s = Some b -> False).
      { intros u b i Hu Hb. apply Z in Hb. apply (kp_in _ _ _ K) in Hu as [_ Hu]. lia. }
      split.
      + intros u x. rewrite On. apply (kp_own _ _ _ K).
      + apply (kp_in _ _ _ K).
      + intros u. byt u t; [discriminate|]. apply (kp_set _ _ _ K).
      + apply (kp_cover _ _ _ K).
      + intros u b i _ Hu Hb. now destruct (No u b i).
      + intros _ u b i Hu Hb. now destruct (No u b i).
    - (* ABufGet *) ex E. apply Fr; [exact On|..]; auto; cbn [nextB]; unfold pinned; destruct (bufp s), (m_pin (f t)) eqn:?; cbn; auto; intros [? ?]; auto; congruence.
    - (* ABufTake *) destruct O as [O1 O2]. cbn [exec] in E. injection E as <- <-. pose proof (lk_on _ _ L _ _ _ O1) as En. apply (KP_off s _ f); auto.
      + intros u. specialize (Nodet u O1). unfold pinned in *. byt u t; auto.
      + cbn. destruct (bufp s); exact En.
      + intros b Hb. cbn. destruct (bufp s) as [c|]; cbn; [byt b c|]; split; auto; cbn; lia.
      + easy.
      + intros u Hu. destruct (kp_set _ _ _ K u) as [X _]; byt u t; auto.
    - (* ABufSet *) destruct O as [O1 [O2 O3]]. cbn [exec] in E. injection E as <- <-. pose proof (lk_on _ _ L _ _ _ O1) as En. apply (KP_off s _ f); auto.
      + intros u. specialize (Nodet u O1). unfold pinned in *. byt u t; auto.
      + cbn. destruct (bufp s); exact En.
      + intros b Hb. cbn. destruct (bufp s) as [c|]; cbn; [byt b c|]; split; auto; cbn; lia.
      + intros b Hb. cbn in Hb. subst o. destruct (at_new _ _ A _ _ Hb) as [_ [_ [_ [X [Y _]]]]]. cbn. destruct (bufp s) as [c|]; auto. cbn. byt b c; auto.
      + intros u Hu. byt u t; auto. now destruct (kp_set _ _ _ K u).
    - (* AFactory *) destruct O as [O1 O2]. pose proof (lk_on _ _ L _ _ _ O1) as En.
      assert (Q : forall s1 p, enabled s1 = false -> (forall b, b < nbuf s -> b < nbuf s1 /\ heap s1 b = heap s b) -> bufp s1 = bufp s -> (forall u, owned s1 (tset f t p) u = owned s f u) ->
        (m_slave p = m_slave (f t) /\ m_pin p = m_pin (f t) /\ m_set p = m_set (f t) /\ m_bump p = m_bump (f t)) ->
        (forall u, t_init (ten s1 u) = t_init (ten s u)) -> KP s1 (tset f t p) h).
      { intros s1 p E1 E2 E3 E4 [E5 [E6 [E7 E8]]] E9.
        assert (Bb : forall b, bufp s1 = Some b -> heap s1 b = heap s b) by (intros b Hb; apply E2; rewrite E3 in Hb; now apply (at_buf _ _ A) in Hb).
        split.
        - intros u x. rewrite E4. apply (kp_own _ _ _ K).
        - intros u b i Hu. apply (kp_in _ _ _ K) in Hu as [X Y]. destruct (E2 b X) as [X' ->]. auto.
        - intros u Hu. assert (Hs : m_set (f u) = true) by (byt u t; congruence). destruct (kp_set _ _ _ K u Hs) as [X Y]. split; [byt u t; congruence|].
          intros b Hb. rewrite (Bb b Hb). apply Y. congruence.
        - intros b i Hb. rewrite (Bb b Hb). apply (kp_cover _ _ _ K). congruence.
        - intros u b i [Hu|Hu] _ _; [congruence|]. exfalso. apply (Nodet u O1). unfold pinned in *. byt u t; auto. now rewrite <- E5, <- E6.
        - intros [Hu|[v Hv]]; [congruence|]. exfalso. apply (Nodet v O1). unfold pinned in *. byt v t; auto. now rewrite <- E5, <- E6. }
      apply Q; [| | |exact On|..]; revert On; ex E; intros _; cbn; auto; intros b Hb; try (rewrite tset_other by lia; split; auto); auto.
    - (* AIssue *) destruct O as [O1 [O2 [O3 [O4 O5]]]]. apply (at_bp _ _ A) in O3 as [Eb _]. apply (at_ck _ _ A) in O5 as [Ec' _].
      assert (Ow : owned s f t = None) by (unfold owned; rewrite O4; exact Ec').
      assert (Nset : forall u, m_set (f u) = false).
      { intros u. destruct (m_set (f u)) eqn:Hs; auto. exfalso. apply (kp_set _ _ _ K) in Hs as [Hs _]. apply (rn_bump _ _ I) in Hs as [Hs _].
        apply (detached s f u L A Hs t). left. now split. }
      assert (Ti : t_init (ten s t) = true) by (apply (at_att _ _ A); left; now split).
      assert (Lb : b < nbuf s) by now apply (at_buf _ _ A) in Eb.
      assert (Pt : pinned f t) by now split.
      cbn [exec] in E. unfold with_buf in E. destruct (b_owner (heap s b)); try discriminate E.
      destruct (b_issued (heap s b) <? b_size (heap s b))%N eqn:Lt.
      + injection E as <- <-. apply (KP_take s); auto; cbn; rewrite ?tset_same; cbn; auto; try (intros c Nc; now rewrite tset_other); try (repeat split; auto; lia).
        intros j Hj Hi. destruct (N.eq_dec j (b_issued (heap s b))); auto. right. split; auto. lia.
      + apply N.ltb_ge in Lt. assert (Q : forall p, (forall u, owned s' (tset f t p) u = owned s f u) -> s' = put_buf s b (set_bissued (heap s b) (b_issued (heap s b) + 1)%N) ->
          m_slave p = m_slave (f t) /\ m_pin p = m_pin (f t) /\ m_set p = m_set (f t) -> KP s' (tset f t p) h).
        { intros p Eo -> [P1 [P2 P3]]. assert (Ep : forall u, pinned (tset f t p) u -> pinned f u) by (intros u; unfold pinned; byt u t; [now rewrite P1, P2|auto]). split.
          - intros u x. rewrite Eo. apply (kp_own _ _ _ K).
          - intros u c j Hu. apply (kp_in _ _ _ K) in Hu as [X Y]. split; auto. cbn. byt c b; auto. cbn. lia.
          - intros u Hu. exfalso. assert (X : m_set (f u) = true) by (byt u t; congruence). rewrite Nset in X. discriminate.
          - intros c j Hc. cbn in Hc. rewrite Eb in Hc. injection Hc as <-. cbn. rewrite tset_same. cbn. intros Hk Hs _. apply (kp_cover _ _ _ K); auto. lia.
          - intros u c j Hu. rewrite Eo. apply (kp_live _ _ _ K). destruct Hu as [Hu|Hu]; auto.
          - intros _. apply (kp_reg _ _ _ K). right. now exists t. }
        destruct (b_kind (heap s b)); injection E as <- <-; apply Q; auto; cbn; auto.
    - (* ADeq *) destruct O as [O1 [O2 [O3 [O4 O5]]]]. apply (at_bp _ _ A) in O3 as [Eb _]. apply (at_ck _ _ A) in O5 as [Ec' _].
      assert (Ow : owned s f t = None) by (unfold owned; rewrite O4; exact Ec').
      assert (Nset : forall u, m_set (f u) = false).
      { intros u. destruct (m_set (f u)) eqn:Hs; auto. exfalso. apply (kp_set _ _ _ K) in Hs as [Hs _]. apply (rn_bump _ _ I) in Hs as [Hs _].
        apply (detached s f u L A Hs t). left. now split. }
      assert (Ti : t_init (ten s t) = true) by (apply (at_att _ _ A); left; now split).
      assert (Lb : b < nbuf s) by now apply (at_buf _ _ A) in Eb.
      assert (Pt : pinned f t) by now split.
      cbn [exec] in E. unfold with_buf in E. destruct (b_owner (heap s b)); try discriminate E.
      destruct (b_queue (heap s b)) as [|i q] eqn:Eq; [discriminate E|]. injection E as <- <-.
      assert (Hi : (i < b_issued (heap s b))%N) by (apply (ow_queue _ _ _ W b Eb); rewrite Eq; now left).
      apply (KP_take s); auto; cbn; rewrite ?tset_same; cbn; auto; try (intros c Nc; now rewrite tset_other); try (repeat split; auto; lia).
      intros j Hj Hj'. rewrite Eq. destruct (N.eq_dec j i); auto. right. split; auto. intros [X|X]; auto. congruence.
    - (* AReturn *) destruct O as [O1 [O2 O3]]. apply (at_bp _ _ A) in O1 as [Eb _]. apply (at_ck _ _ A) in O2 as [Ec' _].
      assert (Ow : owned s f t = Some (b, i)) by (unfold owned; rewrite O3; exact Ec'). pose proof (kp_own _ _ _ K _ _ Ow) as Ht.
      assert (Q : forall s1, (forall u, owned s1 (tset f t (p_cm Returned (f t))) u = tset (owned s f) t None u) -> nbuf s1 = nbuf s -> bufp s1 = bufp s -> enabled s1 = enabled s -> ten s1 = ten s ->
        (forall c, b_kind (heap s1 c) = b_kind (heap s c) /\ b_size (heap s1 c) = b_size (heap s c) /\ b_issued (heap s1 c) = b_issued (heap s c)) ->
        (b_kind (heap s b) = Ring -> b_queue (heap s1 b) = b_queue (heap s b) ++ [i]) -> KP s1 (tset f t (p_cm Returned (f t))) (tset h t None)).
      { intros s1 Eo E1 E2 E3 E4 E5 E6. assert (Ep : forall u, pinned (tset f t (p_cm Returned (f t))) u -> pinned f u) by (intros u; unfold pinned; byt u t; auto). split.
        - intros u x. rewrite Eo. byt u t; auto. apply (kp_own _ _ _ K).
        - intros u c j. byt u t; [discriminate|]. rewrite E1. destruct (E5 c) as [_ [_ ->]]. apply (kp_in _ _ _ K).
        - intros u Hu. assert (X : m_set (f u) = true) by (byt u t; auto). destruct (kp_set _ _ _ K u X) as [Y Z]. split; [byt u t; auto|].
          intros c. rewrite E2. destruct (E5 c) as [_ [_ ->]]. apply Z.
        - intros c j. rewrite E2, Eb. intros Hc. injection Hc as <-. destruct (E5 b) as [-> [-> ->]]. intros Hk Hs Hi. rewrite (E6 Hk).
          destruct (kp_cover _ _ _ K b j Eb Hk Hs Hi) as [X|[u X]]; [left; apply in_or_app; auto|]. destruct (Nat.eq_dec u t) as [->|Nu].
          + rewrite Ht in X. injection X as <-. left. apply in_or_app. right. now left.
          + right. exists u. now rewrite tset_other.
        - intros u c j Hu. rewrite Eo, E2. byt u t; [discriminate|]. apply (kp_live _ _ _ K). rewrite E3 in Hu. destruct Hu; auto.
        - intros Hu u c j. rewrite E2, E4. byt u t; [discriminate|]. apply (kp_reg _ _ _ K). rewrite E3 in Hu. destruct Hu as [Hu|[v Hv]]; eauto. }
      apply Q; [exact On|..]; clear On Q; ex E; cbn; auto; try (intros c; byt c b; auto); intros; try congruence. rewrite tset_same. reflexivity.
    - (* AEvict *) destruct O as [[on [ev O1]] [O2 [O3 [O4 O5]]]]. specialize (O5 _ _ O1). subst on. pose proof (lk_on _ _ L _ _ _ O1) as En.
      cbn [exec] in E. injection E as <- <-. cbn [nextB] in *. rewrite O1 in *. set (p := p_hold (Some (false, del u ev)) (f t)) in *.
      assert (Ep : forall v, pinned (tset f t p) v -> pinned f v) by (intros v; unfold pinned; byt v t; auto).
      assert (Nu : ~ pinned f u). { intros [Hs _]. apply (lk_slave _ _ L) in Hs. apply (lk_mas _ _ L) in O2. congruence. }
      split.
      + intros v x. rewrite On. byt v u; [discriminate|]. apply (kp_own _ _ _ K).
      + apply (kp_in _ _ _ K).
      + intros v Hv. assert (X : m_set (f v) = true) by (byt v t; auto). destruct (kp_set _ _ _ K v X) as [Y Z]. split; [byt v t; auto|exact Z].
      + apply (kp_cover _ _ _ K).
      + intros v b i [Hv|Hv]; [cbn in Hv; congruence|]. rewrite On. apply Ep in Hv. assert (v <> u) by congruence. rewrite tset_other by auto. apply (kp_live _ _ _ K). auto.
      + intros [Hv|[v Hv]]; [cbn in Hv; congruence|]. apply Ep in Hv. intros v' b i. assert (X : t_init (ten (put_ten s u (set_tchunk (ten s u) None)) v') = t_init (ten s v')) by (cbn; byt v' u; auto).
        rewrite X. apply (kp_reg _ _ _ K). eauto.
    - (* AInitGet *) ex E. apply Fr; [exact On|..]; auto; cbn [nextB]; unfold pinned; destruct (m_slave (f t)) eqn:?; cbn; auto; intros [? ?]; auto; congruence.
    - (* AReg *) destruct O as [[on O1] [O2 [O3 _]]]. pose proof (lk_on _ _ L _ _ _ O1) as En. cbn [exec] in E. injection E as <- <-. cbn [nextB] in *.
      assert (Ep : forall v, pinned (tset f t (f t)) v -> pinned f v) by (intros v0; unfold pinned; byt v0 t; auto).
      split.
      + intros u x. rewrite On. apply (kp_own _ _ _ K).
      + apply (kp_in _ _ _ K).
      + intros u Hu. assert (X : m_set (f u) = true) by (byt u t; auto). destruct (kp_set _ _ _ K u X) as [Y Z]. split; [byt u t; auto|exact Z].
      + apply (kp_cover _ _ _ K).
      + intros u b i Hu. rewrite On. apply (kp_live _ _ _ K). destruct Hu; auto.
      + intros Hu. assert (Hn : enabled s = true).
        { destruct Hu as [Hu|[w Hw]]; auto. apply Ep in Hw. destruct (at_att _ _ A w (or_introl Hw)) as [_ [X|(z & on' & ev & X & Y)]]; auto.
          assert (z = t). { assert (mtx s = Some z) by (apply (lk_hold _ _ L); congruence). assert (mtx s = Some t) by (apply (lk_hold _ _ L); congruence). congruence. }
          subst z. rewrite O1 in X. injection X as <- <-. easy. }
        intros u b i Hh Hb. cbn. destruct (Nat.eq_dec u t) as [->|Nu]; [|rewrite tset_other by auto; eapply (kp_reg _ _ _ K); eauto]. rewrite tset_same. cbn.
        destruct v; auto. exfalso. specialize (O3 eq_refl). apply (at_ck _ _ A) in O3 as [O3 _]. cbn in Hb.
        pose proof (kp_live _ _ _ K t b i (or_introl Hn) Hh Hb) as Ow. unfold owned in Ow. destruct (m_cm (f t)) as [| |b0 i0 q] eqn:C; try congruence.
        apply (ow_fly _ _ _ W) in C as [C _]. congruence.
    - (* AHook *) discriminate E.
    - (* AFree *) destruct (at_end cap csz site_cat s t k R Ec) as [Ee Em]. cbn [exec] in E. injection E as <- <-.
      apply (KP_off s _ f); auto.
      + intros u Hu. assert (Hp : pinned f u) by (unfold pinned in *; byt u t; auto). destruct (at_att _ _ A u (or_introl Hp)) as [_ [X|(z & on' & ev & X & Y)]]; [congruence|].
        assert (mtx s = Some z) by (apply (lk_hold _ _ L); congruence). congruence.
      + cbn. destruct (bufp s); exact Ee.
      + intros b Hb. cbn. destruct (bufp s) as [c|]; cbn; [byt b c|]; split; auto; cbn; lia.
      + easy.
      + intros u Hu. destruct (kp_set _ _ _ K u) as [X _]; byt u t; auto.
    - (* ACrash *) easy.
  Qed.

  Lemma kept_inv sched : at_once cap KP (run pstep log_new sched) (ghost cap csz site_cat note_kept (fun _ => None) sched).
  Proof.
    apply (ghost_inv cap csz site_cat note_kept (fun _ => None) KP).
    - split; try easy. 
    - intros s f s' f' h K Ef E1 E2 E3 E4 E5 E6 E7 _. apply (KP_frame s s' f); auto; rewrite ?E4, ?E5, ?E7; auto.
      + intros u. unfold owned. now rewrite Ef, E7.
      + intros u. unfold pinned. rewrite Ef. auto.
      + intros u. rewrite Ef. auto.
      + congruence.
    - intros. eapply exec_KP; eauto.
  Qed.

  Theorem enough_chunks s t b k : reached s -> roomy s -> code s t = Act (ADeq b) k -> b_queue (heap s b) <> [].
  Proof.
    intros R Ro Ec Q. destruct (wait_inv cap csz site_cat s R) as [w [(_ & Bw & _) Vw]]. specialize (Vw t). rewrite Ec in Vw. destruct Vw as [Ow _].
    cbn in Ow. apply Bw in Ow as [_ (Lb & Hk & Hs)]. clear w Bw.
    destruct R as [sched Es]. assert (R : reached s) by now exists sched.
    destruct (kept_inv sched) as [f [G [V K]]]. rewrite <- Es in *. set (h := ghost _ _ _ _ _ _) in K. clearbody h.
    pose proof (V t) as Vt. rewrite Ec in Vt. destruct Vt as [[O1 [O2 [O3 [O4 O5]]]] _]. destruct G as [L A W I].
    apply (at_bp _ _ A) in O3 as [Eb _]. apply (at_ck _ _ A) in O5 as [Eck _]. specialize (Ro b Eb Hk).
    assert (Pt : pinned f t) by now split.
    assert (Ow : owned s f t = None) by (unfold owned; rewrite O4; exact Eck).
    assert (Ti : In t (regd s)).
    { assert (X : t_init (ten s t) = true) by (apply (at_att _ _ A); now left). rewrite (regd_init cap csz site_cat s t R) in X. unfold mem in X.
      apply existsb_exists in X as [x [X Y]]. apply Nat.eqb_eq in Y. now subst x. }
    assert (Nd : NoDup (regd s)) by (destruct (full_inv _ _ _ s R) as [_ [g [Ga _]]]; apply (g_nodup _ _ _ Ga)).
    set (n := N.to_nat (b_size (heap s b))). set (need := map (fun i => Some (b, N.of_nat i)) (seq 0 n)).
    assert (Inc : incl need (map h (del t (regd s)))).
    { intros x Hx. unfold need in Hx. apply in_map_iff in Hx as [i [<- Hi]]. apply in_seq in Hi.
      assert (Hi' : (N.of_nat i < b_size (heap s b))%N) by (unfold n in Hi; lia).
      destruct (kp_cover _ _ _ K b (N.of_nat i) Eb Hk Hi') as [X|[u X]]; [lia|rewrite Q in X; easy|].
      apply in_map_iff. exists u. split; auto. assert (u <> t).
      { intros ->. rewrite (kp_live _ _ _ K t b (N.of_nat i)) in Ow; auto. discriminate. }
      apply In_del; auto. assert (Y : t_init (ten s u) = true) by (eapply (kp_reg _ _ _ K); eauto). rewrite (regd_init cap csz site_cat s u R) in Y. unfold mem in Y.
      apply existsb_exists in Y as [x [Y Z]]. apply Nat.eqb_eq in Z. now subst x. }
    assert (Nn : NoDup need).
    { unfold need. apply FinFun.Injective_map_NoDup; [|apply seq_NoDup]. intros i j X. injection X as X. lia. }
    pose proof (NoDup_incl_length Nn Inc) as Le. unfold need in Le. rewrite !map_length, seq_length in Le. pose proof (length_del t (regd s) Nd Ti). lia.
  Qed.
End Enough.
