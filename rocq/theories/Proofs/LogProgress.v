(** Who waits for whom, and that calls end. *)
From Verif Require Import Base Model.StringUtils Model.Event Model.Queue Model.Buffer Model.Config Spec.Categories Model.Registry
  Model.Interleave Spec.LogHistory Spec.LogFacts Spec.LogRecords Model.TraceLog Spec.LogMemory Spec.LogProgress Proofs.Interleave Proofs.Registry Proofs.LogFrame Proofs.LogView Proofs.LogViewInv
  Proofs.LogContract Proofs.LogBuffers Proofs.LogSafe Proofs.LogSafeInv Proofs.LogSafeAT Proofs.LogSafeOW Proofs.LogSafeAll Proofs.LogRaces Proofs.LogHolders Proofs.LogGhost Proofs.LogDebts.

From Coq Require Import Relations Wellfounded.

Section Progress.
  Variables cap csz : N.
  Variable site_cat : nat -> bytes.
  Notation reached := (reached cap csz site_cat).
  Notation GB := (GB cap).
  Notation pstep := (pstep cap csz site_cat).
  Notation can_go := (can_go cap csz site_cat).
  Notation vB := (valid okB postB quietB).

  Lemma go_exec s t a k ch s' r : reached s -> code s t = Act a k -> exec cap s t ch a = Next s' r -> can_go s t.
  Proof.
    intros R Ec E. exists ch, (set_cmd s' t (k r)). unfold TraceLog.pstep, step. cbn [polite]. now rewrite (never_bad _ _ _ s R), Ec, E.
  Qed.

  Lemma picked (l : list tid) : l <> [] -> exists u, mem u l = true.
  Proof. destruct l as [|u l]; [easy|]. intros _. exists u. unfold mem. cbn. now rewrite Nat.eqb_refl. Qed.

  (** Why a thread may be unable to perform its next action. *)
  Lemma waits s f t a k : reached s -> GB s f -> (forall u, vB u (code s u) (f u)) -> code s t = Act a k ->
    can_go s t \/ (a = ALock /\ exists u, u <> t /\ mtx s = Some u) \/ (exists u, a = AMaster u /\ u <> t /\ t_lock (ten s u) = BySlave /\ mtx s = Some t) \/
    (exists h, a = AHook h) \/ (exists b, a = ADeq b /\ b_queue (heap s b) = []).
  Proof.
    intros R G V Ec. pose proof (V t) as Vt. rewrite Ec in Vt. destruct Vt as [O _].
    pose proof G as [L A W I].
    assert (Go : forall ch, exec cap s t ch a <> Blocked -> can_go s t).
    { intros ch N. pose proof (no_crash cap site_cat s f t ch a G O) as Nc. destruct (exec cap s t ch a) as [| |s' r] eqn:E; [easy|easy|]. eapply go_exec; eauto. }
    destruct a; cbn [okB] in O; try (left; apply (Go CNone); cbn; unfold with_buf; easy).
    all: try (left; apply (Go CNone); cbn; unfold with_buf; repeat match goal with |- context [match ?x with _ => _ end] => destruct x end; easy).
    - (* ALock *)
      destruct (mtx s) as [u|] eqn:M; [|left; apply (Go CNone); cbn; now rewrite M].
      destruct (Nat.eq_dec u t) as [->|N]; [|right; left; eauto]. exfalso. apply (lk_hold _ _ L) in M. tauto.
    - (* AFactory *) left. apply (Go (CThrow InvalidArgument)). now cbn.
    - (* ADeq *)
      destruct (b_queue (heap s b)) as [|i q] eqn:Q; [eauto 9|]. left. apply (Go CNone). cbn. unfold with_buf. rewrite Q. now destruct (b_owner (heap s b)).
    - (* ATryTenant *)
      left. apply (Go CNone). cbn. destruct (t_lock (ten s t)) eqn:Q; try easy. apply (lk_slave _ _ L) in Q. destruct O as [_ [O _]]. congruence.
    - (* AMaster *)
      destruct (t_lock (ten s u)) as [| |v] eqn:Q.
      + left. apply (Go CNone). cbn. now rewrite Q.
      + assert (M : mtx s = Some t) by (apply (lk_hold _ _ L); destruct O as [[on [ev O]] _]; congruence).
        right. right. left. exists u. repeat split; auto. intros ->. apply (lk_slave _ _ L) in Q. apply (lk_sh _ _ L) in Q. destruct O as [[on [ev O]] _]. congruence.
      + exfalso. apply (lk_mas _ _ L) in Q. assert (M : m_hold (f v) <> None) by (apply (lk_mash _ _ L); congruence).
        apply (lk_hold _ _ L) in M. assert (M' : mtx s = Some t) by (apply (lk_hold _ _ L); destruct O as [[on [ev O]] _]; congruence).
        assert (v = t) by congruence. subst v. destruct O. congruence.
    - (* APick *)
      left. destruct (picked l) as [u Hu]; [tauto|]. apply (Go (CPick u)). cbn. now rewrite Hu.
    - (* AHook *) eauto 9.
  Qed.

  (** A thread that has its tenant never waits, except for a chunk of a ring. *)
  Lemma slave_goes s f u : reached s -> GB s f -> (forall u, vB u (code s u) (f u)) -> t_lock (ten s u) = BySlave ->
    can_go s u \/ exists b k, code s u = Act (ADeq b) k /\ b_queue (heap s b) = [].
  Proof.
    intros R G V Q. pose proof G as [L A W I]. apply (lk_slave _ _ L) in Q. pose proof (V u) as Vu.
    destruct (code s u) as [|a k] eqn:Ec; [cbn in Vu; unfold quietB in Vu; rewrite Vu in Q; easy|].
    destruct Vu as [O _]. destruct (waits s f u a k R G V Ec) as [C|[[-> _]|[(v & -> & _ & _ & M)|[[h ->]|[b [-> Q']]]]]]; auto; [exfalso; cbn in O..|right; eauto].
    - destruct O as [_ [O _]]. congruence.
    - apply (lk_hold _ _ L) in M. apply (lk_sh _ _ L) in Q. congruence.
    - destruct O as [on [O _]]. unfold held in O. rewrite O in Q. discriminate Q.
  Qed.

  (** Somebody can always go on. *)
  Lemma someone_goes s t : reached s -> (forall u b k, code s u = Act (ADeq b) k -> b_queue (heap s b) <> []) -> code s t <> Ret ->
    exists u, can_go s u \/ in_callback s u.
  Proof.
    intros R Nq Nt. destruct (safe_inv cap csz site_cat s R) as [_ [f [G V]]]. pose proof G as [L A W I].
    assert (Sl : forall u, t_lock (ten s u) = BySlave -> can_go s u).
    { intros u Q. destruct (slave_goes s f u R G V Q) as [C|(b & k & Ec & Q')]; auto. now apply Nq in Ec. }
    assert (Hk : forall u h k, code s u = Act (AHook h) k -> in_callback s u).
    { intros u h k E. unfold in_callback. rewrite E. easy. }
    destruct (code s t) as [|a k] eqn:Ec; [easy|].
    destruct (waits s f t a k R G V Ec) as [C|[[-> [u [Nu M]]]|[(v & -> & _ & Q & M)|[[h ->]|[b [-> Q']]]]]]; eauto; [|now apply Nq in Ec].
    apply (lk_hold _ _ L) in M. pose proof (V u) as Vu. destruct (code s u) as [|a' k'] eqn:Ecu; [cbn in Vu; unfold quietB in Vu; now rewrite Vu in M|].
    destruct Vu as [O _].
    destruct (waits s f u a' k' R G V Ecu) as [C|[[-> _]|[(v & -> & _ & Q & _)|[[h ->]|[b [-> Q']]]]]]; eauto; [|now apply Nq in Ecu].
    cbn in O. tauto.
  Qed.

  (** ** Calls end *)

  Definition sub (c' c : cmd) : Prop := match c with Act a k => exists r, c' = k r | Ret => False end.

  Lemma sub_wf c : Acc sub c.
  Proof. induction c as [|a k IH]; constructor; intros d S; [easy|]. destruct S as [r ->]. apply IH. Qed.

  (** One of several threads advances. *)
  Inductive one : list cmd -> list cmd -> Prop :=
  | one_here c' c l : sub c' c -> one (c' :: l) (c :: l)
  | one_later c l' l : one l' l -> one (c :: l') (c :: l).

  Lemma one_wf l : Acc one l.
  Proof.
    induction l as [|c l IH]; [constructor; intros l' H; inversion H|].
    revert l IH. induction (sub_wf c) as [c _ IHc]. intros l Al. induction Al as [l Al IHl].
    constructor. intros l' H. inversion H; subst.
    - apply IHc; auto. now constructor.
    - now apply IHl.
  Qed.

  Definition forth (s' s : st) : Prop := exists a, continues a = true /\ pstep s a = Some s'.

  Lemma forth_one s s' L : reached s -> (forall u, code s u <> Ret -> In u L) -> NoDup L -> forth s' s ->
    one (map (code s') L) (map (code s) L) /\ forall u, code s' u <> Ret -> In u L.
  Proof.
    intros R B N [a [C E]].
    assert (X : exists t c, sub c (code s t) /\ code s' = tset (code s) t c).
    { unfold TraceLog.pstep, step in E. destruct (polite s a); [|easy]. rewrite (never_bad _ _ _ s R) in E. destruct a as [t o|t ch|t n|t r]; try easy.
      - destruct (code s t) as [|q k] eqn:Ec; [easy|]. exists t. destruct (exec cap s t ch q) as [| |s1 r] eqn:Ex; [easy| |].
        + exfalso. destruct (safe_at cap csz site_cat s R) as [f [G V]]. apply (no_crash cap site_cat s f t ch q G); auto. apply V. now exists k.
        + injection E as <-. exists (k r). rewrite Ec. split; [now exists r|]. cbn. destruct (exec_frame _ _ _ _ _ _ _ Ex) as [-> _]. reflexivity.
      - destruct (hook_of (code s t)) as [[h k]|] eqn:Eh; [|easy]. injection E as <-. apply hook_of_some in Eh. exists t, (k r). rewrite Eh. split; [now exists r|reflexivity]. }
    destruct X as [t [c [Sc Ec]]]. assert (Ht : In t L) by (apply B; destruct (code s t); easy).
    split.
    - rewrite Ec. clear B. induction L as [|u L IH]; [easy|]. cbn. inversion N as [|? ? Nu N']; subst. destruct (Nat.eq_dec u t) as [->|Nt].
      + rewrite tset_same. assert (Em : map (tset (code s) t c) L = map (code s) L).
        { apply map_ext_in. intros v Hv. apply tset_other. intros ->. easy. }
        rewrite Em. now constructor.
      + rewrite tset_other by auto. constructor. apply IH; auto. destruct Ht; [congruence|auto].
    - intros u. rewrite Ec. byt u t; auto.
  Qed.

  Theorem calls_end s : reached s -> Acc forth s.
  Proof.
    intros R. destruct (full_inv cap csz site_cat s R) as [Al _].
    assert (X : exists L, NoDup L /\ forall u, code s u <> Ret -> In u L).
    { exists (nodup Nat.eq_dec (busy s)). split; [apply NoDup_nodup|]. intros u Hu. apply nodup_In. now apply (al_busy s Al). }
    destruct X as [L [N B]]. remember (map (code s) L) as m eqn:Em. revert s R Al B Em. induction (one_wf m) as [m _ IH]. intros s R _ B Em. subst m.
    constructor. intros s' F. destruct (forth_one s s' L R B N F) as [O B'].
    assert (R' : reached s') by (destruct F as [a [_ E]]; now apply (pstep_reached cap csz site_cat s a)).
    destruct (full_inv cap csz site_cat s' R') as [Al' _]. eapply IH; eauto.
  Qed.

  Lemma state_reached s sigma n : reached s -> reached (state_at cap csz site_cat s sigma n).
  Proof.
    intros R. induction n; auto. cbn. unfold move. destruct (pstep (state_at cap csz site_cat s sigma n) (sigma n)) eqn:E; auto. eapply pstep_reached; eauto.
  Qed.

  Notation at_ := (state_at cap csz site_cat).

  Lemma idle_dec s : reached s -> all_idle s \/ ~ all_idle s.
  Proof.
    intros R. destruct (full_inv cap csz site_cat s R) as [Al _].
    destruct (forallb (fun t => match code s t with Ret => true | _ => false end) (busy s)) eqn:E.
    - left. intros t. destruct (code s t) as [|a k] eqn:Ec; auto. assert (Hb : In t (busy s)) by (apply (al_busy s Al); congruence).
      rewrite forallb_forall in E. apply E in Hb. now rewrite Ec in Hb.
    - right. intros N. apply Bool.not_true_iff_false in E. apply E. apply forallb_forall. intros t _. now rewrite N.
  Qed.

  Lemma later_state s sigma n m : (forall i, continues (sigma i) = true) -> n <= m ->
    at_ s sigma m = at_ s sigma n \/ clos_trans _ forth (at_ s sigma m) (at_ s sigma n).
  Proof.
    intros C L. induction L as [|m L IH]; auto. cbn [state_at]. unfold move. destruct (pstep (at_ s sigma m) (sigma m)) as [s'|] eqn:E; auto.
    assert (F : forth s' (at_ s sigma m)) by (exists (sigma m); auto).
    right. destruct IH as [Q|Q]; [rewrite <- Q; now apply t_step|]. eapply t_trans; [apply t_step, F|exact Q].
  Qed.

  (** Along every schedule that does not starve, all calls return, if somebody
      can always go on. *)
  Lemma comes_to_rest s sigma : reached s -> drains cap csz site_cat s sigma ->
    (forall n, ~ all_idle (at_ s sigma n) -> exists a s', continues a = true /\ pstep (at_ s sigma n) a = Some s') ->
    exists n, all_idle (at_ s sigma n).
  Proof.
    intros R [C D] Hp.
    assert (G : forall s0, Acc (clos_trans _ forth) s0 -> forall n, s0 = at_ s sigma n -> exists m, all_idle (at_ s sigma m)).
    { intros s0 A. induction A as [s0 _ IH]. intros n ->.
      destruct (idle_dec (at_ s sigma n)) as [Y|N]; [now apply state_reached|eauto|].
      destruct (D n (Hp n N)) as (m & s' & L & E).
      assert (F : forth s' (at_ s sigma m)) by (exists (sigma m); auto).
      assert (Es : s' = at_ s sigma (S m)) by (cbn; unfold move; now rewrite E).
      apply (IH s') with (n := S m); auto.
      destruct (later_state s sigma n m C L) as [Q|Q]; [rewrite <- Q; now apply t_step|]. eapply t_trans; [apply t_step, F|exact Q]. }
    apply (G s) with (n := O); auto. apply Acc_clos_trans. now apply calls_end.
  Qed.

  (** ** Logging calls never wait for the lock, and only rings make them wait *)

  (** In a logging call; told to wait for a chunk of this buffer. *)
  Record wph := { w_log : bool; w_ring : option bid }.
  Definition okW (t : tid) (p : wph) (a : act) : Prop :=
    match a with ALock => w_log p = false | ADeq b => w_ring p = Some b | _ => True end.
  Definition nextW (p : wph) (a : act) : ans a -> wph :=
    match a return ans a -> wph with
    | AIssue b => fun r => {| w_log := w_log p; w_ring := match r with IWait => Some b | _ => None end |}
    | _ => fun _ => {| w_log := w_log p; w_ring := None |}
    end.
  Definition postW (t : tid) (p : wph) (a : act) (r : ans a) (p' : wph) : Prop := p' = nextW p a r.
  Definition quietW (p : wph) : Prop := True.
  Notation vW := (valid okW postW quietW).

  (** A command is fine for threads in a call of this kind. *)
  Definition fine (l : bool) t (c : cmd) : Prop := forall p, w_log p = l -> vW t c p.

  Lemma fine_ret l t : fine l t Ret.
  Proof. intros p _. exact I. Qed.

  Lemma fine_act l t a k : match a with ALock => l = false | ADeq _ => False | _ => True end -> (forall r, fine l t (k r)) -> fine l t (Act a k).
  Proof.
    intros O K p E. split; [destruct a; cbn in *; easy || congruence|]. intros r p' ->. apply K. now destruct a.
  Qed.

  Ltac act r := apply fine_act; [try exact I; auto|intros r].

  Ltac act1 := let r := fresh "r" in act r.

  Lemma evict_W l t k : fine l t k -> forall n u, fine l t (evict n u k).
  Proof. intros K. induction n as [|n IH]; intros u; cbn [evict]; auto. act v. act r2. act r3. act r4. apply IH. Qed.

  Lemma stop_W l t nr w k : (forall r, fine l t (k r)) -> fine l t (stop_lh t nr w k).
  Proof.
    intros K. unfold stop_lh. act was. destruct was; auto. act r2. act u. apply evict_W. act c.
    set (cb := if negb (is_shutdown w) || cf_stop c then cf_callback c else None). act r5. destruct cb; auto. act r6. auto.
  Qed.

  Lemma start_W l t c k : (forall r, fine l t (k r)) -> fine l t (start_lh csz t c k).
  Proof.
    intros K. unfold start_lh. act r1. destruct (cf_size c / csz =? 0)%N; auto.
    assert (Go : fine l t (g <- AIncGen;; m <- AFactory c g (cf_size c / csz)%N;;
         match m with
         | MadeThrow x => k (Some x)
         | _ => ABufSet (made_buffer m);;; AUpdate (cf_enabled c) (cf_disabled c);;; AClear;;; AStEnabled g m;;; k None
         end)).
    { act g. act m. assert (Q : fine l t (ABufSet (made_buffer m);;; AUpdate (cf_enabled c) (cf_disabled c);;; AClear;;; AStEnabled g m;;; k None)) by (do 4 (act1); auto).
      destruct m; auto. }
    act on. destruct on; auto. apply stop_W. intros [x|]; auto.
  Qed.

  Lemma maybe_stop_W l t g k : (forall r, fine l t (k r)) -> fine l t (maybe_stop t g k).
  Proof. intros K. unfold maybe_stop. act got. destruct got; auto. act g'. destruct (g' =? g)%N; [apply stop_W; intros r|]; act r3; auto. Qed.

  Lemma getChunk_W l t b k : (forall r, fine l t (k r)) -> fine l t (getChunk b k).
  Proof.
    intros K. unfold getChunk. intros p E. split; [exact I|]. intros r p' ->. destruct r as [i| |].
    - assert (F : fine l t (AReset b i;;; ALoan b true;;; k (Some (b, i)))) by (do 2 (act1); auto). apply F. exact E.
    - apply K. exact E.
    - split; [reflexivity|]. intros i p' ->.
      assert (F : fine l t (AReset b i;;; ALoan b true;;; k (Some (b, i)))) by (do 2 (act1); auto). apply F. exact E.
  Qed.

  Lemma replace_W l t k : (forall r, fine l t (k r)) -> fine l t (replaceChunk k).
  Proof.
    intros K. assert (Cr : fine l t (ACrash;;; Ret)) by (act r; apply fine_ret).
    unfold replaceChunk.
    match goal with |- fine l t (x <- AChunkGet;; match x with Some _ => _ | None => ?rest end) => assert (Rest : fine l t rest) end.
    { act on. destruct on; cbn [negb]; auto. act b. destruct b; auto. act b'. destruct b' as [b'|]; auto. apply getChunk_W. intros c. act r. apply K. }
    act c. destruct c as [[b0 i]|]; auto. act b. destruct b as [b|]; auto. unfold returnChunk. act r3. act r4. act r5. auto.
  Qed.

  Lemma log_W l t e k : (forall r, fine l t (k r)) -> fine l t (logEvent t e k).
  Proof.
    intros K. assert (Cr : fine l t (ACrash;;; Ret)) by (act r; apply fine_ret). assert (Un : fine l t (AUnTenant;;; k None)) by (act r; auto).
    assert (St : fine l t (c <- AChunkGet;; match c with None => ACrash;;; Ret | Some (b, i) => x <- AStore b i e;; AUnTenant;;; k x end)).
    { act c. destruct c as [[b i]|]; auto. act x. act r. auto. }
    unfold logEvent. act on. destruct on; cbn [negb]; auto. act got. destruct got; cbn [negb]; auto. act ini. destruct ini; cbn [negb]; auto.
    match goal with |- fine l t (c <- AChunkGet;; match c with Some _ => _ | None => ?rest end) => assert (Rf : fine l t rest) end.
    { act on. destruct on; cbn [negb]; auto. apply replace_W. intros [|]; auto. act g. act r. apply maybe_stop_W; auto. }
    act c. destruct c as [[b i]|]; auto. act full. destruct full; auto.
  Qed.

  Lemma code_W t o : fine (is_logging o) t (code_of csz site_cat t o).
  Proof.
    assert (Un : forall l x, fine l t (AUnlock x;;; Ret)) by (intros l x; act r; apply fine_ret).
    assert (Nt : forall l x, fine l t (ANote x;;; Ret)) by (intros l x; act r; apply fine_ret).
    destruct o; cbn [code_of is_logging]; unfold locked, getBuffer_lh, getTraceContext_lh.
    - act r1. apply start_W; auto.
    - destruct startup as [c|]; act r1; auto. apply start_W; auto.
    - act r1. apply stop_W; auto.
    - act r1. act on. destruct on; auto. act b. auto.
    - act r1. act on. destruct on; auto. act b. act ns. auto.
    - act on. auto.
    - act r1. act ini. destruct ini; auto. act r3. destruct (is_nil name); auto. act r4. act r5. auto.
    - act r1. act ini. destruct ini; cbn [negb]; auto.
      match goal with |- fine _ t (c <- AChunkGet;; match c with Some _ => _ | None => ?rest end) => assert (Rest : fine false t rest) end.
      { act r3. act on. destruct on; act r5; auto. }
      act c. destruct c as [[b i]|]; auto. act b'. unfold returnChunk. destruct b' as [b'|]; [do 3 act1|act1]; auto.
    - act r1. act c. auto.
    - act r1. act c. auto.
    - act i. auto.
    - apply log_W. auto.
    - unfold macro. assert (Gt : forall i, fine true t (on <- AStatus i;; if on then logEvent t e (fun r => ANote (Done t (OMacro site e) (out_of r));;; Ret) else ANote (Done t (OMacro site e) (out_of None));;; Ret)).
      { intros i. act on. destruct on; auto. apply log_W. auto. }
      act x. destruct x; auto. act i. act r3. apply Gt.
    - act r1. act r2. auto.
    - act r1. apply stop_W. intros r. act r2. destruct r; act r3; [apply fine_ret|]. auto.
  Qed.

  Lemma hcode_W t h hk k p : vW t (Act (AHook hk) k) p -> vW t (hcode csz t h (Act (AHook hk) k)) p.
  Proof.
    intros V. assert (F : fine (w_log p) t (Act (AHook hk) k)).
    { intros q E. split; [exact I|]. destruct V as [_ V]. intros r p' ->. apply V. unfold postW. cbn. now rewrite E. }
    assert (Fin : forall r, fine (w_log p) t (AEmit (Nested t h r);;; Act (AHook hk) k)) by (intros r; act r1; auto).
    revert p V F Fin. intros p _ F Fin. enough (X : fine (w_log p) t (hcode csz t h (Act (AHook hk) k))) by (now apply X).
    destruct h; cbn [hcode]; unfold getBuffer_lh, getTraceContext_lh.
    - apply start_W; auto.
    - apply stop_W; auto.
    - act on. destruct on; auto. act b. auto.
    - act on. destruct on; auto. act b. act ns. auto.
    - act on. auto.
    - apply log_W. auto.
  Qed.

  Definition logging (h : list hev) (t : tid) : bool := match last_call h t with Some o => is_logging o | None => false end.
  Definition made_ring (h : list hev) (b : bid) : Prop := exists t g n n', In (Made t g n (MadeRing b n')) h.

  (** All chunks of the ring have been handed out. *)
  Definition spent (s : st) (b : bid) : Prop := b < nbuf s /\ b_kind (heap s b) = Ring /\ (b_size (heap s b) <= b_issued (heap s b))%N.

  Definition waitG (s : st) (f : tid -> wph) (_ : unit) : Prop :=
    (forall t, w_log (f t) = logging (hist s) t) /\ (forall t b, w_ring (f t) = Some b -> made_ring (hist s) b /\ spent s b) /\
    forall b, b_kind (heap s b) = Ring -> made_ring (hist s) b.

  Lemma last_snoc h x t : last_call (h ++ [x]) t = match x with Invoked u o => if Nat.eqb u t then Some o else last_call h t | _ => last_call h t end.
  Proof. unfold last_call. rewrite fold_left_app. now destruct x. Qed.

  Lemma made_ring_app h x b : made_ring h b -> made_ring (h ++ x) b.
  Proof. intros (t & g & n & n' & H). exists t, g, n, n'. apply in_or_app. auto. Qed.

  (** What an action adds to the history, and does to the kinds of buffers. *)
  Lemma exec_wait s t ch a k s' r : reached s -> code s t = Act a k -> exec cap s t ch a = Next s' r ->
    (exists x, hist s' = hist s ++ x) /\ (forall u, last_call (hist s') u = last_call (hist s) u) /\
    forall b, b_kind (heap s' b) = Ring -> b_kind (heap s b) = Ring \/ made_ring (hist s') b.
  Proof.
    intros R Ec E. assert (X : hist s' = hist s \/ exists x, hist s' = hist s ++ [x] /\ match x with Invoked _ _ => False | _ => True end).
    { pose proof (exec_adds _ _ _ _ _ _ _ _ _ _ R Ec E) as X. destruct a; try (destruct X as [->|[x [Mx ->]]]; auto; right; exists x; split; auto; now destruct x).
      - destruct r; [rewrite app_nil_r in X|]; rewrite X; [auto|]. right. eexists. split; [reflexivity|exact I].
      - rewrite X. right. eexists. split; [reflexivity|exact I]. }
    split; [|split].
    - destruct X as [->|[x [-> _]]]; [exists []; now rewrite app_nil_r|eauto].
    - intros u. destruct X as [->|[x [-> Hx]]]; auto. rewrite last_snoc. now destruct x.
    - intros b K. destruct (allowed _ _ _ s t a k R Ec) as [g [Ga Oa]].
      destruct (exec_bufs cap csz s g t ch a s' r Ga Oa E) as [(c & gn & n & m & Eh & -> & Hm & Hn & Hh)|(l & Eh & Hl & Hn & Hh)].
      + destruct (Nat.eq_dec b (nbuf s)) as [->|Nb]; [|rewrite Hh in K by auto; auto].
        destruct m as [b0 n0|b0 n0| |x].
        * destruct (Hm b0 eq_refl) as [-> [K' _]]. congruence.
        * destruct (Hm b0 eq_refl) as [-> [K' _]]. right. rewrite Eh. exists t, gn, n, n0. apply in_or_app. right. now left.
        * left. cbn [exec] in E. unfold exec_factory in E. revert K. destruct ch, (cf_factory c); cbn in E; try discriminate E;
            repeat match type of E with context [if ?b then _ else _] => destruct b; try discriminate E end; injection E as <- <-; cbn in Eh; apply app_inv_head in Eh; try discriminate Eh; auto.
        * left. cbn [exec] in E. unfold exec_factory in E. revert K. destruct ch, (cf_factory c); cbn in E; try discriminate E;
            repeat match type of E with context [if ?b then _ else _] => destruct b; try discriminate E end; injection E as <- <-; cbn in Eh; apply app_inv_head in Eh; try discriminate Eh; auto.
      + left. destruct (Hh b) as [Hk _]. congruence.
  Qed.

  Lemma wait_same s f s' : waitG s f tt -> hist s' = hist s -> heap s' = heap s -> nbuf s' = nbuf s -> waitG s' f tt.
  Proof. intros (A & B & C) E1 E2 E3. unfold waitG, spent. rewrite E1, E2, E3. auto. Qed.

  Lemma spent_kept s t ch a s' r b : exec cap s t ch a = Next s' r -> spent s b -> spent s' b.
  Proof.
    intros E (S1 & S2 & S3). unfold spent.
    assert (Fr : forall o, b < nbuf (free_buf s o) /\ b_kind (heap (free_buf s o) b) = Ring /\ (b_size (heap (free_buf s o) b) <= b_issued (heap (free_buf s o) b))%N).
    { intros [c|]; cbn; auto. byt b c; auto. }
    destruct a; ex E; auto; try (cbn; match goal with |- context [tset (heap s) ?c _ b] => byt b c; cbn; repeat split; auto; lia end);
      try (apply (Fr (bufp s))); try (match goal with |- context [give_buf s ?o] => destruct o as [c|]; cbn; auto; byt b c; auto end).
  Qed.

  Lemma wait_inv s : reached s -> exists f, waitG s f tt /\ forall t, vW t (code s t) (f t).
  Proof.
    intros [sched ->].
    change (ginv okW postW quietW waitG (run pstep log_new sched) tt).
    replace tt with (ghost cap csz site_cat (fun _ _ _ _ (h : unit) => h) tt sched) by (now destruct (ghost cap csz site_cat (fun _ _ _ _ (h : unit) => h) tt sched)).
    apply (ginv_all cap csz site_cat okW postW quietW (fun _ _ _ _ h => h) tt (fun _ => {| w_log := false; w_ring := None |}) waitG).
    - intros s f [] t c G. now apply (wait_same s).
    - intros s f [] t ch a k s' r R (A & B & C) _ Ec O E. exists (nextW (f t) a r). split; [reflexivity|].
      destruct (exec_wait s t ch a k s' r R Ec E) as [[x Eh] [El Ek]]. split; [|split].
      + intros u. unfold logging. rewrite El. fold (logging (hist s) u). rewrite <- A. byt u t; auto. now destruct a.
      + intros u b. byt u t.
        * destruct a; try discriminate. cbn [nextW w_ring]. destruct r; try discriminate. intros H. injection H as <-. split.
          2:{ destruct (safe_at cap csz site_cat s R) as [fb [Gb Vb]]. assert (Ob : okB t (fb t) (AIssue b0)) by (apply Vb; now exists k).
              destruct Ob as [_ [_ [Ob _]]]. apply (at_bp _ _ (gb_at _ _ _ Gb)) in Ob as [Ob _]. apply (at_buf _ _ (gb_at _ _ _ Gb)) in Ob as [Ob _].
              cbn in E. unfold with_buf in E. destruct (b_owner (heap s b0)); try discriminate E. destruct (b_issued (heap s b0) <? b_size (heap s b0))%N eqn:Lt; [discriminate E|].
              apply N.ltb_ge in Lt. destruct (b_kind (heap s b0)) eqn:K; [discriminate E|]. injection E as <-. unfold spent. cbn. rewrite tset_same. cbn. repeat split; auto; lia. }
          rewrite Eh. apply made_ring_app, C.
          cbn in E. unfold with_buf in E. destruct (b_owner (heap s b0)); try discriminate E. destruct (b_issued (heap s b0) <? b_size (heap s b0))%N; [discriminate E|]. destruct (b_kind (heap s b0)) eqn:K; [discriminate E|auto].
        * intros H. apply B in H as [H Hs]. split; [rewrite Eh; now apply made_ring_app|eapply spent_kept; eauto].
      + intros b K. apply Ek in K as [K|K]; auto. rewrite Eh. now apply made_ring_app, C.
    - intros s f [] t o R (A & B & C) Ec Q Cl. exists {| w_log := is_logging o; w_ring := None |}. split; [now apply code_W|].
      assert (X : waitG (emit s (Invoked t o)) (tset f t {| w_log := is_logging o; w_ring := None |}) tt).
      { assert (Eh : hist (emit s (Invoked t o)) = hist s ++ [Invoked t o]) by reflexivity. split; [|split].
        - intros u. unfold logging. rewrite Eh, last_snoc. byt u t; [now rewrite Nat.eqb_refl|]. destruct (Nat.eqb t u) eqn:W; [apply Nat.eqb_eq in W; congruence|apply A].
        - intros u b. rewrite Eh. byt u t; [discriminate|]. intros H. apply (B u) in H as [H Hs]. split; [now apply made_ring_app|exact Hs].
        - intros b K. rewrite Eh. now apply made_ring_app, C. }
      destruct (is_destroy o); auto.
    - intros s f [] t n hk k R G Po Ec V. exists (f t). split; [now apply hcode_W|]. destruct G as (A & B & C). (split; [|split]); auto; intros u; byt u t; auto; apply B.
    - intros s f [] t hk k r R (A & B & C) Ec O. exists {| w_log := w_log (f t); w_ring := None |}. split; [reflexivity|]. (split; [|split]); auto; intros u; byt u t; auto; try apply A; try discriminate; apply B.
    - split; [|split]; try easy. 
    - intros t. exact I.
  Qed.
End Progress.
