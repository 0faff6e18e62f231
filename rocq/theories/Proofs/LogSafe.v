(** Memory safety of the log: who may touch which buffer and which chunk. *)
From Verif Require Import Base Model.StringUtils Model.Event Model.Queue Model.Buffer Model.Config Spec.Categories Model.Registry
  Model.Interleave Spec.LogHistory Spec.LogFacts Model.TraceLog Proofs.Interleave Proofs.Registry Proofs.LogFrame Proofs.LogView Proofs.LogViewInv
  Proofs.LogContract Proofs.LogBuffers.

(** Between two chunks: the old one is returned but still pointed to; a new one
    is taken but not pointed to yet ([ready]: it has been reset). *)
Inductive cmode := Plain | Returned | Flight (b : bid) (i : N) (ready : bool).

Record mph := {
  m_hold : option (bool * list tid);   (* inside the lock: tracing is on, and the threads still to be evicted *)
  m_mas : option tid;   (* the tenant it holds as master *)
  m_bump : bool;   (* the generation was advanced for a start *)
  m_new : option bid;   (* a buffer made but not installed yet *)
  m_set : bool;   (* a buffer, or none, was installed for that start *)
  m_gnow : option N;   (* the generation, read inside the lock *)
  m_slave : bool;   (* holds its own tenant *)
  m_ini : bool;   (* known to be registered *)
  m_pin : bool;   (* has seen tracing on since it got its tenant *)
  m_bp : option (option bid);   (* what the buffer pointer is known to be *)
  m_ck : option (option (bid * N));   (* what its chunk pointer is known to be *)
  m_cm : cmode;   (* state of the chunk exchange *)
  m_exh : bool;   (* failed to get a chunk *)
  m_ran : option N;   (* generation read after it failed to get a chunk *)
}.

Definition idle : mph := {| m_hold := None; m_mas := None; m_bump := false; m_new := None; m_set := false; m_gnow := None; m_slave := false; m_ini := false;
  m_pin := false; m_bp := None; m_ck := None; m_cm := Plain; m_exh := false; m_ran := None |}.

Definition p_hold (v : option (bool * list tid)) (p : mph) : mph := {| m_hold := v; m_mas := m_mas p; m_bump := m_bump p; m_new := m_new p; m_set := m_set p; m_gnow := m_gnow p; m_slave := m_slave p; m_ini := m_ini p; m_pin := m_pin p; m_bp := m_bp p; m_ck := m_ck p; m_cm := m_cm p; m_exh := m_exh p; m_ran := m_ran p |}.
Definition p_mas (v : option tid) (p : mph) : mph := {| m_hold := m_hold p; m_mas := v; m_bump := m_bump p; m_new := m_new p; m_set := m_set p; m_gnow := m_gnow p; m_slave := m_slave p; m_ini := m_ini p; m_pin := m_pin p; m_bp := m_bp p; m_ck := m_ck p; m_cm := m_cm p; m_exh := m_exh p; m_ran := m_ran p |}.
Definition p_bump (v : bool) (p : mph) : mph := {| m_hold := m_hold p; m_mas := m_mas p; m_bump := v; m_new := m_new p; m_set := m_set p; m_gnow := m_gnow p; m_slave := m_slave p; m_ini := m_ini p; m_pin := m_pin p; m_bp := m_bp p; m_ck := m_ck p; m_cm := m_cm p; m_exh := m_exh p; m_ran := m_ran p |}.
Definition p_new (v : option bid) (p : mph) : mph := {| m_hold := m_hold p; m_mas := m_mas p; m_bump := m_bump p; m_new := v; m_set := m_set p; m_gnow := m_gnow p; m_slave := m_slave p; m_ini := m_ini p; m_pin := m_pin p; m_bp := m_bp p; m_ck := m_ck p; m_cm := m_cm p; m_exh := m_exh p; m_ran := m_ran p |}.
Definition p_set (v : bool) (p : mph) : mph := {| m_hold := m_hold p; m_mas := m_mas p; m_bump := m_bump p; m_new := m_new p; m_set := v; m_gnow := m_gnow p; m_slave := m_slave p; m_ini := m_ini p; m_pin := m_pin p; m_bp := m_bp p; m_ck := m_ck p; m_cm := m_cm p; m_exh := m_exh p; m_ran := m_ran p |}.
Definition p_gnow (v : option N) (p : mph) : mph := {| m_hold := m_hold p; m_mas := m_mas p; m_bump := m_bump p; m_new := m_new p; m_set := m_set p; m_gnow := v; m_slave := m_slave p; m_ini := m_ini p; m_pin := m_pin p; m_bp := m_bp p; m_ck := m_ck p; m_cm := m_cm p; m_exh := m_exh p; m_ran := m_ran p |}.
Definition p_slave (v : bool) (p : mph) : mph := {| m_hold := m_hold p; m_mas := m_mas p; m_bump := m_bump p; m_new := m_new p; m_set := m_set p; m_gnow := m_gnow p; m_slave := v; m_ini := m_ini p; m_pin := m_pin p; m_bp := m_bp p; m_ck := m_ck p; m_cm := m_cm p; m_exh := m_exh p; m_ran := m_ran p |}.
Definition p_ini (v : bool) (p : mph) : mph := {| m_hold := m_hold p; m_mas := m_mas p; m_bump := m_bump p; m_new := m_new p; m_set := m_set p; m_gnow := m_gnow p; m_slave := m_slave p; m_ini := v; m_pin := m_pin p; m_bp := m_bp p; m_ck := m_ck p; m_cm := m_cm p; m_exh := m_exh p; m_ran := m_ran p |}.
Definition p_pin (v : bool) (p : mph) : mph := {| m_hold := m_hold p; m_mas := m_mas p; m_bump := m_bump p; m_new := m_new p; m_set := m_set p; m_gnow := m_gnow p; m_slave := m_slave p; m_ini := m_ini p; m_pin := v; m_bp := m_bp p; m_ck := m_ck p; m_cm := m_cm p; m_exh := m_exh p; m_ran := m_ran p |}.
Definition p_bp (v : option (option bid)) (p : mph) : mph := {| m_hold := m_hold p; m_mas := m_mas p; m_bump := m_bump p; m_new := m_new p; m_set := m_set p; m_gnow := m_gnow p; m_slave := m_slave p; m_ini := m_ini p; m_pin := m_pin p; m_bp := v; m_ck := m_ck p; m_cm := m_cm p; m_exh := m_exh p; m_ran := m_ran p |}.
Definition p_ck (v : option (option (bid * N))) (p : mph) : mph := {| m_hold := m_hold p; m_mas := m_mas p; m_bump := m_bump p; m_new := m_new p; m_set := m_set p; m_gnow := m_gnow p; m_slave := m_slave p; m_ini := m_ini p; m_pin := m_pin p; m_bp := m_bp p; m_ck := v; m_cm := m_cm p; m_exh := m_exh p; m_ran := m_ran p |}.
Definition p_cm (v : cmode) (p : mph) : mph := {| m_hold := m_hold p; m_mas := m_mas p; m_bump := m_bump p; m_new := m_new p; m_set := m_set p; m_gnow := m_gnow p; m_slave := m_slave p; m_ini := m_ini p; m_pin := m_pin p; m_bp := m_bp p; m_ck := m_ck p; m_cm := v; m_exh := m_exh p; m_ran := m_ran p |}.
Definition p_exh (v : bool) (p : mph) : mph := {| m_hold := m_hold p; m_mas := m_mas p; m_bump := m_bump p; m_new := m_new p; m_set := m_set p; m_gnow := m_gnow p; m_slave := m_slave p; m_ini := m_ini p; m_pin := m_pin p; m_bp := m_bp p; m_ck := m_ck p; m_cm := m_cm p; m_exh := v; m_ran := m_ran p |}.
Definition p_ran (v : option N) (p : mph) : mph := {| m_hold := m_hold p; m_mas := m_mas p; m_bump := m_bump p; m_new := m_new p; m_set := m_set p; m_gnow := m_gnow p; m_slave := m_slave p; m_ini := m_ini p; m_pin := m_pin p; m_bp := m_bp p; m_ck := m_ck p; m_cm := m_cm p; m_exh := m_exh p; m_ran := v |}.


(** Inside the lock and nothing else. *)
Definition held (on : bool) (ev : list tid) (p : mph) : Prop := p = p_hold (Some (on, ev)) idle.

(** The buffer and the chunk pointer can be relied on. *)
Definition steady (p : mph) : Prop := (m_slave p = true /\ m_pin p = true) \/ m_hold p <> None.
Definition guarded (p : mph) : Prop := m_slave p = true \/ m_hold p <> None.

(** Inside the lock, with nothing to undo. *)
Definition calm (p : mph) : Prop :=
  (exists on, m_hold p = Some (on, [])) /\ m_mas p = None /\ m_new p = None /\ m_slave p = false /\ m_cm p = Plain.

Definition okB (t : tid) (p : mph) (a : act) : Prop :=
  match a with
  | AXchg w => (exists on, m_hold p = Some (on, [])) /\ m_mas p = None /\ m_bump p = false /\ m_new p = None /\ m_slave p = false /\ m_cm p = Plain /\
               (w = Exhausted -> exists g, m_ran p = Some g /\ m_gnow p = Some g)
  | AStEnabled g m => m_hold p = Some (false, []) /\ m_bump p = true /\ m_new p = None /\ m_mas p = None /\ m_set p = true
  | ALock | ATryLock => m_hold p = None /\ m_slave p = false /\ m_mas p = None /\ m_new p = None /\ m_cm p = Plain /\ m_ck p = None /\ m_bp p = None
  | AUnlock e => (exists on, m_hold p = Some (on, [])) /\ m_mas p = None /\ m_new p = None /\ m_slave p = false /\ m_cm p = Plain
  | AIncGen => m_hold p = Some (false, []) /\ m_new p = None
  | ABufGet => steady p
  | ABufTake => m_hold p = Some (false, []) /\ m_new p = None /\ calm p
  | ABufSet o => m_hold p = Some (false, []) /\ o = m_new p /\ m_bump p = true
  | AFactory c g n => m_hold p = Some (false, []) /\ m_new p = None
  | AIssue b | ADeq b => m_slave p = true /\ m_pin p = true /\ m_bp p = Some (Some b) /\ m_cm p = Plain /\ m_ck p = Some None
  | AReset b i => m_cm p = Flight b i false
  | ALoan b _ => m_bp p = Some (Some b)
  | AReturn b i => m_bp p = Some (Some b) /\ m_ck p = Some (Some (b, i)) /\ m_cm p = Plain
  | ATryTenant => m_hold p = None /\ m_slave p = false /\ m_ck p = None /\ m_bp p = None /\ m_cm p = Plain
  | AUnTenant => m_slave p = true /\ m_hold p = None /\ m_cm p = Plain
  | AMaster u => (exists on ev, m_hold p = Some (on, ev)) /\ m_mas p = None
  | AEvict u => (exists on ev, m_hold p = Some (on, ev)) /\ m_mas p = Some u /\ m_ck p = None /\ m_cm p = Plain /\ forall on ev, m_hold p = Some (on, ev) -> on = false
  | AUnMaster u => m_mas p = Some u
  | AChunkGet => guarded p
  | AChunkSet o => guarded p /\ match o with None => m_cm p = Returned \/ (m_cm p = Plain /\ m_ck p = Some None) | Some (b, i) => m_cm p = Flight b i true end
  | AReg v => (exists on, m_hold p = Some (on, [])) /\ m_slave p = false /\ (v = false -> m_ck p = Some None) /\ calm p
  | ACfgSet _ | ACfgGet | ANameSet _ | ADeregAdd => calm p
  | AUpdate _ _ => calm p /\ m_hold p = Some (false, [])
  | AGetStatus _ => p = idle
  | AFull b i | AStore b i _ => m_ck p = Some (Some (b, i)) /\ m_cm p = Plain
  | ASnap => (exists on ev, m_hold p = Some (on, ev)) /\ m_bump p = false
  | APick l => m_hold p <> None /\ l <> []
  | AHook h => exists on, held on [] p /\ (h_norestart h = true -> on = false)
  | AEmit _ => (exists on, m_hold p = Some (on, [])) /\ m_mas p = None /\ m_new p = None /\ m_slave p = false /\ m_cm p = Plain
  | ANote _ => exists r, p = p_ran r idle
  | AFree => p = idle
  | ACrash => False
  | _ => True
  end.

(** The phase after an action; [on] and [l] are what the state says. *)
Definition nextB (on : bool) (l : list tid) (p : mph) (a : act) : ans a -> mph :=
  match a return ans a -> mph with
  | ALdEnabled => fun r => if r then (if m_slave p && m_ini p then p_pin true p else p) else (if m_pin p then p_exh true p else p)
  | AXchg w => fun r => if r then p_hold (Some (false, l)) idle else p
  | AStEnabled g m => fun _ => p_hold (Some (true, [])) idle
  | ALock => fun _ => p_hold (Some (on, [])) idle
  | ATryLock => fun r => if r then p_hold (Some (on, [])) (p_ran (m_ran p) idle) else p
  | AUnlock e => fun _ => idle
  | ALdGen => fun r => if m_exh p then p_ran (Some r) p else match m_hold p with Some _ => p_gnow (Some r) p | None => p end
  | AIncGen => fun _ => p_gnow None (p_bump true p)
  | ABufGet => fun r => p_bp (Some r) (match r with None => if m_pin p then p_exh true p else p | Some _ => p end)
  | ABufTake => fun _ => p_bp None p
  | ABufSet o => fun _ => p_set true (p_new None (p_bp None p))
  | AFactory c g n => fun m => p_new (made_buffer m) p
  | AIssue b => fun r => match r with IGot i => p_cm (Flight b i false) p | IFull => p_exh true p | IWait => p end
  | ADeq b => fun i => p_cm (Flight b i false) p
  | AReset b i => fun _ => p_cm (Flight b i true) p
  | AReturn b i => fun _ => p_cm Returned p
  | ATryTenant => fun r => if r then p_slave true idle else p
  | AUnTenant => fun _ => p_ran (m_ran p) idle
  | AMaster u => fun _ => p_mas (Some u) p
  | AEvict u => fun _ => match m_hold p with Some (o, ev) => p_hold (Some (o, del u ev)) p | None => p end
  | AUnMaster u => fun _ => p_mas None p
  | AChunkGet => fun r => p_ck (Some r) p
  | AChunkSet o => fun _ => p_cm Plain (p_ck (Some o) p)
  | AInitGet => fun r => if m_slave p then p_ini r p else p
  | ASnap => fun r => match m_hold p with Some (o, _) => p_hold (Some (o, r)) p | None => p end
  | AHook h => fun _ => p_hold (Some (on, [])) idle
  | AEmit _ => fun _ => p_hold (m_hold p) idle
  | ANote _ => fun _ => idle
  | _ => fun _ => p
  end.

(** What an answer says. *)
Definition saysB (on : bool) (p : mph) (a : act) : ans a -> Prop :=
  match a return ans a -> Prop with
  | ALdEnabled | AXchg _ => fun r => forall o ev, m_hold p = Some (o, ev) -> r = o
  | ABufGet => fun r => (forall b i, m_ck p = Some (Some (b, i)) -> r = Some b) /\ (forall x, m_bp p = Some x -> r = x)
  | AChunkGet => fun r => forall x, m_ck p = Some x -> r = x
  | ASnap => fun r => NoDup r
  | APick l => fun r => In r l
  | AHook h => fun _ => h_norestart h = true -> on = false
  | _ => fun _ => True
  end.

Definition postB (t : tid) (p : mph) (a : act) (r : ans a) (p' : mph) : Prop :=
  exists on l, saysB on p a r /\ p' = nextB on l p a r.

Definition quietB (p : mph) : Prop := p = idle.

Section Safe.
  Variables cap csz : N.
  Variable site_cat : nat -> bytes.

  Notation valid := (valid okB postB quietB).

  Ltac next r p H := cbn [LogFrame.valid]; split; [|let on := fresh "on" in let l := fresh "l" in let Hp := fresh in
    intros r p [on [l [H Hp]]]; cbn [saysB] in H; cbn in Hp; subst p].
  Ltac ok := cbn; unfold calm; cbn; repeat split; eauto; try easy; try solve [now left|now right|congruence].

  (** ** The code *)

  Lemma evict_mem t k (V : valid t k (p_hold (Some (false, [])) idle)) : forall n l, length l = n -> NoDup l ->
    valid t (evict n l k) (p_hold (Some (false, l)) idle).
  Proof.
    induction n as [|n IH]; intros l L N; cbn [evict].
    - destruct l; [exact V|easy].
    - next u p1 H1; [split; [easy|now intros ->]|]. next r2 p2 H2; [ok|]. next r3 p3 H3; [ok|]. next r4 p4 H4; [ok|].
      apply IH; [|now apply NoDup_del]. pose proof (length_del u l N H1). lia.
  Qed.

  Lemma stop_mem t nr w k on p : p = p_hold (Some (on, [])) idle \/ (exists r g, p = p_gnow (Some g) (p_hold (Some (on, [])) (p_ran (Some r) idle)) /\ r = g) ->
    (w = Exhausted -> exists g, m_ran p = Some g /\ m_gnow p = Some g) ->
    (on = false -> valid t (k None) p) ->
    (forall r on', on = true -> (nr = true -> on' = false) -> valid t (k r) (p_hold (Some (on', [])) idle)) ->
    valid t (stop_lh t nr w k) p.
  Proof.
    intros Ep Ew K0 K. assert (Hp : m_hold p = Some (on, []) /\ m_mas p = None /\ m_bump p = false /\ m_new p = None /\ m_slave p = false /\ m_cm p = Plain).
    { destruct Ep as [->|[r [g [-> _]]]]; ok. }
    unfold stop_lh. next was p1 H1.
    { cbn. destruct Hp as [-> [-> [-> [-> [-> ->]]]]]. ok. }
    destruct Hp as [Eh _]. specialize (H1 _ _ Eh). subst was. destruct on; [|now apply K0].
    next r2 p2 H2; [ok|]. next l3 p3 H3; [ok|]. apply evict_mem; auto. next c p4 H4; [ok|].
    set (cb := if negb (is_shutdown w) || cf_stop c then cf_callback c else None).
    next r5 p5 H5; [ok|]. destruct cb.
    - next r6 p6 H6; [ok; exists false; ok|]. apply K; auto.
    - apply K; auto.
  Qed.

  Lemma start_mem t c k on :
    (forall r on', valid t (k r) (p_hold (Some (on', [])) idle)) ->
    (forall r, valid t (k r) (p_bump true (p_hold (Some (false, [])) idle))) ->
    valid t (start_lh csz t c k) (p_hold (Some (on, [])) idle).
  Proof.
    intros K Kb. unfold start_lh. next r1 p1 H1; [ok|]. destruct (cf_size c / csz =? 0)%N; [apply K|].
    next o2 p2 H2; [ok|]. specialize (H2 _ _ eq_refl). subst o2.
    assert (Go : valid t (g <- AIncGen;; m <- AFactory c g (cf_size c / csz)%N;;
         match m with
         | MadeThrow x => k (Some x)
         | _ => ABufSet (made_buffer m);;; AUpdate (cf_enabled c) (cf_disabled c);;; AClear;;; AStEnabled g m;;; k None
         end) (p_hold (Some (false, [])) idle)).
    { next g p3 H3; [ok|]. next m p4 H4; [ok|].
      assert (Q : valid t (ABufSet (made_buffer m);;; AUpdate (cf_enabled c) (cf_disabled c);;; AClear;;; AStEnabled g m;;; k None)
                    (p_new (made_buffer m) (p_gnow None (p_bump true (p_hold (Some (false, [])) idle))))).
      { next r5 p5 H5; [ok|]. next r6 p6 H6; [ok|]. next r7 p7 H7; [ok|]. next r8 p8 H8; [ok|]. apply K. }
      destruct m; try exact Q. apply Kb. }
    destruct on; [|exact Go]. eapply (stop_mem t true Restarted _ true); [left; reflexivity|easy|easy|].
    intros r on' _ Hn. specialize (Hn eq_refl). subst on'. destruct r; [apply K|exact Go].
  Qed.

  Definition after (p : mph) : Prop := exists r, p = p_ran r idle.

  Lemma maybe_stop_mem t g k : (forall r p, after p -> valid t (k r) p) -> valid t (maybe_stop t g k) (p_ran (Some g) idle).
  Proof.
    intros K. unfold maybe_stop. next got p1 H1; [ok|]. destruct got; [|apply K; eexists; reflexivity].
    next g' p2 H2; [ok|].
    assert (U : forall p r w, (exists on', m_hold p = Some (on', [])) /\ m_mas p = None /\ m_new p = None /\ m_slave p = false /\ m_cm p = Plain ->
      valid t (AUnlock (StopTried t Exhausted w);;; k r) p).
    { intros p r w Hp. next r3 p3 H3; [exact Hp|]. apply K. now exists None. }
    destruct (N.eqb_spec g' g) as [->|N].
    - apply (stop_mem _ _ _ _ on).
      + right. exists g, g. split; reflexivity.
      + intros _. exists g. split; reflexivity.
      + intros ->. apply U. ok.
      + intros r on' _ _. apply U. ok.
    - apply U. ok.
  Qed.

  (** Inside logEvent, with the tenant. *)
  Definition inlog (p : mph) : Prop := m_slave p = true /\ m_hold p = None /\ m_cm p = Plain /\ m_ran p = None.

  Lemma replace_mem t k p : inlog p -> m_pin p = true -> m_ini p = true ->
    (forall p' b i, inlog p' -> m_ck p' = Some (Some (b, i)) -> valid t (k true) p') ->
    (forall p', inlog p' -> m_exh p' = true -> valid t (k false) p') ->
    valid t (replaceChunk k) p.
  Proof.
    intros [A [B [C D]]] Pn In Kt Kf.
    assert (Rest : forall p, inlog p -> m_pin p = true -> m_ini p = true -> m_ck p = Some None ->
      valid t (o <- ALdEnabled;;
          if negb o then k false
          else
            b <- ABufGet;;
            match b with
            | None => k false
            | Some _ =>
                b <- ABufGet;;
                match b with
                | None => ACrash;;; Ret
                | Some b => getChunk b (fun c => AChunkSet c;;; k (match c with Some _ => true | None => false end))
                end
            end) p).
    { clear p A B C D Pn In. intros p [A [B [C D]]] Pn In Ck. next o p1 H1; [ok|]. rewrite Pn, A, In. cbn [andb].
      destruct o; cbn [negb]; [|apply Kf; [unfold inlog|]; ok].
      next b p2 H2; [now left|]. cbn [m_pin p_pin]. destruct b as [b|]; [|apply Kf; [unfold inlog|]; ok].
      next b' p3 H3; [now left|]. destruct H3 as [_ H3]. specialize (H3 _ eq_refl). subst b'.
      unfold getChunk. next r p4 H4; [ok|]. destruct r as [i| |].
      - next r5 p5 H5; [ok|]. next r6 p6 H6; [ok|]. next r7 p7 H7; [ok|]. apply (Kt _ b i); [unfold inlog; ok|reflexivity].
      - next r7 p7 H7; [ok|]. apply Kf; [unfold inlog|]; ok.
      - next i p8 H8; [ok|]. next r5 p5 H5; [ok|]. next r6 p6 H6; [ok|]. next r7 p7 H7; [ok|]. apply (Kt _ b i); [unfold inlog; ok|reflexivity]. }
    unfold replaceChunk. next c p1 H1; [now left|]. destruct c as [[b0 i]|].
    - next b p2 H2; [now left|]. destruct H2 as [H2 _]. specialize (H2 _ _ eq_refl). subst b. unfold returnChunk.
      next r3 p3 H3; [ok|]. next r4 p4 H4; [ok|]. next r5 p5 H5; [ok|]. apply Rest; [unfold inlog| | |]; ok.
    - apply Rest; [unfold inlog| | |]; ok.
  Qed.

  Lemma log_mem t e k : (forall r p, after p -> valid t (k r) p) -> valid t (logEvent t e k) idle.
  Proof.
    intros K. assert (K0 : forall r, valid t (k r) idle) by (intros r; apply K; now exists None).
    unfold logEvent. next o p1 H1; [ok|]. replace (if o then _ else _) with idle by (now destruct o).
    destruct o; cbn [negb]; [|apply K0]. next got p2 H2; [ok|]. destruct got; cbn [negb]; [|apply K0].
    next ini p3 H3; [ok|]. destruct ini; cbn [negb].
    2:{ next r4 p4 H4; [ok|]. apply K0. }
    assert (St : forall p b i, inlog p -> m_ck p = Some (Some (b, i)) ->
      valid t (c <- AChunkGet;; match c with None => ACrash;;; Ret | Some (b, i) => x <- AStore b i e;; AUnTenant;;; k x end) p).
    { intros p b i [A [B [C D]]] E. next c p5 H5; [now left|]. specialize (H5 _ E). subst c.
      next x p6 H6; [ok|]. next r7 p7 H7; [ok|]. apply K. eexists. reflexivity. }
    set (p0 := p_ini true (p_slave true idle)).
    assert (Rf : forall c0, valid t (on <- ALdEnabled;;
            if negb on then AUnTenant;;; k None
            else replaceChunk (fun ok =>
              if ok then (c <- AChunkGet;; match c with None => ACrash;;; Ret | Some (b, i) => x <- AStore b i e;; AUnTenant;;; k x end)
              else g <- ALdGen;; AUnTenant;;; maybe_stop t g k)) (p_ck c0 p0)).
    { intros c0. next o p5 H5; [ok|]. destruct o; cbn [negb].
      2:{ next r4 p4 H4; [ok|]. apply K0. }
      apply replace_mem; [unfold inlog; ok|reflexivity|reflexivity|exact St|].
      intros p [A [B [C D]]] E. next g p6 H6; [ok|]. next r7 p7 H7; [rewrite E; ok|].
      rewrite E. apply maybe_stop_mem. exact K. }
    next c p5 H5; [now left|]. destruct c as [[b i]|]; [|apply (Rf (Some None))].
    next full p6 H6; [ok|]. destruct full; [apply (Rf (Some (Some (b, i))))|].
    apply (St _ b i); [unfold inlog; ok|reflexivity].
  Qed.

  Lemma log_mem_off t e k : valid t (k None) (p_hold (Some (false, [])) idle) -> valid t (logEvent t e k) (p_hold (Some (false, [])) idle).
  Proof. intros V. unfold logEvent. next o p1 H1; [ok|]. specialize (H1 _ _ eq_refl). subst o. exact V. Qed.

  Lemma macro_mem t site e k : (forall r p, after p -> valid t (k r) p) -> valid t (macro site_cat t site e k) idle.
  Proof.
    intros K. assert (K0 : forall r, valid t (k r) idle) by (intros r; apply K; now exists None).
    assert (Gt : forall i, valid t (o <- AStatus i;; if o then logEvent t e k else k None) idle).
    { intros i. next o p1 H1; [ok|]. destruct o; [now apply log_mem|apply K0]. }
    unfold macro. next x p1 H1; [ok|]. destruct x; [apply Gt|]. next i p2 H2; [ok|]. next r3 p3 H3; [ok|]. apply Gt.
  Qed.

  Lemma locked_mem t o body : (forall on k, (forall r p, (exists on', m_hold p = Some (on', [])) /\ m_mas p = None /\ m_new p = None /\ m_slave p = false /\ m_cm p = Plain -> valid t (k r) p) ->
      valid t (body k) (p_hold (Some (on, [])) idle)) -> valid t (locked t o body) idle.
  Proof.
    intros B. unfold locked. next r1 p1 H1; [ok|]. apply B. intros r p Hp. next r2 p2 H2; [exact Hp|]. reflexivity.
  Qed.

  Lemma code_mem t o : valid t (code_of csz site_cat t o) idle.
  Proof.
    assert (Nt : forall o r p, after p -> valid t (ANote (Done t o r);;; Ret) p).
    { intros o' r p Hp. next r1 p1 H1; [exact Hp|]. reflexivity. }
    assert (A0 : after idle) by (now exists None).
    destruct o; cbn [code_of].
    - apply locked_mem. intros on k K. apply start_mem; intros; apply K; ok.
    - destruct startup as [c|]; apply locked_mem; intros on k K; [apply start_mem; intros|]; apply K; ok.
    - apply locked_mem. intros on k K. apply (stop_mem _ _ _ _ on); [now left|easy| |]; intros; apply K; ok.
    - apply locked_mem. intros on k K. unfold getBuffer_lh. next o p1 H1; [ok|]. specialize (H1 _ _ eq_refl). subst o.
      destruct on; [apply K; ok|]. next b p2 H2; [ok|]. apply K; ok.
    - apply locked_mem. intros on k K. unfold getTraceContext_lh. next o p1 H1; [ok|]. specialize (H1 _ _ eq_refl). subst o.
      destruct on; [apply K; ok|]. next b p2 H2; [ok|]. next ns p3 H3; [ok|]. apply K; ok.
    - next o p1 H1; [ok|]. replace (if o then _ else _) with idle by (now destruct o). now apply Nt.
    - apply locked_mem. intros on k K. next ini p1 H1; [ok|]. destruct ini; [apply K; ok|].
      next r2 p2 H2; [ok|]. destruct (is_nil name); [apply K; ok|]. next r3 p3 H3; [ok|]. next r4 p4 H4; [ok|]. apply K; ok.
    - apply locked_mem. intros on k K. next ini p1 H1; [ok|]. destruct ini; cbn [negb]; [|apply K; ok].
      assert (Rest : forall b0, valid t (AReg false;;; o <- ALdEnabled;; if o then ADeregAdd;;; k RUnit else ANameDel;;; k RUnit)
        (p_bp b0 (p_ck (Some None) (p_hold (Some (on, [])) idle)))).
      { intros b0. next r2 p2 H2; [ok|]. next o p3 H3; [ok|]. destruct o; (next r4 p4 H4; [try easy; ok|]); apply K; ok. }
      next c p2 H2; [ok|]. destruct c as [[b0 i]|]; [|apply (Rest None)].
      next b p3 H3; [ok|]. destruct H3 as [H3 _]. specialize (H3 _ _ eq_refl). subst b. unfold returnChunk.
      next r4 p4 H4; [ok|]. next r5 p5 H5; [ok|]. next r6 p6 H6; [ok|]. apply (Rest (Some (Some b0))).
    - apply locked_mem. intros on k K. next c p1 H1; [ok|]. apply K; ok.
    - apply locked_mem. intros on k K. next c p1 H1; [ok|]. apply K; ok.
    - next i p1 H1; [ok|]. now apply Nt.
    - apply log_mem. intros r p Hp. now apply Nt.
    - apply macro_mem. intros r p Hp. now apply Nt.
    - apply locked_mem. intros on k K. next r p1 H1; [exists on; ok|]. apply K; ok.
    - next r1 p1 H1; [ok|]. apply (stop_mem _ _ _ _ on); [now left|easy| |].
      + intros ->. next r2 p2 H2; [ok|]. next r3 p3 H3; [ok|]. next r4 p4 H4; [exact A0|]. reflexivity.
      + intros r on' _ _. next r2 p2 H2; [ok|]. destruct r; next r3 p3 H3; try easy. next r4 p4 H4; [exact A0|]. reflexivity.
  Qed.

  Lemma hcode_mem t h hk k p :
    (match h with HStart _ => h_norestart hk = false | HLog _ => exists ev, m_hold p = Some (false, ev) | _ => True end) ->
    valid t (Act (AHook hk) k) p -> valid t (hcode csz t h (Act (AHook hk) k)) p.
  Proof.
    intros Po V. destruct V as [[on [Ep Hn]] V]. unfold held in Ep. subst p.
    assert (Fin : forall q r, (exists on', m_hold q = Some (on', []) /\ (h_norestart hk = true -> on' = false)) ->
      m_mas q = None /\ m_new q = None /\ m_slave q = false /\ m_cm q = Plain -> valid t (AEmit (Nested t h r);;; Act (AHook hk) k) q).
    { intros q r [on' [Eh Ho]] Hq. next r1 p1 H1; [ok|]. rewrite Eh. next r2 p2 H2; [exists on'; ok|]. apply V. eexists _, []. split; [exact H2|reflexivity]. }
    destruct h; cbn [hcode].
    - apply start_mem; intros; apply Fin; cbn; eauto. exists on'. split; auto. rewrite Po. easy.
    - apply (stop_mem _ _ _ _ on); [now left|easy| |].
      + intros ->. apply Fin; cbn; eauto.
      + intros r on' -> _. apply Fin; cbn; eauto. exists on'. split; auto. intros E. now apply Hn in E.
    - unfold getBuffer_lh. next o p1 H1; [ok|]. specialize (H1 _ _ eq_refl). subst o.
      destruct on; [apply Fin; cbn; eauto|]. next b p2 H2; [ok|]. apply Fin; cbn; eauto.
    - unfold getTraceContext_lh. next o p1 H1; [ok|]. specialize (H1 _ _ eq_refl). subst o.
      destruct on; [apply Fin; cbn; eauto|]. next b p2 H2; [ok|]. next ns p3 H3; [ok|]. apply Fin; cbn; eauto.
    - next o p1 H1; [ok|]. specialize (H1 _ _ eq_refl). subst o. destruct on; apply Fin; cbn; eauto.
    - destruct Po as [ev Po]. cbn in Po. injection Po as -> _. apply log_mem_off. apply Fin; cbn; eauto.
  Qed.
End Safe.
