(** The contract of the locked calls: the history of every run is legal and the
    log's fields agree with it. *)
From Verif Require Import Base Model.StringUtils Model.Event Model.Queue Model.Buffer Model.Config Spec.Categories Model.Registry
  Model.Interleave Spec.LogHistory Model.TraceLog Proofs.Interleave Proofs.Registry Proofs.LogFrame.

Definition w_on (v : lview) (x : bool) : lview := {| v_on := x; v_gen := v_gen v; v_buf := v_buf v; v_cfg := v_cfg v; v_names := v_names v; v_dereg := v_dereg v; v_regd := v_regd v; v_lists := v_lists v |}.
Definition w_gen (v : lview) (x : N) : lview := {| v_on := v_on v; v_gen := x; v_buf := v_buf v; v_cfg := v_cfg v; v_names := v_names v; v_dereg := v_dereg v; v_regd := v_regd v; v_lists := v_lists v |}.
Definition w_buf (v : lview) (x : option bid) : lview := {| v_on := v_on v; v_gen := v_gen v; v_buf := x; v_cfg := v_cfg v; v_names := v_names v; v_dereg := v_dereg v; v_regd := v_regd v; v_lists := v_lists v |}.
Definition w_cfg (v : lview) (x : config) : lview := {| v_on := v_on v; v_gen := v_gen v; v_buf := v_buf v; v_cfg := x; v_names := v_names v; v_dereg := v_dereg v; v_regd := v_regd v; v_lists := v_lists v |}.
Definition w_names (v : lview) (x : list (tid * bytes)) : lview := {| v_on := v_on v; v_gen := v_gen v; v_buf := v_buf v; v_cfg := v_cfg v; v_names := x; v_dereg := v_dereg v; v_regd := v_regd v; v_lists := v_lists v |}.
Definition w_dereg (v : lview) (x : list tid) : lview := {| v_on := v_on v; v_gen := v_gen v; v_buf := v_buf v; v_cfg := v_cfg v; v_names := v_names v; v_dereg := x; v_regd := v_regd v; v_lists := v_lists v |}.
Definition w_regd (v : lview) (x : list tid) : lview := {| v_on := v_on v; v_gen := v_gen v; v_buf := v_buf v; v_cfg := v_cfg v; v_names := v_names v; v_dereg := v_dereg v; v_regd := x; v_lists := v_lists v |}.
Definition w_lists (v : lview) (x : list bytes * list bytes) : lview := {| v_on := v_on v; v_gen := v_gen v; v_buf := v_buf v; v_cfg := v_cfg v; v_names := v_names v; v_dereg := v_dereg v; v_regd := v_regd v; v_lists := x |}.

Definition config_lists (c : config) : list bytes * list bytes := (cf_enabled c, cf_disabled c).

(** The fields the lock protects. *)
Definition prot (s : st) : lview := {|
  v_on := enabled s; v_gen := gen s; v_buf := bufp s; v_cfg := cfg s; v_names := names s; v_dereg := dereg s; v_regd := regd s;
  v_lists := (rg_enabled (reg s), rg_disabled (reg s)) |}.

Record phase := {
  a_sec : option (lview * status);   (* inside the lock: the fields, and what the history says *)
  a_ini : bool;                      (* known to be registered *)
  a_seen : bool;                     (* has seen tracing on during this call *)
  a_mine : bool;                     (* destroying the log *)
  a_after : option status;           (* history at the end of the last section *)
}.

Definition sec (ph : phase) (x : option (lview * status)) : phase :=
  {| a_sec := x; a_ini := a_ini ph; a_seen := a_seen ph; a_mine := a_mine ph; a_after := a_after ph |}.
Definition enter (ph : phase) (p : lview) (q : status) : phase :=
  {| a_sec := Some (p, q); a_ini := false; a_seen := a_seen ph; a_mine := a_mine ph; a_after := None |}.
Definition leave (ph : phase) (q : status) : phase :=
  {| a_sec := None; a_ini := false; a_seen := a_seen ph; a_mine := a_mine ph; a_after := Some q |}.
Definition inp (sn m : bool) (p : lview) (q : status) : phase :=
  {| a_sec := Some (p, q); a_ini := false; a_seen := sn; a_mine := m; a_after := None |}.
Definition saw (ph : phase) : phase :=
  {| a_sec := a_sec ph; a_ini := a_ini ph; a_seen := true; a_mine := a_mine ph; a_after := a_after ph |}.
Definition knows (ph : phase) : phase :=
  {| a_sec := a_sec ph; a_ini := true; a_seen := a_seen ph; a_mine := a_mine ph; a_after := a_after ph |}.
Definition begun (d : bool) : phase := {| a_sec := None; a_ini := false; a_seen := false; a_mine := d; a_after := None |}.

(** Nothing pending. *)
Definition calm (q : status) : Prop := due q = None /\ fresh q = None.

Definition insec (ph : phase) (F : lview -> status -> Prop) : Prop :=
  match a_sec ph with Some (p, q) => F p q | None => False end.

(** How a callback may leave the log. *)
Definition hookR (nr : bool) (q q' : status) : Prop :=
  calm q' /\ (exists l, since q' = since q ++ l) /\ (nr = true -> v_on (vw q') = false /\ v_cfg (vw q') = v_cfg (vw q)).

Section View.
  Variable csz : N.

  Definition ok (t : tid) (ph : phase) (a : act) : Prop :=
    match a with
    | AXchg w => insec ph (fun p q => calm q /\ restart_legal csz q t w)
    | AStEnabled g m => insec ph (fun p q => legal csz q (On t g m) /\ v_lists p = config_lists (v_cfg (vw q)) /\ v_buf p = made_buffer m)
    | ADisableAll => insec ph (fun p q => v_on (vw q) = false) /\ a_ini ph = false
    | AUpdate en dis => insec ph (fun p q => fresh q <> None /\ v_on (vw q) = false /\ (en, dis) = config_lists (v_cfg (vw q))) /\ a_ini ph = false
    | ALock => a_sec ph = None
    | ATryLock => a_sec ph = None
    | AUnlock e => insec ph (fun p q => legal csz q e /\ inert e = false /\ p = vw (advance q e) /\ calm (advance q e) /\ since (advance q e) = [])
    | AFactory c g n => insec ph (fun p q => forall m, factory_can (cf_factory c) n m -> legal csz q (Made t g n m))
    | ACfgSet c => insec ph (fun p q => calm q)
    | AEmit e => insec ph (fun p q => legal csz q e /\ ((exists o, e = Callback t o /\ v_lists p = ([[]], [[]])) \/ exists h r, e = Nested t h r /\ p = vw (advance q e)))
    | ANote e => exists o r, e = Done t o r /\ lock_free o = true
    | AHook h => insec ph (fun p q => p = vw q /\ calm q /\ (h_norestart h = true -> v_on p = false)) /\ a_ini ph = false /\ a_after ph = None
    | ABufSet _ => insec ph (fun _ q => fresh q <> None) /\ a_ini ph = false
    | AIncGen | ABufTake | ACfgGet | ANameSet _ | ANameDel | ANames | ADeregAdd | ADeregDel
    | AClear | AStats | AReg _ | ASnap => insec ph (fun _ _ => True) /\ a_ini ph = false
    | AFree => a_sec ph = None /\ a_mine ph = true /\ exists q, a_after ph = Some q /\ legal csz q (Freed t) /\ calm q
    | AStore _ _ _ => a_sec ph = None /\ a_ini ph = true /\ a_seen ph = true
    | _ => True
    end.

  (** The view after an action inside the lock. *)
  Definition upd_sec (ph ph' : phase) (f : lview -> lview) (g : status -> status) : Prop :=
    match a_sec ph with Some (p, q) => ph' = sec ph (Some (f p, g q)) | None => False end.

  Definition entered (ph ph' : phase) : Prop :=
    exists p q, p = vw q /\ calm q /\ since q = [] /\ ph' = enter ph p q.

  Definition post (t : tid) (ph : phase) (a : act) : ans a -> phase -> Prop :=
    match a return ans a -> phase -> Prop with
    | ALdEnabled => fun r ph' => ph' = (if r then saw ph else ph) /\ forall p q, a_sec ph = Some (p, q) -> r = v_on p
    | AXchg w => fun r ph' =>
        (forall p q, a_sec ph = Some (p, q) -> r = v_on p) /\
        if r then upd_sec ph ph' (fun p => w_on p false) (fun q => advance q (Off t w)) else ph' = ph
    | AStEnabled g m => fun _ ph' => upd_sec ph ph' (fun p => w_on p true) (fun q => advance q (On t g m))
    | ALock => fun _ ph' => entered ph ph'
    | ATryLock => fun r ph' => if r then entered ph ph' else ph' = ph
    | AUnlock e => fun _ ph' => match a_sec ph with Some (p, q) => ph' = leave ph (advance q e) | None => False end
    | AIncGen => fun r ph' => (forall p q, a_sec ph = Some (p, q) -> r = v_gen p) /\ upd_sec ph ph' (fun p => w_gen p (v_gen p + 1)%N) (fun q => q)
    | ABufTake => fun r ph' => (forall p q, a_sec ph = Some (p, q) -> r = v_buf p) /\ upd_sec ph ph' (fun p => w_buf p None) (fun q => q)
    | ABufSet o => fun _ ph' => upd_sec ph ph' (fun p => w_buf p o) (fun q => q)
    | AFactory c g n => fun m ph' => factory_can (cf_factory c) n m /\ upd_sec ph ph' (fun p => p) (fun q => advance q (Made t g n m))
    | AInitGet => fun r ph' =>
        (forall p q, a_sec ph = Some (p, q) -> r = mem t (v_regd p)) /\
        ph' = match a_sec ph with None => if r then knows ph else ph | Some _ => ph end
    | AReg v => fun _ ph' => upd_sec ph ph' (fun p => w_regd p (if v then add t (v_regd p) else del t (v_regd p))) (fun q => q)
    | ADisableAll => fun _ ph' => upd_sec ph ph' (fun p => w_lists p ([[]], [[]])) (fun q => q)
    | AUpdate en dis => fun _ ph' => upd_sec ph ph' (fun p => w_lists p (en, dis)) (fun q => q)
    | ACfgSet c => fun _ ph' => upd_sec ph ph' (fun p => w_cfg p c) (fun q => advance q (Configured t c))
    | ACfgGet => fun r ph' => ph' = ph /\ insec ph (fun p q => r = v_cfg p)
    | ANameSet n => fun _ ph' => upd_sec ph ph' (fun p => w_names p (name_set t n (v_names p))) (fun q => q)
    | ANameDel => fun _ ph' => upd_sec ph ph' (fun p => w_names p (name_del t (v_names p))) (fun q => q)
    | ANames => fun r ph' => ph' = ph /\ insec ph (fun p q => r = v_names p)
    | ADeregAdd => fun _ ph' => upd_sec ph ph' (fun p => w_dereg p (add t (v_dereg p))) (fun q => q)
    | ADeregDel => fun _ ph' => upd_sec ph ph' (fun p => w_dereg p (del t (v_dereg p))) (fun q => q)
    | AClear => fun _ ph' => upd_sec ph ph' (fun p => w_names p (name_clear (v_dereg p) (v_names p))) (fun q => q)
    | AStats => fun st ph' => ph' = ph /\ insec ph (fun p q =>
        ls_on st = v_on p /\ ls_has_buffer st = (match v_buf p with Some _ => true | None => false end) /\
        ls_names st = length (v_names p) /\ ls_dereg st = length (v_dereg p) /\ ls_tenants st = length (v_regd p))
    | AEmit e => fun _ ph' => upd_sec ph ph' (fun p => p) (fun q => advance q e)
    | AHook h => fun _ ph' => match a_sec ph with
        | Some (p, q) => exists q' sn, hookR (h_norestart h) q q' /\ ph' = inp sn (a_mine ph) (vw q') q'
        | None => False end
    | AFree => fun _ ph' => exists q, a_after ph = Some q /\ ph' = leave ph (advance q (Freed t))
    | _ => fun _ ph' => ph' = ph
    end.

  Definition quiet (ph : phase) : Prop := a_sec ph = None.

  Notation valid := (valid ok post quiet).

  (** ** The code *)

  Definition out_ph (ph : phase) : Prop := a_sec ph = None.

  Lemma evict_valid t k ph : insec ph (fun _ _ => True) -> valid t k ph -> forall n l, valid t (evict n l k) ph.
  Proof.
    intros I V n. induction n as [|n IH]; intros l; cbn; auto.
    split; auto. intros u ph1 ->. split; auto. intros _ ph2 ->. split; auto. intros _ ph3 ->. split; auto. intros _ ph4 ->. apply IH.
  Qed.


  (** What a stop did. *)
  Definition stopR (t : tid) (nr : bool) (w : why) (q q' : status) (r : option exn) : Prop :=
    (q' = q /\ r = None /\ v_on (vw q) = false) \/
    (v_on (vw q) = true /\ (exists o l, since q' = since q ++ Off t w :: Callback t o :: l /\ (o = None -> l = [] /\ r = None /\ v_on (vw q') = false)) /\
     (nr = true -> v_on (vw q') = false /\ v_cfg (vw q') = v_cfg (vw q))).

  Lemma advance_vw q e : inert e = false -> vw (advance q e) = apply (vw q) e.
  Proof. unfold advance. now intros ->. Qed.

  Ltac next r ph' H := cbn [LogFrame.valid]; split; [|intros r ph' H].
  Ltac skip := cbn [LogFrame.valid]; split; [first [easy|now split|do 2 eexists; split; reflexivity]|let r := fresh in let p := fresh in let H := fresh in intros r p H; cbn in H; subst p; try clear r].

  Lemma stop_valid t nr w k sn m q : calm q -> restart_legal csz q t w ->
    (forall r sn' q', calm q' -> stopR t nr w q q' r -> valid t (k r) (inp sn' m (vw q') q')) ->
    valid t (stop_lh t nr w k) (inp sn m (vw q) q).
  Proof.
    intros C Rl K. unfold stop_lh. next was ph1 H1; [exact (conj C Rl)|]. destruct H1 as [Hr H1]. specialize (Hr _ _ eq_refl).
    destruct was; [|subst ph1; apply K; auto; left; auto].
    cbn in H1. subst ph1. next r2 ph2 H2; [now split|]. cbn in H2. subst ph2.
    next l ph3 H3; [now split|]. cbn in H3. subst ph3.
    apply evict_valid; [easy|]. next c ph4 H4; [now split|]. cbn in H4. destruct H4 as [-> Hc].
    set (cb := if negb (is_shutdown w) || cf_stop c then cf_callback c else None).
    set (q1 := advance q (Off t w)).
    assert (L : legal csz q1 (Callback t cb)).
    { cbn. split; [|split]; auto; [|apply C]. exists w. repeat split. unfold callback_due, cb. rewrite Hc.
      destruct (is_shutdown w), (cf_stop (v_cfg (vw q))); reflexivity. }
    next r5 ph5 H5; [cbn; split; [exact L|left; eauto]|]. cbn in H5. subst ph5.
    set (q2 := advance q1 (Callback t cb)).
    assert (C2 : calm q2) by (split; [reflexivity|apply C]).
    assert (S2 : since q2 = since q ++ [Off t w; Callback t cb]) by (cbn; now rewrite <- app_assoc).
    assert (E2 : {| v_on := false; v_gen := v_gen (vw q); v_buf := v_buf (vw q); v_cfg := v_cfg (vw q); v_names := v_names (vw q);
                    v_dereg := v_dereg (vw q); v_regd := v_regd (vw q); v_lists := ([[]], [[]]) |} = vw q2) by reflexivity.
    destruct cb as [b|] eqn:Eb.
    - next r6 ph6 H6; [split; [split; [reflexivity|split; [exact C2|auto]]|now split]|]. cbn in H6. destruct H6 as [q' [sn' [[HR1 [[l' HR2] HR3]] ->]]].
      apply K; auto. right. split; auto. change (since q' = since q2 ++ l') in HR2. rewrite S2 in HR2. split.
      + exists (Some b), l'. split; [now rewrite HR2, <- app_assoc|easy].
      + intros N. apply HR3 in N. exact N.
    - change (valid t (k None) (inp sn m (vw q2) q2)). apply K; auto. right. split; auto. split.
      + exists None, []. split; [exact S2|]. auto.
      + intros _. auto.
  Qed.

  Definition startR (t : tid) (c : config) (q q' : status) (r : option exn) : Prop :=
    start_legal csz q' t c (out_of r) /\ (exists l, since q' = since q ++ Configured t c :: l) /\
    (wants csz c = 0%N -> since q' = since q ++ [Configured t c]).

  Lemma start_valid t c k sn m q : calm q ->
    (forall r sn' q', calm q' -> startR t c q q' r -> valid t (k r) (inp sn' m (vw q') q')) ->
    valid t (start_lh csz t c k) (inp sn m (vw q) q).
  Proof.
    intros C K. unfold start_lh. next r1 ph1 H1; [exact C|]. cbn in H1. subst ph1.
    fold (wants csz c).
    set (q1 := advance q (Configured t c)).
    assert (C1 : calm q1) by exact C.
    assert (S1 : since q1 = since q ++ [Configured t c]) by reflexivity.
    assert (V1 : v_cfg (vw q1) = c) by reflexivity.
    destruct (wants csz c =? 0)%N eqn:W.
    - change (valid t (k (Some InvalidArgument)) (inp sn m (vw q1) q1)). apply K; auto.
      split; [|split; eauto]. unfold start_legal. rewrite W. repeat split; auto. eauto.
    - next on ph2 H2; [easy|]. cbn in H2. destruct H2 as [H2 Ho]. specialize (Ho _ _ eq_refl). cbn in Ho.
      assert (Go : forall sn2 q2, calm q2 -> v_on (vw q2) = false -> v_cfg (vw q2) = c ->
                 (exists l, since q2 = since q ++ Configured t c :: l) ->
                 valid t (g <- AIncGen;; m0 <- AFactory c g (wants csz c);;
                   match m0 with
                   | MadeThrow x => k (Some x)
                   | _ => ABufSet (made_buffer m0);;; AUpdate (cf_enabled c) (cf_disabled c);;; AClear;;; AStEnabled g m0;;; k None
                   end) (inp sn2 m (vw q2) q2)).
      { intros sn2 q2 C2 On2 V2 [l S2]. next g ph3 H3; [now split|]. cbn in H3. destruct H3 as [Hg ->]. specialize (Hg _ _ eq_refl).
        assert (L : forall m0, factory_can (cf_factory c) (wants csz c) m0 -> legal csz q2 (Made t g (wants csz c) m0)).
        { intros m0 F. cbn. rewrite V2. repeat split; auto; try apply C2. intros Z. now rewrite Z in W. }
        next m0 ph4 H4; [exact L|]. cbn in H4. destruct H4 as [F ->]. apply L in F as Lm.
        set (q3 := advance q2 (Made t g (wants csz c) m0)).
        assert (S3 : since q3 = since q ++ Configured t c :: l ++ [Made t g (wants csz c) m0])
          by (cbn; rewrite S2, <- app_assoc; reflexivity).
        assert (D3 : due q3 = None) by apply C2.
        assert (T : forall x, m0 = MadeThrow x -> valid t (k (Some x)) (sec (sec (inp sn2 m (vw q2) q2) (Some (w_gen (vw q2) (v_gen (vw q2) + 1), q2))) (Some (w_gen (vw q2) (v_gen (vw q2) + 1), q3)))).
        { intros x ->. assert (E : w_gen (vw q2) (v_gen (vw q2) + 1) = vw q3) by (cbn; unfold w_gen; now rewrite Hg).
          unfold sec. cbn [a_ini a_seen a_mine a_after inp a_sec]. rewrite E. apply K.
          - split; auto.
          - split; [|split].
            + unfold start_legal. rewrite W. split; [exact V2|]. cbn. exact On2.
            + eauto.
            + intros Z. now rewrite Z in W. }
        assert (N : (forall x, m0 <> MadeThrow x) -> fresh q3 = Some (g, m0) -> valid t (ABufSet (made_buffer m0);;; AUpdate (cf_enabled c) (cf_disabled c);;; AClear;;; AStEnabled g m0;;; k None)
             (sec (sec (inp sn2 m (vw q2) q2) (Some (w_gen (vw q2) (v_gen (vw q2) + 1), q2))) (Some (w_gen (vw q2) (v_gen (vw q2) + 1), q3)))).
        { intros Nt Fr. next r5 ph5 H5; [split; [|reflexivity]; intros Z; change (fresh q3 = None) in Z; congruence|]. cbn in H5. subst ph5. next r6 ph6 H6; [split; [|reflexivity]; split; [intros Z; change (fresh q3 = None) in Z; congruence|]; split; [exact On2|]; now rewrite <- V2|]. cbn in H6. subst ph6.
          next r7 ph7 H7; [now split|]. cbn in H7. subst ph7.
          assert (Lo : legal csz q3 (On t g m0)) by (cbn; split; [apply C2|]; split; [split; [exact Fr|exact On2]|easy]).
          next r8 ph8 H8; [split; [exact Lo|]; now rewrite <- V2|]. cbn in H8. subst ph8.
          set (q4 := advance q3 (On t g m0)). fold q3. fold q4.
          match goal with |- valid t _ (sec _ (Some (?p, _))) => assert (E : p = vw q4) end.
          { unfold w_on, w_gen, w_buf, w_names, w_lists. cbn. rewrite V2, Hg. reflexivity. }
          rewrite E. apply K.
          - split; auto.
          - split; [|split].
            + unfold start_legal. rewrite W. split; [exact V2|]. cbn [out_of].
              exists (since q ++ Configured t c :: l ++ [Made t g (wants csz c) m0]), g, m0.
              transitivity (since q3 ++ [On t g m0]); [reflexivity|]. now rewrite S3.
            + exists (l ++ [Made t g (wants csz c) m0; On t g m0]). transitivity (since q3 ++ [On t g m0]); [reflexivity|]. rewrite S3, <- !app_assoc. cbn. now rewrite <- app_assoc.
            + intros Z. now rewrite Z in W. }
        destruct m0; try (apply T; reflexivity); apply N; easy. }
      destruct on.
      + subst ph2. change (saw _) with (inp true m (vw q1) q1). apply stop_valid; auto.
        { exists (since q). split; [reflexivity|]. intros Z. change (wants csz c = 0%N) in Z. now rewrite Z in W. }
        intros r sn' q' C' [[-> [-> X]]|[O [[o [l [Sx Hx]]] Hn]]]; [cbn in X, Ho; congruence|].
        destruct (Hn eq_refl) as [On' Cf']. rewrite S1, <- app_assoc in Sx. cbn in Sx.
        destruct r as [x|].
        * apply K; auto. split; [|split; eauto].
          -- unfold start_legal. rewrite W. split; [now rewrite Cf'|exact On'].
          -- intros Z. now rewrite Z in W.
        * apply Go; [exact C'|exact On'|now rewrite Cf'|eauto].
      + subst ph2. change (valid t _ _) with (valid t (g <- AIncGen;; m0 <- AFactory c g (wants csz c);;
                   match m0 with
                   | MadeThrow x => k (Some x)
                   | _ => ABufSet (made_buffer m0);;; AUpdate (cf_enabled c) (cf_disabled c);;; AClear;;; AStEnabled g m0;;; k None
                   end) (inp sn m (vw q1) q1)). apply Go; auto. exists []. reflexivity.
  Qed.


  Lemma stop_fin t nr w q q' r : stopR t nr w q q' r -> since q = [] -> stop_legal q' t w (out_of r) /\ (since q' = [] -> v_on (vw q') = false).
  Proof.
    intros [[-> [-> X]]|[O [[o [l [Sx Hx]]] Hn]]] S.
    - split; auto. unfold stop_legal. now rewrite S.
    - rewrite S in Sx. cbn in Sx. split; [|now rewrite Sx]. unfold stop_legal. rewrite Sx. split; auto. exists o. split; auto.
      intros ->. destruct (Hx eq_refl) as [-> [-> ?]]. auto.
  Qed.

  Lemma stopR_off t w q q' r : stopR t true w q q' r -> v_on (vw q') = false.
  Proof. intros [[-> [-> X]]|[O [[o [l [Sx Hx]]] Hn]]]; auto. now apply Hn. Qed.

  Lemma unlock_valid t e k sn m q : legal csz q e -> inert e = false -> vw q = vw (advance q e) -> calm (advance q e) -> since (advance q e) = [] ->
    (forall sn m q', valid t k {| a_sec := None; a_ini := false; a_seen := sn; a_mine := m; a_after := Some q' |}) ->
    valid t (AUnlock e;;; k) (inp sn m (vw q) q).
  Proof.
    intros L I E C S K. next r1 ph1 H1; [cbn; auto|]. cbn in H1. subst ph1. apply K.
  Qed.

  Definition outside (ph : phase) : Prop := a_sec ph = None.

  Lemma maybe_stop_valid t g k ph : outside ph -> (forall r ph', outside ph' -> valid t (k r) ph') -> valid t (maybe_stop t g k) ph.
  Proof.
    intros O K. unfold maybe_stop. next got ph1 H1; [exact O|]. cbn in H1. destruct got; [|subst ph1; auto].
    destruct H1 as [p [q [-> [C [S ->]]]]]. next g' ph2 H2; [easy|]. cbn in H2. subst ph2. destruct (g' =? g)%N.
    - change (enter ph (vw q) q) with (inp (a_seen ph) (a_mine ph) (vw q) q). apply stop_valid; [auto|exact I|]. intros r sn' q' C' R.
      destruct (stop_fin _ _ _ _ _ _ R S) as [F _].
      apply unlock_valid; try reflexivity; auto; [|intros; apply K; reflexivity].
      cbn. repeat split; auto; try apply C'. easy.
    - change (enter ph (vw q) q) with (inp (a_seen ph) (a_mine ph) (vw q) q).
      apply unlock_valid; try reflexivity; auto; [|intros; apply K; reflexivity].
      cbn. repeat split; auto; try apply C; [|easy]. unfold stop_legal. now rewrite S.
  Qed.

  Lemma replace_valid t k ph : outside ph -> a_ini ph = true -> a_seen ph = true ->
    (forall r ph', outside ph' -> a_ini ph' = true -> a_seen ph' = true -> valid t (k r) ph') -> valid t (replaceChunk k) ph.
  Proof.
    intros O I S K. unfold replaceChunk.
    assert (Rest : forall ph, outside ph -> a_ini ph = true -> a_seen ph = true -> valid t (on <- ALdEnabled;;
      if negb on then k false
      else
        b <- ABufGet;;
        match b with
        | None => k false
        | Some _ =>
            b <- ABufGet;;
            match b with
            | None => ACrash;;; Ret
            | Some b =>
                getChunk b (fun c =>
                AChunkSet c;;;
                k (match c with Some _ => true | None => false end))
            end
        end) ph).
    { clear ph O I S. intros ph O I S. next on ph1 H1; [easy|]. destruct H1 as [-> _]. destruct on; cbn [negb]; [|auto].
      assert (X : outside (saw ph) /\ a_ini (saw ph) = true /\ a_seen (saw ph) = true) by auto. destruct X as [O1 [I1 S1]].
      next o ph2 H2; [easy|]. cbn in H2. subst ph2. destruct o; auto.
      next o ph2 H2; [easy|]. cbn in H2. subst ph2. destruct o as [b'|].
      2:{ skip; easy. }
      unfold getChunk. next is ph2 H2; [easy|]. cbn in H2. subst ph2. destruct is as [i| |].
      - skip. skip. skip. auto.
      - skip. auto.
      - next i ph3 H3; [easy|]. cbn in H3. subst ph3. skip. skip. skip. auto. }
    next c ph1 H1; [easy|]. cbn in H1. subst ph1. destruct c as [[b0 i]|]; [|now apply Rest].
    next o ph1 H1; [easy|]. cbn in H1. subst ph1. destruct o as [b|].
    2:{ skip; easy. }
    unfold returnChunk. skip. skip. skip. now apply Rest.
  Qed.

  Lemma log_valid t e k ph : outside ph -> (forall r ph', outside ph' -> valid t (k r) ph') -> valid t (logEvent t e k) ph.
  Proof.
    intros O K. unfold logEvent. next on ph1 H1; [easy|]. destruct H1 as [-> _]. destruct on; cbn [negb]; auto.
    assert (O1 : outside (saw ph)) by auto. assert (S1 : a_seen (saw ph) = true) by auto.
    next got ph1 H1; [easy|]. cbn in H1. subst ph1. destruct got; cbn [negb]; auto.
    next ini ph1 H1; [easy|]. destruct H1 as [_ H1]. unfold outside in O1. rewrite O1 in H1. fold (outside (saw ph)) in O1.
    destruct ini; cbn [negb].
    2:{ subst ph1. skip. auto. }
    set (ph2 := knows (saw ph)) in *.
    assert (X : outside ph2 /\ a_ini ph2 = true /\ a_seen ph2 = true) by auto. destruct X as [O2 [I2 S2]]. clearbody ph2. subst ph1.
    assert (St : forall ph, outside ph -> a_ini ph = true -> a_seen ph = true -> valid t (c <- AChunkGet;;
            match c with
            | None => ACrash;;; Ret
            | Some (b, i) => x <- AStore b i e;; AUnTenant;;; k x
            end) ph).
    { clear - K. intros ph O I S. next c ph1 H1; [easy|]. cbn in H1. subst ph1. destruct c as [[b i]|].
      - next x ph1 H1; [cbn; auto|]. cbn in H1. subst ph1. skip. auto.
      - skip; easy. }
    assert (Re : valid t (on <- ALdEnabled;;
            if negb on then AUnTenant;;; k None
            else replaceChunk (fun ok =>
              if ok then (c <- AChunkGet;;
            match c with
            | None => ACrash;;; Ret
            | Some (b, i) => x <- AStore b i e;; AUnTenant;;; k x
            end)
              else g <- ALdGen;; AUnTenant;;; maybe_stop t g k)) ph2).
    { next on ph1 H1; [easy|]. destruct H1 as [-> _]. destruct on; cbn [negb].
      2:{ skip. auto. }
      apply replace_valid; auto. intros r ph' O' I' S'. destruct r; [now apply St|].
      next g ph3 H3; [easy|]. cbn in H3. subst ph3. skip. apply maybe_stop_valid; auto. }
    next c ph3 H3; [easy|]. cbn in H3. subst ph3. destruct c as [[b i]|]; [|exact Re].
    next full ph3 H3; [easy|]. cbn in H3. subst ph3. destruct full; [exact Re|now apply St].
  Qed.

  (** A logEvent made with the lock held while tracing is off. *)
  Lemma log_valid_off t e k sn m q : v_on (vw q) = false -> valid t (k None) (inp sn m (vw q) q) -> valid t (logEvent t e k) (inp sn m (vw q) q).
  Proof.
    intros O K. unfold logEvent. next on ph1 H1; [easy|]. destruct H1 as [-> H1]. specialize (H1 _ _ eq_refl). rewrite O in H1.
    subst on. cbn. exact K.
  Qed.

  Variable site_cat : nat -> bytes.

  Lemma macro_valid t site e k ph : outside ph -> (forall r ph', outside ph' -> valid t (k r) ph') -> valid t (macro site_cat t site e k) ph.
  Proof.
    intros O K. unfold macro. next p ph1 H1; [easy|]. cbn in H1. subst ph1.
    assert (Gt : forall i, valid t (on <- AStatus i;; if on then logEvent t e k else k None) ph).
    { intros i. next on ph1 H1; [easy|]. cbn in H1. subst ph1. destruct on; auto. now apply log_valid. }
    destruct p as [i|]; auto. next i ph1 H1; [easy|]. cbn in H1. subst ph1. skip. apply Gt.
  Qed.

  Lemma locked_valid t o body ph : outside ph -> lock_free o = false ->
    (forall sn m q, calm q -> since q = [] -> valid t (body (fun r => AUnlock (Done t o r);;; Ret)) (inp sn m (vw q) q)) ->
    valid t (locked t o body) ph.
  Proof.
    intros O F B. unfold locked. next r1 ph1 H1; [exact O|]. cbn in H1. destruct H1 as [p [q [-> [C [S ->]]]]].
    change (enter ph (vw q) q) with (inp (a_seen ph) (a_mine ph) (vw q) q). auto.
  Qed.

  (** The end of a locked call. *)
  Lemma done_valid t o r sn m p q : lock_free o = false -> calm q -> call_legal csz q t o r -> p = after_call t o r (vw q) ->
    valid t (AUnlock (Done t o r);;; Ret) (inp sn m p q).
  Proof.
    intros F C L ->. next r1 ph1 H1.
    - cbn [ok insec inp a_sec]. unfold legal, advance. cbn [inert]. rewrite F. cbn. repeat split; auto; apply C.
    - cbn in H1. now subst ph1.
  Qed.

  Lemma code_valid t o : valid t (code_of csz site_cat t o) (begun (is_destroy o)).
  Proof.
    assert (O : outside (begun (is_destroy o))) by reflexivity.
    destruct o; cbn [code_of].
    - apply locked_valid; auto. intros sn m q C S. apply start_valid; auto. intros r sn' q' C' [L [_ Z]].
      rewrite S in Z. apply done_valid; auto. split; auto.
    - destruct startup as [c|].
      + apply locked_valid; auto. intros sn m q C S. apply start_valid; auto. intros r sn' q' C' [L [_ Z]].
        rewrite S in Z. apply done_valid; auto. split; auto.
      + apply locked_valid; auto. intros sn m q C S. apply done_valid; auto. now split.
    - apply locked_valid; auto. intros sn m q C S. apply stop_valid; [auto|exact I|]. intros r sn' q' C' R.
      apply done_valid; auto. now apply (stop_fin _ _ _ _ _ _ R).
    - apply locked_valid; auto. intros sn m q C S. unfold getBuffer_lh. next on ph1 H1; [easy|]. destruct H1 as [-> H1].
      specialize (H1 _ _ eq_refl). destruct on.
      + change (saw _) with (inp true m (vw q) q). apply done_valid; auto. split; auto. now rewrite <- H1.
      + next b ph2 H2; [now split|]. destruct H2 as [Hb H2]. cbn in H2. subst ph2. specialize (Hb _ _ eq_refl).
        change (sec _ _) with (inp sn m (w_buf (vw q) None) q). apply done_valid; auto. split; auto. rewrite <- H1. now rewrite Hb.
    - apply locked_valid; auto. intros sn m q C S. unfold getTraceContext_lh. next on ph1 H1; [easy|]. destruct H1 as [-> H1].
      specialize (H1 _ _ eq_refl). destruct on.
      + change (saw _) with (inp true m (vw q) q). apply done_valid; auto. split; auto. now rewrite <- H1.
      + next b ph2 H2; [now split|]. destruct H2 as [Hb H2]. cbn in H2. subst ph2. specialize (Hb _ _ eq_refl).
        next ns ph3 H3; [now split|]. destruct H3 as [-> H3]. cbn in H3.
        change (sec _ _) with (inp sn m (w_buf (vw q) None) q). apply done_valid; auto. split; auto. rewrite <- H1. now rewrite Hb, H3.
    - next on ph1 H1; [easy|]. destruct H1 as [-> _]. skip. now destruct on.
    - apply locked_valid; auto. intros sn m q C S. next ini ph1 H1; [easy|]. destruct H1 as [H1 H2]. cbn in H2. subst ph1. specialize (H1 _ _ eq_refl).
      destruct ini.
      + apply done_valid; auto. split; auto. now rewrite <- H1.
      + skip. change (sec _ _) with (inp sn m (w_regd (vw q) (add t (v_regd (vw q)))) q).
        destruct name as [|c0 name].
        * cbn [is_nil]. apply done_valid; auto. split; auto. now rewrite <- H1.
        * cbn [is_nil]. skip. skip.
          match goal with |- ok _ (sec _ (Some (?p, _))) _ /\ _ => change (valid t (AUnlock (Done t (ORegister (c0 :: name)) RUnit);;; Ret) (inp sn m p q)) end.
          apply done_valid; auto. split; auto. now rewrite <- H1.
    - apply locked_valid; auto. intros sn m q C S. next ini ph1 H1; [easy|]. destruct H1 as [H1 H2]. cbn in H2. subst ph1. specialize (H1 _ _ eq_refl).
      destruct ini; cbn [negb].
      2:{ apply done_valid; auto. split; auto. now rewrite <- H1. }
      assert (Rest : valid t (AReg false;;;
            on <- ALdEnabled;;
            if on then ADeregAdd;;; AUnlock (Done t ODeregister RUnit);;; Ret else ANameDel;;; AUnlock (Done t ODeregister RUnit);;; Ret) (inp sn m (vw q) q)).
      { skip. next on ph2 H2; [easy|]. destruct H2 as [-> H2]. specialize (H2 _ _ eq_refl). cbn in H2.
        destruct on.
        - skip.
          match goal with |- ok _ (sec _ (Some (?p, _))) _ /\ _ => change (valid t (AUnlock (Done t ODeregister RUnit);;; Ret) (inp true m p q)) end.
          apply done_valid; auto; [split; auto; now rewrite <- H1|]. unfold w_dereg, w_names, w_regd; cbn; rewrite <- H2; reflexivity.
        - skip.
          match goal with |- ok _ (sec _ (Some (?p, _))) _ /\ _ => change (valid t (AUnlock (Done t ODeregister RUnit);;; Ret) (inp sn m p q)) end.
          apply done_valid; auto; [split; auto; now rewrite <- H1|]. unfold w_dereg, w_names, w_regd; cbn; rewrite <- H2; reflexivity. }
      next c ph3 H3; [easy|]. cbn in H3. subst ph3. destruct c as [[b0 i]|]; [|exact Rest].
      next o ph3 H3; [easy|]. cbn in H3. subst ph3. destruct o as [b|].
      + unfold returnChunk. skip. skip. skip.
        exact Rest.
      + skip. exact Rest.
    - apply locked_valid; auto. intros sn m q C S. next c ph1 H1; [now split|]. destruct H1 as [-> H1]. cbn in H1.
      apply done_valid; auto. split; auto. now rewrite H1.
    - apply locked_valid; auto. intros sn m q C S. next x ph1 H1; [now split|]. destruct H1 as [-> H1]. cbn in H1.
      apply done_valid; auto. split; auto. exists x. auto.
    - next i ph1 H1; [easy|]. cbn in H1. subst ph1. skip; easy.
    - apply log_valid; auto. intros r ph' O'. skip; easy.
    - apply macro_valid; auto. intros r ph' O'. skip; easy.
    - apply locked_valid; auto. intros sn m q C S. next x ph1 H1; [split; [split; [reflexivity|split; [exact C|easy]]|now split]|]. cbn in H1.
      destruct H1 as [q' [sn' [[C' _] ->]]]. apply done_valid; auto. easy.
    - cbn [is_destroy]. next r1 ph1 H1; [exact O|]. cbn in H1. destruct H1 as [p [q [-> [C [S ->]]]]].
      change (enter _ (vw q) q) with (inp false true (vw q) q). apply stop_valid; [auto|exact I|]. intros r sn' q' C' R.
      destruct (stop_fin _ _ _ _ _ _ R S) as [F _]. pose proof (stopR_off _ _ _ _ _ R) as Off'.
      next r2 ph2 H2.
      + cbn. repeat split; auto; apply C'.
      + cbn in H2. subst ph2. destruct r as [x|].
        * skip; easy.
        * next r3 ph3 H3.
          -- cbn. repeat split; auto. eexists. split; [reflexivity|]. cbn. repeat split; auto; apply C'.
          -- cbn in H3. destruct H3 as [q3 [_ ->]]. skip; easy.
  Qed.

  Lemma hookR_refl nr q : calm q -> (nr = true -> v_on (vw q) = false) -> hookR nr q q.
  Proof. intros C O. split; auto. split; [exists []; now rewrite app_nil_r|auto]. Qed.

  Lemma hookR_trans nr a b c : hookR nr a b -> hookR nr b c -> hookR nr a c.
  Proof.
    intros [Ca [[l La] Na]] [Cb [[l' Lb] Nb]]. split; auto. split.
    - exists (l ++ l'). now rewrite Lb, La, app_assoc.
    - intros E. destruct (Na E), (Nb E). split; congruence.
  Qed.

  (** Back from a nested call. *)
  Lemma back_valid t h r hk k sn sn' m p q q' :
    (forall r0 ph', post t (inp sn m (vw q) q) (AHook hk) r0 ph' -> valid t (k r0) ph') ->
    hookR (h_norestart hk) q q' -> nested_legal csz q' t h r -> p = after_call t (hop_op h) r (vw q') ->
    v_on p = v_on (vw q') ->
    valid t (AEmit (Nested t h r);;; Act (AHook hk) k) (inp sn' m p q').
  Proof.
    intros K [C' [[l Sl] N]] L -> Po.
    next r1 ph1 H1.
    { split; [|right; eauto]. cbn. repeat split; auto; apply C'. }
    cbn [upd_sec post a_sec inp] in H1. unfold upd_sec in H1. cbn [a_sec inp] in H1. subst ph1.
    set (q2 := advance q' (Nested t h r)).
    change (after_call t (hop_op h) r (vw q')) with (vw q2).
    assert (R2 : hookR (h_norestart hk) q q2).
    { split; [split; apply C'|]. split.
      - exists (l ++ [Nested t h r]). transitivity (since q' ++ [Nested t h r]); [reflexivity|]. now rewrite Sl, <- app_assoc.
      - intros E. destruct (N E) as [A B]. change (vw q2) with (after_call t (hop_op h) r (vw q')). rewrite Po. split; auto.
        rewrite <- B. destruct h, r; reflexivity. }
    next r0 ph' H0.
    { split; [split; [reflexivity|split; [apply R2|apply R2]]|now split]. }
    cbn in H0. destruct H0 as [q3 [sn3 [R3 ->]]]. apply K. cbn. exists q3, sn3. split; auto. eapply hookR_trans; eauto.
  Qed.

  Lemma hcode_valid t h hk k ph :
    (match h with HStart _ => h_norestart hk = false | HLog _ => insec ph (fun p q => v_on p = false) | _ => True end) ->
    valid t (Act (AHook hk) k) ph -> valid t (hcode csz t h (Act (AHook hk) k)) ph.
  Proof.
    intros Po V. pose proof V as V0. cbn [LogFrame.valid] in V0. destruct V0 as [O K]. destruct ph as [[[p q]|] ini sn m af]; cbn in O; [|easy].
    destruct O as [[-> [C N]] [-> ->]].
    change {| a_sec := Some (vw q, q); a_ini := false; a_seen := sn; a_mine := m; a_after := None |} with (inp sn m (vw q) q) in *.
    assert (R : hookR (h_norestart hk) q q) by (apply hookR_refl; auto).
    destruct h; cbn [hcode].
    - apply start_valid; auto. intros r sn' q' C' [L [[l S] Z]]. eapply back_valid; eauto.
      split; auto. split; eauto. rewrite Po. easy.
    - apply stop_valid; [auto|exact I|]. intros r sn' q' C' X. eapply back_valid; eauto.
      + destruct X as [[-> [-> X]]|[O [[o [l [Sx Hx]]] Hn]]].
        * exact R.
        * split; auto. split; eauto. intros E. rewrite N in O by auto. easy.
      + cbn. destruct r; cbn; eauto.
    - unfold getBuffer_lh. next on ph1 H1; [easy|]. destruct H1 as [-> H1]. specialize (H1 _ _ eq_refl). destruct on.
      + change (saw _) with (inp true m (vw q) q). eapply back_valid; eauto. cbn. now rewrite <- H1.
      + next b ph2 H2; [now split|]. destruct H2 as [Hb H2]. cbn in H2. subst ph2. specialize (Hb _ _ eq_refl).
        change (sec _ _) with (inp sn m (w_buf (vw q) None) q). eapply back_valid; eauto. cbn. rewrite <- H1. now rewrite Hb.
    - unfold getTraceContext_lh. next on ph1 H1; [easy|]. destruct H1 as [-> H1]. specialize (H1 _ _ eq_refl). destruct on.
      + change (saw _) with (inp true m (vw q) q). eapply back_valid; eauto. cbn. now rewrite <- H1.
      + next b ph2 H2; [now split|]. destruct H2 as [Hb H2]. cbn in H2. subst ph2. specialize (Hb _ _ eq_refl).
        next ns ph3 H3; [now split|]. destruct H3 as [-> H3]. cbn in H3.
        change (sec _ _) with (inp sn m (w_buf (vw q) None) q). eapply back_valid; eauto. cbn. rewrite <- H1. now rewrite Hb, H3.
    - next on ph1 H1; [easy|]. destruct H1 as [H0 H1]. specialize (H1 _ _ eq_refl). cbn in H1.
      assert (exists sn', ph1 = inp sn' m (vw q) q) as [sn' ->] by (destruct on; subst ph1; eexists; reflexivity).
      eapply back_valid; eauto. cbn. now rewrite H1.
    - apply log_valid_off; auto. eapply back_valid; eauto. easy.
  Qed.
End View.
