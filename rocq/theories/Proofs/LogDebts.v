(** Every logging call stores its own event at most once, and only gives up for
    a reason. *)
From Verif Require Import Base Model.StringUtils Model.Event Model.Queue Model.Buffer Model.Config Spec.Categories Model.Registry
  Model.Interleave Spec.LogHistory Spec.LogFacts Spec.LogRecords Model.TraceLog Spec.LogMemory Proofs.Interleave Proofs.Registry Proofs.LogFrame Proofs.LogView Proofs.LogViewInv
  Proofs.LogContract Proofs.LogBuffers Proofs.LogSafe Proofs.LogSafeInv Proofs.LogSafeAT Proofs.LogSafeOW Proofs.LogSafeAll Proofs.LogRaces Proofs.LogHolders Proofs.LogGhost.

(** [d_ex]: met an obstacle; [d_z]: logs inside the lock, with tracing off. *)
Record dph := { d_debt : debt; d_ex : bool; d_z : bool }.

Definition d_met (p : dph) : dph := {| d_debt := d_debt p; d_ex := true; d_z := false |}.
Definition d_same (p : dph) : dph := {| d_debt := d_debt p; d_ex := d_ex p; d_z := false |}.
Definition d_set (d : debt) (p : dph) : dph := {| d_debt := d; d_ex := d_ex p; d_z := false |}.

Definition okP (t : tid) (p : dph) (a : act) : Prop :=
  (d_z p = true -> a = ALdEnabled) /\
  match a with
  | AStore _ _ e => d_debt p = Owes e
  | ANote (Done _ (OLog e) RUnit) => d_debt p = Kept e \/ (d_debt p = Owes e /\ d_ex p = true)
  | ANote (Done _ (OMacro _ e) RUnit) => d_debt p = Kept e \/ d_debt p = Waived e \/ (d_debt p = Owes e /\ d_ex p = true)
  | _ => True
  end.

Definition nextP (p : dph) (a : act) : ans a -> dph :=
  match a return ans a -> dph with
  | ALdEnabled | ATryTenant | AInitGet => fun r => if r then d_same p else d_met p
  | ABufGet => fun r => match r with None => d_met p | Some _ => d_same p end
  | AIssue _ => fun r => match r with IFull => d_met p | _ => d_same p end
  | AStore _ _ e => fun r => match r with None => d_set (Kept e) p | Some _ => d_same p end
  | AStatus _ => fun r => if r then d_same p else d_set (match d_debt p with Owes e => Waived e | d => d end) p
  | _ => fun _ => d_same p
  end.

Definition saysP (p : dph) (a : act) : ans a -> Prop :=
  match a return ans a -> Prop with ALdEnabled => fun r => d_z p = true -> r = false | _ => fun _ => True end.

Definition postP (t : tid) (p : dph) (a : act) (r : ans a) (p' : dph) : Prop := saysP p a r /\ p' = nextP p a r.

Definition quietP (p : dph) : Prop := True.

Definition le (p p' : dph) : Prop := d_debt p' = d_debt p /\ (d_ex p = true -> d_ex p' = true) /\ d_z p' = d_z p.

Lemma snoc_case {A} (h : list A) z x w y : h ++ [z] = x ++ w :: y -> (exists y', y = y' ++ [z] /\ h = x ++ w :: y') \/ (y = [] /\ x = h /\ w = z).
Proof.
  destruct y as [|y0 y _] using rev_ind; intros E.
  - right. apply app_inj_tail in E as [-> ->]. auto.
  - left. exists y. rewrite app_comm_cons, app_assoc in E. apply app_inj_tail in E as [-> ->]. auto.
Qed.

Section Debts.
  Variables cap csz : N.
  Variable site_cat : nat -> bytes.
  Notation vP := (valid okP postP quietP).

  Lemma vP_mono t c : forall p p', le p p' -> vP t c p -> vP t c p'.
  Proof.
    induction c as [|a k IH]; intros p p' L V; [exact I|]. destruct V as [[O1 O2] V]. pose proof L as [L1 [L2 L3]]. split.
    - split; [now rewrite L3|]. destruct a; auto; rewrite ?L1; auto; destruct e; auto; destruct o; auto; destruct r; auto; intuition.
    - intros r p1 [S ->]. assert (S' : saysP p a r) by (destruct a; cbn in *; auto; now rewrite <- L3).
      specialize (V r _ (conj S' eq_refl)). revert V. apply IH.
      destruct a; cbn; rewrite ?L1; try ((split; [|split]); cbn; auto; fail); repeat match goal with |- context [match ?x with _ => _ end] => destruct x end;
        (split; [|split]); cbn; auto; rewrite ?L1; auto; destruct (d_debt p); auto.
  Qed.

  Ltac next r p H := cbn [LogFrame.valid]; split; [|let Hp := fresh in intros r p [H Hp]; cbn [saysP] in H; cbn [nextP] in Hp; subst p].
  Ltac ok := split; cbn; auto; try congruence.

  (** From here on, only [d_z = false]. *)
  Definition free (p : dph) : Prop := d_z p = false.

  Lemma same_free p : free p -> d_same p = p.
  Proof. unfold free, d_same. destruct p; cbn. now intros ->. Qed.
  Lemma met_le p : free p -> le p (d_met p).
  Proof. unfold free. intros E. split; [|split]; cbn; auto. Qed.
  Lemma le_refl p : le p p.
  Proof. split; auto. Qed.
  Lemma le_free p p' : le p p' -> free p -> free p'.
  Proof. unfold free. intros [_ [_ ->]]. auto. Qed.
  Lemma le_trans p q r : le p q -> le q r -> le p r.
  Proof. unfold le. intros [A [B C]] [D [E F]]. rewrite D, F. auto. Qed.

  Ltac act r p := next r p ltac:(fresh); [split; [intros ?X; unfold free in *; congruence|cbn; auto]|rewrite ?same_free by auto].

  Lemma evict_P t k p : free p -> vP t k p -> forall n l, vP t (evict n l k) p.
  Proof.
    intros F V. induction n as [|n IH]; intros l; cbn [evict]; auto.
    act u p1. act r2 p2. act r3 p3. act r4 p4. apply IH.
  Qed.

  Lemma stop_P t nr w k p : free p -> (forall r, vP t (k r) p) -> vP t (stop_lh t nr w k) p.
  Proof.
    intros F K. unfold stop_lh. act was p1. destruct was; auto. act r2 p2. act l p3. apply evict_P; auto. act c p4.
    set (cb := if negb (is_shutdown w) || cf_stop c then cf_callback c else None).
    act r5 p5. destruct cb; auto. act r6 p6. apply K.
  Qed.

  Lemma start_P t c k p : free p -> (forall r p', le p p' -> vP t (k r) p') -> vP t (start_lh csz t c k) p.
  Proof.
    intros F K. unfold start_lh. act r1 p1. destruct (cf_size c / csz =? 0)%N; [apply K, le_refl|].
    assert (Go : forall p', le p p' -> vP t (g <- AIncGen;; m <- AFactory c g (cf_size c / csz)%N;;
         match m with
         | MadeThrow x => k (Some x)
         | _ => ABufSet (made_buffer m);;; AUpdate (cf_enabled c) (cf_disabled c);;; AClear;;; AStEnabled g m;;; k None
         end) p').
    { intros p' L. pose proof (le_free _ _ L F) as F'. act g p2. act m p3.
      assert (Q : vP t (ABufSet (made_buffer m);;; AUpdate (cf_enabled c) (cf_disabled c);;; AClear;;; AStEnabled g m;;; k None) p').
      { act r5 p5. act r6 p6. act r7 p7. act r8 p8. auto. }
      destruct m; auto. }
    act on p2. destruct on; rewrite ?same_free by auto.
    - apply stop_P; auto. intros [x|]; [apply K|apply Go]; apply le_refl.
    - apply Go. now apply met_le.
  Qed.

  Lemma maybe_stop_P t g k p : free p -> (forall r, vP t (k r) p) -> vP t (maybe_stop t g k) p.
  Proof.
    intros F K. unfold maybe_stop. act got p1. destruct got; auto. act g' p2.
    destruct (g' =? g)%N; [apply stop_P; auto; intros r|]; act r3 p3; auto.
  Qed.

  Lemma replace_P t k p : free p -> (forall p', le p p' -> vP t (k true) p') -> (forall p', le p p' -> d_ex p' = true -> vP t (k false) p') ->
    vP t (replaceChunk k) p.
  Proof.
    intros F Kt Kf.
    assert (Rest : forall p', le p p' -> vP t (o <- ALdEnabled;;
          if negb o then k false
          else
            b <- ABufGet;;
            match b with
            | None => k false
            | Some _ =>
                b <- ABufGet;;
                match b with
                | None => ACrash;;; Ret
                | Some b => getChunk b (fun c => AChunkSet c;;; k (match c with Some _ => true | None => false end))
                end
            end) p').
    { intros p1 L. pose proof (le_free _ _ L F) as F1. act o p2. destruct o; cbn [negb]; rewrite ?same_free by auto.
      2:{ apply Kf; auto. eapply le_trans; eauto. now apply met_le. }
      act b p3. destruct b as [b|]; rewrite ?same_free by auto.
      2:{ apply Kf; auto. eapply le_trans; eauto. now apply met_le. }
      act b' p4. destruct b' as [b'|]; rewrite ?same_free by auto.
      2:{ assert (F2 : free (d_met p1)) by reflexivity. act r5 p5. exact I. }
      unfold getChunk. act r p5. destruct r as [i| |]; rewrite ?same_free by auto.
      - act r6 p6. act r7 p7. act r8 p8. auto.
      - assert (F2 : free (d_met p1)) by reflexivity. act r8 p8. apply Kf; auto. eapply le_trans; eauto. now apply met_le.
      - act i p6. act r7 p7. act r8 p8. act r9 p9. auto. }
    unfold replaceChunk. act c p1. destruct c as [[b0 i]|]; [|apply Rest, le_refl].
    act b p2. destruct b as [b|]; rewrite ?same_free by auto.
    2:{ assert (F2 : free (d_met p)) by reflexivity. act r5 p5. exact I. }
    unfold returnChunk. act r3 p3. act r4 p4. act r5 p5. apply Rest, le_refl.
  Qed.

  Lemma log_P t e k p : free p -> d_debt p = Owes e ->
    (forall r p', free p' -> (r = None -> d_debt p' = Kept e \/ (d_debt p' = Owes e /\ d_ex p' = true)) -> vP t (k r) p') -> vP t (logEvent t e k) p.
  Proof.
    intros F D K.
    assert (Ex : forall r p', le p p' -> d_ex p' = true -> vP t (k r) p').
    { intros r p' [L1 [L2 L3]] X. apply K; [unfold free in *; congruence|]. right. split; congruence. }
    assert (M : le p (d_met p)) by (now apply met_le). assert (FM : free (d_met p)) by reflexivity.
    unfold logEvent. act o p1. destruct o; cbn [negb]; rewrite ?same_free by auto; [|auto].
    act got p2. destruct got; cbn [negb]; rewrite ?same_free by auto; [|auto].
    act ini p3. destruct ini; cbn [negb]; rewrite ?same_free by auto; [|act r4 p4; auto].
    assert (St : forall p', le p p' -> vP t (c <- AChunkGet;; match c with None => ACrash;;; Ret | Some (b, i) => x <- AStore b i e;; AUnTenant;;; k x end) p').
    { intros p1 L. pose proof (le_free _ _ L F) as F1. act c p5. destruct c as [[b i]|]; [|act r6 p6; exact I].
      assert (D1 : d_debt p1 = Owes e) by (destruct L; congruence).
      act x p6. destruct x as [x|]; rewrite ?same_free by auto.
      - act r7 p7. apply K; auto. discriminate.
      - assert (F2 : free (d_set (Kept e) p1)) by reflexivity. act r7 p7. apply K; auto. }
    assert (Rf : vP t (on <- ALdEnabled;;
            if negb on then AUnTenant;;; k None
            else replaceChunk (fun ok =>
              if ok then (c <- AChunkGet;; match c with None => ACrash;;; Ret | Some (b, i) => x <- AStore b i e;; AUnTenant;;; k x end)
              else g <- ALdGen;; AUnTenant;;; maybe_stop t g k)) p).
    { act o p5. destruct o; cbn [negb]; rewrite ?same_free by auto; [|act r4 p4; auto].
      apply replace_P; auto. intros p1 L X. pose proof (le_free _ _ L F) as F1. act g p6. act r7 p7. apply maybe_stop_P; auto. }
    act c p5. destruct c as [[b i]|]; auto. act full p6. destruct full; auto. apply St, le_refl.
  Qed.

  Lemma un_P t x q : free q -> vP t (AUnlock x;;; Ret) q.
  Proof. intros Fq. act r1 p1. exact I. Qed.
  Ltac fin := intros; try (apply un_P; auto; fail); auto.

  Lemma code_P t o : vP t (code_of csz site_cat t o) {| d_debt := new_debt o; d_ex := false; d_z := false |}.
  Proof.
    set (p := {| d_debt := new_debt o; d_ex := false; d_z := false |}). assert (F : free p) by reflexivity.
    assert (M : le p (d_met p)) by (now apply met_le). assert (FM : free (d_met p)) by reflexivity.
    assert (LF : forall q, le p q -> free q) by (intros q L; now apply (le_free p)).
    destruct o; cbn [code_of]; unfold locked.
    - act r1 p1. apply start_P; fin.
    - destruct startup as [c|]; act r1 p1; fin. apply start_P; fin.
    - act r1 p1. apply stop_P; fin.
    - act r1 p1. unfold getBuffer_lh. act on p2. destruct on; rewrite ?same_free by auto; [fin|]. act b p3. fin.
    - act r1 p1. unfold getTraceContext_lh. act on p2. destruct on; rewrite ?same_free by auto; [fin|]. act b p3. act ns p4. fin.
    - act on p1. destruct on; rewrite ?same_free by auto; act r2 p2; exact I.
    - act r1 p1. act ini p2. destruct ini; rewrite ?same_free by auto; fin. act r3 p3. destruct (is_nil name); fin. act r4 p4. act r5 p5. fin.
    - act r1 p1. act ini p2. destruct ini; cbn [negb]; rewrite ?same_free by auto; fin.
      assert (Rest : forall q, free q -> vP t (AReg false;;; on <- ALdEnabled;; if on then ADeregAdd;;; AUnlock (Done t ODeregister RUnit);;; Ret else ANameDel;;; AUnlock (Done t ODeregister RUnit);;; Ret) q).
      { intros q Fq. act r3 p3. act on p4. assert (X : free (d_met q)) by reflexivity. destruct on; rewrite ?same_free by auto; act r5 p5; fin. }
      act c p3. destruct c as [[b i]|]; [|apply Rest; auto]. act b' p4. destruct b' as [b'|]; rewrite ?same_free by auto; unfold returnChunk.
      + act r5 p5. act r6 p6. act r7 p7. apply Rest; auto.
      + act r7 p7. apply Rest; auto.
    - act r1 p1. act c p2. fin.
    - act r1 p1. act c p2. fin.
    - act i p1. act r2 p2. exact I.
    - apply (log_P t e); auto. intros r q Fq Hq. act r1 p1; [|exact I]. destruct r; cbn; auto.
    - assert (Nt : forall r q, free q -> (r = None -> d_debt q = Kept e \/ d_debt q = Waived e \/ (d_debt q = Owes e /\ d_ex q = true)) -> vP t (ANote (Done t (OMacro site e) (out_of r));;; Ret) q).
      { intros r q Fq Hq. act r1 p1; [|exact I]. destruct r; cbn; auto. }
      assert (Gt : forall i, vP t (on <- AStatus i;; if on then logEvent t e (fun r => ANote (Done t (OMacro site e) (out_of r));;; Ret) else ANote (Done t (OMacro site e) (out_of None));;; Ret) p).
      { intros i. act on p1. destruct on; rewrite ?same_free by auto.
        - apply log_P; auto. intros r q Fq Hq. apply Nt; auto. intros E. apply Hq in E as [E|E]; auto.
        - apply (Nt None); [reflexivity|]. intros _. right. left. reflexivity. }
      unfold macro. act x p1. destruct x; auto. act i p2. act r3 p3. apply Gt.
    - act r1 p1. act r2 p2. fin.
    - act r1 p1. apply stop_P; auto. intros r. act r2 p2. destruct r; act r3 p3; [exact I|]. act r4 p4. exact I.
  Qed.

  (** A nested call, then back to the callback. *)
  Lemma hcode_P t h hk k p : free p -> vP t (Act (AHook hk) k) p ->
    exists p', (match h with HLog _ => p' = {| d_debt := d_debt p; d_ex := d_ex p; d_z := true |} | _ => p' = p end) /\ vP t (hcode csz t h (Act (AHook hk) k)) p'.
  Proof.
    intros F V. assert (Fin : forall r q, le p q -> vP t (AEmit (Nested t h r);;; Act (AHook hk) k) q).
    { intros r q L. pose proof (le_free _ _ L F) as Fq. act r1 p1. exact (vP_mono t (Act (AHook hk) k) p q L V). }
    assert (M : le p (d_met p)) by (now apply met_le). assert (FM : free (d_met p)) by reflexivity.
    destruct h; (eexists; split; [reflexivity|]); cbn [hcode].
    - apply start_P; auto.
    - apply stop_P; auto. intros r. apply Fin, le_refl.
    - unfold getBuffer_lh. act on p2. destruct on; rewrite ?same_free by auto; [apply Fin, le_refl|]. act b p3. apply Fin; auto.
    - unfold getTraceContext_lh. act on p2. destruct on; rewrite ?same_free by auto; [apply Fin, le_refl|]. act b p3. act ns p4. apply Fin; auto.
    - act on p2. destruct on; rewrite ?same_free by auto; apply Fin; auto using le_refl.
    - unfold logEvent. next on p2 H2; [split; cbn; auto|]. rewrite H2 by reflexivity. cbn [negb]. apply Fin. exact M.
  Qed.

  Notation reached := (reached cap csz site_cat).

  Definition dbt (s : st) (f : tid -> dph) (h : tid -> option nat) : Prop := forall t,
    d_debt (f t) = debt_of (hist s) t /\ (d_ex (f t) = true -> h t = Some (calls (hist s) t)) /\
    (d_z (f t) = true -> enabled s = false /\ mtx s = Some t).

  Lemma debt_snoc h t x : debt_of (h ++ [x]) t = debt_step t (debt_of h t) x.
  Proof. unfold debt_of. now rewrite fold_left_app. Qed.

  Lemma calls_snoc h t x : calls (h ++ [x]) t = calls h t + match x with Invoked u _ => if Nat.eqb u t then 1 else 0 | _ => 0 end.
  Proof. unfold calls. rewrite filter_app, app_length. cbn. destruct x; cbn; auto. now destruct (Nat.eqb t0 t). Qed.

  (** Events that say nothing about debts. *)
  Definition mute (x : hev) : bool := match x with Invoked _ _ | Stored _ _ _ | Tested _ _ _ => false | _ => true end.

  (** What an action adds to the history. *)
  Lemma exec_adds s t ch a k s' r : reached s -> code s t = Act a k -> exec cap s t ch a = Next s' r ->
    match a return ans a -> Prop with
    | AStore b i e => fun r => hist s' = hist s ++ match r with None => [Stored t b e] | Some _ => [] end
    | AStatus i => fun r => hist s' = hist s ++ [Tested t i r]
    | _ => fun _ => hist s' = hist s \/ exists x, mute x = true /\ hist s' = hist s ++ [x]
    end r.
  Proof.
    intros R Ec E. destruct (allowed _ _ _ s t a k R Ec) as [g [Ga Oa]].
    destruct a; ex E; rewrite ?app_nil_r; auto; try (right; eexists; split; [|reflexivity]; auto; fail); try (destruct (bufp s); auto; fail).
    - right. exists e. split; auto. cbn in Oa. unfold insec in Oa. destruct (a_sec (g t)) as [[p q]|]; [|easy]. destruct Oa as [_ [I _]]. now destruct e.
    - right. exists e. split; auto. cbn in Oa. unfold insec in Oa. destruct (a_sec (g t)) as [[p q]|]; [|easy]. now destruct Oa as [_ [[o [-> _]]|[h [r [-> _]]]]].
    - right. exists e. split; auto. cbn in Oa. now destruct Oa as [o [r [-> _]]].
    - right. exists (Freed t). split; auto. now destruct (bufp s).
  Qed.

  (** Giving up comes with an obstacle. *)
  Lemma exec_met s t ch a k s' r p : reached s -> code s t = Act a k -> exec cap s t ch a = Next s' r ->
    d_ex (nextP p a r) = true -> d_ex p = true \/ obstacle s t = true.
  Proof.
    intros R Ec E X. destruct (safe_at cap csz site_cat s R) as [f [G V]]. assert (O : okB t (f t) a) by (apply V; now exists k).
    unfold obstacle, log_stats. cbn [ls_buffer].
    destruct a; ex E; cbn [nextP] in X; auto;
      try (right; match goal with Q : _ = _ |- _ => rewrite ?Q end; rewrite ?orb_true_r; reflexivity).
    - destruct (enabled s); auto.
    - destruct (bufp s); auto. right. now rewrite orb_true_r.
    - right. cbn in O. destruct (at_bp _ _ (gb_at _ _ _ G) t (Some b)) as [-> _]; [tauto|]. cbn.
      repeat match goal with Q : b_kind _ = _ |- _ => rewrite Q; clear Q end.
      match goal with Q : (_ <? _)%N = false |- _ => apply N.ltb_ge in Q end. apply orb_true_intro. right. now apply N.leb_le.
    - destruct (t_init (ten s t)); auto. right. now rewrite orb_true_r.
    - match goal with Q : context [if ?b then _ else _] |- _ => destruct b end; auto.
  Qed.

  (** A thread holding the lock is not disturbed. *)
  Lemma exec_undisturbed s t ch a k s' r u : reached s -> code s t = Act a k -> exec cap s t ch a = Next s' r -> u <> t -> mtx s = Some u ->
    enabled s' = enabled s /\ mtx s' = Some u.
  Proof.
    intros R Ec E N M. destruct (safe_at cap csz site_cat s R) as [f [G V]]. assert (O : okB t (f t) a) by (apply V; now exists k).
    assert (H : m_hold (f t) <> None -> False).
    { intros H. apply (lk_hold _ _ (gb_lk _ _ _ G)) in H. congruence. }
    destruct a; cbn [okB] in O; ex E; auto; try congruence; try (exfalso; apply H; intuition; congruence); try (destruct (bufp s); auto; fail).
    - exfalso. destruct O as [[on O] _]. apply H. congruence.
    - split; congruence.
    - exfalso. destruct O as [[on O] _]. apply H. congruence.
  Qed.

  Lemma dbt_exec s f h t ch a k s' r : reached s -> dbt s f h -> code s t = Act a k -> okP t (f t) a -> exec cap s t ch a = Next s' r ->
    postP t (f t) a r (nextP (f t) a r) /\ dbt s' (tset f t (nextP (f t) a r)) (note_obstacle s t a r h).
  Proof.
    intros R D Ec O E. split.
    - split; auto. destruct a; cbn; auto. intros Z. destruct (D t) as [_ [_ D3]]. apply D3 in Z. ex E. tauto.
    - assert (Hc : forall u, calls (hist s') u = calls (hist s) u).
      { intros u. pose proof (exec_adds _ _ _ _ _ _ _ R Ec E) as X. destruct a; try (destruct X as [->|[x [Mx ->]]]; auto; rewrite calls_snoc; destruct x; easy || lia).
        - rewrite X. destruct r; [now rewrite app_nil_r|]. rewrite calls_snoc. lia.
        - rewrite X, calls_snoc. lia. }
      intros u. destruct (D u) as [D1 [D2 D3]]. split; [|split].
      + pose proof (exec_adds _ _ _ _ _ _ _ R Ec E) as X.
        assert (Gen : (hist s' = hist s \/ exists x, mute x = true /\ hist s' = hist s ++ [x]) -> d_debt (nextP (f t) a r) = d_debt (f t) ->
          d_debt (tset f t (nextP (f t) a r) u) = debt_of (hist s') u).
        { intros Y Z. assert (W : debt_of (hist s') u = debt_of (hist s) u) by (destruct Y as [->|[x [Mx ->]]]; auto; rewrite debt_snoc; now destruct x).
          rewrite W. byt u t; auto. now rewrite Z. }
        destruct a; try (apply Gen; auto; cbn [nextP]; try destruct r; reflexivity).
        * rewrite X. destruct r; [rewrite app_nil_r|rewrite debt_snoc]; byt u t; auto; cbn; rewrite ?Nat.eqb_refl; auto.
          destruct (Nat.eqb t u) eqn:Q; auto. apply Nat.eqb_eq in Q. congruence.
        * rewrite X, debt_snoc. byt u t; cbn; rewrite ?Nat.eqb_refl.
          -- destruct r; cbn [d_set d_same d_debt]; rewrite <- ?D1; auto. now destruct (d_debt (f t)).
          -- destruct r; auto. destruct (Nat.eqb t u) eqn:Q; auto. apply Nat.eqb_eq in Q. congruence.
      + rewrite Hc. unfold note_obstacle. destruct (obstacle s t) eqn:Ob.
        * byt u t; auto.
        * byt u t; auto. intros X. destruct (exec_met _ _ _ _ _ _ _ _ R Ec E X) as [Y|Y]; [auto|congruence].
      + byt u t.
        * intros X. exfalso. destruct a; cbn [nextP] in X; try destruct r; discriminate X.
        * intros X. apply D3 in X as [X Y]. destruct (exec_undisturbed _ _ _ _ _ _ _ u R Ec E) as [Z W]; auto. split; congruence.
  Qed.

  Lemma dbt_same s f h s' : dbt s f h -> hist s' = hist s -> enabled s' = enabled s -> mtx s' = mtx s -> dbt s' f h.
  Proof. intros D E1 E2 E3 t. rewrite E1, E2, E3. apply D. Qed.

  Theorem debts_kept sched : let s := run (pstep cap csz site_cat) log_new sched in
    exists f, dbt s f (obstacles cap csz site_cat sched) /\ forall t, vP t (code s t) (f t).
  Proof.
    apply (ginv_all cap csz site_cat okP postP quietP note_obstacle (fun _ => None) (fun _ => {| d_debt := NoDebt; d_ex := false; d_z := false |}) dbt).
    - intros s f h t c D. now apply (dbt_same s).
    - intros s f h t ch a k s' r R D _ Ec O E. exists (nextP (f t) a r). eapply dbt_exec; eauto.
    - intros s f h t o R D Ec Q Cl. exists {| d_debt := new_debt o; d_ex := false; d_z := false |}. split; [apply code_P|].
      assert (X : dbt (emit s (Invoked t o)) (tset f t {| d_debt := new_debt o; d_ex := false; d_z := false |}) h).
      { intros u. change (hist (emit s (Invoked t o))) with (hist s ++ [Invoked t o]). rewrite debt_snoc, calls_snoc. destruct (D u) as [D1 [D2 D3]]. byt u t; cbn [debt_step].
        - rewrite Nat.eqb_refl. cbn. repeat split; easy.
        - destruct (Nat.eqb t u) eqn:W; [apply Nat.eqb_eq in W; congruence|]. rewrite Nat.add_0_r. auto. }
      destruct (is_destroy o); [now apply (dbt_same (emit s (Invoked t o)))|auto].
    - intros s f h t n hk k R D Po Ec V. pose proof V as [[Oz _] _]. assert (F : free (f t)) by (unfold free; destruct (d_z (f t)); auto; now specialize (Oz eq_refl)).
      destruct (hcode_P t n hk k (f t) F V) as [p' [Ep V']]. exists p'. split; auto.
      destruct n; try (subst p'; intros u; byt u t; apply D).
      intros u. subst p'. destruct (D u) as [D1 [D2 D3]]. byt u t; auto. cbn [d_debt d_ex d_z]. repeat split; auto.
      + cbn [polite] in Po. now destruct (enabled s).
      + destruct (safe_at cap csz site_cat s R) as [g [Gb Vb]]. apply (lk_hold _ _ (gb_lk _ _ _ Gb)).
        assert (O : okB t (g t) (AHook hk)) by (apply Vb; now exists k). cbn in O. destruct O as [on [O _]]. rewrite O. easy.
    - intros s f h t hk k r R D Ec [Oz _]. assert (F : free (f t)) by (unfold free; destruct (d_z (f t)); auto; now specialize (Oz eq_refl)).
      exists (f t). split; [split; [exact I|]; symmetry; now apply same_free|]. intros u. byt u t; apply D.
    - intros t. cbn. repeat split; easy.
    - intros t. exact I.
  Qed.

  (** Stored events were owed. *)
  Lemma stored_owed sched : forall x t b e y, hist (run (pstep cap csz site_cat) log_new sched) = x ++ Stored t b e :: y -> debt_of x t = Owes e.
  Proof.
    induction sched as [|a sched IH] using rev_ind; intros x t b e y; [now destruct x|]. rewrite run_snoc.
    pose proof (debts_kept sched) as D. cbv zeta in D.
    assert (R : reached (run (pstep cap csz site_cat) log_new sched)) by (now exists sched).
    set (s := run (pstep cap csz site_cat) log_new sched) in *. destruct D as [f [D V]].
    assert (Old : forall z, hist s ++ [z] = x ++ Stored t b e :: y -> (forall u c e', z <> Stored u c e') -> debt_of x t = Owes e).
    { intros z E N. apply snoc_case in E as [[y' [-> H]]|[_ [_ H]]]; [eauto|]. destruct (N t b e). congruence. }
    unfold move. pose proof (never_bad _ _ _ s R) as B. destruct (pstep cap csz site_cat s a) as [s'|] eqn:E; [|apply IH].
    intros H. unfold pstep, step in E. destruct (polite s a); [|easy]. rewrite B in E. destruct a as [u o|u ch|u n|u r].
    - destruct (code s u); [|easy]. destruct (closing s); [easy|].
      assert (Eh : hist s' = hist s ++ [Invoked u o]) by (destruct (is_destroy o); [destruct (is_nil (busy s)); [|easy]|]; injection E as <-; auto).
      apply (Old (Invoked u o)); [congruence|easy].
    - destruct (code s u) as [|q k] eqn:Ec; [easy|]. destruct (exec cap s u ch q) as [| |s1 r] eqn:Ex; [easy| |]; injection E as <-; [now apply (IH x t b e y)|].
      assert (Eh : hist (set_cmd s1 u (k r)) = hist s1) by reflexivity. rewrite Eh in H.
      pose proof (exec_adds _ _ _ _ _ _ _ R Ec Ex) as X.
      assert (Gen : (hist s1 = hist s \/ exists z, mute z = true /\ hist s1 = hist s ++ [z]) -> debt_of x t = Owes e).
      { intros [Y|[z [Mz Y]]]; rewrite Y in H; [eauto|]. apply (Old z); auto. intros v c e' ->. discriminate Mz. }
      destruct q; auto.
      + destruct r as [|]; [rewrite app_nil_r in X; auto|]. rewrite X in H. apply snoc_case in H as [[y' [-> H]]|[-> [-> H]]]; [eauto|]. injection H as -> -> ->.
        specialize (V u). rewrite Ec in V. destruct V as [[_ O] _]. cbn in O. destruct (D u) as [<- _]. exact O.
      + apply (Old (Tested u i r)); [congruence|easy].
    - destruct (hook_of (code s u)); [|easy]. injection E as <-. eapply IH. exact H.
    - destruct (hook_of (code s u)) as [[]|]; [|easy]. injection E as <-. eapply IH. exact H.
  Qed.
End Debts.
