(** A logging call that gives up ends the trace, or has an excuse. The same construction
    as in Proofs/LogDebts.v, with fewer reasons. *)
From Verif Require Import Base Model.StringUtils Model.Event Model.Queue Model.Buffer Model.Config Spec.Categories Model.Registry
  Model.Interleave Spec.LogHistory Spec.LogFacts Spec.LogRecords Model.TraceLog Spec.LogMemory Proofs.Interleave Proofs.Registry Proofs.LogFrame Proofs.LogView Proofs.LogViewInv
  Proofs.LogContract Proofs.LogBuffers Proofs.LogSafe Proofs.LogSafeInv Proofs.LogSafeAT Proofs.LogSafeOW Proofs.LogSafeAll Proofs.LogRaces Proofs.LogHolders Proofs.LogGhost Proofs.LogDebts Spec.LogEnd.

(** [d_ex]: had an excuse; [d_z]: logs inside the lock, with tracing off; [d_g]: the
    generation it read. *)
Record dph := { d_debt : debt; d_ex : bool; d_z : bool; d_g : option N }.

Definition d_met (p : dph) : dph := {| d_debt := d_debt p; d_ex := true; d_z := false; d_g := d_g p |}.
Definition d_same (p : dph) : dph := {| d_debt := d_debt p; d_ex := d_ex p; d_z := false; d_g := d_g p |}.
Definition d_set (d : debt) (p : dph) : dph := {| d_debt := d; d_ex := d_ex p; d_z := false; d_g := d_g p |}.

Definition d_read (g : N) (p : dph) : dph := {| d_debt := d_debt p; d_ex := d_ex p; d_z := false; d_g := Some g |}.

Definition okP (t : tid) (p : dph) (a : act) : Prop :=
  (d_z p = true -> a = ALdEnabled) /\
  match a with
  | AStore _ _ e => d_debt p = Owes e
  | ANote (Done _ (OLog e) RUnit) => d_debt p = Kept e \/ (d_debt p = Owes e /\ d_ex p = true)
  | ANote (Done _ (OMacro _ e) RUnit) => d_debt p = Kept e \/ d_debt p = Waived e \/ (d_debt p = Owes e /\ d_ex p = true)
  | _ => True
  end.

Definition nextP (p : dph) (a : act) : ans a -> dph :=
  match a return ans a -> dph with
  | ALdEnabled | ATryTenant | AInitGet => fun r => if r then d_same p else d_met p
  | AXchg _ => fun _ => d_met p
  | ATryLock => fun r => if r then d_same p else d_met p
  | ALdGen => fun r => match d_g p with None => d_read r p | Some g => if (r =? g)%N then d_same p else d_met p end
  | AStore _ _ e => fun r => match r with None => d_set (Kept e) p | Some _ => d_same p end
  | AStatus _ => fun r => if r then d_same p else d_set (match d_debt p with Owes e => Waived e | d => d end) p
  | _ => fun _ => d_same p
  end.

Definition saysP (p : dph) (a : act) : ans a -> Prop :=
  match a return ans a -> Prop with ALdEnabled => fun r => d_z p = true -> r = false | _ => fun _ => True end.

Definition postP (t : tid) (p : dph) (a : act) (r : ans a) (p' : dph) : Prop := saysP p a r /\ p' = nextP p a r.

Definition quietP (p : dph) : Prop := True.

Definition le (p p' : dph) : Prop := d_debt p' = d_debt p /\ (d_ex p = true -> d_ex p' = true) /\ d_z p' = d_z p /\ d_g p' = d_g p.

Section Full.
  Variables cap csz : N.
  Variable site_cat : nat -> bytes.
  Notation vP := (valid okP postP quietP).

  Lemma vP_mono t c : forall p p', le p p' -> vP t c p -> vP t c p'.
  Proof.
    induction c as [|a k IH]; intros p p' L V; [exact I|]. destruct V as [[O1 O2] V]. pose proof L as [L1 [L2 [L3 L4]]]. split.
    - split; [now rewrite L3|]. destruct a; auto; rewrite ?L1; auto; destruct e; auto; destruct o; auto; destruct r; auto; intuition.
    - intros r p1 [S ->]. assert (S' : saysP p a r) by (destruct a; cbn in *; auto; now rewrite <- L3).
      specialize (V r _ (conj S' eq_refl)). revert V. apply IH. unfold le.
      destruct a; cbn [nextP]; rewrite ?L4; cbn; rewrite ?L1, ?L4; try (repeat split; auto; fail);
        repeat match goal with |- context [match ?x with _ => _ end] => destruct x eqn:? end; cbn; rewrite ?L1, ?L4; repeat split; auto; congruence.
  Qed.

  Ltac next r p H := cbn [LogFrame.valid]; split; [|let Hp := fresh in intros r p [H Hp]; cbn [saysP] in H; cbn [nextP] in Hp; subst p].
  Ltac ok := split; cbn; auto; try congruence.

  (** From here on, only [d_z = false]. *)
  Definition free (p : dph) : Prop := d_z p = false.

  Lemma same_free p : free p -> d_same p = p.
  Proof. unfold free, d_same. destruct p; cbn. now intros ->. Qed.
  Lemma met_le p : free p -> le p (d_met p).
  Proof. unfold free. intros E. repeat split; cbn; auto. Qed.
  Lemma le_refl p : le p p.
  Proof. repeat split; auto. Qed.
  Lemma le_free p p' : le p p' -> free p -> free p'.
  Proof. unfold free. intros [_ [_ [-> _]]]. auto. Qed.
  Lemma le_trans p q r : le p q -> le q r -> le p r.
  Proof. unfold le. intros [A [B [C C']]] [D [E [F F']]]. rewrite D, F, F'. auto. Qed.

  Ltac act r p := next r p ltac:(fresh); [split; [intros ?X; unfold free in *; congruence|cbn; auto]|rewrite ?same_free by auto].

  Lemma evict_P t k p : free p -> vP t k p -> forall n l, vP t (evict n l k) p.
  Proof.
    intros F V. induction n as [|n IH]; intros l; cbn [evict]; auto.
    act u p1. act r2 p2. act r3 p3. act r4 p4. apply IH.
  Qed.

  Lemma stop_P t nr w k p : free p -> (forall r, vP t (k r) (d_met p)) -> vP t (stop_lh t nr w k) p.
  Proof.
    intros F K. assert (FM : free (d_met p)) by reflexivity. unfold stop_lh. act was p1. destruct was; auto. act r2 p2. act l p3. apply evict_P; auto. act c p4.
    set (cb := if negb (is_shutdown w) || cf_stop c then cf_callback c else None).
    act r5 p5. destruct cb; auto. act r6 p6. apply K.
  Qed.

  Lemma start_P t c k p : free p -> (forall r p', le p p' -> vP t (k r) p') -> vP t (start_lh csz t c k) p.
  Proof.
    intros F K. unfold start_lh. act r1 p1. destruct (cf_size c / csz =? 0)%N; [apply K, le_refl|].
    assert (Go : forall p', le p p' -> vP t (g <- AIncGen;; m <- AFactory c g (cf_size c / csz)%N;;
         match m with
         | MadeThrow x => k (Some x)
         | _ => ABufSet (made_buffer m);;; AUpdate (cf_enabled c) (cf_disabled c);;; AClear;;; AStEnabled g m;;; k None
         end) p').
    { intros p' L. pose proof (le_free _ _ L F) as F'. act g p2. act m p3.
      assert (Q : vP t (ABufSet (made_buffer m);;; AUpdate (cf_enabled c) (cf_disabled c);;; AClear;;; AStEnabled g m;;; k None) p').
      { act r5 p5. act r6 p6. act r7 p7. act r8 p8. auto. }
      destruct m; auto. }
    act on p2. destruct on; rewrite ?same_free by auto.
    - apply stop_P; auto. intros [x|]; [apply K|apply Go]; now apply met_le.
    - apply Go. now apply met_le.
  Qed.

  Lemma maybe_stop_P t g k p : free p -> d_g p = Some g -> (forall r, vP t (k r) (d_met p)) -> vP t (maybe_stop t g k) p.
  Proof.
    intros F Eg K. assert (FM : free (d_met p)) by reflexivity. unfold maybe_stop. act got p1. destruct got; rewrite ?same_free by auto; auto. act g' p2.
    rewrite Eg. destruct (g' =? g)%N; rewrite ?same_free by auto; [apply stop_P; auto; intros r|]; act r3 p3; auto.
  Qed.

  Lemma replace_P t k p : free p -> (forall p', le p p' -> vP t (k true) p') -> (forall p', le p p' -> vP t (k false) p') ->
    vP t (replaceChunk k) p.
  Proof.
    intros F Kt Kf.
    assert (Rest : forall p', le p p' -> vP t (o <- ALdEnabled;;
          if negb o then k false
          else
            b <- ABufGet;;
            match b with
            | None => k false
            | Some _ =>
                b <- ABufGet;;
                match b with
                | None => ACrash;;; Ret
                | Some b => getChunk b (fun c => AChunkSet c;;; k (match c with Some _ => true | None => false end))
                end
            end) p').
    { intros p1 L. pose proof (le_free _ _ L F) as F1. act o p2. destruct o; cbn [negb]; rewrite ?same_free by auto.
      2:{ apply Kf; auto. eapply le_trans; eauto. now apply met_le. }
      act b p3. destruct b as [b|]; rewrite ?same_free by auto; [|now apply Kf].
      act b' p4. destruct b' as [b'|]; rewrite ?same_free by auto; [|act r5 p5; exact I].
      unfold getChunk. act r p5. destruct r as [i| |]; rewrite ?same_free by auto.
      - act r6 p6. act r7 p7. act r8 p8. auto.
      - act r8 p8. now apply Kf.
      - act i p6. act r7 p7. act r8 p8. act r9 p9. auto. }
    unfold replaceChunk. act c p1. destruct c as [[b0 i]|]; [|apply Rest, le_refl].
    act b p2. destruct b as [b|]; rewrite ?same_free by auto; [|act r5 p5; exact I].
    unfold returnChunk. act r3 p3. act r4 p4. act r5 p5. apply Rest, le_refl.
  Qed.

  Lemma log_P t e k p : free p -> d_debt p = Owes e -> d_g p = None ->
    (forall r p', free p' -> (r = None -> d_debt p' = Kept e \/ (d_debt p' = Owes e /\ d_ex p' = true)) -> vP t (k r) p') -> vP t (logEvent t e k) p.
  Proof.
    intros F D G K.
    assert (Ex : forall r p', le p p' -> d_ex p' = true -> vP t (k r) p').
    { intros r p' [L1 [L2 [L3 _]]] X. apply K; [unfold free in *; congruence|]. right. split; congruence. }
    assert (M : le p (d_met p)) by (now apply met_le). assert (FM : free (d_met p)) by reflexivity.
    unfold logEvent. act o p1. destruct o; cbn [negb]; rewrite ?same_free by auto; [|auto].
    act got p2. destruct got; cbn [negb]; rewrite ?same_free by auto; [|auto].
    act ini p3. destruct ini; cbn [negb]; rewrite ?same_free by auto; [|act r4 p4; auto].
    assert (St : forall p', le p p' -> vP t (c <- AChunkGet;; match c with None => ACrash;;; Ret | Some (b, i) => x <- AStore b i e;; AUnTenant;;; k x end) p').
    { intros p1 L. pose proof (le_free _ _ L F) as F1. act c p5. destruct c as [[b i]|]; [|act r6 p6; exact I].
      assert (D1 : d_debt p1 = Owes e) by (destruct L; congruence).
      act x p6. destruct x as [x|]; rewrite ?same_free by auto.
      - act r7 p7. apply K; auto. discriminate.
      - assert (F2 : free (d_set (Kept e) p1)) by reflexivity. act r7 p7. apply K; auto. }
    assert (Rf : vP t (on <- ALdEnabled;;
            if negb on then AUnTenant;;; k None
            else replaceChunk (fun ok =>
              if ok then (c <- AChunkGet;; match c with None => ACrash;;; Ret | Some (b, i) => x <- AStore b i e;; AUnTenant;;; k x end)
              else g <- ALdGen;; AUnTenant;;; maybe_stop t g k)) p).
    { act o p5. destruct o; cbn [negb]; rewrite ?same_free by auto; [|act r4 p4; auto].
      apply replace_P; auto. intros p1 L. pose proof (le_free _ _ L F) as F1. act g p6. destruct L as [L1 [_ [_ L4]]]. rewrite L4, G.
      assert (F2 : free (d_read g p1)) by reflexivity. act r7 p7. apply maybe_stop_P; auto. intros r. apply K; [reflexivity|]. right. cbn. split; congruence. }
    act c p5. destruct c as [[b i]|]; auto. act full p6. destruct full; auto. apply St, le_refl.
  Qed.

  Lemma un_P t x q : free q -> vP t (AUnlock x;;; Ret) q.
  Proof. intros Fq. act r1 p1. exact I. Qed.
  Ltac fin := intros; try (apply un_P; auto; fail); auto.

  Lemma code_P t o : vP t (code_of csz site_cat t o) {| d_debt := new_debt o; d_ex := false; d_z := false; d_g := None |}.
  Proof.
    set (p := {| d_debt := new_debt o; d_ex := false; d_z := false; d_g := None |}). assert (F : free p) by reflexivity.
    assert (M : le p (d_met p)) by (now apply met_le). assert (FM : free (d_met p)) by reflexivity.
    assert (LF : forall q, le p q -> free q) by (intros q L; now apply (le_free p)).
    destruct o; cbn [code_of]; unfold locked.
    - act r1 p1. apply start_P; fin.
    - destruct startup as [c|]; act r1 p1; fin. apply start_P; fin.
    - act r1 p1. apply stop_P; fin.
    - act r1 p1. unfold getBuffer_lh. act on p2. destruct on; rewrite ?same_free by auto; [fin|]. act b p3. fin.
    - act r1 p1. unfold getTraceContext_lh. act on p2. destruct on; rewrite ?same_free by auto; [fin|]. act b p3. act ns p4. fin.
    - act on p1. destruct on; rewrite ?same_free by auto; act r2 p2; exact I.
    - act r1 p1. act ini p2. destruct ini; rewrite ?same_free by auto; fin. act r3 p3. destruct (is_nil name); fin. act r4 p4. act r5 p5. fin.
    - act r1 p1. act ini p2. destruct ini; cbn [negb]; rewrite ?same_free by auto; fin.
      assert (Rest : forall q, free q -> vP t (AReg false;;; on <- ALdEnabled;; if on then ADeregAdd;;; AUnlock (Done t ODeregister RUnit);;; Ret else ANameDel;;; AUnlock (Done t ODeregister RUnit);;; Ret) q).
      { intros q Fq. act r3 p3. act on p4. assert (X : free (d_met q)) by reflexivity. destruct on; rewrite ?same_free by auto; act r5 p5; fin. }
      act c p3. destruct c as [[b i]|]; [|apply Rest; auto]. act b' p4. destruct b' as [b'|]; rewrite ?same_free by auto; unfold returnChunk.
      + act r5 p5. act r6 p6. act r7 p7. apply Rest; auto.
      + act r7 p7. apply Rest; auto.
    - act r1 p1. act c p2. fin.
    - act r1 p1. act c p2. fin.
    - act i p1. act r2 p2. exact I.
    - apply (log_P t e); auto. intros r q Fq Hq. act r1 p1; [|exact I]. destruct r; cbn; auto.
    - assert (Nt : forall r q, free q -> (r = None -> d_debt q = Kept e \/ d_debt q = Waived e \/ (d_debt q = Owes e /\ d_ex q = true)) -> vP t (ANote (Done t (OMacro site e) (out_of r));;; Ret) q).
      { intros r q Fq Hq. act r1 p1; [|exact I]. destruct r; cbn; auto. }
      assert (Gt : forall i, vP t (on <- AStatus i;; if on then logEvent t e (fun r => ANote (Done t (OMacro site e) (out_of r));;; Ret) else ANote (Done t (OMacro site e) (out_of None));;; Ret) p).
      { intros i. act on p1. destruct on; rewrite ?same_free by auto.
        - apply log_P; auto. intros r q Fq Hq. apply Nt; auto. intros E. apply Hq in E as [E|E]; auto.
        - apply (Nt None); [reflexivity|]. intros _. right. left. reflexivity. }
      unfold macro. act x p1. destruct x; auto. act i p2. act r3 p3. apply Gt.
    - act r1 p1. act r2 p2. fin.
    - act r1 p1. apply stop_P; auto. intros r. act r2 p2. destruct r; act r3 p3; [exact I|]. act r4 p4. exact I.
  Qed.

  (** A nested call, then back to the callback. *)
  Lemma hcode_P t h hk k p : free p -> vP t (Act (AHook hk) k) p ->
    exists p', (match h with HLog _ => p' = {| d_debt := d_debt p; d_ex := d_ex p; d_z := true; d_g := d_g p |} | _ => p' = p end) /\ vP t (hcode csz t h (Act (AHook hk) k)) p'.
  Proof.
    intros F V. assert (Fin : forall r q, le p q -> vP t (AEmit (Nested t h r);;; Act (AHook hk) k) q).
    { intros r q L. pose proof (le_free _ _ L F) as Fq. act r1 p1. exact (vP_mono t (Act (AHook hk) k) p q L V). }
    assert (M : le p (d_met p)) by (now apply met_le). assert (FM : free (d_met p)) by reflexivity.
    destruct h; (eexists; split; [reflexivity|]); cbn [hcode].
    - apply start_P; auto.
    - apply stop_P; auto.
    - unfold getBuffer_lh. act on p2. destruct on; rewrite ?same_free by auto; [apply Fin, le_refl|]. act b p3. apply Fin; auto.
    - unfold getTraceContext_lh. act on p2. destruct on; rewrite ?same_free by auto; [apply Fin, le_refl|]. act b p3. act ns p4. apply Fin; auto.
    - act on p2. destruct on; rewrite ?same_free by auto; apply Fin; auto using le_refl.
    - unfold logEvent. next on p2 H2; [split; cbn; auto|]. rewrite H2 by reflexivity. cbn [negb]. apply Fin. exact M.
  Qed.

  Notation reached := (reached cap csz site_cat).

  Definition dbt (s : st) (f : tid -> dph) (h : tid -> excused) : Prop := forall t,
    d_debt (f t) = debt_of (hist s) t /\
    (d_ex (f t) = true -> x_call (h t) = calls (hist s) t /\ x_met (h t) = true) /\
    (d_z (f t) = true -> enabled s = false /\ mtx s = Some t) /\
    ((x_gen (h t) <= gen s)%N /\ x_call (h t) <= calls (hist s) t) /\
    (forall g, d_g (f t) = Some g -> x_call (h t) = calls (hist s) t /\ x_gen (h t) <= g <= gen s)%N.

  Lemma exec_gen s t ch a s' r : exec cap s t ch a = Next s' r -> (gen s <= gen s')%N.
  Proof. intros E. destruct a; ex E; try lia; destruct (bufp s); cbn; lia. Qed.

  Lemma exec_met s t ch a k s' r p : reached s -> code s t = Act a k -> exec cap s t ch a = Next s' r ->
    d_ex (nextP p a r) = true -> d_ex p = true \/ excuse s t a r = true \/ exists g, d_g p = Some g /\ gen s <> g.
  Proof.
    intros R Ec E X. unfold excuse.
    destruct a; ex E; cbn [nextP] in X; auto;
      try (right; left; match goal with Q : _ = _ |- _ => rewrite ?Q end; rewrite ?orb_true_r; reflexivity).
    - destruct (enabled s); auto.
    - destruct (d_g p) as [g|]; auto. destruct (gen s =? g)%N eqn:Q; auto. right. right. exists g. split; auto. now apply N.eqb_neq.
    - destruct (t_init (ten s t)); auto. right. left. now rewrite orb_true_r.
    - match goal with Q : context [if ?b then _ else _] |- _ => destruct b end; auto.
  Qed.

  Lemma note_call s t a r h : x_call (note_excuse s t a r h t) = calls (hist s) t.
  Proof. unfold note_excuse. now rewrite tset_same. Qed.

  Lemma note_gen s t a r h : (x_gen (h t) <= gen s)%N -> (x_gen (note_excuse s t a r h t) <= gen s)%N.
  Proof. intros L. unfold note_excuse. rewrite tset_same. cbn [x_gen]. destruct (Nat.eqb _ _); auto. cbn. lia. Qed.

  Lemma note_kept s t a r h : x_call (h t) = calls (hist s) t -> x_gen (note_excuse s t a r h t) = x_gen (h t) /\ (x_met (h t) = true -> x_met (note_excuse s t a r h t) = true).
  Proof. intros E. unfold note_excuse. rewrite tset_same. cbn [x_gen x_met]. rewrite E, Nat.eqb_refl. split; auto. now intros ->. Qed.

  Lemma dbt_exec s f h t ch a k s' r : reached s -> dbt s f h -> code s t = Act a k -> okP t (f t) a -> exec cap s t ch a = Next s' r ->
    postP t (f t) a r (nextP (f t) a r) /\ dbt s' (tset f t (nextP (f t) a r)) (note_excuse s t a r h).
  Proof.
    intros R D Ec O E. split.
    - split; auto. destruct a; cbn; auto. intros Z. destruct (D t) as [_ [_ [D3 _]]]. apply D3 in Z. ex E. tauto.
    - pose proof (exec_adds cap csz site_cat _ _ _ _ _ _ _ R Ec E) as X. pose proof (exec_gen _ _ _ _ _ _ E) as Gn.
      assert (Hc : forall u, calls (hist s') u = calls (hist s) u).
      { intros u. destruct a; try (destruct X as [->|[x [Mx ->]]]; auto; rewrite calls_snoc; destruct x; easy || lia).
        - rewrite X. destruct r; [now rewrite app_nil_r|]. rewrite calls_snoc. lia.
        - rewrite X, calls_snoc. lia. }
      assert (Ho : forall u, u <> t -> note_excuse s t a r h u = h u) by (intros u N; unfold note_excuse; now rewrite tset_other).
      intros u. destruct (D u) as [D1 [D2 [D3 [[D4 D6] D5]]]]. rewrite Hc. split; [|split; [|split; [|split]]].
      + assert (Gen : (hist s' = hist s \/ exists x, mute x = true /\ hist s' = hist s ++ [x]) -> d_debt (nextP (f t) a r) = d_debt (f t) ->
          d_debt (tset f t (nextP (f t) a r) u) = debt_of (hist s') u).
        { intros Y Z. assert (W : debt_of (hist s') u = debt_of (hist s) u) by (destruct Y as [->|[x [Mx ->]]]; auto; rewrite debt_snoc; now destruct x).
          rewrite W. byt u t; auto. now rewrite Z. }
        destruct a; try (apply Gen; auto; cbn [nextP]; try destruct r; try reflexivity; destruct (d_g (f t)); try reflexivity; destruct (_ =? _)%N; reflexivity).
        * rewrite X. destruct r; [rewrite app_nil_r|rewrite debt_snoc]; byt u t; auto; cbn; rewrite ?Nat.eqb_refl; auto.
          destruct (Nat.eqb t u) eqn:Q; auto. apply Nat.eqb_eq in Q. congruence.
        * rewrite X, debt_snoc. byt u t; cbn; rewrite ?Nat.eqb_refl.
          -- destruct r; cbn [d_set d_same d_debt]; rewrite <- ?D1; auto. now destruct (d_debt (f t)).
          -- destruct r; auto. destruct (Nat.eqb t u) eqn:Q; auto. apply Nat.eqb_eq in Q. congruence.
      + byt u t; [|rewrite Ho by auto; auto]. intros Y. split; [apply note_call|].
        destruct (exec_met _ _ _ _ _ _ _ _ R Ec E Y) as [Z|[Z|[g [Z W]]]].
        * destruct (D2 Z) as [Z1 Z2]. now apply note_kept.
        * unfold note_excuse. rewrite tset_same. cbn [x_met]. now rewrite Z, orb_true_r.
        * destruct (D5 _ Z) as [Z1 Z2]. unfold note_excuse. rewrite tset_same. cbn [x_met]. rewrite Z1, Nat.eqb_refl. apply orb_true_intro. right.
          apply negb_true_iff, N.eqb_neq. lia.
      + byt u t.
        * intros Y. exfalso. destruct a; cbn [nextP] in Y; try destruct r; try discriminate Y; destruct (d_g (f t)); try discriminate Y; destruct (_ =? _)%N; discriminate Y.
        * intros Y. apply D3 in Y as [Y Z]. destruct (exec_undisturbed cap csz site_cat _ _ _ _ _ _ _ u R Ec E) as [Z1 W]; auto. split; congruence.
      + byt u t; [|rewrite Ho by auto; lia]. pose proof (note_gen s t a r h D4). rewrite note_call. lia.
      + intros g. byt u t; [|rewrite Ho by auto; intros Y; destruct (D5 _ Y); split; auto; lia].
        intros Y. split; [apply note_call|]. pose proof (note_gen s t a r h D4) as N4.
        assert (d_g (f t) = Some g \/ (d_g (f t) = None /\ g = gen s)) as [Z|[Z ->]].
        { destruct a; cbn [nextP] in Y; try (left; try destruct r; exact Y). ex E. destruct (d_g (f t)) as [g0|] eqn:Q; [left; destruct (_ =? _)%N; cbn in Y; congruence|].
          right. cbn in Y. split; congruence. }
        * destruct (D5 _ Z) as [Z1 Z2]. destruct (note_kept s t a r h Z1) as [-> _]. lia.
        * lia.
  Qed.

  Lemma dbt_same s f h s' : dbt s f h -> hist s' = hist s -> enabled s' = enabled s -> mtx s' = mtx s -> gen s' = gen s -> dbt s' f h.
  Proof. intros D E1 E2 E3 E4 t. rewrite E1, E2, E3, E4. apply D. Qed.

  Theorem full_ends sched : let s := run (pstep cap csz site_cat) log_new sched in
    exists f, dbt s f (excuses cap csz site_cat sched) /\ forall t, vP t (code s t) (f t).
  Proof.
    apply (ginv_all cap csz site_cat okP postP quietP note_excuse (fun _ => {| x_call := 0; x_gen := 0; x_met := false |})
             (fun _ => {| d_debt := NoDebt; d_ex := false; d_z := false; d_g := None |}) dbt).
    - intros s f h t c D. now apply (dbt_same s).
    - intros s f h t ch a k s' r R D _ Ec O E. exists (nextP (f t) a r). eapply dbt_exec; eauto.
    - intros s f h t o R D Ec Q Cl. exists {| d_debt := new_debt o; d_ex := false; d_z := false; d_g := None |}. split; [apply code_P|].
      assert (X : dbt (emit s (Invoked t o)) (tset f t {| d_debt := new_debt o; d_ex := false; d_z := false; d_g := None |}) h).
      { intros u. change (hist (emit s (Invoked t o))) with (hist s ++ [Invoked t o]). rewrite debt_snoc, calls_snoc. destruct (D u) as [D1 [D2 [D3 [D4 D5]]]]. byt u t; cbn [debt_step].
        - rewrite Nat.eqb_refl. cbn. repeat split; easy || lia.
        - destruct (Nat.eqb t u) eqn:W; [apply Nat.eqb_eq in W; congruence|]. rewrite Nat.add_0_r. exact (conj D1 (conj D2 (conj D3 (conj D4 D5)))). }
      destruct (is_destroy o); [now apply (dbt_same (emit s (Invoked t o)))|auto].
    - intros s f h t n hk k R D Po Ec V. pose proof V as [[Oz _] _]. assert (F : free (f t)) by (unfold free; destruct (d_z (f t)); auto; now specialize (Oz eq_refl)).
      destruct (hcode_P t n hk k (f t) F V) as [p' [Ep V']]. exists p'. split; auto.
      destruct n; try (subst p'; intros u; byt u t; apply D).
      intros u. subst p'. destruct (D u) as [D1 [D2 [D3 [D4 D5]]]]. byt u t; auto. cbn [d_debt d_ex d_z d_g].
      split; auto. split; auto. split; [|auto]. intros _. split.
      + cbn [polite] in Po. now destruct (enabled s).
      + destruct (safe_at cap csz site_cat s R) as [g [Gb Vb]]. apply (lk_hold _ _ (gb_lk _ _ _ Gb)).
        assert (O : okB t (g t) (AHook hk)) by (apply Vb; now exists k). cbn in O. destruct O as [on [O _]]. rewrite O. easy.
    - intros s f h t hk k r R D Ec [Oz _]. assert (F : free (f t)) by (unfold free; destruct (d_z (f t)); auto; now specialize (Oz eq_refl)).
      exists (f t). split; [split; [exact I|]; symmetry; now apply same_free|]. intros u. byt u t; apply D.
    - intros t. cbn. repeat split; try easy; lia.
    - intros t. exact I.
  Qed.

  (** A call that takes no lock returns at its last step. *)
  Lemma done_code sched t ch o (s := run (pstep cap csz site_cat) log_new sched) : 
    hist (run (pstep cap csz site_cat) log_new (sched ++ [Step t ch])) = hist s ++ [Done t o RUnit] -> lock_free o = true ->
    exists k, code s t = Act (ANote (Done t o RUnit)) k.
  Proof.
    intros H F. rewrite run_snoc in H. fold s in H.
    assert (R : reached s) by (now exists sched).
    unfold move in H. destruct (pstep cap csz site_cat s (Step t ch)) as [s1|] eqn:E.
    2:{ exfalso. apply (f_equal (@length hev)) in H. rewrite app_length in H. cbn in H. lia. }
    unfold pstep, step in E. cbn [polite] in E. rewrite (never_bad _ _ _ s R) in E. destruct (code s t) as [|a k] eqn:Ec; [easy|].
    destruct (exec cap s t ch a) as [| |s2 r] eqn:Ex; [easy| |]; injection E as <-; cbn in H.
    { exfalso. apply (f_equal (@length hev)) in H. rewrite app_length in H. cbn in H. lia. }
    assert (H2 : hist s2 = hist s ++ [Done t o RUnit]) by exact H. clear H.
    destruct (allowed _ _ _ s t a k R Ec) as [g [Ga Oa]].
    destruct a; ex Ex; cbn in H2; try (exfalso; apply (f_equal (@length hev)) in H2; rewrite ?app_length in H2; cbn in H2; lia);
      try (apply app_inv_head in H2; discriminate H2).
    - exfalso. apply app_inv_head in H2. injection H2 as ->. cbn in Oa. unfold insec in Oa. destruct (a_sec (g t)) as [[p q]|]; [|easy]. destruct Oa as [_ [I _]]. cbn in I. congruence.
    - exfalso. destruct (bufp s); apply (f_equal (@length hev)) in H2; rewrite ?app_length in H2; cbn in H2; lia.
    - exfalso. destruct (bufp s); apply (f_equal (@length hev)) in H2; rewrite ?app_length in H2; cbn in H2; lia.
    - exfalso. apply app_inv_head in H2. injection H2 as ->. cbn in Oa. unfold insec in Oa. destruct (a_sec (g t)) as [[p q]|]; [|easy]. now destruct Oa as [_ [[x [X _]]|[x [y [X _]]]]].
    - apply app_inv_head in H2. injection H2 as ->. eauto.
    - exfalso. destruct (bufp s); apply app_inv_head in H2; discriminate H2.
  Qed.
End Full.
