(** A log that runs out of memory: what still holds. *)
From Verif Require Import Base Model.StringUtils Model.Event Model.Queue Model.Buffer Model.Config Spec.Categories Model.Registry
  Model.Interleave Spec.LogHistory Spec.LogFacts Model.TraceLog Model.Shortage Proofs.Interleave Proofs.Registry Proofs.LogFrame Proofs.LogView Proofs.LogViewInv
  Proofs.LogContract Proofs.LogBuffers Proofs.LogSafe Proofs.LogSafeInv Proofs.LogSafeAT Proofs.LogSafeOW Proofs.LogSafeAll.

(** * Destruction *)

(** An ordinary call; the destructor; the destructor, tracing stopped. *)
Inductive dph := Norm | Dest | DestOff.

Definition okD (t : tid) (p : dph) (a : act) : Prop :=
  match a with
  | AFree => p = DestOff
  | AStEnabled _ _ => p = Norm
  | AHook h => p = Norm \/ (p = DestOff /\ h_norestart h = true)
  | _ => True
  end.

Definition nextD (p : dph) (a : act) : dph :=
  match a with AXchg _ => match p with Norm => Norm | _ => DestOff end | _ => p end.

Definition saysD (p : dph) (a : act) : ans a -> Prop :=
  match a return ans a -> Prop with
  | ALdEnabled | AXchg _ => fun r => p = DestOff -> r = false
  | _ => fun _ => True
  end.

Definition postD (t : tid) (p : dph) (a : act) (r : ans a) (p' : dph) : Prop := saysD p a r /\ p' = nextD p a.
Definition quietD (p : dph) : Prop := True.

Record GD (s : st) (d : tid -> dph) : Prop := {
  gd_cl : forall t, d t <> Norm -> closing s = Some t;
  gd_off : forall t, d t = DestOff -> enabled s = false;
}.

Section Short.
  Variables cap csz : N.
  Variable site_cat : nat -> bytes.

  Notation validD := (valid okD postD quietD).
  Notation validB := (valid okB postB quietB).
  Notation zstep := (zstep cap csz site_cat).

  Ltac nx r p H := cbn [LogFrame.valid]; split; [cbn; auto|let Hp := fresh in
    intros r p [H Hp]; cbn [saysD] in H; cbn [nextD] in Hp; subst p].

  Lemma evict_D t k p : validD t k p -> forall n l, validD t (evict n l k) p.
  Proof. intros V. induction n as [|n IH]; intros l; cbn [evict]; auto. nx u p1 H1. nx r2 p2 H2. nx r3 p3 H3. nx r4 p4 H4. apply IH. Qed.

  Lemma stop_D t nr w k p : (p = Dest -> nr = true) -> (forall r, validD t (k r) (nextD p (AXchg w))) -> validD t (stop_lh t nr w k) p.
  Proof.
    intros Hp K. unfold stop_lh. nx was p1 H1. cbn [nextD] in K. destruct was; auto.
    nx r2 p2 H2. nx l3 p3 H3. apply evict_D. nx c p4 H4. nx r5 p5 H5.
    destruct (if negb (is_shutdown w) || cf_stop c then cf_callback c else None); auto. nx r6 p6 H6; auto.
    destruct p; auto. specialize (H1 eq_refl). easy.
  Qed.

  Lemma start_D t c k : (forall r, validD t (k r) Norm) -> validD t (start_lh csz t c k) Norm.
  Proof.
    intros K. unfold start_lh. nx r1 p1 H1. destruct (_ =? 0)%N; auto. nx o2 p2 H2.
    assert (Go : validD t (g <- AIncGen;; m <- AFactory c g (cf_size c / csz)%N;;
         match m with
         | MadeThrow x => k (Some x)
         | _ => ABufSet (made_buffer m);;; AUpdate (cf_enabled c) (cf_disabled c);;; AClear;;; AStEnabled g m;;; k None
         end) Norm).
    { nx g p3 H3. nx m p4 H4. destruct m; auto; nx r5 p5 H5; nx r6 p6 H6; nx r7 p7 H7; nx r8 p8 H8; auto. }
    destruct o2; [|exact Go]. apply stop_D; [easy|]. intros [x|]; [apply K|exact Go].
  Qed.

  Lemma log_D t e k : (forall r, validD t (k r) Norm) -> validD t (logEvent t e k) Norm.
  Proof.
    intros K.
    assert (Ms : forall g, validD t (maybe_stop t g k) Norm).
    { intros g. unfold maybe_stop. nx got p1 H1. destruct got; auto. nx g' p2 H2. destruct (_ =? _)%N.
      - apply stop_D; [easy|]. intros r. nx r3 p3 H3. apply K.
      - nx r3 p3 H3. apply K. }
    unfold logEvent. nx o p1 H1. destruct o; cbn [negb]; auto. nx got p2 H2. destruct got; cbn [negb]; auto.
    nx ini p3 H3. destruct ini; cbn [negb]; [|nx r4 p4 H4; apply K].
    assert (St : validD t (c <- AChunkGet;; match c with None => ACrash;;; Ret | Some (b, i) => x <- AStore b i e;; AUnTenant;;; k x end) Norm).
    { nx c p4 H4. destruct c as [[b i]|]; [nx x p5 H5; nx r6 p6 H6; apply K|nx r5 p5 H5; exact I]. }
    assert (Rf : validD t (on <- ALdEnabled;;
            if negb on then AUnTenant;;; k None
            else replaceChunk (fun ok =>
              if ok then (c <- AChunkGet;; match c with None => ACrash;;; Ret | Some (b, i) => x <- AStore b i e;; AUnTenant;;; k x end)
              else g <- ALdGen;; AUnTenant;;; maybe_stop t g k)) Norm).
    { nx o p5 H5. destruct o; cbn [negb]; [|nx r4 p4 H4; apply K].
      assert (Fl : validD t (g <- ALdGen;; AUnTenant;;; maybe_stop t g k) Norm) by (nx g p6 H6; nx r7 p7 H7; apply Ms).
      unfold replaceChunk, returnChunk, getChunk.
      assert (Rs : validD t (o <- ALdEnabled;;
        if negb o then g <- ALdGen;; AUnTenant;;; maybe_stop t g k
        else
          b <- ABufGet;;
          match b with
          | None => g <- ALdGen;; AUnTenant;;; maybe_stop t g k
          | Some _ =>
              b <- ABufGet;;
              match b with
              | None => ACrash;;; Ret
              | Some b => getChunk b (fun c => AChunkSet c;;;
                  (fun ok : bool => if ok then (c <- AChunkGet;; match c with None => ACrash;;; Ret | Some (b, i) => x <- AStore b i e;; AUnTenant;;; k x end)
                      else g <- ALdGen;; AUnTenant;;; maybe_stop t g k) (match c with Some _ => true | None => false end))
              end
          end) Norm).
      { nx o p6 H6. destruct o; cbn [negb]; [|exact Fl]. nx b p7 H7. destruct b; [|exact Fl]. nx b' p8 H8. destruct b' as [b'|]; [|nx r9 p9 H9; exact I].
        unfold getChunk. nx r p9 H9. destruct r.
        - nx r10 p10 H10. nx r11 p11 H11. nx r12 p12 H12. exact St.
        - nx r12 p12 H12. exact Fl.
        - nx i p13 H13. nx r10 p10 H10. nx r11 p11 H11. nx r12 p12 H12. exact St. }
      nx c p6 H6. destruct c as [[b0 i]|]; [|exact Rs]. nx b p7 H7. destruct b; [|nx r8 p8 H8; exact I].
      nx r8 p8 H8. nx r9 p9 H9. nx r10 p10 H10. exact Rs. }
    nx c p5 H5. destruct c as [[b i]|]; [|exact Rf]. nx full p6 H6. destruct full; [exact Rf|exact St].
  Qed.

  Lemma log_D_off t e k : validD t (k None) DestOff -> validD t (logEvent t e k) DestOff.
  Proof. intros V. unfold logEvent. nx o p1 H1. rewrite (H1 eq_refl). exact V. Qed.

  Lemma code_D t o : validD t (code_of csz site_cat t o) (if is_destroy o then Dest else Norm).
  Proof.
    destruct o; cbn [code_of is_destroy]; unfold locked.
    - nx r1 p1 H1. apply start_D. intros r. nx r2 p2 H2. exact I.
    - destruct startup; nx r1 p1 H1; [apply start_D; intros r|]; nx r2 p2 H2; exact I.
    - nx r1 p1 H1. apply stop_D; [easy|]. intros r. nx r2 p2 H2. exact I.
    - nx r1 p1 H1. unfold getBuffer_lh. nx o p2 H2. destruct o; [nx r3 p3 H3; exact I|]. nx r3 p3 H3. nx r4 p4 H4. exact I.
    - nx r1 p1 H1. unfold getTraceContext_lh. nx o p2 H2. destruct o; [nx r3 p3 H3; exact I|]. nx r3 p3 H3. nx r4 p4 H4. nx r5 p5 H5. exact I.
    - nx r1 p1 H1. nx r2 p2 H2. exact I.
    - nx r1 p1 H1. nx ini p2 H2. destruct ini; [nx r3 p3 H3; exact I|]. nx r3 p3 H3. destruct (is_nil name); [nx r4 p4 H4; exact I|].
      nx r4 p4 H4. nx r5 p5 H5. nx r6 p6 H6. exact I.
    - nx r1 p1 H1. nx ini p2 H2. destruct ini; cbn [negb]; [|nx r3 p3 H3; exact I].
      assert (Rest : validD t (AReg false;;; o <- ALdEnabled;;
        if o then ADeregAdd;;; AUnlock (Done t ODeregister RUnit);;; Ret else ANameDel;;; AUnlock (Done t ODeregister RUnit);;; Ret) Norm).
      { nx r3 p3 H3. nx o p4 H4. destruct o; nx r5 p5 H5; nx r6 p6 H6; exact I. }
      nx c p3 H3. destruct c as [[b0 i]|]; [|exact Rest]. nx b p4 H4. destruct b; unfold returnChunk.
      + nx r5 p5 H5. nx r6 p6 H6. nx r7 p7 H7. exact Rest.
      + nx r7 p7 H7. exact Rest.
    - nx r1 p1 H1. nx c p2 H2. nx r3 p3 H3. exact I.
    - nx r1 p1 H1. nx c p2 H2. nx r3 p3 H3. exact I.
    - nx i p1 H1. nx r2 p2 H2. exact I.
    - apply log_D. intros r. nx r1 p1 H1. exact I.
    - assert (Gt : forall i, validD t (on <- AStatus i;; if on then logEvent t e (fun r => ANote (Done t (OMacro site e) (out_of r));;; Ret)
        else ANote (Done t (OMacro site e) (out_of None));;; Ret) Norm).
      { intros i. nx on p1 H1. destruct on; [apply log_D; intros r|]; nx r2 p2 H2; exact I. }
      unfold macro. nx x p1 H1. destruct x; [apply Gt|]. nx i p2 H2. nx r3 p3 H3. apply Gt.
    - nx r1 p1 H1. nx r2 p2 H2. nx r3 p3 H3. exact I.
    - nx r1 p1 H1. apply stop_D; [easy|]. intros r. cbn [nextD]. nx r2 p2 H2. destruct r; nx r3 p3 H3; [exact I|]. nx r4 p4 H4. exact I.
  Qed.

  Lemma hcode_D t h hk k p : (match h with HStart _ => h_norestart hk = false | _ => True end) ->
    validD t (Act (AHook hk) k) p -> validD t (hcode csz t h (Act (AHook hk) k)) p.
  Proof.
    intros Po V. assert (Hp : p <> Dest) by (destruct V as [[->|[-> _]] _]; easy).
    assert (Fin : forall r, validD t (AEmit (Nested t h r);;; Act (AHook hk) k) p) by (intros r; nx r1 p1 H1; exact V).
    assert (Nx : forall w, nextD p (AXchg w) = p) by (intros w; destruct p; easy).
    destruct h; cbn [hcode].
    - destruct V as [[->|[-> Nr]] _]; [|congruence]. apply start_D. intros r. apply Fin.
    - apply stop_D; [easy|]. intros r. rewrite Nx. apply Fin.
    - unfold getBuffer_lh. nx o p1 H1. destruct o; [apply Fin|]. nx b p2 H2. apply Fin.
    - unfold getTraceContext_lh. nx o p1 H1. destruct o; [apply Fin|]. nx b p2 H2. nx b3 p3 H3. apply Fin.
    - nx o p1 H1. apply Fin.
    - destruct p; [apply log_D; intros r; apply Fin|easy|apply log_D_off; apply Fin].
  Qed.

  (** What [exec] does to the flag. *)
  Lemma exec_enabled s t ch a s' r : exec cap s t ch a = Next s' r ->
    match a with AXchg _ => enabled s' = false | AStEnabled _ _ => enabled s' = true | _ => enabled s' = enabled s end.
  Proof. intros E. destruct a; ex E; cbn; auto; destruct (bufp s); auto. Qed.

  Lemma exec_init s t ch a s' r : exec cap s t ch a = Next s' r ->
    (forall u, t_init (ten s u) = mem u (regd s)) -> forall u, t_init (ten s' u) = mem u (regd s').
  Proof.
    intros E H u. destruct a; ex E; cbn -[LogHistory.mem]; auto; try (destruct (bufp s); cbn -[LogHistory.mem]; auto; fail);
      try (unfold tset; destruct (Nat.eqb_spec u t) as [->|Nu]; cbn -[LogHistory.mem]; auto; fail);
      try (unfold tset; match goal with |- context [Nat.eqb u ?v] => destruct (Nat.eqb_spec u v) as [->|Nu] end; cbn -[LogHistory.mem]; auto; fail).
    all: rewrite ?mem_add, ?mem_del; unfold tset; destruct (Nat.eqb_spec u t) as [->|Nu]; cbn -[LogHistory.mem]; auto.
  Qed.

  Lemma exec_nodup s t ch a s' r : exec cap s t ch a = Next s' r -> NoDup (regd s) -> NoDup (regd s').
  Proof.
    intros E H. destruct a; ex E; cbn; auto; try (destruct (bufp s); cbn; auto; fail).
    - now apply NoDup_add.
    - now apply NoDup_del.
  Qed.

  (** * Frames *)

  Definition fokB (t : tid) (fr : frame) : Prop :=
    match fr with
    | FCall _ => True
    | FNested h back => exists hk k, back = Act (AHook hk) k /\
        (forall r on, (h_norestart hk = true -> on = false) -> validB t (k r) (p_hold (Some (on, [])) idle)) /\
        (match h with HStart _ => h_norestart hk = false | _ => True end)
    end.

  Definition fokD (t : tid) (p : dph) (fr : frame) : Prop :=
    match fr with FCall _ => True | FNested _ back => p <> Dest /\ validD t back p end.

  Record Z (z : short) : Prop := {
    z_inv : inv okB postB quietB (GB cap) (z_log z);
    z_fb : forall t fr, In fr (z_in z t) -> fokB t fr;
    z_d : exists d, GD (z_log z) d /\ (forall t, validD t (code (z_log z) t) (d t)) /\ forall t fr, In fr (z_in z t) -> fokD t (d t) fr;
    z_init : forall u, t_init (ten (z_log z) u) = mem u (regd (z_log z));
    z_nodup : NoDup (regd (z_log z));
    z_bad : bad (z_log z) = false;
  }.

  Lemma Z_facts z : Z z -> facts (z_log z).
  Proof.
    intros [[Al [f [G V]]] _ [d [D [Vd _]]] I N _]. split; auto. intros t k Ec.
    pose proof (Vd t) as Vt. rewrite Ec in Vt. destruct Vt as [Dt _]. cbn in Dt. split; [now apply (gd_off _ _ D t)|].
    destruct (mtx (z_log z)) as [u|] eqn:M; auto. exfalso. apply (lk_hold _ _ (gb_lk _ _ _ G)) in M.
    specialize (V u). destruct (Nat.eq_dec u t) as [->|Nu].
    - rewrite Ec in V. destruct V as [O _]. cbn in O. now rewrite O in M.
    - assert (Cl : closing (z_log z) = Some t) by (apply (gd_cl _ _ D); now rewrite Dt).
      rewrite (al_closing _ Al _ Cl u Nu) in V. cbn in V. unfold quietB in V. now rewrite V in M.
  Qed.

  Lemma fokD_next t p a fr : fokD t p fr -> fokD t (nextD p a) fr.
  Proof. destruct fr; cbn; auto. intros [N V]. assert (E : nextD p a = p) by (destruct a; cbn; auto; destruct p; easy). now rewrite E. Qed.

  Lemma Z_do z a s' : Z z -> pstep cap csz site_cat (z_log z) a = Some s' -> Z {| z_log := s'; z_in := frames z a |}.
  Proof.
    intros Hz H. pose proof (Z_facts z Hz) as Fs. destruct Hz as [Iv Fb [d [D [Vd Fd]]] In0 Nd B].
    assert (Ivn : inv okB postB quietB (GB cap) s').
    { revert H. apply (inv_step cap csz site_cat okB postB quietB facts (GB cap)); auto.
      - intros s f t c G. apply (GB_same cap s f); auto.
      - intros s f G. apply (GB_same cap s f); auto.
      - intros s f t ch x k s1 r R G Cl Ec O E. exists (nextB (enabled s) (regd s) (f t) x r). split.
        + exists (enabled s), (regd s). split; auto. eapply exec_says; eauto.
        + destruct G as [L A W I]. split; [eapply exec_LK|eapply exec_AT|eapply exec_OW|eapply exec_RN]; eauto.
      - intros s f t o R G Ec Q Cl X. exists idle. split; [apply code_mem|].
        apply (GB_same cap s f); auto; try (destruct (is_destroy o); reflexivity). intros u. unfold quietB in Q. byt u t; auto.
      - intros s f t h hk k R G Po Ec V. exists (f t). split.
        + apply hcode_mem; auto. destruct V as [[on [Eh Hn]] _]. unfold held in Eh. destruct h; auto.
          * cbn in Po. rewrite Ec in Po. cbn in Po. now destruct (h_norestart hk).
          * cbn in Po. rewrite Eh. cbn. exists []. rewrite <- (lk_on _ _ (gb_lk _ _ _ G) t on []) by (now rewrite Eh). destruct (enabled s); easy.
        + apply (GB_same cap s f); auto. intros u. byt u t; auto.
      - intros s f t hk k r R G Ec [on [Eh Hn]]. unfold held in Eh. exists (f t).
        assert (En : enabled s = on) by (apply (lk_on _ _ (gb_lk _ _ _ G) t on []); now rewrite Eh). split.
        + exists on, []. split; auto.
        + apply (GB_same cap s f); auto. intros u. byt u t; auto. }
    destruct Iv as [Al [f [G V]]]. revert H Ivn. unfold pstep. destruct (polite (z_log z) a) eqn:Po; [|easy]. unfold step. rewrite B.
    destruct a as [t o|t ch|t h|t r]; intros H Ivn.
    - destruct (code (z_log z) t) eqn:Ec; [|easy]. destruct (closing (z_log z)) eqn:El; [easy|].
      assert (Ds : forall u, d u = Norm) by (intros u; destruct (d u) eqn:E; auto; assert (X : d u <> Norm) by congruence; apply (gd_cl _ _ D) in X; congruence).
      assert (Fr : forall s1, regd s1 = regd (z_log z) -> ten s1 = ten (z_log z) -> bad s1 = false -> enabled s1 = enabled (z_log z) ->
        code s1 = tset (code (z_log z)) t (code_of csz site_cat t o) -> closing s1 = (if is_destroy o then Some t else None) ->
        inv okB postB quietB (GB cap) s1 -> Z {| z_log := s1; z_in := tset (z_in z) t [FCall o] |}).
      { intros s1 E1 E2 E3 E4 E5 E6 Iv1. split; cbn [z_log z_in]; auto.
        - intros u fr. byt u t; eauto. intros [<-|[]]. exact I.
        - exists (tset d t (if is_destroy o then Dest else Norm)). split; [|split].
          + split; [intros u|intros u]; rewrite ?E6, ?E4; (byt u t; [|rewrite Ds; easy]); destruct (is_destroy o); easy.
          + intros u. rewrite E5. byt u t; auto. apply code_D.
          + intros u fr. byt u t; eauto. intros [<-|[]]. exact I.
        - intros u. rewrite E1, E2. apply In0.
        - now rewrite E1. }
      destruct (is_destroy o) eqn:Ds1; [destruct (is_nil (busy (z_log z))); [|easy]|]; injection H as <-; apply Fr; auto.
    - destruct (code (z_log z) t) as [|x k] eqn:Ec; [easy|].
      assert (Cl : closing (z_log z) = None \/ closing (z_log z) = Some t) by (apply closing_mine; auto; congruence).
      pose proof (V t) as Vt. rewrite Ec in Vt. destruct Vt as [O _].
      pose proof (no_crash cap site_cat (z_log z) f t ch x G O) as Nc. destruct (exec cap (z_log z) t ch x) as [| |s1 r] eqn:Ex; [easy|easy|].
      injection H as <-. destruct (exec_frame _ _ _ _ _ _ _ Ex) as [E1 [E2 [E3 E4]]].
      assert (Sub : forall u fr, In fr (frames z (Step t ch) u) -> In fr (z_in z u)).
      { intros u fr. cbn [frames]. rewrite Ec. destruct x; auto. destruct e; auto. byt u t; auto. destruct (z_in z t) as [|[] ?]; cbn; auto. }
      split; cbn [z_log z_in].
      + exact Ivn.
      + intros u fr Hf. eauto.
      + pose proof (Vd t) as Vt. rewrite Ec in Vt. destruct Vt as [Od Vk]. pose proof (exec_enabled _ _ _ _ _ _ Ex) as En.
        exists (tset d t (nextD (d t) x)). split; [|split].
        * split.
          -- intros u. cbn. rewrite E3. byt u t; [|apply (gd_cl _ _ D)]. intros Hn. apply (gd_cl _ _ D). intros Hd. rewrite Hd in Hn. destruct x; easy.
          -- intros u Hu. cbn.
             assert (X : d u = DestOff \/ (u = t /\ exists w, x = AXchg w)).
             { destruct (Nat.eq_dec u t) as [->|Nu]; [rewrite tset_same in Hu|rewrite tset_other in Hu by auto; auto].
               destruct x; auto. right. split; eauto. }
             destruct X as [X|[-> [w ->]]]; [|exact En]. pose proof (gd_off _ _ D _ X) as Off. destruct x; try congruence.
             exfalso. cbn in Od. assert (Cu : closing (z_log z) = Some u) by (apply (gd_cl _ _ D); congruence). destruct Cl as [Cl|Cl]; congruence.
        * intros u. cbn. rewrite E1. byt u t; [|apply Vd]. apply Vk. split; auto.
          destruct x; cbn; auto; intros Hd; pose proof (gd_off _ _ D _ Hd) as Off; cbn [exec] in Ex; rewrite ?Off in Ex; now injection Ex.
        * intros u fr Hf. apply Sub in Hf. byt u t; [|eauto]. now apply fokD_next, Fd.
      + intros u. cbn. apply (exec_init _ _ _ _ _ _ Ex In0).
      + cbn. apply (exec_nodup _ _ _ _ _ _ Ex Nd).
      + cbn. congruence.
    - destruct (hook_of (code (z_log z) t)) as [[hk k]|] eqn:Eh; [|easy]. injection H as <-. apply hook_of_some in Eh.
      assert (Nr : match h with HStart _ => h_norestart hk = false | _ => True end).
      { destruct h; auto. cbn in Po. rewrite Eh in Po. cbn in Po. now destruct (h_norestart hk). }
      pose proof (Vd t) as Vt. rewrite Eh in Vt.
      split; cbn [z_log z_in frames]; auto.
      + intros u fr. byt u t; eauto. intros [<-|Hf]; eauto. exists hk, k. split; [exact Eh|]. split; auto. intros r on Hn.
        pose proof (V t) as Vb. rewrite Eh in Vb. destruct Vb as [_ Vb]. apply Vb. exists on, []. split; [exact Hn|reflexivity].
      + exists d. split; [|split].
        * split; [apply (gd_cl _ _ D)|apply (gd_off _ _ D)].
        * intros u. cbn. byt u t; auto. rewrite Eh. now apply hcode_D.
        * intros u fr. byt u t; eauto. intros [<-|Hf]; eauto. cbn. rewrite Eh. split; auto. destruct Vt as [[->|[-> _]] _]; easy.
    - destruct (hook_of (code (z_log z) t)) as [[hk k]|] eqn:Eh; [|easy]. injection H as <-. apply hook_of_some in Eh.
      pose proof (Vd t) as Vt. rewrite Eh in Vt. destruct Vt as [_ Vk].
      split; cbn [z_log z_in frames]; auto.
      exists d. split; [|split]; auto.
      + split; [apply (gd_cl _ _ D)|apply (gd_off _ _ D)].
      + intros u. cbn. byt u t; auto. apply Vk. split; [exact I|reflexivity].
  Qed.

  (** * Failing allocations *)

  Lemma leaves_same s t a p l s' : leaves s t a p l = Some s' -> p <> PRegister ->
    enabled s' = enabled s /\ mtx s' = mtx s /\ gen s' = gen s /\ bufp s' = bufp s /\ heap s' = heap s /\ nbuf s' = nbuf s /\ ten s' = ten s /\
    regd s' = regd s /\ code s' = code s /\ busy s' = busy s /\ closing s' = closing s /\ bad s' = bad s /\ hist s' = hist s.
  Proof.
    intros E N. destruct p, a; try discriminate E; try easy; cbn [leaves] in E;
      repeat match type of E with context [match ?x with _ => _ end] => destruct x end; try discriminate E; injection E as <-; cbn; repeat split; reflexivity.
  Qed.

  Ltac next r p H := cbn [LogFrame.valid]; split; [|let on := fresh "on" in let l := fresh "l" in let Hp := fresh in
    intros r p [on [l [H Hp]]]; cbn [saysB] in H; cbn in Hp; subst p].

  Lemma unwind_B s f t a p l s' fs : GB cap s f -> leaves s t a p l = Some s' -> may fs p = true -> p <> PRegister -> p <> PDisable ->
    okB t (f t) a -> (forall fr, In fr fs -> fokB t fr) -> validB t (unwind s' t fs) (f t).
  Proof.
    intros G E M N1 N2 O F. assert (Em : mtx s' = mtx s) by (now apply (leaves_same _ _ _ _ _ _ E N1)).
    assert (Ow : owns s' t = match m_hold (f t) with Some _ => true | None => false end).
    { unfold owns. rewrite Em. pose proof (lk_hold _ _ (gb_lk _ _ _ G) t) as [L1 L2]. destruct (m_hold (f t)).
      - rewrite L1 by easy. apply Nat.eqb_refl.
      - destruct (mtx s) as [u|] eqn:Eu; auto. destruct (Nat.eqb_spec u t) as [->|]; auto. now destruct (L2 eq_refl). }
    assert (Ph : calm (f t) \/ (f t = idle /\ p = PCategory)).
    { destruct p, a; try discriminate E; try easy; cbn in O; try tauto. }
    assert (Call : forall o, In (FCall o) fs -> validB t (unwind s' t [FCall o]) (f t)).
    { intros o _. cbn [unwind]. rewrite Ow. destruct Ph as [C|[-> _]].
      - destruct C as [[on C1] C2]. rewrite C1.
        assert (U : forall e, okB t (f t) (AUnlock e)) by (intros e; cbn; eauto).
        destruct o; next r1 p1 H1; try apply U; try reflexivity; next r2 p2 H2; try exact I; try reflexivity; now exists None.
      - cbn. destruct o; next r1 p1 H1; try exact I; try reflexivity; now exists None. }
    destruct fs as [|[o|h back] r]; [destruct p; discriminate M| |].
    - apply Call. now left.
    - destruct (F _ (or_introl eq_refl)) as [hk [k [-> [Vk Nr]]]]. cbn [unwind].
      destruct Ph as [C|[_ ->]]; [|discriminate M]. destruct C as [[on C1] C2].
      next r1 p1 H1; [cbn; eauto|]. rewrite C1.
      assert (Off : h_norestart hk = true -> on = false).
      { destruct p, h; try discriminate M; try congruence. destruct a; try discriminate E. cbn in O. destruct O as [O _]. congruence. }
      next r2 p2 H2; [exists on; split; auto; reflexivity|]. now apply Vk.
  Qed.

  Lemma unwind_D s t p fs : (forall fr, In fr fs -> fokD t p fr) -> validD t (unwind s t fs) p.
  Proof.
    intros F. destruct fs as [|[o|h back] r]; cbn [unwind]; [exact I| |].
    - destruct o; destruct (owns s t); repeat (nx r1 p1 H1; clear r1 H1); exact I.
    - nx r1 p1 H1. apply (F _ (or_introl eq_refl)).
  Qed.

  Definition tame (x : zact) : Prop := match x with Lack _ PRegister _ | Lack _ PDisable _ => False | _ => True end.

  Lemma Z_step z x z' : Z z -> tame x -> zstep z x = Some z' -> Z z'.
  Proof.
    intros Hz T H. destruct x as [a|t p l]; cbn [Shortage.zstep] in H.
    - destruct (pstep cap csz site_cat (z_log z) a) as [s'|] eqn:E; [|easy]. injection H as <-. now apply Z_do.
    - destruct Hz as [[Al [f [G V]]] Fb [d [D [Vd Fd]]] In0 Nd B]. rewrite B in H.
      destruct (code (z_log z) t) as [|a k] eqn:Ec; [easy|]. destruct (may (z_in z t) p) eqn:M; [|easy].
      destruct (leaves (z_log z) t a p l) as [s'|] eqn:E; [|easy]. injection H as <-.
      assert (N1 : p <> PRegister) by (now intros ->). assert (N2 : p <> PDisable) by (now intros ->).
      destruct (leaves_same _ _ _ _ _ _ E N1) as (E1 & E2 & E3 & E4 & E5 & E6 & E7 & E8 & E9 & E10 & E11 & E12 & _).
      pose proof (V t) as Vt. rewrite Ec in Vt. destruct Vt as [O _].
      split; cbn [z_log z_in]; auto.
      + split.
        * apply (alone_cmd (z_log z)); auto. apply closing_mine; auto. congruence.
        * exists f. split.
          -- apply (GB_same cap (z_log z) f); auto.
          -- intros u. cbn. rewrite E9. byt u t; auto. eapply unwind_B; eauto.
      + exists d. split; [|split]; auto.
        * split; intros u; cbn; rewrite ?E11, ?E1; [apply (gd_cl _ _ D)|apply (gd_off _ _ D)].
        * intros u. cbn. rewrite E9. byt u t; auto. apply unwind_D. auto.
      + intros u. cbn. rewrite E7, E8. apply In0.
      + cbn. now rewrite E8.
      + cbn. congruence.
  Qed.

  (** The call the thread is inside of answers std::bad_alloc. *)
  Lemma Z_answer z t p l z' : Z z -> tame (Lack t p l) -> zstep z (Lack t p l) = Some z' ->
    exists fr r, z_in z t = fr :: r /\ match fr with
    | FCall o => exists z2, zstep z' (Do (Step t CNone)) = Some z2 /\
        hist (z_log z2) = hist (z_log z) ++ [Done t o (RThrow BadAlloc)] /\ code (z_log z2) t = Ret /\ mtx (z_log z2) <> Some t
    | FNested h back => exists z2, zstep z' (Do (Step t CNone)) = Some z2 /\
        hist (z_log z2) = hist (z_log z) ++ [Nested t h (RThrow BadAlloc)] /\ code (z_log z2) t = back /\ hook_of back <> None /\ mtx (z_log z2) = Some t
    end.
  Proof.
    intros Hz T H. cbn [Shortage.zstep] in H. destruct Hz as [[Al [f [G V]]] Fb [d [D [Vd Fd]]] In0 Nd B]. rewrite B in H.
    destruct (code (z_log z) t) as [|a k] eqn:Ec; [easy|]. destruct (may (z_in z t) p) eqn:M; [|easy].
    destruct (leaves (z_log z) t a p l) as [s'|] eqn:E; [|easy]. injection H as <-.
    assert (N1 : p <> PRegister) by (now intros ->). assert (N2 : p <> PDisable) by (now intros ->).
    destruct (leaves_same _ _ _ _ _ _ E N1) as (E1 & E2 & E3 & E4 & E5 & E6 & E7 & E8 & E9 & E10 & E11 & E12 & E13).
    pose proof (V t) as Vt. rewrite Ec in Vt. destruct Vt as [O _].
    assert (Ph : (p <> PCategory /\ mtx (z_log z) = Some t) \/ (p = PCategory /\ mtx (z_log z) <> Some t)).
    { assert (X : (p <> PCategory /\ calm (f t)) \/ (f t = idle /\ p = PCategory)).
      { destruct p, a; try discriminate E; try easy; cbn in O; try (left; split; [easy|tauto]); now right. }
      destruct X as [[X [[on Y] _]]|[X ->]].
      - left. split; auto. apply (lk_hold _ _ (gb_lk _ _ _ G)). congruence.
      - right. split; auto. intros Mx. apply (lk_hold _ _ (gb_lk _ _ _ G)) in Mx. now rewrite X in Mx. }
    destruct (z_in z t) as [|fr r] eqn:Ez; [destruct p; discriminate M|]. exists fr, r. split; auto.
    assert (Ow : owns s' t = match p with PCategory => false | _ => true end).
    { unfold owns. rewrite E2. destruct Ph as [[X ->]|[-> X]]; [rewrite Nat.eqb_refl; destruct p; easy|].
      destruct (mtx (z_log z)) as [u|]; auto. apply Nat.eqb_neq. congruence. }
    assert (Bs : bad s' = false) by congruence.
    destruct fr as [o|h back].
    - assert (C : unwind s' t (FCall o :: r) = (AUnlock (Done t o (RThrow BadAlloc));;; Ret) /\ owns s' t = true \/
                  unwind s' t (FCall o :: r) = (ANote (Done t o (RThrow BadAlloc));;; Ret) /\ p = PCategory).
      { cbn [unwind]. rewrite Ow. destruct p, o; try discriminate M; try (now destruct N2); auto. }
      destruct C as [[C Oo]|[C ->]]; rewrite C.
      + eexists. split; [|split; [|split]].
        * cbn [Shortage.zstep z_log z_in]. unfold pstep. cbn [polite]. unfold step. cbn [bad set_cmd set_busy set_code code].
          rewrite Bs, tset_same. cbn [exec]. match goal with |- context [owns ?x t] => change (owns x t) with (owns s' t) end.
          rewrite Oo. reflexivity.
        * cbn. now rewrite E13.
        * cbn. apply tset_same.
        * easy.
      + destruct Ph as [[X _]|[_ X]]; [easy|]. eexists. split; [|split; [|split]].
        * cbn [Shortage.zstep z_log z_in]. unfold pstep. cbn [polite]. unfold step. cbn [bad set_cmd set_busy set_code code].
          rewrite Bs, tset_same. cbn [exec]. reflexivity.
        * cbn. now rewrite E13.
        * cbn. apply tset_same.
        * cbn. congruence.
    - destruct (Fb t (FNested h back)) as [hk [kk [-> _]]]; [rewrite Ez; now left|]. cbn [unwind]. eexists. split; [|split; [|split; [|split]]].
      * cbn [Shortage.zstep z_log z_in]. unfold pstep. cbn [polite]. unfold step. cbn [bad set_cmd set_busy set_code code].
        rewrite Bs, tset_same. cbn [exec]. reflexivity.
      * cbn. now rewrite E13.
      * cbn. apply tset_same.
      * easy.
      * cbn. rewrite E2. destruct Ph as [[_ X]|[-> _]]; [exact X|discriminate M].
  Qed.

  Lemma Z_start_off z t l z' : Z z -> zstep z (Lack t PUpdate l) = Some z' -> enabled (z_log z) = false.
  Proof.
    intros [[Al [f [G V]]] _ _ _ _ B] H. cbn [Shortage.zstep] in H. rewrite B in H.
    destruct (code (z_log z) t) as [|a k] eqn:Ec; [easy|]. destruct (may (z_in z t) PUpdate) eqn:M; [|easy].
    destruct a; try discriminate H. specialize (V t). rewrite Ec in V. destruct V as [[_ O] _].
    now apply (lk_on _ _ (gb_lk _ _ _ G)) in O.
  Qed.

  Lemma Z_new : Z short_new.
  Proof.
    split; cbn; auto.
    - split; [split; cbn; easy|]. exists (fun _ => idle). split; [apply f0_GB|reflexivity].
    - easy.
    - exists (fun _ => Norm). repeat split; easy.
    - constructor.
  Qed.

  Theorem Z_run sched : (forall x, In x sched -> tame x) -> Z (short_run cap csz site_cat sched).
  Proof.
    unfold short_run. induction sched as [|x sched IH] using rev_ind; intros T; [apply Z_new|].
    rewrite run_snoc. unfold move.
    assert (Hz : Z (run zstep short_new sched)) by (apply IH; intros y Hy; apply T, in_or_app; auto).
    destruct (zstep (run zstep short_new sched) x) as [z'|] eqn:E; auto. eapply Z_step; eauto. apply T, in_or_app. right. now left.
  Qed.
End Short.
