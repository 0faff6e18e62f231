(** How the calls of a log end. *)
From Verif Require Import Base Model.StringUtils Model.Event Model.Queue Model.Buffer Model.Config Spec.Categories Model.Registry
  Model.Interleave Spec.LogHistory Spec.LogFacts Spec.LogCalls Model.TraceLog Proofs.Interleave Proofs.Registry Proofs.LogFrame
  Proofs.LogView Proofs.LogViewInv Proofs.LogContract.

(** The event an action is about to add. *)
Definition says_ev (t : tid) (a : act) (e : hev) : Prop :=
  match a with
  | AUnlock e' | AEmit e' | ANote e' => e = e'
  | AFactory _ g n => exists m, e = Made t g n m
  | AFree => e = Freed t
  | ATerminate => e = Terminated t
  | _ => False
  end.

Definition quiet_act (a : act) : bool := match a with AIncGen => true | _ => false end.

(** The next event of [t] will be one of [Q]. *)
Inductive soon (t : tid) (Q : hev -> Prop) : cmd -> Prop :=
| soon_now a k : (exists e, says_ev t a e) -> (forall e, says_ev t a e -> Q e) -> soon t Q (Act a k)
| soon_quiet a k : quiet_act a = true -> (forall r, soon t Q (k r)) -> soon t Q (Act a k).

(** What is true of the code that is left to each thread. *)
Fixpoint mannered (t : tid) (c : cmd) : Prop :=
  match c with
  | Ret => True
  | Act a k =>
      match a return (ans a -> cmd) -> Prop with
      | AHook _ => fun k => forall r, soon t (follows_callback t r) (k r)
      | AUnlock e => fun k => by_thread e = t /\ (forall w r, e = StopTried t w r -> soon t (follows_stop t w r) (k tt))
      | AEmit e | ANote e => fun _ => by_thread e = t /\ (forall w r, e <> StopTried t w r)
      | _ => fun _ => True
      end k /\ forall r, mannered t (k r)
  end.

Section Manners.
  Variable csz : N.
  Variable site_cat : nat -> bytes.
  Variable t : tid.

  Lemma evict_mannered n l k : mannered t k -> mannered t (evict n l k).
  Proof. revert l. induction n as [|n IH]; intros l H; cbn [evict]; auto. cbn. repeat split; auto. Qed.

  Lemma stop_mannered nr w k :
    (forall r, mannered t (k r)) -> (forall r, soon t (follows_callback t r) (k r)) -> mannered t (stop_lh t nr w k).
  Proof.
    intros M S. unfold stop_lh. cbn [mannered]. split; auto. intros was. destruct was; auto.
    cbn [mannered]. split; auto. intros _. split; auto. intros l. apply evict_mannered. cbn [mannered]. split; auto. intros c.
    split; [split; [reflexivity|easy]|]. intros _. destruct (if _ : bool then _ else _); cbn [mannered]; auto.
  Qed.

  Lemma start_mannered c k :
    (forall r, mannered t (k r)) -> (forall x, soon t (ends_with t (RThrow x)) (k (Some x))) -> mannered t (start_lh csz t c k).
  Proof.
    intros M S. unfold start_lh. cbn [mannered]. split; auto. intros _. destruct (_ =? 0)%N; auto.
    cbn [mannered]. split; auto. intros on.
    match goal with |- mannered t (if on then stop_lh _ _ _ (fun r => match r with Some x => _ | None => ?g end) else _) => set (go := g) end.
    assert (Mg : mannered t go).
    { subst go. cbn [mannered]. split; auto. intros g. split; auto. intros m. destruct m; cbn [mannered]; repeat split; auto. }
    destruct on; auto. apply stop_mannered; [intros [x|]; auto|]. intros [x|]; [exact (S x)|].
    apply soon_quiet; [reflexivity|]. intros g. apply soon_now; [eexists; exists MadeNull; reflexivity|].
    intros e (m & ->). right. eauto.
  Qed.

  Lemma log_mannered e k :
    (forall r, mannered t (k r)) -> (forall r, soon t (follows_stop t Exhausted (out_of r)) (k r)) -> mannered t (logEvent t e k).
  Proof.
    intros M S.
    assert (Mm : forall g, mannered t (maybe_stop t g k)).
    { intros g. unfold maybe_stop. cbn [mannered]. split; auto. intros got. destruct got; auto. cbn [mannered]. split; auto. intros g'.
      destruct (_ =? g)%N.
      - apply stop_mannered.
        + intros r. cbn [mannered]. split; auto. split; [reflexivity|]. intros w o E. injection E as <- <-. apply S.
        + intros r. apply soon_now; [eexists; reflexivity|]. intros e' ->. destruct r; cbn; unfold ends_with; [|left]; eauto.
      - cbn [mannered]. split; auto. split; [reflexivity|]. intros w o E. injection E as <- <-. apply (S None). }
    unfold logEvent. cbn [mannered]. split; auto. intros on. destruct on; cbn [negb]; auto. cbn [mannered]. split; auto. intros got.
    destruct got; cbn [negb]; auto. cbn [mannered]. split; auto. intros ini. destruct ini; cbn [negb]; [|cbn [mannered]; split; auto].
    match goal with |- context [fun ok : bool => if ok then ?st else _] => set (store := st) end.
    assert (Ms : mannered t store).
    { subst store. cbn [mannered]. split; auto. intros [[b i]|]; cbn [mannered]; repeat split; auto. }
    assert (Mr : mannered t (on <- ALdEnabled;; if negb on then AUnTenant;;; k None
             else replaceChunk (fun ok => if ok then store else g <- ALdGen;; AUnTenant;;; maybe_stop t g k))).
    { cbn [mannered]. split; auto. intros on. destruct on; cbn [negb]; [|cbn [mannered]; split; auto].
      set (cont := fun ok : bool => if ok then store else _).
      assert (Mc : forall ok, mannered t (cont ok)) by (intros [|]; subst cont; cbn [mannered]; auto; repeat split; auto).
      clearbody cont. unfold replaceChunk, returnChunk, getChunk. cbn [mannered]. split; auto. intros c.
      assert (Mrest : forall b, mannered t (r <- AIssue b;; match r with
                 | IGot i => AReset b i;;; ALoan b true;;; (AChunkSet (Some (b, i));;; cont true)
                 | IFull => AChunkSet None;;; cont false
                 | IWait => i <- ADeq b;; AReset b i;;; ALoan b true;;; (AChunkSet (Some (b, i));;; cont true) end)).
      { intros b. cbn [mannered]. split; auto. intros r. destruct r; cbn [mannered]; repeat split; auto. }
      assert (Mrest2 : mannered t (on <- ALdEnabled;; if negb on then cont false else b <- ABufGet;; match b with None => cont false
                 | Some _ => b <- ABufGet;; match b with None => ACrash;;; Ret | Some b => 
                     r <- AIssue b;; match r with
                 | IGot i => AReset b i;;; ALoan b true;;; (AChunkSet (Some (b, i));;; cont true)
                 | IFull => AChunkSet None;;; cont false
                 | IWait => i <- ADeq b;; AReset b i;;; ALoan b true;;; (AChunkSet (Some (b, i));;; cont true) end end end)).
      { cbn [mannered]. split; auto. intros on. destruct on; cbn [negb]; auto. cbn [mannered]. split; auto. intros [b0|]; auto.
        cbn [mannered]. split; auto. intros [b|]; [apply Mrest|]. cbn [mannered]. auto. }
      destruct c as [[b0 i]|]; [|exact Mrest2]. cbn [mannered]. split; auto. intros [b|]; [|cbn [mannered]; auto].
      cbn [mannered]. do 3 (split; [exact Logic.I|]; intros _). exact Mrest2. }
    cbn [mannered]. split; auto. intros [[b i]|]; [|exact Mr]. cbn [mannered]. split; auto. intros [|]; [exact Mr|exact Ms].
  Qed.

  Lemma locked_mannered o body :
    (forall k : out -> cmd, (forall r, mannered t (k r)) -> (forall r, soon t (ends_with t r) (k r)) -> mannered t (body k)) ->
    mannered t (locked t o body).
  Proof.
    intros H. unfold locked. cbn [mannered]. split; auto. intros _. apply H.
    - intros r. cbn [mannered]. repeat split; auto. easy.
    - intros r. apply soon_now; [eexists; reflexivity|]. intros e ->. left. eauto.
  Qed.

  Lemma soon_weaken (Q Q' : hev -> Prop) c : (forall e, Q e -> Q' e) -> soon t Q c -> soon t Q' c.
  Proof. intros H S. induction S; [apply soon_now; auto|apply soon_quiet; auto]. Qed.

  Lemma follow_out (k : out -> cmd) : (forall r, soon t (ends_with t r) (k r)) -> forall r, soon t (follows_callback t r) (k (out_of r)).
  Proof. intros S r. eapply soon_weaken; [|apply S]. destruct r; cbn; auto. Qed.

  Ltac mann := cbn [mannered]; repeat (split; auto; intros); auto.

  Lemma code_mannered o : mannered t (code_of csz site_cat t o).
  Proof.
    assert (Log : forall e o', (forall r, follows_stop t Exhausted r (Done t o' r)) -> mannered t (logEvent t e (fun r => ANote (Done t o' (out_of r));;; Ret))).
    { intros e o' F. apply log_mannered; [intros r; mann; easy|]. intros r. apply soon_now; [eexists; reflexivity|]. intros e' ->. apply F. }
    destruct o; unfold code_of; try (apply locked_mannered; intros k M S).
    - apply start_mannered; auto.
    - destruct startup; apply locked_mannered; intros k M S; auto. apply start_mannered; auto.
    - apply stop_mannered; [auto|]. now apply follow_out.
    - unfold getBuffer_lh. cbn [mannered]. split; auto. intros [|]; mann.
    - unfold getTraceContext_lh. cbn [mannered]. split; auto. intros [|]; mann.
    - mann. easy.
    - cbn [mannered]. split; auto. intros [|]; mann. destruct (is_nil name); mann.
    - cbn [mannered]. split; auto. intros [|]; cbn [negb]; auto.
      assert (R : mannered t (AReg false;;; on <- ALdEnabled;; (if on then ADeregAdd;;; k RUnit else ANameDel;;; k RUnit))).
      { mann. destruct r0; mann. }
      cbn [mannered]. split; auto. intros [[b i]|]; [|exact R]. cbn [mannered]. split; auto. unfold returnChunk. intros [b'|]; mann; try apply R.
    - mann.
    - mann.
    - mann. easy.
    - apply Log. intros r. left. eauto.
    - unfold macro. cbn [mannered]. split; auto. intros p.
      assert (Gt : forall i, mannered t (on <- AStatus i;; if on then logEvent t e (fun r => ANote (Done t (OMacro site e) (out_of r));;; Ret) else (ANote (Done t (OMacro site e) (out_of None));;; Ret))).
      { intros i. cbn [mannered]. split; auto. intros [|]; [apply Log; intros r; right; left; eauto|]. mann. easy. }
      destruct p as [i|]; [apply Gt|]. cbn [mannered]. split; auto. intros i. split; auto. intros _. apply Gt.
    - cbn [mannered]. split; auto. now apply follow_out.
    - cbn [mannered]. split; auto. intros _. apply stop_mannered.
      + intros r. cbn [mannered]. split.
        * split; [reflexivity|]. intros w o E. injection E as <- <-. destruct r as [x|]; apply soon_now; try (eexists; reflexivity); intros e ->; cbn; eauto.
        * intros _. destruct r; mann; easy.
      + intros r. apply soon_now; [eexists; reflexivity|]. intros e ->. destruct r; cbn; unfold ends_with; [|left]; eauto.
  Qed.

  Lemma hcode_mannered h k : mannered t k -> mannered t (hcode csz t h k).
  Proof.
    intros M.
    assert (Mf : forall r, mannered t (AEmit (Nested t h r);;; k)) by (intros r; mann; easy).
    assert (Sf : forall r, soon t (ends_with t r) (AEmit (Nested t h r);;; k)).
    { intros r. apply soon_now; [eexists; reflexivity|]. intros e ->. right. right. eauto. }
    destruct h; unfold hcode; cbv zeta.
    - apply start_mannered; [intros r; apply Mf|]. intros x. apply Sf.
    - apply stop_mannered; [intros r; apply Mf|]. apply (follow_out _ Sf).
    - unfold getBuffer_lh. cbn [mannered]. split; auto. intros [|]; [apply Mf|]. cbn [mannered]. split; auto. intros; apply Mf.
    - unfold getTraceContext_lh. cbn [mannered]. split; auto. intros [|]; [apply Mf|]. cbn [mannered]. split; auto. intros. split; auto. intros; apply Mf.
    - cbn [mannered]. split; auto. intros on. apply Mf.
    - apply log_mannered; [intros r; apply Mf|]. intros r. apply soon_now; [eexists; reflexivity|]. intros e' ->. right. right. eauto.
  Qed.
End Manners.

Section Follow.
  Variables cap csz : N.
  Variable site_cat : nat -> bytes.
  Notation pstep := (pstep cap csz site_cat).
  Notation run := (run pstep).

  Definition plain_ev (e : hev) : bool :=
    match e with Invoked _ _ | Done _ _ _ | StopTried _ _ _ | Nested _ _ _ | Terminated _ | Callback _ _ => false | _ => true end.

  Lemma exec_events s t ch a s' r : exec cap s t ch a = Next s' r ->
    exists l, hist s' = hist s ++ l /\ (quiet_act a = true -> l = []) /\
      (forall e, In e l -> says_ev t a e \/ (by_thread e = t /\ plain_ev e = true)) /\
      ((exists e, says_ev t a e) -> exists e, says_ev t a e /\ l = [e]).
  Proof.
    intros E.
    assert (Nil : hist s = hist s ++ []) by now rewrite app_nil_r.
    assert (Hf : forall o, hist (free_buf s o) = hist s) by (now intros [|]).
    assert (Hg : forall o, hist (give_buf s o) = hist s) by (now intros [|]).
    destruct a; cbn [exec] in E; unfold with_buf, exec_factory in E;
      repeat match type of E with context [match ?x with _ => _ end] => destruct x eqn:? end;
      try discriminate E; inversion E; subst; clear E;
      cbn [hist nbuf heap set_enabled set_mtx set_gen set_bufp set_regd set_cfg set_names set_dereg set_reg set_sites emit set_hist put_ten set_ten put_buf set_heap set_nbuf];
      rewrite ?Hf, ?Hg;
      first [ solve [exists []; split; [now rewrite app_nil_r|]; split; [easy|]; split; [easy|]; intros (ev & Xv); cbn in Xv; (contradiction || (destruct Xv; discriminate) || discriminate)]
            | solve [eexists; split; [reflexivity|]; split; [easy|]; split;
              [intros ev [<-|[]]; first [right; split; reflexivity | left; cbn; eauto] | intros (ev & Xv); contradiction Xv ]]
            | solve [eexists; split; [reflexivity|]; split; [easy|]; split;
              [intros ev [<-|[]]; first [right; split; reflexivity | left; cbn; eauto] | intros _; eexists; split; [|reflexivity]; cbn; eauto]] ].
  Qed.

  Lemma mannered_step s a s' : (forall u, mannered u (code s u)) -> pstep s a = Some s' -> forall u, mannered u (code s' u).
  Proof.
    intros M E. unfold TraceLog.pstep in E. destruct (polite s a); [|easy]. unfold step in E. destruct (bad s); [easy|].
    assert (Set_ : forall s1 t c, code s1 = code s -> mannered t c -> forall u, mannered u (code (set_cmd s1 t c) u)).
    { intros s1 t c Ec Mc u. cbn. rewrite Ec. unfold tset. destruct (Nat.eqb_spec u t) as [->|]; auto. }
    destruct a as [t o|t ch|t h|t r].
    - destruct (code s t); [|easy]. destruct (closing s); [easy|]. destruct (is_destroy o).
      + destruct (is_nil (busy s)); [|easy]. injection E as <-. apply (Set_ (emit s (Invoked t o))); auto. apply code_mannered.
      + injection E as <-. apply (Set_ (emit s (Invoked t o))); auto. apply code_mannered.
    - pose proof (M t) as Mt. destruct (code s t) as [|x k]; [easy|]. destruct Mt as [_ Mt].
      destruct (exec cap s t ch x) as [| |s1 r] eqn:Ex; [easy| |]; injection E as <-; auto.
      destruct (exec_frame _ _ _ _ _ _ _ Ex) as [E1 _]. now apply Set_.
    - destruct (hook_of (code s t)) as [[hk k]|] eqn:Eh; [|easy]. injection E as <-. apply Set_; auto. apply hcode_mannered; auto.
    - destruct (hook_of (code s t)) as [[hk k]|] eqn:Eh; [|easy]. injection E as <-. apply Set_; auto.
      apply hook_of_some in Eh. pose proof (M t) as Mt. rewrite Eh in Mt. apply Mt.
  Qed.

  Lemma all_mannered sched t : mannered t (code (run log_new sched) t).
  Proof.
    revert t. apply (run_inv pstep (fun s => forall t, mannered t (code s t))); [intros; eapply mannered_step; eauto|].
    intros t. exact Logic.I.
  Qed.

  (** What a step by a thread adds to the history. *)
  Definition actor (a : sact) : tid := match a with Invoke t _ | Step t _ | HookDo t _ | HookEnd t _ => t end.

  Lemma step_events s a s' : (forall u, mannered u (code s u)) -> pstep s a = Some s' ->
    exists l, hist s' = hist s ++ l /\ (forall e, In e l -> by_thread e = actor a) /\ (forall u, u <> actor a -> code s' u = code s u).
  Proof.
    intros M E. unfold TraceLog.pstep in E. destruct (polite s a); [|easy]. unfold step in E. destruct (bad s); [easy|].
    destruct a as [t o|t ch|t h|t r]; cbn [actor].
    - destruct (code s t); [|easy]. destruct (closing s); [easy|]. exists [Invoked t o].
      assert (hist s' = hist s ++ [Invoked t o] /\ code s' = tset (code s) t (code_of csz site_cat t o)) as [E1 E2].
      { destruct (is_destroy o); [destruct (is_nil (busy s)); [|easy]|]; injection E as <-; split; reflexivity. }
      split; auto. split; [now intros e [<-|[]]|]. intros u N. now rewrite E2, tset_other.
    - pose proof (M t) as Mt. destruct (code s t) as [|x k]; [easy|]. destruct Mt as [Mt _].
      destruct (exec cap s t ch x) as [| |s1 r] eqn:Ex; [easy| |]; injection E as <-.
      + exists []. rewrite app_nil_r. repeat split; auto. easy.
      + destruct (exec_events _ _ _ _ _ _ Ex) as (l & El & _ & By & _). exists l. split; [exact El|]. split.
        * intros e Hi. destruct (By e Hi) as [Sa|[B _]]; auto. destruct x; cbn in Sa, Mt; try contradiction; subst; try reflexivity; try apply Mt.
          destruct Sa as (m & ->). reflexivity.
        * intros u N. cbn. rewrite tset_other by auto. now destruct (exec_frame _ _ _ _ _ _ _ Ex) as [-> _].
    - destruct (hook_of (code s t)) as [[hk k]|] eqn:Eh; [|easy]. injection E as <-. exists []. rewrite app_nil_r. split; auto. split; [easy|].
      intros u N. cbn. now rewrite tset_other.
    - destruct (hook_of (code s t)) as [[hk k]|] eqn:Eh; [|easy]. injection E as <-. exists []. rewrite app_nil_r. split; auto. split; [easy|].
      intros u N. cbn. now rewrite tset_other.
  Qed.

  Lemma hist_grows sched s : (forall u, mannered u (code s u)) -> exists z, hist (run s sched) = hist s ++ z.
  Proof.
    revert s. induction sched as [|a l IH]; intros s M; cbn [Interleave.run]; [exists []; now rewrite app_nil_r|].
    unfold move. destruct (pstep s a) as [s'|] eqn:E; auto. destruct (step_events _ _ _ M E) as (x & Ex & _).
    destruct (IH s' (mannered_step _ _ _ M E)) as (z & Ez). exists (x ++ z). now rewrite Ez, Ex, app_assoc.
  Qed.

  Lemma first_by_skip t l z : (forall e, In e l -> by_thread e <> t) -> first_by t (l ++ z) = first_by t z.
  Proof.
    induction l as [|e l IH]; intros H; auto. cbn. destruct (Nat.eqb_spec (by_thread e) t) as [X|]; [exfalso; now apply (H e (or_introl eq_refl))|].
    apply IH. intros e' H'. apply H. now right.
  Qed.

  Theorem soon_run t Q sched s z : (forall u, mannered u (code s u)) -> soon t Q (code s t) ->
    hist (run s sched) = hist s ++ z -> forall e, first_by t z = Some e -> Q e.
  Proof.
    revert s z. induction sched as [|a l IH]; intros s z M S Ez e Fe; cbn [Interleave.run] in Ez.
    - rewrite <- (app_nil_r (hist s)) in Ez at 1. apply app_inv_head in Ez as <-. discriminate Fe.
    - unfold move in Ez. destruct (pstep s a) as [s'|] eqn:E; [|eapply IH; eauto].
      assert (M' := mannered_step _ _ _ M E).
      destruct (step_events _ _ _ M E) as (x & Ex & Bx & Cx).
      destruct (hist_grows l s' M') as (z' & Ez'). rewrite Ez', Ex, <- app_assoc in Ez. apply app_inv_head in Ez as <-.
      destruct (Nat.eq_dec (actor a) t) as [At|Nt].
      + unfold TraceLog.pstep in E. destruct (polite s a); [|easy]. unfold step in E. destruct (bad s); [easy|].
        destruct a as [t' o|t' ch|t' h|t' r]; cbn in At; subst t'.
        * destruct S; easy.
        * inversion S as [a k Sa Sq Ek|a k Sa Sq Ek]; rewrite <- Ek in E.
          -- destruct (exec cap s t ch a) as [| |s1 r] eqn:Exe; [easy| |].
             ++ injection E as <-. cbn [hist set_bad] in Ex. rewrite <- (app_nil_r (hist s)) in Ex at 1. apply app_inv_head in Ex as <-.
                exfalso. clear - Ez' Fe. cbn [app] in Fe.
                assert (hist (run (set_bad s true) l) = hist s) as X.
                { clear. induction l as [|b l IH]; auto. cbn [Interleave.run]. unfold move, TraceLog.pstep. now destruct (polite (set_bad s true) b). }
                rewrite X in Ez'. cbn [hist set_bad] in Ez'. rewrite <- (app_nil_r (hist s)) in Ez' at 1. apply app_inv_head in Ez' as <-. discriminate Fe.
             ++ injection E as <-. destruct (exec_events _ _ _ _ _ _ Exe) as (x' & Ex' & _ & _ & On).
                destruct (On Sa) as (e0 & Se & ->). cbn [hist set_cmd set_busy set_code] in Ex. rewrite Ex' in Ex. apply app_inv_head in Ex as <-.
                cbn [app first_by] in Fe. assert (by_thread e0 = t) as Eb by (apply Bx; now left). rewrite Eb, Nat.eqb_refl in Fe. injection Fe as <-. auto.
          -- destruct (exec cap s t ch a) as [| |s1 r] eqn:Exe; [easy| |].
             ++ destruct a; try discriminate Sa. discriminate Exe.
             ++ injection E as <-. destruct (exec_events _ _ _ _ _ _ Exe) as (x' & Ex' & Qx & _ & _).
                cbn [hist set_cmd set_busy set_code] in Ex. rewrite Ex' in Ex. apply app_inv_head in Ex as <-. rewrite (Qx Sa) in Fe.
                refine (IH _ _ M' _ Ez' _ Fe). cbn. now rewrite tset_same.
        * destruct S as [a k Sa _|a k Sa _]; destruct a; try discriminate E; [destruct Sa; contradiction|discriminate Sa].
        * destruct S as [a k Sa _|a k Sa _]; destruct a; try discriminate E; [destruct Sa; contradiction|discriminate Sa].
      + rewrite first_by_skip in Fe by (intros e' H'; rewrite (Bx _ H'); auto).
        refine (IH s' z' M' _ Ez' _ Fe). rewrite (Cx t) by auto. exact S.
  Qed.

  (** After a callback. *)
  Theorem after_callback sched t r s1 sched' z e :
    pstep (run log_new sched) (HookEnd t r) = Some s1 -> hist (run s1 sched') = hist s1 ++ z -> first_by t z = Some e ->
    hist s1 = hist (run log_new sched) /\ follows_callback t r e.
  Proof.
    intros E Ez Fe. pose proof (fun u => all_mannered sched u) as M. set (s := run log_new sched) in *.
    assert (M1 := mannered_step _ _ _ M E).
    unfold TraceLog.pstep in E. cbn [polite] in E. unfold step in E. destruct (bad s); [easy|].
    destruct (hook_of (code s t)) as [[hk k]|] eqn:Eh; [|easy]. injection E as <-. split; auto. apply hook_of_some in Eh.
    pose proof (M t) as Mt. rewrite Eh in Mt. destruct Mt as [Mt _].
    apply (soon_run t (follows_callback t r) sched' _ z M1); auto. cbn. now rewrite tset_same.
  Qed.

  (** After the stop attempt of a logEvent call or the destructor. *)
  Lemma split_mid (x y l0 l : list hev) e0 : x ++ e0 :: y = l0 ++ l -> (exists y', l0 = x ++ e0 :: y') \/ (exists x', x = l0 ++ x' /\ l = x' ++ e0 :: y).
  Proof.
    revert l0. induction x as [|a x IH]; intros [|b l0] E; cbn in *.
    - right. exists []. auto.
    - injection E as -> ->. left. eauto.
    - right. exists (a :: x). auto.
    - injection E as -> E. destruct (IH _ E) as [(y' & ->)|(x' & -> & ->)]; [left; eauto|right; eauto].
  Qed.

  Lemma stop_run t w r sched s x y e : (forall u, mannered u (code s u)) ->
    hist (run s sched) = hist s ++ x ++ StopTried t w r :: y -> first_by t y = Some e -> follows_stop t w r e.
  Proof.
    revert s x. induction sched as [|a l IH]; intros s x M Eh Fe; cbn [Interleave.run] in Eh.
    - rewrite <- (app_nil_r (hist s)) in Eh at 1. apply app_inv_head in Eh. now destruct x.
    - unfold move in Eh. destruct (pstep s a) as [s'|] eqn:E; [|eapply IH; eauto].
      assert (M' := mannered_step _ _ _ M E).
      destruct (step_events _ _ _ M E) as (z & Ez & Bz & _). destruct (hist_grows l s' M') as (z' & Ez').
      assert (x ++ StopTried t w r :: y = z ++ z') as Es.
      { rewrite Ez', Ez, <- app_assoc in Eh. now apply app_inv_head in Eh. }
      destruct (split_mid _ _ _ _ _ Es) as [(y' & ->)|(x' & -> & ->)]; [|apply (IH s' x'); auto].
      assert (actor a = t) as At by (rewrite <- (Bz (StopTried t w r)); [reflexivity|apply in_app_iff; right; now left]).
      assert (In (StopTried t w r) (x ++ StopTried t w r :: y')) as Hi by (apply in_app_iff; right; now left).
      unfold TraceLog.pstep in E. destruct (polite s a); [|easy]. unfold step in E. destruct (bad s); [easy|].
      destruct a as [t' o|t' ch|t' h|t' r']; cbn in At; subst t'.
      + exfalso. destruct (code s t); [|easy]. destruct (closing s); [easy|].
        assert (hist s' = hist s ++ [Invoked t o]) as E1 by (destruct (is_destroy o); [destruct (is_nil (busy s)); [|easy]|]; injection E as <-; reflexivity).
        rewrite E1 in Ez. apply app_inv_head in Ez. rewrite <- Ez in Hi. now destruct Hi.
      + pose proof (M t) as Mt. destruct (code s t) as [|b k]; [easy|].
        destruct (exec cap s t ch b) as [| |s1 r1] eqn:Exe; [easy| |].
        { exfalso. injection E as <-. cbn [hist set_bad] in Ez. rewrite <- (app_nil_r (hist s)) in Ez at 1. apply app_inv_head in Ez. rewrite <- Ez in Hi. contradiction. }
        destruct (exec_events _ _ _ _ _ _ Exe) as (x' & Ex' & _ & By & On).
        injection E as <-. cbn [hist set_cmd set_busy set_code] in Ez. rewrite Ex' in Ez. apply app_inv_head in Ez. rewrite <- Ez in *.
        assert (exists ev, says_ev t b ev /\ soon t (follows_stop t w r) (k r1)) as (ev & Sev & Sk).
        { destruct (By _ Hi) as [Sa|[_ Nn]]; [|discriminate Nn].
          destruct b; cbn in Sa; try contradiction; try discriminate Sa; try (destruct Sa; discriminate); subst e0; cbn [mannered] in Mt.
          - exists (StopTried t w r). split; [reflexivity|]. destruct r1. now apply Mt.
          - destruct Mt as [[_ Mt] _]. now destruct (Mt w r).
          - destruct Mt as [[_ Mt] _]. now destruct (Mt w r). }
        destruct (On (ex_intro _ ev Sev)) as (e1 & _ & E1).
        assert (x = [] /\ y' = []) as [-> ->].
        { rewrite E1 in Ez. destruct x as [|? [|]]; injection Ez; intros; subst; try easy. }
        rewrite Ez in Es. cbn in Es. injection Es as ->. eapply soon_run; [exact M'| |exact Ez'|exact Fe]. cbn. now rewrite tset_same.
      + destruct (hook_of (code s t)) as [[hk k]|]; [|easy]. injection E as <-. cbn [hist set_cmd set_busy set_code] in Ez.
        rewrite <- (app_nil_r (hist s)) in Ez at 1. apply app_inv_head in Ez. rewrite <- Ez in Hi. contradiction.
      + destruct (hook_of (code s t)) as [[hk k]|]; [|easy]. injection E as <-. cbn [hist set_cmd set_busy set_code] in Ez.
        rewrite <- (app_nil_r (hist s)) in Ez at 1. apply app_inv_head in Ez. rewrite <- Ez in Hi. contradiction.
  Qed.

  Theorem after_stop sched t w r x y e :
    hist (run log_new sched) = x ++ StopTried t w r :: y -> first_by t y = Some e -> follows_stop t w r e.
  Proof. intros E. apply (stop_run t w r sched log_new x); auto. intros u. exact Logic.I. Qed.
End Follow.

(** ** Calls *)

Section Calls.
  Variables cap csz : N.
  Variable site_cat : nat -> bytes.
  Notation reached := (reached cap csz site_cat).

  Definition cph := option (op * option out).

  Definition asks (o : op) : bool := match o with OIsEnabled | OGetStatus _ => true | _ => false end.

  Definition okC (t : tid) (ph : cph) (a : act) : Prop :=
    match a with
    | AUnlock e | ANote e | AEmit e =>
        match e with
        | Invoked _ _ | Terminated _ => False
        | Done u o r => u = t /\ exists v, ph = Some (o, v) /\ (asks o = true -> v = Some r)
        | _ => True
        end
    | AHook _ => exists o v, ph = Some (o, v) /\ asks o = false
    | ATerminate => exists o v, ph = Some (o, v)
    | AGetStatus c => forall c' v, ph = Some (OGetStatus c', v) -> c' = c
    | _ => True
    end.

  Definition nextC (ph : cph) (a : act) : ans a -> cph :=
    match a return ans a -> cph with
    | AUnlock e | ANote e | AEmit e => fun _ => match e with Done _ _ _ => None | _ => ph end
    | ATerminate | ACrash => fun _ => None
    | ALdEnabled => fun r => match ph with Some (OIsEnabled, _) => Some (OIsEnabled, Some (RBool r)) | _ => ph end
    | AGetStatus _ => fun r => match ph with Some (OGetStatus c, _) => Some (OGetStatus c, Some (RSlot r)) | _ => ph end
    | _ => fun _ => ph
    end.

  Definition postC (t : tid) (ph : cph) (a : act) (r : ans a) (ph' : cph) : Prop := ph' = nextC ph a r.
  Definition quietC (ph : cph) : Prop := ph = None.
  Notation validC := (valid okC postC quietC).

  Section Code.
    Variable t : tid.
    Variable o : op.
    Variable v : option out.
    Hypothesis Na : asks o = false.
    Notation here := (Some (o, v)).

    Lemma act_valid a k : okC t here a -> (forall r, nextC here a r = here) -> (forall r, validC t (k r) here) -> validC t (Act a k) here.
    Proof. intros O N K. split; auto. intros r ph' ->. rewrite N. auto. Qed.

    Ltac av := first [apply act_valid; [cbn; auto; try (exists o, v; now split); try (intros ? ? E; injection E as -> _; discriminate Na)|
                                        intros; cbn; destruct o; try discriminate Na; reflexivity|intros]].

    Lemma evict_valid n l k : validC t k here -> validC t (evict n l k) here.
    Proof. revert l. induction n as [|n IH]; intros l H; cbn [evict]; auto. repeat av. auto. Qed.

    Lemma stop_valid nr w k : (forall r, validC t (k r) here) -> validC t (stop_lh t nr w k) here.
    Proof.
      intros K. unfold stop_lh. av. destruct r; auto. do 2 av. apply evict_valid. do 2 av.
      destruct (if _ : bool then _ else _); auto. av. auto.
    Qed.

    Lemma start_valid c k : (forall r, validC t (k r) here) -> validC t (start_lh csz t c k) here.
    Proof.
      intros K. unfold start_lh. av. destruct (_ =? 0)%N; auto. av.
      match goal with |- validC t (if r0 then stop_lh _ _ _ (fun r => match r with Some x => _ | None => ?g end) else _) _ => set (go := g) end.
      assert (Mg : validC t go here).
      { subst go. do 2 av. destruct r2; auto; do 4 av; auto. }
      destruct r0; auto. apply stop_valid. intros [x|]; auto.
    Qed.

    Lemma log_valid e k : (forall r, validC t (k r) here) -> validC t (logEvent t e k) here.
    Proof.
      intros K.
      assert (Mm : forall g, validC t (maybe_stop t g k) here).
      { intros g. unfold maybe_stop. av. destruct r; auto. av. destruct (_ =? g)%N.
        - apply stop_valid. intros r0. av. auto.
        - av. auto. }
      unfold logEvent. av. destruct r; cbn [negb]; auto. av. destruct r; cbn [negb]; auto. av. destruct r; cbn [negb]; [|av; auto].
      match goal with |- context [fun ok : bool => if ok then ?st else _] => set (store := st) end.
      assert (Ms : validC t store here).
      { subst store. av. destruct r as [[b i]|]; [do 2 av; auto|]. split; cbn; auto. }
      assert (Mr : validC t (on <- ALdEnabled;; if negb on then AUnTenant;;; k None
               else replaceChunk (fun ok => if ok then store else g <- ALdGen;; AUnTenant;;; maybe_stop t g k)) here).
      { av. destruct r; cbn [negb]; [|av; auto].
        set (cont := fun ok : bool => if ok then store else _).
        assert (Mc : forall ok, validC t (cont ok) here) by (intros [|]; subst cont; cbv beta; auto; do 2 av; auto).
        clearbody cont. unfold replaceChunk, returnChunk, getChunk. av.
        match goal with |- context [AChunkSet None;;; ?rs] => set (rest := rs) end.
        assert (Mrest : validC t rest here).
        { subst rest. av. destruct r0; cbn [negb]; auto. av. destruct r0 as [b0|]; auto. av. destruct r0 as [b|]; [|split; cbn; auto; now intros ? ? ->].
          av. destruct r0; [do 3 av; auto|av; auto|do 4 av; auto]. }
        destruct r as [[b0 i]|]; [|exact Mrest]. av. destruct r as [b|]; [|split; cbn; auto; now intros ? ? ->]. do 3 av. exact Mrest. }
      av. destruct r as [[b i]|]; [|exact Mr]. av. destruct r; [exact Mr|exact Ms].
    Qed.

    Lemma buffer_valid k : (forall r, validC t (k r) here) -> validC t (getBuffer_lh k) here.
    Proof. intros K. unfold getBuffer_lh. av. destruct r; auto. av. auto. Qed.

    Lemma context_valid k : (forall r, validC t (k r) here) -> validC t (getTraceContext_lh k) here.
    Proof. intros K. unfold getTraceContext_lh. av. destruct r; auto. do 2 av. auto. Qed.

    Lemma done_valid r : validC t (AUnlock (Done t o r);;; Ret) here.
    Proof. split; [split; auto; exists v; split; auto; congruence|]. now intros ? ? ->. Qed.

    Lemma note_valid r : validC t (ANote (Done t o r);;; Ret) here.
    Proof. split; [split; auto; exists v; split; auto; congruence|]. now intros ? ? ->. Qed.

    Lemma locked_valid body :
      (forall k : out -> cmd, (forall r, validC t (k r) here) -> validC t (body k) here) -> validC t (locked t o body) here.
    Proof. intros H. unfold locked. av. apply H. intros r0. apply done_valid. Qed.

    Lemma hcode_valid h k : validC t k here -> validC t (hcode csz t h k) here.
    Proof.
      intros K. assert (F : forall r, validC t (AEmit (Nested t h r);;; k) here) by (intros r; av; auto).
      destruct h; unfold hcode; cbv zeta.
      - apply start_valid. intros r. apply F.
      - apply stop_valid. intros r. apply F.
      - apply buffer_valid. intros r. apply F.
      - apply context_valid. intros r. apply F.
      - av. apply F.
      - apply log_valid. intros r. apply F.
    Qed.
  End Code.

  Ltac aw := apply act_valid; [cbn; auto; try (eexists _, _; now split); try (intros ? ? E; discriminate E)|intros; reflexivity|intros].

  Lemma code_valid_no t o v : asks o = false -> validC t (code_of csz site_cat t o) (Some (o, v)).
  Proof.
    intros Na. assert (Log : forall e, validC t (logEvent t e (fun r => ANote (Done t o (out_of r));;; Ret)) (Some (o, v))).
    { intros e. apply log_valid; auto. intros r. now apply note_valid. }
    destruct o; try discriminate Na; unfold code_of; try (apply locked_valid; [reflexivity|]; intros k K).
    - apply start_valid; auto.
    - destruct startup; (apply locked_valid; [reflexivity|]); intros k K; auto. apply start_valid; auto.
    - apply stop_valid; auto.
    - now apply buffer_valid.
    - now apply context_valid.
    - aw. destruct r; auto. aw. destruct (is_nil name); auto. do 2 aw. auto.
    - aw. destruct r; cbn [negb]; auto. aw.
      match goal with |- context [returnChunk _ _ (AChunkSet None;;; ?rs)] => set (rest := rs) end.
      assert (R : validC t rest (Some (ODeregister, v))).
      { subst rest. do 2 aw. destruct r1; aw; auto. }
      destruct r as [[b i]|]; auto. aw. unfold returnChunk. destruct r as [b'|]; [do 3 aw; auto|aw; auto].
    - aw. auto.
    - aw. auto.
    - apply Log.
    - unfold macro. aw. destruct r as [i|].
      + aw. destruct r; [apply Log|now apply note_valid].
      + do 3 aw. destruct r1; [apply Log|now apply note_valid].
    - aw. auto.
    - aw. apply stop_valid; auto. intros r0. aw. destruct r0.
      + split; [cbn; eauto|]. now intros ? ? ->.
      + aw. now apply note_valid.
  Qed.

  Lemma code_valid t o : validC t (code_of csz site_cat t o) (Some (o, None)).
  Proof.
    destruct (asks o) eqn:A; [|now apply code_valid_no]. destruct o; try discriminate A; unfold code_of.
    - split; [exact Logic.I|]. intros r ? ->. cbn. split; [split; auto; eexists; split; auto|]. now intros ? ? ->.
    - split; [cbn; intros c' v E; now injection E|]. intros r ? ->. cbn. split; [split; auto; eexists; split; auto|]. now intros ? ? ->.
  Qed.

  Record GC (s : st) (f : tid -> cph) : Prop := {
    c_in : forall t o v, f t = Some (o, v) -> (exists y, calling (hist s) t o y) /\ (forall r, v = Some r -> truthful (hist s) t o r);
    c_out : forall t, f t = None -> returned (hist s) t;
    c_done : forall x t o r y, hist s = x ++ Done t o r :: y -> (exists z, calling x t o z) /\ truthful x t o r;
    c_call : forall x t o y, hist s = x ++ Invoked t o :: y -> returned x t;
  }.

  (** Events that do not end or begin a call of [t]. *)
  Definition beside (t : tid) (e : hev) : Prop :=
    match e with Invoked u _ | Done u _ _ | Terminated u => u <> t | _ => True end.

  Lemma calling_grows h l t o y : calling h t o y -> (forall e, In e l -> beside t e) -> calling (h ++ l) t o (y ++ l).
  Proof.
    intros (x & -> & N) B. exists x. split; [now rewrite <- app_assoc|]. intros e Hi. apply in_app_iff in Hi as [Hi|Hi]; [now apply N|].
    now apply B.
  Qed.

  Lemma truthful_grows h l t o r : truthful h t o r -> (forall o', ~ In (Invoked t o') l) -> truthful (h ++ l) t o r.
  Proof.
    intros T N. destruct o; cbn in *; auto.
    - destruct T as (b & x & y & -> & -> & E & Ny). exists b, x, (y ++ l). split; auto. split; [now rewrite app_assoc|]. split; auto.
      intros o' Hi. apply in_app_iff in Hi as [Hi|Hi]; [now apply (Ny o')|now apply (N o')].
    - destruct T as (i & x & y & -> & -> & Ny). exists i, x, (y ++ l). split; auto. split; [now rewrite <- app_assoc|].
      intros o' Hi. apply in_app_iff in Hi as [Hi|Hi]; [now apply (Ny o')|now apply (N o')].
  Qed.

  Lemma returned_grows h l t : returned h t -> (forall o, ~ In (Invoked t o) l) -> returned (h ++ l) t.
  Proof.
    intros R N x o y E. symmetry in E. destruct (split_mid _ _ _ _ _ E) as [(y' & ->)|(x' & -> & ->)].
    - destruct (R x o y' eq_refl) as (e & Hi & He). exists e. split; auto.
      rewrite <- app_assoc in E. apply app_inv_head in E. injection E as ->. apply in_app_iff. now left.
    - exfalso. apply (N o). apply in_app_iff. right. now left.
  Qed.

  Lemma calling_returned h t o y e : calling h t o y -> (e = Terminated t \/ exists r, e = Done t o r) -> (forall x o' z, h = x ++ Invoked t o' :: z -> returned x t) ->
    returned (h ++ [e]) t.
  Proof.
    intros (x & -> & N) He C x1 o1 y1 E.
    apply split_snoc in E as [(_ & _ & E)|(y2 & -> & E)]; [exfalso; destruct He as [->|(r & ->)]; discriminate E|]. symmetry in E.
    destruct (split_mid _ _ _ _ _ E) as [(y' & ->)|(x' & -> & E2)].
    - destruct (C _ _ _ eq_refl x1 o1 y' eq_refl) as (e' & Hi & He'). exists e'. split; auto.
      rewrite <- app_assoc in E. apply app_inv_head in E. injection E as ->. rewrite !in_app_iff. now do 2 left.
    - destruct x' as [|a x']; injection E2; intros; subst.
      + exists e. split; [apply in_app_iff; right; now left|auto].
      + exfalso. assert (In (Invoked t o1) (x' ++ Invoked t o1 :: y2)) as Hi by (apply in_app_iff; right; now left). now apply N in Hi.
  Qed.

  Ltac byt u t := destruct (Nat.eq_dec u t) as [->|?N]; [rewrite ?tset_same in *|rewrite ?tset_other in * by auto].

  Lemma exec_C s f t ch a k s' r : reached s -> GC s f -> code s t = Act a k -> okC t (f t) a -> exec cap s t ch a = Next s' r ->
    GC s' (tset f t (nextC (f t) a r)).
  Proof.
    intros R [I O D C] Ec Ok E.
    destruct (exec_events _ _ _ _ _ _ _ E) as (l & El & _ & By & On).
    assert (Cases : (exists o r' v, l = [Done t o r'] /\ f t = Some (o, v) /\ (asks o = true -> v = Some r') /\ nextC (f t) a r = None) \/
      (exists o v, l = [Terminated t] /\ f t = Some (o, v) /\ nextC (f t) a r = None) \/
      ((forall u e, In e l -> beside u e /\ forall o r', e <> Done u o r') /\
       (nextC (f t) a r = f t \/ exists o v r', f t = Some (o, v) /\ nextC (f t) a r = Some (o, Some r') /\ truthful (hist s') t o r'))).
    { assert (Pl : forall e, plain_ev e = true -> forall u, beside u e /\ forall o r', e <> Done u o r') by (intros []; easy).
      assert (Dn : forall e, (exists x, says_ev t a x) -> says_ev t a e -> (forall x, says_ev t a x -> x = e) -> l = [e]).
      { intros e X S U. destruct (On X) as (e1 & S1 & ->). now rewrite (U _ S1). }
      assert (Nt : forall e, (forall x, says_ev t a x <-> x = e) ->
                match e with Invoked _ _ | Terminated _ => False | Done u o r => u = t /\ exists v, f t = Some (o, v) /\ (asks o = true -> v = Some r) | _ => True end ->
                (forall x : unit, nextC (f t) a r = match e with Done _ _ _ => None | _ => f t end) ->
                (exists o r' v, l = [Done t o r'] /\ f t = Some (o, v) /\ (asks o = true -> v = Some r') /\ nextC (f t) a r = None) \/
                ((forall u e, In e l -> beside u e /\ forall o r', e <> Done u o r') /\ nextC (f t) a r = f t)).
      { intros e Se Oe Ne. assert (l = [e]) as -> by (apply Dn; [exists e; now apply Se|now apply Se|intros x; now apply Se]). rewrite (Ne tt).
        destruct e; try contradiction Oe; try (right; split; auto; intros u e' [<-|[]]; now split).
        left. destruct Oe as (-> & v & Ef & As). exists o, r0, v. auto. }
      destruct a; try (right; right; split; [intros u0 e' Hi; destruct (By _ Hi) as [X|[_ X]]; [contradiction X|now apply Pl]|left; reflexivity]).
      - (* ALdEnabled *)
        right. right. split; [intros u0 e' Hi; destruct (By _ Hi) as [X|[_ X]]; [contradiction X|now apply Pl]|].
        cbn in E. injection E as <- <-. destruct (f t) as [[o v]|] eqn:Ef; auto. cbn. destruct o; auto. right.
        exists OIsEnabled, v, (RBool (enabled s)). split; auto. split; auto. cbn. exists (enabled s), (hist s), []. rewrite app_nil_r.
        split; auto. split; auto. split; auto. rewrite <- v_on_tracing. symmetry. eapply enabled_view; eauto.
      - destruct (Nt e) as [X|X]; cbn; auto; try tauto; try (intros []; reflexivity).
      - (* AFactory *)
        right. right. split; [|now left]. intros u0 e' Hi. destruct (By _ Hi) as [(m & ->)|[_ X]]; [now split|now apply Pl].
      - (* AGetStatus *)
        right. right. split; [intros u0 e' Hi; destruct (By _ Hi) as [X|[_ X]]; [contradiction X|now apply Pl]|].
        cbn in E. destruct (getStatus (reg s) category) as [i rg]. injection E as <- <-. destruct (f t) as [[o v]|] eqn:Ef; auto. cbn. destruct o; auto. right.
        exists (OGetStatus category0), v, (RSlot i). split; auto. split; auto. cbn. exists i, (hist s), []. split; auto. split; auto.
        cbn in Ok. now rewrite (Ok _ _ eq_refl).
      - destruct (Nt e) as [X|X]; cbn; auto; try tauto; try (intros []; reflexivity).
      - destruct (Nt e) as [X|X]; cbn; auto; try tauto; try (intros []; reflexivity).
      - (* AFree *)
        right. right. split; [|now left]. intros u0 e' Hi. destruct (By _ Hi) as [X|[_ X]]; [cbn in X; subst e'; now split|now apply Pl].
      - (* ATerminate *)
        right. left. cbn in Ok. destruct Ok as (o & v & Ef). exists o, v. split; auto. apply Dn; cbn; eauto.
      - discriminate E. }
    clear E Ok By On. destruct Cases as [(o & r' & v & -> & Ef & As & ->)|[(o & v & -> & Ef & ->)|(Be & Nx)]].
    - destruct (I _ _ _ Ef) as ((y & Cy) & Tr). split; rewrite El.
      + intros u o1 v1 Eu. byt u t; [discriminate|]. destruct (I _ _ _ Eu) as ((y1 & C1) & T1). split.
        * exists (y1 ++ [Done t o r']). apply calling_grows; auto. intros e [<-|[]]. cbn. auto.
        * intros r1 E1. apply truthful_grows; auto. now intros o' [X|[]].
      + intros u Eu. byt u t.
        * eapply calling_returned; eauto.
        * apply returned_grows; auto. now intros o' [X|[]].
      + intros x u o1 r1 y1 E. apply split_snoc in E as [(-> & -> & E)|(y2 & -> & E)]; [|eauto]. injection E as -> -> ->. split; eauto.
        destruct (asks o) eqn:Ao; [auto|]. destruct o; try discriminate Ao; exact Logic.I.
      + intros x u o1 y1 E. apply split_snoc in E as [(-> & -> & E)|(y2 & -> & E)]; [discriminate E|eauto].
    - destruct (I _ _ _ Ef) as ((y & Cy) & Tr). split; rewrite El.
      + intros u o1 v1 Eu. byt u t; [discriminate|]. destruct (I _ _ _ Eu) as ((y1 & C1) & T1). split.
        * exists (y1 ++ [Terminated t]). apply calling_grows; auto. intros e [<-|[]]. cbn. auto.
        * intros r1 E1. apply truthful_grows; auto. now intros o' [X|[]].
      + intros u Eu. byt u t.
        * eapply calling_returned; eauto.
        * apply returned_grows; auto. now intros o' [X|[]].
      + intros x u o1 r1 y1 E. apply split_snoc in E as [(-> & -> & E)|(y2 & -> & E)]; [discriminate E|eauto].
      + intros x u o1 y1 E. apply split_snoc in E as [(-> & -> & E)|(y2 & -> & E)]; [discriminate E|eauto].
    - assert (Ni : forall u o', ~ In (Invoked u o') l) by (intros u o' Hi; apply (Be u) in Hi as [X _]; now apply X).
      assert (Nd : forall u o' r', ~ In (Done u o' r') l) by (intros u o' r' Hi; apply (Be u) in Hi as [_ X]; now apply (X o' r')).
      assert (Old : forall e x y, (exists u o', e = Invoked u o') \/ (exists u o' r', e = Done u o' r') -> hist s ++ l = x ++ e :: y -> exists y', hist s = x ++ e :: y').
      { intros e x y He E2. symmetry in E2. destruct (split_mid _ _ _ _ _ E2) as [X|(x' & -> & ->)]; auto. exfalso.
        assert (In e (x' ++ e :: y)) as Hi by (apply in_app_iff; right; now left).
        destruct He as [(u & o' & ->)|(u & o' & r' & ->)]; [now apply (Ni u o')|now apply (Nd u o' r')]. }
      assert (Keep : forall u o v, f u = Some (o, v) -> exists y, calling (hist s ++ l) u o y).
      { intros u o v Eu. destruct (I _ _ _ Eu) as ((y & Cy) & _). exists (y ++ l). apply calling_grows; auto. intros e Hi. now apply Be. }
      split.
      + intros u o v Eu. rewrite El. byt u t.
        * destruct Nx as [Nx|(o1 & v1 & r1 & Ef & Nx & T1)].
          -- rewrite Nx in Eu. split; [eauto|]. intros r1 E1. apply truthful_grows; auto. destruct (I _ _ _ Eu) as (_ & T1). auto.
          -- rewrite Nx in Eu. injection Eu as <- <-. split; [eauto|]. intros r2 E2. injection E2 as <-. now rewrite <- El.
        * split; [eauto|]. intros r1 E1. apply truthful_grows; auto. destruct (I _ _ _ Eu) as (_ & T1). auto.
      + intros u Eu. rewrite El. apply returned_grows; auto. byt u t; auto. destruct Nx as [Nx|(o1 & v1 & r1 & Ef & Nx & T1)]; rewrite Nx in Eu; [auto|discriminate].
      + rewrite El. intros x u o1 r1 y1 E. apply Old in E as (y' & E); eauto 6.
      + rewrite El. intros x u o1 y1 E. apply Old in E as (y' & E); eauto 6.
  Qed.

  Theorem calls_inv s : reached s -> exists f, GC s f.
  Proof.
    intros R. cut (inv okC postC quietC GC s); [intros (_ & f & G & _); eauto|]. revert s R.
    apply (layer cap csz site_cat okC postC quietC GC (fun _ => None)).
    - intros s f t c G. destruct G. split; auto.
    - intros s f G. destruct G. split; auto.
    - intros s f t ch a k s' r R G _ Ec Ok E. exists (nextC (f t) a r). split; [reflexivity|]. eapply exec_C; eauto.
    - intros s f t o R [I O D C] Ec Q Cl _. exists (Some (o, None)). split; [apply code_valid|].
      assert (GC (emit s (Invoked t o)) (tset f t (Some (o, None)))) as X; [|destruct (is_destroy o); [destruct X; split; auto|exact X]].
      assert (Nt : forall u, u <> t -> forall o', ~ In (Invoked u o') [Invoked t o]) by (intros u N o' [X|[]]; injection X; congruence).
      split; cbn [hist emit set_hist].
      + intros u o1 v1 Eu. byt u t.
        * injection Eu as <- <-. split; [|discriminate]. exists [], (hist s). split; auto. easy.
        * destruct (I _ _ _ Eu) as ((y & Cy) & Tr). split.
          -- exists (y ++ [Invoked t o]). apply calling_grows; auto. intros e [<-|[]]. cbn. auto.
          -- intros r1 E1. apply truthful_grows; auto.
      + intros u Eu. byt u t; [discriminate|]. apply returned_grows; auto.
      + intros x u o1 r1 y1 E. apply split_snoc in E as [(-> & -> & E)|(y2 & -> & E)]; [discriminate E|eauto].
      + intros x u o1 y1 E. apply split_snoc in E as [(-> & -> & E)|(y2 & -> & E)]; [|eauto]. injection E as -> ->. apply O. exact Q.
    - intros s f t h hk k R G _ Ec V. exists (f t). split.
      + destruct V as [(o & v & Ef & Na) V]. rewrite Ef in *. apply hcode_valid; auto. split; [cbn; eauto|exact V].
      + destruct G as [I O D C]. split; auto; intros u; intros; rewrite tset_id in *; eauto.
    - intros s f t hk k r R G Ec Ok. exists (f t). split; [reflexivity|].
      destruct G as [I O D C]. split; auto; intros u; intros; rewrite tset_id in *; eauto.
    - split; cbn; [discriminate|intros t _ x o y E; now destruct x|intros x; intros; now destruct x|intros x; intros; now destruct x].
    - reflexivity.
  Qed.
End Calls.
