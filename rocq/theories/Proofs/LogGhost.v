(** Phases and bookkeeping together: an invariant of the state, the phases of
    the threads and what [ghost] has recorded. *)
From Verif Require Import Base Model.StringUtils Model.Event Model.Queue Model.Buffer Model.Config Spec.Categories Model.Registry
  Model.Interleave Spec.LogHistory Spec.LogFacts Spec.LogRecords Model.TraceLog Spec.LogMemory Proofs.Interleave Proofs.Registry Proofs.LogFrame Proofs.LogView Proofs.LogViewInv
  Proofs.LogContract Proofs.LogBuffers Proofs.LogSafe Proofs.LogSafeInv Proofs.LogSafeAT Proofs.LogSafeOW Proofs.LogSafeAll Proofs.LogRaces Proofs.LogHolders.

Section GhostLayer.
  Variables cap csz : N.
  Variable site_cat : nat -> bytes.
  Notation reached := (reached cap csz site_cat).
  Notation pstep := (pstep cap csz site_cat).
  Context {P H : Type}.
  Variable ok : tid -> P -> act -> Prop.
  Variable post : tid -> P -> forall a, ans a -> P -> Prop.
  Variable quiet : P -> Prop.
  Variable note : st -> tid -> forall a, ans a -> H -> H.
  Variable h0 : H.
  Variable f0 : tid -> P.
  Variable G : st -> (tid -> P) -> H -> Prop.
  Notation valid := (valid ok post quiet).

  Definition ginv (s : st) (h : H) : Prop := exists f, G s f h /\ forall t, valid t (code s t) (f t).

  Hypothesis Hcmd : forall s f h t c, G s f h -> G (set_cmd s t c) f h.
  Hypothesis Hexec : forall s f h t ch a k s' r, reached s -> G s f h -> (closing s = None \/ closing s = Some t) ->
    code s t = Act a k -> ok t (f t) a ->
    exec cap s t ch a = Next s' r -> exists ph', post t (f t) a r ph' /\ G s' (tset f t ph') (note s t a r h).
  Hypothesis Hcall : forall s f h t o, reached s -> G s f h -> code s t = Ret -> quiet (f t) -> closing s = None ->
    exists ph', valid t (code_of csz site_cat t o) ph' /\
      G (if is_destroy o then set_closing (emit s (Invoked t o)) (Some t) else emit s (Invoked t o)) (tset f t ph') h.
  Hypothesis Hdo : forall s f h t n hk k, reached s -> G s f h -> polite s (HookDo t n) = true -> code s t = Act (AHook hk) k ->
    valid t (Act (AHook hk) k) (f t) -> exists ph', valid t (hcode csz t n (Act (AHook hk) k)) ph' /\ G s (tset f t ph') h.
  Hypothesis Hend : forall s f h t hk k r, reached s -> G s f h -> code s t = Act (AHook hk) k -> ok t (f t) (AHook hk) ->
    exists ph', post t (f t) (AHook hk) r ph' /\ G s (tset f t ph') h.
  Hypothesis G0 : G log_new f0 h0.
  Hypothesis Q0 : forall t, quiet (f0 t).

  Lemma gothers f s t ph c : (forall u, valid u (code s u) (f u)) -> valid t c ph ->
    forall u, valid u (tset (code s) t c u) (tset f t ph u).
  Proof.
    intros V Vt u. destruct (Nat.eq_dec u t) as [->|N]; [now rewrite !tset_same|].
    now rewrite !tset_other by auto.
  Qed.

  Lemma ginv_step s h a : reached s -> ginv s h ->
    ginv (fst (gstep cap csz site_cat note (s, h) a)) (snd (gstep cap csz site_cat note (s, h) a)).
  Proof.
    intros Rs (f & HG & V). cbn [gstep fst snd]. unfold move.
    pose proof (never_bad _ _ _ s Rs) as B. destruct (full_inv _ _ _ s Rs) as [Al _].
    assert (Kp : ginv s h) by (now exists f).
    destruct a as [t o|t ch|t n|t r].
    - destruct (pstep s (Invoke t o)) as [s'|] eqn:E; auto. unfold TraceLog.pstep, step in E. cbn [polite] in E. rewrite B in E.
      destruct (code s t) eqn:Ec; [|easy]. destruct (closing s) eqn:Cl; [easy|].
      assert (Q : quiet (f t)) by (specialize (V t); rewrite Ec in V; exact V).
      destruct (Hcall s f h t o Rs HG Ec Q Cl) as [ph [Vc Gc]]. exists (tset f t ph).
      destruct (is_destroy o); [destruct (is_nil (busy s)); [|easy]|]; injection E as <-.
      + split; [exact (Hcmd _ _ _ t (code_of csz site_cat t o) Gc)|]. now apply gothers.
      + split; [exact (Hcmd _ _ _ t (code_of csz site_cat t o) Gc)|]. now apply gothers.
    - unfold TraceLog.pstep, step. cbn [polite]. rewrite B. destruct (code s t) as [|x k] eqn:Ec; auto.
      assert (Cl : closing s = None \/ closing s = Some t) by (apply closing_mine; auto; congruence).
      pose proof (V t) as Vt. rewrite Ec in Vt. destruct Vt as [O Vk].
      destruct (exec cap s t ch x) as [| |s1 r] eqn:Ex; auto.
      + exfalso. destruct (safe_at cap csz site_cat s Rs) as [fb [Gb Vb]]. apply (no_crash cap site_cat s fb t ch x Gb); auto. apply Vb. now exists k.
      + destruct (exec_frame _ _ _ _ _ _ _ Ex) as [E1 [E2 [E3 E4]]].
        destruct (Hexec _ _ _ _ _ _ _ _ _ Rs HG Cl Ec O Ex) as [ph [Po' G']]. exists (tset f t ph). split; [apply Hcmd, G'|].
        cbn. rewrite E1. apply gothers; auto.
    - destruct (pstep s (HookDo t n)) as [s'|] eqn:E; auto. unfold TraceLog.pstep, step in E. destruct (polite s (HookDo t n)) eqn:Po; [|easy]. rewrite B in E.
      destruct (hook_of (code s t)) as [[hk k]|] eqn:Eh; [|easy]. injection E as <-. apply hook_of_some in Eh.
      destruct (Hdo s f h t n hk k) as [ph [Vh Gh]]; auto; [specialize (V t); now rewrite Eh in V|].
      exists (tset f t ph). split; [now apply Hcmd|]. cbn. rewrite Eh. apply gothers; auto.
    - destruct (pstep s (HookEnd t r)) as [s'|] eqn:E; auto. unfold TraceLog.pstep, step in E. cbn [polite] in E. rewrite B in E.
      destruct (hook_of (code s t)) as [[hk k]|] eqn:Eh; [|easy]. injection E as <-. apply hook_of_some in Eh.
      pose proof (V t) as Vt. rewrite Eh in Vt. destruct Vt as [O Vk]. destruct (Hend s f h t hk k r) as [ph [Ph Gh]]; auto.
      exists (tset f t ph). split; [now apply Hcmd|]. cbn. apply gothers; auto.
  Qed.

  Theorem ginv_all sched : ginv (run pstep log_new sched) (ghost cap csz site_cat note h0 sched).
  Proof.
    unfold ghost. induction sched as [|a l IH] using rev_ind.
    - exists f0. split; auto.
    - rewrite fold_left_app, run_snoc. cbn [fold_left]. pose proof (ghost_fst cap csz site_cat note l (log_new, h0)) as Fs. cbn [fst] in Fs.
      destruct (fold_left (gstep cap csz site_cat note) l (log_new, h0)) as [s h]. cbn [fst snd] in *. subst s.
      apply ginv_step; auto. now exists l.
  Qed.
End GhostLayer.
