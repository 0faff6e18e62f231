(** Reasoning about the code of the log, one action at a time: every thread is
    in a phase; a command is valid in a phase when each of its actions is
    allowed in the phase reached. *)
From Verif Require Import Base Model.StringUtils Model.Event Model.Queue Model.Buffer Model.Config Model.Registry
  Model.Interleave Spec.LogHistory Model.TraceLog Proofs.Interleave.

Lemma mem_In t l : mem t l = true <-> In t l.
Proof.
  unfold mem. rewrite existsb_exists. split.
  - intros [x [H E]]. apply Nat.eqb_eq in E. now subst.
  - intros H. exists t. now rewrite Nat.eqb_refl.
Qed.

Lemma mem_not t l : mem t l = false <-> ~ In t l.
Proof. rewrite <- mem_In. destruct (mem t l); split; congruence. Qed.

Lemma In_del u t l : In u (del t l) <-> In u l /\ u <> t.
Proof.
  unfold del. rewrite filter_In, negb_true_iff, Nat.eqb_neq. split; intros [A B]; split; congruence.
Qed.

Lemma In_add u t l : In u (add t l) <-> u = t \/ In u l.
Proof.
  unfold add. destruct (mem t l) eqn:E; cbn; [|split; intros [A|A]; auto; now left].
  apply mem_In in E. split; auto. now intros [->|H].
Qed.

Lemma NoDup_del t l : NoDup l -> NoDup (del t l).
Proof. apply NoDup_filter. Qed.

Lemma NoDup_add t l : NoDup l -> NoDup (add t l).
Proof. unfold add. destruct (mem t l) eqn:E; auto. constructor; auto. now apply mem_not. Qed.

Lemma mem_add u t l : mem u (add t l) = Nat.eqb u t || mem u l.
Proof.
  apply eq_true_iff_eq. rewrite orb_true_iff, !mem_In, In_add, Nat.eqb_eq. tauto.
Qed.

Lemma mem_del u t l : mem u (del t l) = negb (Nat.eqb u t) && mem u l.
Proof.
  apply eq_true_iff_eq. rewrite andb_true_iff, negb_true_iff, !mem_In, In_del, Nat.eqb_neq. tauto.
Qed.

Lemma del_notin t l : ~ In t l -> del t l = l.
Proof.
  unfold del. induction l as [|a l IH]; cbn; intros N; auto.
  destruct (Nat.eqb_spec t a) as [->|H]; cbn; [now destruct N; left|].
  rewrite IH; auto.
Qed.

Lemma length_del t l : NoDup l -> In t l -> length l = S (length (del t l)).
Proof.
  induction l as [|a l IH]; cbn [In]; intros N H; [easy|]. inversion N; subst.
  unfold del. cbn. destruct (Nat.eqb_spec t a) as [->|E]; cbn.
  - fold (del a l). now rewrite del_notin.
  - fold (del t l). f_equal. apply IH; auto. destruct H; congruence.
Qed.

Section Valid.
  Context {P : Type}.
  Variable ok : tid -> P -> act -> Prop.
  Variable post : tid -> P -> forall a, ans a -> P -> Prop.
  Variable quiet : P -> Prop.

  Fixpoint valid (t : tid) (c : cmd) (ph : P) : Prop :=
    match c with
    | Ret => quiet ph
    | Act a k => ok t ph a /\ forall r ph', post t ph a r ph' -> valid t (k r) ph'
    end.
End Valid.

(** What an action leaves alone. *)
Lemma exec_frame cap s t ch a s' r : exec cap s t ch a = Next s' r ->
  code s' = code s /\ busy s' = busy s /\ closing s' = closing s /\ bad s' = bad s.
Proof.
  destruct a; cbn [exec]; unfold exec_factory, with_buf; intros H;
    repeat match type of H with
    | context [match ?x with _ => _ end] => destruct x
    end; inversion H; subst; cbn; auto;
    repeat match goal with
    | |- context [free_buf _ ?x] => destruct x; cbn; auto
    | |- context [give_buf _ ?x] => destruct x; cbn; auto
    end.
Qed.

Lemma hook_of_some c h k : hook_of c = Some (h, k) -> c = Act (AHook h) k.
Proof. destruct c as [|a kk]; cbn; [easy|]. destruct a; cbn; intros E; inversion E; subst; auto. Qed.

(** Who is inside a call. *)
Record alone (s : st) : Prop := {
  al_busy : forall u, code s u <> Ret -> In u (busy s);
  al_closing : forall t, closing s = Some t -> forall u, u <> t -> code s u = Ret;
}.

Lemma alone_cmd s s' t c : code s' = code s -> busy s' = busy s -> closing s' = closing s ->
  (closing s = None \/ closing s = Some t) -> alone s -> alone (set_cmd s' t c).
Proof.
  intros Ec Eb El Cl [A B]. split; cbn; rewrite ?Ec, ?Eb, ?El.
  - intros u Hu. destruct (Nat.eq_dec u t) as [->|N].
    + rewrite tset_same in Hu. destruct c; [easy|]. apply In_add. auto.
    + rewrite tset_other in Hu by auto. destruct c.
      * apply In_del. auto.
      * apply In_add. auto.
  - intros v Hv u Hu. destruct Cl as [Cl|Cl]; rewrite Cl in Hv; [easy|]. inversion Hv; subst.
    rewrite tset_other by auto. eauto.
Qed.

Section Frame.
  Variables cap csz : N.
  Variable site_cat : nat -> bytes.
  Context {P : Type}.
  Variable ok : tid -> P -> act -> Prop.
  Variable post : tid -> P -> forall a, ans a -> P -> Prop.
  Variable quiet : P -> Prop.
  Variable R : st -> Prop.
  Variable G : st -> (tid -> P) -> Prop.

  Let valid := valid ok post quiet.

  Definition inv (s : st) : Prop :=
    alone s /\ exists f, G s f /\ forall t, valid t (code s t) (f t).

  Hypothesis Hcmd : forall s f t c, G s f -> G (set_cmd s t c) f.
  Hypothesis Hbad : forall s f, G s f -> G (set_bad s true) f.
  Hypothesis Hexec : forall s f t ch a k s' r, R s -> G s f -> (closing s = None \/ closing s = Some t) ->
    code s t = Act a k -> ok t (f t) a ->
    exec cap s t ch a = Next s' r -> exists ph', post t (f t) a r ph' /\ G s' (tset f t ph').
  Hypothesis Hcall : forall s f t o, R s -> G s f -> code s t = Ret -> quiet (f t) -> closing s = None ->
    (is_destroy o = true -> forall u, quiet (f u)) ->
    exists ph', valid t (code_of csz site_cat t o) ph' /\
      G (if is_destroy o then set_closing (emit s (Invoked t o)) (Some t) else emit s (Invoked t o)) (tset f t ph').
  Hypothesis Hdo : forall s f t h hk k, R s -> G s f -> polite s (HookDo t h) = true -> code s t = Act (AHook hk) k ->
    valid t (Act (AHook hk) k) (f t) -> exists ph', valid t (hcode csz t h (Act (AHook hk) k)) ph' /\ G s (tset f t ph').
  Hypothesis Hend : forall s f t hk k r, R s -> G s f -> code s t = Act (AHook hk) k -> ok t (f t) (AHook hk) ->
    exists ph', post t (f t) (AHook hk) r ph' /\ G s (tset f t ph').

  Lemma closing_mine s t : alone s -> code s t <> Ret -> closing s = None \/ closing s = Some t.
  Proof.
    intros A H. destruct (closing s) as [u|] eqn:E; auto. right.
    destruct (Nat.eq_dec t u) as [->|N]; auto. destruct H. now apply (al_closing s A u).
  Qed.

  Lemma others f s t ph c : (forall u, valid u (code s u) (f u)) -> valid t c ph ->
    forall u, valid u (tset (code s) t c u) (tset f t ph u).
  Proof.
    intros V Vt u. destruct (Nat.eq_dec u t) as [->|N]; [now rewrite !tset_same|].
    now rewrite !tset_other by auto.
  Qed.

  Lemma tset_id {A} (f : tid -> A) t : forall u, tset f t (f t) u = f u.
  Proof. intros u. unfold tset. destruct (Nat.eqb_spec u t); congruence. Qed.


  Theorem inv_step s a s' : R s -> inv s -> pstep cap csz site_cat s a = Some s' -> inv s'.
  Proof.
    intros Rs [Al [f [HG V]]] H. unfold pstep in H. destruct (polite s a) eqn:Po; [|easy].
    unfold step in H. destruct (bad s) eqn:B; [easy|].
    destruct a as [t o|t ch|t h|t r].
    - destruct (code s t) eqn:Ec; [|easy]. destruct (closing s) eqn:El; [easy|].
      assert (Q : quiet (f t)) by (specialize (V t); rewrite Ec in V; exact V).
      destruct (is_destroy o) eqn:D.
      + destruct (is_nil (busy s)) eqn:Nb; [|easy]. inversion H; subst; clear H.
        assert (Nb' : busy s = []) by (destruct (busy s); easy).
        destruct (Hcall s f t o Rs HG Ec Q El) as [ph [Vc Gc]].
        { intros _ u. specialize (V u). destruct (code s u) eqn:Eu; [exact V|].
          assert (In u (busy s)) by (apply Al; congruence). rewrite Nb' in *; easy. }
        rewrite D in Gc. split.
        * split; cbn.
          -- intros u Hu. destruct (Nat.eq_dec u t) as [->|N].
             ++ rewrite tset_same in Hu. destruct (code_of csz site_cat t o); [easy|]. apply In_add. auto.
             ++ rewrite tset_other in Hu by auto. apply (al_busy s Al) in Hu. rewrite Nb' in *; easy.
          -- intros v Hv u Hu. inversion Hv; subst. rewrite tset_other by auto.
             destruct (code s u) eqn:Eu; auto. assert (In u (busy s)) by (apply Al; congruence).
             rewrite Nb' in *; easy.
        * exists (tset f t ph). split.
          -- assert (X := Hcmd _ _ t (code_of csz site_cat t o) Gc). exact X.
          -- cbn. apply others; auto.
      + inversion H; subst; clear H.
        destruct (Hcall s f t o Rs HG Ec Q El) as [ph [Vc Gc]]; [congruence|]. rewrite D in Gc. split.
        * apply (alone_cmd s); auto.
        * exists (tset f t ph). split; [apply Hcmd, Gc|]. cbn. apply others; auto.
    - destruct (code s t) as [|x k] eqn:Ec; [easy|].
      assert (Cl : closing s = None \/ closing s = Some t) by (apply closing_mine; auto; congruence).
      pose proof (V t) as Vt. rewrite Ec in Vt. destruct Vt as [O Vk].
      destruct (exec cap s t ch x) as [| |s1 r] eqn:Ex; [easy| |].
      + inversion H; subst. split; [now destruct Al; split|]. exists f. split; auto.
      + inversion H; subst; clear H. destruct (exec_frame _ _ _ _ _ _ _ Ex) as [E1 [E2 [E3 E4]]].
        destruct (Hexec _ _ _ _ _ _ _ _ Rs HG Cl Ec O Ex) as [ph [Po' G']]. split.
        * apply (alone_cmd s); auto.
        * exists (tset f t ph). split; [apply Hcmd, G'|]. cbn. rewrite E1. apply others; auto.
    - destruct (hook_of (code s t)) as [[hk k]|] eqn:Eh; [|easy]. inversion H; subst; clear H.
      apply hook_of_some in Eh.
      assert (Cl : closing s = None \/ closing s = Some t) by (apply closing_mine; auto; rewrite Eh; easy).
      split; [apply (alone_cmd s); auto|].
      destruct (Hdo s f t h hk k) as [ph [Vh Gh]]; auto; [specialize (V t); now rewrite Eh in V|].
      exists (tset f t ph). split; [now apply Hcmd|]. cbn. rewrite Eh. apply others; auto.
    - destruct (hook_of (code s t)) as [[hk k]|] eqn:Eh; [|easy]. inversion H; subst; clear H.
      apply hook_of_some in Eh.
      assert (Cl : closing s = None \/ closing s = Some t) by (apply closing_mine; auto; rewrite Eh; easy).
      split; [apply (alone_cmd s); auto|].
      pose proof (V t) as Vt. rewrite Eh in Vt. destruct Vt as [O Vk]. destruct (Hend s f t hk k r) as [ph [Ph Gh]]; auto.
      exists (tset f t ph). split; [now apply Hcmd|]. cbn. apply others; auto.
  Qed.
End Frame.
