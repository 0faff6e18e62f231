(** Facts about schedules. *)
From Verif Require Import Base Model.Interleave.

Lemma tset_same {A} (f : tid -> A) t v : tset f t v t = v.
Proof. unfold tset. now rewrite Nat.eqb_refl. Qed.

Lemma tset_other {A} (f : tid -> A) t v u : u <> t -> tset f t v u = f u.
Proof. intros H. unfold tset. apply Nat.eqb_neq in H. now rewrite H. Qed.

Section Interleave.
  Context {St Act : Type}.
  Variable step : St -> Act -> option St.

  Lemma run_app s a b : run step s (a ++ b) = run step (run step s a) b.
  Proof. revert s. induction a as [|x a IH]; intros s; cbn; auto. Qed.

  Lemma run_snoc s a x : run step s (a ++ [x]) = move step (run step s a) x.
  Proof. now rewrite run_app. Qed.

  (** Invariants. *)
  Lemma run_inv (I : St -> Prop) :
    (forall s a s', I s -> step s a = Some s' -> I s') ->
    forall sched s, I s -> I (run step s sched).
  Proof.
    intros P sched. induction sched as [|a r IH]; intros s H; cbn; [exact H|].
    apply IH. unfold move. destruct (step s a) eqn:E; eauto.
  Qed.

  (** A relation between the states before and after. *)
  Lemma run_rel (R : St -> St -> Prop) :
    (forall s, R s s) -> (forall a b c, R a b -> R b c -> R a c) ->
    (forall s a s', step s a = Some s' -> R s s') ->
    forall sched s, R s (run step s sched).
  Proof.
    intros Rr Rt P sched. induction sched as [|a r IH]; intros s; cbn; [apply Rr|].
    eapply Rt; [|apply IH]. unfold move. destruct (step s a) eqn:E; eauto.
  Qed.
End Interleave.
