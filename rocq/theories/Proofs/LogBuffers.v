(** The buffers of a log: numbering, kind, size and generation. *)
From Verif Require Import Base Model.StringUtils Model.Event Model.Queue Model.Buffer Model.Config Spec.Categories Model.Registry
  Model.Interleave Spec.LogHistory Spec.LogFacts Model.TraceLog Proofs.Interleave Proofs.Registry Proofs.LogFrame Proofs.LogView Proofs.LogViewInv
  Proofs.LogContract.

Lemma buffers_made_app a b : buffers_made (a ++ b) = buffers_made a + buffers_made b.
Proof. induction a as [|e a IH]; auto. cbn [app buffers_made]. destruct e; auto. destruct (made_buffer m); auto. rewrite IH. lia. Qed.

(** Events that are not factory calls. *)
Definition no_made (e : hev) : Prop := match e with Made _ _ _ _ => False | _ => True end.

Definition made_as (m : made) (x : buf) (g : N) : Prop :=
  match m with
  | MadeFixed _ n => b_kind x = Fixed /\ b_size x = n /\ b_gen x = g
  | MadeRing _ n => b_kind x = Ring /\ b_size x = n /\ b_gen x = g
  | _ => True
  end.

(** What an action may do to a buffer. *)
Definition keeps (x y : buf) : Prop := b_kind y = b_kind x /\ b_size y = b_size x /\ b_gen y = b_gen x.

Lemma keeps_put s b x : keeps (heap s b) x -> forall c, keeps (heap s c) (heap (put_buf s b x) c).
Proof.
  intros K c. cbn. destruct (Nat.eq_dec c b) as [->|N]; [now rewrite tset_same|]. rewrite tset_other by auto. repeat split.
Qed.

Section Bufs.
  Variables cap csz : N.
  Variable site_cat : nat -> bytes.

  Lemma exec_bufs s f t ch a s' r : GA csz s f -> ok csz t (f t) a -> exec cap s t ch a = Next s' r ->
    (exists c g n m, hist s' = hist s ++ [Made t g n m] /\ a = AFactory c g n /\
       (forall b, made_buffer m = Some b -> b = nbuf s /\ made_as m (heap s' b) g) /\
       nbuf s' = match made_buffer m with Some _ => S (nbuf s) | None => nbuf s end /\
       forall b, b <> nbuf s -> heap s' b = heap s b) \/
    (exists l, hist s' = hist s ++ l /\ (forall e, In e l -> no_made e) /\ nbuf s' = nbuf s /\ forall b, keeps (heap s b) (heap s' b)).
  Proof.
    intros I O E.
    assert (Id : forall b, keeps (heap s b) (heap s b)) by (intros; repeat split).
    assert (Nil : hist s = hist s ++ []) by now rewrite app_nil_r.
    assert (Free : forall o b, keeps (heap s b) (heap (free_buf s o) b)).
    { intros [b0|] b; [|apply Id]. apply (keeps_put s b0). repeat split. }
    assert (Give : forall o b, keeps (heap s b) (heap (give_buf s o) b)).
    { intros [b0|] b; [|apply Id]. apply (keeps_put s b0). repeat split. }
    assert (Hf : forall o, hist (free_buf s o) = hist s /\ nbuf (free_buf s o) = nbuf s) by (now intros [|]).
    assert (Hg : forall o, hist (give_buf s o) = hist s /\ nbuf (give_buf s o) = nbuf s) by (now intros [|]).
    destruct a; cbn [exec] in E;
      try (right; unfold with_buf in E;
           repeat match type of E with context [match ?x with _ => _ end] => destruct x eqn:? end;
           try discriminate E; inversion E; subst; clear E;
           cbn [hist nbuf heap set_enabled set_mtx set_gen set_bufp set_regd set_cfg set_names set_dereg set_reg set_sites emit set_hist put_ten set_ten put_buf set_heap];
           solve [ exists []; repeat split; auto; try easy; intros; apply (keeps_put s); repeat split
                 | eexists; split; [reflexivity|]; split; [intros e0 [<-|[]]; exact Logic.I|]; split; [reflexivity|]; auto; intros; apply (keeps_put s); repeat split ]).
    - (* AUnlock *)
      right. destruct (owns s t); [|easy]. inversion E; subst; clear E. exists [e]. split; [reflexivity|]. split; [|split; [reflexivity|exact Id]].
      intros e0 [<-|[]]. unfold ok, insec in O. destruct (a_sec (f t)) as [[p q]|]; [|easy]. destruct O as [_ [In [_ [_ S]]]].
      destruct e; try exact Logic.I. cbn in S. now apply app_eq_nil in S as [_ S].
    - (* ABufTake *)
      right. inversion E; subst; clear E. exists []. cbn. destruct (Hg (bufp s)) as [-> ->]. repeat split; auto; try easy; apply Give.
    - right. inversion E; subst; clear E. exists []. cbn. destruct (Hf (bufp s)) as [-> ->]. repeat split; auto; try easy; apply Free.
    - (* AFactory *)
      left. unfold exec_factory in E.
      destruct ch, (cf_factory c); try discriminate E;
        try (destruct (N.eqb_spec n0 n) as [->|]; [|discriminate E]); inversion E; subst; clear E;
        eexists _, _, _, _; (split; [reflexivity|]); (split; [reflexivity|]); cbn [made_buffer];
        (split; [intros b X1; try discriminate X1; (injection X1 as <-; split; [reflexivity|]; cbn; now rewrite tset_same)|]);
        (split; [reflexivity|]); intros b X1; cbn; try rewrite tset_other; auto.
    - (* AEmit *)
      right. inversion E; subst; clear E. exists [e]. split; [reflexivity|]. split; [|split; [reflexivity|exact Id]].
      intros e0 [<-|[]]. unfold ok, insec in O. destruct (a_sec (f t)) as [[p q]|]; [|easy]. destruct O as [_ [[o [-> _]]|[h [r [-> _]]]]]; exact Logic.I.
    - (* ANote *)
      right. inversion E; subst; clear E. exists [e]. split; [reflexivity|]. split; [|split; [reflexivity|exact Id]].
      intros e0 [<-|[]]. destruct O as [o [r [-> _]]]. exact Logic.I.
    - (* AFree *)
      right. inversion E; subst; clear E. exists [Freed t]. cbn. destruct (Hf (bufp s)) as [-> ->]. repeat split; auto; try apply Free.
      intros e0 [<-|[]]. exact Logic.I.
  Qed.

  (** The n-th buffer made is number n, and it is what its factory was asked
      for; its generation never changes. *)
  Definition bufs_ok (s : st) : Prop :=
    nbuf s = buffers_made (hist s) /\
    (forall x t g n m y b, hist s = x ++ Made t g n m :: y -> made_buffer m = Some b -> b = buffers_made x /\ made_as m (heap s b) g).

  Lemma bufs_inv s : reached cap csz site_cat s -> bufs_ok s.
  Proof.
    apply reached_ind; try (intros; assumption).
    - split; [reflexivity|]. intros x t g n m y b E. now destruct x.
    - intros s0 t o _ [A B]. split.
      + cbn. rewrite buffers_made_app. cbn. lia.
      + intros x u g n m y b E. apply split_snoc in E as [[_ [_ E]]|[y' [-> E]]]; [easy|]. eauto.
    - intros s0 f t ch a s' r R I O [A B] E.
      destruct (exec_bufs _ _ _ _ _ _ _ I O E) as [[c [g [n [m [Eh [_ [Hm [Hn Hh]]]]]]]]|[l [Eh [Nl [Hn Hh]]]]].
      + split.
        * rewrite Eh, buffers_made_app, Hn. cbn. destruct (made_buffer m); lia.
        * rewrite Eh. intros x u g' n' m' y b Ex Mb. apply split_snoc in Ex as [[-> [-> X]]|[y' [-> Ex]]].
          -- inversion X; subst. destruct (Hm _ Mb) as [-> M]. now rewrite A in *.
          -- destruct (B _ _ _ _ _ _ _ Ex Mb) as [-> M]. split; auto. rewrite Hh; auto.
             rewrite A, Ex, buffers_made_app. cbn. rewrite Mb. lia.
      + split.
        * rewrite Hn, Eh, buffers_made_app. assert (buffers_made l = 0); [|lia]. clear - Nl. induction l as [|e l IH]; auto.
          cbn. assert (X := Nl e (or_introl eq_refl)). destruct e; try (apply IH; intros; apply Nl; now right); easy.
        * intros x u g n m y b Ex Mb. rewrite Eh in Ex.
          assert (exists y', hist s0 = x ++ Made u g n m :: y') as [y' Ey].
          { clear - Ex Nl. revert y Ex. induction l as [|e l IH] using rev_ind; intros y Ex; [rewrite app_nil_r in Ex; eauto|].
            rewrite app_assoc in Ex. apply split_snoc in Ex as [[-> [E1 E2]]|[y' [-> Ex]]].
            - assert (X : no_made e) by (apply Nl, in_or_app; right; now left). now subst.
            - apply IH with y'; auto. intros e0 H0. apply Nl, in_or_app. now left. }
          destruct (B _ _ _ _ _ _ _ Ey Mb) as [-> M]. split; auto. destruct (Hh (buffers_made x)) as [K1 [K2 K3]].
          destruct m; cbn in *; rewrite ?K1, ?K2, ?K3; auto.
  Qed.
End Bufs.
