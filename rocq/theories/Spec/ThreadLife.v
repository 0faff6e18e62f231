(** Plain readings of histories in which threads end and ids are used again. *)
From Verif Require Import Base Model.StringUtils Model.Config Model.Interleave Spec.LogHistory Spec.LogFacts.

Section Ids.
  Variable oid : tid -> N.

  (** Some thread with the id [i] registered with the name [n]. *)
  Definition gives_name (i : N) (n : bytes) (e : hev) : Prop :=
    exists t, e = Done t (ORegister n) RUnit /\ oid t = i /\ n <> [].

  (** Some thread with the id [i] deregistered. *)
  Definition gives_up (i : N) (e : hev) : Prop := exists t, e = Done t ODeregister RUnit /\ oid t = i.
  (** A trace was started. *)
  Definition starts (e : hev) : Prop := exists t g m, e = On t g m.

  (** A context read after [h] names the id [i] with [n]: a thread with the id
      registered with that name, no thread with the id registered with a name
      since, no thread with the id deregistered since while nothing was traced,
      and no trace was started after one deregistered during a trace. *)
  Definition id_named (i : N) (n : bytes) (h : list hev) : Prop :=
    exists x t y, h = x ++ Done t (ORegister n) RUnit :: y /\ oid t = i /\ n <> [] /\
      (forall e m, In e y -> ~ gives_name i m e) /\
      (forall y1 e y2, y = y1 ++ e :: y2 -> gives_up i e ->
        tracing (x ++ Done t (ORegister n) RUnit :: y1) = true /\ forall d, In d y2 -> ~ starts d).

  (** A thread with the id [i] deregistered during a trace and none registered
      with a name since. *)
  Definition id_departed (i : N) (h : list hev) : Prop :=
    exists x e y, h = x ++ e :: y /\ gives_up i e /\ tracing x = true /\ forall d m, In d y -> ~ gives_name i m d.

  (** Thread [t] registered with the name [n], and has neither deregistered nor
      registered again since. *)
  Definition holds_name (t : tid) (n : bytes) (h : list hev) : Prop :=
    exists x y, h = x ++ Done t (ORegister n) RUnit :: y /\ n <> [] /\
      forall e, In e y -> e <> Done t ODeregister RUnit /\ forall m, e <> Done t (ORegister m) RUnit.
End Ids.
