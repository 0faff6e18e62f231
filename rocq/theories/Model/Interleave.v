(** Interleaving: a schedule is any list of actions; an action that is not
    enabled leaves the state as it is. *)
From Verif Require Import Base.

(** Threads are numbered. *)
Definition tid := nat.

Definition tset {A} (f : tid -> A) (t : tid) (v : A) : tid -> A :=
  fun u => if Nat.eqb u t then v else f u.

Section Interleave.
  Context {St Act : Type}.
  Variable step : St -> Act -> option St.

  Definition move (s : St) (a : Act) : St :=
    match step s a with Some s' => s' | None => s end.

  Fixpoint run (s : St) (sched : list Act) : St :=
    match sched with
    | [] => s
    | a :: r => run (move s a) r
    end.
End Interleave.
