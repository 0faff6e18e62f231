(** Which calls use the calling thread's registration, and threads that use it
    with one log only. *)
From Verif Require Import Base Model.Interleave Spec.LogHistory Model.TraceLog Model.ManyLogs.

Definition uses_registration (o : op) : bool :=
  match o with ORegister _ | ODeregister | OLog _ | OMacro _ _ => true | _ => false end.

(** [own t]: the log that thread [t] may register with and log into. Any thread
    may start, stop, configure and read any log. *)
Definition keeps_to (own : tid -> lid) (x : lid) (a : sact) : Prop :=
  match a with
  | Invoke t o => uses_registration o = true -> own t = x
  | HookDo t (HLog _) => own t = x
  | _ => True
  end.
