(** What is asked of a run of the log with its lock-free queues and its
    registry. *)
From Verif Require Import Base Model.Interleave Spec.LogHistory Model.QueueConc Model.RegistryConc Model.TraceLog Model.LogQueue Model.LogRegistry.

(** No thread sleeps for 2^62 operations of a queue in the middle of one. *)
Definition awake_all (cap csz : N) (site_cat : nat -> bytes) (sched : list (sact * bool)) : Prop :=
  forall pre post, sched = pre ++ post -> forall b t, (stale (ql_q (rl_q (rl_run cap csz site_cat pre)) b) t < 2 ^ 62)%N.

(** Nobody is switching the categories on or off. *)
Definition registry_at_rest (s : rlog) : Prop := cr_mutex (rl_reg s) = None.
