(** What is asked of a run of the log with its lock-free queues. *)
From Verif Require Import Base Model.Interleave Spec.LogHistory Model.QueueConc Model.TraceLog Model.LogQueue.

(** The ring buffers that were made have between 1 and 2^32 chunks. *)
Definition ring_sizes (h : list hev) : Prop :=
  forall t g n b m, In (Made t g n (MadeRing b m)) h -> (1 <= m <= 2 ^ 32)%N.

(** No thread sleeps for 2^62 operations of a queue in the middle of one. *)
Definition awake (cap csz : N) (site_cat : nat -> bytes) (sched : list (sact * bool)) : Prop :=
  forall pre post, sched = pre ++ post -> forall b t, (stale (ql_q (ql_run cap csz site_cat pre) b) t < 2 ^ 62)%N.

(** The thread is inside an operation of the queue of [b]. *)
Definition in_queue (s : qlog) (t : tid) (b : bid) : Prop := cq_pc (ql_q s b) t <> QIdle.
