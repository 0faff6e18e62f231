(** What a program sees of the ids of its threads. Threads have names of their own here
    (numbers used once); processes are called by their ids, which may be used again. *)
From Verif Require Import Base.

Inductive id_event :=
| Started (h : nat) (pid tid : N)                 (* the first thread of the program *)
| Spawned (h : nat) (by_ : nat) (pid tid : N)     (* a thread of the same process *)
| Forked (h : nat) (by_ : nat) (pid tid : N)      (* the only thread of a new process *)
| Ended (h : nat)
| AskedId (h : nat) (v : N)                       (* the id the library uses for the thread *)
| AskedPid (h : nat) (v : N).

Definition began (e : id_event) : option (nat * N * N) :=
  match e with Started h p t | Spawned h _ p t | Forked h _ p t => Some (h, p, t) | _ => None end.

(** The thread [h] of the process [p], with the id [t] of the operating system, is alive. *)
Definition lives (x : list id_event) (h : nat) (p t : N) : Prop :=
  (exists e, In e x /\ began e = Some (h, p, t)) /\ ~ In (Ended h) x.

(** The id that [h] was given when it asked last. *)
Fixpoint last_id_rev (r : list id_event) (h : nat) : option N :=
  match r with
  | [] => None
  | AskedId g v :: r => if Nat.eqb g h then Some v else last_id_rev r h
  | _ :: r => last_id_rev r h
  end.
Definition last_id (x : list id_event) (h : nat) : option N := last_id_rev (rev x) h.

(** The id that [h] or, before it was forked, the thread it was forked from was given
    last. *)
Fixpoint memory_rev (r : list id_event) (h : nat) : option N :=
  match r with
  | [] => None
  | AskedId g v :: r => if Nat.eqb g h then Some v else memory_rev r h
  | Forked k g _ _ :: r => if Nat.eqb k h then memory_rev r g else memory_rev r h
  | _ :: r => memory_rev r h
  end.
Definition memory (x : list id_event) (h : nat) : option N := memory_rev (rev x) h.

Definition is_forked (x : list id_event) (h : nat) : Prop := exists g p t, In (Forked h g p t) x.
