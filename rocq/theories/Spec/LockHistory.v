(** What the users of a lock with a slave and a master side observe. *)
From Verif Require Import Base.

Inductive side := Slave | Master.

Inductive lock_event :=
| LockCalled (t : nat) (sd : side)
| TryCalled (t : nat)               (* try_lock, slave side only *)
| Entered (t : nat) (sd : side)     (* lock returned, or try_lock returned true *)
| TryFailed (t : nat)               (* try_lock returned false *)
| Left (t : nat) (sd : side)        (* unlock returned *)
| AssertFailed (t : nat).           (* unlock aborted the process *)

Definition actor (e : lock_event) : nat :=
  match e with
  | LockCalled t _ | TryCalled t | Entered t _ | TryFailed t | Left t _ | AssertFailed t => t
  end.

Definition holder := (nat * side)%type.

Definition leaves (t : nat) (l : list holder) : list holder :=
  filter (fun p => negb (Nat.eqb (fst p) t)) l.

(** Who is inside after a history. *)
Fixpoint holders_from (l : list holder) (h : list lock_event) : list holder :=
  match h with
  | [] => l
  | Entered t sd :: r => holders_from ((t, sd) :: l) r
  | Left t _ :: r => holders_from (leaves t l) r
  | _ :: r => holders_from l r
  end.
Definition holders (h : list lock_event) : list holder := holders_from [] h.
