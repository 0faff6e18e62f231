(** Model of chunk_lock.cc / chunk_lock.h: one ChunkLock used by any number of
    threads, every access to [state] being one step. The copy constructor and
    copy assignment (chunk_lock.cc:20-27) are not modelled: nothing calls them
    on a shared lock. *)
From Verif Require Import Base Spec.LockHistory Model.Interleave.

(** chunk_lock.h:126-131 [State]. *)
Inductive lword := Unlocked | SlaveLocked | MasterLocked.

Definition lword_eqb (a b : lword) : bool :=
  match a, b with
  | Unlocked, Unlocked | SlaveLocked, SlaveLocked | MasterLocked, MasterLocked => true
  | _, _ => false
  end.

(** The value the side's compare-exchange writes. *)
Definition taken (sd : side) : lword :=
  match sd with Slave => SlaveLocked | Master => MasterLocked end.

(** Where a thread is: outside, in the loop of lockSlave/lockMaster, in the loop
    of tryLockSlave, inside, or aborted. *)
Inductive lpc := Out | InLock (sd : side) | InTry | Inside (sd : side) | Aborted.

Record lstate := {
  lw : lword;
  lpc_of : tid -> lpc;
  lhist : list lock_event;      (* observed so far, oldest first *)
}.

(** chunk_lock.cc:17-18 and zero initialisation (chunk_lock.h:128). *)
Definition lock_new : lstate :=
  {| lw := Unlocked; lpc_of := fun _ => Out; lhist := [] |}.

Inductive lact :=
| CallLock (t : tid) (sd : side)
| CallTry (t : tid)
| Attempt (t : tid) (spurious : bool)     (* one compare_exchange_weak *)
| CallUnlock (t : tid).

Definition lput (s : lstate) (w : lword) (t : tid) (p : lpc) (e : list lock_event) : lstate :=
  {| lw := w; lpc_of := tset (lpc_of s) t p; lhist := lhist s ++ e |}.

(** compare_exchange_weak(Unlocked, desired): success, and the value found. *)
Definition cas_weak (s : lstate) (spurious : bool) : bool * lword :=
  (lword_eqb (lw s) Unlocked && negb spurious, lw s).

(** chunk_lock.cc:47-57 and 70-80 [unlockSlave]/[unlockMaster]: a plain store
    when NDEBUG is defined, otherwise an asserted compare-exchange. *)
Definition unlock_step (ndebug : bool) (s : lstate) (t : tid) (sd : side) : lstate :=
  if ndebug then lput s Unlocked t Out [Left t sd]
  else if lword_eqb (lw s) (taken sd) then lput s Unlocked t Out [Left t sd]
  else lput s (lw s) t Aborted [AssertFailed t].

(** Users follow the locking protocol: they call lock or try_lock while outside
    and unlock the side they hold while inside. *)
Definition lstep (ndebug : bool) (s : lstate) (a : lact) : option lstate :=
  match a with
  | CallLock t sd =>
      match lpc_of s t with Out => Some (lput s (lw s) t (InLock sd) [LockCalled t sd]) | _ => None end
  | CallTry t =>
      match lpc_of s t with Out => Some (lput s (lw s) t InTry [TryCalled t]) | _ => None end
  | Attempt t spurious =>
      let '(ok, found) := cas_weak s spurious in
      match lpc_of s t with
      | InLock sd =>
          (* chunk_lock.cc:29-34, 63-68 *)
          if ok then Some (lput s (taken sd) t (Inside sd) [Entered t sd]) else Some s
      | InTry =>
          (* chunk_lock.cc:36-45 *)
          if ok then Some (lput s SlaveLocked t (Inside Slave) [Entered t Slave])
          else if lword_eqb found MasterLocked then Some (lput s (lw s) t Out [TryFailed t])
          else Some s
      | _ => None
      end
  | CallUnlock t =>
      match lpc_of s t with Inside sd => Some (unlock_step ndebug s t sd) | _ => None end
  end.

Definition lock_run (ndebug : bool) (sched : list lact) : lstate :=
  run (lstep ndebug) lock_new sched.
