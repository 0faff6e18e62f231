(** Model of chunk_lock.cc / chunk_lock.h on the memory of WeakMem.v: one
    ChunkLock and the plain variables it protects. Same code as ChunkLock.v, but
    the memory orders written in chunk_lock.cc now matter. *)
From Verif Require Import Base Spec.LockHistory Model.Interleave Model.ChunkLock Model.WeakMem.
Local Open Scope N_scope.

(** chunk_lock.h:126-133. *)
Definition lock_word : loc := Loc 0 0.
Definition word_val (w : lword) : N :=
  match w with Unlocked => 0 | SlaveLocked => 1 | MasterLocked => 2 end.
(** The plain variables the lock protects (a chunk and the pointer to it). *)
Definition protected (i : N) : loc := Loc 1 i.

Record wlstate := {
  wl_mem : wmem N;
  wl_pc : tid -> lpc;
  wl_hist : list lock_event;
}.

Definition wlock_new : wlstate :=
  {| wl_mem := wmem_new (fun _ => word_val Unlocked) (fun _ => 0); wl_pc := fun _ => Out; wl_hist := [] |}.

Definition wl_put (s : wlstate) (m : wmem N) (t : tid) (p : lpc) (e : list lock_event) : wlstate :=
  {| wl_mem := m; wl_pc := tset (wl_pc s) t p; wl_hist := wl_hist s ++ e |}.

Inductive wlact :=
| WCallLock (t : tid) (sd : side)
| WCallTry (t : tid)
| WAttempt (t : tid) (i : nat) (n : N) (spurious : bool)
| WUnlock (t : tid) (i : nat) (f n : N)
| WTouch (t : tid) (x : N) (write : option N).   (* the holder uses what is protected *)

Definition wlstep (ndebug : bool) (s : wlstate) (a : wlact) : option wlstate :=
  let m := wl_mem s in
  match a with
  | WCallLock t sd =>
      match wl_pc s t with Out => Some (wl_put s m t (InLock sd) [LockCalled t sd]) | _ => None end
  | WCallTry t =>
      match wl_pc s t with Out => Some (wl_put s m t InTry [TryCalled t]) | _ => None end
  | WAttempt t i n spurious =>
      match wl_pc s t with
      | InLock sd =>
          (* chunk_lock.cc:29-34, 63-68: compare_exchange_weak, seq_cst *)
          match wcas m t true true true lock_word (word_val Unlocked) (word_val (taken sd)) i n spurious with
          | Some (true, _, m') => Some (wl_put s m' t (Inside sd) [Entered t sd])
          | Some (false, _, m') => Some (wl_put s m' t (InLock sd) [])
          | None => None
          end
      | InTry =>
          (* chunk_lock.cc:36-45 *)
          match wcas m t true true true lock_word (word_val Unlocked) (word_val SlaveLocked) i n spurious with
          | Some (true, _, m') => Some (wl_put s m' t (Inside Slave) [Entered t Slave])
          | Some (false, found, m') =>
              if found =? word_val MasterLocked then Some (wl_put s m' t Out [TryFailed t])
              else Some (wl_put s m' t InTry [])
          | None => None
          end
      | _ => None
      end
  | WUnlock t i f n =>
      match wl_pc s t with
      | Inside sd =>
          if ndebug then
            (* chunk_lock.cc:49, 72: store, release *)
            match wstore m t true lock_word (word_val Unlocked) f n with
            | Some m' => Some (wl_put s m' t Out [Left t sd])
            | None => None
            end
          else
            (* chunk_lock.cc:51-55, 74-78: compare_exchange_strong, seq_cst *)
            match wcas m t true true true lock_word (word_val (taken sd)) (word_val Unlocked) i n false with
            | Some (true, _, m') => Some (wl_put s m' t Out [Left t sd])
            | Some (false, _, m') => Some (wl_put s m' t Aborted [AssertFailed t])
            | None => None
            end
      | _ => None
      end
  | WTouch t x w =>
      match wl_pc s t with
      | Inside sd =>
          Some (wl_put s (match w with
                          | Some v => wwrite m t (protected x) v
                          | None => snd (wread m t (protected x))
                          end) t (Inside sd) [])
      | _ => None
      end
  end.

Definition wlock_run (ndebug : bool) (sched : list wlact) : wlstate := run (wlstep ndebug) wlock_new sched.
