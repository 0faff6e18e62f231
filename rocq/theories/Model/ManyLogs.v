(** Several TraceLogs in one process. Each log has its own state, but the tenant
    of a thread (the thread-local [thread_chunk], trace_log.cc:36) is one object
    for all of them: its lock, its chunk pointer and its [initialised] flag are
    shared.

    Simplifications:
    - a thread that is inside a call on one log makes no call on another one
      (from a stop callback, say);
    - callbacks and locked sections are polite ([pstep]);
    - returning a chunk to a buffer that it does not belong to is given no
      meaning: such a step is not taken. *)
From Verif Require Import Base Model.StringUtils Model.Event Model.Queue Model.Buffer Model.Config Model.Registry
  Model.Interleave Spec.LogHistory Model.TraceLog.

Definition lid := nat.

Record world := {
  w_log : lid -> st;
  w_ten : tid -> tenant;           (* trace_log.cc:36 *)
  w_tag : tid -> lid;              (* the log whose buffer the thread's chunk is in *)
  w_in : tid -> option lid;        (* the log the thread is running code of *)
}.

Definition thread_of (a : sact) : tid := match a with Invoke t _ | Step t _ | HookDo t _ | HookEnd t _ => t end.

(** What the next action of a thread does with the chunk its tenant points to. *)
Inductive chunk_use := UseNone | UseAccess | UseReturn | UseTake.
Definition use_of (c : cmd) : chunk_use :=
  match c with
  | Act a _ => match a with AFull _ _ | AStore _ _ _ => UseAccess | AReturn _ _ => UseReturn | AChunkSet (Some _) => UseTake | _ => UseNone end
  | Ret => UseNone
  end.
Definition use_in (s : st) (a : sact) : chunk_use := match a with Step t _ => use_of (code s t) | _ => UseNone end.

Section Many.
  Variables cap csz : N.
  Variable site_cat : nat -> bytes.

  Definition world_new : world := {| w_log := fun _ => log_new; w_ten := ten log_new; w_tag := fun _ => 0; w_in := fun _ => None |}.

  (** The state log [x] works on: its own, with the common tenants; the memory of
      log [y]'s buffers if it is about to access a chunk there. *)
  Definition lend (w : world) (x y : lid) : st := set_heap (set_ten (w_log w x) (w_ten w)) (heap (w_log w y)).
  Definition settle (w : world) (x y : lid) (t : tid) (tag : lid) (s : st) : world := {|
    w_log := if Nat.eqb y x then tset (w_log w) x s
             else tset (tset (w_log w) y (set_heap (w_log w y) (heap s))) x (set_heap s (heap (w_log w x)));
    w_ten := ten s;
    w_tag := tset (w_tag w) t tag;
    w_in := tset (w_in w) t (match code s t with Ret => None | _ => Some x end) |}.

  Definition wstep (w : world) (xa : lid * sact) : option world :=
    let '(x, a) := xa in
    let t := thread_of a in
    if match w_in w t with None => true | Some y => Nat.eqb y x end then
      let go y tag := match pstep cap csz site_cat (lend w x y) a with Some s => Some (settle w x y t tag s) | None => None end in
      match use_in (w_log w x) a with
      | UseAccess => go (w_tag w t) (w_tag w t)
      | UseReturn => if Nat.eqb (w_tag w t) x then go x x else None
      | UseTake => go x x
      | UseNone => go x (w_tag w t)
      end
    else None.
End Many.
