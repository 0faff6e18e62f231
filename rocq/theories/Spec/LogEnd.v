(** Why a logging call that does not store its event may leave the trace running. *)
From Verif Require Import Base Model.StringUtils Model.Event Model.Queue Model.Buffer Model.Config Spec.Categories Model.Registry
  Model.Interleave Spec.LogHistory Spec.LogFacts Spec.LogRecords Model.TraceLog Spec.LogMemory.

(** At this step of thread [t]: tracing is off, or the step is the one that turns it off;
    a stop is dealing with this thread; the thread is not registered; or it tries to take
    the lock of the log and does not get it, because another thread has it or for no
    reason at all, as try_lock may. That the buffer is full, or that there is none, is
    not among these. *)
Definition excuse (s : st) (t : tid) (a : act) (r : ans a) : bool :=
  negb (enabled s) ||
  match t_lock (ten s t) with ByMaster _ => true | _ => false end ||
  negb (t_init (ten s t)) ||
  match a return ans a -> bool with AXchg _ => fun _ => true | ATryLock => negb | _ => fun _ => false end r.

(** For each thread the number of the last call it made a step of, the generation of the
    log at the first of its steps, and whether at one of them there was an excuse or a
    newer generation. *)
Record excused := { x_call : nat; x_gen : N; x_met : bool }.

Definition note_excuse (s : st) (t : tid) (a : act) (r : ans a) (h : tid -> excused) : tid -> excused :=
  let n := calls (hist s) t in
  let old := if Nat.eqb (x_call (h t)) n then h t else {| x_call := n; x_gen := gen s; x_met := false |} in
  tset h t {| x_call := n; x_gen := x_gen old; x_met := x_met old || excuse s t a r || negb (gen s =? x_gen old)%N |}.

Definition excuses (cap csz : N) (site_cat : nat -> bytes) : list sact -> tid -> excused :=
  ghost cap csz site_cat note_excuse (fun _ => {| x_call := 0; x_gen := 0; x_met := false |}).

(** Steps of thread [t] alone, in which try_lock does not fail for no reason and a stopped
    callback makes no calls on the log. *)
Definition own_step (t : tid) (a : sact) : Prop :=
  match a with
  | Step u ch => u = t /\ ch <> CFail
  | HookEnd u _ => u = t
  | _ => False
  end.
