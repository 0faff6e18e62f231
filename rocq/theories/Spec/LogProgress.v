(** Waiting and termination. *)
From Verif Require Import Base Model.StringUtils Model.Event Model.Buffer Model.Interleave Spec.LogHistory Model.TraceLog.

(** Actions that continue the calls in progress: a thread performs its next
    action, or the callback (or locked section) it runs ends. *)
Definition continues (a : sact) : bool := match a with Step _ _ | HookEnd _ _ => true | _ => false end.

(** The call thread [t] made last. *)
Definition last_call (h : list hev) (t : tid) : option op :=
  fold_left (fun d x => match x with Invoked u o => if Nat.eqb u t then Some o else d | _ => d end) h None.

Definition is_logging (o : op) : bool := match o with OLog _ | OMacro _ _ => true | _ => false end.

(** No factory has made a ring buffer. *)
Definition no_ring (h : list hev) : Prop := forall t g n b n', ~ In (Made t g n (MadeRing b n')) h.

(** The ring in use, if any, has a chunk for every registered thread. *)
Definition roomy (s : st) : Prop :=
  forall b, bufp s = Some b -> b_kind (heap s b) = Ring -> (N.of_nat (length (regd s)) <= b_size (heap s b))%N.

Section Waiting.
  Variables cap csz : N.
  Variable site_cat : nat -> bytes.
  Notation pstep := (pstep cap csz site_cat).

  (** The thread can perform its next action. *)
  Definition can_go (s : st) (t : tid) : Prop := exists ch s', pstep s (Step t ch) = Some s'.

  Definition in_callback (s : st) (t : tid) : Prop := hook_of (code s t) <> None.

  (** Every call has returned. *)
  Definition all_idle (s : st) : Prop := forall t, code s t = Ret.

  (** The states an endless schedule passes through. *)
  Fixpoint state_at (s : st) (sigma : nat -> sact) (n : nat) : st :=
    match n with O => s | S n' => move pstep (state_at s sigma n') (sigma n') end.

  (** It makes no new calls, and does not for ever pick threads that cannot go on
      while another one can. *)
  Definition drains (s : st) (sigma : nat -> sact) : Prop :=
    (forall n, continues (sigma n) = true) /\
    forall n, (exists a s', continues a = true /\ pstep (state_at s sigma n) a = Some s') ->
      exists m s', n <= m /\ pstep (state_at s sigma m) (sigma m) = Some s'.
End Waiting.
