(** Model of include/phosphor/scoped_event_guard.h and of the macros in
    phosphor.h that use it. One run of a guarded scope is a list of effects in
    program order. The clock and the category status are read from the outside:
    [clock n] / [status n] is what a read performed as the n-th effect returns.
    Not modelled: the static pointer that caches the category lookup (it is part
    of the log model) and what logEvent does with a call. *)
From Verif Require Import Base Model.StringUtils Model.Event.

Inductive effect :=
| StatusRead (on : bool)
| ClockRead (now : Z)
| MutexLock
| MutexUnlock
| LogCall (tpi : N) (start duration : Z) (argA argB : N)
| UserCode (n : N).                      (* anything else the scope does *)

Section WithWorld.
Variable clock : nat -> Z.
Variable status : nat -> bool.

Definition now (tr : list effect) : Z * list effect := (clock (length tr), tr ++ [ClockRead (clock (length tr))]).
Definition load (tr : list effect) : bool * list effect := (status (length tr), tr ++ [StatusRead (status (length tr))]).

(** steady_clock time and duration: signed 64-bit; overflow is undefined. *)
Definition tsub (a b : Z) : res Z := let d := (a - b)%Z in
  if ((- 2 ^ 63 <=? d) && (d <? 2 ^ 63))%Z then Ok d else UB.

(** scoped_event_guard.h:29-38 (constructor), 40-46 (destructor). *)
Record scoped_guard := { sg_tpi : N; sg_enabled : bool; sg_a : N; sg_b : N; sg_start : Z }.
Definition scoped_enter (tpi : N) (enabled : bool) (a b : N) (tr : list effect) : scoped_guard * list effect :=
  if enabled then let '(s, tr1) := now tr in ({| sg_tpi := tpi; sg_enabled := true; sg_a := a; sg_b := b; sg_start := s |}, tr1)
  else ({| sg_tpi := tpi; sg_enabled := false; sg_a := a; sg_b := b; sg_start := 0 |}, tr).
Definition scoped_leave (g : scoped_guard) (tr : list effect) : res (list effect) :=
  if sg_enabled g then
    let '(e, tr1) := now tr in
    match tsub e (sg_start g) with
    | Ok d => Ok (tr1 ++ [LogCall (sg_tpi g) (sg_start g) d (sg_a g) (sg_b g)])
    | Throw x => Throw x
    | UB => UB
    end
  else Ok tr.

(** TRACE_EVENT0/1/2 (phosphor.h:168-223) around [body]. *)
Definition trace_event (tpi a b : N) (body : list effect) : res (list effect) :=
  let '(on, tr) := load [] in
  let '(g, tr) := scoped_enter tpi on a b tr in
  scoped_leave g (tr ++ body).

(** scoped_event_guard.h:74-92 (constructor), 95-115 (destructor). *)
Record mutex_guard := { mg_wait : N; mg_held : N; mg_enabled : bool; mg_mutex : N; mg_threshold : Z; mg_start : Z; mg_locked : Z }.
Definition mutex_enter (tw th : N) (enabled : bool) (m : N) (threshold : Z) (tr : list effect) : mutex_guard * list effect :=
  if enabled then
    let '(s, tr1) := now tr in
    let tr2 := tr1 ++ [MutexLock] in
    let '(l, tr3) := now tr2 in
    ({| mg_wait := tw; mg_held := th; mg_enabled := true; mg_mutex := m; mg_threshold := threshold; mg_start := s; mg_locked := l |}, tr3)
  else ({| mg_wait := tw; mg_held := th; mg_enabled := false; mg_mutex := m; mg_threshold := threshold; mg_start := 0; mg_locked := 0 |},
        tr ++ [MutexLock]).
Definition mutex_leave (g : mutex_guard) (tr : list effect) : res (list effect) :=
  let tr := tr ++ [MutexUnlock] in
  if mg_enabled g then
    let '(r, tr1) := now tr in
    match tsub (mg_locked g) (mg_start g), tsub r (mg_locked g) with
    | Ok wait, Ok held =>
        if ((mg_threshold g <? wait) || (mg_threshold g <? held))%Z then
          Ok (tr1 ++ [LogCall (mg_wait g) (mg_start g) wait (mg_mutex g) 0; LogCall (mg_held g) (mg_locked g) held (mg_mutex g) 0])
        else Ok tr1
    | _, _ => UB
    end
  else Ok tr.

(** TRACE_LOCKGUARD / TRACE_LOCKGUARD_TIMED (phosphor.h:272-325) around [body]. *)
Definition trace_lockguard (tw th m : N) (threshold : Z) (body : list effect) : res (list effect) :=
  let '(on, tr) := load [] in
  let '(g, tr) := mutex_enter tw th on m threshold tr in
  mutex_leave g (tr ++ body).
End WithWorld.
