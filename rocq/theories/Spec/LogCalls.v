(** The events of one thread in the history of a log: how its calls begin and
    end, and what becomes of an exception. *)
From Verif Require Import Base Model.StringUtils Model.Event Model.Config Model.Interleave Spec.LogHistory Spec.LogFacts.

(** The thread an event is by. *)
Definition by_thread (e : hev) : tid :=
  match e with
  | Invoked t _ | Configured t _ | Off t _ | Callback t _ | Made t _ _ _ | On t _ _ | Stored t _ _ | Looked t _ _
  | Tested t _ _ | Done t _ _ | StopTried t _ _ | Nested t _ _ | Freed t | Terminated t => t
  end.

(** The first event by thread [t]. *)
Fixpoint first_by (t : tid) (h : list hev) : option hev :=
  match h with
  | [] => None
  | e :: h' => if Nat.eqb (by_thread e) t then Some e else first_by t h'
  end.

(** Thread [t] is in the call [o], which began before [y]. *)
Definition calling (h : list hev) (t : tid) (o : op) (y : list hev) : Prop :=
  exists x, h = x ++ Invoked t o :: y /\ forall e, In e y -> match e with Invoked u _ | Done u _ _ | Terminated u => u <> t | _ => True end.

(** Every call of thread [t] has ended (a destructor that an exception leaves
    does not return). *)
Definition returned (h : list hev) (t : tid) : Prop :=
  forall x o y, h = x ++ Invoked t o :: y -> exists e, In e y /\ (e = Terminated t \/ exists r, e = Done t o r).

(** A call with the lock held ends. *)
Definition ends_with (t : tid) (r : out) (e : hev) : Prop :=
  (exists o, e = Done t o r) \/ (exists w, e = StopTried t w r) \/ (exists h, e = Nested t h r).

(** A callback (or section holding the lock) has ended, by an exception or not,
    and the call it was run for ends so, or is carried on with. *)
Definition follows_callback (t : tid) (r : option exn) (e : hev) : Prop :=
  match r with
  | Some x => ends_with t (RThrow x) e
  | None => ends_with t RUnit e \/ exists g n m, e = Made t g n m
  end.

(** A logEvent call (or destructor) that stopped the log ends as that stop did. *)
Definition follows_stop (t : tid) (w : why) (r : out) (e : hev) : Prop :=
  match w with
  | Exhausted => (exists ev, e = Done t (OLog ev) r) \/ (exists i ev, e = Done t (OMacro i ev) r) \/ (exists ev, e = Nested t (HLog ev) r)
  | Asked true => (r = RUnit /\ e = Freed t) \/ (exists x, r = RThrow x /\ e = Terminated t)
  | _ => False
  end.

(** What isEnabled and getCategoryStatus say is what they found at some moment
    since thread [t] made its last call. *)
Definition truthful (h : list hev) (t : tid) (o : op) (r : out) : Prop :=
  match o with
  | OIsEnabled => exists b x y, r = RBool b /\ h = x ++ y /\ tracing x = b /\ forall o', ~ In (Invoked t o') y
  | OGetStatus c => exists i x y, r = RSlot i /\ h = x ++ Looked t c i :: y /\ forall o', ~ In (Invoked t o') y
  | _ => True
  end.
