(** What the users of a bounded queue observe, and the order in which the queue
    serves them. *)
From Verif Require Import Base.

Inductive queue_event (T : Type) :=
| EnqCalled (t : nat) (x : T)
| EnqPlaced (t : nat) (x : T)        (* the call is given its place in the order *)
| EnqReturned (t : nat)              (* returned true *)
| EnqFull (t : nat)                  (* returned false *)
| DeqCalled (t : nat)
| DeqPlaced (t : nat)
| DeqReturned (t : nat) (v : option T)   (* returned true; None: uninitialised data *)
| DeqEmpty (t : nat).                (* returned false *)
Arguments EnqCalled {T}. Arguments EnqPlaced {T}. Arguments EnqReturned {T}. Arguments EnqFull {T}.
Arguments DeqCalled {T}. Arguments DeqPlaced {T}. Arguments DeqReturned {T}. Arguments DeqEmpty {T}.

Definition q_actor {T} (e : queue_event T) : nat :=
  match e with
  | EnqCalled t _ | EnqPlaced t _ | EnqReturned t | EnqFull t
  | DeqCalled t | DeqPlaced t | DeqReturned t _ | DeqEmpty t => t
  end.

(** The items put in, and the number of items asked out, in order of placement. *)
Definition ins {T} (h : list (queue_event T)) : list T :=
  flat_map (fun e => match e with EnqPlaced _ x => [x] | _ => [] end) h.
Definition outs {T} (h : list (queue_event T)) : nat :=
  length (filter (fun e => match e with DeqPlaced _ => true | _ => false end) h).

(** Where a thread is in its calls: the events of one thread are calls, each
    placed once if and only if it returns true. *)
Inductive call_state (T : Type) :=
| NoCall | Enqueuing (x : T) | EnqueuePlaced (x : T) | Dequeuing | DequeuePlaced.
Arguments NoCall {T}. Arguments Enqueuing {T}. Arguments EnqueuePlaced {T}.
Arguments Dequeuing {T}. Arguments DequeuePlaced {T}.

Definition call_next {T} (c : call_state T) (e : queue_event T) (d : call_state T) : Prop :=
  match c, e with
  | NoCall, EnqCalled _ x => d = Enqueuing x
  | NoCall, DeqCalled _ => d = Dequeuing
  | Enqueuing x, EnqPlaced _ y => y = x /\ d = EnqueuePlaced x
  | Enqueuing _, EnqFull _ => d = NoCall
  | EnqueuePlaced _, EnqReturned _ => d = NoCall
  | Dequeuing, DeqPlaced _ => d = DequeuePlaced
  | Dequeuing, DeqEmpty _ => d = NoCall
  | DequeuePlaced, DeqReturned _ _ => d = NoCall
  | _, _ => False
  end.

(** Thread [t] is in call state [c] after [h]; no such [c] if its events are not
    those of a sequence of calls. *)
Inductive calls_to {T} (t : nat) : list (queue_event T) -> call_state T -> Prop :=
| calls_nil : calls_to t [] NoCall
| calls_other h c e : calls_to t h c -> q_actor e <> t -> calls_to t (h ++ [e]) c
| calls_own h c e d : calls_to t h c -> q_actor e = t -> call_next c e d -> calls_to t (h ++ [e]) d.

(** The enqueue number [i] (counting from 0) has its place but has not returned. *)
Definition enqueue_pending {T} (h : list (queue_event T)) (i : nat) : Prop :=
  exists a b t x, h = a ++ EnqPlaced t x :: b /\ length (ins a) = i /\
    forall e, In e b -> q_actor e <> t.

(** The dequeue number [i] has its place but has not returned. *)
Definition dequeue_pending {T} (h : list (queue_event T)) (i : nat) : Prop :=
  exists a b t, h = a ++ DeqPlaced t :: b /\ outs a = i /\
    forall e, In e b -> q_actor e <> t.
