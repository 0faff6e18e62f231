(** What the threads that share a ring buffer observe, and the order in which it
    serves them. *)
From Verif Require Import Base.

Inductive ring_event :=
| GetCalled (t : nat)
| Claimed (t : nat)                  (* the call is given its place in the order *)
| GetReturned (t : nat) (c : N)      (* the chunk, by its index *)
| RetCalled (t : nat) (c : N)
| Placed (t : nat) (c : N)           (* the chunk is given its place in the order *)
| RetReturned (t : nat).

Definition r_actor (e : ring_event) : nat :=
  match e with GetCalled t | Claimed t | GetReturned t _ | RetCalled t _ | Placed t _ | RetReturned t => t end.

Definition count (p : ring_event -> bool) (h : list ring_event) : nat := length (filter p h).
Definition asked : list ring_event -> nat := count (fun e => match e with GetCalled _ => true | _ => false end).
Definition claims : list ring_event -> nat := count (fun e => match e with Claimed _ => true | _ => false end).
Definition got : list ring_event -> nat := count (fun e => match e with GetReturned _ _ => true | _ => false end).
Definition given_back : list ring_event -> nat := count (fun e => match e with RetReturned _ => true | _ => false end).

(** The chunks that came back, in order. *)
Definition backs (h : list ring_event) : list N :=
  flat_map (fun e => match e with Placed _ c => [c] | _ => [] end) h.

Fixpoint take_out (c : N) (l : list N) : list N :=
  match l with [] => [] | d :: r => if (d =? c)%N then r else d :: take_out c r end.

(** The chunks that the users have: got and not given back. *)
Definition lent_out (h : list ring_event) : list N :=
  fold_left (fun l e => match e with GetReturned _ c => c :: l | RetCalled _ c => take_out c l | _ => l end) h [].

(** Which chunk the call with number [i] (counting from 0) is due: every chunk
    once, then the chunks as they come back. *)
Definition due (n : N) (h : list ring_event) (i : nat) : option N :=
  if (N.of_nat i <? n)%N then Some (N.of_nat i) else nth_error (backs h) (i - N.to_nat n).

(** The last thing a thread did. *)
Definition last_of (t : nat) (h : list ring_event) : option ring_event :=
  fold_left (fun o e => if Nat.eqb (r_actor e) t then Some e else o) h None.

(** A thread that is in no call. *)
Definition outside (t : nat) (h : list ring_event) : Prop :=
  match last_of t h with None | Some (GetReturned _ _) | Some (RetReturned _) => True | _ => False end.
