(** What the threads that share a fixed buffer observe, when they also make what
    they did known to each other by other means. *)
From Verif Require Import Base Spec.FixedHistory.

Inductive weak_event :=
| Did (e : fixed_event)
| Synced (t u : nat).        (* thread [t] hears of all that [u] did: it joins it, takes a mutex [u] left, ... *)

(** What happened at the buffer; without the answers that may be out of date. *)
Definition core (h : list weak_event) : list fixed_event :=
  flat_map (fun x => match x with Did e => [e] | Synced _ _ => [] end) h.
Definition lasting (h : list fixed_event) : list fixed_event :=
  filter (fun e => match e with FTold _ false | FCounted _ _ => false | _ => true end) h.

(** [heard h t]: what happened before, for thread [t]: what it did itself, and what
    was heard by a thread that it heard of. *)
Definition hears (k : nat -> list fixed_event) (x : weak_event) : nat -> list fixed_event :=
  match x with
  | Did e => fun t => if Nat.eqb t (f_actor e) then k t ++ [e] else k t
  | Synced v u => fun t => if Nat.eqb t v then k t ++ k u else k t
  end.
Definition heard (h : list weak_event) : nat -> list fixed_event := fold_left hears h (fun _ => []).

(** Thread [t] knows that chunk [c] was given back. *)
Definition informed (h : list weak_event) (t : nat) (c : N) : bool := existsb (N.eqb c) (came_back (heard h t)).
