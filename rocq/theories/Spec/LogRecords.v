(** What is recorded in which buffer, read off a history. *)
From Verif Require Import Base Model.StringUtils Model.Event Model.Buffer Model.Interleave Spec.LogHistory.

(** The events thread [t] stored into buffer [b], in order. *)
Definition stored_in (h : list hev) (t : tid) (b : bid) : list event :=
  flat_map (fun x => match x with Stored u c e => if Nat.eqb u t && Nat.eqb c b then [e] else [] | _ => [] end) h.

(** The events of an iteration that carry the id of thread [t]. *)
Definition labelled (t : tid) (l : list (event * N)) : list event :=
  map fst (filter (fun x => (snd x =? N.of_nat t)%N) l).

(** Where a thread stands with the logging call it is in: the event is still to
    be stored, was stored, or its category was found disabled. *)
Inductive debt := NoDebt | Owes (e : event) | Kept (e : event) | Waived (e : event).

Definition new_debt (o : op) : debt := match o with OLog e | OMacro _ e => Owes e | _ => NoDebt end.

Definition debt_step (t : tid) (d : debt) (x : hev) : debt :=
  match x with
  | Invoked u o => if Nat.eqb u t then new_debt o else d
  | Stored u _ e => if Nat.eqb u t then Kept e else d
  | Tested u _ false => if Nat.eqb u t then match d with Owes e => Waived e | _ => d end else d
  | _ => d
  end.

Definition debt_of (h : list hev) (t : tid) : debt := fold_left (debt_step t) h NoDebt.

(** How many calls thread [t] has made. *)
Definition calls (h : list hev) (t : tid) : nat :=
  length (filter (fun x => match x with Invoked u _ => Nat.eqb u t | _ => false end) h).

(** The events a thread asked to log, and those it stored anywhere, in order. *)
Definition asked_to_log (h : list hev) (t : tid) : list event :=
  flat_map (fun x => match x with Invoked u (OLog e) | Invoked u (OMacro _ e) => if Nat.eqb u t then [e] else [] | _ => [] end) h.

Definition stored_by (h : list hev) (t : tid) : list event :=
  flat_map (fun x => match x with Stored u _ e => if Nat.eqb u t then [e] else [] | _ => [] end) h.

(** [l] is [m] with some elements left out. *)
Inductive part_of {A} : list A -> list A -> Prop :=
| part_nil : part_of [] []
| part_skip x l m : part_of l m -> part_of l (x :: m)
| part_keep x l m : part_of l m -> part_of (x :: l) (x :: m).
