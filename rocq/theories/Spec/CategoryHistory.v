(** What the users of a shared category registry observe. *)
From Verif Require Import Base Spec.Glob Spec.Categories.

Inductive registry_event :=
| Asked (t : nat) (name : bytes)                (* getStatus called *)
| Given (t : nat) (name : bytes) (slot : nat)   (* getStatus returned the status in this slot *)
| Switched (t : nat) (lists : option (list bytes * list bytes)).
    (* updateEnabled (Some) or disableAll (None) returned *)

(** The lists in force after a history: those of the last finished call. *)
Definition last_switch (h : list registry_event) : option (list bytes * list bytes) :=
  fold_left (fun cur e => match e with Switched _ l => l | _ => cur end) h None.

Definition on_by (l : option (list bytes * list bytes)) (group : bytes) : Prop :=
  match l with Some (enabled, disabled) => switched_on enabled disabled group | None => False end.
