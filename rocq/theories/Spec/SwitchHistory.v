(** What the users of a category registry observe when threads need not agree on
    one order: calls that switch categories take their places in one order, and
    a trace point sees the setting made by one of them. *)
From Verif Require Import Base Spec.Categories Spec.CategoryHistory.

Inductive switch_event :=
| SAsked (t : nat) (name : bytes)                        (* getStatus called *)
| SRegistered (t : nat) (name : bytes) (slot : nat)      (* a group is given a slot of its own *)
| SGiven (t : nat) (name : bytes) (slot : nat)           (* getStatus returned *)
| SPlaced (t : nat) (lists : option (list bytes * list bytes))
    (* a call of updateEnabled (Some) or disableAll (None) takes its place *)
| SSwitched (t : nat)                                    (* it returned *)
| STraced (t : nat) (site slot : nat) (on : bool).       (* a trace point saw this status *)

Definition s_actor (e : switch_event) : nat :=
  match e with
  | SAsked t _ | SRegistered t _ _ | SGiven t _ _ | SPlaced t _ | SSwitched t | STraced t _ _ _ => t
  end.

Definition switches (h : list switch_event) : list (option (list bytes * list bytes)) :=
  flat_map (fun e => match e with SPlaced _ l => [l] | _ => [] end) h.
(** The setting after [k] of these calls; at the start everything is off. *)
Definition setting (h : list switch_event) (k : nat) : option (list bytes * list bytes) :=
  match k with O => None | S k' => nth k' (switches h) None end.

Definition groups_of (h : list switch_event) : list bytes :=
  built_in ++ flat_map (fun e => match e with SRegistered _ name _ => [name] | _ => [] end) h.

(** [n] calls had taken their place when the group in [slot] was registered. *)
Definition registered_after (h : list switch_event) (slot n : nat) : Prop :=
  (slot < 3 /\ n = 0) \/
  exists a t name b, h = a ++ SRegistered t name slot :: b /\ n = length (switches a).
