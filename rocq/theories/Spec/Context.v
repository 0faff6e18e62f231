(** Contexts and exports, seen from outside. *)
From Verif Require Import Base Model.Event Model.Buffer Model.Export Model.Context.

(** The buffers that were made and deleted, in order. *)
Fixpoint made (h : list fact) : list nat :=
  match h with [] => [] | Made b _ :: r => b :: made r | _ :: r => made r end.
Fixpoint deleted (h : list fact) : list nat :=
  match h with [] => [] | Deleted b :: r => b :: deleted r | _ :: r => deleted r end.

(** What the reads of export [e] returned, in order. *)
Fixpoint got (e : nat) (h : list fact) : list bytes :=
  match h with
  | [] => []
  | Got e' out :: r => if e' =? e then out :: got e r else got e r
  | _ :: r => got e r
  end.

(** The sizes export [e] was asked for. *)
Fixpoint asked (e : nat) (os : list cop) : list nat :=
  match os with
  | [] => []
  | CRead e' n :: r => if e' =? e then n :: asked e r else asked e r
  | _ :: r => asked e r
  end.

(** The operation gives context [c] a value, takes it away, or ends its life. *)
Definition touches (c : nat) (o : cop) : Prop :=
  match o with
  | CMake c' _ _ => c' = c
  | CMove c' d _ | CAssign c' d _ => c' = c \/ d = c
  | CDrop c' => c' = c
  | _ => False
  end.

(** The operation ends the life of export [e]. *)
Definition forgets (e : nat) (o : cop) : Prop := match o with CForget e' => e' = e | _ => False end.

(** The reads of export [e] are all defined and none throws. *)
Definition sound (e : nat) (h : list fact) : Prop :=
  ~ In (Undefined e) h /\ forall x, ~ In (Threw e x) h.
