(** Histories of buffer calls and what they should give, stated on lists only. *)
From Verif Require Import Base.

(** The calls made on a buffer: ask for a chunk (from thread [tid]) or give
    chunk [k] back. *)
Inductive call := Ask (tid : N) | GiveBack (k : N).

Definition asks (cs : list call) : list N :=
  flat_map (fun c => match c with Ask t => [t] | GiveBack _ => [] end) cs.
Definition given (cs : list call) : list N :=
  flat_map (fun c => match c with Ask _ => [] | GiveBack k => [k] end) cs.

Definition lenN {A} (l : list A) : N := N.of_nat (length l).

(** A finished call: chunk [k] lent to [tid], nothing lent (null), or chunk [k]
    given back. *)
Inductive done := Lent (tid k : N) | Refused (tid : N) | Back (k : N).

Definition lent (h : list done) : list N :=
  flat_map (fun d => match d with Lent _ k => [k] | _ => [] end) h.
Definition backs (h : list done) : list N :=
  flat_map (fun d => match d with Back k => [k] | _ => [] end) h.
Definition asked (h : list done) : list N :=
  flat_map (fun d => match d with Lent t _ => [t] | Refused t => [t] | Back _ => [] end) h.

Fixpoint remove_one (k : N) (l : list N) : list N :=
  match l with
  | [] => []
  | x :: r => if (x =? k)%N then r else x :: remove_one k r
  end.

(** The chunks on loan after a history. *)
Fixpoint on_loan_from (l : list N) (h : list done) : list N :=
  match h with
  | [] => l
  | Lent _ k :: r => on_loan_from (k :: l) r
  | Refused _ :: r => on_loan_from l r
  | Back k :: r => on_loan_from (remove_one k l) r
  end.
Definition on_loan (h : list done) : list N := on_loan_from [] h.

(** Every chunk given back was on loan. *)
Definition well_behaved (h : list done) : Prop :=
  forall p k s, h = p ++ Back k :: s -> In k (on_loan p).

(** No chunk is lent while it is on loan. *)
Definition never_twice (h : list done) : Prop :=
  forall p t k s, h = p ++ Lent t k :: s -> ~ In k (on_loan p).

(** The answers to the successive requests for a chunk. *)
Definition replies (h : list done) : list (option N) :=
  flat_map (fun d => match d with Lent _ k => [Some k] | Refused _ => [None] | Back _ => [] end) h.

(** The numbers 0, 1, ..., n-1. *)
Definition upto (n : N) : list N := map N.of_nat (seq 0 (N.to_nat n)).

(** The calls a history answers. *)
Definition calls_of (h : list done) : list call :=
  map (fun d => match d with Lent t _ => Ask t | Refused t => Ask t | Back k => GiveBack k end) h.
