(** What is observed of shared counters (include/phosphor/relaxed_atomic.h). *)
From Verif Require Import Base.

Inductive cop := CRead | CAssign | CPreInc | CPostInc | CPreDec | CPostDec.

(** Thread [t] did this to counter [x]: [v] is the value it was given back, or, of an
    assignment, the value assigned. [CSynced t u]: [t] learned, by other means, of all
    that [u] did (it joined [u], or took a mutex that [u] had). *)
Inductive cevent :=
| CDid (t : nat) (x : N) (o : cop) (v : N)
| CSynced (t u : nat).

Definition delta (o : cop) : Z :=
  match o with CPreInc | CPostInc => 1 | CPreDec | CPostDec => -1 | CRead | CAssign => 0 end.
Definition changes (o : cop) : Prop := match o with CPreInc | CPostInc | CPreDec | CPostDec => True | _ => False end.

(** How often [x] was counted up, less how often down. *)
Fixpoint net (x : N) (h : list cevent) : Z :=
  match h with
  | [] => 0
  | CDid _ y o _ :: r => (if (y =? x)%N then delta o else 0) + net x r
  | CSynced _ _ :: r => net x r
  end.
(** What a counter of 64 bits that was [v] at first should then be. *)
Definition tally (v : N) (x : N) (h : list cevent) : N := Z.to_N ((Z.of_N v + net x h) mod 2 ^ 64).

Definition never_assigned (x : N) (h : list cevent) : Prop := forall t v, ~ In (CDid t x CAssign v) h.

(** [heard h t j]: the thread knows of event [j] of [h], which it took part in, or which
    one knew of whom it synchronised with. *)
Inductive heard : list cevent -> nat -> nat -> Prop :=
| heard_own h t x o v : heard (h ++ [CDid t x o v]) t (length h)
| heard_keep h e t j : heard h t j -> heard (h ++ [e]) t j
| heard_sync h t u j : heard h u j -> heard (h ++ [CSynced t u]) t j.

(** ** Counters used in turn *)

(** What [x], at first [v], holds after one thing after another was done to it. *)
Fixpoint holds (x v : N) (h : list cevent) : N :=
  match h with
  | [] => v
  | CDid _ y o w :: r =>
      holds x (if (y =? x)%N then
                 match o with
                 | CRead => v
                 | CAssign => w
                 | _ => Z.to_N ((Z.of_N v + delta o) mod 2 ^ 64)
                 end
               else v) r
  | CSynced _ _ :: r => holds x v r
  end.

(** Whoever uses [x] knows of all uses of it so far. *)
Definition in_turn (x : N) (h : list cevent) : Prop :=
  forall p t o v q, h = p ++ CDid t x o v :: q ->
    forall j u o' v', nth_error p j = Some (CDid u x o' v') -> heard p t j.

(** ** Any use of counters *)

Definition wrap (z : Z) : N := Z.to_N (z mod 2 ^ 64).
Definition modifying (o : cop) : Prop := o <> CRead.

(** What a change that finds [v] is given back; what an event that was given back, or
    assigned, [v] leaves in the counter. *)
Definition given (o : cop) (v : N) : N :=
  match o with CPreInc | CPreDec => wrap (Z.of_N v + delta o) | _ => v end.
Definition leaves (o : cop) (v : N) : N :=
  match o with CPostInc | CPostDec => wrap (Z.of_N v + delta o) | _ => v end.

(** [at_time] gives each event on [x] its place in one order, 0 being the beginning.
    [v] is what [x], at first [init], holds from [n] on. *)
Definition holds_from (init x : N) (h : list cevent) (at_time : nat -> N) (n v : N) : Prop :=
  (n = 0%N /\ v = init) \/
  exists j t o w, nth_error h j = Some (CDid t x o w) /\ modifying o /\ at_time j = n /\ v = leaves o w.
