(** What the threads that share a fixed buffer observe. *)
From Verif Require Import Base.

Inductive fixed_event :=
| FCalled (t : nat)                      (* getChunk *)
| FGot (t : nat) (o : option N)          (* getChunk returned this chunk, or null *)
| FGaveBack (t : nat) (c : N)            (* returnChunk *)
| FTold (t : nat) (full : bool)          (* isFull *)
| FCounted (t : nat) (k : N).            (* chunk_count *)

(** The chunks handed out, in the order of the returns. *)
Definition handed (h : list fixed_event) : list N :=
  flat_map (fun e => match e with FGot _ (Some c) => [c] | _ => [] end) h.
Definition came_back (h : list fixed_event) : list N :=
  flat_map (fun e => match e with FGaveBack _ c => [c] | _ => [] end) h.
Definition calls (h : list fixed_event) : nat :=
  length (filter (fun e => match e with FCalled _ => true | _ => false end) h).
Definition answers (h : list fixed_event) : nat :=
  length (filter (fun e => match e with FGot _ _ => true | _ => false end) h).

Definition f_actor (e : fixed_event) : nat :=
  match e with FCalled t | FGot t _ | FGaveBack t _ | FTold t _ | FCounted t _ => t end.

(** The buffer was seen to be full. *)
Definition seen_full (e : fixed_event) : Prop :=
  match e with FGot _ None | FTold _ true => True | _ => False end.
