(** What a buffer that a user wrote sees of the log that uses it: the calls of its
    member functions, and the events stored in the chunks it lent. *)
From Verif Require Import Base.

Inductive seen_by_buffer :=
| BMade (t b : nat)                        (* the factory, called by [t], returned the buffer [b] *)
| BTaken (t b : nat)                       (* getBuffer or getTraceContext gave it to the user *)
| BDestroyed (t b : nat)
| BAsk (t b : nat)                         (* [t] calls getChunk *)
| BLent (t b : nat) (c : option N)         (* which returns a chunk or null *)
| BBack (t b : nat) (c : N)                (* [t] calls returnChunk *)
| BStats (t b : nat)                       (* [t] calls getStats *)
| BDone (t b : nat)                        (* returnChunk or getStats returns *)
| BThrew (t b : nat)                       (* a member function that [t] called throws *)
| BStored (t : nat) (c : N).               (* [t] stores an event in the chunk [c] *)

Definition caller (e : seen_by_buffer) : nat :=
  match e with
  | BMade t _ | BTaken t _ | BDestroyed t _ | BAsk t _ | BLent t _ _ | BBack t _ _ | BStats t _ | BDone t _
  | BThrew t _ | BStored t _ => t
  end.

(** The buffer whose member function an event begins. *)
Definition call_of (e : seen_by_buffer) : option nat :=
  match e with BAsk _ b | BBack _ b _ | BStats _ b => Some b | _ => None end.

(** The log has it: it was made, and neither given to the user nor destroyed. *)
Definition of_log (h : list seen_by_buffer) (b : nat) : Prop :=
  (exists t, In (BMade t b) h) /\ (forall t, ~ In (BTaken t b) h) /\ (forall t, ~ In (BDestroyed t b) h).

(** The buffer that [t] is in a member function of. *)
Fixpoint inside_rev (r : list seen_by_buffer) (t : nat) : option nat :=
  match r with
  | [] => None
  | e :: r =>
      if Nat.eqb (caller e) t then
        match e with
        | BAsk _ b | BBack _ b _ | BStats _ b => Some b
        | BLent _ _ _ | BDone _ _ | BThrew _ _ => None
        | _ => inside_rev r t
        end
      else inside_rev r t
  end.
Definition inside (h : list seen_by_buffer) (t : nat) : option nat := inside_rev (rev h) t.

(** The chunk that was lent to [t] last and that [t] has not given back. *)
Fixpoint lent_rev (r : list seen_by_buffer) (t : nat) : option (nat * N) :=
  match r with
  | [] => None
  | e :: r =>
      if Nat.eqb (caller e) t then
        match e with
        | BLent _ b (Some c) => Some (b, c)
        | BBack _ _ _ => None
        | _ => lent_rev r t
        end
      else lent_rev r t
  end.
Definition lent (h : list seen_by_buffer) (t : nat) : option (nat * N) := lent_rev (rev h) t.

(** A call of returnChunk ended by an exception. *)
Fixpoint back_rev (r : list seen_by_buffer) (t : nat) : bool :=
  match r with
  | [] => false
  | e :: r => if Nat.eqb (caller e) t then match e with BBack _ _ _ => true | _ => false end else back_rev r t
  end.
Definition back_threw (h : list seen_by_buffer) : Prop :=
  exists x t b y, h = x ++ BThrew t b :: y /\ back_rev (rev x) t = true.

(** The buffer does not lend a chunk that it has lent and not got back. *)
Definition honest (h : list seen_by_buffer) : Prop :=
  forall x t b c y, h = x ++ BLent t b (Some c) :: y -> forall u, lent x u <> Some (b, c).

(** The buffer whose member function an event ends. *)
Definition ends (e : seen_by_buffer) : option nat :=
  match e with BLent _ b _ | BDone _ b | BThrew _ b => Some b | _ => None end.
