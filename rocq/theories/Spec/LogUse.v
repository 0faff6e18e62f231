(** What a program using a trace log can observe of the buffers of its traces:
    who uses which buffer, what is stored in it and read from it. *)
From Verif Require Import Base.

Inductive use :=
| UMade (t : nat) (b : N)                     (* [t] makes buffer [b] *)
| UUsed (t : nat) (b : N)                     (* [t] calls a function of [b] *)
| UCleared (t : nat) (b : N) (i : nat)        (* chunk [i] of [b] is given to [t], emptied *)
| UStored (t : nat) (b : N) (i : nat) (v : N) (* [t] stores event [v] in it *)
| UTaken (t : nat) (b : N)                    (* [t] takes the buffer out of the log *)
| URead (t : nat) (b : N) (i : nat) (l : list N) (* [t] reads the events [l] in a chunk of it *)
| UDestroyed (t : nat) (b : N)
| UNull (t : nat)                             (* a function is called on a null pointer *)
| UAstray (t : nat) (b : N).                  (* a chunk of another buffer is returned to [b] *)

(** The thread using a buffer, and the buffer. *)
Definition uses (b : N) (u : use) : option nat :=
  match u with
  | UUsed t b' | UCleared t b' _ | UStored t b' _ _ | UTaken t b' | URead t b' _ _ | UDestroyed t b' | UAstray t b' =>
      if (b =? b')%N then Some t else None
  | _ => None
  end.

(** What has been stored in chunk [i] of [b] since it was last emptied. *)
Definition stored_in (h : list use) (b : N) (i : nat) : list N :=
  fold_left (fun l u =>
    match u with
    | UCleared _ b' i' => if (b =? b')%N && (i =? i')%nat then [] else l
    | UStored _ b' i' v => if (b =? b')%N && (i =? i')%nat then l ++ [v] else l
    | _ => l
    end) h [].

(** What a use of a buffer must find in the history before it. A buffer that has
    been destroyed is not used again; one that has been taken is used by its
    taker alone, and only to read or destroy it; what is read from a chunk is
    what was stored in it; no null pointer is used and no chunk is returned to a
    buffer it is not from. *)
Definition proper (x : list use) (u : use) : Prop :=
  let alive b := forall t, ~ In (UDestroyed t b) x in
  let in_log b := alive b /\ forall t, ~ In (UTaken t b) x in
  match u with
  | UMade _ _ => True
  | UUsed _ b | UCleared _ b _ | UStored _ b _ _ | UTaken _ b => in_log b
  | URead t b i l => alive b /\ In (UTaken t b) x /\ l = stored_in x b i
  | UDestroyed t b => alive b /\ forall t', In (UTaken t' b) x -> t' = t
  | UNull _ | UAstray _ _ => False
  end.
