(** Independent definitions of globbing. *)
From Verif Require Import Base.

Definition star : ascii := "*"%char.
Definition plus : ascii := "+"%char.
Definition qmark : ascii := "?"%char.

Definition wild (c : ascii) : Prop := c = star \/ c = plus \/ c = qmark.

(** Contains neither star nor plus. *)
Definition starless (g : bytes) : Prop := ~ In star g /\ ~ In plus g.

(** Position-wise matching: '?' stands for any one character. *)
Definition pos_match (g s : bytes) : Prop :=
  length g = length s /\
  forall i c d, nth_error g i = Some c -> nth_error s i = Some d ->
                c = qmark \/ c = d.

(** The usual meaning of a glob: '*' any text, '+' any non-empty text, '?' any
    one character, and the whole string must be consumed. *)
Inductive std_glob : bytes -> bytes -> Prop :=
| sg_nil : std_glob [] []
| sg_lit c g s : ~ wild c -> std_glob g s -> std_glob (c :: g) (c :: s)
| sg_any c g s : std_glob g s -> std_glob (qmark :: g) (c :: s)
| sg_star g s1 s2 : std_glob g s2 -> std_glob (star :: g) (s1 ++ s2)
| sg_plus g c s1 s2 : std_glob g s2 -> std_glob (plus :: g) (c :: s1 ++ s2).

(** In-order search with gaps: each character of [g] occurs in [s], literally,
    at or after the place where the search for the previous one ended; anything
    may follow. A star found in the text is not consumed. *)
Inductive gap_match : bytes -> bytes -> Prop :=
| gm_nil s : gap_match [] s
| gm_lit c g s1 s2 : c <> star -> gap_match g s2 -> gap_match (c :: g) (s1 ++ c :: s2)
| gm_star g s1 s2 : gap_match g (star :: s2) -> gap_match (star :: g) (s1 ++ star :: s2).

(** The exact behaviour: position-wise up to the first star or plus, then a
    search with gaps. *)
Definition phosphor_glob (g s : bytes) : Prop :=
  (starless g /\ pos_match g s)
  \/ (exists p q s1 s2, g = p ++ star :: q /\ starless p /\ s = s1 ++ s2 /\
        pos_match p s1 /\ gap_match q s2)
  \/ (exists p q s1 x s2, g = p ++ plus :: q /\ starless p /\ s = s1 ++ x :: s2 /\
        pos_match p s1 /\ gap_match q s2).
