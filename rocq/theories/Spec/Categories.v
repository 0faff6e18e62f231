(** Independent vocabulary about categories. *)
From Verif Require Import Base Spec.Glob.

(** [x] is one of the pieces of [s] between delimiters [d] (the empty piece
    after a trailing delimiter does not count). *)
Definition piece (d : ascii) (s x : bytes) : Prop :=
  ~ In d x /\ exists a b, s = a ++ x ++ b /\
    (a = [] \/ exists a', a = a' ++ [d]) /\ (b = [] \/ exists b', b = d :: b') /\
    ~ (x = [] /\ b = [] /\ a <> []).

(** [x] matches one of the globs. *)
Definition listed (globs : list bytes) (x : bytes) : Prop := exists g, In g globs /\ phosphor_glob g x.

(** A group is on if one of its categories is enabled and not disabled. *)
Definition switched_on (enabled disabled : list bytes) (group : bytes) : Prop :=
  exists x, piece (chr 44) group x /\ listed enabled x /\ ~ listed disabled x.

(** The three names every registry starts with. *)
Definition built_in : list bytes := [$"default"; $"category limit reached"; $"__metadata"].
Definition overflow_name : bytes := $"category limit reached".

(** Calls on a registry. *)
Inductive rcall := GetStatus (arg : bytes) | Update (enabled disabled : list bytes) | DisableAll.

(** What is in force after a sequence of calls. *)
Definition in_force_from (cur : option (list bytes * list bytes)) (cs : list rcall) :=
  fold_left (fun cur c => match c with Update e d => Some (e, d) | DisableAll => None | GetStatus _ => cur end) cs cur.
Definition in_force (cs : list rcall) : option (list bytes * list bytes) := in_force_from None cs.

(** The names asked for. *)
Definition names_asked (cs : list rcall) : list bytes :=
  flat_map (fun c => match c with GetStatus a => [c_str a] | _ => [] end) cs.

Definition bytes_dec (a b : bytes) : {a = b} + {a <> b} := list_eq_dec ascii_dec a b.

(** Whether a group is on after the calls. *)
Definition on_after (cs : list rcall) (group : bytes) : Prop :=
  match in_force cs with
  | Some (enabled, disabled) => switched_on enabled disabled group
  | None => False
  end.

(** Number of different names among the built-in ones and those asked for. *)
Definition distinct_names (cs : list rcall) : nat :=
  length (nodup bytes_dec (built_in ++ names_asked cs)).
