(** Model of src/category_registry.cc, one call at a time. (The interleavings of
    lock-free lookups with insertions are the subject of Model/RegistryConc.v.) *)
From Verif Require Import Base Spec.Categories Model.StringUtils Model.Queue.

(** category_registry.cc:61-95, the static [calculateEnabled]; true is
    [CategoryStatus::Enabled]. *)
Definition calculateEnabled (group : bytes) (enabled disabled : list bytes) : bool :=
  let categories := split_string group (chr 44) in
  let enabled_relevant :=
    filter (fun category => existsb (fun e => glob_match e category) enabled) categories in
  existsb (fun category => negb (existsb (fun d => glob_match d category) disabled)) enabled_relevant.

(** category_registry.h:45 and 119-121: constants. *)
Definition registry_size : nat := 250.
Definition index_category_limit : nat := 1.
Definition index_non_default_categories : nat := 3.

(** category_registry.h:116-127: the members. A reference to a status is the
    index of its slot. *)
Record registry := {
  rg_groups : nat -> bytes;
  rg_status : nat -> bool;
  rg_count : nat;
  rg_enabled : list bytes;
  rg_disabled : list bytes;
}.

(** category_registry.cc:22-28, constructor. *)
Definition registry_new : registry := {|
  rg_groups := fun i => nth i [$"default"; $"category limit reached"; $"__metadata"] [];
  rg_status := fun _ => false;
  rg_count := index_non_default_categories;
  rg_enabled := [];
  rg_disabled := [];
|}.

(** category_registry.cc:34-38 and 44-48, the search loop: from slot [i], [n]
    slots left. *)
Fixpoint search (groups : nat -> bytes) (name : bytes) (i n : nat) : option nat :=
  match n with
  | O => None
  | S n' => if bytes_eqb (c_str (groups i)) name then Some i else search groups name (S i) n'
  end.

Definition updn {A} (f : nat -> A) (k : nat) (v : A) : nat -> A :=
  fun i => if Nat.eqb i k then v else f i.

(** category_registry.cc:30-59 [getStatus]. Without other threads the second
    search (under the lock) repeats the first. [arg] is the memory the
    [const char*] points to. *)
Definition getStatus (r : registry) (arg : bytes) : nat * registry :=
  let name := c_str arg in
  match search (rg_groups r) name 0 (rg_count r) with
  | Some i => (i, r)
  | None =>
      if rg_count r <? registry_size then
        (rg_count r,
         {| rg_groups := updn (rg_groups r) (rg_count r) name;
            rg_status := updn (rg_status r) (rg_count r)
                              (calculateEnabled name (rg_enabled r) (rg_disabled r));
            rg_count := S (rg_count r);
            rg_enabled := rg_enabled r; rg_disabled := rg_disabled r |})
      else (index_category_limit, r)
  end.

(** category_registry.cc:102-113 [updateEnabled]; the loop stores a status in
    every used slot. *)
Definition updateEnabled (r : registry) (enabled disabled : list bytes) : registry := {|
  rg_groups := rg_groups r;
  rg_status := fun i => if i <? rg_count r then calculateEnabled (rg_groups r i) enabled disabled
                        else rg_status r i;
  rg_count := rg_count r;
  rg_enabled := enabled;
  rg_disabled := disabled;
|}.

(** category_registry.cc:115-126 [disableAll]. The assignment from [{{}}] picks
    vector's initializer-list operator: the lists hold one empty string. *)
Definition disableAll (r : registry) : registry := {|
  rg_groups := rg_groups r;
  rg_status := fun i => if i <? rg_count r then false else rg_status r i;
  rg_count := rg_count r;
  rg_enabled := [[]];
  rg_disabled := [[]];
|}.

(** category_registry.cc:128-132 [getStats]: "registry_group_count". *)
Definition registry_stats (r : registry) : nat := rg_count r.

(** A sequence of calls, with the answers of getStatus: the argument and the
    slot. *)
Definition rcall_run (r : registry) (c : rcall) : list (bytes * nat) * registry :=
  match c with
  | GetStatus a => let '(i, r') := getStatus r a in ([(a, i)], r')
  | Update e d => ([], updateEnabled r e d)
  | DisableAll => ([], disableAll r)
  end.

Fixpoint registry_run (r : registry) (cs : list rcall) : list (bytes * nat) * registry :=
  match cs with
  | [] => ([], r)
  | c :: rest => let '(h, r') := rcall_run r c in
                 let '(h', r'') := registry_run r' rest in (h ++ h', r'')
  end.
