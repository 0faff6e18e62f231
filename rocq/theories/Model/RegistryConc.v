(** Model of src/category_registry.cc used by any number of threads: every
    access to an atomic, to the mutex, to a group name or to the category lists
    is one step. Assigning a std::string takes two steps; in between the slot
    holds no string ([None]) and reading it is undefined. *)
From Verif Require Import Base Spec.Categories Spec.CategoryHistory Model.StringUtils Model.Queue Model.Interleave Model.Registry.

Inductive gpc :=
| GIdle
(* getStatus, category_registry.cc:33-38 *)
| GCount (name : bytes)                     (* about to load group_count *)
| GScan (name : bytes) (i n : nat)          (* about to compare groups[i] *)
| GLock (name : bytes)                      (* line 42 *)
| LCount (name : bytes)                     (* line 43 *)
| LScan (name : bytes) (i n : nat)          (* lines 44-48 *)
| WBegin (name : bytes) (i : nat)           (* line 52, first half *)
| WEnd (name : bytes) (i : nat)             (* line 52, second half *)
| WStat (name : bytes) (i : nat)            (* line 53 *)
| WInc (name : bytes) (i : nat)             (* line 54 *)
| LRet (name : bytes) (i : nat)             (* lines 46, 55, 57 and ~lock_guard *)
(* updateEnabled (Some) / disableAll (None), category_registry.cc:102-126 *)
| ULock (l : option (list bytes * list bytes))
| UList (l : option (list bytes * list bytes))
| UCount (l : option (list bytes * list bytes))
| UStore (l : option (list bytes * list bytes)) (i n : nat)
| URet (l : option (list bytes * list bytes))
| GCrash.                                   (* read a slot without a string *)

Record cregistry := {
  cr_groups : nat -> option bytes;
  cr_status : nat -> bool;
  cr_count : nat;
  cr_enabled : list bytes;
  cr_disabled : list bytes;
  cr_mutex : option tid;
  cr_pc : tid -> gpc;
  cr_hist : list registry_event;
}.

(** category_registry.cc:22-28. *)
Definition cr_new : cregistry := {|
  cr_groups := fun i => Some (nth i built_in []);
  cr_status := fun _ => false;
  cr_count := index_non_default_categories;
  cr_enabled := []; cr_disabled := [];
  cr_mutex := None;
  cr_pc := fun _ => GIdle;
  cr_hist := [];
|}.

(** The lists updateEnabled / disableAll store (category_registry.cc:105-106,
    117-118). *)
Definition stored_lists (l : option (list bytes * list bytes)) : list bytes * list bytes :=
  match l with Some p => p | None => ([[]], [[]]) end.

Inductive ract :=
| CallGet (t : tid) (arg : bytes)
| CallSwitch (t : tid) (l : option (list bytes * list bytes))
| RGo (t : tid).

Definition at_pc (r : cregistry) (t : tid) (p : gpc) (e : list registry_event) : cregistry :=
  {| cr_groups := cr_groups r; cr_status := cr_status r; cr_count := cr_count r;
     cr_enabled := cr_enabled r; cr_disabled := cr_disabled r; cr_mutex := cr_mutex r;
     cr_pc := tset (cr_pc r) t p; cr_hist := cr_hist r ++ e |}.
Definition with_group (r : cregistry) (i : nat) (v : option bytes) : cregistry :=
  {| cr_groups := updn (cr_groups r) i v; cr_status := cr_status r; cr_count := cr_count r;
     cr_enabled := cr_enabled r; cr_disabled := cr_disabled r; cr_mutex := cr_mutex r;
     cr_pc := cr_pc r; cr_hist := cr_hist r |}.
Definition with_status (r : cregistry) (i : nat) (v : bool) : cregistry :=
  {| cr_groups := cr_groups r; cr_status := updn (cr_status r) i v; cr_count := cr_count r;
     cr_enabled := cr_enabled r; cr_disabled := cr_disabled r; cr_mutex := cr_mutex r;
     cr_pc := cr_pc r; cr_hist := cr_hist r |}.
Definition with_count (r : cregistry) (n : nat) : cregistry :=
  {| cr_groups := cr_groups r; cr_status := cr_status r; cr_count := n;
     cr_enabled := cr_enabled r; cr_disabled := cr_disabled r; cr_mutex := cr_mutex r;
     cr_pc := cr_pc r; cr_hist := cr_hist r |}.
Definition with_lists (r : cregistry) (l : list bytes * list bytes) : cregistry :=
  {| cr_groups := cr_groups r; cr_status := cr_status r; cr_count := cr_count r;
     cr_enabled := fst l; cr_disabled := snd l; cr_mutex := cr_mutex r;
     cr_pc := cr_pc r; cr_hist := cr_hist r |}.
Definition with_mutex (r : cregistry) (m : option tid) : cregistry :=
  {| cr_groups := cr_groups r; cr_status := cr_status r; cr_count := cr_count r;
     cr_enabled := cr_enabled r; cr_disabled := cr_disabled r; cr_mutex := m;
     cr_pc := cr_pc r; cr_hist := cr_hist r |}.

(** strcmp(groups[i].c_str(), category_group) == 0. *)
Definition same_name (group name : bytes) : bool := bytes_eqb (c_str group) name.

Definition rstep (r : cregistry) (a : ract) : option cregistry :=
  match a with
  | CallGet t arg =>
      match cr_pc r t with GIdle => Some (at_pc r t (GCount (c_str arg)) [Asked t (c_str arg)]) | _ => None end
  | CallSwitch t l =>
      match cr_pc r t with GIdle => Some (at_pc r t (ULock l) []) | _ => None end
  | RGo t =>
      match cr_pc r t with
      | GIdle | GCrash => None
      | GCount name => Some (at_pc r t (GScan name 0 (cr_count r)) [])
      | GScan name i n =>
          if i <? n then
            match cr_groups r i with
            | None => Some (at_pc r t GCrash [])
            | Some g => if same_name g name then Some (at_pc r t GIdle [Given t name i])
                        else Some (at_pc r t (GScan name (S i) n) [])
            end
          else Some (at_pc r t (GLock name) [])
      | GLock name =>
          match cr_mutex r with
          | None => Some (at_pc (with_mutex r (Some t)) t (LCount name) [])
          | Some _ => None
          end
      | LCount name => Some (at_pc r t (LScan name 0 (cr_count r)) [])
      | LScan name i n =>
          if i <? n then
            match cr_groups r i with
            | None => Some (at_pc r t GCrash [])
            | Some g => if same_name g name then Some (at_pc r t (LRet name i) [])
                        else Some (at_pc r t (LScan name (S i) n) [])
            end
          else if n <? registry_size then Some (at_pc r t (WBegin name n) [])
          else Some (at_pc r t (LRet name index_category_limit) [])
      | WBegin name i => Some (at_pc (with_group r i None) t (WEnd name i) [])
      | WEnd name i => Some (at_pc (with_group r i (Some name)) t (WStat name i) [])
      | WStat name i =>
          match cr_groups r i with
          | None => Some (at_pc r t GCrash [])
          | Some g => Some (at_pc (with_status r i (calculateEnabled g (cr_enabled r) (cr_disabled r))) t (WInc name i) [])
          end
      | WInc name i => Some (at_pc (with_count r (S (cr_count r))) t (LRet name i) [])
      | LRet name i => Some (at_pc (with_mutex r None) t GIdle [Given t name i])
      | ULock l =>
          match cr_mutex r with
          | None => Some (at_pc (with_mutex r (Some t)) t (UList l) [])
          | Some _ => None
          end
      | UList l => Some (at_pc (with_lists r (stored_lists l)) t (UCount l) [])
      | UCount l => Some (at_pc r t (UStore l 0 (cr_count r)) [])
      | UStore l i n =>
          if i <? n then
            match l with
            | None => Some (at_pc (with_status r i false) t (UStore l (S i) n) [])
            | Some _ =>
                match cr_groups r i with
                | None => Some (at_pc r t GCrash [])
                | Some g => Some (at_pc (with_status r i (calculateEnabled g (cr_enabled r) (cr_disabled r))) t (UStore l (S i) n) [])
                end
            end
          else Some (at_pc r t (URet l) [])
      | URet l => Some (at_pc (with_mutex r None) t GIdle [Switched t l])
      end
  end.

Definition cregistry_run (sched : list ract) : cregistry := run rstep cr_new sched.

(** The non-atomic memory a thread is about to access, and whether it writes. *)
Inductive rloc := GroupName (i : nat) | CategoryLists.
Definition r_access (r : cregistry) (t : tid) : list (rloc * bool) :=
  match cr_pc r t with
  | GScan _ i n | LScan _ i n => if i <? n then [(GroupName i, false)] else []
  | WBegin _ i | WEnd _ i => [(GroupName i, true)]
  | WStat _ i => [(GroupName i, false); (CategoryLists, false)]
  | UList _ => [(CategoryLists, true)]
  | UStore (Some _) i n => if i <? n then [(GroupName i, false); (CategoryLists, false)] else []
  | _ => []
  end.
