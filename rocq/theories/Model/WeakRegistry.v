(** Model of src/category_registry.cc and of the status check of the trace macros
    (phosphor-internal.h:34-100) on the memory of WeakMem.v: the same code as
    RegistryConc.v, with the memory orders written in it.

    A reference to a status is the index of its slot; the pointer cached at a
    trace point is that index plus one, 0 being null. The plain accesses of
    [calculateEnabled] (a group name, the category lists) are one step with the
    store that follows them: whether two accesses race does not depend on what
    other threads do in between. *)
From Verif Require Import Base Spec.Categories Spec.SwitchHistory Model.StringUtils Model.Queue Model.Interleave
  Model.Registry Model.RegistryConc Model.WeakMem.
Local Open Scope nat_scope.

(** category_registry.h:116-127. *)
Definition group_count : loc := Loc 0 0.
Definition status_at (i : nat) : loc := Loc 1 (N.of_nat i).
Definition name_at (i : nat) : loc := Loc 2 (N.of_nat i).
Definition lists_at : loc := Loc 3 0.
Definition reg_mutex : loc := Loc 4 0.
(** phosphor-internal.h:35-36, one static variable per trace point. *)
Definition site_at (s : nat) : loc := Loc 5 (N.of_nat s).

(** Contents of plain variables. *)
Inductive rval := RName (g : bytes) | RLists (enabled disabled : list bytes).
Definition name_in (v : rval) : bytes := match v with RName g => g | RLists _ _ => [] end.
Definition lists_in (v : rval) : list bytes * list bytes :=
  match v with RLists e d => (e, d) | RName _ => ([], []) end.

Definition status_val (on : bool) : N := if on then 1%N else 0%N.

(** [k]: the trace point getStatus was called from, if any. *)
Inductive wrpc :=
| WRIdle
| TSite (s : nat)                                   (* phosphor-internal.h:37-39 *)
| TStore (s i : nat)                                (* :74-76 *)
| TStatus (s i : nat)                               (* :96-98 *)
| WGCount (k : option nat) (name : bytes)           (* category_registry.cc:33 *)
| WGScan (k : option nat) (name : bytes) (i n : nat)   (* :34-38 *)
| WGLock (k : option nat) (name : bytes)            (* :42 *)
| WLCount (k : option nat) (name : bytes)           (* :43 *)
| WLScan (k : option nat) (name : bytes) (i n : nat)   (* :44-48 *)
| WWName (k : option nat) (name : bytes) (i : nat)  (* :52 *)
| WWStat (k : option nat) (name : bytes) (i : nat)  (* :53 *)
| WWInc (k : option nat) (name : bytes) (i : nat)   (* :54 *)
| WLRet (k : option nat) (name : bytes) (i : nat)   (* :46, 55, 57 and ~lock_guard *)
| WULock (l : option (list bytes * list bytes))     (* :104, 116 *)
| WUList (l : option (list bytes * list bytes))     (* :105-106, 117-118 *)
| WUCount (l : option (list bytes * list bytes))    (* :109, 121 *)
| WUStore (l : option (list bytes * list bytes)) (i n : nat)   (* :110-112, 122-125 *)
| WURet (l : option (list bytes * list bytes)).

Record wregistry := {
  wr_mem : wmem rval;
  wr_pc : tid -> wrpc;
  wr_hist : list switch_event;
}.

(** category_registry.cc:22-28; the registry is shared after its construction.
    Static variables are initialised to null. *)
Definition wr_init (x : loc) : N := match x with Loc 0 _ => N.of_nat index_non_default_categories | _ => 0%N end.
Definition wr_plain (x : loc) : rval :=
  match x with Loc 2 i => RName (nth (N.to_nat i) built_in []) | _ => RLists [] [] end.
Definition wr_new : wregistry :=
  {| wr_mem := wmem_new wr_init wr_plain; wr_pc := fun _ => WRIdle; wr_hist := [] |}.

Definition wr_goto (r : wregistry) (m : wmem rval) (t : tid) (p : wrpc) (e : list switch_event) : wregistry :=
  {| wr_mem := m; wr_pc := tset (wr_pc r) t p; wr_hist := wr_hist r ++ e |}.

Inductive wract :=
| WCallGet (t : tid) (arg : bytes)
| WCallSwitch (t : tid) (l : option (list bytes * list bytes))
| WCallTrace (t : tid) (s : nat)
| WRGo (t : tid) (c : nat) (f n : N).   (* next access: the store read, the time of the store made *)

Section WeakRegistry.
  (** The category written at each trace point. *)
  Variable site_cat : nat -> bytes.

  (** getStatus returns to its caller. *)
  Definition back (k : option nat) (i : nat) : wrpc :=
    match k with Some s => TStore s i | None => WRIdle end.

  Definition wrstep (r : wregistry) (a : wract) : option wregistry :=
    let m := wr_mem r in
    match a with
    | WCallGet t arg =>
        match wr_pc r t with
        | WRIdle => Some (wr_goto r m t (WGCount None (c_str arg)) [SAsked t (c_str arg)])
        | _ => None
        end
    | WCallSwitch t l => match wr_pc r t with WRIdle => Some (wr_goto r m t (WULock l) []) | _ => None end
    | WCallTrace t s => match wr_pc r t with WRIdle => Some (wr_goto r m t (TSite s) []) | _ => None end
    | WRGo t c f n =>
        match wr_pc r t with
        | WRIdle => None
        | TSite s =>
            (* acquire *)
            match wload m t true (site_at s) c with
            | Some (0%N, m') => Some (wr_goto r m' t (WGCount (Some s) (c_str (site_cat s))) [SAsked t (c_str (site_cat s))])
            | Some (p, m') => Some (wr_goto r m' t (TStatus s (N.to_nat (N.pred p))) [])
            | None => None
            end
        | TStore s i =>
            (* release *)
            match wstore m t true (site_at s) (N.succ (N.of_nat i)) f n with
            | Some m' => Some (wr_goto r m' t (TStatus s i) [])
            | None => None
            end
        | TStatus s i =>
            (* acquire *)
            match wload m t true (status_at i) c with
            | Some (v, m') => Some (wr_goto r m' t WRIdle [STraced t s i (negb (v =? 0)%N)])
            | None => None
            end
        | WGCount k name =>
            (* acquire *)
            match wload m t true group_count c with
            | Some (v, m') => Some (wr_goto r m' t (WGScan k name 0 (N.to_nat v)) [])
            | None => None
            end
        | WGScan k name i n0 =>
            if i <? n0 then
              let '(v, m') := wread m t (name_at i) in
              if same_name (name_in v) name then Some (wr_goto r m' t (back k i) [SGiven t name i])
              else Some (wr_goto r m' t (WGScan k name (S i) n0) [])
            else Some (wr_goto r m t (WGLock k name) [])
        | WGLock k name =>
            match wlock m t reg_mutex with
            | Some m' => Some (wr_goto r m' t (WLCount k name) [])
            | None => None
            end
        | WLCount k name =>
            (* relaxed *)
            match wload m t false group_count c with
            | Some (v, m') => Some (wr_goto r m' t (WLScan k name 0 (N.to_nat v)) [])
            | None => None
            end
        | WLScan k name i n0 =>
            if i <? n0 then
              let '(v, m') := wread m t (name_at i) in
              if same_name (name_in v) name then Some (wr_goto r m' t (WLRet k name i) [])
              else Some (wr_goto r m' t (WLScan k name (S i) n0) [])
            else if n0 <? registry_size then Some (wr_goto r m t (WWName k name n0) [])
            else Some (wr_goto r m t (WLRet k name index_category_limit) [])
        | WWName k name i => Some (wr_goto r (wwrite m t (name_at i) (RName name)) t (WWStat k name i) [])
        | WWStat k name i =>
            (* seq_cst store *)
            let '(g, m1) := wread m t (name_at i) in
            let '(l, m2) := wread m1 t lists_at in
            let on := calculateEnabled (name_in g) (fst (lists_in l)) (snd (lists_in l)) in
            match wstore m2 t true (status_at i) (status_val on) f n with
            | Some m' => Some (wr_goto r m' t (WWInc k name i) [])
            | None => None
            end
        | WWInc k name i =>
            (* fetch_add, release *)
            match wfetch_add m t false true group_count 1 c n with
            | Some (_, m') => Some (wr_goto r m' t (WLRet k name i) [SRegistered t name i])
            | None => None
            end
        | WLRet k name i => Some (wr_goto r (wunlock m t reg_mutex) t (back k i) [SGiven t name i])
        | WULock l =>
            match wlock m t reg_mutex with
            | Some m' => Some (wr_goto r m' t (WUList l) [])
            | None => None
            end
        | WUList l =>
            Some (wr_goto r (wwrite m t lists_at (RLists (fst (stored_lists l)) (snd (stored_lists l)))) t (WUCount l) [SPlaced t l])
        | WUCount l =>
            (* relaxed *)
            match wload m t false group_count c with
            | Some (v, m') => Some (wr_goto r m' t (WUStore l 0 (N.to_nat v)) [])
            | None => None
            end
        | WUStore l i n0 =>
            if i <? n0 then
              match l with
              | Some _ =>
                  (* relaxed *)
                  let '(g, m1) := wread m t (name_at i) in
                  let '(ls, m2) := wread m1 t lists_at in
                  let on := calculateEnabled (name_in g) (fst (lists_in ls)) (snd (lists_in ls)) in
                  match wstore m2 t false (status_at i) (status_val on) f n with
                  | Some m' => Some (wr_goto r m' t (WUStore l (S i) n0) [])
                  | None => None
                  end
              | None =>
                  match wstore m t false (status_at i) (status_val false) f n with
                  | Some m' => Some (wr_goto r m' t (WUStore l (S i) n0) [])
                  | None => None
                  end
              end
            else Some (wr_goto r m t (WURet l) [])
        | WURet l => Some (wr_goto r (wunlock m t reg_mutex) t WRIdle [SSwitched t])
        end
    end.

  Definition wregistry_run (sched : list wract) : wregistry := run wrstep wr_new sched.
End WeakRegistry.
