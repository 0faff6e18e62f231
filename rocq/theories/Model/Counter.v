(** RelaxedAtomic<uint64_t> (include/phosphor/relaxed_atomic.h:22-72) used by threads,
    on the memory of WeakMem.v. Counters are numbered; so are plain variables of the
    user's. The construction of a counter (27-34) is over before others use it. Other
    element types, and RelaxedAtomicCString (74-89), are not modelled. *)
From Verif Require Import Base Spec.Counter Model.Interleave Model.WeakMem.
Local Open Scope N_scope.

Definition ctr (x : N) : loc := Loc 0 x.
Definition user_var (x : N) : loc := Loc 1 x.

Record cstate := {
  c_mem : wmem unit;
  c_pc : tid -> option (N * N);      (* in operator=(const RelaxedAtomic&): where to store what *)
  c_hist : list cevent;
}.

(** relaxed_atomic.h:27-29. *)
Definition c_new (init : N -> N) : cstate :=
  {| c_mem := wmem_new (fun l => match l with Loc 0 x => init x mod 2 ^ 64 | _ => 0 end) (fun _ => tt);
     c_pc := fun _ => None; c_hist := [] |}.

(** [i], [f], [n] as in WeakMem.v. *)
Inductive cact :=
| RLoad (t : tid) (x : N) (i : nat)
| RSet (t : tid) (x v f n : N)
| RFrom (t : tid) (x y : N) (i : nat)
| RPut (t : tid) (f n : N)
| RPreInc (t : tid) (x : N) (i : nat) (n : N)
| RPostInc (t : tid) (x : N) (i : nat) (n : N)
| RPreDec (t : tid) (x : N) (i : nat) (n : N)
| RPostDec (t : tid) (x : N) (i : nat) (n : N)
| RSync (t u : tid)
| RUse (t : tid) (x : N) (write : bool).       (* a plain variable of the user's *)

Definition r_tid (a : cact) : tid :=
  match a with
  | RLoad t _ _ | RSet t _ _ _ _ | RFrom t _ _ _ | RPut t _ _ | RPreInc t _ _ _ | RPostInc t _ _ _
  | RPreDec t _ _ _ | RPostDec t _ _ _ | RSync t _ | RUse t _ _ => t
  end.

Definition c_goto (s : cstate) (m : wmem unit) (t : tid) (p : option (N * N)) (e : list cevent) : cstate :=
  {| c_mem := m; c_pc := tset (c_pc s) t p; c_hist := c_hist s ++ e |}.

(** fetch_add(1, relaxed) + 1 and the like: [d] is added; the value returned is the old
    one and [r] added. *)
Definition c_count (s : cstate) (t : tid) (x d r : N) (o : cop) (i : nat) (n : N) : option cstate :=
  match wfetch_add (c_mem s) t false false (ctr x) d i n with
  | Some (v, m) => Some (c_goto s m t None [CDid t x o ((v + r) mod 2 ^ 64)])
  | None => None
  end.

Definition cstep (s : cstate) (a : cact) : option cstate :=
  let m := c_mem s in
  match c_pc s (r_tid a), a with
  (* relaxed_atomic.h:36-42 *)
  | None, RLoad t x i =>
      match wload m t false (ctr x) i with
      | Some (v, m') => Some (c_goto s m' t None [CDid t x CRead v])
      | None => None
      end
  (* 49-52 *)
  | None, RSet t x v f n =>
      match wstore m t false (ctr x) (v mod 2 ^ 64) f n with
      | Some m' => Some (c_goto s m' t None [CDid t x CAssign (v mod 2 ^ 64)])
      | None => None
      end
  (* 44-47: rhs.load() *)
  | None, RFrom t x y i =>
      match wload m t false (ctr y) i with
      | Some (v, m') => Some (c_goto s m' t (Some (x, v)) [CDid t y CRead v])
      | None => None
      end
  (* 45: value.store *)
  | Some (x, v), RPut t f n =>
      match wstore m t false (ctr x) v f n with
      | Some m' => Some (c_goto s m' t None [CDid t x CAssign v])
      | None => None
      end
  (* 54-56, 58-60 *)
  | None, RPreInc t x i n => c_count s t x 1 1 CPreInc i n
  | None, RPostInc t x i n => c_count s t x 1 0 CPostInc i n
  (* 62-64, 66-68 *)
  | None, RPreDec t x i n => c_count s t x (2 ^ 64 - 1) (2 ^ 64 - 1) CPreDec i n
  | None, RPostDec t x i n => c_count s t x (2 ^ 64 - 1) 0 CPostDec i n
  | None, RSync t u => Some (c_goto s (with_seen m t (vjoin (seen m t) (seen m u))) t None [CSynced t u])
  | None, RUse t x w => Some (c_goto s (wtouch m t (user_var x) w tt) t None [])
  | _, _ => None
  end.

Definition crun (init : N -> N) (sched : list cact) : cstate := run cstep (c_new init) sched.
