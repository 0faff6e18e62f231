(** Shared memory as the C++11 memory model gives it, without the assumption that
    all threads see one order of accesses.

    This is not code from /repo: it is the meaning of std::atomic, std::mutex and
    plain variables that the files Weak*.v use. It is the usual operational
    reading with views (relaxed, acquire and release accesses; a relaxed store
    is never read before it is made, as in RC11). Simplifications, all of which
    allow more behaviour than the standard does: a seq_cst access is an acquire
    load / a release store; a release store heads a release sequence made of
    read-modify-writes only. *)
From Verif Require Import Base Model.Interleave.
Local Open Scope N_scope.

(** A variable: element [idx] of object [obj]. *)
Inductive loc := Loc (obj idx : N).

Definition loc_eqb (a b : loc) : bool :=
  match a, b with Loc o i, Loc o' i' => (o =? o') && (i =? i') end.

Definition lset {A} (f : loc -> A) (x : loc) (v : A) : loc -> A :=
  fun y => if loc_eqb y x then v else f y.

(** What a thread has heard of: per atomic variable the time of the newest store
    it may not overlook, and the accesses to plain variables that happened
    before. *)
Record view := { ts : loc -> N; known : nat -> bool }.

Definition vbot : view := {| ts := fun _ => 0; known := fun _ => false |}.
Definition vjoin (a b : view) : view :=
  {| ts := fun x => N.max (ts a x) (ts b x); known := fun e => known a e || known b e |}.
(** Having heard of the store to [x] at time [n], or of access number [e]. *)
Definition vat (v : view) (x : loc) (n : N) : view :=
  {| ts := lset (ts v) x (N.max (ts v x) n); known := known v |}.
Definition vknow (v : view) (e : nat) : view :=
  {| ts := ts v; known := fun e' => Nat.eqb e' e || known v e' |}.

(** A store to an atomic variable. It takes the times in (m_from, m_to]; the
    stores to one variable are ordered by time. *)
Record msg := { m_from : N; m_to : N; m_val : N; m_view : view }.

(** An access to a plain variable. *)
Record access := { a_loc : loc; a_write : bool }.

Section Mem.
  Context {V : Type}.

  Record wmem := {
    hist : loc -> list msg;          (* the stores so far, in no particular order *)
    plain : loc -> V;                (* plain variables *)
    accs : list access;              (* accesses to plain variables, oldest first *)
    seen : tid -> view;
    held : loc -> option tid;        (* mutexes *)
    left_at : loc -> view;           (* what the last holder of a mutex had heard of *)
    races : list loc;                (* where there has been a data race: undefined behaviour *)
  }.

  (** Variables initialised before any thread can reach them. *)
  Definition wmem_new (init : loc -> N) (p : loc -> V) : wmem :=
    {| hist := fun x => [{| m_from := 0; m_to := 0; m_val := init x; m_view := vbot |}];
       plain := p; accs := []; seen := fun _ => vbot; held := fun _ => None; left_at := fun _ => vbot;
       races := [] |}.

  Definition with_seen (m : wmem) (t : tid) (v : view) : wmem :=
    {| hist := hist m; plain := plain m; accs := accs m; seen := tset (seen m) t v; held := held m;
       left_at := left_at m; races := races m |}.
  Definition with_msg (m : wmem) (x : loc) (g : msg) : wmem :=
    {| hist := lset (hist m) x (g :: hist m x); plain := plain m; accs := accs m; seen := seen m; held := held m;
       left_at := left_at m; races := races m |}.

  (** What a thread with view [v] has heard of after reading message [g]. *)
  Definition after_load (v : view) (acquire : bool) (x : loc) (g : msg) : view :=
    let v' := vat v x (m_to g) in if acquire then vjoin v' (m_view g) else v'.

  (** load: any store that is not older than one the thread has heard of.
      [i] chooses; [None]: not a possible choice. *)
  Definition wload (m : wmem) (t : tid) (acquire : bool) (x : loc) (i : nat) : option (N * wmem) :=
    match nth_error (hist m x) i with
    | Some g => if ts (seen m t) x <=? m_to g
                then Some (m_val g, with_seen m t (after_load (seen m t) acquire x g)) else None
    | None => None
    end.

  (** The times in (f, n] are not taken. *)
  Definition free (f n : N) (l : list msg) : bool :=
    (f <? n) && forallb (fun g => (n <=? m_from g) || (m_to g <=? f)) l.

  (** store: at any free time after the stores the thread has heard of. *)
  Definition wstore (m : wmem) (t : tid) (release : bool) (x : loc) (v f n : N) : option wmem :=
    if (ts (seen m t) x <? n) && free f n (hist m x) then
      let w := vat (seen m t) x n in
      Some (with_msg (with_seen m t w) x
              {| m_from := f; m_to := n; m_val := v; m_view := if release then w else vat vbot x n |})
    else None.

  (** A successful read-modify-write of the store [g]: nothing comes between the
      two stores, and what was released with [g] is passed on. *)
  Definition wrmw (m : wmem) (t : tid) (acquire release : bool) (x : loc) (g : msg) (v n : N) : option wmem :=
    if (ts (seen m t) x <=? m_to g) && free (m_to g) n (hist m x) then
      let w := vat (after_load (seen m t) acquire x g) x n in
      Some (with_msg (with_seen m t w) x
              {| m_from := m_to g; m_to := n; m_val := v;
                 m_view := vjoin (m_view g) (if release then w else vat vbot x n) |})
    else None.

  (** compare_exchange on the store chosen by [i], new store at time [n]; the weak
      form may fail spuriously. The value found is returned. [facq]: the load of
      a failed attempt is an acquire. *)
  Definition wcas (m : wmem) (t : tid) (acquire release facq : bool) (x : loc) (expected desired : N)
      (i : nat) (n : N) (spurious : bool) : option (bool * N * wmem) :=
    match nth_error (hist m x) i with
    | None => None
    | Some g =>
        if (m_val g =? expected) && negb spurious then
          match wrmw m t acquire release x g desired n with
          | Some m' => Some (true, m_val g, m')
          | None => None
          end
        else match wload m t facq x i with
             | Some (v, m') => Some (false, v, m')
             | None => None
             end
    end.

  (** fetch_add. *)
  Definition wfetch_add (m : wmem) (t : tid) (acquire release : bool) (x : loc) (d : N) (i : nat) (n : N)
      : option (N * wmem) :=
    match nth_error (hist m x) i with
    | None => None
    | Some g => match wrmw m t acquire release x g ((m_val g + d) mod 2 ^ 64) n with
                | Some m' => Some (m_val g, m')
                | None => None
                end
    end.

  (** Every earlier access to [x] that conflicts with one more access is known,
      i.e. happened before. [e] numbers the accesses. *)
  Fixpoint ordered (v : view) (x : loc) (write : bool) (e : nat) (l : list access) : bool :=
    match l with
    | [] => true
    | a :: r => (negb (loc_eqb (a_loc a) x && (write || a_write a)) || known v e) && ordered v x write (S e) r
    end.

  (** A plain variable is accessed; what it then holds. *)
  Definition wtouch (m : wmem) (t : tid) (x : loc) (write : bool) (v : V) : wmem :=
    {| hist := hist m; plain := lset (plain m) x v; accs := accs m ++ [{| a_loc := x; a_write := write |}];
       seen := tset (seen m) t (vknow (seen m t) (length (accs m))); held := held m; left_at := left_at m;
       races := if ordered (seen m t) x write 0 (accs m) then races m else x :: races m |}.
  Definition wwrite (m : wmem) (t : tid) (x : loc) (v : V) : wmem := wtouch m t x true v.
  Definition wread (m : wmem) (t : tid) (x : loc) : V * wmem := (plain m x, wtouch m t x false (plain m x)).

  (** std::mutex. *)
  Definition wlock (m : wmem) (t : tid) (x : loc) : option wmem :=
    match held m x with
    | Some _ => None
    | None =>
        Some {| hist := hist m; plain := plain m; accs := accs m;
                seen := tset (seen m) t (vjoin (seen m t) (left_at m x));
                held := lset (held m) x (Some t); left_at := left_at m; races := races m |}
    end.
  Definition wunlock (m : wmem) (t : tid) (x : loc) : wmem :=
    {| hist := hist m; plain := plain m; accs := accs m; seen := seen m;
       held := lset (held m) x None; left_at := lset (left_at m) x (seen m t); races := races m |}.
End Mem.
Arguments wmem V : clear implicits.
