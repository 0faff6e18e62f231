(** The trace log on the memory of Model/WeakMem.v, with the memory orders it is
    written with: start, stop, the eviction of threads, getBuffer, getStats,
    (de)registration, logEvent, and what the taker of a buffer does with it.

    What is accessed, and how:
    - [enabled] and [generation] are atomic with the default order (read as
      acquire / release here, which allows more);
    - the pointer [buffer] is plain: written with the mutex held, read by logEvent
      with only the lock of the thread's tenant held;
    - the chunk pointer of a tenant, the chunks and the buffer objects are plain;
    - the tenant's lock passes on what its holder has heard of (this is what
      Model/WeakLock.v is for, C73), and so does an element of the queue of a ring
      buffer (Model/WeakQueue.v, C75). Here they are used as a mutex and as a list
      of elements with views.

    Simplifications: category statuses are left out (Model/WeakRegistry.v), as are
    thread names (they are only accessed with the mutex held, as
    [registered_chunk_tenants] is; 229 only decides what becomes of them).
    The counters of a buffer are read-modify-write only, so that a number is given once; they are not bounded here and pass on
    no view, and the relaxed counter [on_loan] is left out. A whole chunk is one
    variable, as is the rest of a buffer object. The pointer to its chunk is read
    once per logEvent instead of up to four times while the tenant's lock is held.
    The holder of the mutex may start, stop, take, read, drop and ask for
    statistics in any order, as a stopped callback may; in the callback run by a
    start it may not start or stop the log, and it does not log events (both are
    undefined behaviour in the code, see C46). A chunk holds [cap] events. *)
From Verif Require Import Base Spec.LogUse Model.Queue Model.Interleave Model.WeakMem.
Local Open Scope N_scope.

Definition log_enabled : loc := Loc 0 0.      (* trace_log.h:330 *)
Definition log_generation : loc := Loc 0 1.   (* trace_log.h:360 *)
Definition log_mutex : loc := Loc 1 0.        (* trace_log.h:341 *)
Definition tenant_lock (t : tid) : loc := Loc 2 (N.of_nat t). (* chunk_lock.h:133 *)
Definition log_buffer : loc := Loc 3 0.       (* trace_log.h:353 *)
(** trace_log.h:365 [registered_chunk_tenants], and the other members that are
    only accessed with the mutex held. *)
Definition log_tenants : loc := Loc 3 1.
Definition tenant_chunk (t : tid) : loc := Loc 4 (N.of_nat t). (* chunk_lock.h:185 *)
Definition buffer_obj (b : N) : loc := Loc 5 b.
Definition buffer_chunk (b : N) (i : nat) : loc := Loc (6 + b) (N.of_nat i).

(** Plain variables: the buffer pointer, the registered tenants, a chunk pointer
    (buffer and index), the events of a chunk. *)
Inductive lval :=
| VBuf (b : option N)
| VTenants (l : list tid)
| VPtr (c : option (N * nat))
| VEvents (l : list N)
| VNone.

Definition buf_in (v : lval) : option N := match v with VBuf b => b | _ => None end.
Definition tenants_in (v : lval) : list tid := match v with VTenants l => l | _ => [] end.
Definition ptr_in (v : lval) : option (N * nat) := match v with VPtr c => c | _ => None end.
Definition events_in (v : lval) : list N := match v with VEvents l => l | _ => [] end.

(** A start to be carried on with: ring or fixed, number of chunks. *)
Notation wish := (option (bool * nat)).

Inductive after := KIdle | KEnable (b : N) | KHeld (k : wish).

Inductive wlpc :=
| GIdle
(* logEvent, trace_log.cc:124-149; getChunkTenant, 256-301; replaceChunk, 303-309 *)
| LCheck (v : N)                         (* 127 *)
| LTry (v : N)                           (* 257, chunk_lock.cc:29-45 *)
| LInit (v : N)                          (* 281 *)
| LPtr (v : N)                           (* 285, thread_chunk.chunk *)
| LFull (v : N) (b : N) (i : nat)        (* 285, isFull *)
| LAgain (v : N) (c : option (N * nat))  (* 288 *)
| LOld (v : N) (c : option (N * nat))    (* 304-305, read of buffer *)
| LReturn (v : N) (b' b : N) (i : nat)   (* 305, returnChunk *)
| LNull (v : N)                          (* 306 *)
| LThird (v : N)                         (* 308, enabled *)
| LBuf (v : N)                           (* 308, buffer *)
| LGet (v : N) (b : N)                   (* 308, getChunk *)
| LDeq (v : N) (b : N)                   (* trace_buffer.cc:213 *)
| LReset (v : N) (b : N) (i : nat)       (* trace_buffer.cc:116, 219 *)
| LSet (v : N) (b : N) (i : nat)         (* 308, assignment *)
| LStore (v : N) (b : N) (i : nat)       (* 132 *)
| LUnlock                                (* end of 133, 148 *)
| LGen                                   (* 293 *)
| LDrop (g : N)                          (* 294 *)
(* maybe_stop, trace_log.cc:68-83 *)
| MTry (g : N)                           (* 72 *)
| MGen (g : N)                           (* 77 *)
(* the mutex held by a thread that has called start, stop, getBuffer, ... *)
| HWait                                  (* trace_log.cc:64, 98, 157, 242: the mutex *)
| Held (k : wish)                        (* with [Some _]: in the stopped callback of a stop in start *)
| HUnlock
| SEnabled (w : bool * nat)              (* start, 113 *)
| SExchange (k : wish)                   (* stop, 86 *)
| SList (k : wish)                       (* evictThreads, 312 *)
| SEvict (k : wish) (l : list tid)       (* 313 *)
| SNull (k : wish) (u : tid) (l : list tid)    (* 314 *)
| SUnlock (k : wish) (u : tid) (l : list tid)  (* 315 *)
| SNew (w : bool * nat)                  (* start, 117: the factory *)
| SMake (b : N) (i : nat)                (* the chunks of the new buffer *)
| SAssign (b : N)                        (* start, 117: the assignment *)
| SStore (b : N)                         (* start, 121 *)
| TEnabled (k : wish)                    (* getBuffer, 162 *)
| TMove (k : wish)                       (* getBuffer, 167 *)
| AList (k : wish)                       (* getStats, 241-254 *)
| ABuf (k : wish)
| AObj (k : wish) (b : N)
| GFree (b : N) (i : nat) (k : after)    (* the destructor of a buffer *)
(* registerThread, 188-209; deregisterThread, 211-234 *)
| RWait | RDo
| DWait | DDo
| DPtr                                   (* 220 *)
| DBuf (b : N) (i : nat)                 (* 221 *)
| DReturn (b' b : N) (i : nat)           (* 222 *)
| DNull                                  (* 224 *)
| DErase.                                (* 226-227 *)

Record wlog := {
  wl_mem : wmem lval;
  wl_pc : tid -> wlpc;
  wl_init : tid -> bool;             (* ChunkTenant::initialised: only its own thread accesses it *)
  wl_count : N;                      (* the buffers made so far are those below *)
  wl_shape : N -> bool * nat;        (* of a buffer: is it a ring, its number of chunks *)
  wl_issued : N -> nat;              (* trace_buffer.cc:178 / 287 *)
  wl_queue : N -> list (nat * view); (* the queue of a ring buffer *)
  wl_own : tid -> list N;            (* the buffers a thread has taken *)
  wl_hist : list use;
}.

(** trace_log.cc:38-44. *)
Definition wl_plain (x : loc) : lval :=
  match x with Loc 3 0 => VBuf None | Loc 3 1 => VTenants [] | Loc 4 _ => VPtr None | _ => VNone end.
Definition wl_new : wlog :=
  {| wl_mem := wmem_new (fun _ => 0) wl_plain; wl_pc := fun _ => GIdle; wl_init := fun _ => false; wl_count := 0;
     wl_shape := fun _ => (false, O); wl_issued := fun _ => O; wl_queue := fun _ => []; wl_own := fun _ => [];
     wl_hist := [] |}.

Definition goto (s : wlog) (m : wmem lval) (t : tid) (p : wlpc) (e : list use) : wlog :=
  {| wl_mem := m; wl_pc := tset (wl_pc s) t p; wl_init := wl_init s; wl_count := wl_count s; wl_shape := wl_shape s;
     wl_issued := wl_issued s; wl_queue := wl_queue s; wl_own := wl_own s; wl_hist := wl_hist s ++ e |}.
Definition set_init (s : wlog) (t : tid) (v : bool) : wlog :=
  {| wl_mem := wl_mem s; wl_pc := wl_pc s; wl_init := tset (wl_init s) t v; wl_count := wl_count s; wl_shape := wl_shape s;
     wl_issued := wl_issued s; wl_queue := wl_queue s; wl_own := wl_own s; wl_hist := wl_hist s |}.
Definition set_own (s : wlog) (t : tid) (l : list N) : wlog :=
  {| wl_mem := wl_mem s; wl_pc := wl_pc s; wl_init := wl_init s; wl_count := wl_count s; wl_shape := wl_shape s;
     wl_issued := wl_issued s; wl_queue := wl_queue s; wl_own := tset (wl_own s) t l; wl_hist := wl_hist s |}.
Definition set_buffer (s : wlog) (b : N) (n : nat) (q : list (nat * view)) : wlog :=
  {| wl_mem := wl_mem s; wl_pc := wl_pc s; wl_init := wl_init s; wl_count := wl_count s; wl_shape := wl_shape s;
     wl_issued := upd (wl_issued s) b n; wl_queue := upd (wl_queue s) b q; wl_own := wl_own s; wl_hist := wl_hist s |}.
(** A buffer is allocated. *)
Definition new_buffer (s : wlog) (w : bool * nat) : wlog :=
  {| wl_mem := wl_mem s; wl_pc := wl_pc s; wl_init := wl_init s; wl_count := N.succ (wl_count s);
     wl_shape := upd (wl_shape s) (wl_count s) w; wl_issued := upd (wl_issued s) (wl_count s) O;
     wl_queue := upd (wl_queue s) (wl_count s) []; wl_own := wl_own s; wl_hist := wl_hist s |}.

(** The buffer's own part of returnChunk, trace_buffer.cc:121-124 and 224-228: a
    ring queues the chunk, together with what the thread has heard of. *)
Definition give_back (s : wlog) (t : tid) (b : N) (i : nat) : wlog :=
  if fst (wl_shape s b) then set_buffer s b (wl_issued s b) (wl_queue s b ++ [(i, seen (wl_mem s) t)]) else s.

Inductive wlact :=
| CallLog (t : tid) (v : N)
| CallLock (t : tid)                 (* any call that takes the mutex first *)
| CallRegister (t : tid)
| CallDeregister (t : tid)
(* with the mutex held *)
| HeldStart (t : tid) (w : bool * nat)
| HeldStop (t : tid)
| HeldTake (t : tid)
| HeldStats (t : tid)
| HeldDone (t : tid)                 (* the mutex is released; or the stopped callback returns *)
(* with a buffer that was taken *)
| ReadChunk (t : tid) (b : N) (i : nat)
| DropBuffer (t : tid) (b : N)
| LogGo (t : tid) (c : nat) (f n : N). (* next access: the store read, the time of the store made *)

Definition continue (k : after) : wlpc :=
  match k with KIdle => GIdle | KEnable b => SStore b | KHeld k => Held k end.
Definition after_of (p : wlpc) : option after :=
  match p with GIdle => Some KIdle | Held k => Some (KHeld k) | _ => None end.

Fixpoint take_nth {A} (n : nat) (l : list A) : option (A * list A) :=
  match n, l with
  | _, [] => None
  | O, x :: r => Some (x, r)
  | S n, x :: r => match take_nth n r with Some (y, r') => Some (y, x :: r') | None => None end
  end.

Section WeakLog.
  Variable cap : nat.

  Definition wlstep (s : wlog) (a : wlact) : option wlog :=
    let m := wl_mem s in
    match a with
    | CallLog t v => match wl_pc s t with GIdle => Some (goto s m t (LCheck v) []) | _ => None end
    | CallLock t => match wl_pc s t with GIdle => Some (goto s m t HWait []) | _ => None end
    | CallRegister t => match wl_pc s t with GIdle => Some (goto s m t RWait []) | _ => None end
    | CallDeregister t => match wl_pc s t with GIdle => Some (goto s m t DWait []) | _ => None end
    | HeldStart t (r, n) =>
        match wl_pc s t with
        | Held None =>
            (* 100: trace_config is assigned; 104: too small a buffer is an error *)
            let m' := wwrite m t log_tenants (plain m log_tenants) in
            Some (goto s m' t (if (n =? 0)%nat then Held None else SEnabled (r, n)) [])
        | _ => None
        end
    | HeldStop t => match wl_pc s t with Held None => Some (goto s m t (SExchange None) []) | _ => None end
    | HeldTake t => match wl_pc s t with Held k => Some (goto s m t (TEnabled k) []) | _ => None end
    | HeldStats t => match wl_pc s t with Held k => Some (goto s m t (AList k) []) | _ => None end
    | HeldDone t =>
        match wl_pc s t with
        | Held None => Some (goto s m t HUnlock [])
        | Held (Some w) => Some (goto s m t (SNew w) [])
        | _ => None
        end
    | ReadChunk t b i =>
        match after_of (wl_pc s t) with
        | Some _ =>
            if existsb (N.eqb b) (wl_own s t) && (i <? snd (wl_shape s b))%nat then
              let '(_, m1) := wread m t (buffer_obj b) in
              let '(v, m2) := wread m1 t (buffer_chunk b i) in
              Some (goto s m2 t (wl_pc s t) [URead t b i (events_in v)])
            else None
        | None => None
        end
    | DropBuffer t b =>
        match after_of (wl_pc s t) with
        | Some k =>
            if existsb (N.eqb b) (wl_own s t) then
              Some (goto (set_own s t (remove N.eq_dec b (wl_own s t))) m t (GFree b 0 k) [UDestroyed t b])
            else None
        | None => None
        end
    | LogGo t c f n =>
        match wl_pc s t with
        | GIdle | Held _ => None
        | LCheck v =>
            match wload m t true log_enabled c with
            | Some (0, m') => Some (goto s m' t GIdle [])
            | Some (_, m') => Some (goto s m' t (LTry v) [])
            | None => None
            end
        | LTry v =>
            match wlock m t (tenant_lock t) with
            | Some m' => Some (goto s m' t (LInit v) [])
            | None => Some (goto s m t GIdle [])
            end
        | LInit v => Some (goto s m t (if wl_init s t then LPtr v else LUnlock) [])
        | LPtr v =>
            let '(p, m') := wread m t (tenant_chunk t) in
            Some (goto s m' t (match ptr_in p with Some (b, i) => LFull v b i | None => LAgain v None end) [])
        | LFull v b i =>
            let '(l, m') := wread m t (buffer_chunk b i) in
            Some (goto s m' t (if (length (events_in l) <? cap)%nat then LStore v b i else LAgain v (Some (b, i))) [])
        | LAgain v p =>
            match wload m t true log_enabled c with
            | Some (0, m') => Some (goto s m' t LUnlock [])
            | Some (_, m') => Some (goto s m' t (match p with None => LThird v | Some _ => LOld v p end) [])
            | None => None
            end
        | LOld v p =>
            match p with
            | None => None
            | Some (b, i) =>
                let '(q, m') := wread m t log_buffer in
                match buf_in q with
                | Some b' => Some (goto s m' t (LReturn v b' b i) [])
                | None => Some (goto s m' t LUnlock [UNull t])
                end
            end
        | LReturn v b' b i =>
            let '(_, m') := wread m t (buffer_obj b') in
            Some (goto (give_back s t b' i) m' t (LNull v) (UUsed t b' :: if b =? b' then [] else [UAstray t b']))
        | LNull v => Some (goto s (wwrite m t (tenant_chunk t) (VPtr None)) t (LThird v) [])
        | LThird v =>
            match wload m t true log_enabled c with
            | Some (0, m') => Some (goto s m' t LGen [])
            | Some (_, m') => Some (goto s m' t (LBuf v) [])
            | None => None
            end
        | LBuf v =>
            let '(q, m') := wread m t log_buffer in
            Some (goto s m' t (match buf_in q with Some b => LGet v b | None => LGen end) [])
        | LGet v b =>
            let '(_, m') := wread m t (buffer_obj b) in
            let i := wl_issued s b in
            Some (goto (set_buffer s b (S i) (wl_queue s b)) m' t
                    (if (i <? snd (wl_shape s b))%nat then LReset v b i else if fst (wl_shape s b) then LDeq v b else LGen)
                    [UUsed t b])
        | LDeq v b =>
            match take_nth c (wl_queue s b) with
            | Some ((i, w), q) =>
                let m1 := with_seen m t (vjoin (seen m t) w) in
                let '(_, m') := wread m1 t (buffer_obj b) in
                Some (goto (set_buffer s b (wl_issued s b) q) m' t (LReset v b i) [UUsed t b])
            | None => None
            end
        | LReset v b i => Some (goto s (wwrite m t (buffer_chunk b i) (VEvents [])) t (LSet v b i) [UCleared t b i])
        | LSet v b i => Some (goto s (wwrite m t (tenant_chunk t) (VPtr (Some (b, i)))) t (LStore v b i) [])
        | LStore v b i =>
            let m' := wwrite m t (buffer_chunk b i) (VEvents (events_in (plain m (buffer_chunk b i)) ++ [v])) in
            Some (goto s m' t LUnlock [UStored t b i v])
        | LUnlock => Some (goto s (wunlock m t (tenant_lock t)) t GIdle [])
        | LGen =>
            match wload m t true log_generation c with
            | Some (g, m') => Some (goto s m' t (LDrop g) [])
            | None => None
            end
        | LDrop g => Some (goto s (wunlock m t (tenant_lock t)) t (MTry g) [])
        | MTry g =>
            match wlock m t log_mutex with
            | Some m' => Some (goto s m' t (MGen g) [])
            | None => Some (goto s m t GIdle [])
            end
        | MGen g =>
            match wload m t true log_generation c with
            | Some (g', m') => Some (goto s m' t (if g =? g' then SExchange None else HUnlock) [])
            | None => None
            end
        | HWait =>
            match wlock m t log_mutex with
            | Some m' => Some (goto s m' t (Held None) [])
            | None => None
            end
        | HUnlock => Some (goto s (wunlock m t log_mutex) t GIdle [])
        | SEnabled w =>
            match wload m t true log_enabled c with
            | Some (0, m') => Some (goto s m' t (SNew w) [])
            | Some (_, m') => Some (goto s m' t (SExchange (Some w)) [])
            | None => None
            end
        | SExchange k =>
            match nth_error (hist m log_enabled) c with
            | None => None
            | Some g =>
                match wrmw m t true true log_enabled g 0 n with
                | Some m' => Some (goto s m' t (if m_val g =? 0 then Held k else SList k) [])
                | None => None
                end
            end
        | SList k =>
            let '(v, m') := wread m t log_tenants in
            Some (goto s m' t (SEvict k (tenants_in v)) [])
        | SEvict k [] => Some (goto s m t (Held k) [])
        | SEvict k (u :: l) =>
            match wlock m t (tenant_lock u) with
            | Some m' => Some (goto s m' t (SNull k u l) [])
            | None => None
            end
        | SNull k u l => Some (goto s (wwrite m t (tenant_chunk u) (VPtr None)) t (SUnlock k u l) [])
        | SUnlock k u l => Some (goto s (wunlock m t (tenant_lock u)) t (SEvict k l) [])
        | SNew w =>
            match wfetch_add m t true true log_generation 1 c n with
            | Some (_, m') =>
                let b := wl_count s in
                Some (goto (new_buffer s w) (wwrite m' t (buffer_obj b) VNone) t (SMake b 0) [UMade t b])
            | None => None
            end
        | SMake b i =>
            if (i <? snd (wl_shape s b))%nat
            then Some (goto s (wwrite m t (buffer_chunk b i) (VEvents [])) t (SMake b (S i)) [])
            else Some (goto s m t (SAssign b) [])
        | SAssign b =>
            let '(q, m1) := wread m t log_buffer in
            let m' := wwrite m1 t log_buffer (VBuf (Some b)) in
            Some (match buf_in q with
                  | Some b0 => goto s m' t (GFree b0 0 (KEnable b)) [UDestroyed t b0]
                  | None => goto s m' t (SStore b) []
                  end)
        | SStore b =>
            match wstore m t true log_enabled 1 f n with
            | Some m' => Some (goto s m' t (Held None) [])
            | None => None
            end
        | TEnabled k =>
            match wload m t true log_enabled c with
            | Some (0, m') => Some (goto s m' t (TMove k) [])
            | Some (_, m') => Some (goto s m' t (Held k) [])
            | None => None
            end
        | TMove k =>
            let '(q, m1) := wread m t log_buffer in
            let m' := wwrite m1 t log_buffer (VBuf None) in
            Some (match buf_in q with
                  | Some b => goto (set_own s t (wl_own s t ++ [b])) m' t (Held k) [UTaken t b]
                  | None => goto s m' t (Held k) []
                  end)
        | AList k => let '(_, m') := wread m t log_tenants in Some (goto s m' t (ABuf k) [])
        | ABuf k =>
            let '(q, m') := wread m t log_buffer in
            Some (goto s m' t (match buf_in q with Some b => AObj k b | None => Held k end) [])
        | AObj k b => let '(_, m') := wread m t (buffer_obj b) in Some (goto s m' t (Held k) [UUsed t b])
        | GFree b i k =>
            if (i <? snd (wl_shape s b))%nat
            then Some (goto s (wwrite m t (buffer_chunk b i) VNone) t (GFree b (S i) k) [])
            else Some (goto s (wwrite m t (buffer_obj b) VNone) t (continue k) [])
        | RWait =>
            match wlock m t log_mutex with
            | Some m' => Some (goto s m' t RDo [])
            | None => None
            end
        | RDo =>
            if wl_init s t then Some (goto s m t HUnlock [])
            else
              let '(v, m1) := wread m t log_tenants in
              Some (goto (set_init s t true) (wwrite m1 t log_tenants (VTenants (t :: tenants_in v))) t HUnlock [])
        | DWait =>
            match wlock m t log_mutex with
            | Some m' => Some (goto s m' t DDo [])
            | None => None
            end
        | DDo => Some (goto s m t (if wl_init s t then DPtr else HUnlock) [])
        | DPtr =>
            let '(p, m') := wread m t (tenant_chunk t) in
            Some (goto s m' t (match ptr_in p with Some (b, i) => DBuf b i | None => DErase end) [])
        | DBuf b i =>
            let '(q, m') := wread m t log_buffer in
            Some (goto s m' t (match buf_in q with Some b' => DReturn b' b i | None => DNull end) [])
        | DReturn b' b i =>
            let '(_, m') := wread m t (buffer_obj b') in
            Some (goto (give_back s t b' i) m' t DNull (UUsed t b' :: if b =? b' then [] else [UAstray t b']))
        | DNull => Some (goto s (wwrite m t (tenant_chunk t) (VPtr None)) t DErase [])
        | DErase =>
            let '(v, m1) := wread m t log_tenants in
            Some (goto (set_init s t false) (wwrite m1 t log_tenants (VTenants (remove Nat.eq_dec t (tenants_in v)))) t HUnlock [])
        end
    end.

  Definition wlog_run (sched : list wlact) : wlog := run wlstep wl_new sched.
End WeakLog.
