(** Model of src/trace_log.cc, include/phosphor/trace_log.h and the trace macros
    of phosphor.h / phosphor-internal.h, used by any number of threads.

    The code of each function is a tree of actions ([cmd]); each action is one
    access to shared memory (or to memory that only the running thread can
    touch). A scheduler picks the thread that performs its next action.

    Simplifications:
    - memory is sequentially consistent; data races are ruled out separately;
    - the lock of a tenant, the category registry and the queue of a ring buffer
      are used through their contracts (C28, C33, C25-C27): each of their
      operations is one action. A queue never refuses an element (its capacity
      is at least the number of chunks, C22). Model/LogQueue.v has the queue's
      own steps and Model/LogRegistry.v the registry's, and C96 and C97 say they
      make no difference, except that a status may be off for a while when it is
      being changed ([status_seen]);
    - [issued], [actual_count] and [generation] do not wrap around (2^64);
    - operating-system thread ids are the thread numbers; a thread does not end
      while registered;
    - buffers are the two built-in classes; a user's factory returns one of
      these, null, or throws;
    - the event a logEvent call records (with its time stamp) is given with the
      call. *)
From Verif Require Import Base Model.StringUtils Model.Event Model.Queue Model.Buffer Model.Config Model.Registry
  Model.Interleave Spec.LogHistory.

(** * State *)

Inductive bkind := Fixed | Ring.

(** Who may use a buffer: the log, whoever retrieved it, nobody. *)
Inductive bowner := Mine | Given | Gone.

(** FixedTraceBuffer and RingTraceBuffer (trace_buffer.cc:175-181, 285-293);
    [b_issued] is issued / actual_count. *)
Record buf := {
  b_kind : bkind;
  b_size : N;
  b_gen : N;
  b_issued : N;
  b_loan : N;
  b_queue : list N;
  b_chunk : N -> chunk;
  b_owner : bowner;
}.

(** The state of a ChunkLock (chunk_lock.h:126-133). *)
Inductive lockst := Free | BySlave | ByMaster (t : tid).

(** ChunkTenant (chunk_lock.h:158-193). *)
Record tenant := {
  t_lock : lockst;
  t_chunk : option (bid * N);
  t_init : bool;
}.

(** What runs when the program's own code holds the lock: a stop callback, or a
    section under std::lock_guard<TraceLog>. [norestart]: called from the stop
    inside start(), or from the destructor. *)
Record hook := { h_norestart : bool }.

(** The result of the issue counter, trace_buffer.cc:111-114 and 208-214. *)
Inductive issue := IGot (i : N) | IFull | IWait.

Inductive act :=
| ALdEnabled
| AXchg (w : why)
| AStEnabled (g : N) (m : made)
| ALock | ATryLock | AUnlock (e : hev)
| ALdGen | AIncGen
| ABufGet | ABufTake | ABufSet (o : option bid)
| AFactory (c : config) (g n : N)
| AIssue (b : bid) | ADeq (b : bid) | AReset (b : bid) (i : N) | ALoan (b : bid) (up : bool) | AReturn (b : bid) (i : N)
| ATryTenant | AUnTenant | AMaster (u : tid) | AUnMaster (u : tid)
| AChunkGet | AChunkSet (o : option (bid * N)) | AEvict (u : tid)
| AInitGet | AReg (v : bool)
| AFull (b : bid) (i : N) | AStore (b : bid) (i : N) (e : event)
| ADisableAll | AUpdate (en dis : list bytes)
| AGetStatus (category : bytes) | AStatus (i : nat) | ASiteGet (site : nat) | ASiteSet (site : nat) (i : nat)
| ACfgSet (c : config) | ACfgGet
| ASnap | APick (l : list tid)
| ANameSet (n : bytes) | ANameDel | ANames | ADeregAdd | ADeregDel | AClear
| AStats
| AEmit (e : hev) | ANote (e : hev)
| AHook (h : hook)
| AFree | ATerminate
| ACrash.

Definition ans (a : act) : Type :=
  match a with
  | ALdEnabled | AXchg _ | ATryLock | ATryTenant | AInitGet | AFull _ _ | AStatus _ => bool
  | ALdGen | AIncGen | ADeq _ => N
  | ABufGet | ABufTake => option bid
  | AFactory _ _ _ => made
  | AIssue _ => issue
  | AChunkGet => option (bid * N)
  | AStore _ _ _ => option exn
  | AGetStatus _ => nat
  | ASiteGet _ => option nat
  | ACfgGet => config
  | ASnap => list tid
  | APick _ => tid
  | ANames => list (tid * bytes)
  | AStats => lstats
  | AHook _ => option exn
  | _ => unit
  end.

Inductive cmd :=
| Ret
| Act (a : act) (k : ans a -> cmd).

Record st := {
  enabled : bool;
  mtx : option tid;
  gen : N;
  bufp : option bid;
  heap : bid -> buf;
  nbuf : nat;
  ten : tid -> tenant;
  regd : list tid;
  cfg : config;
  names : list (tid * bytes);
  dereg : list tid;
  reg : registry;
  sites : nat -> option nat;
  code : tid -> cmd;
  busy : list tid;
  closing : option tid;
  hist : list hev;
  bad : bool;
}.

Notation "x <- a ;; k" := (Act a (fun x => k)) (at level 100, a at next level, right associativity).
Notation "a ;;; k" := (Act a (fun _ => k)) (at level 100, right associativity).

(** * Code *)

Section Code.
  (** sizeof(TraceChunk). *)
  Variable csz : N.
  (** The category each trace point is compiled with. *)
  Variable site_cat : nat -> bytes.

  (** trace_log.cc:311-317 [evictThreads]: the set is visited in any order. *)
  Fixpoint evict (n : nat) (left : list tid) (k : cmd) : cmd :=
    match n with
    | O => k
    | S n' =>
        u <- APick left;;
        AMaster u;;;
        AEvict u;;;
        AUnMaster u;;;
        evict n' (del u left) k
    end.

  (** trace_log.cc:85-95 [stop]; [norestart] only marks the hook. *)
  Definition stop_lh (t : tid) (norestart : bool) (w : why) (k : option exn -> cmd) : cmd :=
    was <- AXchg w;;
    if was then
      ADisableAll;;;
      l <- ASnap;;
      evict (length l) l (
      c <- ACfgGet;;
      let cb := if negb (is_shutdown w) || cf_stop c then cf_callback c else None in
      AEmit (Callback t cb);;;
      match cb with
      | Some _ => r <- AHook {| h_norestart := norestart |};; k r
      | None => k None
      end)
    else k None.

  (** trace_log.cc:102-122 [start]. *)
  Definition start_lh (t : tid) (c : config) (k : option exn -> cmd) : cmd :=
    ACfgSet c;;;
    (let n := (cf_size c / csz)%N in
     if (n =? 0)%N then k (Some InvalidArgument)
     else
       on <- ALdEnabled;;
       let go :=
         g <- AIncGen;;
         m <- AFactory c g n;;
         match m with
         | MadeThrow x => k (Some x)
         | _ =>
             ABufSet (made_buffer m);;;
             AUpdate (cf_enabled c) (cf_disabled c);;;
             AClear;;;
             AStEnabled g m;;;
             k None
         end in
       if on then stop_lh t true Restarted (fun r => match r with Some x => k (Some x) | None => go end)
       else go).

  Definition out_of (r : option exn) : out := match r with Some x => RThrow x | None => RUnit end.

  (** std::lock_guard around a body that ends with [done]. *)
  Definition locked (t : tid) (o : op) (body : (out -> cmd) -> cmd) : cmd :=
    ALock;;;
    body (fun r => AUnlock (Done t o r);;; Ret).

  (** trace_log.cc:161-168 [getBuffer]. *)
  Definition getBuffer_lh (k : out -> cmd) : cmd :=
    on <- ALdEnabled;;
    if on then k (RThrow LogicError)
    else b <- ABufTake;; k (RBuf b).

  (** trace_log.cc:175-182 [getTraceContext]; the buffer is moved before the
      names are copied (the order of the two is not observable). *)
  Definition getTraceContext_lh (k : out -> cmd) : cmd :=
    on <- ALdEnabled;;
    if on then k (RThrow LogicError)
    else b <- ABufTake;; ns <- ANames;; k (RCtx b ns).

  (** trace_buffer.cc:110-119 and 205-222 [getChunk]. *)
  Definition getChunk (b : bid) (k : option (bid * N) -> cmd) : cmd :=
    r <- AIssue b;;
    match r with
    | IGot i => AReset b i;;; ALoan b true;;; k (Some (b, i))
    | IFull => k None
    | IWait => i <- ADeq b;; AReset b i;;; ALoan b true;;; k (Some (b, i))
    end.

  (** trace_buffer.cc:121-124 and 224-228 [returnChunk]. *)
  Definition returnChunk (b : bid) (i : N) (k : cmd) : cmd :=
    AReturn b i;;;
    ALoan b false;;;
    k.

  (** trace_log.cc:303-309 [replaceChunk]. *)
  Definition replaceChunk (k : bool -> cmd) : cmd :=
    let rest :=
      on <- ALdEnabled;;
      if negb on then k false
      else
        b <- ABufGet;;
        match b with
        | None => k false
        | Some _ =>
            b <- ABufGet;;
            match b with
            | None => ACrash;;; Ret
            | Some b =>
                getChunk b (fun c =>
                AChunkSet c;;;
                k (match c with Some _ => true | None => false end))
            end
        end in
    c <- AChunkGet;;
    match c with
    | Some (b0, i) =>
        b <- ABufGet;;
        match b with
        | None => ACrash;;; Ret
        | Some b => returnChunk b i (AChunkSet None;;; rest)
        end
    | None => rest
    end.

  (** trace_log.cc:68-83 [maybe_stop]. *)
  Definition maybe_stop (t : tid) (g : N) (k : option exn -> cmd) : cmd :=
    got <- ATryLock;;
    if got then
      g' <- ALdGen;;
      if (g' =? g)%N then stop_lh t false Exhausted (fun r => AUnlock (StopTried t Exhausted (out_of r));;; k r)
      else AUnlock (StopTried t Exhausted RUnit);;; k None
    else k None.

  (** trace_log.cc:256-301 [getChunkTenant] and 124-149 [logEvent]. *)
  Definition logEvent (t : tid) (e : event) (k : option exn -> cmd) : cmd :=
    on <- ALdEnabled;;
    if negb on then k None
    else
      got <- ATryTenant;;
      if negb got then k None
      else
        ini <- AInitGet;;
        if negb ini then AUnTenant;;; k None
        else
          let store :=
            c <- AChunkGet;;
            match c with
            | None => ACrash;;; Ret
            | Some (b, i) => x <- AStore b i e;; AUnTenant;;; k x
            end in
          let refill :=
            on <- ALdEnabled;;
            if negb on then AUnTenant;;; k None
            else replaceChunk (fun ok =>
              if ok then store
              else g <- ALdGen;; AUnTenant;;; maybe_stop t g k) in
          c <- AChunkGet;;
          match c with
          | None => refill
          | Some (b, i) => full <- AFull b i;; if full then refill else store
          end.

  (** phosphor-internal.h:34-39, 70-100: the category pointer cached at the trace
      point, its lookup, and the gate. *)
  Definition macro (t : tid) (site : nat) (e : event) (k : option exn -> cmd) : cmd :=
    p <- ASiteGet site;;
    let gate i := on <- AStatus i;; if on then logEvent t e k else k None in
    match p with
    | Some i => gate i
    | None => i <- AGetStatus (site_cat site);; ASiteSet site i;;; gate i
    end.

  (** The code of each call. *)
  Definition code_of (t : tid) (o : op) : cmd :=
    match o with
    | OStart c => locked t o (fun k => start_lh t c (fun r => k (out_of r)))
    | OConfigure None => locked t o (fun k => k RUnit)
    | OConfigure (Some c) => locked t o (fun k => start_lh t c (fun r => k (out_of r)))
    | OStop s => locked t o (fun k => stop_lh t false (Asked s) (fun r => k (out_of r)))
    | OGetBuffer => locked t o getBuffer_lh
    | OGetContext => locked t o getTraceContext_lh
    | OIsEnabled => on <- ALdEnabled;; ANote (Done t o (RBool on));;; Ret
    (* trace_log.cc:188-209; insertion into the set and the thread-local flag
       are one action *)
    | ORegister n => locked t o (fun k =>
        ini <- AInitGet;;
        if ini then k (RThrow LogicError)
        else
          AReg true;;;
          if is_nil n then k RUnit
          else ANameSet n;;; ADeregDel;;; k RUnit)
    (* trace_log.cc:211-234 *)
    | ODeregister => locked t o (fun k =>
        ini <- AInitGet;;
        if negb ini then k (RThrow LogicError)
        else
          let rest :=
            AReg false;;;
            on <- ALdEnabled;;
            if on then ADeregAdd;;; k RUnit else ANameDel;;; k RUnit in
          c <- AChunkGet;;
          match c with
          | Some (_, i) =>
              b <- ABufGet;;
              match b with
              | Some b => returnChunk b i (AChunkSet None;;; rest)
              | None => AChunkSet None;;; rest
              end
          | None => rest
          end)
    | OGetConfig => locked t o (fun k => c <- ACfgGet;; k (RCfg c))
    | OGetStats => locked t o (fun k => s <- AStats;; k (RStats s))
    | OGetStatus category => i <- AGetStatus category;; ANote (Done t o (RSlot i));;; Ret
    | OLog e => logEvent t e (fun r => ANote (Done t o (out_of r));;; Ret)
    | OMacro site e => macro t site e (fun r => ANote (Done t o (out_of r));;; Ret)
    | OLocked => locked t o (fun k => r <- AHook {| h_norestart := false |};; k (out_of r))
    (* trace_log.cc:46-48; destructors are noexcept *)
    | ODestroy => ALock;;; stop_lh t true (Asked true) (fun r => AUnlock (StopTried t (Asked true) (out_of r));;;
        match r with Some _ => ATerminate;;; Ret | None => AFree;;; ANote (Done t o RUnit);;; Ret end)
    end.

  (** Calls made with the lock held; then back to [k]. *)
  Definition hcode (t : tid) (h : hop) (k : cmd) : cmd :=
    let fin r := AEmit (Nested t h r);;; k in
    match h with
    | HStart c => start_lh t c (fun r => fin (out_of r))
    | HStop s => stop_lh t false (Asked s) (fun r => fin (out_of r))
    | HGetBuffer => getBuffer_lh fin
    | HGetContext => getTraceContext_lh fin
    | HIsEnabled => on <- ALdEnabled;; fin (RBool on)
    | HLog e => logEvent t e (fun r => fin (out_of r))
    end.
End Code.

(** * Execution *)

Definition set_enabled (s : st) (v : bool) : st := {| enabled := v; mtx := mtx s; gen := gen s; bufp := bufp s; heap := heap s; nbuf := nbuf s; ten := ten s; regd := regd s; cfg := cfg s; names := names s; dereg := dereg s; reg := reg s; sites := sites s; code := code s; busy := busy s; closing := closing s; hist := hist s; bad := bad s |}.
Definition set_mtx (s : st) (v : option tid) : st := {| enabled := enabled s; mtx := v; gen := gen s; bufp := bufp s; heap := heap s; nbuf := nbuf s; ten := ten s; regd := regd s; cfg := cfg s; names := names s; dereg := dereg s; reg := reg s; sites := sites s; code := code s; busy := busy s; closing := closing s; hist := hist s; bad := bad s |}.
Definition set_gen (s : st) (v : N) : st := {| enabled := enabled s; mtx := mtx s; gen := v; bufp := bufp s; heap := heap s; nbuf := nbuf s; ten := ten s; regd := regd s; cfg := cfg s; names := names s; dereg := dereg s; reg := reg s; sites := sites s; code := code s; busy := busy s; closing := closing s; hist := hist s; bad := bad s |}.
Definition set_bufp (s : st) (v : option bid) : st := {| enabled := enabled s; mtx := mtx s; gen := gen s; bufp := v; heap := heap s; nbuf := nbuf s; ten := ten s; regd := regd s; cfg := cfg s; names := names s; dereg := dereg s; reg := reg s; sites := sites s; code := code s; busy := busy s; closing := closing s; hist := hist s; bad := bad s |}.
Definition set_heap (s : st) (v : bid -> buf) : st := {| enabled := enabled s; mtx := mtx s; gen := gen s; bufp := bufp s; heap := v; nbuf := nbuf s; ten := ten s; regd := regd s; cfg := cfg s; names := names s; dereg := dereg s; reg := reg s; sites := sites s; code := code s; busy := busy s; closing := closing s; hist := hist s; bad := bad s |}.
Definition set_nbuf (s : st) (v : nat) : st := {| enabled := enabled s; mtx := mtx s; gen := gen s; bufp := bufp s; heap := heap s; nbuf := v; ten := ten s; regd := regd s; cfg := cfg s; names := names s; dereg := dereg s; reg := reg s; sites := sites s; code := code s; busy := busy s; closing := closing s; hist := hist s; bad := bad s |}.
Definition set_ten (s : st) (v : tid -> tenant) : st := {| enabled := enabled s; mtx := mtx s; gen := gen s; bufp := bufp s; heap := heap s; nbuf := nbuf s; ten := v; regd := regd s; cfg := cfg s; names := names s; dereg := dereg s; reg := reg s; sites := sites s; code := code s; busy := busy s; closing := closing s; hist := hist s; bad := bad s |}.
Definition set_regd (s : st) (v : list tid) : st := {| enabled := enabled s; mtx := mtx s; gen := gen s; bufp := bufp s; heap := heap s; nbuf := nbuf s; ten := ten s; regd := v; cfg := cfg s; names := names s; dereg := dereg s; reg := reg s; sites := sites s; code := code s; busy := busy s; closing := closing s; hist := hist s; bad := bad s |}.
Definition set_cfg (s : st) (v : config) : st := {| enabled := enabled s; mtx := mtx s; gen := gen s; bufp := bufp s; heap := heap s; nbuf := nbuf s; ten := ten s; regd := regd s; cfg := v; names := names s; dereg := dereg s; reg := reg s; sites := sites s; code := code s; busy := busy s; closing := closing s; hist := hist s; bad := bad s |}.
Definition set_names (s : st) (v : list (tid * bytes)) : st := {| enabled := enabled s; mtx := mtx s; gen := gen s; bufp := bufp s; heap := heap s; nbuf := nbuf s; ten := ten s; regd := regd s; cfg := cfg s; names := v; dereg := dereg s; reg := reg s; sites := sites s; code := code s; busy := busy s; closing := closing s; hist := hist s; bad := bad s |}.
Definition set_dereg (s : st) (v : list tid) : st := {| enabled := enabled s; mtx := mtx s; gen := gen s; bufp := bufp s; heap := heap s; nbuf := nbuf s; ten := ten s; regd := regd s; cfg := cfg s; names := names s; dereg := v; reg := reg s; sites := sites s; code := code s; busy := busy s; closing := closing s; hist := hist s; bad := bad s |}.
Definition set_reg (s : st) (v : registry) : st := {| enabled := enabled s; mtx := mtx s; gen := gen s; bufp := bufp s; heap := heap s; nbuf := nbuf s; ten := ten s; regd := regd s; cfg := cfg s; names := names s; dereg := dereg s; reg := v; sites := sites s; code := code s; busy := busy s; closing := closing s; hist := hist s; bad := bad s |}.
Definition set_sites (s : st) (v : nat -> option nat) : st := {| enabled := enabled s; mtx := mtx s; gen := gen s; bufp := bufp s; heap := heap s; nbuf := nbuf s; ten := ten s; regd := regd s; cfg := cfg s; names := names s; dereg := dereg s; reg := reg s; sites := v; code := code s; busy := busy s; closing := closing s; hist := hist s; bad := bad s |}.
Definition set_code (s : st) (v : tid -> cmd) : st := {| enabled := enabled s; mtx := mtx s; gen := gen s; bufp := bufp s; heap := heap s; nbuf := nbuf s; ten := ten s; regd := regd s; cfg := cfg s; names := names s; dereg := dereg s; reg := reg s; sites := sites s; code := v; busy := busy s; closing := closing s; hist := hist s; bad := bad s |}.
Definition set_busy (s : st) (v : list tid) : st := {| enabled := enabled s; mtx := mtx s; gen := gen s; bufp := bufp s; heap := heap s; nbuf := nbuf s; ten := ten s; regd := regd s; cfg := cfg s; names := names s; dereg := dereg s; reg := reg s; sites := sites s; code := code s; busy := v; closing := closing s; hist := hist s; bad := bad s |}.
Definition set_closing (s : st) (v : option tid) : st := {| enabled := enabled s; mtx := mtx s; gen := gen s; bufp := bufp s; heap := heap s; nbuf := nbuf s; ten := ten s; regd := regd s; cfg := cfg s; names := names s; dereg := dereg s; reg := reg s; sites := sites s; code := code s; busy := busy s; closing := v; hist := hist s; bad := bad s |}.
Definition set_hist (s : st) (v : list hev) : st := {| enabled := enabled s; mtx := mtx s; gen := gen s; bufp := bufp s; heap := heap s; nbuf := nbuf s; ten := ten s; regd := regd s; cfg := cfg s; names := names s; dereg := dereg s; reg := reg s; sites := sites s; code := code s; busy := busy s; closing := closing s; hist := v; bad := bad s |}.
Definition set_bad (s : st) (v : bool) : st := {| enabled := enabled s; mtx := mtx s; gen := gen s; bufp := bufp s; heap := heap s; nbuf := nbuf s; ten := ten s; regd := regd s; cfg := cfg s; names := names s; dereg := dereg s; reg := reg s; sites := sites s; code := code s; busy := busy s; closing := closing s; hist := hist s; bad := v |}.
Definition set_bissued (b : buf) (v : N) : buf := {| b_kind := b_kind b; b_size := b_size b; b_gen := b_gen b; b_issued := v; b_loan := b_loan b; b_queue := b_queue b; b_chunk := b_chunk b; b_owner := b_owner b |}.
Definition set_bloan (b : buf) (v : N) : buf := {| b_kind := b_kind b; b_size := b_size b; b_gen := b_gen b; b_issued := b_issued b; b_loan := v; b_queue := b_queue b; b_chunk := b_chunk b; b_owner := b_owner b |}.
Definition set_bqueue (b : buf) (v : list N) : buf := {| b_kind := b_kind b; b_size := b_size b; b_gen := b_gen b; b_issued := b_issued b; b_loan := b_loan b; b_queue := v; b_chunk := b_chunk b; b_owner := b_owner b |}.
Definition set_bchunk (b : buf) (v : N -> chunk) : buf := {| b_kind := b_kind b; b_size := b_size b; b_gen := b_gen b; b_issued := b_issued b; b_loan := b_loan b; b_queue := b_queue b; b_chunk := v; b_owner := b_owner b |}.
Definition set_bowner (b : buf) (v : bowner) : buf := {| b_kind := b_kind b; b_size := b_size b; b_gen := b_gen b; b_issued := b_issued b; b_loan := b_loan b; b_queue := b_queue b; b_chunk := b_chunk b; b_owner := v |}.
Definition set_tlock (b : tenant) (v : lockst) : tenant := {| t_lock := v; t_chunk := t_chunk b; t_init := t_init b |}.
Definition set_tchunk (b : tenant) (v : option (bid * N)) : tenant := {| t_lock := t_lock b; t_chunk := v; t_init := t_init b |}.
Definition set_tinit (b : tenant) (v : bool) : tenant := {| t_lock := t_lock b; t_chunk := t_chunk b; t_init := v |}.

(** trace_buffer.cc:130-140 and 234-245 [getStats]. *)
Definition buf_stats (b : buf) : bstats :=
  let count := N.min (b_issued b) (b_size b) in
  {| st_name := match b_kind b with Fixed => $"FixedTraceBuffer" | Ring => $"RingTraceBuffer" end;
     st_is_full := match b_kind b with Fixed => (b_size b <=? b_issued b)%N | Ring => false end;
     st_chunk_count := count;
     st_total_loaned := match b_kind b with Fixed => count | Ring => b_issued b end;
     st_loaned := b_loan b; st_size := b_size b; st_gen := b_gen b |}.

(** What iteration over a buffer sees (trace_buffer.cc:154-173, 259-283). *)
Definition buf_view (b : buf) : Buffer.view := {| v_count := N.min (b_issued b) (b_size b); v_chunk := b_chunk b |}.

(** trace_log.cc:241-254 [getStats]. *)
Definition log_stats (s : st) : lstats :=
  {| ls_on := enabled s;
     ls_has_buffer := match bufp s with Some _ => true | None => false end;
     ls_names := length (names s); ls_dereg := length (dereg s); ls_tenants := length (regd s);
     ls_groups := registry_stats (reg s);
     ls_buffer := option_map (fun b => buf_stats (heap s b)) (bufp s) |}.

(** What the scheduler decides. *)
Inductive choice :=
| CNone
| CFail                                       (* try_lock fails spuriously; a status is not switched on yet, or already off *)
| CFixed (n : N) (mem : N -> chunk)           (* the factory returns a fixed buffer in this memory *)
| CRing (n : N) (mem : N -> chunk)
| CNull
| CThrow (x : exn)
| CPick (u : tid).

Inductive result (A : Type) := Blocked | Crashed | Next (s : st) (r : A).
Arguments Blocked {A}. Arguments Crashed {A}. Arguments Next {A} s r.

Definition emit (s : st) (e : hev) : st := set_hist s (hist s ++ [e]).
Definition put_ten (s : st) (t : tid) (x : tenant) : st := set_ten s (tset (ten s) t x).
Definition put_buf (s : st) (b : bid) (x : buf) : st := set_heap s (tset (heap s) b x).

(** A buffer may be used only while the log owns it. *)
Definition with_buf {A} (s : st) (b : bid) (f : buf -> result A) : result A :=
  match b_owner (heap s b) with Mine => f (heap s b) | _ => Crashed end.

Definition free_buf (s : st) (o : option bid) : st :=
  match o with Some b => put_buf s b (set_bowner (heap s b) Gone) | None => s end.

Definition give_buf (s : st) (o : option bid) : st :=
  match o with Some b => put_buf s b (set_bowner (heap s b) Given) | None => s end.

Definition buf_new (k : bkind) (g n : N) (mem : N -> chunk) : buf :=
  {| b_kind := k; b_size := n; b_gen := g; b_issued := 0; b_loan := 0; b_queue := []; b_chunk := mem; b_owner := Mine |}.

Definition owns (s : st) (t : tid) : bool := match mtx s with Some u => Nat.eqb u t | None => false end.

(** What a trace point finds. The statuses are switched one after the other
    (category_registry.cc:102-126): while a trace is being started or stopped,
    one may still or already be off. *)
Definition status_seen (s : st) (ch : choice) (i : nat) : bool :=
  match ch, enabled s, mtx s with
  | CFail, false, Some _ => false
  | _, _, _ => rg_status (reg s) i
  end.

Section Exec.
  (** chunk.max_size(). *)
  Variable cap : N.

  (** The factory call: the built-in factories allocate n chunks or throw. *)
  Definition exec_factory (s : st) (t : tid) (ch : choice) (c : config) (g n : N) : result made :=
    let make k n' mem (m : made) :=
      Next (emit (set_nbuf (put_buf s (nbuf s) (buf_new k g n' mem)) (S (nbuf s))) (Made t g n m)) m in
    match ch, cf_factory c with
    | CFixed n' mem, make_fixed_buffer => if (n' =? n)%N then make Fixed n' mem (MadeFixed (nbuf s) n') else Blocked
    | CRing n' mem, make_ring_buffer => if (n' =? n)%N then make Ring n' mem (MadeRing (nbuf s) n') else Blocked
    | CFixed n' mem, user_factory _ => make Fixed n' mem (MadeFixed (nbuf s) n')
    | CRing n' mem, user_factory _ => make Ring n' mem (MadeRing (nbuf s) n')
    | CNull, user_factory _ => Next (emit s (Made t g n MadeNull)) MadeNull
    | CThrow x, _ => Next (emit s (Made t g n (MadeThrow x))) (MadeThrow x)
    | _, _ => Blocked
    end.

  Definition exec (s : st) (t : tid) (ch : choice) (a : act) : result (ans a) :=
    match a return result (ans a) with
    | ALdEnabled => Next s (enabled s)
    | AXchg w => if enabled s then Next (emit (set_enabled s false) (Off t w)) true else Next s false
    | AStEnabled g m => Next (emit (set_enabled s true) (On t g m)) tt
    | ALock => match mtx s with None => Next (set_mtx s (Some t)) tt | Some u => if Nat.eqb u t then Crashed else Blocked end
    | ATryLock =>
        match mtx s, ch with
        | None, CFail => Next s false
        | None, _ => Next (set_mtx s (Some t)) true
        | Some u, _ => if Nat.eqb u t then Crashed else Next s false
        end
    | AUnlock e => if owns s t then Next (emit (set_mtx s None) e) tt else Crashed
    | ALdGen => Next s (gen s)
    | AIncGen => Next (set_gen s (gen s + 1)%N) (gen s)
    | ABufGet => Next s (bufp s)
    | ABufTake => Next (set_bufp (give_buf s (bufp s)) None) (bufp s)
    | ABufSet o => Next (set_bufp (free_buf s (bufp s)) o) tt
    | AFactory c g n => exec_factory s t ch c g n
    | AIssue b => with_buf s b (fun x =>
        let i := b_issued x in
        let s' := put_buf s b (set_bissued x (i + 1)%N) in
        if (i <? b_size x)%N then Next s' (IGot i)
        else match b_kind x with Fixed => Next s' IFull | Ring => Next s' IWait end)
    | ADeq b => with_buf s b (fun x =>
        match b_queue x with
        | [] => Blocked
        | i :: q => Next (put_buf s b (set_bqueue x q)) i
        end)
    | AReset b i => with_buf s b (fun x =>
        if (i <? b_size x)%N then
          Next (put_buf s b (set_bchunk x (upd (b_chunk x) i (chunk_reset (b_chunk x i) (N.of_nat t))))) tt
        else Crashed)
    | ALoan b up => with_buf s b (fun x =>
        Next (put_buf s b (set_bloan x (if up then (b_loan x + 1) mod w64 else (b_loan x + w64 - 1) mod w64)%N)) tt)
    | AReturn b i => with_buf s b (fun x =>
        if (i <? b_size x)%N then
          match b_kind x with
          | Fixed => Next s tt
          | Ring => Next (put_buf s b (set_bqueue x (b_queue x ++ [i]))) tt
          end
        else Crashed)
    | ATryTenant =>
        match t_lock (ten s t) with
        | Free => Next (put_ten s t (set_tlock (ten s t) BySlave)) true
        | ByMaster _ => Next s false
        | BySlave => Blocked
        end
    | AUnTenant =>
        match t_lock (ten s t) with
        | BySlave => Next (put_ten s t (set_tlock (ten s t) Free)) tt
        | _ => Crashed
        end
    | AMaster u =>
        match t_lock (ten s u) with
        | Free => Next (put_ten s u (set_tlock (ten s u) (ByMaster t))) tt
        | _ => Blocked
        end
    | AUnMaster u =>
        match t_lock (ten s u) with
        | ByMaster v => if Nat.eqb v t then Next (put_ten s u (set_tlock (ten s u) Free)) tt else Crashed
        | _ => Crashed
        end
    | AChunkGet => Next s (t_chunk (ten s t))
    | AChunkSet o => Next (put_ten s t (set_tchunk (ten s t) o)) tt
    | AEvict u => Next (put_ten s u (set_tchunk (ten s u) None)) tt
    | AInitGet => Next s (t_init (ten s t))
    | AReg v => Next (set_regd (put_ten s t (set_tinit (ten s t) v)) (if v then add t (regd s) else del t (regd s))) tt
    | AFull b i => with_buf s b (fun x => if (i <? b_size x)%N then Next s (chunk_isFull cap (b_chunk x i)) else Crashed)
    | AStore b i e => with_buf s b (fun x =>
        if (i <? b_size x)%N then
          match chunk_add cap (b_chunk x i) e with
          | Ok c => Next (emit (put_buf s b (set_bchunk x (upd (b_chunk x) i c))) (Stored t b e)) None
          | Throw y => Next s (Some y)
          | UB => Crashed
          end
        else Crashed)
    | ADisableAll => Next (set_reg s (disableAll (reg s))) tt
    | AUpdate en dis => Next (set_reg s (updateEnabled (reg s) en dis)) tt
    | AGetStatus c => let '(i, r) := getStatus (reg s) c in Next (emit (set_reg s r) (Looked t c i)) i
    | AStatus i => let v := status_seen s ch i in Next (emit s (Tested t i v)) v
    | ASiteGet x => Next s (sites s x)
    | ASiteSet x i => Next (set_sites s (updn (sites s) x (Some i))) tt
    | ACfgSet c => Next (emit (set_cfg s c) (Configured t c)) tt
    | ACfgGet => Next s (cfg s)
    | ASnap => Next s (regd s)
    | APick l => match ch with CPick u => if mem u l then Next s u else Blocked | _ => Blocked end
    | ANameSet n => Next (set_names s (name_set t n (names s))) tt
    | ANameDel => Next (set_names s (name_del t (names s))) tt
    | ANames => Next s (names s)
    | ADeregAdd => Next (set_dereg s (add t (dereg s))) tt
    | ADeregDel => Next (set_dereg s (del t (dereg s))) tt
    | AClear => Next (set_names s (name_clear (dereg s) (names s))) tt
    | AStats => Next s (log_stats s)
    | AEmit e => Next (emit s e) tt
    | ANote e => Next (emit s e) tt
    | AHook _ => Blocked
    | AFree => Next (emit (set_bufp (free_buf s (bufp s)) None) (Freed t)) tt
    | ATerminate => Next (emit s (Terminated t)) tt
    | ACrash => Crashed
    end.
End Exec.

(** What never-written event memory holds; nothing depends on it. *)
Definition event0 : event := {|
  ev_tpi := {| tp_category := []; tp_name := []; tp_type := ev_invalid; tp_arg_names := ([], []); tp_arg_types := (is_none, is_none) |};
  ev_args := (0, 0)%N; ev_time := 0; ev_duration := 0 |}.

(** The schedule: a thread makes a call, performs its next action, or, while its
    callback (or locked section) runs, makes a nested call or ends it. *)
Inductive sact :=
| Invoke (t : tid) (o : op)
| Step (t : tid) (ch : choice)
| HookDo (t : tid) (h : hop)
| HookEnd (t : tid) (r : option exn).

Definition set_cmd (s : st) (t : tid) (c : cmd) : st :=
  set_busy (set_code s (tset (code s) t c)) (match c with Ret => del t (busy s) | _ => add t (busy s) end).

Definition is_destroy (o : op) : bool := match o with ODestroy => true | _ => false end.

Definition hook_of (c : cmd) : option (hook * (option exn -> cmd)) :=
  match c with
  | Act a k => match a return (ans a -> cmd) -> option (hook * (option exn -> cmd)) with
               | AHook h => fun k => Some (h, k)
               | _ => fun _ => None
               end k
  | Ret => None
  end.

Section Run.
  Variables cap csz : N.
  Variable site_cat : nat -> bytes.

  (** Users destroy the log when nobody else uses it, and do not use it
      afterwards. *)
  Definition step (s : st) (a : sact) : option st :=
    if bad s then None else
    match a with
    | Invoke t o =>
        match code s t, closing s with
        | Ret, None =>
            if is_destroy o then
              if is_nil (busy s) then Some (set_closing (set_cmd (emit s (Invoked t o)) t (code_of csz site_cat t o)) (Some t)) else None
            else Some (set_cmd (emit s (Invoked t o)) t (code_of csz site_cat t o))
        | _, _ => None
        end
    | Step t ch =>
        match code s t with
        | Ret => None
        | Act x k =>
            match exec cap s t ch x with
            | Blocked => None
            | Crashed => Some (set_bad s true)
            | Next s' r => Some (set_cmd s' t (k r))
            end
        end
    | HookDo t h =>
        match hook_of (code s t) with
        | Some _ => Some (set_cmd s t (hcode csz t h (code s t)))
        | None => None
        end
    | HookEnd t r =>
        match hook_of (code s t) with
        | Some (_, k) => Some (set_cmd s t (k r))
        | None => None
        end
    end.

  (** trace_log.cc:38-44: the log before anything is called on it (the
      constructor then calls configure). Thread-local tenants are zero. *)
  Definition log_new : st := {|
    enabled := false; mtx := None; gen := 0; bufp := None;
    heap := fun _ => {| b_kind := Fixed; b_size := 0; b_gen := 0; b_issued := 0; b_loan := 0; b_queue := [];
                        b_chunk := fun _ => {| c_next := 0; c_tid := 0; c_arr := fun _ => event0 |}; b_owner := Gone |};
    nbuf := 0;
    ten := fun _ => {| t_lock := Free; t_chunk := None; t_init := false |};
    regd := []; cfg := config_default; names := []; dereg := []; reg := registry_new; sites := fun _ => None;
    code := fun _ => Ret; busy := []; closing := None; hist := []; bad := false |}.

  (** Restraint of callbacks and of sections that hold the lock: they log only
      while tracing is off; a callback called from the stop inside start, or
      from the destructor, does not start tracing. *)
  Definition polite (s : st) (a : sact) : bool :=
    match a with
    | HookDo t (HStart _) => match hook_of (code s t) with Some (h, _) => negb (h_norestart h) | None => true end
    | HookDo t (HLog _) => negb (enabled s)
    | _ => true
    end.

  Definition pstep (s : st) (a : sact) : option st := if polite s a then step s a else None.
End Run.
