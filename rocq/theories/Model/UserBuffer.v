(** The trace log over a buffer that a user wrote (a subclass of TraceBuffer made by the
    factory of the configuration, trace_config.h:73-80): its member functions take
    time, may answer anything, and may throw.

    Every access to memory that threads share is a step, in one order for all threads
    (that there are no data races is C79). Members that are only accessed with the
    mutex held are accessed in one step with the one before (enabled changes only
    with the mutex held, so the test of getBuffer and the move are one step). Categories
    and thread names are left out. The chunk pointer does not tell which buffer it came
    from, as in the code. As in Model/WeakLog.v, the holder of the mutex may start, stop,
    take and ask for statistics in any order, as a stopped callback may; in the callback
    run by a start it may not start or stop the log, and it does not log events. A member
    function of the buffer does not call the log. *)
From Verif Require Import Base Spec.BufferUse Model.Interleave.

Inductive upc :=
| UIdle
(* logEvent, trace_log.cc:124-149; getChunkTenant, 256-301; replaceChunk, 303-309 *)
| ECheck                                 (* 127 *)
| ETry                                   (* 257 *)
| EInit                                  (* 281 *)
| EPtr                                   (* 285, thread_chunk.chunk *)
| EFull (c : N)                          (* 285, isFull *)
| EAgain (p : option N)                  (* 288 *)
| EOld (c : N)                           (* 304-305, buffer is read and returnChunk called *)
| EReturning (b : nat) (c : N)           (* in returnChunk *)
| ENull                                  (* 306 *)
| EThird                                 (* 308, enabled *)
| EBuf                                   (* 308, buffer is read and getChunk called *)
| EGetting (b : nat)                     (* in getChunk *)
| ESet (c : N)                           (* 308, assignment *)
| EStore (c : N)                         (* 132 *)
| EUnlock                                (* end of 133, 148; an exception leaves logEvent *)
| EGen                                   (* 293 *)
| EDrop (g : N)                          (* 294 *)
(* maybe_stop, trace_log.cc:68-83 *)
| MTry (g : N)                           (* 72 *)
| MGen (g : N)                           (* 77 *)
(* the mutex held; [k]: in the stopped callback of a stop in start *)
| HWait                                  (* trace_log.cc:64, 98, 157, 242: the mutex *)
| Held (k : bool)
| HUnlock
| SEnabled                               (* start, 113 *)
| SExchange (k : bool)                   (* stop, 86 *)
| SEvict (k : bool) (l : list tid)       (* evictThreads, 312-313 *)
| SNull (k : bool) (u : tid) (l : list tid)    (* 314 *)
| SUnlock (k : bool) (u : tid) (l : list tid)  (* 315 *)
| SMaking                                (* start, 117: in the factory *)
| SOn                                    (* start, 121 *)
| AStats (k : bool) (b : nat)            (* getStats, 246: in getStats of the buffer *)
(* registerThread, 188-209; deregisterThread, 211-234 *)
| RWait | RDo
| DWait | DDo
| DPtr                                   (* 220-222, returnChunk is called *)
| DReturning (b : nat) (c : N)           (* in returnChunk *)
| DNull                                  (* 224 *)
| DErase.                                (* 226-227 *)

Record ulog := {
  u_on : bool;                       (* trace_log.h:330 *)
  u_gen : N;                         (* trace_log.h:360 *)
  u_mutex : option tid;              (* trace_log.h:341 *)
  u_cur : option nat;                (* trace_log.h:353 *)
  u_tenants : list tid;              (* trace_log.h:365 *)
  u_lock : tid -> option tid;        (* the lock of a thread's ChunkTenant, and who holds it *)
  u_chunk : tid -> option N;         (* its chunk pointer *)
  u_init : tid -> bool;              (* its flag [initialised] *)
  u_made : nat;                      (* buffers made so far *)
  u_pc : tid -> upc;
  u_hist : list seen_by_buffer;
}.

(** trace_log.cc:38-41. *)
Definition u_new : ulog :=
  {| u_on := false; u_gen := 0; u_mutex := None; u_cur := None; u_tenants := []; u_lock := fun _ => None;
     u_chunk := fun _ => None; u_init := fun _ => false; u_made := 0; u_pc := fun _ => UIdle; u_hist := [] |}.

Definition at_pc (s : ulog) (t : tid) (p : upc) (e : list seen_by_buffer) : ulog :=
  {| u_on := u_on s; u_gen := u_gen s; u_mutex := u_mutex s; u_cur := u_cur s; u_tenants := u_tenants s;
     u_lock := u_lock s; u_chunk := u_chunk s; u_init := u_init s; u_made := u_made s;
     u_pc := tset (u_pc s) t p; u_hist := u_hist s ++ e |}.
Definition set_on (s : ulog) (v : bool) : ulog :=
  {| u_on := v; u_gen := u_gen s; u_mutex := u_mutex s; u_cur := u_cur s; u_tenants := u_tenants s;
     u_lock := u_lock s; u_chunk := u_chunk s; u_init := u_init s; u_made := u_made s; u_pc := u_pc s; u_hist := u_hist s |}.
Definition set_mutex (s : ulog) (v : option tid) : ulog :=
  {| u_on := u_on s; u_gen := u_gen s; u_mutex := v; u_cur := u_cur s; u_tenants := u_tenants s;
     u_lock := u_lock s; u_chunk := u_chunk s; u_init := u_init s; u_made := u_made s; u_pc := u_pc s; u_hist := u_hist s |}.
Definition set_lock (s : ulog) (u : tid) (v : option tid) : ulog :=
  {| u_on := u_on s; u_gen := u_gen s; u_mutex := u_mutex s; u_cur := u_cur s; u_tenants := u_tenants s;
     u_lock := tset (u_lock s) u v; u_chunk := u_chunk s; u_init := u_init s; u_made := u_made s; u_pc := u_pc s; u_hist := u_hist s |}.
Definition set_chunk (s : ulog) (u : tid) (v : option N) : ulog :=
  {| u_on := u_on s; u_gen := u_gen s; u_mutex := u_mutex s; u_cur := u_cur s; u_tenants := u_tenants s;
     u_lock := u_lock s; u_chunk := tset (u_chunk s) u v; u_init := u_init s; u_made := u_made s; u_pc := u_pc s; u_hist := u_hist s |}.
Definition set_reg (s : ulog) (u : tid) (v : bool) (l : list tid) : ulog :=
  {| u_on := u_on s; u_gen := u_gen s; u_mutex := u_mutex s; u_cur := u_cur s; u_tenants := l;
     u_lock := u_lock s; u_chunk := u_chunk s; u_init := tset (u_init s) u v; u_made := u_made s; u_pc := u_pc s; u_hist := u_hist s |}.
Definition set_cur (s : ulog) (b : option nat) (n : nat) : ulog :=
  {| u_on := u_on s; u_gen := u_gen s; u_mutex := u_mutex s; u_cur := b; u_tenants := u_tenants s;
     u_lock := u_lock s; u_chunk := u_chunk s; u_init := u_init s; u_made := n; u_pc := u_pc s; u_hist := u_hist s |}.
Definition next_gen (s : ulog) : ulog :=
  {| u_on := u_on s; u_gen := u_gen s + 1; u_mutex := u_mutex s; u_cur := u_cur s; u_tenants := u_tenants s;
     u_lock := u_lock s; u_chunk := u_chunk s; u_init := u_init s; u_made := u_made s; u_pc := u_pc s; u_hist := u_hist s |}%N.

(** What the user's code answers. *)
Inductive answer :=
| Full (yes : bool)         (* isFull of a chunk *)
| Lends (c : option N)      (* getChunk *)
| Done                      (* returnChunk, getStats *)
| Builds (yes : bool)       (* the factory: a buffer, or null *)
| Throws.

Inductive uact :=
| CallLog (t : tid)
| CallLock (t : tid)                 (* any call that takes the mutex first *)
| CallRegister (t : tid)
| CallDeregister (t : tid)
(* with the mutex held *)
| HeldStart (t : tid) (enough : bool)   (* is the buffer large enough, 104 *)
| HeldStop (t : tid)
| HeldTake (t : tid)
| HeldStats (t : tid)
| HeldDone (t : tid)                 (* the mutex is released; or the stopped callback returns *)
| Go (t : tid)                       (* the next step of the log's own code *)
| Answer (t : tid) (a : answer).     (* the user's code answers *)

Definition ustep (s : ulog) (a : uact) : option ulog :=
  match a with
  | CallLog t => match u_pc s t with UIdle => Some (at_pc s t ECheck []) | _ => None end
  | CallLock t => match u_pc s t with UIdle => Some (at_pc s t HWait []) | _ => None end
  | CallRegister t => match u_pc s t with UIdle => Some (at_pc s t RWait []) | _ => None end
  | CallDeregister t => match u_pc s t with UIdle => Some (at_pc s t DWait []) | _ => None end
  | HeldStart t enough =>
      match u_pc s t with Held false => Some (at_pc s t (if enough then SEnabled else Held false) []) | _ => None end
  | HeldStop t => match u_pc s t with Held false => Some (at_pc s t (SExchange false) []) | _ => None end
  | HeldTake t =>
      (* 161-167, 176-182 *)
      match u_pc s t with
      | Held k =>
          if u_on s then Some (at_pc s t (Held k) [])
          else match u_cur s with
               | Some b => Some (at_pc (set_cur s None (u_made s)) t (Held k) [BTaken t b])
               | None => Some (at_pc s t (Held k) [])
               end
      | _ => None
      end
  | HeldStats t =>
      (* 245-247 *)
      match u_pc s t with
      | Held k => Some (match u_cur s with
                        | Some b => at_pc s t (AStats k b) [BStats t b]
                        | None => at_pc s t (Held k) []
                        end)
      | _ => None
      end
  | HeldDone t =>
      match u_pc s t with
      | Held false => Some (at_pc s t HUnlock [])
      | Held true => Some (at_pc (next_gen s) t SMaking [])
      | _ => None
      end
  | Answer t a =>
      match u_pc s t, a with
      | EFull c, Full full => Some (at_pc s t (if full then EAgain (Some c) else EStore c) [])
      | EReturning b c, Done => Some (at_pc s t ENull [BDone t b])
      (* the exception leaves logEvent; the chunk pointer stays *)
      | EReturning b c, Throws => Some (at_pc s t EUnlock [BThrew t b])
      | EGetting b, Lends o => Some (at_pc s t (match o with Some c => ESet c | None => EGen end) [BLent t b o])
      | EGetting b, Throws => Some (at_pc s t EUnlock [BThrew t b])
      (* 117: the buffer that was there is destroyed by the assignment *)
      | SMaking, Builds yes =>
          let s' := if yes then set_cur s (Some (u_made s)) (S (u_made s)) else set_cur s None (u_made s) in
          Some (at_pc s' t SOn ((if yes then [BMade t (u_made s)] else []) ++
                                match u_cur s with Some b => [BDestroyed t b] | None => [] end))
      | SMaking, Throws => Some (at_pc s t (Held false) [])
      | AStats k b, Done => Some (at_pc s t (Held k) [BDone t b])
      | AStats k b, Throws => Some (at_pc s t (Held k) [BThrew t b])
      | DReturning b c, Done => Some (at_pc s t DNull [BDone t b])
      | DReturning b c, Throws => Some (at_pc s t HUnlock [BThrew t b])
      | _, _ => None
      end
  | Go t =>
      match u_pc s t with
      | ECheck => Some (at_pc s t (if u_on s then ETry else UIdle) [])
      | ETry => match u_lock s t with
                | None => Some (at_pc (set_lock s t (Some t)) t EInit [])
                | Some _ => Some (at_pc s t UIdle [])
                end
      | EInit => Some (at_pc s t (if u_init s t then EPtr else EUnlock) [])
      | EPtr => Some (at_pc s t (match u_chunk s t with Some c => EFull c | None => EAgain None end) [])
      | EAgain p => Some (at_pc s t (if u_on s then match p with Some c => EOld c | None => EThird end else EUnlock) [])
      | EOld c =>
          match u_cur s with
          | Some b => Some (at_pc s t (EReturning b c) [BBack t b c])
          | None => None                               (* a null pointer is used; shown not to happen *)
          end
      | ENull => Some (at_pc (set_chunk s t None) t EThird [])
      | EThird => Some (at_pc s t (if u_on s then EBuf else EGen) [])
      | EBuf => Some (match u_cur s with
                      | Some b => at_pc s t (EGetting b) [BAsk t b]
                      | None => at_pc s t EGen []
                      end)
      | ESet c => Some (at_pc (set_chunk s t (Some c)) t (EStore c) [])
      | EStore c => Some (at_pc s t EUnlock [BStored t c])
      | EUnlock => Some (at_pc (set_lock s t None) t UIdle [])
      | EGen => Some (at_pc s t (EDrop (u_gen s)) [])
      | EDrop g => Some (at_pc (set_lock s t None) t (MTry g) [])
      | MTry g => match u_mutex s with
                  | None => Some (at_pc (set_mutex s (Some t)) t (MGen g) [])
                  | Some _ => Some (at_pc s t UIdle [])
                  end
      | MGen g => Some (at_pc s t (if (g =? u_gen s)%N then SExchange false else HUnlock) [])
      | HWait => match u_mutex s with None => Some (at_pc (set_mutex s (Some t)) t (Held false) []) | Some _ => None end
      | HUnlock => Some (at_pc (set_mutex s None) t UIdle [])
      | SEnabled => Some (if u_on s then at_pc s t (SExchange true) [] else at_pc (next_gen s) t SMaking [])
      | SExchange k => Some (at_pc (set_on s false) t (if u_on s then SEvict k (u_tenants s) else Held k) [])
      | SEvict k [] => Some (at_pc s t (Held k) [])
      | SEvict k (u :: l) =>
          match u_lock s u with None => Some (at_pc (set_lock s u (Some t)) t (SNull k u l) []) | Some _ => None end
      | SNull k u l => Some (at_pc (set_chunk s u None) t (SUnlock k u l) [])
      | SUnlock k u l => Some (at_pc (set_lock s u None) t (SEvict k l) [])
      | SOn => Some (at_pc (set_on s true) t (Held false) [])
      | RWait => match u_mutex s with None => Some (at_pc (set_mutex s (Some t)) t RDo []) | Some _ => None end
      | RDo => if u_init s t then Some (at_pc s t HUnlock []) else Some (at_pc (set_reg s t true (t :: u_tenants s)) t HUnlock [])
      | DWait => match u_mutex s with None => Some (at_pc (set_mutex s (Some t)) t DDo []) | Some _ => None end
      | DDo => Some (at_pc s t (if u_init s t then DPtr else HUnlock) [])
      | DPtr =>
          Some (match u_chunk s t with
                | None => at_pc s t DErase []
                | Some c => match u_cur s with
                            | Some b => at_pc s t (DReturning b c) [BBack t b c]
                            | None => at_pc s t DNull []
                            end
                end)
      | DNull => Some (at_pc (set_chunk s t None) t DErase [])
      | DErase => Some (at_pc (set_reg s t false (remove Nat.eq_dec t (u_tenants s))) t HUnlock [])
      | _ => None
      end
  end.

Definition user_run (sched : list uact) : ulog := run ustep u_new sched.

(** Steps that are all possible. *)
Fixpoint do_all (s : ulog) (acts : list uact) : option ulog :=
  match acts with
  | [] => Some s
  | a :: r => match ustep s a with Some s' => do_all s' r | None => None end
  end.
