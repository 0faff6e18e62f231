(** Which plain (not atomic) memory each action of the log touches, and what it
    means for an access to be sound. Atomic variables (the switch, the
    generation, a buffer's counters and queue, category statuses, the pointers
    cached at trace points) and the locks themselves are not places. *)
From Verif Require Import Base Model.Event Model.Queue Model.Buffer Model.Config Model.Interleave Spec.LogHistory Spec.LogRecords Model.TraceLog.

Inductive place :=
| PBuffer                      (* TraceLog::buffer, trace_log.h:353 *)
| PConfig                      (* TraceLog::trace_config *)
| PThreads                     (* TraceLog::registered_chunk_tenants *)
| PNames                       (* TraceLog::thread_names and deregistered_threads *)
| PChunkOf (t : tid)           (* ChunkTenant::chunk of a thread *)
| PInitOf (t : tid)            (* ChunkTenant::initialised of a thread *)
| PObject (b : bid)            (* a TraceBuffer: its size, its vtable *)
| PChunk (b : bid) (i : N).    (* the contents of a chunk of a buffer *)

(** The buffer [b] (or none) is destroyed: all its memory is written. *)
Definition destroys (o : option bid) (p : place) : Prop :=
  match p with PObject b | PChunk b _ => o = Some b | _ => False end.

(** The memory an action reads. The set of registered threads is read during the
    whole loop of trace_log.cc:311-317. *)
Definition reads (s : st) (t : tid) (a : act) (p : place) : Prop :=
  match a with
  | ABufGet => p = PBuffer
  | AIssue b | ADeq b | ALoan b _ | AReturn b _ | AReset b _ => p = PObject b
  | AFull b i => p = PChunk b i
  | AChunkGet => p = PChunkOf t
  | AInitGet => p = PInitOf t
  | ACfgGet => p = PConfig
  | ASnap | APick _ | AMaster _ | AEvict _ | AUnMaster _ => p = PThreads
  | ANames => p = PNames
  | AStats => p = PBuffer \/ p = PThreads \/ p = PNames \/ exists b, bufp s = Some b /\ p = PObject b
  | _ => False
  end.

(** The memory an action writes. *)
Definition writes (s : st) (t : tid) (a : act) (p : place) : Prop :=
  match a with
  | ABufTake => p = PBuffer
  | ABufSet _ => p = PBuffer \/ destroys (bufp s) p
  | AFactory _ _ _ => destroys (Some (nbuf s)) p
  | AReset b i | AStore b i _ => p = PChunk b i
  | AChunkSet _ => p = PChunkOf t
  | AEvict u => p = PChunkOf u
  | AReg _ => p = PInitOf t \/ p = PThreads
  | ACfgSet _ => p = PConfig
  | ANameSet _ | ANameDel | ADeregAdd | ADeregDel | AClear => p = PNames
  | AFree => p = PBuffer \/ p = PConfig \/ p = PThreads \/ p = PNames \/ destroys (bufp s) p
  | _ => False
  end.

(** Thread [t] is about to perform [a]. *)
Definition about_to (s : st) (t : tid) (a : act) : Prop := exists k, code s t = Act a k.

(** Two threads are about to touch the same place, one of them writing. *)
Definition race (s : st) : Prop :=
  exists t u a a' p, t <> u /\ about_to s t a /\ about_to s u a' /\ writes s t a p /\ (reads s u a' p \/ writes s u a' p).

Section Sound.
  (** chunk.max_size(). *)
  Variable cap : N.

  (** The buffer exists, and was neither freed nor handed over. *)
  Definition alive (s : st) (b : bid) : Prop := b < nbuf s /\ b_owner (heap s b) = Mine.

  (** Nothing undefined about the access: the buffers and chunks it touches are
      there, a store stays inside the chunk, locks are released by their holder
      only and not taken twice by the same thread. *)
  Definition sound (s : st) (t : tid) (a : act) : Prop :=
    (forall b, (reads s t a (PObject b) \/ writes s t a (PObject b)) -> alive s b \/ exists c g n, a = AFactory c g n /\ b = nbuf s) /\
    (forall b i, (reads s t a (PChunk b i) \/ writes s t a (PChunk b i)) ->
       alive s b \/ exists c g n, a = AFactory c g n /\ b = nbuf s) /\
    match a with
    | ACrash => False
    | AReset b i | AReturn b i | AFull b i => (i < b_size (heap s b))%N
    | AStore b i _ => (i < b_size (heap s b))%N /\ (c_next (b_chunk (heap s b) i) <= cap)%N
    | ALock | ATryLock => mtx s <> Some t
    | AUnlock _ => mtx s = Some t
    | ATryTenant => t_lock (ten s t) <> BySlave
    | AMaster u => t_lock (ten s u) <> ByMaster t
    | AUnTenant => t_lock (ten s t) = BySlave
    | AUnMaster u => t_lock (ten s u) = ByMaster t
    | _ => True
    end.
End Sound.

(** Bookkeeping along a schedule: [note] records what it wants of each action
    performed. *)
Section Ghost.
  Variables cap csz : N.
  Variable site_cat : nat -> bytes.
  Context {H : Type}.
  Variable note : st -> tid -> forall a, ans a -> H -> H.

  Definition gstep (x : st * H) (a : sact) : st * H :=
    let '(s, h) := x in
    (move (pstep cap csz site_cat) s a,
     match a with
     | Step t ch =>
         match code s t with
         | Act x _ => match exec cap s t ch x with Next _ r => note s t x r h | _ => h end
         | Ret => h
         end
     | _ => h
     end).

  Definition ghost (h0 : H) (sched : list sact) : H := snd (fold_left gstep sched (log_new, h0)).
End Ghost.

(** Which chunk each thread holds: the one it got from a buffer (and prepared)
    last, unless it has given it back or a stop has taken it away. *)
Definition holding := tid -> option (bid * N).

Definition note_holding (s : st) (t : tid) (a : act) : ans a -> holding -> holding :=
  match a return ans a -> holding -> holding with
  | AReset b i => fun _ h => tset h t (Some (b, i))
  | AReturn b i => fun _ h => tset h t None
  | AEvict u => fun _ h => tset h u None
  | _ => fun _ h => h
  end.

Definition holders (cap csz : N) (site_cat : nat -> bytes) : list sact -> holding :=
  ghost cap csz site_cat note_holding (fun _ => None).

(** How many traces had been started when each thread last failed to get a chunk
    (there was no buffer, or it was full). *)
Definition starts (h : list hev) : nat := length (filter (fun e => match e with On _ _ _ => true | _ => false end) h).

Definition note_failure (s : st) (t : tid) (a : act) : ans a -> (tid -> option nat) -> tid -> option nat :=
  match a return ans a -> (tid -> option nat) -> tid -> option nat with
  | ABufGet => fun r h => match r with None => tset h t (Some (starts (hist s))) | _ => h end
  | AIssue b => fun r h => match r with IFull => tset h t (Some (starts (hist s))) | _ => h end
  | _ => fun _ h => h
  end.

Definition failures (cap csz : N) (site_cat : nat -> bytes) : list sact -> tid -> option nat :=
  ghost cap csz site_cat note_failure (fun _ => None).

(** Reasons why an event of thread [t] cannot be recorded at this moment:
    tracing is off; a stop is dealing with this thread; the thread is not
    registered; the log has no buffer, or a fixed one that is full. *)
Definition obstacle (s : st) (t : tid) : bool :=
  negb (enabled s) ||
  match t_lock (ten s t) with ByMaster _ => true | _ => false end ||
  negb (t_init (ten s t)) ||
  match ls_buffer (log_stats s) with None => true | Some b => st_is_full b end.

(** The last call of each thread (by number) that met an obstacle at one of its
    own steps. *)
Definition note_obstacle (s : st) (t : tid) (a : act) (_ : ans a) (h : tid -> option nat) : tid -> option nat :=
  if obstacle s t then tset h t (Some (calls (hist s) t)) else h.

Definition obstacles (cap csz : N) (site_cat : nat -> bytes) : list sact -> tid -> option nat :=
  ghost cap csz site_cat note_obstacle (fun _ => None).
