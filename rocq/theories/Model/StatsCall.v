(** TraceLog::getStats with the callback as code of the user: it is called with the mutex of
    the log held, takes as long as it likes, may return, throw, or call into the log again.
    Other threads meanwhile do the same, start and stop the log, use the buffer and register
    categories.

    Not modelled: what the reported state is made of (Model/TraceLog.v has that). Whatever
    the log does with its mutex held is one step [Change], possible when the mutex is free;
    getChunk and returnChunk are one step [Chunk], always possible. A thread that locks a
    mutex it owns waits for ever; for std::mutex that is undefined behaviour, of which this
    is the usual kind. Lookup is the part of getCategory that takes the mutex of the
    registry, for a category that is new and fits (category_registry.cc:40-54). *)
From Verif Require Import Base Spec.StatsUse Model.Interleave.

Inductive mu := MLog | MReg.

(** Code, with the handler that a throwing callback runs: the destructors of the lock_guards
    that are alive, inner ones first. [User] is the callback while it runs. *)
Inductive prog :=
| Done (threw : bool)
| Lock (m : mu) (k : prog)
| Unlock (m : mu) (k : prog)
| Look (k : world -> prog)
| Tell (x : stat) (h k : prog)
| User (x : stat) (h k : prog)
| Grow (k : prog).

Definition size_stat (key : bytes) (v : N) : stat := (key, VSize v).
Definition bool_stat (key : bytes) (v : bool) : stat := (key, VBool v).
Definition text_stat (key : bytes) (v : bytes) : stat := (key, VText v).

(** category_registry.cc:128-132. *)
Definition registry_getStats (h k : prog) : prog :=
  Lock MReg (Look (fun w =>
  Tell (size_stat $"registry_group_count" (w_groups w)) (Unlock MReg h) (Unlock MReg k))).

(** trace_buffer.cc:130-140, with isFull (126-128) and chunk_count (154-157). *)
Definition fixed_getStats (i : ident) (h k : prog) : prog :=
  Tell (text_stat $"buffer_name" $"FixedTraceBuffer") h (Look (fun w =>
  Tell (bool_stat $"buffer_is_full" (i_size i <=? w_issued w)%N) h (Look (fun w =>
  let count := if (w_issued w <? i_size i)%N then w_issued w else i_size i in
  Tell (size_stat $"buffer_chunk_count" count) h (
  Tell (size_stat $"buffer_total_loaned" count) h (Look (fun w =>
  Tell (size_stat $"buffer_loaned_chunks" (w_loan w)) h (
  Tell (size_stat $"buffer_size" (i_size i)) h (
  Tell (size_stat $"buffer_generation" (i_gen i)) h k))))))))).

(** trace_buffer.cc:234-245. *)
Definition ring_getStats (i : ident) (h k : prog) : prog :=
  Tell (text_stat $"buffer_name" $"RingTraceBuffer") h (
  Tell (bool_stat $"buffer_is_full" false) h (Look (fun w =>
  Tell (size_stat $"buffer_chunk_count" (N.min (w_issued w) (i_size i))) h (Look (fun w =>
  Tell (size_stat $"buffer_total_loaned" (w_issued w)) h (Look (fun w =>
  Tell (size_stat $"buffer_loaned_chunks" (w_loan w)) h (
  Tell (size_stat $"buffer_size" (i_size i)) h (
  Tell (size_stat $"buffer_generation" (i_gen i)) h k))))))))).

(** trace_log.cc:241-254. *)
Definition getStats : prog :=
  Lock MLog (
  let h := Unlock MLog (Done true) in
  registry_getStats h (Look (fun w =>
  let rest :=
    Look (fun w =>
    Tell (bool_stat $"log_is_enabled" (fa_on (w_facts w))) h (Look (fun w =>
    Tell (bool_stat $"log_has_buffer" match fa_buf (w_facts w) with Some _ => true | None => false end) h (Look (fun w =>
    Tell (size_stat $"log_thread_names" (fa_names (w_facts w))) h (Look (fun w =>
    Tell (size_stat $"log_deregistered_threads" (fa_dereg (w_facts w))) h (Look (fun w =>
    Tell (size_stat $"log_registered_tenants" (fa_tenants (w_facts w))) h (
    Unlock MLog (Done false)))))))))))  in
  match fa_buf (w_facts w) with
  | Some i => match i_kind i with KFixed => fixed_getStats i h rest | KRing => ring_getStats i h rest end
  | None => rest
  end))).

(** category_registry.cc:40-54. *)
Definition lookup : prog := Lock MReg (Grow (Unlock MReg (Done false))).

Definition code_of (c : scall) : prog := match c with GetStats => getStats | Lookup => lookup end.

(** The calls a thread is in, the innermost first. *)
Record sst := {
  s_log : option tid;              (* the owners of the mutexes *)
  s_reg : option tid;
  s_stack : tid -> list (scall * prog);
  s_world : world;
  s_hist : list happened;
}.

Inductive sact :=
| Call (t : tid) (c : scall)
| Step (t : tid)
| Return (t : tid)                 (* the callback that [t] runs returns *)
| Throw (t : tid)                  (* or throws *)
| Change (f : facts) (issued loan : N)
| Chunk (issued loan : N).

Definition owner (s : sst) (m : mu) : option tid := match m with MLog => s_log s | MReg => s_reg s end.
Definition own (s : sst) (m : mu) (o : option tid) (t : tid) (l : list (scall * prog)) : sst :=
  {| s_log := match m with MLog => o | MReg => s_log s end; s_reg := match m with MReg => o | MLog => s_reg s end;
     s_stack := tset (s_stack s) t l; s_world := s_world s; s_hist := s_hist s |}.
Definition at_ (s : sst) (t : tid) (l : list (scall * prog)) (e : list happened) : sst :=
  {| s_log := s_log s; s_reg := s_reg s; s_stack := tset (s_stack s) t l; s_world := s_world s; s_hist := s_hist s ++ e |}.
Definition becomes (s : sst) (w : world) : sst :=
  {| s_log := s_log s; s_reg := s_reg s; s_stack := s_stack s; s_world := w; s_hist := s_hist s ++ [Now w] |}.

Definition stats_step (s : sst) (a : sact) : option sst :=
  match a with
  | Call t c =>
      match s_stack s t with
      | [] => Some (at_ s t [(c, code_of c)] [Enter t c])
      | (d, User x h k) :: r => Some (at_ s t ((c, code_of c) :: (d, User x h k) :: r) [Enter t c])
      | _ => None
      end
  | Step t =>
      match s_stack s t with
      | (c, p) :: r =>
          match p with
          | Done threw => Some (at_ s t r [Left t c threw])
          | Lock m k => match owner s m with None => Some (own s m (Some t) t ((c, k) :: r)) | Some _ => None end
          | Unlock m k => Some (own s m None t ((c, k) :: r))
          | Look k => Some (at_ s t ((c, k (s_world s)) :: r) [])
          | Tell x h k => Some (at_ s t ((c, User x h k) :: r) [Told t x])
          | User _ _ _ => None
          | Grow k =>
              let w := s_world s in
              Some (becomes (at_ s t ((c, k) :: r) [])
                {| w_facts := w_facts w; w_groups := (w_groups w + 1)%N; w_issued := w_issued w; w_loan := w_loan w |})
          end
      | [] => None
      end
  | Return t =>
      match s_stack s t with (c, User _ _ k) :: r => Some (at_ s t ((c, k) :: r) [Came t]) | _ => None end
  | Throw t =>
      match s_stack s t with (c, User _ h _) :: r => Some (at_ s t ((c, h) :: r) [Threw t]) | _ => None end
  | Change f i l =>
      match s_log s with
      | None => Some (becomes s {| w_facts := f; w_groups := w_groups (s_world s); w_issued := i; w_loan := l |})
      | Some _ => None
      end
  | Chunk i l =>
      let w := s_world s in
      Some (becomes s {| w_facts := w_facts w; w_groups := w_groups w; w_issued := i; w_loan := l |})
  end.

Definition stats0 (w : world) : sst :=
  {| s_log := None; s_reg := None; s_stack := fun _ => []; s_world := w; s_hist := [] |}.
Definition stats_run (w : world) (sched : list sact) : sst := run stats_step (stats0 w) sched.
