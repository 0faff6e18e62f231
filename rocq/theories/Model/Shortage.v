(** Calls of the log that run out of memory.

    The log allocates in its own bookkeeping, and an allocation can fail with
    std::bad_alloc. Here a thread whose next action allocates may fail in it: the
    action leaves what the library promises to leave, the exception leaves the
    call, lock_guards are released, and the call ends in an exception. (That a
    buffer cannot be made is part of Model/TraceLog.v: the factory throws.)

    The log is that of Model/TraceLog.v. *)
From Verif Require Import Base Model.StringUtils Model.Event Model.Queue Model.Buffer Model.Config Model.Registry
  Model.Interleave Spec.LogHistory Model.TraceLog.

(** Where the log allocates. *)
Inductive point :=
| PRegister     (* trace_log.cc:198, registered_chunk_tenants.insert *)
| PName         (* trace_log.cc:203, thread_names[id] = name *)
| PDeregister   (* trace_log.cc:230, deregistered_threads.emplace *)
| PContext      (* trace_log.cc:181, the copy of thread_names *)
| PConfig       (* trace_log.cc:104, trace_config = _trace_config *)
| PUpdate       (* category_registry.cc:102-113, updateEnabled *)
| PDisable      (* category_registry.cc:117-118, disableAll *)
| PConfigOut    (* trace_log.cc:238, the copy of trace_config *)
| PCategory.    (* category_registry.cc:52-53, a new category *)

(** How far it got, and what a half assigned vector holds. *)
Record lack := { k_at : nat; k_list : list bytes }.

(** A call the thread is inside of: one of the public interface, or one made with
    the lock held (and the callback or section to go back to). *)
Inductive frame := FCall (o : op) | FNested (h : hop) (back : cmd).

Record short := {
  z_log : st;
  z_in : tid -> list frame;        (* innermost first *)
}.

Inductive zact := Do (a : sact) | Lack (t : tid) (p : point) (l : lack).

(** The exception leaves the innermost call: std::lock_guard, if there is one,
    releases the lock. logEvent and the trace points hold it only inside
    maybe_stop (trace_log.cc:72-73); the destructor is noexcept. *)
Definition unwind (s : st) (t : tid) (fs : list frame) : cmd :=
  match fs with
  | FNested h back :: _ => AEmit (Nested t h (RThrow BadAlloc));;; back
  | FCall o :: _ =>
      match o with
      | ODestroy => if owns s t then AUnlock (StopTried t (Asked true) (RThrow BadAlloc));;; ATerminate;;; Ret else ATerminate;;; Ret
      | OLog _ | OMacro _ _ | OGetStatus _ =>
          if owns s t then AUnlock (StopTried t Exhausted (RThrow BadAlloc));;; ANote (Done t o (RThrow BadAlloc));;; Ret
          else ANote (Done t o (RThrow BadAlloc));;; Ret
      | _ => if owns s t then AUnlock (Done t o (RThrow BadAlloc));;; Ret else ANote (Done t o (RThrow BadAlloc));;; Ret
      end
  | [] => Ret
  end.

(** Which calls allocate there. *)
Definition may (fs : list frame) (p : point) : bool :=
  match p, fs with
  | PRegister, FCall (ORegister _) :: _ | PName, FCall (ORegister _) :: _ => true
  | PDeregister, FCall ODeregister :: _ => true
  | PContext, FCall OGetContext :: _ | PContext, FNested HGetContext _ :: _ => true
  | PConfig, FCall (OStart _) :: _ | PConfig, FCall (OConfigure _) :: _ | PConfig, FNested (HStart _) _ :: _ => true
  | PUpdate, FCall (OStart _) :: _ | PUpdate, FCall (OConfigure _) :: _ | PUpdate, FNested (HStart _) _ :: _ => true
  | PDisable, _ :: _ => true
  | PConfigOut, FCall OGetConfig :: _ => true
  | PCategory, FCall (OMacro _ _) :: _ | PCategory, FCall (OGetStatus _) :: _ => true
  | _, _ => false
  end.

Definition outer (fs : list frame) : list frame := match fs with FNested _ _ :: r => r | _ => fs end.

(** trace_config.h:285-296, member by member: the factory or one of the lists
    cannot be copied. *)
Definition half_config (old new : config) (l : lack) : config :=
  match k_at l with
  | 0 => {| cf_mode := cf_mode new; cf_factory := cf_factory old; cf_size := cf_size old; cf_callback := cf_callback old;
            cf_stop := cf_stop old; cf_enabled := cf_enabled old; cf_disabled := cf_disabled old |}
  | 1 => {| cf_mode := cf_mode new; cf_factory := cf_factory new; cf_size := cf_size new; cf_callback := cf_callback new;
            cf_stop := cf_stop new; cf_enabled := k_list l; cf_disabled := cf_disabled old |}
  | _ => {| cf_mode := cf_mode new; cf_factory := cf_factory new; cf_size := cf_size new; cf_callback := cf_callback new;
            cf_stop := cf_stop new; cf_enabled := cf_enabled new; cf_disabled := k_list l |}
  end.

(** category_registry.cc:102-113: in one of the lists, or in the status of slot
    [i]. *)
Definition half_update (r : registry) (en dis : list bytes) (l : lack) : registry :=
  match k_at l with
  | 0 => {| rg_groups := rg_groups r; rg_status := rg_status r; rg_count := rg_count r; rg_enabled := k_list l; rg_disabled := rg_disabled r |}
  | 1 => {| rg_groups := rg_groups r; rg_status := rg_status r; rg_count := rg_count r; rg_enabled := en; rg_disabled := k_list l |}
  | S (S i) =>
      {| rg_groups := rg_groups r;
         rg_status := fun j => if (j <? i) && (j <? rg_count r) then calculateEnabled (rg_groups r j) en dis else rg_status r j;
         rg_count := rg_count r; rg_enabled := en; rg_disabled := dis |}
  end.

(** category_registry.cc:115-118: in one of the lists, before any status. *)
Definition half_disable (r : registry) (l : lack) : registry :=
  {| rg_groups := rg_groups r; rg_status := rg_status r; rg_count := rg_count r;
     rg_enabled := match k_at l with 0 => k_list l | _ => [[]] end;
     rg_disabled := match k_at l with 0 => rg_disabled r | _ => k_list l end |}.

(** What a failure at [p] leaves, if the action allocates there. *)
Definition leaves (s : st) (t : tid) (a : act) (p : point) (l : lack) : option st :=
  match p, a with
  (* 197: the flag is set before the insertion *)
  | PRegister, AReg true => Some (put_ten s t (set_tinit (ten s t) true))
  (* no entry, or an entry with an empty name unless there was one *)
  | PName, ANameSet _ =>
      match k_at l with
      | 0 => Some s
      | _ => Some (if existsb (fun q => Nat.eqb t (fst q)) (names s) then s else set_names s ((t, []) :: names s))
      end
  | PDeregister, ADeregAdd => Some s
  (* trace_context.h:39-40: the names are passed by value, so they are copied
     before the buffer is moved *)
  | PContext, ABufTake => Some s
  | PConfig, ACfgSet c => Some (set_cfg s (half_config (cfg s) c l))
  | PUpdate, AUpdate en dis => Some (set_reg s (half_update (reg s) en dis l))
  | PDisable, ADisableAll => Some (set_reg s (half_disable (reg s) l))
  | PConfigOut, ACfgGet => Some s
  (* only a category that is not there is added *)
  | PCategory, AGetStatus c =>
      match search (rg_groups (reg s)) (c_str c) 0 (rg_count (reg s)) with
      | Some _ => None
      | None => if rg_count (reg s) <? registry_size then Some s else None
      end
  | _, _ => None
  end.

Section Short.
  Variables cap csz : N.
  Variable site_cat : nat -> bytes.

  (** Entering and leaving calls. *)
  Definition frames (z : short) (a : sact) : tid -> list frame :=
    match a with
    | Invoke t o => tset (z_in z) t [FCall o]
    | HookDo t h => tset (z_in z) t (FNested h (code (z_log z) t) :: z_in z t)
    | Step t _ => match code (z_log z) t with Act (AEmit (Nested _ _ _)) _ => tset (z_in z) t (outer (z_in z t)) | _ => z_in z end
    | HookEnd _ _ => z_in z
    end.

  Definition zstep (z : short) (x : zact) : option short :=
    match x with
    | Do a => match pstep cap csz site_cat (z_log z) a with
              | Some s => Some {| z_log := s; z_in := frames z a |}
              | None => None
              end
    | Lack t p l =>
        if bad (z_log z) then None else
        match code (z_log z) t with
        | Act a _ =>
            match (if may (z_in z t) p then leaves (z_log z) t a p l else None) with
            | Some s => Some {| z_log := set_cmd s t (unwind s t (z_in z t)); z_in := z_in z |}
            | None => None
            end
        | Ret => None
        end
    end.

  Definition short_new : short := {| z_log := log_new; z_in := fun _ => [] |}.
  Definition short_run (sched : list zact) : short := run zstep short_new sched.
End Short.
