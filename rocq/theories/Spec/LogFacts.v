(** Plain readings of a history of a TraceLog. *)
From Verif Require Import Base Spec.Glob Spec.Categories Model.StringUtils Model.Event Model.Config Model.Interleave Spec.LogHistory.

(** Tracing is on after the history [h]. *)
Definition tracing (h : list hev) : bool :=
  fold_left (fun on e => match e with On _ _ _ => true | Off _ _ => false | _ => on end) h false.

(** The configuration stored last. *)
Definition configuration (h : list hev) : config :=
  fold_left (fun c e => match e with Configured _ c' => c' | _ => c end) h config_default.

(** Number of calls of buffer factories. *)
Fixpoint factory_calls (h : list hev) : N :=
  match h with
  | [] => 0
  | Made _ _ _ _ :: h' => (1 + factory_calls h')%N
  | _ :: h' => factory_calls h'
  end.

(** Number of buffers made. *)
Fixpoint buffers_made (h : list hev) : nat :=
  match h with
  | [] => 0
  | Made _ _ _ m :: h' => match made_buffer m with Some _ => S (buffers_made h') | None => buffers_made h' end
  | _ :: h' => buffers_made h'
  end.

(** Thread [t] is registered: its last successful registration call was
    registerThread. *)
Definition registered (t : tid) (h : list hev) : bool :=
  fold_left (fun r e => match e with
    | Done u (ORegister _) RUnit => if Nat.eqb u t then true else r
    | Done u ODeregister RUnit => if Nat.eqb u t then false else r
    | _ => r
    end) h false.

(** How a getBuffer or getTraceContext call ended, and the buffer it returned. *)
Definition retrieval (e : hev) : option out :=
  match e with
  | Done _ OGetBuffer r | Done _ OGetContext r | Nested _ HGetBuffer r | Nested _ HGetContext r => Some r
  | _ => None
  end.

Definition retrieved (e : hev) : option (option bid) :=
  match e with
  | Done _ OGetBuffer (RBuf o) | Nested _ HGetBuffer (RBuf o) => Some o
  | Done _ OGetContext (RCtx o _) | Nested _ HGetContext (RCtx o _) => Some o
  | _ => None
  end.

(** Events of the calls that hold the lock. *)
Definition loud (h : list hev) : list hev := filter (fun e => negb (inert e)) h.

(** The events since the last call that held the lock ended. *)
Definition section (h : list hev) : list hev :=
  fold_left (fun l e => if inert e then l else match e with Done _ _ _ | StopTried _ _ _ | Freed _ => [] | _ => l ++ [e] end) h [].

Definition is_on (e : hev) : bool := match e with On _ _ _ => true | _ => false end.
Definition is_throw (e : hev) : bool := match e with Made _ _ _ (MadeThrow _) => true | _ => false end.

(** Thread [t] registered with a (non-empty) name. *)
Definition names_thread (t : tid) (e : hev) : bool :=
  match e with Done u (ORegister n) RUnit => Nat.eqb u t && negb (is_nil n) | _ => false end.
Definition leaves (t : tid) (e : hev) : bool :=
  match e with Done u ODeregister RUnit => Nat.eqb u t | _ => false end.

(** The thread names a getTraceContext call returned. *)
Definition context_names (e : hev) : option (list (tid * bytes)) :=
  match retrieval e with Some (RCtx _ ns) => Some ns | _ => None end.

(** The configuration with which the last trace was started. *)
Definition started_with (h : list hev) : config :=
  snd (fold_left (fun p e => match e with Configured _ c => (c, snd p) | On _ _ _ => (fst p, fst p) | _ => p end)
         h (config_default, config_default)).

(** The category groups looked up so far, and the number of groups the registry
    has for them. *)
Definition looked_names (h : list hev) : list bytes :=
  flat_map (fun e => match e with Looked _ c _ => [c_str c] | _ => [] end) h.
Definition group_count (h : list hev) : nat := Nat.min 250 (length (nodup bytes_dec (built_in ++ looked_names h))).

(** The call thread [t] is in, and what happened since it began. *)
Definition in_call (h : list hev) (t : tid) (o : op) (y : list hev) : Prop :=
  exists x, h = x ++ Invoked t o :: y /\ forall o', ~ In (Invoked t o') y.

(** The buffer the log owns: that of the last trace, unless it was retrieved. *)
Definition held_buffer (h : list hev) : option bid :=
  fold_left (fun o e => match e with
    | On _ _ m => made_buffer m
    | Freed _ => None
    | _ => match retrieved e with Some _ => None | None => o end
    end) h None.

(** Thread [t] deregistered while tracing, and has not registered with a name
    since. *)
Fixpoint departed_rev (t : tid) (h : list hev) : bool :=
  match h with
  | [] => false
  | e :: before => if names_thread t e then false else if leaves t e then tracing (rev before) || departed_rev t before else departed_rev t before
  end.
Definition departed (t : tid) (h : list hev) : bool := departed_rev t (rev h).

(** The log has a name for thread [t]: it registered with one, and since then
    neither deregistered while tracing was off, nor was a trace started after it
    deregistered while tracing was on. *)
Fixpoint named_rev (t : tid) (h : list hev) : bool :=
  match h with
  | [] => false
  | e :: before =>
      if names_thread t e then true
      else if leaves t e then tracing (rev before) && named_rev t before
      else match e with On _ _ _ => negb (departed_rev t before) && named_rev t before | _ => named_rev t before end
  end.
Definition named (t : tid) (h : list hev) : bool := named_rev t (rev h).

(** [n] is the number of threads for which [P] holds. *)
Definition counts (n : nat) (P : tid -> bool) : Prop := exists l, NoDup l /\ length l = n /\ forall t, In t l <-> P t = true.

(** The group whose status a slot shows: its own, or the overflow group. *)
Definition group_of (slot : nat) (category : bytes) : bytes := if Nat.eqb slot 1 then overflow_name else c_str category.

Definition switched_by (c : config) (group : bytes) : Prop := switched_on (cf_enabled c) (cf_disabled c) group.
