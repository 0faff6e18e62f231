(** What the users of a TraceLog call and observe, and the sequential contract
    of the calls that take the log's lock. *)
From Verif Require Import Base Model.StringUtils Model.Event Model.Queue Model.Buffer Model.Config Model.Interleave.

(** Buffers are numbered in the order in which the factories made them. *)
Definition bid := nat.

(** The public interface of TraceLog. [OLocked] is a section of the program
    that holds the log's lock itself (std::lock_guard<TraceLog>). *)
Inductive op :=
| OStart (c : config)
| OConfigure (startup : option config)
| OStop (shutdown : bool)
| OGetBuffer
| OGetContext
| OIsEnabled
| ORegister (name : bytes)
| ODeregister
| OGetConfig
| OGetStats
| OGetStatus (category : bytes)
| OLog (e : event)
| OMacro (site : nat) (e : event)
| OLocked
| ODestroy.

(** What a stop callback, or a program section that holds the lock, can call. *)
Inductive hop :=
| HStart (c : config)
| HStop (shutdown : bool)
| HGetBuffer
| HGetContext
| HIsEnabled
| HLog (e : event).

(** What a buffer factory did. *)
Inductive made :=
| MadeFixed (b : bid) (n : N)
| MadeRing (b : bid) (n : N)
| MadeNull
| MadeThrow (x : exn).

Definition made_buffer (m : made) : option bid :=
  match m with MadeFixed b _ | MadeRing b _ => Some b | _ => None end.

(** Log statistics (TraceLog::getStats). *)
Record lstats := {
  ls_on : bool;
  ls_has_buffer : bool;
  ls_names : nat;
  ls_dereg : nat;
  ls_tenants : nat;
  ls_groups : nat;
  ls_buffer : option bstats;
}.

(** How a call ended. *)
Inductive out :=
| RUnit
| RThrow (x : exn)
| RBuf (b : option bid)
| RCtx (b : option bid) (names : list (tid * bytes))
| RBool (v : bool)
| RCfg (c : config)
| RStats (st : lstats)
| RSlot (i : nat).

(** Why tracing was switched off: stop (with its argument), start while tracing,
    or a logEvent that found no space. *)
Inductive why := Asked (shutdown : bool) | Restarted | Exhausted.

Definition is_shutdown (w : why) : bool := match w with Asked s => s | _ => false end.

(** The observable events. *)
Inductive hev :=
| Invoked (t : tid) (o : op)
| Configured (t : tid) (c : config)                  (* a start call stored its configuration *)
| Off (t : tid) (w : why)                            (* tracing switched off *)
| Callback (t : tid) (o : option callback)           (* the stop is complete; this callback is called now *)
| Made (t : tid) (g n : N) (m : made)                (* a buffer factory was called *)
| On (t : tid) (g : N) (m : made)                    (* tracing switched on *)
| Stored (t : tid) (b : bid) (e : event)             (* an event was written into a buffer *)
| Looked (t : tid) (category : bytes) (slot : nat)   (* a category status was looked up *)
| Tested (t : tid) (slot : nat) (on : bool)          (* a trace point read its category status *)
| Done (t : tid) (o : op) (r : out)                  (* a call returned *)
| StopTried (t : tid) (w : why) (r : out)            (* the stop by a logEvent without space, or by the destructor, is over *)
| Nested (t : tid) (h : hop) (r : out)               (* a call made with the lock held returned *)
| Freed (t : tid)                                    (* the log was destroyed *)
| Terminated (t : tid).                              (* an exception left a destructor *)

(** * The log as its users see it *)

Record lview := {
  v_on : bool;                              (* tracing is on *)
  v_gen : N;                                (* number of factory calls so far *)
  v_buf : option bid;                       (* the buffer the log owns *)
  v_cfg : config;                           (* getTraceConfig *)
  v_names : list (tid * bytes);             (* thread names in the next context *)
  v_dereg : list tid;                       (* threads deregistered while tracing *)
  v_regd : list tid;                        (* registered threads *)
  v_lists : list bytes * list bytes;        (* category lists in force *)
}.

Definition view0 : lview := {|
  v_on := false; v_gen := 0; v_buf := None; v_cfg := config_default; v_names := []; v_dereg := []; v_regd := [];
  v_lists := ([], []) |}.

Definition mem (t : tid) (l : list tid) : bool := existsb (Nat.eqb t) l.
Definition del (t : tid) (l : list tid) : list tid := filter (fun u => negb (Nat.eqb t u)) l.
Definition add (t : tid) (l : list tid) : list tid := if mem t l then l else t :: l.
Definition name_del (t : tid) (l : list (tid * bytes)) : list (tid * bytes) := filter (fun p => negb (Nat.eqb t (fst p))) l.
Definition name_set (t : tid) (n : bytes) (l : list (tid * bytes)) : list (tid * bytes) := (t, n) :: name_del t l.
(** Forget the names of the given threads. *)
Definition name_clear (ds : list tid) (l : list (tid * bytes)) : list (tid * bytes) := filter (fun p => negb (mem (fst p) ds)) l.

(** The effect of a call on the view. *)
Definition after_call (t : tid) (o : op) (r : out) (v : lview) : lview :=
  match o, r with
  | OGetBuffer, RBuf _ | OGetContext, RCtx _ _ =>
      {| v_on := v_on v; v_gen := v_gen v; v_buf := None; v_cfg := v_cfg v; v_names := v_names v; v_dereg := v_dereg v;
         v_regd := v_regd v; v_lists := v_lists v |}
  | ORegister n, RUnit =>
      {| v_on := v_on v; v_gen := v_gen v; v_buf := v_buf v; v_cfg := v_cfg v;
         v_names := if is_nil n then v_names v else name_set t n (v_names v);
         v_dereg := if is_nil n then v_dereg v else del t (v_dereg v);
         v_regd := add t (v_regd v); v_lists := v_lists v |}
  | ODeregister, RUnit =>
      {| v_on := v_on v; v_gen := v_gen v; v_buf := v_buf v; v_cfg := v_cfg v;
         v_names := if v_on v then v_names v else name_del t (v_names v);
         v_dereg := if v_on v then add t (v_dereg v) else v_dereg v;
         v_regd := del t (v_regd v); v_lists := v_lists v |}
  | _, _ => v
  end.

Definition hop_op (h : hop) : op :=
  match h with
  | HStart c => OStart c | HStop s => OStop s | HGetBuffer => OGetBuffer | HGetContext => OGetContext
  | HIsEnabled => OIsEnabled | HLog e => OLog e
  end.

(** The effect of an event on the view. *)
Definition apply (v : lview) (e : hev) : lview :=
  match e with
  | Configured _ c => {| v_on := v_on v; v_gen := v_gen v; v_buf := v_buf v; v_cfg := c; v_names := v_names v;
                         v_dereg := v_dereg v; v_regd := v_regd v; v_lists := v_lists v |}
  | Off _ _ => {| v_on := false; v_gen := v_gen v; v_buf := v_buf v; v_cfg := v_cfg v; v_names := v_names v;
                  v_dereg := v_dereg v; v_regd := v_regd v; v_lists := v_lists v |}
  | Callback _ _ => {| v_on := v_on v; v_gen := v_gen v; v_buf := v_buf v; v_cfg := v_cfg v; v_names := v_names v;
                       v_dereg := v_dereg v; v_regd := v_regd v; v_lists := ([[]], [[]]) |}
  | Made _ g _ _ => {| v_on := v_on v; v_gen := (g + 1)%N; v_buf := v_buf v; v_cfg := v_cfg v; v_names := v_names v;
                       v_dereg := v_dereg v; v_regd := v_regd v; v_lists := v_lists v |}
  | On _ _ m => {| v_on := true; v_gen := v_gen v; v_buf := made_buffer m; v_cfg := v_cfg v;
                   v_names := name_clear (v_dereg v) (v_names v);
                   v_dereg := v_dereg v; v_regd := v_regd v; v_lists := (cf_enabled (v_cfg v), cf_disabled (v_cfg v)) |}
  | Done t o r => after_call t o r v
  | Nested t h r => after_call t (hop_op h) r v
  | Freed _ => {| v_on := v_on v; v_gen := v_gen v; v_buf := None; v_cfg := v_cfg v; v_names := v_names v;
                  v_dereg := v_dereg v; v_regd := v_regd v; v_lists := v_lists v |}
  | Invoked _ _ | Stored _ _ _ | Looked _ _ _ | Tested _ _ _ | StopTried _ _ _ | Terminated _ => v
  end.

Definition view_after (h : list hev) : lview := fold_left apply h view0.

(** * The contract *)

(** Calls that do not take the lock. *)
Definition lock_free (o : op) : bool :=
  match o with OIsEnabled | OGetStatus _ | OLog _ | OMacro _ _ | ODestroy => true | _ => false end.

(** Events that any thread can add at any time. *)
Definition inert (e : hev) : bool :=
  match e with
  | Invoked _ _ | Stored _ _ _ | Looked _ _ _ | Tested _ _ _ | Terminated _ => true
  | Done _ o _ => lock_free o
  | _ => false
  end.

(** View, plus what the current holder of the lock has done since it got it:
    [due] a tracing run was switched off and its callback has not been called
    yet, [fresh] the buffer made for a run that is not switched on yet. *)
Record status := {
  vw : lview;
  due : option (tid * why);
  fresh : option (N * made);
  since : list hev;
}.

Definition status0 : status := {| vw := view0; due := None; fresh := None; since := [] |}.

Definition advance (q : status) (e : hev) : status :=
  if inert e then q else
  {| vw := apply (vw q) e;
     due := match e with Off t s => Some (t, s) | Callback _ _ => None | _ => due q end;
     fresh := match e with Made _ g _ (MadeThrow _) => None | Made _ g _ m => Some (g, m) | On _ _ _ => None | _ => fresh q end;
     since := match e with Done _ _ _ | StopTried _ _ _ | Freed _ => [] | _ => since q ++ [e] end |}.

Definition status_after (h : list hev) : status := fold_left advance h status0.

Section Contract.
  (** sizeof(TraceChunk). *)
  Variable csz : N.

  (** The number of chunks a configuration asks for. *)
  Definition wants (c : config) : N := (cf_size c / csz)%N.

  (** What a factory may do. *)
  Definition factory_can (f : factory) (n : N) (m : made) : Prop :=
    match f, m with
    | _, MadeThrow _ => True
    | make_fixed_buffer, MadeFixed _ n' => n' = n
    | make_ring_buffer, MadeRing _ n' => n' = n
    | user_factory _, _ => True
    | _, _ => False
    end.

  (** The callback a finished stop calls. *)
  Definition callback_due (c : config) (shutdown : bool) : option callback :=
    if shutdown && negb (cf_stop c) then None else cf_callback c.

  (** A stop attempt did nothing, or switched tracing off and called the
      callback; without a callback nothing else can have happened. *)
  Definition stop_legal (q : status) (t : tid) (w : why) (r : out) : Prop :=
    match since q with
    | [] => r = RUnit
    | e1 :: e2 :: rest => e1 = Off t w /\ exists o, e2 = Callback t o /\ (o = None -> rest = [] /\ r = RUnit /\ v_on (vw q) = false)
    | _ => False
    end.

  (** How start may end. *)
  Definition start_legal (q : status) (t : tid) (c : config) (r : out) : Prop :=
    v_cfg (vw q) = c /\
    if (wants c =? 0)%N then r = RThrow InvalidArgument /\ exists before, since q = before ++ [Configured t c]
    else match r with
         | RUnit => exists before g m, since q = before ++ [On t g m]
         | RThrow _ => v_on (vw q) = false
         | _ => False
         end.

  (** Results of calls made with the lock held, at the moment they return. *)
  Definition call_legal (q : status) (t : tid) (o : op) (r : out) : Prop :=
    match o with
    | OStart c => start_legal q t c r /\ (wants c = 0%N -> since q = [Configured t c])
    | OConfigure None => r = RUnit /\ since q = []
    | OConfigure (Some c) => start_legal q t c r /\ (wants c = 0%N -> since q = [Configured t c])
    | OStop s => stop_legal q t (Asked s) r /\ (since q = [] -> v_on (vw q) = false)
    | OGetBuffer => since q = [] /\ r = if v_on (vw q) then RThrow LogicError else RBuf (v_buf (vw q))
    | OGetContext => since q = [] /\ r = if v_on (vw q) then RThrow LogicError else RCtx (v_buf (vw q)) (v_names (vw q))
    | ORegister _ => since q = [] /\ r = if mem t (v_regd (vw q)) then RThrow LogicError else RUnit
    | ODeregister => since q = [] /\ r = if mem t (v_regd (vw q)) then RUnit else RThrow LogicError
    | OGetConfig => since q = [] /\ r = RCfg (v_cfg (vw q))
    | OGetStats => since q = [] /\ exists st, r = RStats st /\
        ls_on st = v_on (vw q) /\ ls_has_buffer st = (match v_buf (vw q) with Some _ => true | None => false end) /\
        ls_names st = length (v_names (vw q)) /\ ls_dereg st = length (v_dereg (vw q)) /\ ls_tenants st = length (v_regd (vw q))
    | OLocked => True
    | OIsEnabled | OGetStatus _ | OLog _ | OMacro _ _ | ODestroy => True
    end.

  Definition nested_legal (q : status) (t : tid) (h : hop) (r : out) : Prop :=
    match h with
    | HStart c => start_legal q t c r
    | HStop _ => r = RUnit \/ exists x, r = RThrow x
    | HGetBuffer => r = if v_on (vw q) then RThrow LogicError else RBuf (v_buf (vw q))
    | HGetContext => r = if v_on (vw q) then RThrow LogicError else RCtx (v_buf (vw q)) (v_names (vw q))
    | HIsEnabled => r = RBool (v_on (vw q))
    | HLog _ => True
    end.

  (** Tracing is restarted only by a start call that has just stored its
      configuration. *)
  Definition restart_legal (q : status) (t : tid) (w : why) : Prop :=
    match w with
    | Restarted => exists before, since q = before ++ [Configured t (v_cfg (vw q))] /\ wants (v_cfg (vw q)) <> 0%N
    | _ => True
    end.

  (** The events that may come next. *)
  Definition legal (q : status) (e : hev) : Prop :=
    if inert e then True else
    match e with
    | Callback t o => exists w, due q = Some (t, w) /\ o = callback_due (v_cfg (vw q)) (is_shutdown w) /\ v_on (vw q) = false
    | _ => due q = None
    end /\
    match e with
    | On t g m => fresh q = Some (g, m) /\ v_on (vw q) = false
    | _ => fresh q = None
    end /\
    match e with
    | Off t w => v_on (vw q) = true /\ restart_legal q t w
    | Made _ g n m => g = v_gen (vw q) /\ v_on (vw q) = false /\ n = wants (v_cfg (vw q)) /\ n <> 0%N /\ factory_can (cf_factory (v_cfg (vw q))) n m
    | Done t o r => call_legal q t o r
    | StopTried t w r => stop_legal q t w r /\ (is_shutdown w = true -> v_on (vw q) = false)
    | Nested t h r => nested_legal q t h r
    | Freed _ => v_on (vw q) = false
    | _ => True
    end.

  (** Every event of a history was allowed when it happened. *)
  Definition all_legal (h : list hev) : Prop :=
    forall before e after, h = before ++ e :: after -> legal (status_after before) e.
End Contract.
