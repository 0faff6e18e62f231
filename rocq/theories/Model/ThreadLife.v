(** Threads that end, and operating-system thread ids that are used again.

    A thread begins with its first call and may end between two calls. Its
    tenant is a thread-local object (trace_log.cc:36) and is destroyed with it;
    the log keeps a pointer to it while the thread is registered
    (trace_log.cc:198-199, trace_log.h:365). The names of threads and the list of
    deregistered threads are kept under the operating-system id
    (trace_log.cc:200-208, 229-233, 319-323), which two threads may share unless
    both are running.

    The log is that of Model/TraceLog.v, whose own name table is under thread
    numbers; here the tables under ids are kept beside it and are changed by the
    same actions. *)
From Verif Require Import Base Model.StringUtils Model.Event Model.Queue Model.Buffer Model.Config Model.Registry
  Model.Interleave Spec.LogHistory Model.TraceLog Model.ManyLogs.

Inductive stage := NotStarted | Running | Ended.

Record life := {
  l_log : st;
  l_stage : tid -> stage;
  l_running : list tid;
  l_names : list (N * bytes);                      (* trace_log.h:375 thread_names *)
  l_dereg : list N;                                (* trace_log.h:380 deregistered_threads *)
  l_read : list (list hev * list (N * bytes));     (* what getTraceContext copied, and the history then *)
  l_dangling : bool;                               (* a destroyed tenant was accessed *)
}.

Inductive lact := Do (a : sact) | Exit (t : tid).

(** std::unordered_map and std::unordered_set under ids. *)
Definition id_mem (i : N) (l : list N) : bool := existsb (N.eqb i) l.
Definition id_del (i : N) (l : list N) : list N := filter (fun j => negb (N.eqb i j)) l.
Definition id_add (i : N) (l : list N) : list N := if id_mem i l then l else i :: l.
Definition id_name_del (i : N) (l : list (N * bytes)) : list (N * bytes) := filter (fun p => negb (N.eqb i (fst p))) l.
Definition id_name_set (i : N) (n : bytes) (l : list (N * bytes)) : list (N * bytes) := (i, n) :: id_name_del i l.
Definition id_name_clear (ds : list N) (l : list (N * bytes)) : list (N * bytes) := filter (fun p => negb (id_mem (fst p) ds)) l.

(** The tenant of another thread that an action accesses (trace_log.cc:311-317). *)
Definition visits (c : cmd) : option tid :=
  match c with
  | Act (AMaster u) _ | Act (AEvict u) _ | Act (AUnMaster u) _ => Some u
  | _ => None
  end.

Section Life.
  Variables cap csz : N.
  Variable site_cat : nat -> bytes.
  (** The id the system gave to each thread (platform/thread.cc). *)
  Variable oid : tid -> N.

  (** A thread can begin only if its id is not in use. *)
  Definition can_run (w : life) (t : tid) : bool :=
    match l_stage w t with
    | Running => true
    | Ended => false
    | NotStarted => forallb (fun u => negb (N.eqb (oid u) (oid t))) (l_running w)
    end.

  (** trace_log.cc:203, 232 and 319-323, the name table. *)
  Definition names_by (c : cmd) (t : tid) (ds : list N) (l : list (N * bytes)) : list (N * bytes) :=
    match c with
    | Act (ANameSet n) _ => id_name_set (oid t) n l
    | Act ANameDel _ => id_name_del (oid t) l
    | Act AClear _ => id_name_clear ds l
    | _ => l
    end.

  (** trace_log.cc:207 and 230, the set of deregistered threads. *)
  Definition dereg_by (c : cmd) (t : tid) (ds : list N) : list N :=
    match c with
    | Act ADeregAdd _ => id_add (oid t) ds
    | Act ADeregDel _ => id_del (oid t) ds
    | _ => ds
    end.

  (** trace_log.cc:181 [getTraceContext] copies the names. *)
  Definition read_by (c : cmd) (h : list hev) (l : list (N * bytes)) : list (list hev * list (N * bytes)) :=
    match c with Act ANames _ => [(h, l)] | _ => [] end.

  (** What the thread performs when it is scheduled. *)
  Definition doing (w : life) (a : sact) : cmd := match a with Step t _ => code (l_log w) t | _ => Ret end.

  Definition ended (w : life) (u : tid) : bool := match l_stage w u with Ended => true | _ => false end.

  Definition lstep (w : life) (x : lact) : option life :=
    if l_dangling w then None else
    match x with
    | Exit t =>
        match l_stage w t, code (l_log w) t with
        | Running, Ret => Some {| l_log := l_log w; l_stage := tset (l_stage w) t Ended; l_running := del t (l_running w);
                                  l_names := l_names w; l_dereg := l_dereg w; l_read := l_read w; l_dangling := false |}
        | _, _ => None
        end
    | Do a =>
        let t := thread_of a in
        let c := doing w a in
        if can_run w t then
          match pstep cap csz site_cat (l_log w) a with
          | Some s => Some {| l_log := s; l_stage := tset (l_stage w) t Running; l_running := add t (l_running w);
                              l_names := names_by c t (l_dereg w) (l_names w); l_dereg := dereg_by c t (l_dereg w);
                              l_read := l_read w ++ read_by c (hist (l_log w)) (l_names w);
                              l_dangling := match visits c with Some u => ended w u | None => false end |}
          | None => None
          end
        else None
    end.

  Definition life_new : life := {|
    l_log := log_new; l_stage := fun _ => NotStarted; l_running := []; l_names := []; l_dereg := []; l_read := []; l_dangling := false |}.
End Life.
