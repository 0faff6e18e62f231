(** The trace log of Model/TraceLog.v with the return queue of ring buffers as
    it is implemented: waiting for a chunk (trace_buffer.cc:213-214) and giving
    one back (trace_buffer.cc:225-227) are calls of the lock-free queue of
    Model/QueueConc.v, repeated until they succeed, in which every access to
    shared memory is a step that other threads' steps may come between.

    Everything else is as in Model/TraceLog.v. The field [b_queue] of a buffer
    is not used. *)
From Verif Require Import Base Spec.QueueHistory Model.Event Model.Queue Model.Buffer Model.Config Model.Interleave
  Spec.LogHistory Model.QueueConc Model.TraceLog.

(** A log and the return queue of each buffer. *)
Record qlog := {
  ql_log : st;
  ql_q : bid -> cqueue N;
}.

Definition ql_new : qlog := {| ql_log := log_new; ql_q := fun _ => cq_new 0 |}.

Definition ql_crash (s : qlog) : qlog := {| ql_log := set_bad (ql_log s) true; ql_q := ql_q s |}.

(** One step of the queue of [b]; the thread [t] goes on with [c], if given. *)
Definition ql_queue (s : qlog) (t : tid) (b : bid) (a : qact N) (c : option cmd) : option qlog :=
  match qstep (ql_q s b) a with
  | None => None
  | Some q => Some {| ql_log := match c with Some c => set_cmd (ql_log s) t c | None => ql_log s end;
                      ql_q := tset (ql_q s) b q |}
  end.

(** The object is there, and it is a ring buffer. *)
Definition ring_there (s : st) (b : bid) : bool :=
  match b_owner (heap s b), b_kind (heap s b) with Mine, Ring => true | _, _ => false end.

(** trace_buffer.cc:213-214: [while (!return_queue.dequeue(chunk)) {}]. *)
Definition ql_take (s : qlog) (t : tid) (b : bid) (spurious : bool) (k : N -> cmd) : option qlog :=
  if ring_there (ql_log s) b then
    match cq_pc (ql_q s b) t with
    | QIdle => ql_queue s t b (CallDeq t) None
    | DPub _ _ (Some i) => ql_queue s t b (Go t spurious) (Some (k i))
    | DPub _ _ None => Some (ql_crash s)             (* never-written memory is used as a pointer *)
    | _ => ql_queue s t b (Go t spurious) None
    end
  else Some (ql_crash s).

(** trace_buffer.cc:225-227: [while (!return_queue.enqueue(&chunk))]. *)
Definition ql_put (s : qlog) (t : tid) (b : bid) (i : N) (spurious : bool) (k : unit -> cmd) : option qlog :=
  if ring_there (ql_log s) b && (i <? b_size (heap (ql_log s) b))%N then
    match cq_pc (ql_q s b) t with
    | QIdle => ql_queue s t b (CallEnq t i) None
    | EPub _ _ _ => ql_queue s t b (Go t spurious) (Some (k tt))
    | _ => ql_queue s t b (Go t spurious) None
    end
  else Some (ql_crash s).

Section Run.
  Variables cap csz : N.
  Variable site_cat : nat -> bytes.

  (** A step of the log that is not a call of a queue. A new ring buffer has a
      new queue (trace_buffer.cc:195-201). *)
  Definition ql_plain (s : qlog) (a : sact) : option qlog :=
    match step cap csz site_cat (ql_log s) a with
    | None => None
    | Some l =>
        let b := nbuf (ql_log s) in
        Some {| ql_log := l;
                ql_q := if Nat.eqb (nbuf l) b then ql_q s
                        else tset (ql_q s) b (cq_new (upper_power_of_two (b_size (heap l b)))) |}
    end.

  (** The second component: whether a compare_exchange_weak fails spuriously. *)
  Definition ql_step (s : qlog) (a : sact * bool) : option qlog :=
    let l := ql_log s in
    if bad l then None else
    if polite l (fst a) then
      match fst a with
      | Step t _ =>
          match code l t with
          | Act x k =>
              match x return (ans x -> cmd) -> option qlog with
              | ADeq b => fun k => ql_take s t b (snd a) k
              | AReturn b i => fun k =>
                  match b_kind (heap l b) with
                  | Ring => ql_put s t b i (snd a) k
                  | Fixed => ql_plain s (fst a)
                  end
              | _ => fun _ => ql_plain s (fst a)
              end k
          | Ret => None
          end
      | _ => ql_plain s (fst a)
      end
    else None.

  Definition ql_run (sched : list (sact * bool)) : qlog := run ql_step ql_new sched.
End Run.
