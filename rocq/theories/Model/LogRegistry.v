(** The trace log of Model/LogQueue.v with the category registry as it is
    implemented: looking a group up (category_registry.cc:30-59) and switching
    the statuses on (102-113) or off (115-126) are calls of the registry of
    Model/RegistryConc.v, in which every access to shared memory is a step that
    other threads' steps may come between.

    Everything else is as in Model/LogQueue.v. The field [reg] of the log is
    what is in the registry's memory at the moment. *)
From Verif Require Import Base Spec.CategoryHistory Spec.QueueHistory Model.StringUtils Model.Event Model.Queue Model.Buffer Model.Config Model.Registry Model.Interleave
  Spec.LogHistory Model.QueueConc Model.RegistryConc Model.TraceLog Model.LogQueue.

Record rlog := {
  rl_q : qlog;
  rl_reg : cregistry;
}.

Definition rl_log (s : rlog) : st := ql_log (rl_q s).

Definition rl_new : rlog := {| rl_q := ql_new; rl_reg := cr_new |}.

(** The registry's memory. *)
Definition seen (r : cregistry) : registry := {|
  rg_groups := fun i => match cr_groups r i with Some g => g | None => [] end;
  rg_status := cr_status r;
  rg_count := cr_count r;
  rg_enabled := cr_enabled r;
  rg_disabled := cr_disabled r;
|}.

Definition rl_put (s : rlog) (l : st) (r : cregistry) : rlog :=
  {| rl_q := {| ql_log := set_reg l (seen r); ql_q := ql_q (rl_q s) |}; rl_reg := r |}.

(** One step of a lookup. The answer is noted in the history when it is settled,
    which may be before the mutex is released. *)
Definition rl_look (s : rlog) (t : tid) (category : bytes) (k : nat -> cmd) : option rlog :=
  let r := rl_reg s in
  let l := rl_log s in
  match rstep r (match cr_pc r t with GIdle => CallGet t category | _ => RGo t end) with
  | None => None
  | Some r' =>
      Some (rl_put s
        (match cr_pc r t, cr_pc r' t with
         | GScan _ i _, GIdle => set_cmd (emit l (Looked t category i)) t (k i)
         | LScan _ _ _, LRet _ i | WInc _ _, LRet _ i => emit l (Looked t category i)
         | LRet _ i, GIdle => set_cmd l t (k i)
         | _, GCrash => set_bad l true
         | _, _ => l
         end) r')
  end.

(** One step of updateEnabled ([Some]) or disableAll ([None]). *)
Definition rl_switch (s : rlog) (t : tid) (x : option (list bytes * list bytes)) (k : unit -> cmd) : option rlog :=
  let r := rl_reg s in
  let l := rl_log s in
  match rstep r (match cr_pc r t with GIdle => CallSwitch t x | _ => RGo t end) with
  | None => None
  | Some r' =>
      Some (rl_put s
        (match cr_pc r t, cr_pc r' t with
         | URet _, GIdle => set_cmd l t (k tt)
         | _, GCrash => set_bad l true
         | _, _ => l
         end) r')
  end.

Section Run.
  Variables cap csz : N.
  Variable site_cat : nat -> bytes.

  Definition rl_plain (s : rlog) (a : sact * bool) : option rlog :=
    match ql_step cap csz site_cat (rl_q s) a with
    | None => None
    | Some q => Some {| rl_q := q; rl_reg := rl_reg s |}
    end.

  (** A trace point reads the status that is there. *)
  Definition rl_step (s : rlog) (a : sact * bool) : option rlog :=
    let l := rl_log s in
    if bad l then None else
    match fst a with
    | Step t _ =>
        match code l t with
        | Act x k =>
            match x return (ans x -> cmd) -> option rlog with
            | AGetStatus category => fun k => rl_look s t category k
            | ADisableAll => fun k => rl_switch s t None k
            | AUpdate en dis => fun k => rl_switch s t (Some (en, dis)) k
            | AStatus _ => fun _ => rl_plain s (Step t CNone, snd a)
            | _ => fun _ => rl_plain s a
            end k
        | Ret => None
        end
    | _ => rl_plain s a
    end.

  Definition rl_run (sched : list (sact * bool)) : rlog := run rl_step rl_new sched.
End Run.
