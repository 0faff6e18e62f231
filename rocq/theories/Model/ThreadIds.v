(** include/phosphor/platform/thread.h:56-64 and src/platform/thread.cc:32-55 over an
    operating system in which threads start and end and processes fork. Ids are positive
    (Linux), and no two threads that are alive have the same one; an id may be used again
    after its thread ended. The id of a process is that of its first thread. Simplified: exec,
    and the end of a process with its threads, are left out (threads end one by one). *)
From Verif Require Import Base Spec.ThreadIds Model.Interleave.
Local Open Scope N_scope.

Record thread := { th_name : nat; th_pid : N; th_tid : N; th_cache : N (* thread.h:57, 0 at first *) }.
Record system := { sy_threads : list thread; sy_names : nat; sy_hist : list id_event }.

Definition find_thread (s : system) (h : nat) : option thread := find (fun x => Nat.eqb (th_name x) h) (sy_threads s).
Definition unused (s : system) (t : N) : bool :=
  negb (t =? 0) && forallb (fun x => negb (th_tid x =? t) && negb (th_pid x =? t)) (sy_threads s).

Definition first_program (t : N) : system :=
  {| sy_threads := [{| th_name := 0; th_pid := t; th_tid := t; th_cache := 0 |}]; sy_names := 1;
     sy_hist := [Started 0 t t] |}.

(** thread.cc:32-47. *)
Definition current_thread_id (x : thread) : N := th_tid x.
(** thread.h:56-64: the answer, and the thread_local variable afterwards. *)
Definition cached_id (x : thread) : N * N :=
  let c := if th_cache x =? 0 then current_thread_id x else th_cache x in (c, c).
(** thread.cc:49-55. *)
Definition current_pid (x : thread) : N := th_pid x.

Inductive os_act :=
| OSpawn (h : nat) (t : N)
| OFork (h : nat) (t : N)
| OEnd (h : nat)
| OAskId (h : nat)
| OAskPid (h : nat).

Definition os_step (s : system) (a : os_act) : option system :=
  match a with
  | OSpawn h t =>
      match find_thread s h with
      | Some x => if unused s t then
          (* a new thread has its own thread_local variable *)
          Some {| sy_threads := {| th_name := sy_names s; th_pid := th_pid x; th_tid := t; th_cache := 0 |} :: sy_threads s;
                  sy_names := S (sy_names s); sy_hist := sy_hist s ++ [Spawned (sy_names s) h (th_pid x) t] |}
          else None
      | None => None
      end
  | OFork h t =>
      match find_thread s h with
      | Some x => if unused s t then
          (* the child is a copy of the thread that forks, with its thread_local variable *)
          Some {| sy_threads := {| th_name := sy_names s; th_pid := t; th_tid := t; th_cache := th_cache x |} :: sy_threads s;
                  sy_names := S (sy_names s); sy_hist := sy_hist s ++ [Forked (sy_names s) h t t] |}
          else None
      | None => None
      end
  | OEnd h =>
      match find_thread s h with
      | Some x => Some {| sy_threads := filter (fun y => negb (Nat.eqb (th_name y) h)) (sy_threads s);
                          sy_names := sy_names s; sy_hist := sy_hist s ++ [Ended h] |}
      | None => None
      end
  | OAskId h =>
      match find_thread s h with
      | Some x => let (v, c) := cached_id x in
          Some {| sy_threads := map (fun y => if Nat.eqb (th_name y) h then {| th_name := th_name y; th_pid := th_pid y; th_tid := th_tid y; th_cache := c |} else y) (sy_threads s);
                  sy_names := sy_names s; sy_hist := sy_hist s ++ [AskedId h v] |}
      | None => None
      end
  | OAskPid h =>
      match find_thread s h with
      | Some x => Some {| sy_threads := sy_threads s; sy_names := sy_names s; sy_hist := sy_hist s ++ [AskedPid h (current_pid x)] |}
      | None => None
      end
  end.
Definition os_run (t : N) (sched : list os_act) : system := run os_step (first_program t) sched.
