(** A fixed buffer (src/trace_buffer.cc:102-182) used by threads, on the memory of
    WeakMem.v: the same code as FixedConc.v, with the memory orders that it asks
    for. A chunk's contents are one plain variable, which its user reads and
    writes, and which others read after it was given back (trace_buffer.cc:159-173). *)
From Verif Require Import Base Spec.FixedHistory Spec.FixedWeak Model.Queue Model.Interleave Model.WeakMem Model.FixedConc.
Local Open Scope N_scope.

(** trace_buffer.cc:176-180. *)
Definition issued : loc := Loc 0 0.
Definition on_loan : loc := Loc 1 0.
Definition chunk_var (c : N) : loc := Loc 2 c.

Record zfixed := {
  z_size : N;
  z_mem : wmem unit;
  z_pc : tid -> fpc;
  z_hist : list weak_event;
}.

(** trace_buffer.cc:104-106; the buffer is made before any thread gets at it. *)
Definition zfixed_new (n : N) : zfixed :=
  {| z_size := n; z_mem := wmem_new (fun _ => 0) (fun _ => tt); z_pc := fun _ => FIdle; z_hist := [] |}.

Inductive zact :=
| ZGet (t : tid)
| ZGo (t : tid) (i : nat) (k : N)               (* the next access; [i], [k] as in WeakMem.v *)
| ZRet (t : tid) (c : N) (i : nat) (k : N)
| ZUse (t : tid) (c : N) (write : bool)         (* the user of a chunk accesses it *)
| ZRead (t : tid) (c : N)                       (* somebody iterates over a chunk *)
| ZFull (t : tid) (i : nat)
| ZCount (t : tid) (i : nat)
| ZSync (t u : tid).

Definition z_goto (z : zfixed) (m : wmem unit) (t : tid) (p : fpc) (e : list weak_event) : zfixed :=
  {| z_size := z_size z; z_mem := m; z_pc := tset (z_pc z) t p; z_hist := z_hist z ++ e |}.

(** Thread [t] got the chunk and has not given it back. *)
Definition got_by (t : tid) (c : N) (h : list fixed_event) : bool :=
  existsb (fun e => match e with FGot u (Some d) => Nat.eqb u t && (d =? c) | _ => false end) h.
Definition z_has (z : zfixed) (t : tid) (c : N) : bool :=
  got_by t c (core (z_hist z)) && negb (existsb (N.eqb c) (came_back (core (z_hist z)))).

(** Only the thread that got a chunk uses it and gives it back; others read it
    only if they know of that. *)
Definition zstep (z : zfixed) (a : zact) : option zfixed :=
  let m := z_mem z in
  match a with
  | ZGet t => match z_pc z t with FIdle => Some (z_goto z m t FIssue [Did (FCalled t)]) | _ => None end
  | ZGo t i k =>
      match z_pc z t with
      | FIdle => None
      (* trace_buffer.cc:111-115; issued++ is seq_cst *)
      | FIssue =>
          match wfetch_add m t true true issued 1 i k with
          | Some (offset, m') =>
              if z_size z <=? offset then Some (z_goto z m' t FIdle [Did (FGot t None)]) else Some (z_goto z m' t (FReset offset) [])
          | None => None
          end
      (* trace_buffer.cc:116-117: TraceChunk::reset writes the chunk *)
      | FReset c => Some (z_goto z (wwrite m t (chunk_var c) tt) t (FLoan c) [])
      (* trace_buffer.cc:118; a RelaxedAtomic *)
      | FLoan c =>
          match wfetch_add m t false false on_loan 1 i k with
          | Some (_, m') => Some (z_goto z m' t FIdle [Did (FGot t (Some c))])
          | None => None
          end
      end
  (* trace_buffer.cc:121-124 *)
  | ZRet t c i k =>
      match z_pc z t with
      | FIdle =>
          if z_has z t c then
            match wfetch_add m t false false on_loan (w64 - 1) i k with
            | Some (_, m') => Some (z_goto z m' t FIdle [Did (FGaveBack t c)])
            | None => None
            end
          else None
      | _ => None
      end
  | ZUse t c w =>
      match z_pc z t with
      | FIdle => if z_has z t c then Some (z_goto z (wtouch m t (chunk_var c) w tt) t FIdle []) else None
      | _ => None
      end
  | ZRead t c =>
      match z_pc z t with
      | FIdle => if informed (z_hist z) t c then Some (z_goto z (wtouch m t (chunk_var c) false tt) t FIdle []) else None
      | _ => None
      end
  (* trace_buffer.cc:126-128; a seq_cst load *)
  | ZFull t i =>
      match z_pc z t, wload m t true issued i with
      | FIdle, Some (v, m') => Some (z_goto z m' t FIdle [Did (FTold t (z_size z <=? v))])
      | _, _ => None
      end
  (* trace_buffer.cc:154-157; a seq_cst load *)
  | ZCount t i =>
      match z_pc z t, wload m t true issued i with
      | FIdle, Some (v, m') => Some (z_goto z m' t FIdle [Did (FCounted t (if v <? z_size z then v else z_size z))])
      | _, _ => None
      end
  | ZSync t u =>
      match z_pc z t with
      | FIdle => Some (z_goto z (with_seen m t (vjoin (seen m t) (seen m u))) t FIdle [Synced t u])
      | _ => None
      end
  end.

Definition zrun (n : N) (sched : list zact) : zfixed := run zstep (zfixed_new n) sched.
