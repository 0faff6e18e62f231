(** What a StatsCallback that a user wrote sees of the calls of getStats. *)
From Verif Require Import Base.

(** The kinds of value a stat can have (stats_callback.h:44-48); of the five overloads these
    three are used. *)
Inductive value := VText (v : bytes) | VBool (v : bool) | VSize (v : N).
Definition stat := (bytes * value)%type.

Inductive kind := KFixed | KRing.
Record ident := { i_kind : kind; i_size : N; i_gen : N }.

(** What changes only under the mutex of the log, and what also changes without it: the
    counters of the buffer and the number of category groups. *)
Record facts := { fa_on : bool; fa_buf : option ident; fa_names : N; fa_dereg : N; fa_tenants : N }.
Record world := { w_facts : facts; w_groups : N; w_issued : N; w_loan : N }.

(** The calls: getStats, and the first use of a category. *)
Inductive scall := GetStats | Lookup.

Inductive happened :=
| Enter (t : nat) (c : scall)
| Told (t : nat) (x : stat)            (* the callback of [t] is called *)
| Came (t : nat)                       (* it returns *)
| Threw (t : nat)                      (* it throws *)
| Left (t : nat) (c : scall) (threw : bool)
| Now (w : world).                     (* what there is to report has changed *)

Definition thread_of (e : happened) : option nat :=
  match e with Enter t _ | Told t _ | Came t | Threw t | Left t _ _ => Some t | Now _ => None end.
Definition did (t : nat) (e : happened) : bool :=
  match thread_of e with Some u => Nat.eqb u t | None => false end.

(** What the callback of [t] was told since the last call of getStats by [t]. *)
Definition tell (t : nat) (l : list stat) (e : happened) : list stat :=
  if did t e then match e with Enter _ GetStats => [] | Told _ x => l ++ [x] | _ => l end else l.
Definition told (h : list happened) (t : nat) : list stat := fold_left (tell t) h [].

(** The stat for which the callback of [t] is running. *)
Definition listen (t : nat) (o : option stat) (e : happened) : option stat :=
  if did t e then
    match e with
    | Enter _ GetStats | Left _ GetStats _ | Came _ | Threw _ => None
    | Told _ x => Some x
    | _ => o
    end
  else o.
Definition listening (h : list happened) (t : nat) : option stat := fold_left (listen t) h None.

(** The callback threw since the last call of getStats by [t]. *)
Definition throw (t : nat) (b : bool) (e : happened) : bool :=
  if did t e then match e with Enter _ GetStats => false | Threw _ => true | _ => b end else b.
Definition thrown (h : list happened) (t : nat) : bool := fold_left (throw t) h false.

(** What there was to report, at every moment since [t] last called getStats: the current
    world and the list. *)
Definition watch (t : nat) (p : world * list world) (e : happened) : world * list world :=
  match e with
  | Now w => (w, snd p ++ [w])
  | Enter u GetStats => if Nat.eqb u t then (fst p, [fst p]) else p
  | _ => p
  end.
Definition during (w0 : world) (h : list happened) (t : nat) : list world := snd (fold_left (watch t) h (w0, [w0])).

(** The full report: what the mutex protects is as of one moment [now], the number of groups
    and the counters of the buffer as of moments of their own. *)
Definition buffer_report (i : ident) (full count total loan : world) : list stat :=
  [ ($"buffer_name", VText match i_kind i with KFixed => $"FixedTraceBuffer" | KRing => $"RingTraceBuffer" end);
    ($"buffer_is_full", VBool match i_kind i with KFixed => (i_size i <=? w_issued full)%N | KRing => false end);
    ($"buffer_chunk_count", VSize (N.min (w_issued count) (i_size i)));
    ($"buffer_total_loaned", VSize match i_kind i with KFixed => N.min (w_issued count) (i_size i) | KRing => w_issued total end);
    ($"buffer_loaned_chunks", VSize (w_loan loan));
    ($"buffer_size", VSize (i_size i));
    ($"buffer_generation", VSize (i_gen i)) ].
Definition report (now groups full count total loan : world) : list stat :=
  let f := w_facts now in
  [($"registry_group_count", VSize (w_groups groups))] ++
  match fa_buf f with Some i => buffer_report i full count total loan | None => [] end ++
  [ ($"log_is_enabled", VBool (fa_on f));
    ($"log_has_buffer", VBool match fa_buf f with Some _ => true | None => false end);
    ($"log_thread_names", VSize (fa_names f));
    ($"log_deregistered_threads", VSize (fa_dereg f));
    ($"log_registered_tenants", VSize (fa_tenants f)) ].

(** [l] is a report on moments in [ws]; or begins one. *)
Definition reports (ws : list world) (l : list stat) : Prop :=
  exists now groups full count total loan,
    In now ws /\ In groups ws /\ In full ws /\ In count ws /\ In total ws /\ In loan ws /\
    l = report now groups full count total loan.
Definition begins (ws : list world) (l : list stat) : Prop := l <> [] /\ exists rest, reports ws (l ++ rest).

Definition first_key : bytes := $"registry_group_count".
