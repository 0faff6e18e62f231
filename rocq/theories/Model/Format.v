(** Model of [format_string] (string_utils.cc:22-48) and of the printf
    directives it is used with (trace_event.cc:58-70, 83, 166-173, 193-194 and
    export.cc:21-28).

    Simplifications: of printf the directives [d] and [x] (with the flag [0], a
    width, [l] and [ll]) and [s] without flags, which are all that occur; an
    argument of another type of the same size is read as its bits (x86-64), one
    of another size is undefined unless a shorter one is read, which gets the
    low bits. *)
From Verif Require Import Base Model.StringUtils Model.Event.
Open Scope Z_scope.

(** * Arguments *)

(** What is passed through the ellipsis: the value of its C type. *)
Inductive carg :=
| CInt (z : Z)
| CLong (z : Z)
| CLongLong (z : Z)
| CULong (n : N)
| CPtr (w : word)
| CStr (s : bytes).            (* a pointer to a string of which [s] is readable *)

(** The low 32 bits of what was passed. *)
Definition as_int (a : carg) : option Z :=
  match a with
  | CInt z | CLong z | CLongLong z => Some (to_signed 32 (Z.to_N (z mod 2 ^ 32)))
  | CULong n | CPtr n => Some (to_signed 32 (n mod 2 ^ 32))
  | CStr _ => None
  end.

(** All 64 bits; of an [int] only 32 were passed. *)
Definition as_word (a : carg) : option N :=
  match a with
  | CLong z | CLongLong z => Some (wrap64 z)
  | CULong n | CPtr n => Some n
  | CInt _ | CStr _ => None
  end.

(** * Directives *)

Record spec := { sp_zero : bool; sp_width : nat; sp_longs : nat }.
Definition spec0 : spec := {| sp_zero := false; sp_width := 0; sp_longs := 0 |}.

Definition spaces (w : nat) (s : bytes) : bytes := repeat (chr 32) (w - length s) ++ s.

(** %d, %ld, %lld *)
Definition put_signed (s : spec) (z : Z) : bytes :=
  if sp_zero s then dec0Z (sp_width s) z else spaces (sp_width s) (decZ z).

(** %lx, %llx *)
Definition put_hex (s : spec) (n : N) : bytes :=
  if sp_zero s then pad0 (sp_width s) (hex n) else spaces (sp_width s) (hex n).

Definition convert (s : spec) (c : ascii) (a : carg) : option bytes :=
  if Ascii.eqb c "d" then
    match sp_longs s with
    | O => option_map (put_signed s) (as_int a)
    | 1%nat | 2%nat => option_map (fun n => put_signed s (to_s64 n)) (as_word a)
    | _ => None
    end
  else if Ascii.eqb c "x" then
    match sp_longs s with
    | 1%nat | 2%nat => option_map (put_hex s) (as_word a)
    | _ => None
    end
  else if Ascii.eqb c "s" then
    match s, a with
    | {| sp_zero := false; sp_width := O; sp_longs := O |}, CStr m => Some (c_str m)
    | _, _ => None
    end
  else None.

Definition digit_of (c : ascii) : option nat :=
  let n := nat_of_ascii c in
  if (Nat.leb 48 n && Nat.leb n 57)%bool then Some (n - 48)%nat else None.

(** What is written; [None] if that is undefined. [st] is the directive being
    read. *)
Fixpoint printf (fmt : bytes) (st : option spec) (args : list carg) : option bytes :=
  match fmt, st with
  | [], None => Some []
  | [], Some _ => None
  | c :: f, None =>
      if Ascii.eqb c "%" then printf f (Some spec0) args
      else option_map (cons c) (printf f None args)
  | c :: f, Some s =>
      if Ascii.eqb c "l" then printf f (Some {| sp_zero := sp_zero s; sp_width := sp_width s; sp_longs := S (sp_longs s) |}) args
      else match digit_of c with
      | Some d =>
          match sp_longs s with
          | O => if (Nat.eqb d 0 && Nat.eqb (sp_width s) 0)%bool
                 then printf f (Some {| sp_zero := true; sp_width := 0; sp_longs := 0 |}) args
                 else printf f (Some {| sp_zero := sp_zero s; sp_width := 10 * sp_width s + d; sp_longs := 0 |}) args
          | _ => None
          end
      | None =>
          match args with
          | [] => None
          | a :: r => match convert s c a with
                      | Some t => option_map (app t) (printf f None r)
                      | None => None
                      end
          end
      end
  end.

(** * format_string *)

Definition INT_MAX : Z := 2 ^ 31 - 1.

(** vsnprintf with room for [size] bytes, when the formatted text is [t]: the
    answer and the bytes stored. A text whose length is no [int] is an error
    (POSIX: EOVERFLOW). *)
Definition vsnprintf (size : Z) (t : bytes) : Z * bytes :=
  if INT_MAX <? Z.of_nat (length t) then (-1, [])
  else (Z.of_nat (length t), if size =? 0 then [] else firstn (Z.to_nat size - 1) t ++ [NUL]).

Inductive outcome :=
| Text (s : bytes)
| Failed                       (* std::runtime_error *)
| Undefined.

(** string_utils.cc:22-48. [t1] is the formatted text when its length is
    computed, [t2] when it is written: they differ if another thread changes a
    string in between. *)
Definition format_string (t1 t2 : bytes) : outcome :=
  let r1 := fst (vsnprintf 0 t1) in
  if r1 =? INT_MAX then Undefined                       (* + 1 overflows *)
  else
    let len := r1 + 1 in
    if len <? 0 then Failed
    else
      let buffer := repeat NUL (Z.to_nat len) in
      let '(r2, w) := vsnprintf len t2 in
      if (r2 <? 0) || (len <? r2) then Failed
      else match buffer with
           | [] => Undefined                            (* data() of an empty vector *)
           | _ => Text (c_str (w ++ skipn (length w) buffer))
           end.

(** The bytes of the buffer that are written. *)
Definition written (t1 t2 : bytes) : nat := length (snd (vsnprintf (fst (vsnprintf 0 t1) + 1) t2)).
Definition room (t1 : bytes) : nat := Z.to_nat (fst (vsnprintf 0 t1) + 1).

Definition format (fmt : bytes) (args : list carg) : outcome :=
  match printf fmt None args with
  | Some t => format_string t t
  | None => Undefined
  end.

(** * The calls *)

(** trace_event.cc:58-70 *)
Definition event_fmt : bytes :=
  $"TraceEvent<%dd %02ld:%02ld:%02lld.%09lld, %s, %s, type=%s, arg1=%s, arg2=%s>".

Definition event_args (mem : memory) (e : event) : res (list carg) :=
  let '(d, h, m, s, ns) := split_time (ev_time e) in
  do ty <- typeToString (tp_type (ev_tpi e));
  do a1 <- arg_to_string mem (fst (ev_args e)) (fst (tp_arg_types (ev_tpi e)));
  do a2 <- arg_to_string mem (snd (ev_args e)) (snd (tp_arg_types (ev_tpi e)));
  Ok [CInt d; CLong h; CLong m; CLong s; CLong ns; CStr (tp_category (ev_tpi e)); CStr (tp_name (ev_tpi e)); CStr ty; CStr a1; CStr a2].

(** trace_event.cc:82-83 *)
Definition ts_fmt : bytes := $",""ts"":%lld.%03lld".
Definition micros_args (ns : N) : list carg := [CLongLong (Z.quot (to_s64 ns) 1000); CLongLong (Z.rem (to_s64 ns) 1000)].

(** trace_event.cc:192-194 *)
Definition dur_fmt : bytes := $",""dur"":%lld.%03lld".

(** trace_event.cc:166-167, 171-172; PRIxPTR is "lx". *)
Definition id_fmt : bytes := $",""id"": ""0x%lx""".

(** export.cc:21-28 *)
Definition thread_fmt : bytes :=
  $"{""name"":""thread_name"",""ph"":""M"",""pid"":%d,""tid"":%d,""args"":{""name"":""%s""}}".
Definition thread_args (pid : Z) (a : N * bytes) : list carg := [CInt pid; CULong (fst a); CStr (snd a)].
