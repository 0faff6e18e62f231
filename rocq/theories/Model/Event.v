(** Model of inline_zstring.h, trace_argument.h and trace_event.cc. *)
From Verif Require Import Base Model.StringUtils.

(** Outcome of a C++ operation: a value, an exception, or undefined
    behaviour (an invalid memory access). *)
Inductive exn := InvalidArgument | OutOfRange | LogicError | SystemError | BadAlloc.

Inductive res (A : Type) :=
| Ok (a : A)
| Throw (e : exn)
| UB.
Arguments Ok {A} a.
Arguments Throw {A} e.
Arguments UB {A}.

Definition bind {A B} (r : res A) (f : A -> res B) : res B :=
  match r with Ok a => f a | Throw e => Throw e | UB => UB end.
Notation "'do' x <- r ; k" := (bind r (fun x => k))
  (at level 200, x name, r at level 100, k at level 200).

(** * inline_zstring.h (max_length = 8 as used by TraceArgument) *)

Definition zstring_len : nat := 8.

(** inline_zstring.h:61-65, the constructor from a pointer to readable memory
    [s] and a length; [None] if the memcpy would read outside [s]. *)
Definition izs_make (s : bytes) (len : nat) : option bytes :=
  let copyLen := if Nat.ltb len zstring_len then len else zstring_len in
  if Nat.ltb (length s) copyLen then None
  else Some (firstn copyLen s ++ repeat NUL (zstring_len - copyLen)).

(** inline_zstring.h:70-72, conversion to std::string. *)
Definition izs_string (z : bytes) : option bytes :=
  match strnlen_s (Some z) zstring_len with
  | Some n => Some (firstn n z)
  | None => None
  end.

(** * trace_argument.h *)

(** tracepoint_info.h:26-35 [TraceArgumentType]; [arg_invalid] stands for any
    other value of the underlying char. *)
Inductive argtype :=
| is_bool | is_uint | is_int | is_double | is_pointer | is_string
| is_istring | is_none | arg_invalid.

(** trace_argument.h:40-50: the union is its 8 bytes, as a little-endian
    64-bit word. [word_bytes]/[bytes_word] convert. *)
Definition word := N.

Fixpoint word_bytes (n : nat) (w : word) : bytes :=
  match n with
  | O => []
  | S k => chr (w mod 256)%N :: word_bytes k (w / 256)%N
  end.

Fixpoint bytes_word (b : bytes) : word :=
  match b with
  | [] => 0
  | c :: r => N_of_ascii c + 256 * bytes_word r
  end%N.

(** Values that can be passed as arguments (trace_argument.h:142-198). The
    integer constructors carry the value after the implicit conversion to
    long long / unsigned long long, which preserves the value of every listed
    source type (char is signed on the target). Floats are widened to double,
    so a double's bit pattern is the input here. Pointers are addresses. *)
Inductive cval :=
| VBool (b : bool)
| VInt (z : Z)
| VUint (n : N)
| VDouble (bits : N)
| VPtr (a : N)
| VStr (a : N)
| VIstr (z : bytes)
| VNone.

(** trace_argument.h:122-140, [TraceArgumentConversion::getType]. *)
Definition getType (v : cval) : argtype :=
  match v with
  | VBool _ => is_bool | VInt _ => is_int | VUint _ => is_uint
  | VDouble _ => is_double | VPtr _ => is_pointer | VStr _ => is_string
  | VIstr _ => is_istring | VNone => is_none
  end.

(** trace_argument.h:122-140, [asArgument]: the union's bytes. Bytes not
    written by the constructor are indeterminate: [junk]. *)
Definition asArgument (v : cval) (junk : N) : word :=
  match v with
  | VBool b => (if b then 1 else 0) + 256 * (junk mod 2 ^ 56)
  | VInt z => wrap64 z
  | VUint n => n mod 2 ^ 64
  | VDouble n => n mod 2 ^ 64
  | VPtr a => a mod 2 ^ 64
  | VStr a => a mod 2 ^ 64
  | VIstr z => bytes_word z
  | VNone => junk mod 2 ^ 64
  end%N.

(** [std::to_string(double)], i.e. printf("%f"), for the double with the given
    bit pattern: the exact value m * 2^e rounded (ties to even, as glibc does in
    the default rounding mode) to six decimals. *)
Definition round_half_even (num den : N) : N :=
  let q := (num / den)%N in
  let r := (num mod den)%N in
  (if 2 * r <? den then q
   else if den <? 2 * r then q + 1
   else if N.even q then q else q + 1)%N.

Definition million : N := 1000000.

Definition double_to_string (w : word) : bytes :=
  let neg := N.testbit w 63 in
  let ex := ((w / 2 ^ 52) mod 2048)%N in
  let man := (w mod 2 ^ 52)%N in
  let sign := if neg then $"-" else [] in
  if (ex =? 2047)%N then
    sign ++ (if (man =? 0)%N then $"inf" else $"nan")
  else
    let m := (if (ex =? 0) then man else man + 2 ^ 52)%N in
    let e := (if (ex =? 0) then 1 else ex)%N in
    let q := round_half_even (m * million * 2 ^ e) (2 ^ 1075) in
    sign ++ dec (q / million) ++ chr 46 :: pad0 6 (dec (q mod million)).

(** The C strings reachable through [const char*] arguments: address to
    readable bytes. *)
Definition memory := N -> option bytes.

(** [ss << as_pointer] in libstdc++: hexadecimal with 0x, except "0" for the
    null pointer. *)
Definition pointer_to_string (w : word) : bytes :=
  if (w =? 0)%N then $"0" else $"0x" ++ hex w.

Definition quoted (s : bytes) : bytes := chr 34 :: s ++ [chr 34].

(** trace_argument.h:200-222 [TraceArgument::to_string]. *)
Definition arg_to_string (mem : memory) (w : word) (t : argtype) : res bytes :=
  match t with
  | is_bool => Ok (if (w mod 256 =? 0)%N then $"false" else $"true")
  | is_int => Ok (decZ (to_s64 w))
  | is_uint => Ok (dec w)
  | is_double => Ok (double_to_string w)
  | is_pointer => Ok (quoted (pointer_to_string w))
  | is_string => match mem w with
                 | Some s => Ok (quoted (c_str s))
                 | None => UB
                 end
  | is_istring => match izs_string (word_bytes 8 w) with
                  | Some s => Ok (quoted s)
                  | None => UB
                  end
  | is_none => Ok (quoted $"Type::is_none")
  | arg_invalid => Throw InvalidArgument
  end.

(** * trace_event.h / trace_event.cc *)

(** tracepoint_info.h:40-48 [TraceEventType]; [ev_invalid] is any other char
    value. *)
Inductive evtype :=
| AsyncStart | AsyncEnd | SyncStart | SyncEnd | Instant | GlobalInstant
| Complete | ev_invalid.

(** tracepoint_info.h:54-60. The [const char*] fields are given by the
    memory they point to; they are read with [c_str]. *)
Record tpi := {
  tp_category : bytes;
  tp_name : bytes;
  tp_type : evtype;
  tp_arg_names : bytes * bytes;
  tp_arg_types : argtype * argtype;
}.

(** trace_event.h:147-156. *)
Record event := {
  ev_tpi : tpi;
  ev_args : word * word;
  ev_time : N;
  ev_duration : N;
}.

(** trace_event.cc:22-29, constructor of plain events; [now] is the clock
    reading in nanoseconds (long long, stored as uint64_t). *)
Definition make_event (t : tpi) (args : word * word) (now : Z) : event :=
  {| ev_tpi := t; ev_args := args; ev_time := wrap64 now; ev_duration := 0 |}.

(** trace_event.cc:31-39, constructor of Complete events. *)
Definition make_complete (t : tpi) (start dur : Z) (args : word * word) : event :=
  {| ev_tpi := t; ev_args := args; ev_time := wrap64 start; ev_duration := wrap64 dur |}.

(** trace_event.cc:105-125 [typeToString]. *)
Definition typeToString (t : evtype) : res bytes :=
  match t with
  | AsyncStart => Ok $"AsyncStart"
  | AsyncEnd => Ok $"AsyncEnd"
  | SyncStart => Ok $"SyncStart"
  | SyncEnd => Ok $"SyncEnd"
  | Instant => Ok $"Instant"
  | GlobalInstant => Ok $"GlobalInstant"
  | Complete => Ok $"Complete"
  | ev_invalid => Throw InvalidArgument
  end.

(** std::lldiv(x, 1000) on a uint64_t converted to long long, printed with
    "%lld.%03lld" (trace_event.cc:82-83 and 192-194). *)
Definition micros (ns : N) : bytes :=
  let z := to_s64 ns in
  decZ (Z.quot z 1000) ++ chr 46 :: dec0Z 3 (Z.rem z 1000).

(** trace_event.cc:160-199 [typeToJSON]: the phase letter and the extra
    members. *)
Definition typeToJSON (e : event) : res (bytes * bytes) :=
  let id := $",""id"": ""0x" ++ hex (fst (ev_args e)) ++ [chr 34] in
  match tp_type (ev_tpi e) with
  | AsyncStart => Ok ($"b", id)
  | AsyncEnd => Ok ($"e", id)
  | SyncStart => Ok ($"B", [])
  | SyncEnd => Ok ($"E", [])
  | Instant => Ok ($"i", $",""s"":""t""")
  | GlobalInstant => Ok ($"i", $",""s"":""g""")
  | Complete => Ok ($"X", $",""dur"":" ++ micros (ev_duration e))
  | ev_invalid => Throw InvalidArgument
  end.

(** trace_event.cc:96-97, one member of "args". *)
Definition arg_member (mem : memory) (name : bytes) (w : word) (t : argtype) : res bytes :=
  do v <- arg_to_string mem w t; Ok (to_json (c_str name) ++ chr 58 :: v).

Definition is_none_type (t : argtype) : bool :=
  match t with is_none => true | _ => false end.

(** trace_event.cc:87-99, the loop over the arg_count = 2 arguments,
    unrolled. *)
Definition args_members (mem : memory) (e : event) : res bytes :=
  let '(n0, n1) := tp_arg_names (ev_tpi e) in
  let '(t0, t1) := tp_arg_types (ev_tpi e) in
  let '(w0, w1) := ev_args e in
  if is_none_type t0 then Ok []
  else do m0 <- arg_member mem n0 w0 t0;
       if is_none_type t1 then Ok m0
       else do m1 <- arg_member mem n1 w1 t1; Ok (m0 ++ chr 44 :: m1).

(** trace_event.cc:73-103 [to_json]; [pid] is getCurrentProcessID(). *)
Definition event_to_json (mem : memory) (pid : Z) (tid : N) (e : event) : res bytes :=
  do tc <- typeToJSON e;
  do args <- args_members mem e;
  Ok ($"{""name"":" ++ to_json (c_str (tp_name (ev_tpi e)))
      ++ $",""cat"":" ++ to_json (c_str (tp_category (ev_tpi e)))
      ++ $",""ph"":""" ++ fst tc ++ [chr 34] ++ snd tc
      ++ $",""ts"":" ++ micros (ev_time e)
      ++ $",""pid"":" ++ decZ pid
      ++ $",""tid"":" ++ dec tid
      ++ $",""args"":{" ++ args ++ $"}}").

(** trace_event.cc:47-56, the split of the time into days, hours, minutes,
    seconds and nanoseconds (duration_cast truncates towards zero). *)
Definition split_time (time : N) : Z * Z * Z * Z * Z :=
  let t := to_s64 time in
  let d := Z.quot t 86400000000000 in
  let t := (t - d * 86400000000000)%Z in
  let h := Z.quot t 3600000000000 in
  let t := (t - h * 3600000000000)%Z in
  let m := Z.quot t 60000000000 in
  let t := (t - m * 60000000000)%Z in
  let s := Z.quot t 1000000000 in
  let t := (t - s * 1000000000)%Z in
  (d, h, m, s, t).

(** trace_event.cc:41-71 [to_string]. *)
Definition event_to_string (mem : memory) (e : event) : res bytes :=
  let '(d, h, m, s, ns) := split_time (ev_time e) in
  do ty <- typeToString (tp_type (ev_tpi e));
  do a1 <- arg_to_string mem (fst (ev_args e)) (fst (tp_arg_types (ev_tpi e)));
  do a2 <- arg_to_string mem (snd (ev_args e)) (snd (tp_arg_types (ev_tpi e)));
  Ok ($"TraceEvent<" ++ decZ d ++ $"d " ++ dec0Z 2 h ++ $":" ++ dec0Z 2 m ++ $":"
      ++ dec0Z 2 s ++ $"." ++ dec0Z 9 ns ++ $", " ++ c_str (tp_category (ev_tpi e))
      ++ $", " ++ c_str (tp_name (ev_tpi e)) ++ $", type=" ++ ty
      ++ $", arg1=" ++ a1 ++ $", arg2=" ++ a2 ++ $">").
