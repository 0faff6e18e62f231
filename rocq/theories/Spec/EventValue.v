(** What an exported event must say, independent of how it is printed. *)
From Coq Require Import QArith Qabs.
From Verif Require Import Base Spec.Json Spec.Text Spec.Numeral Model.Event.

(** The number denoted by an IEEE-754 binary64 bit pattern; [None] for
    infinities and NaNs. *)
Definition double_value (bits : N) : option Q :=
  let s := (bits / 2 ^ 63 mod 2)%N in
  let e := (bits / 2 ^ 52 mod 2 ^ 11)%N in
  let m := (bits mod 2 ^ 52)%N in
  if (e =? 2047)%N then None
  else
    let mag := if (e =? 0)%N then inject_Z (Z.of_N m) * Qpower 2 (-1074)
               else inject_Z (Z.of_N (2 ^ 52 + m)) * Qpower 2 (Z.of_N e - 1075) in
    Some (if (s =? 1)%N then - mag else mag)%Q.

(** [m] millionths is a closest multiple of 10^-6 to [q]. *)
Definition nearest_millionth (m : Z) (q : Q) : Prop :=
  (Qabs (inject_Z m * (1 # 1000000) - q) <= (1 # 2000000))%Q.

(** The values the C++ types of the arguments can hold. *)
Definition cval_ok (v : cval) : Prop :=
  match v with
  | VBool _ => True
  | VInt z => - 2 ^ 63 <= z < 2 ^ 63
  | VUint n => (n < 2 ^ 64)%N
  | VDouble w => (w < 2 ^ 64)%N
  | VPtr a | VStr a => (a < 2 ^ 64)%N
  | VIstr z => length z = 8%nat
  | VNone => True
  end%Z.

(** [j] is a faithful JSON rendering of the argument [v]. *)
Definition denotes (mem : memory) (v : cval) (j : json) : Prop :=
  match v with
  | VBool b => j = JBool b
  | VInt z => j = JNum z 0
  | VUint n => j = JNum (Z.of_N n) 0
  | VDouble w => exists m q, double_value w = Some q /\ j = JNum m (-6) /\ nearest_millionth m q
  | VPtr a => exists s, j = JStr s /\
                ((a = 0%N /\ s = $"0") \/
                 (exists h, s = $"0x" ++ h /\ value_of 16 h = Some a))
  | VStr a => exists s, mem a = Some s /\ j = JStr (c_str s)
  | VIstr z => j = JStr (c_str z)
  | VNone => False
  end.

(** The arguments an event carries: up to the first missing one. *)
Definition carried (names : bytes * bytes) (v0 v1 : cval) : list (bytes * cval) :=
  match v0, v1 with
  | VNone, _ => []
  | _, VNone => [(fst names, v0)]
  | _, _ => [(fst names, v0); (snd names, v1)]
  end.

(** The trace-event phase letter of each event type (Chrome trace format). *)
Definition phase (t : evtype) : option bytes :=
  match t with
  | AsyncStart => Some $"b" | AsyncEnd => Some $"e"
  | SyncStart => Some $"B" | SyncEnd => Some $"E"
  | Instant | GlobalInstant => Some $"i"
  | Complete => Some $"X"
  | ev_invalid => None
  end.

(** Members that depend on the type: the scope of instants, the duration (in
    microseconds, from nanoseconds) of complete events, and the identifier of
    asynchronous ones (any hexadecimal numeral of the first argument's word). *)
Definition extra_ok (t : evtype) (w0 : N) (dur : Z) (l : list (bytes * json)) : Prop :=
  match t with
  | AsyncStart | AsyncEnd =>
      exists h, l = [($"id", JStr ($"0x" ++ h))] /\ value_of 16 h = Some w0
  | SyncStart | SyncEnd => l = []
  | Instant => l = [($"s", JStr $"t")]
  | GlobalInstant => l = [($"s", JStr $"g")]
  | Complete => l = [($"dur", JNum dur (-3))]
  | ev_invalid => False
  end.

(** The whole event. Times in nanoseconds, exported in microseconds. *)
Definition event_denotes (mem : memory) (pid : Z) (tid : N) (cat name : bytes) (t : evtype)
    (names : bytes * bytes) (v0 v1 : cval) (w0 : N) (time dur : Z) (j : json) : Prop :=
  exists ph extra args,
    phase t = Some ph /\ extra_ok t w0 dur extra /\
    Forall2 (fun nv kj => fst kj = c_str (fst nv) /\ denotes mem (snd nv) (snd kj))
            (carried names v0 v1) args /\
    j = JObj ([($"name", JStr (c_str name)); ($"cat", JStr (c_str cat)); ($"ph", JStr ph)]
              ++ extra
              ++ [($"ts", JNum time (-3)); ($"pid", JNum pid 0); ($"tid", JNum (Z.of_N tid) 0);
                  ($"args", JObj args)]).

(** Arguments whose rendering is valid JSON denoting the value: finite doubles,
    and strings free of quotes, backslashes and control characters. *)
Definition renderable (mem : memory) (v : cval) : Prop :=
  match v with
  | VDouble w => double_value w <> None
  | VStr a => exists s, mem a = Some s /\ all_plain (c_str s)
  | VIstr z => all_plain (c_str z)
  | VNone => False
  | _ => True
  end.

(** Names and categories that can be escaped into valid JSON. *)
(** * Whole events *)

Definition name_ok (s : bytes) : Prop := forall c, In c (c_str s) -> ~ raw_control c.
