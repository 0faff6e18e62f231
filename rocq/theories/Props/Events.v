(** C09-C15: arguments and events. *)
From Coq Require Import QArith Qabs.
From Verif Require Import Base Model.StringUtils Model.Event Spec.Json Spec.Text Spec.Numeral
  Spec.EventValue Proofs.Strings Proofs.Numerals Proofs.JsonText Proofs.Event.
Local Close Scope Q_scope.

(** C09. Integers, booleans and pointers render to text denoting the value. *)
Theorem C09_signed_argument : forall mem z junk, (- 2 ^ 63 <= z < 2 ^ 63)%Z ->
  exists text, arg_to_string mem (asArgument (VInt z) junk) (getType (VInt z)) = Ok text /\
               zvalue_of text = Some z /\ json_parse text = Some (JNum z 0).
Proof. exact int_arg. Qed.
Print Assumptions C09_signed_argument.

Theorem C09_unsigned_argument : forall mem n junk, (n < 2 ^ 64)%N ->
  exists text, arg_to_string mem (asArgument (VUint n) junk) (getType (VUint n)) = Ok text /\
               value_of 10 text = Some n /\ json_parse text = Some (JNum (Z.of_N n) 0).
Proof. exact uint_arg. Qed.
Print Assumptions C09_unsigned_argument.

(** The seven bytes of the union not written by a bool do not matter. *)
Theorem C09_bool_argument : forall mem b junk,
  exists text, arg_to_string mem (asArgument (VBool b) junk) (getType (VBool b)) = Ok text /\
               json_parse text = Some (JBool b).
Proof. exact bool_arg. Qed.
Print Assumptions C09_bool_argument.

Theorem C09_pointer_argument : forall mem a junk, (a < 2 ^ 64)%N ->
  exists text s, arg_to_string mem (asArgument (VPtr a) junk) (getType (VPtr a)) = Ok text /\
    json_parse text = Some (JStr s) /\
    ((a = 0%N /\ s = $"0") \/ (a <> 0%N /\ exists h, s = $"0x" ++ h /\ value_of 16 h = Some a)).
Proof. exact ptr_arg. Qed.
Print Assumptions C09_pointer_argument.

Example C09_case : arg_to_string (fun _ => None) (asArgument (VInt (- 2 ^ 63)) 0) is_int
                   = Ok $"-9223372036854775808".
Proof. reflexivity. Qed.

(** C10. *)
Theorem C10_double_argument : forall mem w junk, (w < 2 ^ 64)%N ->
  exists text, arg_to_string mem (asArgument (VDouble w) junk) (getType (VDouble w)) = Ok text /\
    (double_value w = None -> json_parse text = None) /\
    (forall q, double_value w = Some q ->
       exists m, json_parse text = Some (JNum m (-6)) /\ nearest_millionth m q).
Proof. exact double_arg. Qed.
Print Assumptions C10_double_argument.

(** 1.5 and -infinity. *)
Example C10_case : double_value 4609434218613702656%N <> None /\
  double_value 18442240474082181120%N = None /\
  double_to_string 4609434218613702656%N = $"1.500000".
Proof. repeat split; vm_compute; congruence. Qed.

(** C11. For every legal event with escapable names and renderable arguments
    and a non-negative clock, the JSON text denotes exactly the event. *)
Theorem C11_event_json_faithful : forall mem pid tid t v0 v1 j0 j1 time dur,
  tp_type t <> ev_invalid ->
  name_ok (tp_name t) -> name_ok (tp_category t) ->
  tp_arg_types t = (getType v0, getType v1) ->
  (forall n v, In (n, v) (carried (tp_arg_names t) v0 v1) ->
     name_ok n /\ cval_ok v /\ renderable mem v) ->
  (0 <= time < 2 ^ 63)%Z -> (0 <= dur < 2 ^ 63)%Z ->
  exists text j,
    event_to_json mem pid tid
      (make_complete t time dur (asArgument v0 j0, asArgument v1 j1)) = Ok text /\
    json_parse text = Some j /\
    event_denotes mem pid tid (tp_category t) (tp_name t) (tp_type t) (tp_arg_names t) v0 v1
      (asArgument v0 j0) time dur j.
Proof. exact event_json_faithful. Qed.
Print Assumptions C11_event_json_faithful.

(** The same for events without a duration. *)
Theorem C11_plain_event_json_faithful : forall mem pid tid t v0 v1 j0 j1 time,
  tp_type t <> ev_invalid ->
  name_ok (tp_name t) -> name_ok (tp_category t) ->
  tp_arg_types t = (getType v0, getType v1) ->
  (forall n v, In (n, v) (carried (tp_arg_names t) v0 v1) ->
     name_ok n /\ cval_ok v /\ renderable mem v) ->
  (0 <= time < 2 ^ 63)%Z ->
  exists text j,
    event_to_json mem pid tid
      (make_event t (asArgument v0 j0, asArgument v1 j1) time) = Ok text /\
    json_parse text = Some j /\
    event_denotes mem pid tid (tp_category t) (tp_name t) (tp_type t) (tp_arg_names t) v0 v1
      (asArgument v0 j0) time 0 j.
Proof.
  exact (fun mem pid tid t v0 v1 j0 j1 time a b c d e f =>
    event_json_faithful mem pid tid t v0 v1 j0 j1 time 0 a b c d e f (conj (Z.le_refl 0) eq_refl)).
Qed.
Print Assumptions C11_plain_event_json_faithful.

Definition demo_tpi : tpi :=
  {| tp_category := $"cat"; tp_name := $"na/""me"; tp_type := Complete;
     tp_arg_names := ($"a", $"b"); tp_arg_types := (is_istring, is_double) |}.

Example C11_case : let v0 := VIstr ($"abc" ++ repeat NUL 5) in
  let v1 := VDouble 4609434218613702656%N in
  tp_type demo_tpi <> ev_invalid /\ name_ok (tp_name demo_tpi) /\ name_ok (tp_category demo_tpi) /\
  tp_arg_types demo_tpi = (getType v0, getType v1) /\
  (forall n v, In (n, v) (carried (tp_arg_names demo_tpi) v0 v1) ->
     name_ok n /\ cval_ok v /\ renderable (fun _ => None) v) /\
  event_to_json (fun _ => None) 12 34
    (make_complete demo_tpi 1234567 5 (asArgument v0 0, asArgument v1 0)) =
  Ok $"{""name"":""na\/\""me"",""cat"":""cat"",""ph"":""X"",""dur"":0.005,""ts"":1234.567,""pid"":12,""tid"":34,""args"":{""a"":""abc"",""b"":1.500000}}".
Proof.
  cbv zeta. split; [discriminate|].
  split; [refine (proj1 (existsb_raw _) _); reflexivity|]. split; [refine (proj1 (existsb_raw _) _); reflexivity|].
  split; [reflexivity|]. split; [|vm_compute; reflexivity].
  intros n v [E|[E|[]]]; injection E as <- <-.
  - split; [refine (proj1 (existsb_raw _) _); reflexivity|]. split; [reflexivity|].
    refine (proj1 (all_plain_b _) _). reflexivity.
  - split; [refine (proj1 (existsb_raw _) _); reflexivity|]. split; [reflexivity|]. vm_compute. congruence.
Qed.

(** The JSON value determines thread, category, name, type, time (and the
    duration of Complete events). *)
Theorem C11_event_json_determines : forall mem pid pid' tid tid' cat cat' name name' t t' ns ns'
    v0 v0' v1 v1' w w' time time' dur dur' j,
  event_denotes mem pid tid cat name t ns v0 v1 w time dur j ->
  event_denotes mem pid' tid' cat' name' t' ns' v0' v1' w' time' dur' j ->
  pid = pid' /\ tid = tid' /\ c_str cat = c_str cat' /\ c_str name = c_str name' /\ t = t' /\
  time = time' /\ (t = Complete -> dur = dur').
Proof. exact event_denotes_inj. Qed.
Print Assumptions C11_event_json_determines.

(** C12. A string argument comes back as itself exactly if it needs no escape. *)
Theorem C12_string_argument : forall mem a s junk, (a < 2 ^ 64)%N -> mem a = Some s ->
  exists text, arg_to_string mem (asArgument (VStr a) junk) (getType (VStr a)) = Ok text /\
    (json_parse text = Some (JStr (c_str s)) <-> all_plain (c_str s)).
Proof. exact str_arg_denotes. Qed.
Print Assumptions C12_string_argument.

Theorem C12_inline_string_argument : forall mem z junk, length z = 8 ->
  exists text, arg_to_string mem (asArgument (VIstr z) junk) (getType (VIstr z)) = Ok text /\
    (json_parse text = Some (JStr (c_str z)) <-> all_plain (c_str z)).
Proof. exact istr_arg_denotes. Qed.
Print Assumptions C12_inline_string_argument.

Definition one_string_event (s : bytes) : res bytes :=
  event_to_json (fun a => if (a =? 8)%N then Some s else None) 1 1
    (make_event {| tp_category := $"c"; tp_name := $"n"; tp_type := Instant;
                   tp_arg_names := ($"a", []); tp_arg_types := (is_string, is_none) |} (8, 0)%N 0).

(** An event with an ordinary string argument can be invalid JSON, and one can
    smuggle in a member the program never recorded. *)
Theorem C12_string_arguments_always_valid_refuted :
  (exists s text, one_string_event s = Ok text /\ json_parse text = None) /\
  (exists s text l, one_string_event s = Ok text /\
     json_parse text = Some (JObj l) /\ In ($"ts", JNum 99 0) l).
Proof.
  split.
  - exists $"say ""hi""". eexists. split; [reflexivity|]. vm_compute. reflexivity.
  - exists $"""},""ts"":99,""x"":{""y"":""". eexists. eexists. split; [reflexivity|].
    split; [vm_compute; reflexivity|]. vm_compute. tauto.
Qed.
Print Assumptions C12_string_arguments_always_valid_refuted.

(** C13. [time] nanoseconds are written as exactly time/1000 microseconds; the
    text is a JSON number exactly for non-negative times (as signed 64-bit) and
    negative whole microseconds. *)
Theorem C13_time_field : forall w,
  json_parse (micros w) =
  if (0 <=? to_s64 w)%Z || (Z.rem (to_s64 w) 1000 =? 0)%Z
  then Some (JNum (to_s64 w) (-3)) else None.
Proof. exact micros_json. Qed.
Print Assumptions C13_time_field.

Theorem C13_time_field_exact : forall z, (0 <= z < 2 ^ 63)%Z ->
  json_parse (micros (wrap64 z)) = Some (JNum z (-3)).
Proof. exact micros_exact. Qed.
Print Assumptions C13_time_field_exact.

Example C13_case : micros (wrap64 1000001) = $"1000.001".
Proof. reflexivity. Qed.

(** A complete event with a negative duration is not valid JSON. *)
Theorem C13_negative_duration_valid_refuted : exists e text,
  ev_duration e = wrap64 (-1) /\
  event_to_json (fun _ => None) 1 1 e = Ok text /\ json_parse text = None.
Proof.
  exists (make_complete {| tp_category := $"c"; tp_name := $"n"; tp_type := Complete;
                   tp_arg_names := ([], []); tp_arg_types := (is_none, is_none) |} 0 (-1) (0, 0)%N).
  eexists. split; [reflexivity|]. split; [reflexivity|]. vm_compute. reflexivity.
Qed.
Print Assumptions C13_negative_duration_valid_refuted.

(** C14. *)
Theorem C14_to_string_time : forall mem e text, (0 <= to_s64 (ev_time e))%Z ->
  event_to_string mem e = Ok text ->
  exists D H M S NS rest d h m s ns,
    text = $"TraceEvent<" ++ D ++ $"d " ++ H ++ $":" ++ M ++ $":" ++ S ++ $"." ++ NS
           ++ $", " ++ rest /\
    zvalue_of D = Some d /\ zvalue_of H = Some h /\ zvalue_of M = Some m /\
    zvalue_of S = Some s /\ zvalue_of NS = Some ns /\
    length H = 2 /\ length M = 2 /\ length S = 2 /\ length NS = 9 /\
    (0 <= d /\ 0 <= h < 24 /\ 0 <= m < 60 /\ 0 <= s < 60 /\ 0 <= ns < 1000000000 /\
     to_s64 (ev_time e) = (((d * 24 + h) * 60 + m) * 60 + s) * 1000000000 + ns)%Z.
Proof. exact event_to_string_time. Qed.
Print Assumptions C14_to_string_time.

Theorem C14_to_string_fields : forall mem e text, event_to_string mem e = Ok text ->
  exists pre ty a1 a2, typeToString (tp_type (ev_tpi e)) = Ok ty /\
    arg_to_string mem (fst (ev_args e)) (fst (tp_arg_types (ev_tpi e))) = Ok a1 /\
    arg_to_string mem (snd (ev_args e)) (snd (tp_arg_types (ev_tpi e))) = Ok a2 /\
    text = pre ++ $", " ++ c_str (tp_category (ev_tpi e)) ++ $", " ++ c_str (tp_name (ev_tpi e))
           ++ $", type=" ++ ty ++ $", arg1=" ++ a1 ++ $", arg2=" ++ a2 ++ $">".
Proof. exact event_to_string_fields. Qed.
Print Assumptions C14_to_string_fields.

Example C14_case : event_to_string (fun _ => None)
   (make_event {| tp_category := $"c"; tp_name := $"n"; tp_type := Instant;
                  tp_arg_names := ([], []); tp_arg_types := (is_bool, is_none) |} (1, 0)%N
               93784005006007)
   = Ok $"TraceEvent<1d 02:03:04.005006007, c, n, type=Instant, arg1=true, arg2=""Type::is_none"">".
Proof. vm_compute. reflexivity. Qed.

(** C15. *)
Theorem C15_type_total : forall e,
  (tp_type (ev_tpi e) = ev_invalid /\ typeToJSON e = Throw InvalidArgument) \/
  (exists ph extra, typeToJSON e = Ok (ph, extra) /\ phase (tp_type (ev_tpi e)) = Some ph).
Proof. exact typeToJSON_total. Qed.
Print Assumptions C15_type_total.

Theorem C15_type_unambiguous : forall e1 e2 r, typeToJSON e1 = Ok r -> typeToJSON e2 = Ok r ->
  tp_type (ev_tpi e1) = tp_type (ev_tpi e2).
Proof. exact typeToJSON_inj. Qed.
Print Assumptions C15_type_unambiguous.

Theorem C15_type_name_unambiguous : forall t1 t2 s,
  typeToString t1 = Ok s -> typeToString t2 = Ok s -> t1 = t2.
Proof. exact typeToString_inj. Qed.
Print Assumptions C15_type_name_unambiguous.

Theorem C15_type_name_total : forall t,
  (t = ev_invalid /\ typeToString t = Throw InvalidArgument) \/
  (t <> ev_invalid /\ exists s, typeToString t = Ok s /\ s <> []).
Proof. destruct t; [right|right|right|right|right|right|right|left]; split; try easy; eexists; split; try reflexivity; easy. Qed.
Print Assumptions C15_type_name_total.

Example C15_case : typeToJSON (make_event {| tp_category := $"c"; tp_name := $"n";
    tp_type := GlobalInstant; tp_arg_names := ([], []); tp_arg_types := (is_none, is_none) |} (0, 0)%N 0)
  = Ok ($"i", $",""s"":""g""").
Proof. reflexivity. Qed.
