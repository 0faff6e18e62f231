(** The document an export should be, independent of how it is read. *)
From Verif Require Import Base Spec.Text Spec.History Spec.Json Spec.EventValue Model.Event Model.Buffer Model.Export.

(** The events of a buffer with their thread ids, in buffer order. *)
Definition events_of (v : view) : list (event * N) :=
  flat_map (fun k => map (fun e => (e, c_tid (v_chunk v k))) (chunk_events (v_chunk v k)))
           (upto (v_count v)).

(** [text] is the export of [names] and the events of [v]: a header, all records
    separated by commas, a footer. *)
Definition document (mem : memory) (pid : Z) (v : view) (names : list (N * bytes)) (text : bytes) : Prop :=
  exists texts,
    Forall2 (fun p t => event_to_json mem pid (snd p) (fst p) = Ok t) (events_of v) texts /\
    text = $"{""traceEvents"":[" ++
           glue (chr 44) (map (threadAssociationToString pid) names ++ texts) ++ $"]}".

(** What a program recorded: trace point, argument values, times in ns. *)
Record logged := {
  lg_tpi : tpi; lg_v0 : cval; lg_v1 : cval; lg_time : Z; lg_dur : Z;
}.

(** [e] is the stored form of [l] (the unused bytes of an argument are
    arbitrary). *)
Definition stores (l : logged) (e : event) : Prop :=
  exists j0 j1, e = {| ev_tpi := lg_tpi l;
                       ev_args := (asArgument (lg_v0 l) j0, asArgument (lg_v1 l) j1);
                       ev_time := wrap64 (lg_time l); ev_duration := wrap64 (lg_dur l) |}.

(** Records whose rendering is valid JSON. *)
Definition clean (mem : memory) (l : logged) : Prop :=
  tp_type (lg_tpi l) <> ev_invalid /\
  name_ok (tp_name (lg_tpi l)) /\ name_ok (tp_category (lg_tpi l)) /\
  tp_arg_types (lg_tpi l) = (getType (lg_v0 l), getType (lg_v1 l)) /\
  (forall n v, In (n, v) (carried (tp_arg_names (lg_tpi l)) (lg_v0 l) (lg_v1 l)) ->
     name_ok n /\ cval_ok v /\ renderable mem v) /\
  (0 <= lg_time l < 2 ^ 63)%Z /\ (0 <= lg_dur l < 2 ^ 63)%Z.

(** The JSON object naming thread [tid]. *)
Definition thread_record (pid : Z) (a : N * bytes) : json :=
  JObj [($"name", JStr $"thread_name"); ($"ph", JStr $"M"); ($"pid", JNum pid 0);
        ($"tid", JNum (Z.of_N (fst a)) 0); ($"args", JObj [($"name", JStr (snd a))])].

(** The JSON object of a record made by thread [tid]. *)
Definition record_of (mem : memory) (pid : Z) (tid : N) (l : logged) (j : json) : Prop :=
  exists w0, event_denotes mem pid tid (tp_category (lg_tpi l)) (tp_name (lg_tpi l)) (tp_type (lg_tpi l))
    (tp_arg_names (lg_tpi l)) (lg_v0 l) (lg_v1 l) w0 (lg_time l) (lg_dur l) j.
