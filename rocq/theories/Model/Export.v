(** Model of src/tools/export.cc. *)
From Verif Require Import Base Model.StringUtils Model.Event Model.Queue Model.Buffer.

(** trace_context.h: the buffer (null if it was never set or already taken) and
    the thread names. The unordered_map is the list of its entries in the
    iteration order of the run (any order, keys distinct). *)
Record context := {
  cx_buffer : option view;
  cx_names : list (N * bytes);
}.

Section Export.
  (** The C strings reachable from events, and getCurrentProcessID(). *)
  Variable mem : memory.
  Variable pid : Z.

  (** export.cc:21-28 [threadAssociationToString]. "%d" prints the low 32 bits of
      the uint64_t id as an int; "%s" stops at the first NUL. *)
  Definition threadAssociationToString (a : N * bytes) : bytes :=
    $"{""name"":""thread_name"",""ph"":""M"",""pid"":" ++ decZ pid
    ++ $",""tid"":" ++ decZ (to_signed 32 (fst a mod 2 ^ 32)%N)
    ++ $",""args"":{""name"":""" ++ c_str (snd a) ++ $"""}}".

  (** export.h:81-90 *)
  Inductive xstate :=
  | opening | first_event | other_events | first_thread | other_threads | footer | dead.

  (** export.h:92-97. [x_tit] is the part of the map from the iterator on. *)
  Record exporter := {
    x_state : xstate;
    x_cache : bytes;
    x_it : iter;
    x_tit : list (N * bytes);
  }.

  Definition of_opt {A} (o : option A) : res A := match o with Some a => Ok a | None => UB end.

  (** export.cc:30-34, constructor; dereferences the buffer. *)
  Definition export_new (c : context) : res exporter :=
    do v <- of_opt (cx_buffer c);
    do i <- of_opt (it_begin v);
    Ok {| x_state := opening; x_cache := []; x_it := i; x_tit := cx_names c |}.

  Definition is_dead (s : xstate) : bool := match s with dead => true | _ => false end.

  (** [it == context.getBuffer()->end()] *)
  Definition at_end (v : view) (i : iter) : res bool :=
    do e <- of_opt (it_finish v); Ok (iter_eqb i e).

  (** export.cc:66-75, after the fall-through of [other_events]. *)
  Definition emit_event (v : view) (x : exporter) (cache : bytes) : res exporter :=
    let '(e, tid) := iter_get v (x_it x) in
    do j <- event_to_json mem pid tid e;
    do i <- of_opt (iter_next v (x_it x));
    do fin <- at_end v i;
    Ok {| x_state := if fin then footer else other_events;
          x_cache := cache ++ j; x_it := i; x_tit := x_tit x |}.

  (** export.cc:78-89, after the fall-through of [other_threads]. *)
  Definition emit_thread (v : view) (x : exporter) (cache : bytes) : res exporter :=
    match x_tit x with
    | [] => UB
    | a :: r =>
        do fin <- at_end v (x_it x);
        Ok {| x_state := match r with
                         | [] => if fin then footer else other_events
                         | _ => other_threads
                         end;
              x_cache := cache ++ threadAssociationToString a;
              x_it := x_it x; x_tit := r |}
    end.

  (** export.cc:53-96, the switch. *)
  Definition x_switch (v : view) (x : exporter) : res exporter :=
    match x_state x with
    | opening =>
        do fin <- at_end v (x_it x);
        Ok {| x_state := match x_tit x with
                         | [] => if fin then footer else first_event
                         | _ => first_thread
                         end;
              x_cache := $"{""traceEvents"":["; x_it := x_it x; x_tit := x_tit x |}
    | other_events => emit_event v x (x_cache x ++ $",")
    | first_event => emit_event v x (x_cache x)
    | other_threads => emit_thread v x (x_cache x ++ $",")
    | first_thread => emit_thread v x (x_cache x)
    | footer => Ok {| x_state := dead; x_cache := $"]}"; x_it := x_it x; x_tit := x_tit x |}
    | dead => Ok x
    end.

  Definition with_cache (x : exporter) (c : bytes) : exporter :=
    {| x_state := x_state x; x_cache := c; x_it := x_it x; x_tit := x_tit x |}.

  (** export.cc:42-97, the loop of [read(char*, size_t)]; [out] are the bytes
      written so far, so the cursor is its length. Running out of fuel is
      reported as UB (and proved impossible for [read_fuel]). *)
  Fixpoint read_loop (fuel : nat) (v : view) (x : exporter) (len : nat) (out : bytes)
    : res (bytes * exporter) :=
    match fuel with
    | O => UB
    | S f =>
        if (length out <? len) && negb (is_dead (x_state x) && is_nil (x_cache x)) then
          let copied := Nat.min (length (x_cache x)) (len - length out) in
          let out' := out ++ firstn copied (x_cache x) in
          let x' := with_cache x (skipn copied (x_cache x)) in
          if negb (is_nil (x_cache x)) && (len <=? length out') then Ok (out', x')
          else do x'' <- x_switch v x'; read_loop f v x'' len out'
        else Ok (out, x)
    end.

  (** Enough iterations: one per event and thread, and four more. *)
  Definition total_events (v : view) : nat :=
    list_sum (map (fun i => N.to_nat (c_next (v_chunk v (N.of_nat i)))) (seq 0 (N.to_nat (v_count v)))).
  Definition read_fuel (v : view) (x : exporter) : nat := length (x_tit x) + total_events v + 4.

  (** export.cc:38-105 [read(length)]. *)
  Definition read (c : context) (x : exporter) (len : nat) : res (bytes * exporter) :=
    do v <- of_opt (cx_buffer c); read_loop (read_fuel v x) v x len [].

  (** export.cc:107-109 *)
  Definition done (x : exporter) : bool := is_dead (x_state x).

  Definition block : nat := 4096.

  (** export.cc:111-122 [read()]; [fuel] bounds the number of blocks. *)
  Fixpoint read_all_loop (fuel : nat) (c : context) (x : exporter) (out : bytes)
    : res (bytes * exporter) :=
    match fuel with
    | O => UB
    | S f =>
        do r <- read c x block;
        let '(got, x') := r in
        let out' := out ++ got ++ repeat NUL (block - length got) in
        if done x' then Ok (firstn (length out' - (block - length got)) out', x')
        else read_all_loop f c x' out'
    end.
  Definition read_all (fuel : nat) (c : context) (x : exporter) : res (bytes * exporter) :=
    read_all_loop fuel c x [].

  (** A program calling read repeatedly. *)
  Fixpoint reads (c : context) (x : exporter) (ns : list nat) : res (list bytes * exporter) :=
    match ns with
    | [] => Ok ([], x)
    | n :: r => do p <- read c x n;
                let '(got, x') := p in
                do q <- reads c x' r;
                Ok (got :: fst q, snd q)
    end.

  (** A program reading blocks of [n] bytes until done() (as in read()). *)
  Fixpoint read_until_done (fuel : nat) (c : context) (x : exporter) (n : nat) : res (bytes * exporter) :=
    match fuel with
    | O => UB
    | S f => if done x then Ok ([], x)
             else do p <- read c x n;
                  let '(got, x') := p in
                  do q <- read_until_done f c x' n;
                  Ok (got ++ fst q, snd q)
    end.

  (** export.cc:144-154, the writing loop of FileStopCallback: what reaches the
      file if every fwrite succeeds. *)
  Fixpoint write_loop (fuel : nat) (c : context) (x : exporter) (file : bytes) : res bytes :=
    match fuel with
    | O => UB
    | S f => do p <- read c x block;
             let '(got, x') := p in
             match got with
             | [] => Ok file
             | _ => write_loop f c x' (file ++ got)
             end
    end.

  (** export.cc:130-155 [FileStopCallback::operator()] given the context taken
      from the log. [opens] says whether fopen succeeds. *)
  Definition file_stop_callback (fuel : nat) (opens : bool) (c : context) : res bytes :=
    if opens then do x <- export_new c; write_loop fuel c x []
    else Throw SystemError.
End Export.

(** Broken-down UTC time, as gmtime returns it (library code, not modelled). *)
Record utc := { tm_year : N; tm_mon : N; tm_day : N; tm_hour : N; tm_min : N; tm_sec : N }.

(** strftime "%Y.%m.%dT%H.%M.%SZ" for four-digit years. *)
Definition timestamp (t : utc) : bytes :=
  dec (tm_year t) ++ $"." ++ pad0 2 (dec (tm_mon t)) ++ $"." ++ pad0 2 (dec (tm_day t))
  ++ $"T" ++ pad0 2 (dec (tm_hour t)) ++ $"." ++ pad0 2 (dec (tm_min t))
  ++ $"." ++ pad0 2 (dec (tm_sec t)) ++ $"Z".

(** export.cc:157-174 [generateFilePath]. *)
Definition generateFilePath (path : bytes) (pid : Z) (now : utc) : bytes :=
  string_replace (string_replace path $"%p" (decZ pid)) $"%d" (timestamp now).
