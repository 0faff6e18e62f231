(** Model of src/tools/export.cc:157-174 (generateFilePath) with the clock, and of
    the files that one after another FileStopCallback leaves. What is in a file
    is the matter of Model/Export.v and Model/FileSave.v. *)
From Verif Require Import Base Model.StringUtils Model.Export.

(** * The name of the file *)

(** The calendar of gmtime (library code, by its definition): the date of the
    following day. *)
Definition is_leap (y : N) : bool :=
  (((y mod 4 =? 0) && negb (y mod 100 =? 0)) || (y mod 400 =? 0))%N.
Definition month_length (y m : N) : N :=
  match m with
  | 2 => if is_leap y then 29 else 28
  | 4 | 6 | 9 | 11 => 30
  | _ => 31
  end%N.
Definition next_day (d : N * N * N) : N * N * N :=
  let '(y, m, k) := d in
  (if k <? month_length y m then (y, m, k + 1)
   else if m <? 12 then (y, m + 1, 1)
   else (y + 1, 1, 1))%N.

(** export.cc:163-164,171 [gmtime(&now)] for a time_t of [t] seconds. Times
    before 1970 are not modelled. *)
Definition gmtime (t : N) : utc :=
  let '(y, m, k) := N.iter (t / 86400) next_day (1970, 1, 1)%N in
  let s := (t mod 86400)%N in
  {| tm_year := y; tm_mon := m; tm_day := k;
     tm_hour := s / 3600; tm_min := (s / 60) mod 60; tm_sec := s mod 60 |}%N.

(** strftime: the text if it fits with its terminator in [max] bytes; otherwise
    it returns 0 and the contents of the array are unspecified. *)
Definition strftime (max : nat) (text : bytes) : option bytes :=
  if S (length text) <=? max then Some (text ++ [NUL]) else None.

(** export.cc:165-172: the string [timestamp]. sizeof("YYYY-MM-DDTHH:MM:SSZ") is
    21. [None] if its contents are unspecified. *)
Definition stamp_room : nat := 21.
Definition stamp (t : N) : option bytes :=
  match strftime stamp_room (timestamp (gmtime t)) with
  | Some written =>
      let buffer := written ++ repeat NUL (stamp_room - length written) in
      Some (firstn (stamp_room - 1) buffer)
  | None => None
  end.

(** export.cc:157-174 [generateFilePath] by the clock. *)
Definition file_name (path : bytes) (pid : Z) (t : N) : option bytes :=
  match stamp t with
  | Some s => Some (string_replace (string_replace path $"%p" (decZ pid)) $"%d" s)
  | None => None
  end.

(** * The files: contents by name. *)
Definition files := bytes -> option bytes.
Definition put (d : files) (name text : bytes) : files :=
  fun n => if list_eq_dec ascii_dec n name then Some text else d n.

(** A log stopped at [t] by a process [pid] with a path [path], its document
    being [text] and nothing failing. *)
Record stopping := { st_path : bytes; st_pid : Z; st_time : N; st_text : bytes }.
Definition save (d : files) (s : stopping) : option files :=
  match file_name (st_path s) (st_pid s) (st_time s) with
  | Some n => Some (put d n (st_text s))
  | None => None
  end.
Fixpoint save_all (d : files) (l : list stopping) : option files :=
  match l with
  | [] => Some d
  | s :: r => match save d s with Some d' => save_all d' r | None => None end
  end.
