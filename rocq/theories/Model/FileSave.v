(** Model of src/tools/export.cc:130-155, FileStopCallback, with every way in
    which the file can fail.

    The stream of the C library takes bytes and writes them to the file when it
    likes, at the latest when it is closed. What it does is an input: whether it
    opens, how many bytes each fwrite takes, and how many of the bytes taken are
    in the file after it is closed. *)
From Verif Require Import Base Model.StringUtils Model.Event Model.Queue Model.Buffer Model.Export.

Record disk := {
  d_opens : bool;
  d_takes : nat -> nat;      (* fwrite number k: how many bytes it can take *)
  d_keeps : nat;             (* how many of all the bytes taken fclose can bring to the file *)
}.

(** How the callback ends. *)
Inductive ending :=
| Returns
| Throws (e : exn)                   (* std::system_error, or what rendering an event throws *)
| ThrowsShort (written : nat)        (* the std::runtime_error with the count fwrite returned *)
| Undefined.

Record saved := {
  sv_end : ending;
  sv_file : option bytes;            (* the file afterwards, if it was opened *)
  sv_taken : bytes;                  (* what fwrite took *)
  sv_closes : nat;                   (* how often it was closed *)
  sv_log : option view;              (* the buffer left in the log *)
}.

Section FileSave.
  Variable mem : memory.
  Variable pid : Z.

  (** export.cc:144-154; [k] counts the fwrite calls. *)
  Fixpoint save_loop (fuel : nat) (d : disk) (k : nat) (c : context) (x : exporter) (taken : bytes) : ending * bytes :=
    match fuel with
    | O => (Undefined, taken)
    | S f =>
        match read mem pid c x block with
        | Ok (got, x') =>
            match got with
            | [] => (Returns, taken)
            | _ =>
                let n := Nat.min (d_takes d k) (length got) in
                if Nat.eqb n (length got) then save_loop f d (S k) c x' (taken ++ got)
                else (ThrowsShort n, taken ++ firstn n got)
            end
        | Throw e => (Throws e, taken)
        | UB => (Undefined, taken)
        end
    end.

  (** export.cc:130-155. The file is opened before the context is taken
      (trace_log.cc:174-182: the buffer moves out of the log); context and file
      are destroyed on every way out (memory.h:30-42). *)
  Definition save (fuel : nat) (d : disk) (log : context) : saved :=
    if d_opens d then
      let '(e, taken) :=
        match export_new log with
        | Ok x => save_loop fuel d 0 log x []
        | Throw e => (Throws e, [])
        | UB => (Undefined, [])
        end in
      {| sv_end := e; sv_file := Some (firstn (d_keeps d) taken); sv_taken := taken; sv_closes := 1; sv_log := None |}
    else {| sv_end := Throws SystemError; sv_file := None; sv_taken := []; sv_closes := 0; sv_log := cx_buffer log |}.
End FileSave.
