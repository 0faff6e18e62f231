(** The statistics of a buffer, taken while other threads use the buffer: getStats
    takes no lock that getChunk or returnChunk takes (TraceLog::getStats holds the mutex
    of the log, trace_log.cc:241-247; replaceChunk does not, trace_log.cc:303-309). It
    reads the counters one after the other, and hands every value to the callback before it
    reads the next; so it sees the states of the buffer at several moments of a run.
    It writes nothing. The name and the generation, which never change, are left out. *)
From Verif Require Import Base Model.FixedConc Model.RingConc.

Record report := {
  is_full : bool;           (* buffer_is_full *)
  chunk_total : N;          (* buffer_chunk_count *)
  ever_loaned : N;          (* buffer_total_loaned *)
  now_loaned : N;           (* buffer_loaned_chunks *)
  the_size : N;             (* buffer_size *)
}.

(** trace_buffer.cc:234-245: actual_count, actual_count again, on_loan. *)
Definition ring_report (first second third : cring) : report :=
  {| is_full := false; chunk_total := N.min (r_count first) (r_size first); ever_loaned := r_count second;
     now_loaned := r_loan third; the_size := r_size third |}.

(** trace_buffer.cc:130-140: issued (isFull, 126-128), issued again (chunk_count, 154-157; the value
    is used twice), on_loan. *)
Definition fixed_report (first second third : cfixed) : report :=
  let count := if (f_issued second <? f_size second)%N then f_issued second else f_size second in
  {| is_full := (f_size first <=? f_issued first)%N; chunk_total := count; ever_loaned := count;
     now_loaned := f_loan third; the_size := f_size third |}.
