(** Model of trace_buffer.h / trace_buffer.cc and gsl_p/iterator.h. *)
From Verif Require Import Base Spec.History Model.StringUtils Model.Event Model.Queue.

(** * TraceChunk *)

Definition page_size : N := 4096.
Definition array_offset : N := 64.
Definition sizeof_event : N := 40.

(** trace_buffer.h:44-49 [chunk_size] for a given PHOSPHOR_CHUNK_PAGE_COUNT
    (the int arithmetic does not overflow below 2^19 pages). *)
Definition chunk_size (pages : N) : N :=
  ((page_size * pages - array_offset) / sizeof_event)%N.

(** sizeof(TraceChunk): a short, padding, a uint32_t and the array
    (trace_buffer.h:115-121). *)
Definition sizeof_chunk (pages : N) : N := (8 + sizeof_event * chunk_size pages)%N.

(** trace_buffer.h:115-121. [next_free] is an unsigned short. [c_arr] is the
    event array (indeterminate until written). *)
Record chunk := {
  c_next : N;
  c_tid : N;
  c_arr : N -> event;
}.

Definition ushort : N := 65536.

Section Chunk.
  (** chunk_size, i.e. chunk.max_size(). *)
  Variable cap : N.

  (** trace_buffer.cc:29-32 [reset]. *)
  Definition chunk_reset (c : chunk) (tid : N) : chunk :=
    {| c_next := 0; c_tid := tid; c_arr := c_arr c |}.

  (** trace_buffer.cc:34-36 [isFull]. *)
  Definition chunk_isFull (c : chunk) : bool := (c_next c =? cap)%N.

  (** trace_buffer.cc:38-40 [count]. *)
  Definition chunk_count_of (c : chunk) : N := c_next c.

  (** trace_buffer.cc:42-49 [addEvent] followed by the assignment to the
      returned reference. An index beyond the array is undefined behaviour. *)
  Definition chunk_add (c : chunk) (e : event) : res chunk :=
    if chunk_isFull c then Throw OutOfRange
    else if (cap <=? c_next c)%N then UB
    else Ok {| c_next := ((c_next c + 1) mod ushort)%N; c_tid := c_tid c;
               c_arr := upd (c_arr c) (c_next c) e |}.
End Chunk.

(** trace_buffer.cc:59-65 [begin]/[end]: the events in iteration order. *)
Definition chunk_events (c : chunk) : list event :=
  map (fun i => c_arr c (N.of_nat i)) (seq 0 (N.to_nat (c_next c))).

(** * FixedTraceBuffer *)

(** trace_buffer.cc:175-181. [f_size] is buffer.size(); [issued] and [on_loan]
    are size_t. *)
Record fixed := {
  f_size : N;
  f_chunks : N -> chunk;
  f_issued : N;
  f_loan : N;
  f_gen : N;
}.

(** trace_buffer.cc:104-106, constructor; [mem] is the uninitialised chunk
    memory. *)
Definition fixed_new (mem : N -> chunk) (gen size : N) : fixed :=
  {| f_size := size; f_chunks := mem; f_issued := 0; f_loan := 0; f_gen := gen |}.

Definition set_chunk_f (b : fixed) (k : N) (c : chunk) : fixed :=
  {| f_size := f_size b; f_chunks := upd (f_chunks b) k c; f_issued := f_issued b;
     f_loan := f_loan b; f_gen := f_gen b |}.

(** trace_buffer.cc:110-119 [getChunk]: the index of the chunk, or null. *)
Definition fixed_getChunk (b : fixed) (tid : N) : option N * fixed :=
  let offset := f_issued b in
  let issued' := ((offset + 1) mod w64)%N in
  if (f_size b <=? offset)%N then
    (None, {| f_size := f_size b; f_chunks := f_chunks b; f_issued := issued';
              f_loan := f_loan b; f_gen := f_gen b |})
  else
    (Some offset,
     {| f_size := f_size b;
        f_chunks := upd (f_chunks b) offset (chunk_reset (f_chunks b offset) tid);
        f_issued := issued';
        f_loan := ((f_loan b + 1) mod w64)%N;
        f_gen := f_gen b |}).

(** trace_buffer.cc:121-124 [returnChunk]. *)
Definition fixed_returnChunk (b : fixed) (k : N) : fixed :=
  {| f_size := f_size b; f_chunks := f_chunks b; f_issued := f_issued b;
     f_loan := ((f_loan b + w64 - 1) mod w64)%N; f_gen := f_gen b |}.

(** trace_buffer.cc:126-128 [isFull]. *)
Definition fixed_isFull (b : fixed) : bool := (f_size b <=? f_issued b)%N.

(** trace_buffer.cc:154-157 [chunk_count]. *)
Definition fixed_chunk_count (b : fixed) : N :=
  if (f_issued b <? f_size b)%N then f_issued b else f_size b.

(** The statistics record common to both buffers (trace_buffer.h:203-209). *)
Record bstats := {
  st_name : bytes;
  st_is_full : bool;
  st_chunk_count : N;
  st_total_loaned : N;
  st_loaned : N;
  st_size : N;
  st_gen : N;
}.

(** trace_buffer.cc:130-140 [getStats]. *)
Definition fixed_stats (b : fixed) : bstats :=
  let count := fixed_chunk_count b in
  {| st_name := $"FixedTraceBuffer"; st_is_full := fixed_isFull b;
     st_chunk_count := count; st_total_loaned := count; st_loaned := f_loan b;
     st_size := f_size b; st_gen := f_gen b |}.

(** * RingTraceBuffer *)

(** trace_buffer.cc:295-310 [upper_power_of_two] on size_t. *)
Definition upper_power_of_two (v : N) : N :=
  let v := ((v + w64 - 1) mod w64)%N in
  let v := N.lor v (N.shiftr v 1) in
  let v := N.lor v (N.shiftr v 2) in
  let v := N.lor v (N.shiftr v 4) in
  let v := N.lor v (N.shiftr v 8) in
  let v := N.lor v (N.shiftr v 16) in
  let v := ((v + 1) mod w64)%N in
  if (v =? 1)%N then 2%N else v.

(** trace_buffer.cc:285-293. The queue holds chunk pointers, here indices. *)
Record ring := {
  r_size : N;
  r_chunks : N -> chunk;
  r_count : N;
  r_loan : N;
  r_queue : queue N;
  r_gen : N;
}.

(** trace_buffer.cc:195-201, constructor. *)
Definition ring_new (mem : N -> chunk) (gen size : N) : ring :=
  {| r_size := size; r_chunks := mem; r_count := 0; r_loan := 0;
     r_queue := queue_new N (upper_power_of_two size); r_gen := gen |}.

Definition set_chunk_r (b : ring) (k : N) (c : chunk) : ring :=
  {| r_size := r_size b; r_chunks := upd (r_chunks b) k c; r_count := r_count b;
     r_loan := r_loan b; r_queue := r_queue b; r_gen := r_gen b |}.

(** Result of a ring operation run alone: done, waiting for ever, or use of an
    uninitialised pointer. *)
Inductive rres (A : Type) := RDone (a : A) | RWaits | RUB.
Arguments RDone {A} a. Arguments RWaits {A}. Arguments RUB {A}.

(** trace_buffer.cc:205-222 [getChunk], run alone. *)
Definition ring_getChunk (b : ring) (tid : N) : rres (N * ring) :=
  let offset := r_count b in
  let count' := ((offset + 1) mod w64)%N in
  let finish k q :=
    RDone (k, {| r_size := r_size b;
                 r_chunks := upd (r_chunks b) k (chunk_reset (r_chunks b k) tid);
                 r_count := count'; r_loan := ((r_loan b + 1) mod w64)%N;
                 r_queue := q; r_gen := r_gen b |}) in
  if (r_size b <=? offset)%N then
    match dequeue (r_queue b) with
    | QOk (Some k, q) => finish k q
    | QOk (None, _) => RUB
    | QFail | QSpin => RWaits
    end
  else finish offset (r_queue b).

(** trace_buffer.cc:224-228 [returnChunk], run alone. *)
Definition ring_returnChunk (b : ring) (k : N) : rres ring :=
  match enqueue (r_queue b) k with
  | QOk q => RDone {| r_size := r_size b; r_chunks := r_chunks b; r_count := r_count b;
                      r_loan := ((r_loan b + w64 - 1) mod w64)%N; r_queue := q;
                      r_gen := r_gen b |}
  | QFail | QSpin => RWaits
  end.

(** trace_buffer.cc:230-232. *)
Definition ring_isFull (b : ring) : bool := false.

(** trace_buffer.cc:259-267 [chunk_count]. *)
Definition ring_chunk_count (b : ring) : N :=
  if (r_size b <? r_count b)%N then r_size b else r_count b.

(** trace_buffer.cc:234-245 [getStats]. *)
Definition ring_stats (b : ring) : bstats :=
  {| st_name := $"RingTraceBuffer"; st_is_full := ring_isFull b;
     st_chunk_count := N.min (r_count b) (r_size b);
     st_total_loaned := r_count b; st_loaned := r_loan b;
     st_size := r_size b; st_gen := r_gen b |}.

(** * Iteration *)

(** What iteration sees of a buffer: the number of chunks (chunk_count) and the
    chunks. Both buffer classes implement begin/end identically
    (trace_buffer.cc:159-173, 269-283). *)
Record view := { v_count : N; v_chunk : N -> chunk }.

Definition fixed_view (b : fixed) : view :=
  {| v_count := fixed_chunk_count b; v_chunk := f_chunks b |}.
Definition ring_view (b : ring) : view :=
  {| v_count := ring_chunk_count b; v_chunk := r_chunks b |}.

(** gsl_p/iterator.h:100-103 with T = chunk_iterator (trace_buffer.cc:70-96):
    [it_parent]/[it_end] are chunk indices; [it_child] is a pointer into the
    event array of chunk [fst it_child] at offset [snd it_child]. *)
Record iter := { it_parent : N; it_end : N; it_child : N * N }.

(** gsl_p/iterator.h:86-97 [seekChildForward]; the fuel bounds the number of
    chunks stepped over and [None] means it ran out. *)
Fixpoint seek_loop (fuel : nat) (v : view) (it : iter) : option iter :=
  match fuel with
  | O => None
  | S f =>
      let p := it_parent it in
      if (fst (it_child it) =? p)%N && (snd (it_child it) =? c_next (v_chunk v p))%N then
        let p' := (p + 1)%N in
        if (p' =? it_end it)%N then
          Some {| it_parent := p'; it_end := it_end it; it_child := it_child it |}
        else seek_loop f v {| it_parent := p'; it_end := it_end it; it_child := (p', 0%N) |}
      else Some it
  end.

Definition seek (v : view) (it : iter) : option iter :=
  if (it_parent it =? it_end it)%N then Some it
  else seek_loop (S (N.to_nat (it_end it - it_parent it))) v it.

(** gsl_p/iterator.h:50-53, constructor: parent->begin() is only an address
    computation, also for the one-past-the-end chunk. *)
Definition iter_new (v : view) (p e : N) : option iter :=
  seek v {| it_parent := p; it_end := e; it_child := (p, 0%N) |}.

(** trace_buffer.cc:167-173. *)
Definition it_begin (v : view) : option iter := iter_new v 0 (v_count v).
Definition it_finish (v : view) : option iter := iter_new v (v_count v) (v_count v).

(** gsl_p/iterator.h:69-76 [operator==]. *)
Definition iter_eqb (a b : iter) : bool :=
  if (it_parent a =? it_end a)%N && (it_parent a =? it_parent b)%N then true
  else (it_parent a =? it_parent b)%N &&
       ((fst (it_child a) =? fst (it_child b)) && (snd (it_child a) =? snd (it_child b)))%N.

(** gsl_p/iterator.h:55-57 and 82-84: the event and the chunk's thread id. *)
Definition iter_get (v : view) (it : iter) : event * N :=
  (c_arr (v_chunk v (fst (it_child it))) (snd (it_child it)),
   c_tid (v_chunk v (it_parent it))).

(** gsl_p/iterator.h:63-67 [operator++]. *)
Definition iter_next (v : view) (it : iter) : option iter :=
  seek v {| it_parent := it_parent it; it_end := it_end it;
            it_child := (fst (it_child it), (snd (it_child it) + 1)%N) |}.

(** A range-for loop over the buffer; [None] if [fuel] iterations are not
    enough. *)
Fixpoint iterate (fuel : nat) (v : view) (it fin : iter) : option (list (event * N)) :=
  match fuel with
  | O => None
  | S f =>
      if iter_eqb it fin then Some []
      else match iter_next v it with
           | Some it' => option_map (cons (iter_get v it)) (iterate f v it' fin)
           | None => None
           end
  end.

(** * BufferMode *)

(** trace_buffer.h:130-134; [mode_invalid] is any other char. *)
Inductive bmode := mode_custom | mode_fixed | mode_ring | mode_invalid.

(** trace_buffer.cc:318-330 [parseBufferMode]. *)
Definition parseBufferMode (s : bytes) : res bmode :=
  if bytes_eqb s $"custom" then Ok mode_custom
  else if bytes_eqb s $"fixed" then Ok mode_fixed
  else if bytes_eqb s $"ring" then Ok mode_ring
  else Throw InvalidArgument.

(** trace_buffer.cc:333-345 [to_string]. *)
Definition mode_to_string (m : bmode) : res bytes :=
  match m with
  | mode_custom => Ok $"custom"
  | mode_fixed => Ok $"fixed"
  | mode_ring => Ok $"ring"
  | mode_invalid => Throw InvalidArgument
  end.

(** * One thread logging into a buffer *)

(** trace_log.cc:303-309 [replaceChunk] and 124-134 [logEvent] for a single
    registered thread while tracing is enabled, on a ring buffer. [cur] is the
    tenant's chunk. *)
Definition ring_log (cap : N) (b : ring) (cur : option N) (tid : N) (e : event)
  : rres (ring * option N) :=
  let store b k := match chunk_add cap (r_chunks b k) e with
                   | Ok c => RDone (set_chunk_r b k c, Some k)
                   | _ => RUB
                   end in
  let fetch b := match ring_getChunk b tid with
                 | RDone (k, b') => store b' k
                 | RWaits => RWaits
                 | RUB => RUB
                 end in
  match cur with
  | None => fetch b
  | Some k =>
      if chunk_isFull cap (r_chunks b k) then
        match ring_returnChunk b k with
        | RDone b' => fetch b'
        | RWaits => RWaits
        | RUB => RUB
        end
      else store b k
  end.

Fixpoint ring_log_all (cap : N) (b : ring) (cur : option N) (tid : N) (es : list event)
  : rres (ring * option N) :=
  match es with
  | [] => RDone (b, cur)
  | e :: r => match ring_log cap b cur tid e with
              | RDone (b', cur') => ring_log_all cap b' cur' tid r
              | RWaits => RWaits
              | RUB => RUB
              end
  end.

(** * Sequences of calls *)

Fixpoint fixed_run (b : fixed) (cs : list call) : list done * fixed :=
  match cs with
  | [] => ([], b)
  | Ask t :: r =>
      let '(o, b') := fixed_getChunk b t in
      let '(h, b'') := fixed_run b' r in
      (match o with Some k => Lent t k | None => Refused t end :: h, b'')
  | GiveBack k :: r =>
      let '(h, b'') := fixed_run (fixed_returnChunk b k) r in
      (Back k :: h, b'')
  end.

(** How a run of calls on a ring buffer ends: all done, waiting for ever inside
    the next call, or undefined behaviour. *)
Inductive ending := AllDone | WaitsIn (c : call) | Crash.

Fixpoint ring_run (b : ring) (cs : list call) : list done * ring * ending :=
  match cs with
  | [] => ([], b, AllDone)
  | Ask t :: r =>
      match ring_getChunk b t with
      | RDone (k, b') => let '(h, b'', e) := ring_run b' r in (Lent t k :: h, b'', e)
      | RWaits => ([], b, WaitsIn (Ask t))
      | RUB => ([], b, Crash)
      end
  | GiveBack k :: r =>
      match ring_returnChunk b k with
      | RDone b' => let '(h, b'', e) := ring_run b' r in (Back k :: h, b'', e)
      | RWaits => ([], b, WaitsIn (GiveBack k))
      | RUB => ([], b, Crash)
      end
  end.

(** trace_log.cc:106-107 [start]: the number of chunks for a size in bytes. *)
Definition chunks_for (pages bytes_ : N) : N := (bytes_ / sizeof_chunk pages)%N.

(** sizeof(mpmc_bounded_queue<TraceChunk* >::cell_t): an atomic size_t and a
    pointer (mpmc_bounded_queue.h:143-147). *)
Definition sizeof_cell : N := 16.
