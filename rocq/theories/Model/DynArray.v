(** Model of the memory that buffers are made of: include/gsl_p/dyn_array.h, the
    two buffer classes of src/trace_buffer.cc and the cells of the queue.

    What operator new and the constructors of elements do is an input. Exceptions
    are results. The ledger of Spec/Ledger.v is written as the code runs. *)
From Verif Require Import Base Model.StringUtils Model.Event Model.Queue Model.Buffer Spec.Ledger.

Record env := {
  grants : nat -> bool;      (* operator new, call number k, returns memory *)
  builds : nat -> bool;      (* element constructor, call number k, returns *)
}.

(** The calls made so far, and the ledger. *)
Record mst := { m_req : nat; m_built : nat; m_log : list mev }.
Definition note (s : mst) (e : mev) : mst := {| m_req := m_req s; m_built := m_built s; m_log := m_log s ++ [e] |}.

Section Arrays.
  Variable E : env.

  (** ::operator new *)
  Definition op_new (s : mst) (n : N) : res nat * mst :=
    let s' := {| m_req := S (m_req s); m_built := m_built s; m_log := m_log s |} in
    if grants E (m_req s) then (Ok (m_req s), note s' (Got (m_req s) n)) else (Throw BadAlloc, s').

  (** dyn_array.h:362-369 [__allocate], on size_t. *)
  Definition allocate (s : mst) (sz count : N) : res nat * mst :=
    if ((w64 - 1) / sz <=? count)%N then (Throw OutOfRange, s) else op_new s ((sz * count) mod w64)%N.

  (** dyn_array.h:358-359 *)
  Record dyn := { da_base : option nat; da_size : nat }.

  (** Element [i] of the array of elements of [sz] bytes. *)
  Definition slot (sz : N) (i : nat) : N := (sz * N.of_nat i)%N.

  (** dyn_array.h:431-432, the loop; [n] elements are left. *)
  Fixpoint fill (s : mst) (b : nat) (sz : N) (i n : nat) : bool * nat * mst :=
    match n with
    | O => (true, i, s)
    | S n' =>
        let s' := {| m_req := m_req s; m_built := S (m_built s); m_log := m_log s |} in
        if builds E (m_built s) then fill (note s' (Made b (slot sz i) sz)) b sz (S i) n'
        else (false, i, s')
    end.

  (** dyn_array.h:471-477 [~dyn_array] *)
  Fixpoint unfill (s : mst) (b : nat) (sz : N) (i : nat) : mst :=
    match i with O => s | S i' => unfill (note s (Gone b (slot sz i') sz)) b sz i' end.
  Definition dyn_delete (s : mst) (d : dyn) (sz : N) : mst :=
    match da_base d with
    | Some b => note (unfill s b sz (da_size d)) (Back b)
    | None => s                                     (* operator delete of a null pointer *)
    end.

  (** dyn_array.h:427-433: the constructor delegates to the default constructor
      (360), so an exception in its body runs the destructor. *)
  Definition dyn_new (s : mst) (sz count : N) : res dyn * mst :=
    match allocate s sz count with
    | (Ok b, s1) =>
        match fill s1 b sz 0 (N.to_nat count) with
        | (true, n, s2) => (Ok {| da_base := Some b; da_size := n |}, s2)
        | (false, n, s2) => (Throw BadAlloc, dyn_delete s2 {| da_base := Some b; da_size := n |} sz)
        end
    | (Throw e, s1) => (Throw e, dyn_delete s1 {| da_base := None; da_size := 0 |} sz)
    | (UB, s1) => (UB, s1)
    end.

  (** A buffer: its own block, its chunks, and the cells of the queue if it is a
      ring. *)
  Record made_buffer := { mb_block : nat; mb_bytes : N; mb_chunks : dyn; mb_cells : option dyn }.

  Variable csz : N.       (* sizeof(TraceChunk) *)
  Variable qsz : N.       (* sizeof(cell_t) *)

  (** memory.h:23-26 with trace_buffer.cc:104-106, 184-187. *)
  Definition fixed_new (s : mst) (osz count : N) : res made_buffer * mst :=
    match op_new s osz with
    | (Ok b, s1) =>
        match dyn_new s1 csz count with
        | (Ok d, s2) => (Ok {| mb_block := b; mb_bytes := osz; mb_chunks := d; mb_cells := None |}, note s2 (Made b 0 osz))
        | (Throw e, s2) => (Throw e, note s2 (Back b))
        | (UB, s2) => (UB, s2)
        end
    | (Throw e, s1) => (Throw e, s1)
    | (UB, s1) => (UB, s1)
    end.

  (** memory.h:23-26 with trace_buffer.cc:195-201, 313-316, and
      mpmc_bounded_queue.h:64-76. Members are made in the order of their
      declaration (trace_buffer.cc:286-292) and unmade in the opposite order. *)
  Definition ring_new (s : mst) (osz count : N) : res made_buffer * mst :=
    match op_new s osz with
    | (Ok b, s1) =>
        match dyn_new s1 csz count with
        | (Ok d, s2) =>
            match dyn_new s2 qsz (upper_power_of_two count) with
            | (Ok q, s3) => (Ok {| mb_block := b; mb_bytes := osz; mb_chunks := d; mb_cells := Some q |}, note s3 (Made b 0 osz))
            | (Throw e, s3) => (Throw e, note (dyn_delete s3 d csz) (Back b))
            | (UB, s3) => (UB, s3)
            end
        | (Throw e, s2) => (Throw e, note s2 (Back b))
        | (UB, s2) => (UB, s2)
        end
    | (Throw e, s1) => (Throw e, s1)
    | (UB, s1) => (UB, s1)
    end.

  (** trace_buffer.cc:108 and 203, the destructors, by std::unique_ptr. *)
  Definition buffer_delete (s : mst) (m : made_buffer) : mst :=
    let s1 := note s (Gone (mb_block m) 0 (mb_bytes m)) in
    let s2 := match mb_cells m with Some q => dyn_delete s1 q qsz | None => s1 end in
    note (dyn_delete s2 (mb_chunks m) csz) (Back (mb_block m)).
End Arrays.

(** Buffers are made and deleted in any order: [DropB i] deletes the [i]-th of
    those alive, the last made being number 0. *)
Inductive bop := MakeFixed (osz count : N) | MakeRing (osz count : N) | DropB (i : nat).

Fixpoint take_nth {A} (l : list A) (i : nat) : option (A * list A) :=
  match l, i with
  | [], _ => None
  | x :: l', O => Some (x, l')
  | x :: l', S i' => match take_nth l' i' with Some (y, r) => Some (y, x :: r) | None => None end
  end.

Definition keep_made (r : res made_buffer * mst) (live : list made_buffer) : mst * list made_buffer :=
  match r with (Ok m, s) => (s, m :: live) | (_, s) => (s, live) end.

Definition buffer_op (E : env) (csz qsz : N) (w : mst * list made_buffer) (o : bop) : mst * list made_buffer :=
  let '(s, live) := w in
  match o with
  | MakeFixed osz count => keep_made (fixed_new E csz s osz count) live
  | MakeRing osz count => keep_made (ring_new E csz qsz s osz count) live
  | DropB i => match take_nth live i with Some (m, rest) => (buffer_delete csz qsz s m, rest) | None => (s, live) end
  end.

Definition mst0 : mst := {| m_req := 0; m_built := 0; m_log := [] |}.
