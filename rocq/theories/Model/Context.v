(** Model of src/trace_context.cc and include/phosphor/trace_context.h (contexts
    as objects that own a buffer and can be moved), and of JSONExport objects
    (src/tools/export.cc) that refer to a context. *)
From Verif Require Import Base Model.StringUtils Model.Event Model.Queue Model.Buffer Model.Export.

(** Objects are named by numbers (their addresses). *)
Definition put {A} (m : nat -> A) (k : nat) (a : A) : nat -> A := fun x => if x =? k then a else m x.

(** trace_context.h:71-81, the members. [o_buf] is the unique_ptr, null or the
    name of a buffer. [o_map] tells apart the values the map of the object has
    had: whenever a map is made, moved from or assigned to it is a new one, and
    an iterator belongs to one of them (the C++ standard does not say that
    iterators outlive a move assignment, and never that one can be compared with
    the end of another map). *)
Record tctx := { o_buf : option nat; o_names : list (N * bytes); o_map : nat }.

(** A buffer on the heap. *)
Inductive bstate := Absent | Alive (v : view) | Gone.

(** export.h:92-97: the reference to the context, the buffer the iterator [it] is
    from, the map the iterator [tit] is from, and the rest of the object. *)
Record xport := { p_ctx : nat; p_buf : nat; p_map : nat; p_x : exporter }.

(** What happened. [Twice b]: a buffer that is not there was deleted. *)
Inductive fact :=
| Made (b : nat) (v : view)
| Deleted (b : nat)
| Twice (b : nat)
| Got (e : nat) (out : bytes)
| Threw (e : nat) (x : exn)
| Undefined (e : nat).

Record world := {
  w_ctx : nat -> option tctx;
  w_buf : nat -> bstate;
  w_exp : nat -> option xport;
  w_made : nat;
  w_maps : nat;
  w_hist : list fact;
}.

Definition world_new : world :=
  {| w_ctx := fun _ => None; w_buf := fun _ => Absent; w_exp := fun _ => None; w_made := 0; w_maps := 0; w_hist := [] |}.

Definition set_ctx w c o : world :=
  {| w_ctx := put (w_ctx w) c o; w_buf := w_buf w; w_exp := w_exp w;
     w_made := w_made w; w_maps := w_maps w; w_hist := w_hist w |}.
Definition set_buf w b s : world :=
  {| w_ctx := w_ctx w; w_buf := put (w_buf w) b s; w_exp := w_exp w;
     w_made := w_made w; w_maps := w_maps w; w_hist := w_hist w |}.
Definition set_exp w e p : world :=
  {| w_ctx := w_ctx w; w_buf := w_buf w; w_exp := put (w_exp w) e p;
     w_made := w_made w; w_maps := w_maps w; w_hist := w_hist w |}.
Definition fact_w w f : world :=
  {| w_ctx := w_ctx w; w_buf := w_buf w; w_exp := w_exp w;
     w_made := w_made w; w_maps := w_maps w; w_hist := w_hist w ++ [f] |}.
Definition new_map w : world :=
  {| w_ctx := w_ctx w; w_buf := w_buf w; w_exp := w_exp w;
     w_made := w_made w; w_maps := S (w_maps w); w_hist := w_hist w |}.

(** make_unique: a new buffer (or none). *)
Definition make_buf (w : world) (v : option view) : world * option nat :=
  match v with
  | None => (w, None)
  | Some v =>
      let b := w_made w in
      ({| w_ctx := w_ctx w; w_buf := put (w_buf w) b (Alive v); w_exp := w_exp w;
          w_made := S b; w_maps := w_maps w; w_hist := w_hist w ++ [Made b v] |}, Some b)
  end.

(** The deleter of unique_ptr. *)
Definition delete_buf (w : world) (p : option nat) : world :=
  match p with
  | None => w
  | Some b => match w_buf w b with
              | Alive _ => fact_w (set_buf w b Gone) (Deleted b)
              | _ => fact_w w (Twice b)
              end
  end.

(** A member function on object [c]; nothing if it is not there. *)
Definition with_ctx (w : world) (c : nat) (f : tctx -> world) : world :=
  match w_ctx w c with Some o => f o | None => w end.

(** trace_context.cc:22-29, both constructors; the argument is a unique_ptr to a
    fresh buffer or null. *)
Definition ctx_make (w : world) (c : nat) (v : option view) (ns : list (N * bytes)) : world :=
  let '(w, b) := make_buf w v in
  new_map (set_ctx w c (Some {| o_buf := b; o_names := ns; o_map := w_maps w |})).

(** trace_context.cc:31-34, move construction of [c] from [d]. The unique_ptr of
    [d] becomes null; its map is left with the unspecified entries [lft]. *)
Definition ctx_move (w : world) (c d : nat) (lft : list (N * bytes)) : world :=
  with_ctx w d (fun o =>
  let w := set_ctx w c (Some {| o_buf := o_buf o; o_names := o_names o; o_map := w_maps w |}) in
  let w := new_map w in
  new_map (set_ctx w d (Some {| o_buf := None; o_names := lft; o_map := w_maps w |}))).

(** The first statement of operator=, line 37: [reset(other.release())]. *)
Definition assign_buf (w : world) (c d : nat) : world :=
  with_ctx w d (fun o =>
  let w := set_ctx w d (Some {| o_buf := None; o_names := o_names o; o_map := o_map o |}) in
  with_ctx w c (fun old =>
  let w := set_ctx w c (Some {| o_buf := o_buf o; o_names := o_names old; o_map := o_map old |}) in
  delete_buf w (o_buf old))).

(** The second, line 38; if [c] and [d] are the same object, what is left in its
    map is unspecified. *)
Definition assign_names (w : world) (c d : nat) (lft : list (N * bytes)) : world :=
  with_ctx w c (fun oc =>
  with_ctx w d (fun od =>
  let w := set_ctx w c (Some {| o_buf := o_buf oc; o_names := o_names od; o_map := w_maps w |}) in
  let w := new_map w in
  with_ctx w d (fun od =>
  new_map (set_ctx w d (Some {| o_buf := o_buf od; o_names := lft; o_map := w_maps w |}))))).

(** trace_context.cc:36-40 *)
Definition ctx_assign (w : world) (c d : nat) (lft : list (N * bytes)) : world :=
  assign_names (assign_buf w c d) c d lft.

(** trace_context.cc:20, the destructor. *)
Definition ctx_drop (w : world) (c : nat) : world :=
  with_ctx w c (fun o => delete_buf (set_ctx w c None) (o_buf o)).

Section Exports.
  Variable mem : memory.
  Variable pid : Z.

  (** export.cc:30-34, the constructor on context [c]. *)
  Definition exp_make (w : world) (e c : nat) : world :=
    with_ctx w c (fun o =>
    match o_buf o with
    | None => fact_w w (Undefined e)
    | Some b =>
        match w_buf w b with
        | Alive v =>
            match export_new {| cx_buffer := Some v; cx_names := o_names o |} with
            | Ok x => set_exp w e (Some {| p_ctx := c; p_buf := b; p_map := o_map o; p_x := x |})
            | Throw x => fact_w w (Threw e x)
            | UB => fact_w w (Undefined e)
            end
        | _ => fact_w w (Undefined e)
        end
    end).

  (** What [context.getBuffer()->end()] and [context.getThreadNames().end()] can
      be compared with: they must be of the buffer and the map the iterators of
      the export are from. *)
  Definition look (w : world) (p : xport) : res view :=
    match w_ctx w (p_ctx p) with
    | None => UB
    | Some o =>
        match o_buf o with
        | None => UB
        | Some b =>
            if (b =? p_buf p) && (o_map o =? p_map p) then
              match w_buf w b with Alive v => Ok v | _ => UB end
            else UB
        end
    end.

  (** The switch of read (export.cc:53-96): only some of its cases use the context. *)
  Definition x_switch_at (lk : res view) (x : exporter) : res exporter :=
    match x_state x with
    | footer => Ok {| x_state := dead; x_cache := $"]}"; x_it := x_it x; x_tit := x_tit x |}
    | dead => Ok x
    | _ => do v <- lk; x_switch mem pid v x
    end.

  (** The loop of read (export.cc:42-97), see [read_loop]. *)
  Fixpoint read_loop_at (fuel : nat) (lk : res view) (x : exporter) (len : nat) (out : bytes)
    : res (bytes * exporter) :=
    match fuel with
    | O => UB
    | S f =>
        if (length out <? len) && negb (is_dead (x_state x) && is_nil (x_cache x)) then
          let copied := Nat.min (length (x_cache x)) (len - length out) in
          let out' := out ++ firstn copied (x_cache x) in
          let x' := with_cache x (skipn copied (x_cache x)) in
          if negb (is_nil (x_cache x)) && (len <=? length out') then Ok (out', x')
          else do x'' <- x_switch_at lk x'; read_loop_at f lk x'' len out'
        else Ok (out, x)
    end.

  (** Without the context at most three turns are possible. *)
  Definition read_at (lk : res view) (x : exporter) (len : nat) : res (bytes * exporter) :=
    read_loop_at (match lk with Ok v => read_fuel v x | _ => 4 end) lk x len [].

  (** export.cc:38-105 on export [e]. *)
  Definition exp_read (w : world) (e n : nat) : world :=
    match w_exp w e with
    | None => w
    | Some p =>
        match read_at (look w p) (p_x p) n with
        | Ok (out, x) => fact_w (set_exp w e (Some {| p_ctx := p_ctx p; p_buf := p_buf p; p_map := p_map p; p_x := x |}))
                                (Got e out)
        | Throw x => fact_w w (Threw e x)
        | UB => fact_w w (Undefined e)
        end
    end.

  (** What a program does with contexts and exports. *)
  Inductive cop :=
  | CMake (c : nat) (v : option view) (ns : list (N * bytes))
  | CMove (c d : nat) (lft : list (N * bytes))
  | CAssign (c d : nat) (lft : list (N * bytes))
  | CDrop (c : nat)
  | CExport (e c : nat)
  | CRead (e n : nat)
  | CForget (e : nat).

  Definition there {A} (o : option A) : bool := match o with Some _ => true | None => false end.

  (** The objects an operation is applied to exist, those it makes do not yet.
      (That the context of an export still exists is not asked for.) *)
  Definition usable (w : world) (o : cop) : bool :=
    match o with
    | CMake c _ _ => negb (there (w_ctx w c))
    | CMove c d _ => negb (there (w_ctx w c)) && there (w_ctx w d)
    | CAssign c d _ => there (w_ctx w c) && there (w_ctx w d)
    | CDrop c => there (w_ctx w c)
    | CExport e c => negb (there (w_exp w e)) && there (w_ctx w c)
    | CRead e _ => there (w_exp w e)
    | CForget e => there (w_exp w e)
    end.

  (** One operation; those that are not usable are in no program and do nothing.
      After an operation with undefined behaviour the world is taken to be as it
      was, so what is claimed of a program is claimed up to the first [Undefined]. *)
  Definition cstep (w : world) (o : cop) : world :=
    if usable w o then
      match o with
      | CMake c v ns => ctx_make w c v ns
      | CMove c d lft => ctx_move w c d lft
      | CAssign c d lft => ctx_assign w c d lft
      | CDrop c => ctx_drop w c
      | CExport e c => exp_make w e c
      | CRead e n => exp_read w e n
      | CForget e => set_exp w e None
      end
    else w.

  Definition crun (w : world) (os : list cop) : world := fold_left cstep os w.

  (** trace_context.h:46-55 [getBuffer], [getThreadNames]. *)
  Definition getBuffer (w : world) (c : nat) : option nat :=
    match w_ctx w c with Some o => o_buf o | None => None end.
  Definition getThreadNames (w : world) (c : nat) : option (list (N * bytes)) :=
    match w_ctx w c with Some o => Some (o_names o) | None => None end.
End Exports.
