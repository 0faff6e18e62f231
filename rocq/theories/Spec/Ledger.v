(** A ledger of memory: blocks obtained and given back, objects made in them and
    destroyed. *)
From Coq Require Import Permutation.
From Verif Require Import Base.

Inductive mev :=
| Got (b : nat) (n : N)                  (* operator new returned block [b] of [n] bytes *)
| Made (b : nat) (at_ n : N)             (* an object of [n] bytes was constructed at [at_] in block [b] *)
| Gone (b : nat) (at_ n : N)             (* it was destroyed *)
| Back (b : nat).                        (* operator delete was given block [b] *)

(** The blocks held and the objects alive. *)
Definition account := (list (nat * N) * list (nat * N * N))%type.

Definition apart (a n a' n' : N) : bool := (a + n <=? a')%N || (a' + n' <=? a)%N.

Fixpoint drop {A} (same : A -> bool) (l : list A) : option (list A) :=
  match l with
  | [] => None
  | x :: l' => if same x then Some l' else match drop same l' with Some r => Some (x :: r) | None => None end
  end.

(** What is proper: a block is new; an object lies in a block held and apart from
    every object alive in it; only what is alive is destroyed; only a block that
    is held, and in which nothing is alive, is given back. *)
Definition audit (a : account) (e : mev) : option account :=
  let '(blocks, objs) := a in
  match e with
  | Got b n => if existsb (fun p => Nat.eqb (fst p) b) blocks then None else Some ((b, n) :: blocks, objs)
  | Made b at_ n =>
      if existsb (fun p => Nat.eqb (fst p) b && (at_ + n <=? snd p)%N) blocks
         && forallb (fun p => negb (Nat.eqb (fst (fst p)) b) || apart at_ n (snd (fst p)) (snd p)) objs
      then Some (blocks, (b, at_, n) :: objs) else None
  | Gone b at_ n =>
      match drop (fun p => Nat.eqb (fst (fst p)) b && (snd (fst p) =? at_)%N && (snd p =? n)%N) objs with
      | Some objs' => Some (blocks, objs')
      | None => None
      end
  | Back b =>
      if existsb (fun p => Nat.eqb (fst (fst p)) b) objs then None
      else match drop (fun p => Nat.eqb (fst p) b) blocks with Some blocks' => Some (blocks', objs) | None => None end
  end.

Fixpoint audits (a : account) (l : list mev) : option account :=
  match l with
  | [] => Some a
  | e :: l' => match audit a e with Some a' => audits a' l' | None => None end
  end.

(** Everything was proper, and nothing is left. *)
Definition clean (l : list mev) : Prop := audits ([], []) l = Some ([], []).

(** An array of [n] elements of [sz] bytes in block [b]: side by side from the
    start. *)
Definition elems (b : nat) (sz : N) (n : nat) : list (nat * N * N) :=
  map (fun i => (b, sz * N.of_nat i, sz)%N) (seq 0 n).

(** [a] is [blocks] and [objs], in some order. *)
Definition amounts (a : account) (blocks : list (nat * N)) (objs : list (nat * N * N)) : Prop :=
  Permutation (fst a) blocks /\ Permutation (snd a) objs.

(** What one buffer holds: its own block and object, and arrays, each given by
    its block, the size of an element and their number. *)
Record shape := { sh_own : nat; sh_bytes : N; sh_arrays : list (nat * N * nat) }.
Definition blocks_of (h : shape) : list (nat * N) :=
  (sh_own h, sh_bytes h) :: map (fun a => let '(b, sz, n) := a in (b, sz * N.of_nat n)%N) (sh_arrays h).
Definition objs_of (h : shape) : list (nat * N * N) :=
  (sh_own h, 0%N, sh_bytes h) :: flat_map (fun a => let '(b, sz, n) := a in elems b sz n) (sh_arrays h).
