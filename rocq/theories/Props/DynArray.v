(** C85: the memory of buffers. *)
From Coq Require Import Permutation.
From Verif Require Import Base Model.StringUtils Model.Event Model.Queue Model.Buffer Spec.Ledger Model.DynArray Proofs.DynArray.

(** Buffers are made and deleted in any order, allocations and constructors
    failing anywhere. What is alive is exactly what the buffers alive consist
    of: one object each, its chunks side by side in a block of their own that
    they fill, and the same for the cells of a ring's queue. Nothing improper
    was done: no object was made outside its block or over another, none was
    destroyed twice, no block was given back twice or while in use. *)
Theorem C85_balanced : forall E csz qsz ops, (0 < csz)%N -> (0 < qsz)%N ->
  let '(s, live) := fold_left (buffer_op E csz qsz) ops (mst0, []) in
  exists a shapes, audits ([], []) (m_log s) = Some a /\ Forall2 (shaped csz qsz) live shapes /\
    amounts a (flat_map blocks_of shapes) (flat_map objs_of shapes).
Proof.
  intros E csz qsz ops Hc Hq. pose proof (buffers_inv E csz qsz Hc Hq ops mst0 [] (binv0 csz qsz)) as H.
  destruct (fold_left _ ops _) as [s live]. destruct H as (sh & F & (a & A & P) & _). exists a, sh. auto.
Qed.
Print Assumptions C85_balanced.

(** When no buffer is left, no memory is. *)
Theorem C85_no_leak : forall E csz qsz ops, (0 < csz)%N -> (0 < qsz)%N ->
  let '(s, live) := fold_left (buffer_op E csz qsz) ops (mst0, []) in live = [] -> clean (m_log s).
Proof.
  intros E csz qsz ops Hc Hq. pose proof (C85_balanced E csz qsz ops Hc Hq) as H.
  destruct (fold_left _ ops _) as [s live]. intros ->. destruct H as ([ab ao] & sh & A & F & P1 & P2). inversion F; subst.
  cbn in P1, P2. apply Permutation_sym, Permutation_nil in P1. apply Permutation_sym, Permutation_nil in P2. subst. exact A.
Qed.
Print Assumptions C85_no_leak.

(** The failure of a call of operator new or of an element's constructor,
    between two states. *)
Definition something_failed (E : env) (s s' : mst) : Prop :=
  (exists k, m_req s <= k < m_req s' /\ grants E k = false) \/ (exists k, m_built s <= k < m_built s' /\ builds E k = false).

(** [n] elements of [sz] bytes, and one more, are too many for size_t. *)
Definition too_many (sz n : N) : Prop := (w64 <= sz * (n + 1))%N.

(** Making a buffer succeeds, and then it has as many chunks as were asked for,
    or something failed, or the sizes do not fit. *)
Theorem C85_made : forall E csz qsz ops osz count, (0 < csz)%N -> (0 < qsz)%N ->
  let '(s, live) := fold_left (buffer_op E csz qsz) ops (mst0, []) in
  match fixed_new E csz s osz count with
  | (Ok m, s') => da_size (mb_chunks m) = N.to_nat count /\ mb_cells m = None /\ mb_bytes m = osz
  | (Throw e, s') => e = OutOfRange /\ too_many csz count \/ e = BadAlloc /\ something_failed E s s'
  | (UB, _) => False
  end /\
  match ring_new E csz qsz s osz count with
  | (Ok m, s') => da_size (mb_chunks m) = N.to_nat count /\ mb_bytes m = osz /\
      option_map da_size (mb_cells m) = Some (N.to_nat (upper_power_of_two count))
  | (Throw e, s') => e = OutOfRange /\ (too_many csz count \/ too_many qsz (upper_power_of_two count)) \/ e = BadAlloc /\ something_failed E s s'
  | (UB, _) => False
  end.
Proof.
  intros E csz qsz ops osz count Hc Hq. pose proof (buffers_inv E csz qsz Hc Hq ops mst0 [] (binv0 csz qsz)) as H.
  destruct (fold_left _ ops _) as [s live].
  assert (X : forall sz n, (0 < sz)%N -> ((w64 - 1) / sz <= n)%N -> too_many sz n).
  { intros sz n Hz L. unfold too_many. pose proof (N.mul_succ_div_gt (w64 - 1) sz ltac:(lia)) as G.
    assert (0 < w64)%N by reflexivity. assert (sz * N.succ ((w64 - 1) / sz) <= sz * (n + 1))%N by (apply N.mul_le_mono_l; lia). lia. }
  split.
  - pose proof (fixed_new_spec E csz qsz Hc Hq s live osz count H) as S. destruct (fixed_new E csz s osz count) as [[m|e|] s']; auto.
    + destruct S as (_ & S1 & S2 & S3 & _). auto.
    + destruct S as (_ & [[-> S]|[-> S]]); [left|right]; auto.
  - pose proof (ring_new_spec E csz qsz Hc Hq s live osz count H) as S. destruct (ring_new E csz qsz s osz count) as [[m|e|] s']; auto.
    + destruct S as (_ & S1 & S2 & S3 & _). auto.
    + destruct S as (_ & [[-> S]|[-> S]]); [left|right]; auto. split; auto. destruct S; auto.
Qed.
Print Assumptions C85_made.

(** A size that does not fit is refused before any memory for chunks is asked
    for: no more is ever asked for than size_t can say. *)
Theorem C85_refused : forall E csz qsz s osz count, (0 < csz)%N -> (w64 <= csz * count)%N ->
  (grants E (m_req s) = true -> fst (fixed_new E csz s osz count) = Throw OutOfRange /\ fst (ring_new E csz qsz s osz count) = Throw OutOfRange) /\
  m_req (snd (fixed_new E csz s osz count)) = S (m_req s) /\ m_req (snd (ring_new E csz qsz s osz count)) = S (m_req s).
Proof.
  intros E csz qsz s osz count Hc W.
  assert (L : ((w64 - 1) / csz <=? count)%N = true).
  { apply N.leb_le. apply N.div_le_upper_bound; lia. }
  unfold fixed_new, ring_new, op_new, dyn_new, allocate. rewrite !L. destruct (grants E (m_req s)); cbn; auto.
  repeat split; auto; discriminate.
Qed.
Print Assumptions C85_refused.

(** A ring of three chunks; the fourth cell of its queue cannot be made. Then one
    that is made, one more, and the first is deleted. *)
Example C85_case :
  let E := {| grants := fun _ => true; builds := fun k => negb (Nat.eqb k 6) |} in
  let '(s, live) := fold_left (buffer_op E 10 16) [MakeRing 64 3; MakeRing 64 3; MakeFixed 48 2; DropB 1] (mst0, []) in
  length live = 1 /\ option_map (fun a => (length (fst a), length (snd a))) (audits ([], []) (m_log s)) = Some (2, 3) /\
  fst (ring_new E 10 16 mst0 64 3) = Throw BadAlloc /\ clean (m_log (snd (ring_new E 10 16 mst0 64 3))) /\
  length (m_log (snd (ring_new E 10 16 mst0 64 3))) = 18.
Proof. vm_compute. repeat split; reflexivity. Qed.
