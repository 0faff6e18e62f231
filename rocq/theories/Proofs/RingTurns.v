(** Two runs of a ring: a returnChunk that spins although the queue is empty, and a
    chunk_count that counts more chunks than there are. *)
From Verif Require Import Base Spec.QueueHistory Spec.RingHistory Model.Queue Model.Buffer Model.Interleave Model.QueueConc Model.RingConc Proofs.Interleave.
Local Open Scope N_scope.

(** Thread 1 returns chunk 1; position 2 of the queue is the cell that thread 2 has
    taken and not released. *)
Record spins (r : cring) : Prop := {
  sp_bad : r_bad r = false;
  sp_pc : r_pc r 1%nat = RPut 1;
  sp_cap : cq_cap (r_q r) = 2;
  sp_enq : cq_enq (r_q r) = 2;
  sp_seq : cq_seq (r_q r) 0 = 1;
  sp_in : match cq_pc (r_q r) 1%nat with QIdle | EPos 1 | ESeq 1 2 _ => True | _ => False end;
}.

Lemma spins_step r sp : spins r -> exists r', rstep r (RGo 1%nat sp) = Some r' /\ spins r'.
Proof.
  intros [B P C E S I]. unfold rstep. rewrite B, P. destruct (cq_pc (r_q r) 1%nat) as [|x|x pos Q|x pos Q|x pos Q|x pos Q| |pos Q|pos Q|pos Q|pos Q y] eqn:Qp; try contradiction.
  - cbn [qstep]. rewrite Qp. eexists. split; [reflexivity|]. split; auto; cbn; auto.
  - assert (x = 1) as -> by (destruct x as [|[]]; tauto). cbn [qstep]. rewrite Qp. eexists. split; [reflexivity|]. split; auto; cbn; auto. now rewrite E.
  - assert (x = 1 /\ pos = 2) as (-> & ->) by (destruct x as [|[]]; try tauto; destruct pos as [|[|[]|]]; tauto).
    cbn [qstep]. rewrite Qp. unfold cq_slot. rewrite C. change (N.land 2 (2 - 1)) with 0. rewrite S.
    change (sdif 1 2 =? 0)%Z with false. change (sdif 1 2 <? 0)%Z with true. cbv iota. eexists. split; [reflexivity|]. split; auto; cbn; auto.
Qed.

Lemma spins_on r : spins r -> forall l, (forall a, In a l -> exists sp, a = RGo 1%nat sp) -> spins (run rstep r l).
Proof.
  intros S l. revert r S. induction l as [|a l IH]; intros r S H; [exact S|]. cbn [run]. apply IH; [|intros b Hb; apply H; now right].
  destruct (H a (or_introl eq_refl)) as (sp & ->). unfold move. destruct (spins_step r sp S) as (r' & -> & S'). exact S'.
Qed.

(** [k] calls of getChunk on a fresh ring. *)
Definition one_get : list ract := [CallGet 0%nat; RGo 0%nat false; RGo 0%nat false; RGo 0%nat false].
Definition gets (k : nat) : list ract := concat (repeat one_get k).

Lemma gets_S k : gets (S k) = gets k ++ one_get.
Proof. unfold gets. replace (S k) with (k + 1)%nat by lia. rewrite repeat_app, concat_app. cbn [repeat concat]. now rewrite app_nil_r. Qed.

Lemma run_one r a l r' : rstep r a = Some r' -> run rstep r (a :: l) = run rstep r' l.
Proof. intros E. cbn [run]. unfold move. now rewrite E. Qed.

Ltac turn := erewrite run_one;
  [|unfold rstep; cbn [r_bad r_pc r_size r_count r_goto r_set_count r_set_user r_set_loan]; rewrite ?tset_same;
    repeat match goal with H : r_bad _ = false |- _ => rewrite H | H : r_pc _ _ = _ |- _ => rewrite H | H : (_ <=? _) = _ |- _ => rewrite H end; reflexivity].

Lemma gets_run n k : n < w64 -> N.of_nat k <= n -> let r := rrun n (gets k) in
  r_bad r = false /\ r_size r = n /\ r_count r = N.of_nat k /\ r_pc r 0%nat = RIdle.
Proof.
  intros Hn. induction k as [|k IH]; intros L r; [cbn; auto|]. subst r. rewrite gets_S. unfold rrun. rewrite run_app. fold (rrun n (gets k)).
  destruct IH as (B & S & C & P); [lia|]. revert B S C P. generalize (rrun n (gets k)). intros r B S C P.
  assert ((r_size r <=? r_count r) = false) as Le by (apply N.leb_gt; rewrite S, C; lia).
  unfold one_get. do 4 turn. cbn [run r_bad r_size r_count r_pc r_goto r_set_count r_set_user r_set_loan]. rewrite tset_same, C. repeat split; auto. rewrite N.mod_small; lia.
Qed.

Lemma counts_more n : 1 <= n -> n < w64 - 1 -> exists pre mid,
  n < r_chunks (r_size (rrun n pre)) (r_count (rrun n pre)) (r_count (rrun n (pre ++ mid))) /\ length pre = (4 * N.to_nat n + 1)%nat /\ length mid = 1%nat.
Proof.
  intros H1 H2. exists (gets (N.to_nat n) ++ [CallGet 0%nat]), [RGo 0%nat false].
  destruct (gets_run n (N.to_nat n)) as (B & S & C & P); [lia|lia|].
  assert (length (gets (N.to_nat n)) = (4 * N.to_nat n)%nat) as Lg.
  { generalize (N.to_nat n). intros k. induction k as [|k IH]; auto. rewrite gets_S, app_length, IH. cbn [length one_get]. lia. }
  split; [|rewrite app_length, Lg; cbn; auto].
  unfold rrun in *. rewrite !run_app. revert B S C P. generalize (run rstep (cring_new n) (gets (N.to_nat n))). intros r B S C P.
  assert ((r_size r <=? r_count r) = true) as Le by (apply N.leb_le; rewrite S, C; lia).
  turn. cbn [run]. fold (run rstep). change (move rstep (r_goto r 0%nat GCount [GetCalled 0%nat]) (RGo 0%nat false)) with (run rstep (r_goto r 0%nat GCount [GetCalled 0%nat]) [RGo 0%nat false]). turn. unfold r_chunks. cbn [run r_count r_size r_goto r_set_count].
  rewrite (proj2 (N.ltb_ge _ _)) by (rewrite S, C; lia). rewrite C, N.mod_small; lia.
Qed.
