(** Proofs about Model/Counter.v. *)
From Verif Require Import Base Spec.Counter Model.Interleave Model.WeakMem Model.Counter Proofs.Interleave Proofs.WeakMem.
Local Open Scope N_scope.

(** ** Histories *)

Lemma heard_lt h t j : heard h t j -> (j < length h)%nat.
Proof. induction 1; rewrite app_length; cbn; lia. Qed.

Lemma heard_snoc h e t j : heard (h ++ [e]) t j ->
  heard h t j \/ (exists x o v, e = CDid t x o v /\ j = length h) \/ (exists u, e = CSynced t u /\ heard h u j).
Proof.
  intros H. inversion H as [h' t' x o v E|h' e' t' j' H' E|h' t' u j' H' E]; subst; apply app_inj_tail in E as (-> & <-).
  - right. left. eauto.
  - now left.
  - right. right. eauto.
Qed.

Lemma heard_nil t j : ~ heard [] t j.
Proof. intros H. apply heard_lt in H. cbn in H. lia. Qed.

Lemma net_app x a b : net x (a ++ b) = (net x a + net x b)%Z.
Proof. induction a as [|[t y o v|t u] a IH]; cbn; rewrite ?IH; lia. Qed.

Lemma firstn_snoc {A} k (h : list A) e : (k <= length h)%nat -> firstn k (h ++ [e]) = firstn k h.
Proof. intros L. rewrite firstn_app. replace (k - length h)%nat with O by lia. cbn. apply app_nil_r. Qed.

Lemma firstn_snoc_all {A} (h : list A) e : firstn (S (length h)) (h ++ [e]) = h ++ [e].
Proof. apply firstn_all2. rewrite app_length. cbn. lia. Qed.

Lemma tally_lt v x h : tally v x h < 2 ^ 64.
Proof.
  unfold tally. pose proof (Z.mod_pos_bound (Z.of_N v + net x h) (2 ^ 64) ltac:(lia)) as B.
  change (2 ^ 64) with (Z.to_N (2 ^ 64)). apply Z2N.inj_lt; lia.
Qed.

Lemma tally_add v x h h' d k : net x h' = (net x h + k)%Z -> (Z.of_N d mod 2 ^ 64 = k mod 2 ^ 64)%Z ->
  tally v x h' = (tally v x h + d) mod 2 ^ 64.
Proof.
  intros E M. unfold tally. rewrite E. apply N2Z.inj.
  rewrite N2Z.inj_mod, N2Z.inj_add, !Z2N.id by (apply Z.mod_pos_bound; lia).
  change (Z.of_N (2 ^ 64)) with (2 ^ 64)%Z.
  rewrite Zplus_mod_idemp_l, <- (Zplus_mod_idemp_r (Z.of_N d)), M, Zplus_mod_idemp_r. f_equal. lia.
Qed.

(** ** The invariant *)

Definition on_x (x : N) (h : list cevent) (j : nat) : Prop := exists u o v, nth_error h j = Some (CDid u x o v).

(** What a change of the counter is given back. *)
Definition answers (o : cop) (before after : N) : N :=
  match o with CPreInc | CPreDec => after | _ => before end.

Record CI (init x : N) (m : wmem unit) (h : list cevent) (P : list (msg * nat)) (r : nat -> nat) : Prop := {
  ci_hist : map fst P = hist m (ctr x);
  ci_chain : chain (fun _ => True) (map fst P);
  ci_sorted : forall g k g' k', In (g, k) P -> In (g', k') P -> m_to g <= m_to g' -> (k <= k')%nat;
  ci_val : forall g k, In (g, k) P -> (k <= length h)%nat /\ m_val g = tally init x (firstn k h);
  ci_new : forall g k l, P = (g, k) :: l -> net x (firstn k h) = net x h;
  ci_read : forall j t v, nth_error h j = Some (CDid t x CRead v) ->
    (r j <= j)%nat /\ v = tally init x (firstn (r j) h) /\
    forall i, heard (firstn j h) t i -> on_x x h i -> (r i <= r j)%nat;
  ci_change : forall j t o v, nth_error h j = Some (CDid t x o v) -> changes o ->
    r j = S j /\ v = answers o (tally init x (firstn j h)) (tally init x (firstn (S j) h));
  ci_seen : forall t j, heard h t j -> on_x x h j -> exists g, In (g, r j) P /\ m_to g <= ts (seen m t) (ctr x);
}.

Lemma CI_grow init x m m' h P r :
  hist m' (ctr x) = hist m (ctr x) -> (forall t, ts (seen m t) (ctr x) <= ts (seen m' t) (ctr x)) ->
  CI init x m h P r -> CI init x m' h P r.
Proof.
  intros E V []. split; auto; [congruence|]. intros t j H X. destruct (ci_seen0 t j H X) as (g & A & B).
  exists g. split; auto. specialize (V t). lia.
Qed.

Lemma nth_snoc {A} (h : list A) e j y : nth_error (h ++ [e]) j = Some y ->
  ((j < length h)%nat /\ nth_error h j = Some y) \/ (j = length h /\ y = e).
Proof.
  intros H. destruct (Nat.lt_ge_cases j (length h)) as [L|L]; [rewrite nth_error_app1 in H by auto; auto|].
  rewrite nth_error_app2 in H by auto. destruct (j - length h)%nat as [|k] eqn:D; cbn in H; [|destruct k; discriminate].
  right. injection H as <-. split; [lia|auto].
Qed.

Lemma on_x_old x h e i : (i < length h)%nat -> on_x x (h ++ [e]) i -> on_x x h i.
Proof. intros L (u & o & v & H). exists u, o, v. now rewrite nth_error_app1 in H. Qed.

(** An event that is not about the counter. *)
Lemma CI_other init x m h P r e :
  (forall t o v, e <> CDid t x o v) -> (forall t u, e = CSynced t u -> ts (seen m u) (ctr x) <= ts (seen m t) (ctr x)) ->
  CI init x m h P r -> CI init x m (h ++ [e]) P r.
Proof.
  intros NE SY C. assert (net x [e] = 0)%Z as Z0.
  { destruct e as [t y o v|t u]; cbn; auto. destruct (N.eqb_spec y x) as [->|]; [now destruct (NE t o v)|lia]. }
  destruct C as [C1 C2 C3 C4 C5 C6 C7 C8]. split; auto.
  - intros g k H. destruct (C4 g k H) as (A & B). rewrite app_length, firstn_snoc by auto. split; auto. lia.
  - intros g k l H. rewrite firstn_snoc, net_app, Z0, (C5 g k l H); [lia|]. apply (C4 g). rewrite H. now left.
  - intros j t v H. apply nth_snoc in H as [(L & H)|(_ & H)]; [|now destruct (NE t CRead v)].
    destruct (C6 j t v H) as (A & B & D). rewrite !firstn_snoc by lia. split; auto. split; auto.
    intros i Hi X. apply D; auto. apply on_x_old in X; auto. apply heard_lt in Hi. rewrite firstn_length in Hi. lia.
  - intros j t o v H K. apply nth_snoc in H as [(L & H)|(_ & H)]; [|now destruct (NE t o v)].
    destruct (C7 j t o v H K) as (A & B). rewrite !firstn_snoc by lia. auto.
  - intros t j H X. apply heard_snoc in H as [H|[(y & o & v & -> & ->)|(u & -> & H)]].
    + apply C8; auto. eapply on_x_old; eauto using heard_lt.
    + destruct X as (u & o' & v' & X). rewrite nth_error_app2, Nat.sub_diag in X by auto. cbn in X.
      injection X as -> -> -> ->. now destruct (NE u o' v').
    + destruct (C8 u j H) as (g & A & B); [eapply on_x_old; eauto using heard_lt|].
      exists g. split; auto. specialize (SY t u eq_refl). lia.
Qed.

Definition nset (r : nat -> nat) (j k : nat) : nat -> nat := fun i => if Nat.eqb i j then k else r i.
Lemma nset_same r j k : nset r j k j = k.
Proof. unfold nset. now rewrite Nat.eqb_refl. Qed.
Lemma nset_other r j k i : i <> j -> nset r j k i = r i.
Proof. intros H. unfold nset. destruct (Nat.eqb_spec i j); [contradiction|auto]. Qed.

(** The counter is read; [m] is the memory after that. *)
Lemma CI_load init x m h P r t g :
  In g (hist m (ctr x)) -> ts (seen m t) (ctr x) = m_to g -> CI init x m h P r ->
  exists r', CI init x m (h ++ [CDid t x CRead (m_val g)]) P r'.
Proof.
  intros G T C. destruct C as [C1 C2 C3 C4 C5 C6 C7 C8].
  rewrite <- C1 in G. apply in_map_iff in G as ((g0 & k) & E & G). cbn in E. subst g0.
  destruct (C4 g k G) as (Lk & Vk). set (e := CDid t x CRead (m_val g)). exists (nset r (length h) k).
  assert (net x [e] = 0)%Z as Z0 by (cbn; destruct (x =? x); cbn; lia).
  assert (forall u i, heard h u i -> on_x x h i -> nset r (length h) k i = r i) as RO.
  { intros u i H _. apply nset_other. apply heard_lt in H. lia. }
  split; auto.
  - intros g' k' H. destruct (C4 g' k' H) as (A & B). rewrite app_length, firstn_snoc by auto. split; auto. lia.
  - intros g' k' l H. rewrite firstn_snoc, net_app, Z0, (C5 g' k' l H); [lia|]. apply (C4 g'). rewrite H. now left.
  - intros j u v H. apply nth_snoc in H as [(L & H)|(-> & H)].
    + destruct (C6 j u v H) as (A & B & D). rewrite !nset_other by lia. rewrite !firstn_snoc by lia. split; auto. split; auto.
      intros i Hi X. assert (i < j)%nat by (apply heard_lt in Hi; rewrite firstn_length in Hi; lia).
      rewrite nset_other by lia. apply D; auto. apply on_x_old in X; auto. lia.
    + injection H as -> ->. rewrite nset_same. split; auto. rewrite firstn_snoc by auto. split; auto.
      rewrite firstn_snoc, firstn_all by auto. intros i Hi X.
      apply on_x_old in X; [|eapply heard_lt; eauto]. rewrite (RO t i) by auto.
      destruct (C8 t i Hi X) as (g' & A & B). rewrite T in B. eauto.
  - intros j u o v H K. apply nth_snoc in H as [(L & H)|(_ & H)]; [|now injection H as -> -> ->].
    destruct (C7 j u o v H K) as (A & B). rewrite nset_other by lia. rewrite !firstn_snoc by lia. auto.
  - intros u j H X. apply heard_snoc in H as [H|[(y & o & v & E & ->)|(w & E & H)]]; [| |discriminate].
    + apply on_x_old in X; [|eapply heard_lt; eauto]. rewrite (RO u j) by auto. now apply C8.
    + injection E as <- <- <- <-. rewrite nset_same. exists g. split; auto. lia.
Qed.

(** The counter is changed. *)
Lemma CI_count init x m m' h P r t o d q g l n w :
  changes o -> (Z.of_N d mod 2 ^ 64 = delta o mod 2 ^ 64)%Z ->
  q = answers o (m_val g) ((m_val g + d) mod 2 ^ 64) ->
  hist m (ctr x) = g :: l -> free (m_to g) n (g :: l) = true ->
  hist m' (ctr x) = {| m_from := m_to g; m_to := n; m_val := (m_val g + d) mod 2 ^ 64; m_view := w |} :: hist m (ctr x) ->
  (forall u, ts (seen m u) (ctr x) <= ts (seen m' u) (ctr x)) -> n <= ts (seen m' t) (ctr x) ->
  CI init x m h P r -> exists P' r', CI init x m' (h ++ [CDid t x o q]) P' r'.
Proof.
  intros K D Q G F G' V T C. destruct C as [C1 C2 C3 C4 C5 C6 C7 C8].
  destruct P as [|(g0 & k) P0]; [rewrite G in C1; discriminate|].
  pose proof C1 as C1'. rewrite G in C1'. cbn in C1'. injection C1' as -> EL.
  destruct (C4 g k) as (Lk & Vk); [now left|]. pose proof (C5 _ _ _ eq_refl) as N0.
  set (e := CDid t x o q). set (gn := {| m_from := m_to g; m_to := n; m_val := (m_val g + d) mod 2 ^ 64; m_view := w |}) in *.
  assert (tally init x (firstn k h) = tally init x h) as TK by (unfold tally; now rewrite N0).
  assert (net x (h ++ [e]) = net x h + delta o)%Z as NE by (rewrite net_app; cbn; rewrite N.eqb_refl; lia).
  assert (tally init x (h ++ [e]) = (m_val g + d) mod 2 ^ 64) as TN.
  { rewrite Vk, TK. now apply (tally_add init x h (h ++ [e]) d (delta o)). }
  pose proof (free_in _ _ _ F) as (Lt & _).
  assert (forall g' k', In (g', k') ((g, k) :: P0) -> m_to g' < n) as OLD.
  { intros g' k' [[= <- <-]|H]; auto. cbn in C2. pose proof (chain_older _ _ _ C2 g' (in_map fst _ _ H)). lia. }
  exists ((gn, S (length h)) :: (g, k) :: P0), (nset r (length h) (S (length h))). split.
  - change (gn :: map fst ((g, k) :: P0) = hist m' (ctr x)). now rewrite C1, G'.
  - cbn [map fst]. apply (chain_add (fun _ => True) g (map fst P0) n); auto. now rewrite EL.
  - intros g1 k1 g2 k2 [H1|H1] [H2|H2] L.
    + injection H1 as <- <-. injection H2 as <- <-. auto.
    + injection H1 as <- <-. apply OLD in H2. cbn in L. lia.
    + injection H2 as <- <-. apply C4 in H1. lia.
    + eauto.
  - intros g1 k1 [H|H].
    + injection H as <- <-. rewrite app_length, firstn_snoc_all. cbn [m_val gn length]. split; [lia|]. now rewrite TN.
    + destruct (C4 g1 k1 H) as (A & B). rewrite app_length, firstn_snoc by auto. split; auto. lia.
  - intros g1 k1 l1 [= <- <- _]. now rewrite firstn_snoc_all.
  - intros j u v H. apply nth_snoc in H as [(L & H)|(_ & H)]; [|injection H as -> <- _; now cbn in K].
    destruct (C6 j u v H) as (A & B & E). rewrite !nset_other by lia. rewrite !firstn_snoc by lia. split; auto. split; auto.
    intros i Hi X. assert (i < j)%nat by (apply heard_lt in Hi; rewrite firstn_length in Hi; lia).
    rewrite nset_other by lia. apply E; auto. apply on_x_old in X; auto. lia.
  - intros j u o' v H K'. apply nth_snoc in H as [(L & H)|(-> & H)].
    + destruct (C7 j u o' v H K') as (A & B). rewrite nset_other by lia. rewrite !firstn_snoc by lia. auto.
    + injection H as -> -> ->. rewrite nset_same. split; auto.
      rewrite firstn_snoc_all, firstn_snoc, firstn_all, TN, <- TK, <- Vk by auto. exact Q.
  - intros u j H X. apply heard_snoc in H as [H|[(y & o' & v & E & ->)|(u' & E & H)]]; [| |discriminate].
    + apply on_x_old in X; [|eapply heard_lt; eauto]. rewrite nset_other by (apply heard_lt in H; lia).
      destruct (C8 u j H X) as (g' & A & B). exists g'. split; [now right|]. specialize (V u). lia.
    + injection E as <- <- <- <-. rewrite nset_same. exists gn. split; [now left|]. cbn. auto.
Qed.

(** ** Steps *)

Lemma ctr_inj x y : ctr x = ctr y -> x = y.
Proof. now intros [= ->]. Qed.

Lemma seen_with (m : wmem unit) t v u y : vle (seen m t) v -> ts (seen m u) y <= ts (seen (with_seen m t v) u) y.
Proof. intros H. cbn. unfold tset. destruct (Nat.eqb_spec u t) as [->|]; [apply H|lia]. Qed.

Lemma CI_wload init x m t y i v m' h P r : wload m t false (ctr y) i = Some (v, m') -> CI init x m h P r ->
  exists P' r', CI init x m' (h ++ [CDid t y CRead v]) P' r'.
Proof.
  unfold wload. destruct (nth_error _ i) as [g|] eqn:G; [|discriminate].
  destruct (_ <=? _) eqn:L; [|discriminate]. apply N.leb_le in L. intros [= <- <-] C. apply nth_error_In in G.
  assert (CI init x (with_seen m t (after_load (seen m t) false (ctr y) g)) h P r) as C'.
  { eapply CI_grow; [| |exact C]; [reflexivity|]. intros u. apply seen_with, after_load_le. }
  destruct (N.eq_dec y x) as [->|N].
  - eapply CI_load in C' as (r' & C'); [eauto|exact G|]. cbn. unfold tset. rewrite Nat.eqb_refl. cbn. rewrite lset_same. lia.
  - exists P, r. apply CI_other; auto; [|discriminate]. now intros u o w [= _ -> _ _].
Qed.

Lemma CI_wstore init x m t y v f n m' h P r : y <> x -> wstore m t false (ctr y) v f n = Some m' -> CI init x m h P r ->
  CI init x m' (h ++ [CDid t y CAssign v]) P r.
Proof.
  unfold wstore. destruct (_ && _); [|discriminate]. intros N [= <-] C.
  apply CI_other; [now intros u o w [= _ -> _ _]|discriminate|].
  eapply CI_grow; [| |exact C].
  - cbn. apply lset_other. intros E. apply ctr_inj in E. congruence.
  - intros u. apply (seen_with m t _ u), vle_vat.
Qed.

Lemma CI_c_count init x s s' t y d q o i n P r :
  changes o -> (Z.of_N d mod 2 ^ 64 = delta o mod 2 ^ 64)%Z ->
  (forall v, v < 2 ^ 64 -> (v + q) mod 2 ^ 64 = answers o v ((v + d) mod 2 ^ 64)) ->
  c_count s t y d q o i n = Some s' -> CI init x (c_mem s) (c_hist s) P r ->
  exists P' r', CI init x (c_mem s') (c_hist s') P' r'.
Proof.
  intros K D Q. unfold c_count, wfetch_add, wrmw. destruct (nth_error _ i) as [g|] eqn:G; [|discriminate].
  destruct (_ && _) eqn:L; [|discriminate]. apply andb_true_iff in L as (L & F). intros [= <-] C. cbn [c_goto c_mem c_hist].
  set (v' := vat (after_load (seen (c_mem s) t) false (ctr y) g) (ctr y) n).
  assert (vle (seen (c_mem s) t) v') as V by (eapply vle_trans; [apply after_load_le|apply vle_vat]).
  destruct (N.eq_dec y x) as [->|N].
  - assert (i = O) as -> by (apply (chain_rmw (fun _ => True) (hist (c_mem s) (ctr x)) i g n); auto; rewrite <- (ci_hist _ _ _ _ _ _ C); apply C).
    destruct (hist (c_mem s) (ctr x)) as [|g' l] eqn:H; [discriminate|]. injection G as ->.
    eapply CI_count; [exact K|exact D| |exact H|exact F| | | |exact C].
    + apply Q. assert (In g (map fst P)) as I by (rewrite (ci_hist _ _ _ _ _ _ C), H; now left).
      apply in_map_iff in I as ((g0 & k) & E & I). cbn in E. subst g0. destruct (ci_val _ _ _ _ _ _ C g k I) as (_ & ->). apply tally_lt.
    + cbn. rewrite lset_same, H. reflexivity.
    + intros u. apply (seen_with (c_mem s) t v' u), V.
    + cbn. unfold tset. rewrite Nat.eqb_refl. apply vat_ts.
  - exists P, r. apply CI_other; [now intros u o' w [= _ -> _ _]|discriminate|].
    eapply CI_grow; [| |exact C].
    + cbn. apply lset_other. intros E. apply ctr_inj in E. congruence.
    + intros u. apply (seen_with (c_mem s) t v' u), V.
Qed.

Lemma CI_step init x s a s' P r : cstep s a = Some s' -> never_assigned x (c_hist s') ->
  CI init x (c_mem s) (c_hist s) P r -> exists P' r', CI init x (c_mem s') (c_hist s') P' r'.
Proof.
  intros E NA C. unfold cstep in E.
  destruct (c_pc s (r_tid a)) as [(x0 & v0)|], a as [t y i|t y v f n|t y z i|t f n|t y i n|t y i n|t y i n|t y i n|t u|t y b]; try discriminate.
  - destruct (wstore _ _ _ _ _ _ _) as [m'|] eqn:W; [|discriminate]. injection E as <-. cbn [c_goto c_mem c_hist] in *.
    exists P, r. eapply CI_wstore; [|exact W|exact C]. intros ->. apply (NA t v0). apply in_app_iff. right. now left.
  - destruct (wload _ _ _ _ _) as [(v & m')|] eqn:W; [|discriminate]. injection E as <-. cbn [c_goto c_mem c_hist].
    eapply CI_wload; eauto.
  - destruct (wstore _ _ _ _ _ _ _) as [m'|] eqn:W; [|discriminate]. injection E as <-. cbn [c_goto c_mem c_hist] in *.
    exists P, r. eapply CI_wstore; [|exact W|exact C]. intros ->. eapply (NA t). apply in_app_iff. right. left. reflexivity.
  - destruct (wload _ _ _ _ _) as [(v & m')|] eqn:W; [|discriminate]. injection E as <-. cbn [c_goto c_mem c_hist].
    eapply CI_wload; eauto.
  - eapply CI_c_count; [| | |exact E|exact C]; cbn; auto.
  - eapply CI_c_count; [| | |exact E|exact C]; cbn [changes delta answers]; auto. intros v V. rewrite N.add_0_r. now apply N.mod_small.
  - eapply CI_c_count; [| | |exact E|exact C]; cbn [changes delta answers]; auto.
  - eapply CI_c_count; [| | |exact E|exact C]; cbn [changes delta answers]; auto. intros v V. rewrite N.add_0_r. now apply N.mod_small.
  - injection E as <-. cbn [c_goto c_mem c_hist]. exists P, r. apply CI_other; [discriminate| |].
    + intros t' u' [= <- <-]. cbn. unfold tset. rewrite Nat.eqb_refl. destruct (Nat.eqb u t); cbn; lia.
    + eapply CI_grow; [| |exact C]; [reflexivity|]. intros w. apply seen_with, vle_join_l.
  - injection E as <-. cbn [c_goto c_mem c_hist]. rewrite app_nil_r. exists P, r.
    eapply CI_grow; [| |exact C]; [reflexivity|]. intros w. cbn. unfold tset. destruct (Nat.eqb_spec w t) as [->|]; cbn; lia.
Qed.

Lemma c_hist_grows s a : exists e, c_hist (move cstep s a) = c_hist s ++ e.
Proof.
  unfold move. destruct (cstep s a) as [s'|] eqn:E; [|exists []; now rewrite app_nil_r]. unfold cstep, c_count in E.
  destruct (c_pc s (r_tid a)) as [(x0 & v0)|], a; try discriminate;
    repeat match type of E with context [match ?c with _ => _ end] => destruct c as [[]|] || destruct c; try discriminate end;
    injection E as <-; cbn [c_goto c_hist]; eauto.
Qed.

Lemma CI_run init sched x : never_assigned x (c_hist (crun init sched)) ->
  exists P r, CI (init x) x (c_mem (crun init sched)) (c_hist (crun init sched)) P r.
Proof.
  unfold crun. induction sched as [|a sched IH] using rev_ind.
  - intros _. cbn [run]. exists [({| m_from := 0; m_to := 0; m_val := init x mod 2 ^ 64; m_view := vbot |}, O)], (fun _ => O).
    split; cbn [c_new c_mem c_hist map fst]; auto.
    + constructor. cbn. lia.
    + intros g k g' k' [[= <- <-]|[]] [[= <- <-]|[]]. auto.
    + intros g k [[= <- <-]|[]]. split; auto. cbn [m_val firstn]. unfold tally. cbn [net]. rewrite Z.add_0_r.
      apply N2Z.inj. rewrite Z2N.id by (apply Z.mod_pos_bound; lia). now rewrite N2Z.inj_mod.
    + now intros g k l [= <- <- <-].
    + intros [|j]; discriminate.
    + intros [|j]; discriminate.
    + intros t j H. now apply heard_nil in H.
  - rewrite run_snoc. intros NA. destruct (c_hist_grows (run cstep (c_new init) sched) a) as (e & G).
    destruct IH as (P & r & C).
    { intros t v I. apply (NA t v). rewrite G. apply in_app_iff. now left. }
    unfold move in *. destruct (cstep _ a) as [s'|] eqn:E; [|eauto]. eapply CI_step; eauto.
Qed.

(** ** Counters used in turn *)

Lemma holds_app x v a b : holds x v (a ++ b) = holds x (holds x v a) b.
Proof. revert v. induction a as [|[t y o w|t u] a IH]; intros v; cbn [holds app]; auto. Qed.

Definition modifies (x : N) (h : list cevent) (k : nat) : Prop :=
  exists u o v, nth_error h k = Some (CDid u x o v) /\ o <> CRead.

(** The newest store, by event [k] if any, is what the counter holds. *)
Record TI (init x : N) (m : wmem unit) (h : list cevent) (g : msg) (l : list msg) (k : option nat) : Prop := {
  ti_hist : hist m (ctr x) = g :: l;
  ti_chain : chain (fun _ => False) (g :: l);
  ti_val : m_val g = holds x (init mod 2 ^ 64) h;
  ti_small : m_val g < 2 ^ 64;
  ti_seen : match k with
            | None => m_to g = 0
            | Some k => on_x x h k /\ forall t, heard h t k -> m_to g <= ts (seen m t) (ctr x)
            end;
}.

(** What an event on the counter should be given. *)
Definition fitting (init x : N) (p : list cevent) (e : cevent) : Prop :=
  match e with
  | CDid t y o v => y = x ->
      match o with
      | CRead | CPostInc | CPostDec => v = holds x (init mod 2 ^ 64) p
      | CPreInc | CPreDec => v = holds x (init mod 2 ^ 64) (p ++ [e])
      | CAssign => True
      end
  | CSynced _ _ => True
  end.

Lemma on_x_app x h e j : on_x x h j -> on_x x (h ++ [e]) j.
Proof.
  intros (u & o & v & H). exists u, o, v. rewrite nth_error_app1; auto. apply nth_error_Some. congruence.
Qed.

Lemma TI_grow init x m m' h g l k :
  hist m' (ctr x) = hist m (ctr x) -> (forall t, ts (seen m t) (ctr x) <= ts (seen m' t) (ctr x)) ->
  TI init x m h g l k -> TI init x m' h g l k.
Proof.
  intros E V []. split; auto; [congruence|]. destruct k as [k|]; auto. destruct ti_seen0 as (A & B). split; auto.
  intros t H. specialize (B t H). specialize (V t). lia.
Qed.

(** Events that leave the counter alone, reads of it included. *)
Lemma TI_same init x m h g l k e :
  match e with
  | CDid t y o v => y = x -> o = CRead
  | CSynced t u => ts (seen m u) (ctr x) <= ts (seen m t) (ctr x)
  end -> TI init x m h g l k -> TI init x m (h ++ [e]) g l k.
Proof.
  intros NE []. split; auto.
  - rewrite holds_app, <- ti_val0. destruct e as [t y o v|t u]; cbn; auto.
    destruct (N.eqb_spec y x) as [E|]; auto. now rewrite (NE E).
  - destruct k as [k|]; auto. destruct ti_seen0 as (A & B). split; [now apply on_x_app|].
    intros t H. apply heard_snoc in H as [H|[(y & o & v & -> & ->)|(u & -> & H)]]; auto.
    + destruct A as (? & ? & ? & A). assert (length h < length h)%nat by (apply nth_error_Some; congruence). lia.
    + specialize (B u H). lia.
Qed.

(** Whoever is next knows of the newest store. *)
Lemma TI_next init x m h g l k t : TI init x m h g l k ->
  (forall j, on_x x h j -> heard h t j) -> m_to g <= ts (seen m t) (ctr x).
Proof. intros [] K. destruct k as [k|]; [|lia]. destruct ti_seen0 as (A & B). auto. Qed.

Lemma TI_store init x m m' h g l k t o v g' :
  o <> CRead -> TI init x m h g l k -> hist m' (ctr x) = g' :: g :: l -> chain (fun _ => False) (g' :: g :: l) ->
  m_val g' = holds x (init mod 2 ^ 64) (h ++ [CDid t x o v]) -> m_val g' < 2 ^ 64 ->
  m_to g' <= ts (seen m' t) (ctr x) ->
  TI init x m' (h ++ [CDid t x o v]) g' (g :: l) (Some (length h)).
Proof.
  intros N T H C V S G. split; auto. split.
  - exists t, o, v. rewrite nth_error_app2, Nat.sub_diag by auto. reflexivity.
  - intros u K. apply heard_snoc in K as [K|[(y & o' & v' & E & _)|(w & E & _)]]; [apply heard_lt in K; lia| |discriminate].
    injection E as <- _ _ _. auto.
Qed.

Lemma TI_wload init x m t y i v m' h g l k :
  wload m t false (ctr y) i = Some (v, m') -> TI init x m h g l k ->
  (y = x -> forall j, on_x x h j -> heard h t j) ->
  TI init x m' (h ++ [CDid t y CRead v]) g l k /\ fitting init x h (CDid t y CRead v).
Proof.
  unfold wload. destruct (nth_error _ i) as [b|] eqn:G; [|discriminate].
  destruct (_ <=? _) eqn:L; [|discriminate]. apply N.leb_le in L. intros [= <- <-] T K. split.
  - apply TI_same; auto. eapply TI_grow; [| |exact T]; [reflexivity|]. intros u. apply (seen_with m t _ u), (after_load_le (seen m t) false).
  - intros ->. pose proof (TI_next _ _ _ _ _ _ _ _ T (K eq_refl)) as Nx. destruct T. rewrite ti_hist0 in G.
    assert (i = O) as -> by (eapply chain_load; eauto; lia). injection G as <-. auto.
Qed.

Lemma TI_wstore init x m t y v f n m' h g l k :
  v < 2 ^ 64 -> wstore m t false (ctr y) v f n = Some m' -> TI init x m h g l k ->
  (y = x -> forall j, on_x x h j -> heard h t j) ->
  exists g' l' k', TI init x m' (h ++ [CDid t y CAssign v]) g' l' k'.
Proof.
  unfold wstore. destruct (_ && _) eqn:L; [|discriminate]. apply andb_true_iff in L as (L & F). apply N.ltb_lt in L.
  intros S [= <-] T K. destruct (N.eq_dec y x) as [->|N].
  - pose proof (TI_next _ _ _ _ _ _ _ _ T (K eq_refl)) as Nx. pose proof (ti_hist _ _ _ _ _ _ _ T) as H.
    do 3 eexists. eapply TI_store; [discriminate|exact T| | | | |].
    + cbn. rewrite lset_same, H. reflexivity.
    + rewrite H in F. apply chain_store; auto; [apply T|lia].
    + cbn [m_val]. rewrite holds_app. cbn [holds]. now rewrite N.eqb_refl.
    + exact S.
    + cbn. unfold tset. rewrite Nat.eqb_refl. apply vat_ts.
  - exists g, l, k. apply TI_same; [now intros ->|]. eapply TI_grow; [| |exact T].
    + cbn. apply lset_other. intros E. apply ctr_inj in E. congruence.
    + intros u. apply (seen_with m t _ u), vle_vat.
Qed.

Lemma wrap_add v d k : (Z.of_N d mod 2 ^ 64 = k mod 2 ^ 64)%Z ->
  Z.to_N ((Z.of_N v + k) mod 2 ^ 64) = (v + d) mod 2 ^ 64.
Proof.
  intros M. apply N2Z.inj. rewrite N2Z.inj_mod, N2Z.inj_add, Z2N.id by (apply Z.mod_pos_bound; lia).
  change (Z.of_N (2 ^ 64)) with (2 ^ 64)%Z. now rewrite <- (Zplus_mod_idemp_r (Z.of_N d)), M, Zplus_mod_idemp_r.
Qed.

Lemma TI_c_count init x s s' t y d q o i n g l k :
  changes o -> (Z.of_N d mod 2 ^ 64 = delta o mod 2 ^ 64)%Z ->
  (forall v, v < 2 ^ 64 -> (v + q) mod 2 ^ 64 = answers o v ((v + d) mod 2 ^ 64)) ->
  c_count s t y d q o i n = Some s' -> TI init x (c_mem s) (c_hist s) g l k ->
  (y = x -> forall j, on_x x (c_hist s) j -> heard (c_hist s) t j) ->
  exists e, c_hist s' = c_hist s ++ [e] /\ fitting init x (c_hist s) e /\
    exists g' l' k', TI init x (c_mem s') (c_hist s ++ [e]) g' l' k'.
Proof.
  intros K D Q. unfold c_count, wfetch_add, wrmw. destruct (nth_error _ i) as [b|] eqn:G; [|discriminate].
  destruct (_ && _) eqn:L; [|discriminate]. apply andb_true_iff in L as (L & F). apply N.leb_le in L.
  intros [= <-] T KN. cbn [c_goto c_mem c_hist].
  set (v' := vat (after_load (seen (c_mem s) t) false (ctr y) b) (ctr y) n).
  assert (vle (seen (c_mem s) t) v') as V by (eapply vle_trans; [apply after_load_le|apply vle_vat]).
  eexists. split; [reflexivity|]. destruct (N.eq_dec y x) as [->|N].
  - pose proof (TI_next _ _ _ _ _ _ _ _ T (KN eq_refl)) as Nx. pose proof (ti_hist _ _ _ _ _ _ _ T) as H.
    rewrite H in G, F. assert (i = O) as -> by (eapply chain_load; [apply T|exact G|lia]). injection G as <-.
    assert (forall w, holds x (init mod 2 ^ 64) (c_hist s ++ [CDid t x o w]) = (m_val g + d) mod 2 ^ 64) as HV.
    { intros w. rewrite holds_app, <- (ti_val _ _ _ _ _ _ _ T), <- (wrap_add _ d (delta o) D). cbn [holds].
      rewrite N.eqb_refl. destruct o; now cbn in K. }
    split.
    + intros _. rewrite HV, Q, (ti_val _ _ _ _ _ _ _ T) by apply T. destruct o; now cbn in K.
    + do 3 eexists. eapply TI_store; [now intros ->|exact T| | | | |].
      * cbn. rewrite lset_same, H. reflexivity.
      * apply chain_add; auto. apply T.
      * cbn [m_val]. now rewrite HV.
      * cbn [m_val]. apply N.mod_lt. lia.
      * cbn. unfold tset. rewrite Nat.eqb_refl. apply vat_ts.
  - split; [intros E; now destruct N|]. exists g, l, k. apply TI_same; [now intros ->|]. eapply TI_grow; [| |exact T].
    + cbn. apply lset_other. intros E. apply ctr_inj in E. congruence.
    + intros u. apply (seen_with (c_mem s) t v' u), V.
Qed.

(** Every value of every store is of 64 bits, and so is what is to be stored. *)
Definition small (s : cstate) : Prop :=
  (forall x g, In g (hist (c_mem s) (ctr x)) -> m_val g < 2 ^ 64) /\ forall t x v, c_pc s t = Some (x, v) -> v < 2 ^ 64.

Lemma small_goto s m t p e : small s ->
  (forall x g, In g (hist m (ctr x)) -> In g (hist (c_mem s) (ctr x)) \/ m_val g < 2 ^ 64) ->
  (forall x v, p = Some (x, v) -> v < 2 ^ 64) -> small (c_goto s m t p e).
Proof.
  intros (A & B) H P. split; cbn [c_goto c_mem c_pc].
  - intros x g I. destruct (H x g I) as [I'|I']; eauto.
  - intros u x v. unfold tset. destruct (Nat.eqb u t); eauto.
Qed.

Lemma in_lset (f : loc -> list msg) y x (b g : msg) :
  In g (lset f y (b :: f y) x) -> In g (f x) \/ g = b.
Proof.
  unfold lset. destruct (loc_eqb x y) eqn:E; auto. apply loc_eqb_eq in E as ->. intros [<-|H]; auto.
Qed.

Lemma small_step s a s' : small s -> cstep s a = Some s' -> small s'.
Proof.
  intros S E. assert (forall m t y i v m', m = c_mem s -> wload m t false (ctr y) i = Some (v, m') -> v < 2 ^ 64 /\ hist m' = hist m) as WL.
  { intros m t y i v m' -> W. unfold wload in W. destruct (nth_error _ i) as [b|] eqn:G; [|discriminate].
    destruct (_ <=? _); [|discriminate]. injection W as <- <-. split; auto. eapply (proj1 S), nth_error_In, G. }
  assert (forall t y v f n m' p e, v < 2 ^ 64 -> wstore (c_mem s) t false (ctr y) v f n = Some m' -> p = None -> small (c_goto s m' t p e)) as WS.
  { intros t y v f n m' p e V W ->. unfold wstore in W. destruct (_ && _); [|discriminate]. injection W as <-.
    apply small_goto; auto; [|discriminate]. intros x g I. cbn in I. apply in_lset in I as [I| ->]; auto. }
  assert (forall t y d q o i n, c_count s t y d q o i n = Some s' -> small s') as WC.
  { intros t y d q o i n. unfold c_count, wfetch_add, wrmw. destruct (nth_error _ i); [|discriminate]. destruct (_ && _); [|discriminate].
    intros [= <-]. apply small_goto; auto; [|discriminate]. intros x g I. cbn in I.
    apply in_lset in I as [I| ->]; auto. right. cbn [m_val]. apply N.mod_lt. lia. }
  unfold cstep in E.
  destruct (c_pc s (r_tid a)) as [(x0 & v0)|] eqn:PC, a as [t y i|t y v f n|t y z i|t f n|t y i n|t y i n|t y i n|t y i n|t u|t y b]; try discriminate; eauto.
  - destruct (wstore _ _ _ _ _ _ _) as [m'|] eqn:W; [|discriminate]. injection E as <-. eapply WS; eauto. eapply (proj2 S), PC.
  - destruct (wload _ _ _ _ _) as [(v & m')|] eqn:W; [|discriminate]. injection E as <-. destruct (WL _ _ _ _ _ _ eq_refl W) as (A & B).
    apply small_goto; auto; [rewrite B; auto|discriminate].
  - destruct (wstore _ _ _ _ _ _ _) as [m'|] eqn:W; [|discriminate]. injection E as <-. eapply WS; eauto. apply N.mod_lt. lia.
  - destruct (wload _ _ _ _ _) as [(v & m')|] eqn:W; [|discriminate]. injection E as <-. destruct (WL _ _ _ _ _ _ eq_refl W) as (A & B).
    apply small_goto; auto; [rewrite B; auto|]. now intros ? ? [= _ <-].
  - injection E as <-. apply small_goto; auto; discriminate.
  - injection E as <-. apply small_goto; auto; discriminate.
Qed.

Lemma TI_step init x s a s' g l k : small s -> cstep s a = Some s' -> in_turn x (c_hist s') ->
  TI init x (c_mem s) (c_hist s) g l k ->
  exists es g' l' k', c_hist s' = c_hist s ++ es /\ TI init x (c_mem s') (c_hist s') g' l' k' /\
    (es = [] \/ exists e, es = [e] /\ fitting init x (c_hist s) e).
Proof.
  intros S E IT T.
  assert (forall t y o v, c_hist s' = c_hist s ++ [CDid t y o v] -> y = x -> forall j, on_x x (c_hist s) j -> heard (c_hist s) t j) as KN.
  { intros t y o v H -> j (u & o' & v' & J). eapply (IT (c_hist s) t o v []); eauto. }
  assert (forall t y d q o i n, changes o -> (Z.of_N d mod 2 ^ 64 = delta o mod 2 ^ 64)%Z ->
    (forall v, v < 2 ^ 64 -> (v + q) mod 2 ^ 64 = answers o v ((v + d) mod 2 ^ 64)) -> c_count s t y d q o i n = Some s' ->
    exists es g' l' k', c_hist s' = c_hist s ++ es /\ TI init x (c_mem s') (c_hist s') g' l' k' /\
      (es = [] \/ exists e, es = [e] /\ fitting init x (c_hist s) e)) as CC.
  { intros t y d q o i n K D Q C. assert (exists v, c_hist s' = c_hist s ++ [CDid t y o v]) as (v & H).
    { unfold c_count in C. destruct (wfetch_add _ _ _ _ _ _ _ _) as [(v & m)|]; [|discriminate]. injection C as <-. eexists. reflexivity. }
    destruct (TI_c_count init x s s' t y d q o i n g l k K D Q C T (KN _ _ _ _ H)) as (e & H' & Fi & g' & l' & k' & T').
    exists [e], g', l', k'. rewrite H'. eauto 8. }
  unfold cstep in E.
  destruct (c_pc s (r_tid a)) as [(x0 & v0)|] eqn:PC, a as [t y i|t y v f n|t y z i|t f n|t y i n|t y i n|t y i n|t y i n|t u|t y b]; try discriminate.
  - destruct (wstore _ _ _ _ _ _ _) as [m'|] eqn:W; [|discriminate]. injection E as <-. cbn [c_goto c_mem c_hist] in *.
    destruct (TI_wstore init x _ _ _ _ _ _ _ _ _ _ _ (proj2 S _ _ _ PC) W T (KN _ _ _ _ eq_refl)) as (g' & l' & k' & T').
    exists [CDid t x0 CAssign v0], g', l', k'. split; auto. split; auto. right. eexists. split; [reflexivity|]. now intros _.
  - destruct (wload _ _ _ _ _) as [(v & m')|] eqn:W; [|discriminate]. injection E as <-. cbn [c_goto c_mem c_hist] in *.
    destruct (TI_wload init x _ _ _ _ _ _ _ _ _ _ W T (KN _ _ _ _ eq_refl)) as (T' & Fi). eauto 12.
  - destruct (wstore _ _ _ _ _ _ _) as [m'|] eqn:W; [|discriminate]. injection E as <-. cbn [c_goto c_mem c_hist] in *.
    destruct (TI_wstore init x _ _ _ _ _ _ _ _ _ _ _ ltac:(apply N.mod_lt; lia) W T (KN _ _ _ _ eq_refl)) as (g' & l' & k' & T').
    exists [CDid t y CAssign (v mod 2 ^ 64)], g', l', k'. split; auto. split; auto. right. eexists. split; [reflexivity|]. now intros _.
  - destruct (wload _ _ _ _ _) as [(v & m')|] eqn:W; [|discriminate]. injection E as <-. cbn [c_goto c_mem c_hist] in *.
    destruct (TI_wload init x _ _ _ _ _ _ _ _ _ _ W T (KN _ _ _ _ eq_refl)) as (T' & Fi). eauto 12.
  - eapply CC; [| | |exact E]; cbn; auto.
  - eapply CC; [| | |exact E]; cbn [changes delta answers]; auto. intros v V. rewrite N.add_0_r. now apply N.mod_small.
  - eapply CC; [| | |exact E]; cbn [changes delta answers]; auto.
  - eapply CC; [| | |exact E]; cbn [changes delta answers]; auto. intros v V. rewrite N.add_0_r. now apply N.mod_small.
  - injection E as <-. cbn [c_goto c_mem c_hist]. exists [CSynced t u], g, l, k. split; auto. split.
    + apply TI_same.
      * cbn. unfold tset. rewrite Nat.eqb_refl. destruct (Nat.eqb u t); cbn; lia.
      * eapply TI_grow; [| |exact T]; [reflexivity|]. intros w. apply seen_with, vle_join_l.
    + right. eexists. split; [reflexivity|]. exact I.
  - injection E as <-. cbn [c_goto c_mem c_hist]. rewrite app_nil_r. exists [], g, l, k. rewrite app_nil_r. split; auto. split; auto.
    eapply TI_grow; [| |exact T]; [reflexivity|]. intros w. cbn. unfold tset. destruct (Nat.eqb_spec w t) as [->|]; cbn; lia.
Qed.

Lemma in_turn_app x a b : in_turn x (a ++ b) -> in_turn x a.
Proof. intros H p t o v q E. apply (H p t o v (q ++ b)). rewrite E, <- app_assoc. reflexivity. Qed.

Lemma TI_run init sched x : in_turn x (c_hist (crun init sched)) ->
  (exists g l k, TI (init x) x (c_mem (crun init sched)) (c_hist (crun init sched)) g l k) /\ small (crun init sched) /\
  forall p e q, c_hist (crun init sched) = p ++ e :: q -> fitting (init x) x p e.
Proof.
  unfold crun. induction sched as [|a sched IH] using rev_ind.
  - intros _. cbn [run]. split; [|split].
    + exists {| m_from := 0; m_to := 0; m_val := init x mod 2 ^ 64; m_view := vbot |}, [], None.
      split; cbn [c_new c_mem c_hist]; auto; [constructor; cbn; lia|apply N.mod_lt; lia].
    + split; cbn; [|discriminate]. intros y g [<-|[]]. cbn [m_val]. apply N.mod_lt. lia.
    + intros [|]; discriminate.
  - rewrite run_snoc. intros IT. destruct (c_hist_grows (run cstep (c_new init) sched) a) as (es & G).
    destruct IH as ((g & l & k & T) & S & F); [rewrite G in IT; eapply in_turn_app; eauto|].
    unfold move in *. destruct (cstep _ a) as [s'|] eqn:E; [|eauto 8].
    destruct (TI_step _ _ _ _ _ _ _ _ S E IT T) as (es' & g' & l' & k' & H & T' & Fi).
    split; [eauto|]. split; [eapply small_step; eauto|]. intros p e q H'. rewrite H in H'.
    destruct Fi as [->|(e' & -> & Fi)]; [rewrite app_nil_r in H'; eauto|].
    destruct q as [|e2 q] using rev_ind.
    + apply app_inj_tail in H' as (<- & <-). auto.
    + rewrite app_comm_cons, app_assoc in H'. apply app_inj_tail in H' as (H' & _). eauto.
Qed.

(** ** Any use of counters *)

Record OI (init x : N) (m : wmem unit) (h : list cevent) (tau : nat -> N) : Prop := {
  oi_some : exists g, In g (hist m (ctr x)) /\ m_to g = 0;
  oi_msg : forall g, In g (hist m (ctr x)) -> holds_from (init mod 2 ^ 64) x h tau (m_to g) (m_val g) /\ m_val g < 2 ^ 64;
  oi_wf : forall g, In g (hist m (ctr x)) -> m_to g = 0 \/ m_from g < m_to g;
  oi_apart : forall g g', In g (hist m (ctr x)) -> In g' (hist m (ctr x)) -> m_to g < m_to g' -> m_to g <= m_from g';
  oi_own : forall i t o v, nth_error h i = Some (CDid t x o v) -> exists g, In g (hist m (ctr x)) /\ m_to g = tau i;
  oi_pos : forall i t o v, nth_error h i = Some (CDid t x o v) -> modifying o -> 0 < tau i;
  oi_one : forall i j t u o o' v w, nth_error h i = Some (CDid t x o v) -> nth_error h j = Some (CDid u x o' w) ->
    modifying o -> modifying o' -> tau i = tau j -> i = j;
  oi_read : forall i t v, nth_error h i = Some (CDid t x CRead v) -> holds_from (init mod 2 ^ 64) x h tau (tau i) v;
  oi_rmw : forall i t o v, nth_error h i = Some (CDid t x o v) -> changes o ->
    exists n b, holds_from (init mod 2 ^ 64) x h tau n b /\ v = given o b /\
      exists g, In g (hist m (ctr x)) /\ m_from g = n /\ m_to g = tau i;
  oi_hb : forall i t o v j u o' w, nth_error h i = Some (CDid t x o v) -> nth_error h j = Some (CDid u x o' w) ->
    heard (firstn i h) t j -> tau j <= tau i /\ (modifying o -> tau j < tau i);
  oi_seen : forall t j u o w, heard h t j -> nth_error h j = Some (CDid u x o w) -> tau j <= ts (seen m t) (ctr x);
}.

Lemma OI_grow init x m m' h tau :
  hist m' (ctr x) = hist m (ctr x) -> (forall t, ts (seen m t) (ctr x) <= ts (seen m' t) (ctr x)) ->
  OI init x m h tau -> OI init x m' h tau.
Proof.
  intros E V []. split; rewrite ?E; auto. intros t j u o w H N. pose proof (oi_seen0 t j u o w H N). specialize (V t). lia.
Qed.

Lemma holds_from_more init x h e tau tau' n v :
  (forall j, (j < length h)%nat -> tau' j = tau j) -> holds_from init x h tau n v -> holds_from init x (h ++ [e]) tau' n v.
Proof.
  intros E [H|(j & t & o & w & N & M & T & V)]; [now left|]. right.
  assert (j < length h)%nat by (apply nth_error_Some; congruence).
  exists j, t, o, w. rewrite nth_error_app1, E by auto. auto.
Qed.

Lemma nth_lt {A} (h : list A) j e : nth_error h j = Some e -> (j < length h)%nat.
Proof. intros H. apply nth_error_Some. congruence. Qed.

(** An event that is not about the counter. *)
Lemma OI_other init x m h tau e :
  (forall t o v, e <> CDid t x o v) -> (forall t u, e = CSynced t u -> ts (seen m u) (ctr x) <= ts (seen m t) (ctr x)) ->
  OI init x m h tau -> OI init x m (h ++ [e]) tau.
Proof.
  intros NE SY O. assert (forall j t o v, nth_error (h ++ [e]) j = Some (CDid t x o v) -> nth_error h j = Some (CDid t x o v)) as OLD.
  { intros j t o v H. apply nth_snoc in H as [(_ & H)|(_ & H)]; auto. now destruct (NE t o v). }
  destruct O as [O0 O1 O2 O3 O4 O5 O6 O7 O8 O9 O10]. split; auto.
  - intros g G. destruct (O1 g G) as (A & B). split; auto. eapply holds_from_more; eauto.
  - intros i t o v H. eauto.
  - intros i t o v H. eauto.
  - intros i j t u o o' v w H H'. eauto.
  - intros i t v H. eapply holds_from_more; eauto.
  - intros i t o v H K. destruct (O8 i t o v (OLD _ _ _ _ H) K) as (n & b & A & B & C). exists n, b. split; auto. eapply holds_from_more; eauto.
  - intros i t o v j u o' w H H' Hd. apply OLD in H, H'. pose proof (nth_lt _ _ _ H). rewrite firstn_snoc in Hd by lia. eauto.
  - intros t j u o w H N. apply OLD in N. apply heard_snoc in H as [H|[(y & o' & v & -> & ->)|(u' & -> & H)]]; eauto.
    + apply nth_lt in N. lia.
    + pose proof (O10 u' j u o w H N). specialize (SY t u' eq_refl). lia.
Qed.

Definition tau_set (tau : nat -> N) (j : nat) (n : N) : nat -> N := fun i => if Nat.eqb i j then n else tau i.
Lemma tau_same tau j n : tau_set tau j n j = n.
Proof. unfold tau_set. now rewrite Nat.eqb_refl. Qed.
Lemma tau_other tau j n i : (i < j)%nat -> tau_set tau j n i = tau i.
Proof. intros H. unfold tau_set. destruct (Nat.eqb_spec i j); [lia|auto]. Qed.

(** The counter is read or changed by [t]: the message is at time [n]. *)
Lemma OI_event init x m m' h tau t o v n :
  OI init x m h tau ->
  (hist m' (ctr x) = hist m (ctr x) /\ o = CRead /\ ts (seen m t) (ctr x) <= n /\ (exists g, In g (hist m (ctr x)) /\ m_to g = n /\ m_val g = v)
   \/ exists f w, hist m' (ctr x) = {| m_from := f; m_to := n; m_val := leaves o v; m_view := w |} :: hist m (ctr x) /\
        modifying o /\ leaves o v < 2 ^ 64 /\ ts (seen m t) (ctr x) < n /\ free f n (hist m (ctr x)) = true /\
        (changes o -> exists g, In g (hist m (ctr x)) /\ m_to g = f /\ v = given o (m_val g))) ->
  (forall u, ts (seen m u) (ctr x) <= ts (seen m' u) (ctr x)) -> n <= ts (seen m' t) (ctr x) ->
  OI init x m' (h ++ [CDid t x o v]) (tau_set tau (length h) n).
Proof.
  intros O S V L. set (e := CDid t x o v). set (tau' := tau_set tau (length h) n).
  assert (forall j, (j < length h)%nat -> tau' j = tau j) as TO by (intros; now apply tau_other).
  assert (tau' (length h) = n) as TN by apply tau_same.
  assert (forall g, In g (hist m (ctr x)) -> In g (hist m' (ctr x))) as SUB.
  { destruct S as [(-> & _)|(f & w & -> & _)]; auto. intros g G. now right. }
  assert (forall g, In g (hist m' (ctr x)) -> In g (hist m (ctr x)) \/
    (modifying o /\ m_to g = n /\ m_val g = leaves o v /\ leaves o v < 2 ^ 64 /\ free (m_from g) n (hist m (ctr x)) = true)) as INV.
  { destruct S as [(-> & _)|(f & w & -> & A & B & C & D & _)]; auto. intros g [<-|G]; auto. right. cbn. auto. }
  destruct O as [O0 O1 O2 O3 O4 O5 O6 O7 O8 O9 O10].
  assert (holds_from (init mod 2 ^ 64) x (h ++ [e]) tau' n (leaves o v) \/ o = CRead) as HN.
  { destruct S as [(_ & -> & _)|(f & w & _ & A & _)]; [now right|]. left. right. exists (length h), t, o, v.
    rewrite nth_error_app2, Nat.sub_diag by auto. auto. }
  assert (modifying o -> forall i u o' w, nth_error h i = Some (CDid u x o' w) -> tau i <> n) as DIFF.
  { intros M i u o' w N E. destruct S as [(_ & -> & _)|(f & w' & _ & _ & _ & Lt & F & _)]; [now destruct M|].
    destruct (O4 i u o' w N) as (g & G & T). apply free_in in F as (Fn & F). destruct (F g G) as [X|X]; [|lia].
    destruct (O2 g G); lia. }
  split.
  - destruct O0 as (g & G & Z). exists g. auto.
  - intros g G. destruct (INV g G) as [G'|(M & T & W & B & _)].
    + destruct (O1 g G') as (A & B). split; auto. eapply holds_from_more; eauto.
    + rewrite T, W. split; auto. now destruct HN as [H|H].
  - intros g G. destruct (INV g G) as [G'|(M & T & W & B & F)]; auto. right. apply free_in in F as (F & _). lia.
  - intros g g' G G' T. destruct (INV g G) as [A|(M & T1 & _ & _ & F)], (INV g' G') as [A'|(M' & T2 & _ & _ & F')]; auto.
    + apply free_in in F' as (F1 & F'). destruct (F' g A) as [X|X]; [|lia]. destruct (O2 g A); lia.
    + apply free_in in F as (F1 & F). destruct (F g' A') as [X|X]; lia.
    + lia.
  - intros i u o' w N. apply nth_snoc in N as [(Li & N)|(-> & N)].
    + destruct (O4 i u o' w N) as (g & G & T). exists g. rewrite TO by auto. auto.
    + rewrite TN. destruct S as [(_ & _ & _ & g & G & T & _)|(f & w' & -> & _)]; [exists g; auto|]. eexists. split; [left; reflexivity|]. reflexivity.
  - intros i u o' w N M. apply nth_snoc in N as [(Li & N)|(-> & N)]; [rewrite TO by auto; eauto|].
    injection N as -> -> ->. rewrite TN. destruct S as [(_ & -> & _)|(f & w' & _ & _ & _ & Lt & _)]; [now destruct M|lia].
  - intros i j u u' o1 o2 v1 v2 N1 N2 M1 M2 T.
    apply nth_snoc in N1 as [(L1 & N1)|(-> & N1)], N2 as [(L2 & N2)|(-> & N2)]; auto; rewrite ?TN, ?TO in T by auto.
    + eauto.
    + injection N2 as -> -> ->. now destruct (DIFF M2 i u o1 v1 N1).
    + injection N1 as -> -> ->. now destruct (DIFF M1 j u' o2 v2 N2).
  - intros i u w N. apply nth_snoc in N as [(Li & N)|(-> & N)]; [rewrite TO by auto; eapply holds_from_more; eauto|].
    injection N as -> <- ->. rewrite TN. destruct S as [(_ & _ & _ & g & G & T & W)|(f & w' & _ & M & _)]; [|now destruct M].
    subst n. rewrite <- W. eapply holds_from_more; [exact TO|]. now apply O1.
  - intros i u o' w N K. apply nth_snoc in N as [(Li & N)|(-> & N)].
    + destruct (O8 i u o' w N K) as (n' & b & A & B & g & G & C). exists n', b. split; [eapply holds_from_more; eauto|]. split; auto.
      exists g. rewrite TO by auto. auto.
    + injection N as -> -> ->. destruct S as [(_ & -> & _)|(f & w' & E & M & _ & Lt & F & S)]; [destruct K|].
      destruct (S K) as (g & G & T & W). exists f, (m_val g). split; [subst f; eapply holds_from_more; [exact TO|]; now apply O1|].
      split; auto. rewrite TN, E. eexists. split; [left; reflexivity|]. auto.
  - intros i u o1 v1 j u' o2 v2 N1 N2 H. apply nth_snoc in N1 as [(L1 & N1)|(-> & N1)].
    + rewrite firstn_snoc in H by lia. pose proof (heard_lt _ _ _ H) as Lj. rewrite firstn_length in Lj.
      rewrite nth_error_app1 in N2 by lia. rewrite !TO by lia. eauto.
    + injection N1 as -> -> ->. rewrite firstn_snoc, firstn_all in H by auto. pose proof (heard_lt _ _ _ H) as Lj.
      rewrite nth_error_app1 in N2 by auto. rewrite TN, TO by auto. pose proof (O10 t j u' o2 v2 H N2).
      destruct S as [(_ & -> & Lt & _)|(f & w' & _ & M & _ & Lt & _)]; split; try lia. now intros [].
  - intros u j u' o2 v2 H N. apply heard_snoc in H as [H|[(y & o' & w & E & ->)|(w & E & _)]]; [| |discriminate].
    + pose proof (heard_lt _ _ _ H) as Lj. rewrite nth_error_app1 in N by auto. rewrite TO by auto.
      pose proof (O10 u j u' o2 v2 H N). specialize (V u). lia.
    + injection E as <- _ _ _. rewrite TN. exact L.
Qed.

Lemma OI_wload init x m t y i v m' h tau : wload m t false (ctr y) i = Some (v, m') -> OI init x m h tau ->
  exists tau', OI init x m' (h ++ [CDid t y CRead v]) tau'.
Proof.
  unfold wload. destruct (nth_error _ i) as [g|] eqn:G; [|discriminate].
  destruct (_ <=? _) eqn:L; [|discriminate]. apply N.leb_le in L. intros [= <- <-] O. apply nth_error_In in G.
  assert (forall u, ts (seen m u) (ctr x) <= ts (seen (with_seen m t (after_load (seen m t) false (ctr y) g)) u) (ctr x)) as V.
  { intros u. apply (seen_with m t _ u), (after_load_le (seen m t) false). }
  destruct (N.eq_dec y x) as [->|N].
  - eexists. eapply (OI_event init x m _ h tau t CRead (m_val g) (m_to g)); auto.
    + left. split; auto. split; auto. split; auto. exists g. auto.
    + cbn. unfold tset. rewrite Nat.eqb_refl. apply (after_load_ts (seen m t) false).
  - exists tau. apply OI_other; [now intros u o w [= _ -> _ _]|discriminate|]. eapply OI_grow; [| |exact O]; auto.
Qed.

Lemma OI_wstore init x m t y v f n m' h tau : v < 2 ^ 64 -> wstore m t false (ctr y) v f n = Some m' -> OI init x m h tau ->
  exists tau', OI init x m' (h ++ [CDid t y CAssign v]) tau'.
Proof.
  unfold wstore. destruct (_ && _) eqn:L; [|discriminate]. apply andb_true_iff in L as (L & F). apply N.ltb_lt in L. intros S [= <-] O.
  assert (forall u, ts (seen m u) (ctr x) <= ts (tset (seen m) t (vat (seen m t) (ctr y) n) u) (ctr x)) as V.
  { intros u. apply (seen_with m t _ u), vle_vat. }
  destruct (N.eq_dec y x) as [->|N].
  - eexists. eapply (OI_event init x m _ h tau t CAssign v n); [exact O| |exact V|].
    + right. exists f, (vat vbot (ctr x) n). split; [cbn; now rewrite lset_same|]. split; [discriminate|]. split; [exact S|].
      split; auto. split; auto. intros [].
    + cbn. unfold tset. rewrite Nat.eqb_refl. apply vat_ts.
  - exists tau. apply OI_other; [now intros u o w [= _ -> _ _]|discriminate|]. eapply OI_grow; [|exact V|exact O].
    cbn. apply lset_other. intros E. apply ctr_inj in E. congruence.
Qed.

Lemma OI_c_count init x s s' t y d q o i n tau :
  changes o -> (Z.of_N d mod 2 ^ 64 = delta o mod 2 ^ 64)%Z ->
  (forall v, v < 2 ^ 64 -> (v + q) mod 2 ^ 64 = answers o v ((v + d) mod 2 ^ 64)) ->
  c_count s t y d q o i n = Some s' -> OI init x (c_mem s) (c_hist s) tau ->
  exists tau', OI init x (c_mem s') (c_hist s') tau'.
Proof.
  intros K D Q. unfold c_count, wfetch_add, wrmw. destruct (nth_error _ i) as [b|] eqn:G; [|discriminate].
  destruct (_ && _) eqn:L; [|discriminate]. apply andb_true_iff in L as (L & F). apply N.leb_le in L.
  intros [= <-] O. cbn [c_goto c_mem c_hist]. apply nth_error_In in G.
  set (v' := vat (after_load (seen (c_mem s) t) false (ctr y) b) (ctr y) n).
  assert (forall u, ts (seen (c_mem s) u) (ctr x) <= ts (tset (seen (c_mem s)) t v' u) (ctr x)) as V.
  { intros u. apply (seen_with (c_mem s) t v' u). eapply vle_trans; [apply (after_load_le _ false)|apply vle_vat]. }
  destruct (N.eq_dec y x) as [->|N].
  - pose proof (proj2 (oi_msg _ _ _ _ _ O b G)) as B. pose proof (free_in _ _ _ F) as (Fn & _).
    assert (leaves o ((m_val b + q) mod 2 ^ 64) = (m_val b + d) mod 2 ^ 64) as LV.
    { rewrite Q by auto. unfold leaves, wrap. destruct o; cbn [answers]; try (now destruct K); auto; now rewrite (wrap_add _ d _ D). }
    eexists. eapply (OI_event init x (c_mem s) _ (c_hist s) tau t o ((m_val b + q) mod 2 ^ 64) n); [exact O| |exact V|].
    + right. rewrite LV. exists (m_to b). eexists. split; [cbn; rewrite lset_same; reflexivity|].
      split; [intros ->; destruct K|]. split; [apply N.mod_lt; lia|]. split; [lia|]. split; auto.
      intros _. exists b. split; auto. split; auto. rewrite Q by auto. unfold given, wrap.
      destruct o; cbn [answers]; try (now destruct K); auto; now rewrite (wrap_add _ d _ D).
    + cbn. unfold tset. rewrite Nat.eqb_refl. apply vat_ts.
  - exists tau. apply OI_other; [now intros u o' w [= _ -> _ _]|discriminate|]. eapply OI_grow; [|exact V|exact O].
    cbn. apply lset_other. intros E. apply ctr_inj in E. congruence.
Qed.

Lemma OI_step init x s a s' tau : small s -> cstep s a = Some s' -> OI init x (c_mem s) (c_hist s) tau ->
  exists tau', OI init x (c_mem s') (c_hist s') tau'.
Proof.
  intros S E O. unfold cstep in E.
  destruct (c_pc s (r_tid a)) as [(x0 & v0)|] eqn:PC, a as [t y i|t y v f n|t y z i|t f n|t y i n|t y i n|t y i n|t y i n|t u|t y b]; try discriminate.
  - destruct (wstore _ _ _ _ _ _ _) as [m'|] eqn:W; [|discriminate]. injection E as <-. eapply OI_wstore; [|exact W|exact O]. eapply (proj2 S), PC.
  - destruct (wload _ _ _ _ _) as [(v & m')|] eqn:W; [|discriminate]. injection E as <-. eapply OI_wload; [exact W|exact O].
  - destruct (wstore _ _ _ _ _ _ _) as [m'|] eqn:W; [|discriminate]. injection E as <-. eapply OI_wstore; [|exact W|exact O]. apply N.mod_lt. lia.
  - destruct (wload _ _ _ _ _) as [(v & m')|] eqn:W; [|discriminate]. injection E as <-. eapply OI_wload; [exact W|exact O].
  - eapply OI_c_count; [| | |exact E|exact O]; cbn; auto.
  - eapply OI_c_count; [| | |exact E|exact O]; cbn [changes delta answers]; auto. intros v V. rewrite N.add_0_r. now apply N.mod_small.
  - eapply OI_c_count; [| | |exact E|exact O]; cbn [changes delta answers]; auto.
  - eapply OI_c_count; [| | |exact E|exact O]; cbn [changes delta answers]; auto. intros v V. rewrite N.add_0_r. now apply N.mod_small.
  - injection E as <-. cbn [c_goto c_mem c_hist]. exists tau. apply OI_other; [discriminate| |].
    + intros t' u' [= <- <-]. cbn. unfold tset. rewrite Nat.eqb_refl. destruct (Nat.eqb u t); cbn; lia.
    + eapply OI_grow; [| |exact O]; [reflexivity|]. intros w. apply seen_with, vle_join_l.
  - injection E as <-. cbn [c_goto c_mem c_hist]. rewrite app_nil_r. exists tau.
    eapply OI_grow; [| |exact O]; [reflexivity|]. intros w. cbn. unfold tset. destruct (Nat.eqb_spec w t) as [->|]; cbn; lia.
Qed.

Lemma OI_run init sched x : small (crun init sched) /\
  exists tau, OI (init x) x (c_mem (crun init sched)) (c_hist (crun init sched)) tau.
Proof.
  unfold crun. induction sched as [|a sched (S & tau & O)] using rev_ind.
  - cbn [run]. split.
    + split; cbn; [|discriminate]. intros y g [<-|[]]. cbn [m_val]. apply N.mod_lt. lia.
    + exists (fun _ => 0). split; cbn [c_new c_mem c_hist wmem_new hist ctr].
      * eexists. split; [left; reflexivity|]. reflexivity.
      * intros g [<-|[]]. cbn [m_to m_val]. split; [left; auto|apply N.mod_lt; lia].
      * intros g [<-|[]]. now left.
      * intros g g' [<-|[]] [<-|[]]. cbn. lia.
      * intros [|i]; discriminate.
      * intros [|i]; discriminate.
      * intros [|i]; discriminate.
      * intros [|i]; discriminate.
      * intros [|i]; discriminate.
      * intros [|i]; discriminate.
      * intros t [|j]; discriminate.
  - rewrite run_snoc. unfold move. destruct (cstep _ a) as [s'|] eqn:E; [|eauto].
    split; [eapply small_step; eauto|]. eapply OI_step; eauto.
Qed.
