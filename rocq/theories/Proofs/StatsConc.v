(** Counters of shared buffers at several moments of a run. *)
From Verif Require Import Base Spec.QueueHistory Spec.RingHistory Spec.FixedHistory Model.Queue Model.Buffer Model.Interleave Model.QueueConc Model.RingConc Model.FixedConc
  Proofs.Interleave Proofs.QueueConc Proofs.RingConc Proofs.RingStage Proofs.RingTurns Proofs.FixedConc.
Local Open Scope N_scope.

(** ** The ring *)

Definition getting (p : rpc) : Prop := match p with GCount | GWait | GReset _ | GLoan _ => True | _ => False end.

Lemma got_snoc h e : got (h ++ e) = (got h + got e)%nat.
Proof. unfold got, count. now rewrite filter_app, app_length. Qed.
Lemma asked_snoc h e : asked (h ++ e) = (asked h + asked e)%nat.
Proof. unfold asked, count. now rewrite filter_app, app_length. Qed.

Lemma placing_none q q' t : got (placing q q' t) = 0%nat /\ asked (placing q q' t) = 0%nat.
Proof. unfold placing. destruct (cq_pc q t), (cq_pc q' t); split; reflexivity. Qed.

Definition inside_ok (r : cring) : Prop := exists l, NoDup l /\ (forall t, In t l <-> getting (r_pc r t)) /\ asked (r_hist r) = (got (r_hist r) + length l)%nat.

Lemma inside_step r a r' : rstep r a = Some r' -> inside_ok r -> inside_ok r'.
Proof.
  intros E (l & D & I & A). unfold rstep in E. destruct (r_bad r); [discriminate|].
  assert (forall t p, r_pc r' = tset (r_pc r) t p -> (getting p <-> getting (r_pc r t)) -> asked (r_hist r') = asked (r_hist r) -> got (r_hist r') = got (r_hist r) -> inside_ok r') as Same.
  { intros t p Ep G Ea Eg. exists l. split; auto. split; [|now rewrite Ea, Eg]. apply (set_same l (fun u => getting (r_pc r u)) _ t); auto; intros; rewrite Ep.
    - now rewrite tset_other by auto.
    - now rewrite tset_same. }
  assert (r_pc r' = r_pc r -> r_hist r' = r_hist r -> inside_ok r') as Still by (intros Ep Eh; exists l; rewrite Ep, Eh; auto).
  destruct a as [t|t c|t sp]; destruct (r_pc r t) eqn:P; try discriminate.
  - injection E as <-. assert (~ getting (r_pc r t)) as Ng by (now rewrite P).
    destruct (set_add 1 one32 l (fun u => getting (r_pc r u)) (fun u => getting (tset (r_pc r) t GCount u)) t) as (D' & I'); auto.
    + intros u Ne. now rewrite tset_other by auto.
    + rewrite tset_same. exact Logic.I.
    + exists (t :: l). split; auto. split; [exact I'|]. cbn [r_hist r_goto]. rewrite asked_snoc, got_snoc, A. cbn. lia.
  - destruct (existsb _ _); [|discriminate]. injection E as <-. apply (Same t (RPut c)); auto; [rewrite P; cbn; tauto| |]; cbn [r_hist r_goto]; rewrite ?asked_snoc, ?got_snoc; cbn; lia.
  - destruct (_ <=? _); injection E as <-; [apply (Same t GWait)|apply (Same t (GReset (r_count r)))]; auto; try (rewrite P; cbn; tauto); cbn [r_hist r_goto r_set_count]; rewrite ?asked_snoc, ?got_snoc; cbn; lia.
  - assert (forall q, (if true then Some (r_goto (r_set_q r q) t GWait (placing (r_q r) q t)) else None) = Some r' -> inside_ok r') as Go.
    { intros q Eq. injection Eq as <-. destruct (placing_none (r_q r) q t). apply (Same t GWait); auto; [rewrite P; cbn; tauto| |]; cbn [r_hist r_goto r_set_q]; rewrite ?asked_snoc, ?got_snoc; lia. }
    assert (forall q, Some (r_set_q r q) = Some r' -> inside_ok r') as Q by (intros q Eq; injection Eq as <-; now apply Still).
    destruct (cq_pc (r_q r) t) as [|x|x pos Q0|x pos Q0|x pos Q0|x pos Q0| |pos Q0|pos Q0|pos Q0|pos Q0 y] eqn:Qp;
      match type of E with context [qstep ?a ?b] => destruct (qstep a b) as [q|]; [|discriminate] end; eauto.
    destruct y as [c|]; injection E as <-.
    + apply (Same t (GReset c)); auto; [rewrite P; cbn; tauto| |]; cbn [r_hist r_goto r_set_q]; rewrite ?asked_snoc, ?got_snoc; cbn; lia.
    + now apply Still.
  - injection E as <-. apply (Same t (GLoan c)); auto; [rewrite P; cbn; tauto| |]; cbn [r_hist r_goto r_set_user]; rewrite ?asked_snoc, ?got_snoc; cbn; lia.
  - injection E as <-. destruct (set_del 1 one32 l (fun u => getting (r_pc r u)) (fun u => getting (tset (r_pc r) t RIdle u)) t) as (l' & D' & I' & L'); auto.
    + intros u Ne. now rewrite tset_other by auto.
    + now rewrite P.
    + rewrite tset_same. auto.
    + exists l'. split; auto. split; [exact I'|]. cbn [r_hist r_goto r_set_loan]. rewrite asked_snoc, got_snoc, A. cbn. lia.
  - assert (forall q, Some (r_goto (r_set_q r q) t (RPut c) (placing (r_q r) q t)) = Some r' -> inside_ok r') as Go.
    { intros q Eq. injection Eq as <-. destruct (placing_none (r_q r) q t). apply (Same t (RPut c)); auto; [rewrite P; cbn; tauto| |]; cbn [r_hist r_goto r_set_q]; rewrite ?asked_snoc, ?got_snoc; lia. }
    assert (forall q, Some (r_set_q r q) = Some r' -> inside_ok r') as Q by (intros q Eq; injection Eq as <-; now apply Still).
    assert (forall q, Some (r_goto (r_set_q r q) t RLoan []) = Some r' -> inside_ok r') as Out.
    { intros q Eq. injection Eq as <-. apply (Same t RLoan); auto; [rewrite P; cbn; tauto| |]; cbn [r_hist r_goto r_set_q]; rewrite ?asked_snoc, ?got_snoc; cbn; lia. }
    destruct (cq_pc (r_q r) t) as [|x|x pos Q0|x pos Q0|x pos Q0|x pos Q0| |pos Q0|pos Q0|pos Q0|pos Q0 y] eqn:Qp;
      match type of E with context [qstep ?a ?b] => destruct (qstep a b) as [q|]; [|discriminate] end; eauto.
  - injection E as <-. apply (Same t RIdle); auto; [rewrite P; cbn; tauto| |]; cbn [r_hist r_goto r_set_loan]; rewrite ?asked_snoc, ?got_snoc; cbn; lia.
Qed.

Lemma run_inside n sched : inside_ok (rrun n sched).
Proof.
  unfold rrun. induction sched as [|a sched IH] using rev_ind.
  - exists []. split; [constructor|]. split; [intros t; cbn; tauto|reflexivity].
  - rewrite run_snoc. unfold move. destruct (rstep _ a) as [r'|] eqn:E; auto. eapply inside_step; eauto.
Qed.

(** Every call that has returned has been counted. *)
Lemma got_counted n sched F gs k g : RI n (rrun n sched) F gs k g -> N.of_nat (got (r_hist (rrun n sched))) <= F.
Proof.
  intros R. destruct (run_inside n sched) as (l & D & I & A). destruct (ri_asking _ _ _ _ _ _ R) as (D' & I' & A').
  assert (length k <= length l)%nat by (apply NoDup_incl_length; auto; intros t Ht; apply I; apply I' in Ht; now rewrite Ht). lia.
Qed.

(** [n] calls of getChunk use nothing of the queue. *)
Lemma gets_quiet n k : n < w64 -> (k <= N.to_nat n)%nat -> let r := rrun n (gets k) in
  r_q r = cq_new (upper_power_of_two n) /\ r_loan r = N.of_nat k /\ (forall t, t <> 0%nat -> r_pc r t = RIdle) /\
  ((0 < k)%nat -> In 0 (lent_out (r_hist r))) /\ got (r_hist r) = k.
Proof.
  intros Hn. induction k as [|k IH]; intros L r; [cbn; repeat split; auto; lia|]. subst r. rewrite gets_S. unfold rrun. rewrite run_app. fold (rrun n (gets k)).
  destruct (gets_run n k) as (B & S & C & P); [lia|lia|]. destruct IH as (Eq & El & Ep & Ei & Eg); [lia|].
  revert B S C P Eq El Ep Ei Eg. generalize (rrun n (gets k)). intros r B S C P Eq El Ep Ei Eg.
  assert ((r_size r <=? r_count r) = false) as Le by (apply N.leb_gt; rewrite S, C; lia).
  unfold one_get. do 4 turn. cbn [run r_q r_loan r_pc r_hist r_goto r_set_count r_set_user r_set_loan].
  split; [exact Eq|]. split; [rewrite El, N.mod_small; lia|]. split; [intros t Ne; now rewrite !tset_other by auto; apply Ep|].
  rewrite app_nil_r, !lent_snoc. cbn [app]. split; [|rewrite !got_snoc, Eg; cbn; lia].
  intros _. destruct k as [|k]; [left; now rewrite C|right; apply Ei; lia].
Qed.

(** Thread 1 puts chunk 0 back and is stopped before it takes it off the count; thread 0
    gets the chunk. *)
Definition overlap : list ract := CallRet 1%nat 0 :: repeat (RGo 1%nat false) 6 ++ CallGet 0%nat :: repeat (RGo 0%nat false) 9.

Lemma over_run r cap : r_bad r = false -> r_pc r 0%nat = RIdle -> r_pc r 1%nat = RIdle -> r_q r = cq_new cap ->
  In 0 (lent_out (r_hist r)) -> r_size r <= r_count r ->
  r_loan (run rstep r overlap) = (r_loan r + 1) mod w64.
Proof.
  destruct r as [sz ct ln us q pc bad h]. cbn [r_bad r_pc r_q r_hist r_size r_count r_loan]. intros -> P0 P1 -> I Le. apply N.leb_le in Le.
  assert (existsb (N.eqb 0) (lent_out h) = true) as X by (apply existsb_exists; exists 0; split; auto).
  unfold overlap. cbn [repeat app]. erewrite run_one; [|unfold rstep; cbn [r_bad r_pc r_hist]; rewrite P1, X; reflexivity].
  unfold r_goto; cbn [r_bad r_pc r_q r_hist r_size r_count r_loan r_user]. generalize (h ++ [RetCalled 1%nat 0]). clear h I X. intros h.
  do 6 (erewrite run_one; [|lazy; reflexivity]).
  erewrite run_one; [|unfold rstep; cbn [r_bad r_pc]; lazy -[r_goto]; rewrite P0; reflexivity].
  erewrite run_one; [|unfold rstep, r_goto; cbn [r_bad r_pc r_size r_count]; rewrite tset_same, Le; reflexivity].
  unfold r_goto, r_set_count. cbn [r_bad r_pc r_q r_hist r_size r_count r_loan r_user]. generalize ((ct + 1) mod w64). intros ct'.
  do 5 (erewrite run_one; [|lazy; reflexivity]).
  do 2 (erewrite run_one; [|lazy -[N.modulo N.add N.sub w64]; reflexivity]).
  erewrite run_one; [|lazy -[N.modulo N.add N.sub w64]; reflexivity]. reflexivity.
Qed.

(** ** The fixed buffer *)

Lemma calls_init n sched more : (calls (f_hist (frun n sched)) <= calls (f_hist (frun n (sched ++ more))))%nat.
Proof.
  unfold frun. rewrite run_app. destruct (f_grows (run fstep (cfixed_new n) sched) more) as (e & ->).
  unfold calls. rewrite filter_app, app_length. lia.
Qed.

Lemma issued_exact n sched F k b : FI n (frun n sched) F k b -> N.of_nat (calls (f_hist (frun n sched))) < 2 ^ 64 -> f_issued (frun n sched) = F.
Proof. intros I L. rewrite (fi_issued _ _ _ _ _ I). destruct (fi_asking _ _ _ _ _ I) as (_ & _ & A). apply N.mod_small. unfold w64. lia. Qed.

Lemma issued_step n sched a : N.of_nat (calls (f_hist (frun n (sched ++ [a])))) < 2 ^ 64 -> f_issued (frun n sched) <= f_issued (frun n (sched ++ [a])).
Proof.
  intros L. pose proof (calls_init n sched [a]) as L'. assert (N.of_nat (calls (f_hist (frun n sched))) < 2 ^ 64) as L2 by lia.
  destruct (run_FI n _ L2) as (F & k & b & I). pose proof (issued_exact _ _ _ _ _ I L2) as E0. destruct (fi_asking _ _ _ _ _ I) as (_ & A1 & A2).
  unfold frun in *. rewrite run_snoc in *. unfold move in *. destruct (fstep (run fstep (cfixed_new n) sched) a) as [f'|] eqn:E; [|lia].
  set (f := run fstep (cfixed_new n) sched) in *. clearbody f.
  destruct a as [t|t|t c|t|t]; cbn [fstep] in E; destruct (f_pc f t) eqn:P; try discriminate.
  2:{ assert (F + 1 < w64) as Lt.
      { apply A1 in P. destruct k; [contradiction|]. cbn [length] in A2. unfold w64. lia. }
      destruct (_ <=? _) in E; injection E as <-; cbn [f_issued f_goto f_set_issued]; rewrite E0, N.mod_small by exact Lt; lia. }
  all: repeat match type of E with context [if ?b then _ else _] => destruct b end; try discriminate; injection E as <-; cbn [f_issued f_goto f_set_loan f_set_user]; lia.
Qed.

Lemma issued_mono n sched more : N.of_nat (calls (f_hist (frun n (sched ++ more)))) < 2 ^ 64 -> f_issued (frun n sched) <= f_issued (frun n (sched ++ more)).
Proof.
  induction more as [|a more IH] using rev_ind; intros L; [rewrite app_nil_r; lia|]. rewrite app_assoc in *.
  pose proof (issued_step _ _ _ L). pose proof (calls_init n (sched ++ more) [a]). assert (f_issued (frun n sched) <= f_issued (frun n (sched ++ more))) by (apply IH; lia). lia.
Qed.

Lemma size_same n sched : f_size (frun n sched) = n.
Proof.
  induction sched as [|a sched IH] using rev_ind; auto. unfold frun in *. rewrite run_snoc. unfold move. destruct (fstep _ a) as [f'|] eqn:E; auto. rewrite <- IH. clear IH.
  set (f := run fstep (cfixed_new n) sched) in *. clearbody f.
  destruct a as [t|t|t c|t|t]; cbn [fstep] in E; destruct (f_pc f t); try discriminate;
    repeat match type of E with context [if ?b then _ else _] => destruct b end; try discriminate; injection E as <-; reflexivity.
Qed.

(** Once as many chunks were asked for as there are, only calls that had a chunk
    already return one. *)
Lemma late_chunks n sched more : N.of_nat (calls (f_hist (frun n (sched ++ more)))) < 2 ^ 64 -> n <= f_issued (frun n sched) ->
  exists e, f_hist (frun n (sched ++ more)) = f_hist (frun n sched) ++ e /\
    (forall t c, In (FGot t (Some c)) e -> fhand (frun n sched) t = Some c) /\
    (forall t c, fhand (frun n (sched ++ more)) t = Some c -> fhand (frun n sched) t = Some c).
Proof.
  induction more as [|a more IH] using rev_ind; intros L Le; [exists []; rewrite app_nil_r; split; [now rewrite app_nil_r|easy]|].
  rewrite app_assoc in *. pose proof (calls_init n (sched ++ more) [a]) as L'. destruct IH as (e & Eh & Ee & Ef); auto; [lia|].
  assert (n <= f_issued (frun n (sched ++ more))) as Le'. { pose proof (issued_mono n sched more). lia. }
  pose proof (size_same n (sched ++ more)) as Sz.
  unfold frun in *. rewrite (run_snoc _ _ (sched ++ more)) in *. unfold move in *. destruct (fstep (run fstep (cfixed_new n) (sched ++ more)) a) as [f'|] eqn:E; [|eauto].
  set (f := run fstep (cfixed_new n) (sched ++ more)) in *. set (f0 := run fstep (cfixed_new n) sched) in *. clearbody f f0.
  assert (forall x, f_hist f' = f_hist f ++ x -> (forall t c, In (FGot t (Some c)) x -> fhand f t = Some c) -> (forall t c, fhand f' t = Some c -> fhand f t = Some c) ->
    exists e, f_hist f' = f_hist f0 ++ e /\ (forall t c, In (FGot t (Some c)) e -> fhand f0 t = Some c) /\ (forall t c, fhand f' t = Some c -> fhand f0 t = Some c)) as K.
  { intros x Ex Hx Hf. exists (e ++ x). split; [now rewrite Ex, Eh, app_assoc|]. split; [|auto]. intros t c H. apply in_app_or in H as [H|H]; auto. }
  assert (forall t p, (forall c, match p with FReset d | FLoan d => Some d | _ => None end = Some c -> fhand f t = Some c) ->
    forall u c, match tset (f_pc f) t p u with FReset d | FLoan d => Some d | _ => None end = Some c -> fhand f u = Some c) as T.
  { intros t p H u c. destruct (Nat.eq_dec u t) as [->|Ne]; [rewrite tset_same; apply H|now rewrite tset_other by auto]. }
  destruct a as [t|t|t c|t|t]; cbn [fstep] in E; destruct (f_pc f t) eqn:P; try discriminate.
  - injection E as <-. eapply K; [reflexivity|intros ? ? [[=]|[]]|]. apply T. discriminate.
  - rewrite Sz, (proj2 (N.leb_le _ _) Le') in E. injection E as <-. eapply K; [reflexivity|intros ? ? [[=]|[]]|]. apply T. discriminate.
  - injection E as <-. eapply K; [reflexivity|intros ? ? []|]. apply T. intros d [= <-]. unfold fhand. now rewrite P.
  - injection E as <-. eapply K; [reflexivity|intros ? ? [[= <- <-]|[]]; unfold fhand; now rewrite P|]. apply T. discriminate.
  - destruct (_ && _); [|discriminate]. injection E as <-. eapply K; [reflexivity|intros ? ? [[=]|[]]|]. apply T. discriminate.
  - injection E as <-. eapply K; [reflexivity|intros ? ? [[=]|[]]|]. apply T. discriminate.
  - injection E as <-. eapply K; [reflexivity|intros ? ? [[=]|[]]|]. apply T. discriminate.
Qed.

(** [k] calls of getChunk. *)
Definition one_fget : list fact := [FCallGet 0%nat; FGo 0%nat; FGo 0%nat; FGo 0%nat].
Definition fgets (k : nat) : list fact := concat (repeat one_fget k).

Lemma fgets_S k : fgets (S k) = fgets k ++ one_fget.
Proof. unfold fgets. replace (S k) with (k + 1)%nat by lia. rewrite repeat_app, concat_app. cbn [repeat concat]. now rewrite app_nil_r. Qed.

Lemma fgets_length k : length (fgets k) = (4 * k)%nat.
Proof. induction k as [|k IH]; auto. rewrite fgets_S, app_length, IH. cbn [length one_fget]. lia. Qed.

Lemma frun_one f a l f' : fstep f a = Some f' -> run fstep f (a :: l) = run fstep f' l.
Proof. intros E. cbn [run]. unfold move. now rewrite E. Qed.

Ltac fturn := erewrite frun_one;
  [|cbn [fstep f_pc f_size f_issued f_goto f_set_issued f_set_user f_set_loan]; rewrite ?tset_same;
    repeat match goal with H : f_pc _ _ = _ |- _ => rewrite H | H : (_ <=? _) = _ |- _ => rewrite H end; reflexivity].

Lemma fgets_run n k : n < w64 -> N.of_nat k <= n -> let f := frun n (fgets k) in
  f_size f = n /\ f_issued f = N.of_nat k /\ f_loan f = N.of_nat k /\ f_pc f 0%nat = FIdle /\ calls (f_hist f) = k.
Proof.
  intros Hn. induction k as [|k IH]; intros L f; [cbn; auto|]. subst f. rewrite fgets_S. unfold frun. rewrite run_app. fold (frun n (fgets k)).
  destruct IH as (S & C & O & P & K); [lia|]. revert S C O P K. generalize (frun n (fgets k)). intros f S C O P K.
  assert ((f_size f <=? f_issued f) = false) as Le by (apply N.leb_gt; rewrite S, C; lia).
  unfold one_fget. do 4 fturn. cbn [run f_size f_issued f_loan f_pc f_hist f_goto f_set_issued f_set_user f_set_loan]. rewrite tset_same, C, O, !app_nil_r, !calls_snoc, K.
  repeat split; auto; [rewrite N.mod_small; lia|rewrite N.mod_small; lia|cbn; lia].
Qed.
