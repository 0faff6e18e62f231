(** C105: getStats with a callback that a user wrote, whatever it does and whatever other
    threads do meanwhile. *)
From Verif Require Import Base Spec.StatsUse Model.Interleave Model.StatsCall Proofs.Interleave Proofs.StatsCall.

(** When a call of getStats ends, with the exception of the callback if it threw and else
    without one, the callback has been told the whole report, or a beginning of it; what the
    mutex of the log protects is as of one moment during the call. The thread has neither
    mutex then. *)
Theorem C105_told : forall w0 sched t threw,
  let s := stats_run w0 sched in
  let s' := stats_run w0 (sched ++ [Step t]) in
  let ws := during w0 (s_hist s) t in
  s_hist s' = s_hist s ++ [Left t GetStats threw] ->
  threw = thrown (s_hist s) t /\
  (if threw then begins ws (told (s_hist s) t) else reports ws (told (s_hist s) t)) /\
  s_log s' <> Some t /\ s_reg s' <> Some t.
Proof.
  intros w0 sched t threw s s' ws H. pose proof (sinv_run w0 sched) as I. fold s in I.
  unfold s', stats_run in H |- *. rewrite run_snoc in H |- *. fold (stats_run w0 sched) in H |- *. fold s in H |- *. unfold move in H |- *.
  destruct (stats_step s (Step t)) as [s1|] eqn:E.
  2:{ exfalso. apply (f_equal (@length _)) in H. rewrite app_length in H. cbn in H. lia. }
  pose proof (si_ok _ _ I t) as O. unfold okat in O. cbn [stats_step] in E. destruct (s_stack s t) as [|[c p] r]; [discriminate E|].
  assert (N : forall e, s_hist s ++ e = s_hist s ++ [Left t GetStats threw] -> e = [Left t GetStats threw]) by (intros e; apply app_inv_head).
  destruct p as [th|m k|m k|k|x h k|x h k|k].
  - injection E as <-. cbn [at_ s_hist s_log s_reg] in H |- *. apply N in H. injection H as -> ->.
    destruct r as [|[d q] [|]]; cbn [ok] in O; [|destruct O as (_ & X & _); discriminate X|destruct O].
    destruct O as ((Hr & Hl & Ht & V) & _). split; [exact Ht|]. split; [exact V|]. split; intros X; apply hold_true in X; congruence.
  - destruct (owner s m); [discriminate E|]. injection E as <-. exfalso. cbn [own s_hist] in H. rewrite <- (app_nil_r (s_hist s)) in H at 1. apply N in H. discriminate H.
  - injection E as <-. exfalso. cbn [own s_hist] in H. rewrite <- (app_nil_r (s_hist s)) in H at 1. apply N in H. discriminate H.
  - injection E as <-. exfalso. cbn [at_ s_hist] in H. apply N in H. discriminate H.
  - injection E as <-. exfalso. cbn [at_ s_hist] in H. apply N in H. discriminate H.
  - discriminate E.
  - injection E as <-. exfalso. cbn [at_ becomes s_hist] in H. rewrite app_nil_r in H. apply N in H. discriminate H.
Qed.
Print Assumptions C105_told.

(** While the callback runs, its thread has the mutex of the log: no other callback runs,
    the log is not started or stopped, no thread registers. For the number of groups, and
    for nothing else, it also has the mutex of the registry. *)
Theorem C105_locked : forall w0 sched t x,
  let s := stats_run w0 sched in
  listening (s_hist s) t = Some x ->
  s_log s = Some t /\ (forall u y, listening (s_hist s) u = Some y -> u = t) /\
  (forall f i l, stats_step s (Change f i l) = None) /\
  (fst x = first_key -> s_reg s = Some t) /\
  (stats_step s (Return t) <> None -> s_reg s = Some t -> fst x = first_key).
Proof.
  intros w0 sched t x s L. pose proof (sinv_run w0 sched) as I. fold s in I.
  assert (A : forall u y, listening (s_hist s) u = Some y -> s_log s = Some u).
  { intros u y Lu. pose proof (si_ok _ _ I u) as O. unfold okat in O. rewrite Lu in O. apply hold_true.
    destruct (s_stack s u) as [|[c p] [|[d q] [|]]]; cbn [ok] in O.
    - destruct O as (_ & _ & O). discriminate O.
    - destruct O as (V & H & _). destruct p; try discriminate H. apply V.
    - apply O.
    - destruct O. }
  pose proof (A t x L) as Hl. split; [exact Hl|]. split; [intros u y Lu; apply A in Lu; congruence|].
  split; [intros f i l; cbn [stats_step]; now rewrite Hl|].
  pose proof (si_ok _ _ I t) as O. unfold okat in O. rewrite L in O. destruct (s_stack s t) as [|[c p] [|[d q] [|]]] eqn:Es; cbn [ok] in O.
  - destruct O as (_ & _ & O). discriminate O.
  - destruct O as (V & H & _). destruct p as [| | | | |x' h k|]; try discriminate H. injection H as <-. destruct V as (_ & _ & R & _).
    rewrite <- hold_true. split; [apply R|]. intros _. apply R.
  - destruct O as (_ & O). destruct c; [destruct O as (_ & O); discriminate O|].
    destruct O as (x' & h & k & _ & -> & H & O). injection H as <-. split.
    + intros F. destruct O as [(_ & _ & R & _)|(N & _)]; [now apply hold_true|contradiction].
    + intros R. exfalso. apply R. cbn [stats_step]. rewrite Es. destruct O as [(_ & -> & _)|(_ & V & _)]; [reflexivity|]. destruct p; try reflexivity. destruct V.
  - destruct O.
Qed.
Print Assumptions C105_locked.

(** getStats changes nothing of what there is to report. *)
Theorem C105_reads : forall w0 sched t,
  let s := stats_run w0 sched in
  let s' := stats_run w0 (sched ++ [Step t]) in
  s_world s' <> s_world s -> exists p r, s_stack s t = (Lookup, p) :: r.
Proof.
  intros w0 sched t s s' H. pose proof (sinv_run w0 sched) as I. fold s in I.
  unfold s', stats_run in H. rewrite run_snoc in H. fold (stats_run w0 sched) in H. fold s in H. unfold move in H.
  pose proof (si_ok _ _ I t) as O. unfold okat in O. cbn [stats_step] in H. destruct (s_stack s t) as [|[c p] r]; [now contradiction H|].
  destruct p as [th|m k|m k|k|x h k|x h k|k]; try (now contradiction H).
  - destruct (owner s m); now contradiction H.
  - destruct c; [|eauto]. exfalso. destruct r as [|[d q] [|]]; cbn [ok] in O; [destruct O as ((X & _) & _)|destruct O as (_ & X & _)|destruct O]; discriminate X.
Qed.
Print Assumptions C105_reads.

(** A callback that calls getStats of the log again, or, when it is told the number of
    groups, uses a category for the first time, never comes back: its thread does nothing
    more, and no callback is told anything more. *)
Theorem C105_reentry : forall w0 sched t x c sched2,
  let s := stats_run w0 sched in
  let s2 := run stats_step s (Call t c :: sched2) in
  listening (s_hist s) t = Some x -> (c = Lookup -> fst x = first_key) -> stats_step s (Call t c) <> None ->
  s_log s2 = Some t /\
  exists h, s_hist s2 = s_hist s ++ Enter t c :: h /\ (forall e, In e h -> did t e = false /\ forall u y, e <> Told u y).
Proof.
  intros w0 sched t x c sched2 s s2 L Hk Hc. destruct (C105_locked w0 sched t x L) as (Hl & _ & _ & Hr & _). fold s in Hl, Hr.
  assert (Hg : c = Lookup -> s_reg s = Some t) by auto. clear Hr.
  assert (G : exists r, s_stack (stats_run w0 (sched ++ [Call t c])) t = (c, code_of c) :: r /\
    s_hist (stats_run w0 (sched ++ [Call t c])) = s_hist s ++ [Enter t c] /\ s_log (stats_run w0 (sched ++ [Call t c])) = Some t /\ (c = Lookup -> s_reg (stats_run w0 (sched ++ [Call t c])) = Some t) /\
    stats_run w0 (sched ++ [Call t c]) = run stats_step s [Call t c]).
  { unfold stats_run. rewrite run_snoc. fold (stats_run w0 sched). fold s. cbn [run]. unfold move. cbn [stats_step] in Hc |- *.
    destruct (s_stack s t) as [|[d p] r]; [|destruct p; try congruence]; cbn [at_ s_stack s_hist s_log s_reg]; unfold tset; rewrite Nat.eqb_refl; eauto 7. }
  destruct G as (r & Es & Eh & El & Eg & Er).
  assert (K : forall sc, let s3 := stats_run w0 (sched ++ Call t c :: sc) in
    s_stack s3 t = (c, code_of c) :: r /\ s_log s3 = Some t /\ (c = Lookup -> s_reg s3 = Some t) /\
    exists h, s_hist s3 = s_hist s ++ Enter t c :: h /\ (forall e, In e h -> did t e = false /\ forall u y, e <> Told u y)).
  { induction sc as [|a sc IH] using rev_ind.
    - cbv zeta. split; [exact Es|]. split; [exact El|]. split; [exact Eg|]. exists []. split; [exact Eh|]. intros e [].
    - cbv zeta in *. rewrite app_comm_cons, app_assoc. set (s3 := stats_run w0 (sched ++ Call t c :: sc)) in *.
      unfold stats_run. rewrite run_snoc. fold (stats_run w0 (sched ++ Call t c :: sc)). fold s3. unfold move.
      destruct (stats_step s3 a) as [s4|] eqn:E; [|exact IH]. destruct IH as (Ks & Kl & Kg & h & Kh & Kn).
      assert (Stuck : forall m k, code_of c = Lock m k -> owner s3 m = Some t) by (intros m k X; destruct c; injection X as <- _; [exact Kl|now apply Kg]).
      assert (Head : exists m k, code_of c = Lock m k) by (destruct c; eexists; eexists; reflexivity). destruct Head as (m0 & k0 & Head).
      pose proof (sinv_run w0 (sched ++ Call t c :: sc)) as I3. fold s3 in I3.
      assert (Q : forall u, u <> t -> hold (s_log s3) u = false) by (intros u N; rewrite Kl; apply Nat.eqb_neq; auto).
      assert (Z : forall e, s_hist s4 = s_hist s3 ++ e -> (forall y, In y e -> did t y = false /\ forall u z, y <> Told u z) ->
        exists h', s_hist s4 = s_hist s ++ Enter t c :: h' /\ (forall y, In y h' -> did t y = false /\ forall u z, y <> Told u z)).
      { intros e He Ne. exists (h ++ e). rewrite He, Kh, <- app_assoc. split; [reflexivity|]. intros y Y. apply in_app_iff in Y as [Y|Y]; auto. }
      assert (Other : forall u l, u <> t -> tset (s_stack s3) u l t = (c, code_of c) :: r).
      { intros u l N. unfold tset. destruct (Nat.eqb_spec t u); [congruence|exact Ks]. }
      destruct a as [u c'|u|u|u|f i l|i l]; cbn [stats_step] in E.
      + destruct (Nat.eq_dec u t) as [->|N]; [rewrite Ks, Head in E; discriminate E|].
        assert (X : exists l, s4 = at_ s3 u l [Enter u c']) by (destruct (s_stack s3 u) as [|[d p] q]; [|destruct p; try discriminate E]; injection E as <-; eauto).
        destruct X as (l & ->). split; [cbn [at_ s_stack]; auto|]. split; [exact Kl|]. split; [exact Kg|]. apply (Z [Enter u c'] eq_refl). intros y [<-|[]]. split; [now apply Nat.eqb_neq|discriminate].
      + destruct (Nat.eq_dec u t) as [->|N]; [rewrite Ks, Head in E; rewrite (Stuck _ _ Head) in E; discriminate E|].
        pose proof (si_ok _ _ I3 u) as O. unfold okat in O. rewrite (Q u N) in O. destruct (s_stack s3 u) as [|[d p] q] eqn:Eu; [discriminate E|].
        assert (q = []) as ->. { destruct q as [|[d' q'] [|]]; cbn [ok] in O; [reflexivity|destruct O as (X & _); discriminate X|destruct O]. } destruct O as (V & _ & _).
        destruct p as [th|m k|m k|k|y h' k|y h' k|k].
        * injection E as <-. split; [cbn [at_ s_stack]; auto|]. split; [exact Kl|]. split; [exact Kg|]. apply (Z [Left u d th] eq_refl). intros y [<-|[]]. split; [now apply Nat.eqb_neq|discriminate].
        * destruct m; cbn [owner] in E; [rewrite Kl in E; discriminate E|]. destruct (s_reg s3) eqn:Eg3; [discriminate E|]. injection E as <-.
          split; [cbn [own s_stack]; auto|]. split; [exact Kl|]. split; [intros X; apply Kg in X; congruence|]. apply (Z []); [cbn [own s_hist]; now rewrite app_nil_r|]. intros y [].
        * destruct m; cbn [valid' valid] in V; [destruct V as (_ & X & _); discriminate X|]. injection E as <-. destruct V as (V & _). apply hold_true in V.
          split; [cbn [own s_stack]; auto|]. split; [exact Kl|]. split; [intros X; apply Kg in X; congruence|]. apply (Z []); [cbn [own s_hist]; now rewrite app_nil_r|]. intros y [].
        * injection E as <-. split; [cbn [at_ s_stack]; auto|]. split; [exact Kl|]. split; [exact Kg|]. apply (Z [] eq_refl). intros y [].
        * destruct V as (_ & X & _). discriminate X.
        * discriminate E.
        * injection E as <-. split; [cbn [becomes at_ s_stack]; auto|]. split; [exact Kl|]. split; [exact Kg|]. eapply (Z [_]); [cbn [becomes at_ s_hist]; rewrite app_nil_r; reflexivity|]. intros y [<-|[]]. split; [reflexivity|discriminate].
      + destruct (Nat.eq_dec u t) as [->|N]; [rewrite Ks, Head in E; discriminate E|]. destruct (s_stack s3 u) as [|[d p] q]; [discriminate E|]. destruct p; try discriminate E. injection E as <-.
        split; [cbn [at_ s_stack]; auto|]. split; [exact Kl|]. split; [exact Kg|]. apply (Z [Came u] eq_refl). intros y [<-|[]]. split; [now apply Nat.eqb_neq|discriminate].
      + destruct (Nat.eq_dec u t) as [->|N]; [rewrite Ks, Head in E; discriminate E|]. destruct (s_stack s3 u) as [|[d p] q]; [discriminate E|]. destruct p; try discriminate E. injection E as <-.
        split; [cbn [at_ s_stack]; auto|]. split; [exact Kl|]. split; [exact Kg|]. apply (Z [Threw u] eq_refl). intros y [<-|[]]. split; [now apply Nat.eqb_neq|discriminate].
      + rewrite Kl in E. discriminate E.
      + injection E as <-. split; [exact Ks|]. split; [exact Kl|]. split; [exact Kg|]. eapply (Z [_] eq_refl). intros y [<-|[]]. split; [reflexivity|discriminate]. }
  specialize (K sched2). cbv zeta in K. destruct K as (_ & K1 & _ & K). assert (Rs : stats_run w0 (sched ++ Call t c :: sched2) = s2) by (unfold stats_run; rewrite run_app; reflexivity).
  rewrite Rs in K1, K. split; [exact K1|exact K].
Qed.
Print Assumptions C105_reentry.

(** The first use of a category is possible in the callback, if the stat is not the number
    of groups and nobody else is at it. *)
Theorem C105_lookup : forall w0 sched t x,
  let s := stats_run w0 sched in
  let s2 := run stats_step s (Call t Lookup :: repeat (Step t) 4) in
  listening (s_hist s) t = Some x -> stats_step s (Return t) <> None -> s_reg s = None ->
  w_groups (s_world s2) = (w_groups (s_world s) + 1)%N /\ listening (s_hist s2) t = Some x /\ s_reg s2 = None /\
  stats_step s2 (Return t) <> None /\ exists w, s_hist s2 = s_hist s ++ [Enter t Lookup; Now w; Left t Lookup false].
Proof.
  intros w0 sched t x s s2 L R G.
  destruct (s_stack s t) as [|[c p] r] eqn:Es; [contradiction R; cbn; now rewrite Es|].
  destruct p as [| | | | |x' h k|]; try (contradiction R; cbn; now rewrite Es).
  assert (T : forall A (f : tid -> A) v, tset f t v t = v) by (intros A f v; unfold tset; now rewrite Nat.eqb_refl).
  assert (M : forall s a s' l, stats_step s a = Some s' -> run stats_step s (a :: l) = run stats_step s' l).
  { intros s0 a s' l E. cbn [run]. unfold move. now rewrite E. }
  unfold s2. clear s2. cbn [repeat].
  erewrite M; [|cbn [stats_step]; rewrite Es; reflexivity].
  erewrite M; [|cbn [stats_step at_ s_stack]; rewrite T; cbn [code_of lookup owner s_reg at_]; rewrite G; reflexivity].
  erewrite M; [|cbn [stats_step own at_ s_stack]; rewrite !T; reflexivity].
  erewrite M; [|cbn [stats_step becomes own at_ s_stack]; rewrite !T; reflexivity].
  erewrite M; [|cbn [stats_step becomes own at_ s_stack]; rewrite !T; reflexivity].
  cbn [run becomes own at_ s_stack s_world s_hist s_reg w_groups]. rewrite app_nil_r.
  split; [reflexivity|]. rewrite !listening_app. split; [unfold listen, did; cbn [thread_of]; rewrite Nat.eqb_refl; exact L|]. split; [reflexivity|].
  split; [cbn [stats_step becomes own at_ s_stack]; rewrite !T; discriminate|].
  eexists. rewrite <- !app_assoc. reflexivity.
Qed.
Print Assumptions C105_lookup.

(** As long as no callback calls into the log, there is no deadlock: somebody can go on, or
    a callback is running, which may return. *)
Theorem C105_live : forall w0 sched t,
  let s := stats_run w0 sched in
  (forall u, length (s_stack s u) <= 1) -> s_stack s t <> [] ->
  exists u, stats_step s (Step u) <> None \/ stats_step s (Return u) <> None.
Proof.
  intros w0 sched t s D N. pose proof (sinv_run w0 sched) as I. fold s in I.
  assert (G : forall u, s_stack s u <> [] -> (stats_step s (Step u) <> None \/ stats_step s (Return u) <> None) \/
    exists c m k v, s_stack s u = [(c, Lock m k)] /\ owner s m = Some v).
  { intros u Nu. destruct (s_stack s u) as [|[c p] r] eqn:Eu; [congruence|]. pose proof (D u) as Du. rewrite Eu in Du. destruct r; [|cbn in Du; lia].
    cbn [stats_step]. rewrite Eu. destruct p as [th|m k|m k|k|x h k|x h k|k]; try (left; left; discriminate); [|left; right; discriminate].
    destruct (owner s m) as [v|] eqn:Eo; [right; exists c, m, k, v; auto|left; left; discriminate]. }
  assert (Hn : forall m v, owner s m = Some v -> s_stack s v <> []).
  { intros m v Ho X. pose proof (si_ok _ _ I v) as O. unfold okat in O. rewrite X in O. destruct O as (A & B & _).
    destruct m; cbn [owner] in Ho; apply hold_true in Ho; congruence. }
  assert (R : forall v, s_reg s = Some v -> stats_step s (Step v) <> None \/ stats_step s (Return v) <> None).
  { intros v Hv. destruct (G v (Hn MReg v Hv)) as [X|(c & m & k & v' & Es & _)]; [exact X|]. exfalso.
    pose proof (si_ok _ _ I v) as O. unfold okat in O. rewrite Es in O. destruct O as (V & _). apply hold_true in Hv. destruct m; cbn [valid' valid] in V.
    - destruct V as (_ & _ & X & _). congruence.
    - destruct V as (X & _). congruence. }
  destruct (G t N) as [X|(c & m & k & v & Es & Ho)]; [eauto|]. destruct m; [|exists v; now apply R].
  destruct (G v (Hn MLog v Ho)) as [X|(c' & m' & k' & v' & Es' & Ho')]; [eauto|]. destruct m'; [|exists v'; now apply R].
  exfalso. pose proof (si_ok _ _ I v) as O. unfold okat in O. rewrite Es' in O. destruct O as ((_ & X & _) & _). cbn [owner] in Ho. apply hold_true in Ho. rewrite X in Ho. discriminate Ho.
Qed.
Print Assumptions C105_live.

(** A ring whose counters change while the callback runs; a callback that throws at the
    second stat; one that calls getStats again. *)
Definition world0 : world :=
  {| w_facts := {| fa_on := true; fa_buf := Some {| i_kind := KRing; i_size := 4; i_gen := 2 |}; fa_names := 1; fa_dereg := 0; fa_tenants := 2 |};
     w_groups := 3; w_issued := 3; w_loan := 2 |}.

Definition one_stat : list sact := [Step 1; Step 1; Return 1].

Example C105_case :
  let sched := [Call 1 GetStats; Step 1; Step 1] ++ one_stat ++ [Step 1; Step 1; Step 1; Return 1; Step 1; Return 1] ++ one_stat ++ [Chunk 6 4] ++
    concat (repeat one_stat 2) ++ [Step 1; Return 1; Step 1; Return 1] ++ concat (repeat one_stat 5) ++ [Step 1] in
  s_hist (stats_run world0 (sched ++ [Step 1])) = s_hist (stats_run world0 sched) ++ [Left 1 GetStats false] /\
  map snd (told (s_hist (stats_run world0 sched)) 1) =
    [VSize 3; VText $"RingTraceBuffer"; VBool false; VSize 3; VSize 6; VSize 4; VSize 4; VSize 2; VBool true; VBool true; VSize 1; VSize 0; VSize 2].
Proof. vm_compute. auto. Qed.

Example C105_case_throws :
  let sched := [Call 1 GetStats; Step 1; Step 1] ++ one_stat ++ [Step 1; Step 1; Step 1; Throw 1; Step 1] in
  s_hist (stats_run world0 (sched ++ [Step 1])) = s_hist (stats_run world0 sched) ++ [Left 1 GetStats true] /\
  map fst (told (s_hist (stats_run world0 sched)) 1) = [$"registry_group_count"; $"buffer_name"].
Proof. vm_compute. auto. Qed.

Example C105_case_again :
  let s := stats_run world0 [Call 1 GetStats; Step 1; Step 1; Step 1; Step 1] in
  listening (s_hist s) 1 = Some (first_key, VSize 3) /\ stats_step s (Call 1 GetStats) <> None /\ stats_step s (Call 1 Lookup) <> None /\ length (s_stack s 1) = 1.
Proof. vm_compute. split; [reflexivity|]. split; [discriminate|]. split; [discriminate|reflexivity]. Qed.
