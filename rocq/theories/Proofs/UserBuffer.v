(** What the log does with a buffer that a user wrote. *)
From Verif Require Import Base Spec.BufferUse Model.Interleave Model.UserBuffer Proofs.Interleave.

Ltac split_case E :=
  repeat match type of E with
         | context [match ?x with _ => _ end] => destruct x eqn:?
         end; try discriminate; injection E as <-.

(** ** Histories *)

Lemma inside_snoc h e t : inside (h ++ [e]) t =
  if Nat.eqb (caller e) t then
    match e with
    | BAsk _ b | BBack _ b _ | BStats _ b => Some b
    | BLent _ _ _ | BDone _ _ | BThrew _ _ => None
    | _ => inside h t
    end
  else inside h t.
Proof. unfold inside. rewrite rev_app_distr. reflexivity. Qed.
Lemma lent_snoc h e t : lent (h ++ [e]) t =
  if Nat.eqb (caller e) t then
    match e with BLent _ b (Some c) => Some (b, c) | BBack _ _ _ => None | _ => lent h t end
  else lent h t.
Proof. unfold lent. rewrite rev_app_distr. reflexivity. Qed.
Lemma back_snoc h e t : back_rev (rev (h ++ [e])) t =
  if Nat.eqb (caller e) t then match e with BBack _ _ _ => true | _ => false end else back_rev (rev h) t.
Proof. rewrite rev_app_distr. reflexivity. Qed.
Lemma back_threw_app h e : back_threw h -> back_threw (h ++ e).
Proof. intros (x & t & b & y & -> & H). exists x, t, b, (y ++ e). now rewrite <- app_assoc. Qed.

(** ** Who holds what *)

Definition mpc (p : upc) : bool :=
  match p with
  | MGen _ | Held _ | HUnlock | SEnabled | SExchange _ | SEvict _ _ | SNull _ _ _ | SUnlock _ _ _ | SMaking | SOn
  | AStats _ _ | RDo | DDo | DPtr | DReturning _ _ | DNull | DErase => true
  | _ => false
  end.
Definition tpc (h : tid) (p : upc) (u : tid) : bool :=
  match p with
  | EInit | EPtr | EFull _ | EAgain _ | EOld _ | EReturning _ _ | ENull | EThird | EBuf | EGetting _ | ESet _ | EStore _
  | EUnlock | EGen | EDrop _ => Nat.eqb h u
  | SNull _ v _ | SUnlock _ v _ => Nat.eqb v u
  | _ => false
  end.
Definition mutex_ok (pc : tid -> upc) (m : option tid) : Prop := forall t, mpc (pc t) = true <-> m = Some t.
Definition lock_ok (pc : tid -> upc) (l : tid -> option tid) : Prop := forall h u, tpc h (pc h) u = true <-> l u = Some h.

Lemma m_keep pc m t p : mutex_ok pc m -> mpc p = mpc (pc t) -> mutex_ok (tset pc t p) m.
Proof. intros M E u. destruct (Nat.eq_dec u t) as [->|N]; [rewrite tset_same, E|rewrite tset_other by auto]; apply M. Qed.
Lemma m_take pc t p : mutex_ok pc None -> mpc p = true -> mutex_ok (tset pc t p) (Some t).
Proof.
  intros M E u. destruct (Nat.eq_dec u t) as [->|N]; [rewrite tset_same, E|rewrite tset_other by auto]; [easy|].
  specialize (M u). split; [intros X; apply M in X; discriminate|congruence].
Qed.
Lemma m_drop pc m t p : mutex_ok pc m -> mpc (pc t) = true -> mpc p = false -> mutex_ok (tset pc t p) None.
Proof.
  intros M H E u. destruct (Nat.eq_dec u t) as [->|N]; [rewrite tset_same, E; easy|rewrite tset_other by auto].
  apply M in H. split; [|easy]. intros X. apply M in X. congruence.
Qed.
Lemma l_keep pc l t p : lock_ok pc l -> (forall u, tpc t p u = tpc t (pc t) u) -> lock_ok (tset pc t p) l.
Proof. intros M E h u. destruct (Nat.eq_dec h t) as [->|N]; [rewrite tset_same, E|rewrite tset_other by auto]; apply M. Qed.
Lemma l_take pc l t v p : lock_ok pc l -> l v = None -> (forall u, tpc t p u = Nat.eqb v u) -> (forall u, tpc t (pc t) u = false) ->
  lock_ok (tset pc t p) (tset l v (Some t)).
Proof.
  intros M V E F h u. destruct (Nat.eq_dec u v) as [->|Nv]; [rewrite tset_same|rewrite (tset_other l) by auto];
    (destruct (Nat.eq_dec h t) as [->|N]; [rewrite tset_same, E|rewrite tset_other by auto]).
  - rewrite Nat.eqb_refl. easy.
  - split; [intros X; apply M in X; congruence|congruence].
  - split; [intros X; apply Nat.eqb_eq in X; congruence|intros X; apply M in X; now rewrite F in X].
  - apply M.
Qed.
Lemma l_drop pc l t v p : lock_ok pc l -> (forall u, tpc t (pc t) u = Nat.eqb v u) -> (forall u, tpc t p u = false) ->
  lock_ok (tset pc t p) (tset l v None).
Proof.
  intros M E F h u. assert (l v = Some t) as V by (apply M; rewrite E; apply Nat.eqb_refl).
  destruct (Nat.eq_dec u v) as [->|Nv]; [rewrite tset_same|rewrite (tset_other l) by auto];
    (destruct (Nat.eq_dec h t) as [->|N]; [rewrite tset_same, F|rewrite tset_other by auto]).
  - easy.
  - split; [intros X; apply M in X; congruence|easy].
  - split; [easy|intros X; apply M in X; rewrite E in X; apply Nat.eqb_eq in X; congruence].
  - apply M.
Qed.

Record locks (s : ulog) : Prop := { lk_m : mutex_ok (u_pc s) (u_mutex s); lk_t : lock_ok (u_pc s) (u_lock s) }.
Lemma locks_new : locks u_new.
Proof. split; intros t; cbn; easy. Qed.

Ltac fields := cbn [at_pc set_on set_mutex set_lock set_chunk set_reg set_cur next_gen
  u_on u_gen u_mutex u_cur u_tenants u_lock u_chunk u_init u_made u_pc u_hist].
Ltac fields_in H := cbn [at_pc set_on set_mutex set_lock set_chunk set_reg set_cur next_gen
  u_on u_gen u_mutex u_cur u_tenants u_lock u_chunk u_init u_made u_pc u_hist] in H.
Ltac open_step a E := destruct a; cbn [ustep] in E; cbv zeta in E; split_case E.

Lemma locks_step s a s' : locks s -> ustep s a = Some s' -> locks s'.
Proof.
  intros [M T] E. open_step a E.
  all: split; fields; try (match goal with H : u_mutex _ = Some _ |- mutex_ok _ (u_mutex _) => rewrite H end).
  all: try (apply m_keep; [assumption|match goal with P : u_pc _ _ = _ |- _ => rewrite P end; reflexivity]; fail).
  all: try (apply l_keep; [assumption|intros x; match goal with P : u_pc _ _ = _ |- _ => rewrite P end; reflexivity]; fail).
  all: try (apply m_take; [assumption|reflexivity]).
  all: try (eapply m_drop; [eassumption|match goal with P : u_pc _ _ = _ |- _ => rewrite P end; reflexivity|reflexivity]; fail).
  all: try (apply l_take; [assumption|assumption|intros x; reflexivity|intros x; match goal with P : u_pc _ _ = _ |- _ => rewrite P end; reflexivity]; fail).
  all: try (apply l_drop; [assumption|intros x; match goal with P : u_pc _ _ = _ |- _ => rewrite P end; reflexivity|intros x; reflexivity]; fail).
Qed.

(** ** The invariant *)

(** Threads that a stop that is going on has not come to yet. *)
Definition rest (p : upc) : list tid :=
  match p with SEvict _ l | SNull _ _ l | SUnlock _ _ l => l | _ => [] end.
Definition todo (s : ulog) : list tid := match u_mutex s with Some t => rest (u_pc s t) | None => [] end.
Definition nul (p : upc) : option tid := match p with SNull _ v _ => Some v | _ => None end.
Definition nulling (s : ulog) : option tid := match u_mutex s with Some t => nul (u_pc s t) | None => None end.

(** Logging may be on for all the thread can tell. *)
Definition maybe_on (s : ulog) (u : tid) : Prop := u_on s = true \/ In u (todo s).

(** The thread is between the tests of [enabled] and the end of its use of the buffer. *)
Definition busy (p : upc) : bool :=
  match p with
  | EFull _ | EAgain (Some _) | EOld _ | EReturning _ _ | ENull | EBuf | EGetting _ | ESet _ | EStore _ => true
  | _ => false
  end.
Definition registered_at (p : upc) : bool :=
  match p with
  | EPtr | EAgain _ | EThird | DPtr | DReturning _ _ | DNull | DErase => true
  | _ => busy p
  end.
Definition points (p : upc) (o : option N) : Prop :=
  match p with
  | EFull c | EAgain (Some c) | EOld c | EStore c | EReturning _ c | DReturning _ c => o = Some c
  | EAgain None | EThird | EBuf | EGetting _ | ESet _ | DErase => o = None
  | _ => True
  end.
Definition in_buffer (p : upc) : option nat :=
  match p with EReturning b _ | EGetting b | DReturning b _ | AStats _ b => Some b | _ => None end.
(** The log is off while a thread is here. *)
Definition off_at (p : upc) : bool :=
  match p with SMaking | SOn | SEvict _ _ | SNull _ _ _ | SUnlock _ _ _ | Held true | AStats true _ => true | _ => false end.

Record inv (s : ulog) : Prop := {
  i_locks : locks s;
  i_regs : forall u, In u (u_tenants s) <-> u_init s u = true;
  i_reg : forall u, registered_at (u_pc s u) = true -> u_init s u = true;
  i_off : forall u, off_at (u_pc s u) = true -> u_on s = false;
  i_chunk : forall u, u_chunk s u <> None -> u_init s u = true /\ (maybe_on s u \/ nulling s = Some u) /\ u_cur s <> None;
  i_busy : forall u, busy (u_pc s u) = true -> maybe_on s u;
  i_points : forall u, points (u_pc s u) (u_chunk s u);
  i_cur : forall u b, in_buffer (u_pc s u) = Some b -> u_cur s = Some b;
  i_set : forall u c, u_pc s u = ESet c -> u_cur s <> None;
}.

Lemma mutex_moves s s' t p : locks s -> locks s' -> u_pc s' = tset (u_pc s) t p ->
  forall h, h <> t -> (u_mutex s = Some h <-> u_mutex s' = Some h).
Proof.
  intros L L' E h N. pose proof (lk_m _ L h) as A. pose proof (lk_m _ L' h) as B. rewrite E, tset_other in B by auto.
  rewrite <- A, <- B. reflexivity.
Qed.
Lemma mutex_view {A} (f : upc -> A) (d : A) s s' t p : (forall q, mpc q = false -> f q = d) -> locks s -> locks s' -> u_pc s' = tset (u_pc s) t p ->
  f p = f (u_pc s t) ->
  match u_mutex s' with Some h => f (u_pc s' h) | None => d end = match u_mutex s with Some h => f (u_pc s h) | None => d end.
Proof.
  intros D L L' E R. pose proof (mutex_moves s s' t p L L' E) as Mv.
  pose proof (lk_m _ L t) as A1. pose proof (lk_m _ L' t) as B1. rewrite E, tset_same in B1.
  assert (forall h, u_mutex s' = Some h -> h <> t -> f (u_pc s' h) = f (u_pc s h)) as Q by (intros h _ N; rewrite E, tset_other by auto; auto).
  destruct (u_mutex s') as [h'|] eqn:M'.
  - destruct (Nat.eq_dec h' t) as [->|N].
    + rewrite E, tset_same, R. destruct (u_mutex s) as [h|] eqn:M.
      * destruct (Nat.eq_dec h t) as [->|N]; auto. specialize (proj1 (Mv h N) eq_refl). congruence.
      * apply D. destruct (mpc (u_pc s t)); auto. destruct A1 as (A1 & _). specialize (A1 eq_refl). discriminate.
    + rewrite (proj2 (Mv h' N) eq_refl). auto.
  - destruct (u_mutex s) as [h|] eqn:M; auto. destruct (Nat.eq_dec h t) as [->|N].
    + rewrite <- R. symmetry. apply D. destruct (mpc p); auto. destruct B1 as (B1 & _). specialize (B1 eq_refl). discriminate.
    + specialize (proj1 (Mv h N) eq_refl). discriminate.
Qed.
Lemma todo_same s s' t p : locks s -> locks s' -> u_pc s' = tset (u_pc s) t p -> rest p = rest (u_pc s t) -> todo s' = todo s.
Proof. intros. unfold todo. eapply mutex_view; eauto. now intros []. Qed.
Lemma nulling_same s s' t p : locks s -> locks s' -> u_pc s' = tset (u_pc s) t p -> nul p = nul (u_pc s t) -> nulling s' = nulling s.
Proof. intros. unfold nulling. eapply mutex_view; eauto. now intros []. Qed.
Lemma todo_is s t : locks s -> mpc (u_pc s t) = true -> todo s = rest (u_pc s t) /\ nulling s = nul (u_pc s t).
Proof. intros L H. apply (lk_m _ L) in H. unfold todo, nulling. now rewrite H. Qed.

Lemma frame s s' t p : inv s -> locks s' -> u_pc s' = tset (u_pc s) t p -> u_on s' = u_on s -> u_cur s' = u_cur s ->
  u_tenants s' = u_tenants s -> u_init s' = u_init s -> (forall u, u <> t -> u_chunk s' u = u_chunk s u) ->
  rest p = rest (u_pc s t) -> nul p = nul (u_pc s t) ->
  (registered_at p = true -> u_init s t = true) ->
  (off_at p = true -> u_on s = false) ->
  (u_chunk s' t <> None -> u_init s t = true /\ (maybe_on s t \/ nulling s = Some t) /\ u_cur s <> None) ->
  (busy p = true -> maybe_on s t) ->
  points p (u_chunk s' t) ->
  (forall b, in_buffer p = Some b -> u_cur s = Some b) ->
  (forall c, p = ESet c -> u_cur s <> None) -> inv s'.
Proof.
  intros I L' Ep Eo Ec Et Ei Eh Er En H1 H2 H3 H4 H5 H6 H7. pose proof (i_locks _ I) as L.
  pose proof (todo_same _ _ _ _ L L' Ep Er) as Td. pose proof (nulling_same _ _ _ _ L L' Ep En) as Nl.
  assert (forall u, maybe_on s u -> maybe_on s' u) as Mo by (unfold maybe_on; rewrite Eo, Td; auto).
  split; auto; intros u; rewrite ?Ei, ?Et, ?Eo, ?Ec, ?Nl; [apply I|..].
  all: destruct (Nat.eq_dec u t) as [->|N]; rewrite ?Ep; [rewrite ?tset_same|rewrite ?tset_other by auto; try rewrite Eh by auto].
  - auto.
  - apply (i_reg _ I).
  - auto.
  - apply (i_off _ I).
  - intros X. destruct (H3 X) as (A & [B|B] & C); auto.
  - intros X. destruct (i_chunk _ I u X) as (A & [B|B] & C); auto.
  - auto.
  - intros X. apply Mo, (i_busy _ I), X.
  - auto.
  - apply (i_points _ I).
  - auto.
  - apply (i_cur _ I).
  - auto.
  - apply (i_set _ I).
Qed.
Lemma inv_new : inv u_new.
Proof. split; try (intros; cbn in *; congruence); [apply locks_new|intros u; cbn; split; easy|intros u; exact Logic.I]. Qed.

Lemma holder s t : locks s -> mpc (u_pc s t) = true -> forall u, mpc (u_pc s u) = true -> u = t.
Proof. intros L H u X. apply (lk_m _ L) in H, X. congruence. Qed.

(** While the holder of the mutex has the log off and is not stopping it, nobody uses the buffer. *)
Lemma quiet s t : inv s -> mpc (u_pc s t) = true -> rest (u_pc s t) = [] -> nul (u_pc s t) = None -> u_on s = false ->
  (forall u, u_chunk s u = None) /\ (forall u, busy (u_pc s u) = false) /\ (forall u, u <> t -> in_buffer (u_pc s u) = None).
Proof.
  intros I H R U O. pose proof (i_locks _ I) as L. destruct (todo_is s t L H) as (Td & Nl). rewrite R in Td. rewrite U in Nl.
  assert (forall u, ~ maybe_on s u) as Q by (intros u [X|X]; [congruence|rewrite Td in X; easy]).
  assert (forall u, busy (u_pc s u) = false) as B.
  { intros u. destruct (busy (u_pc s u)) eqn:X; auto. apply (i_busy _ I) in X. now apply Q in X. }
  split; [|split]; auto.
  - intros u. destruct (u_chunk s u) eqn:X; auto. destruct (i_chunk _ I u) as (_ & [Y|Y] & _); [congruence|now apply Q in Y|congruence].
  - intros u N. destruct (in_buffer (u_pc s u)) eqn:X; auto. specialize (B u). destruct (u_pc s u) eqn:Y; try discriminate;
      destruct N; apply (holder s t L H); rewrite Y; reflexivity.
Qed.

Lemma not_nulling s t : locks s -> tpc t (u_pc s t) t = true -> nul (u_pc s t) = None -> nulling s <> Some t.
Proof.
  intros L H U X. unfold nulling in X. destruct (u_mutex s) as [h|]; [|discriminate].
  assert (tpc h (u_pc s h) t = true) as T by (destruct (u_pc s h); try discriminate; injection X as ->; apply Nat.eqb_refl).
  apply (lk_t _ L) in T, H. assert (h = t) by congruence. subst h. congruence.
Qed.

Ltac known := repeat match goal with
  | H : u_on ?s = _ |- context [u_on ?s] => rewrite H
  | H : u_cur ?s = _ |- context [u_cur ?s] => rewrite H
  | H : u_chunk ?s ?t = _ |- context [u_chunk ?s ?t] => rewrite H
  end.

Lemma off_mpc p : off_at p = true -> mpc p = true.
Proof. destruct p; easy. Qed.
Lemma busy_registered p : busy p = true -> registered_at p = true.
Proof. destruct p; try easy; auto. Qed.
Lemma busy_tpc t p : busy p = true -> tpc t p t = true.
Proof. destruct p; try easy; intros _; apply Nat.eqb_refl. Qed.
Lemma registered_locked t p : registered_at p = true -> tpc t p t = true \/ mpc p = true.
Proof. destruct p; try easy; auto; left; apply Nat.eqb_refl. Qed.
Lemma points_unlocked t p o : tpc t p t = false -> mpc p = false -> points p o.
Proof. intros X Y. destruct p; cbn in X, Y |- *; try exact Logic.I; try discriminate; rewrite Nat.eqb_refl in X; discriminate. Qed.

(** The buffer changes hands. *)
Lemma swap s s' t p : inv s -> locks s' -> mpc (u_pc s t) = true -> rest (u_pc s t) = [] -> nul (u_pc s t) = None -> u_on s = false ->
  u_pc s' = tset (u_pc s) t p -> u_on s' = false -> u_tenants s' = u_tenants s -> u_init s' = u_init s -> u_chunk s' = u_chunk s ->
  registered_at p = false -> (forall o, points p o) -> in_buffer p = None -> inv s'.
Proof.
  intros I L' H R U O Ep Eo Et Ei Eh P1 P2 P3. destruct (quiet s t I H R U O) as (Q1 & Q2 & Q3).
  split; auto; intros u; rewrite ?Et, ?Ei, ?Eh, ?Eo, ?Q1; [apply I|..]; rewrite ?Ep; try easy.
  all: destruct (Nat.eq_dec u t) as [->|N]; [rewrite ?tset_same|rewrite ?tset_other by auto].
  - congruence.
  - apply (i_reg _ I).
  - intros X. apply busy_registered in X. congruence.
  - rewrite Q2. discriminate.
  - apply P2.
  - rewrite <- (Q1 u). apply (i_points _ I).
  - congruence.
  - intros b X. rewrite Q3 in X by auto. discriminate.
  - intros c ->. discriminate.
  - intros c X. specialize (Q2 u). rewrite X in Q2. discriminate.
Qed.

Ltac holds I L' :=
  match goal with P : u_pc ?s ?t = ?p |- _ ?s' =>
        assert (mpc (u_pc s t) = true) as Hm by (rewrite P; reflexivity);
        assert (mpc (u_pc s' t) = true) as Hm' by (fields; rewrite tset_same; reflexivity);
        destruct (todo_is s t (i_locks _ I) Hm) as (Td & Nl); destruct (todo_is s' t L' Hm') as (Td' & Nl');
        rewrite P in Td, Nl; fields_in Td'; fields_in Nl'; rewrite tset_same in Td', Nl'; cbn [rest nul] in Td, Nl, Td', Nl';
        pose proof (holder s t (i_locks _ I) Hm) as Ho end.
Ltac sides u t := destruct (Nat.eq_dec u t) as [->|N]; [rewrite ?tset_same|rewrite ?tset_other by auto].

Lemma inv_step s a s' : inv s -> ustep s a = Some s' -> inv s'.
Proof.
  intros I E. pose proof (locks_step s a s' (i_locks _ I) E) as L'.
  open_step a E.
  all: match goal with P : u_pc _ ?t = _ |- _ =>
      pose proof (i_reg _ I t) as R1; pose proof (i_off _ I t) as O1; pose proof (i_chunk _ I t) as C1; pose proof (i_busy _ I t) as B1; pose proof (i_points _ I t) as P1; pose proof (i_cur _ I t) as U1; pose proof (i_set _ I t) as S1;
      rewrite P in R1, O1, B1, P1, U1, S1; cbn in R1, O1, B1, P1, U1 end.
  all: try (eapply frame; [exact I|exact L'|reflexivity|reflexivity|reflexivity|reflexivity|reflexivity|intros; fields; rewrite ?tset_other by auto; reflexivity| | | | | | | | | ]; fields;
    rewrite ?tset_same;
    match goal with P : u_pc _ ?t = _ |- _ => rewrite ?P end; cbn; try discriminate; try reflexivity; auto; known; try congruence; try (intros; congruence); try (unfold maybe_on; auto; fail); fail).
  - apply (swap s _ t (Held k) I); auto; fields; rewrite ?Hequ; auto.
  - (* EFull *)
    assert (maybe_on s t) as M.
    { destruct C1 as (_ & [X|X] & _); [congruence|auto|]. destruct (not_nulling s t (i_locks _ I)); [rewrite Hequ; apply Nat.eqb_refl|rewrite Hequ; reflexivity|exact X]. }
    eapply frame; [exact I|exact L'|reflexivity|reflexivity|reflexivity|reflexivity|reflexivity|intros; fields; rewrite ?tset_other by auto; reflexivity| | | | | | | | | ]; fields; rewrite ?Hequ; cbn; auto; try discriminate.
  - eapply frame; [exact I|exact L'|reflexivity|reflexivity|reflexivity|reflexivity|reflexivity|intros; fields; rewrite ?tset_other by auto; reflexivity| | | | | | | | | ]; fields; rewrite ?Hequ, ?tset_same; cbn; auto; try discriminate.
    intros _. split; [auto|split; [left; auto|apply (S1 c); auto]].
  - (* the stop begins *)
    holds I L'. split; [exact L'|..]; intros u; fields.
    + apply (i_regs _ I).
    + sides u t; [easy|apply (i_reg _ I)].
    + easy.
    + intros X. destruct (i_chunk _ I u X) as (A & _ & C). split; auto. split; auto. left. right. rewrite Td'. apply (i_regs _ I). exact A.
    + sides u t; [easy|]. intros X. right. rewrite Td'. apply (i_regs _ I), (i_reg _ I), busy_registered, X.
    + sides u t; [easy|apply (i_points _ I)].
    + sides u t; [easy|apply (i_cur _ I)].
    + sides u t; [easy|apply (i_set _ I)].
  - eapply frame; [exact I|exact L'|reflexivity|fields; congruence|reflexivity|reflexivity|reflexivity|intros; fields; rewrite ?tset_other by auto; reflexivity| | | | | | | | | ]; fields; rewrite ?Hequ; cbn; auto; try discriminate.
  - (* the stop takes the lock of a thread *)
    holds I L'. split; [exact L'|..]; intros u; fields.
    + apply (i_regs _ I).
    + sides u t; [easy|apply (i_reg _ I)].
    + intros _. apply O1. reflexivity.
    + intros X. destruct (i_chunk _ I u X) as (A & [[B|B]|B] & C); split; auto; split; auto.
      * now left; left.
      * rewrite Td in B. destruct B as [->|B]; [right; exact Nl'|left; right; rewrite Td'; exact B].
      * congruence.
    + sides u t; [easy|]. intros X. destruct (i_busy _ I u X) as [B|B]; [now left|]. rewrite Td in B. destruct B as [->|B]; [|right; rewrite Td'; exact B].
      apply (busy_tpc u) in X. apply (lk_t _ (i_locks _ I)) in X. congruence.
    + sides u t; [easy|apply (i_points _ I)].
    + sides u t; [easy|apply (i_cur _ I)].
    + sides u t; [easy|apply (i_set _ I)].
  - (* and takes its chunk away *)
    assert (u_lock s u = Some t) as Lk by (apply (lk_t _ (i_locks _ I)); rewrite Hequ; cbn; apply Nat.eqb_refl).
    holds I L'. split; [exact L'|..]; intros v; fields.
    + apply (i_regs _ I).
    + sides v t; [easy|apply (i_reg _ I)].
    + intros _. apply O1. reflexivity.
    + destruct (Nat.eq_dec v u) as [->|N]; [rewrite tset_same; easy|rewrite tset_other by auto].
      intros X. destruct (i_chunk _ I v X) as (A & [[B|B]|B] & C); split; auto; split; auto.
      * now left; left.
      * left; right. congruence.
      * congruence.
    + sides v t; [easy|]. intros X. destruct (i_busy _ I v X) as [B|B]; [now left|right]. congruence.
    + sides v t; [easy|]. destruct (Nat.eq_dec v u) as [->|N']; [rewrite tset_same|rewrite tset_other by auto; apply (i_points _ I)].
      apply (points_unlocked u).
      * destruct (tpc u (u_pc s u) u) eqn:X; auto. apply (lk_t _ (i_locks _ I)) in X. congruence.
      * destruct (mpc (u_pc s u)) eqn:X; auto. apply Ho in X. congruence.
    + sides v t; [easy|apply (i_cur _ I)].
    + sides v t; [easy|apply (i_set _ I)].
  - (* a start ends *)
    holds I L'. split; [exact L'|..]; intros u; fields.
    + apply (i_regs _ I).
    + sides u t; [easy|apply (i_reg _ I)].
    + sides u t; [easy|]. intros X. apply off_mpc, Ho in X. congruence.
    + intros X. destruct (i_chunk _ I u X) as (A & _ & C). split; auto. split; auto. now left; left.
    + intros _. now left.
    + sides u t; [easy|apply (i_points _ I)].
    + sides u t; [easy|apply (i_cur _ I)].
    + sides u t; [easy|apply (i_set _ I)].
  - (* a thread is registered *)
    holds I L'. split; [exact L'|..]; intros u; fields.
    + sides u t; [split; auto; now left|]. rewrite <- (i_regs _ I). split; [intros [X|X]; congruence|now right].
    + sides u t; [easy|apply (i_reg _ I)].
    + sides u t; [easy|apply (i_off _ I)].
    + intros X. destruct (i_chunk _ I u X) as (A & [[B|B]|B] & C); split; try (sides u t; auto; fail); split; auto.
      * now left; left.
      * rewrite Td in B. easy.
      * congruence.
    + sides u t; [easy|]. intros X. destruct (i_busy _ I u X) as [B|B]; [now left|]. rewrite Td in B. easy.
    + sides u t; [easy|apply (i_points _ I)].
    + sides u t; [easy|apply (i_cur _ I)].
    + sides u t; [easy|apply (i_set _ I)].
  - (* a thread is deregistered *)
    holds I L'. split; [exact L'|..]; intros u; fields.
    + sides u t; [split; [intros X; now apply remove_In in X|easy]|]. rewrite <- (i_regs _ I). split; [intros X; now apply in_remove in X|intros X; now apply in_in_remove].
    + sides u t; [easy|apply (i_reg _ I)].
    + sides u t; [easy|apply (i_off _ I)].
    + intros X. assert (u <> t) as N by congruence. rewrite tset_other by auto. destruct (i_chunk _ I u X) as (A & [[B|B]|B] & C); split; auto; split; auto.
      * now left; left.
      * rewrite Td in B. easy.
      * congruence.
    + sides u t; [easy|]. intros X. destruct (i_busy _ I u X) as [B|B]; [now left|]. rewrite Td in B. easy.
    + sides u t; [easy|apply (i_points _ I)].
    + sides u t; [easy|apply (i_cur _ I)].
    + sides u t; [easy|apply (i_set _ I)].
  - eapply frame; [exact I|exact L'|reflexivity|reflexivity|reflexivity|reflexivity|reflexivity|intros; fields; rewrite ?tset_other by auto; reflexivity| | | | | | | | | ]; fields; rewrite ?Hequ; cbn; auto; try discriminate.
    intros ? _. rewrite (U1 b eq_refl). discriminate.
  - apply (swap s _ t SOn I); auto; fields; rewrite ?Hequ; auto.
  - apply (swap s _ t SOn I); auto; fields; rewrite ?Hequ; auto.
  - apply (swap s _ t SOn I); auto; fields; rewrite ?Hequ; auto.
  - apply (swap s _ t SOn I); auto; fields; rewrite ?Hequ; auto.
Qed.

Lemma inv_run sched : inv (user_run sched).
Proof. apply (run_inv ustep inv); [exact inv_step|apply inv_new]. Qed.

(** ** What the buffers saw *)

Definition mentions (e : seen_by_buffer) (b : nat) : Prop :=
  match e with BMade _ x | BTaken _ x | BDestroyed _ x | BLent _ x (Some _) => x = b | _ => False end.
Definition in_return (p : upc) : bool := match p with EReturning _ _ | DReturning _ _ => true | _ => false end.

Record hinv (s : ulog) : Prop := {
  h_of : forall b, u_cur s = Some b -> of_log (u_hist s) b;
  h_fresh : forall e b, In e (u_hist s) -> mentions e b -> b < u_made s;
  h_inside : forall u, inside (u_hist s) u = in_buffer (u_pc s u);
  h_back : forall u, in_return (u_pc s u) = true -> back_rev (rev (u_hist s)) u = true;
}.
Lemma hinv_new : hinv u_new.
Proof. split; cbn; try easy. Qed.

(** Events that do not make or end a buffer. *)
Definition minor (e : seen_by_buffer) : Prop := match e with BMade _ _ | BTaken _ _ | BDestroyed _ _ => False | _ => True end.
Lemma of_log_minor h e b : minor e -> of_log h b -> of_log (h ++ [e]) b.
Proof.
  intros M ((t & A) & B & C). split; [exists t; apply in_or_app; auto|].
  split; intros u X; apply in_app_or in X as [X|[->|[]]]; [eapply B, X|easy|eapply C, X|easy].
Qed.

(** A step that adds at most one such event and leaves the buffer. *)
Lemma hframe s s' t p e : hinv s -> u_pc s' = tset (u_pc s) t p -> u_cur s' = u_cur s -> u_made s' = u_made s ->
  u_hist s' = u_hist s ++ e ->
  (e = [] /\ in_buffer p = in_buffer (u_pc s t) /\ in_return p = in_return (u_pc s t) \/
   exists x, e = [x] /\ minor x /\ caller x = t /\
     match x with BAsk _ b | BBack _ b _ | BStats _ b => Some b | BLent _ _ _ | BDone _ _ | BThrew _ _ => None | _ => in_buffer (u_pc s t) end = in_buffer p /\
     (in_return p = true -> match x with BBack _ _ _ => True | _ => False end) /\
     (forall b, mentions x b -> b < u_made s)) ->
  hinv s'.
Proof.
  intros I Ep Ec Em Eh [(-> & B & R)|(x & -> & Mi & Ca & B & R & Mn)].
  - rewrite app_nil_r in Eh. split; rewrite ?Ec, ?Em, ?Eh, ?Ep; try apply I.
    + intros u. rewrite (h_inside _ I). sides u t; auto.
    + intros u. sides u t; [rewrite R|]; apply (h_back _ I).
  - split; rewrite ?Ec, ?Em, ?Eh, ?Ep.
    + intros b X. apply of_log_minor; auto. now apply (h_of _ I).
    + intros y b X. apply in_app_or in X as [X|[<-|[]]]; [eapply (h_fresh _ I); eauto|apply Mn].
    + intros u. rewrite inside_snoc, Ca. rewrite !(h_inside _ I). rewrite Nat.eqb_sym. sides u t; [rewrite Nat.eqb_refl|rewrite (proj2 (Nat.eqb_neq u t)) by auto; auto].
      rewrite <- B. destruct x; auto.
    + intros u. rewrite back_snoc, Ca. rewrite Nat.eqb_sym. sides u t; [rewrite Nat.eqb_refl|rewrite (proj2 (Nat.eqb_neq u t)) by auto; apply (h_back _ I)].
      intros X. specialize (R X). now destruct x.
Qed.

Lemma inside_major h e u : (forall x, In x e -> ~ minor x) -> inside (h ++ e) u = inside h u.
Proof.
  revert h. induction e as [|x e IH]; intros h M; [now rewrite app_nil_r|].
  replace (h ++ x :: e) with ((h ++ [x]) ++ e) by now rewrite <- app_assoc.
  rewrite IH by (intros y Y; apply M; now right). rewrite inside_snoc. specialize (M x (or_introl eq_refl)).
  destruct x; cbn in M; try tauto; destruct (Nat.eqb _ _); auto.
Qed.
Lemma lent_major h e u : (forall x, In x e -> ~ minor x) -> lent (h ++ e) u = lent h u.
Proof.
  revert h. induction e as [|x e IH]; intros h M; [now rewrite app_nil_r|].
  replace (h ++ x :: e) with ((h ++ [x]) ++ e) by now rewrite <- app_assoc.
  rewrite IH by (intros y Y; apply M; now right). rewrite lent_snoc. specialize (M x (or_introl eq_refl)).
  destruct x; cbn in M; try tauto; destruct (Nat.eqb _ _); auto.
Qed.
Lemma back_other h e u : (forall x, In x e -> caller x <> u) -> back_rev (rev (h ++ e)) u = back_rev (rev h) u.
Proof.
  revert h. induction e as [|x e IH]; intros h M; [now rewrite app_nil_r|].
  replace (h ++ x :: e) with ((h ++ [x]) ++ e) by now rewrite <- app_assoc.
  rewrite IH by (intros y Y; apply M; now right). rewrite back_snoc. specialize (M x (or_introl eq_refl)).
  now apply Nat.eqb_neq in M as ->.
Qed.

Lemma hswap s s' t p e : hinv s -> u_pc s' = tset (u_pc s) t p -> u_hist s' = u_hist s ++ e -> u_made s <= u_made s' ->
  (forall x, In x e -> ~ minor x /\ caller x = t /\ forall b, mentions x b -> b < u_made s') ->
  in_buffer (u_pc s t) = None -> in_buffer p = None -> in_return p = false ->
  (forall b, u_cur s' = Some b -> of_log (u_hist s') b) -> hinv s'.
Proof.
  intros H Ep Eh Em Ee B B' R C. split; auto; rewrite ?Eh, ?Ep.
  - intros x b X M. apply in_app_or in X as [X|X]; [|now apply (Ee x X)]. pose proof (h_fresh _ H x b X M). lia.
  - intros u. rewrite inside_major by (intros x X; now apply Ee). rewrite (h_inside _ H). sides u t; congruence.
  - intros u. sides u t; [congruence|]. rewrite back_other; [apply (h_back _ H)|]. intros x X. destruct (Ee x X) as (_ & -> & _). auto.
Qed.

Lemma hinv_step s a s' : inv s -> hinv s -> ustep s a = Some s' -> hinv s'.
Proof.
  intros I H E. open_step a E.
  all: try (eapply hframe; [exact H|reflexivity|reflexivity|reflexivity|reflexivity|];
    fields; match goal with P : u_pc _ ?t = _ |- _ => rewrite P end;
    first [left; split; [reflexivity|split; reflexivity] | right; eexists; split; [reflexivity|]; cbn; repeat split; try easy; fail]).
  all: assert (forall b, u_cur s = Some b -> b < u_made s) as Lt by
      (intros x X; destruct (h_of _ H x X) as ((y & Y) & _); eapply (h_fresh _ H); [exact Y|reflexivity]).
  2:{ eapply hframe; [exact H|reflexivity|reflexivity|reflexivity|reflexivity|]. fields. rewrite Hequ. right. eexists. split; [reflexivity|]. cbn. repeat split; try easy.
      intros x <-. apply Lt, (i_cur _ I t). rewrite Hequ. reflexivity. }
  all: eapply hswap; [exact H|reflexivity|reflexivity|fields; lia| |rewrite Hequ; reflexivity|reflexivity|reflexivity| ]; fields; try discriminate.
  all: try (intros x X; cbn in X; repeat (destruct X as [<-|X]; [split; [easy|split; [easy|cbn; intros y <-; try lia; try (apply Nat.lt_lt_succ_r); apply Lt; auto]]|]); easy).
  all: intros x [= <-]; (split; [exists t; apply in_or_app; right; now left|]); split; intros y X;
    (apply in_app_or in X as [X|X]; [pose proof (h_fresh _ H _ (u_made s) X eq_refl); lia|]); cbn in X;
    repeat (destruct X as [X|X]; [try discriminate; injection X as _ X; match goal with Q : u_cur _ = Some _ |- _ => specialize (Lt _ Q) end; lia|]); easy.
Qed.

(** A thread is on the list of a stop once. *)
Definition listed (p : upc) : list tid :=
  match p with SEvict _ l => l | SNull _ u l | SUnlock _ u l => u :: l | _ => [] end.
Record once (s : ulog) : Prop := { o_reg : NoDup (u_tenants s); o_list : forall u, NoDup (listed (u_pc s u)) }.
Lemma nodup_remove (t : tid) l : NoDup l -> NoDup (remove Nat.eq_dec t l).
Proof.
  induction 1 as [|x l N D IH]; cbn; [constructor|]. destruct (Nat.eq_dec t x); auto. constructor; auto.
  intros X. apply in_remove in X. tauto.
Qed.
Lemma once_new : once u_new.
Proof. split; [constructor|intros u; constructor]. Qed.
Lemma once_step s a s' : inv s -> once s -> ustep s a = Some s' -> once s'.
Proof.
  intros I [A B] E. open_step a E.
  all: match goal with P : u_pc _ ?t = _ |- _ => pose proof (B t) as B1; rewrite P in B1; cbn [listed] in B1 end.
  all: split; fields; [try assumption|try (intros v; sides v t; [cbn [listed]; try assumption; try constructor|apply B]; fail)].
  all: try (intros v; match goal with P : u_pc _ ?t = _ |- _ => sides v t end; [cbn [listed]; try assumption; try (constructor; fail)|apply B]; fail).
  - intros v. sides v t; [|apply B]. now inversion B1.
  - constructor; auto. rewrite (i_regs _ I). congruence.
  - now apply nodup_remove.
Qed.

(** ** Whose chunk is whose *)

(** The chunk was given back and the pointer is about to be cleared. *)
Definition given_back (p : upc) : bool :=
  match p with EReturning _ _ | ENull | DReturning _ _ | DNull => true | _ => false end.
Definition setting (p : upc) : option N := match p with ESet c => Some c | _ => None end.

Record ginv (s : ulog) : Prop := {
  g_chunk : forall u c, u_chunk s u = Some c -> given_back (u_pc s u) = false -> exists b, u_cur s = Some b /\ lent (u_hist s) u = Some (b, c);
  g_set : forall u c, setting (u_pc s u) = Some c -> exists b, u_cur s = Some b /\ lent (u_hist s) u = Some (b, c);
  g_back : forall u, given_back (u_pc s u) = true -> lent (u_hist s) u = None;
  g_evicted : forall u b c, lent (u_hist s) u = Some (b, c) -> u_cur s = Some b -> u_chunk s u = None -> setting (u_pc s u) = None -> ~ maybe_on s u;
  g_new : forall t u b c, u_pc s t = SOn -> lent (u_hist s) u = Some (b, c) -> u_cur s <> Some b;
}.
Lemma ginv_new : ginv u_new.
Proof. split; cbn; easy. Qed.

Lemma gframe s s' t p e : ginv s -> u_pc s' = tset (u_pc s) t p -> u_cur s' = u_cur s ->
  u_hist s' = u_hist s ++ e -> (forall u, u <> t -> u_chunk s' u = u_chunk s u) ->
  (forall u, maybe_on s' u -> maybe_on s u) -> p <> SOn ->
  (forall x, In x e -> caller x = t) ->
  (forall c, u_chunk s' t = Some c -> given_back p = false -> exists b, u_cur s = Some b /\ lent (u_hist s ++ e) t = Some (b, c)) ->
  (forall c, setting p = Some c -> exists b, u_cur s = Some b /\ lent (u_hist s ++ e) t = Some (b, c)) ->
  (given_back p = true -> lent (u_hist s ++ e) t = None) ->
  (forall b c, lent (u_hist s ++ e) t = Some (b, c) -> u_cur s = Some b -> u_chunk s' t = None -> setting p = None -> ~ maybe_on s t) ->
  (forall h b c, h <> t -> u_pc s h = SOn -> lent (u_hist s ++ e) t = Some (b, c) -> u_cur s <> Some b) -> ginv s'.
Proof.
  intros G Ep Ec Eh Ek Mo No Ca H1 H2 H3 H4 H5.
  assert (forall u, u <> t -> lent (u_hist s ++ e) u = lent (u_hist s) u) as Lo.
  { intros u N. clear - Ca N. revert Ca. generalize (u_hist s) as h. induction e as [|x e IH]; intros h Ca; [now rewrite app_nil_r|].
    replace (h ++ x :: e) with ((h ++ [x]) ++ e) by now rewrite <- app_assoc.
    rewrite IH by (intros y Y; apply Ca; now right). rewrite lent_snoc, (Ca x (or_introl eq_refl)).
    now rewrite (proj2 (Nat.eqb_neq t u)) by auto. }
  split; rewrite ?Ec, ?Eh, ?Ep.
  - intros u. sides u t; [auto|]. rewrite Ek, Lo by auto. apply (g_chunk _ G).
  - intros u. sides u t; [auto|]. rewrite Lo by auto. apply (g_set _ G).
  - intros u. sides u t; [auto|]. rewrite Lo by auto. apply (g_back _ G).
  - intros u b c A B C D M. apply Mo in M. revert A C D. sides u t; [intros; eapply H4; eauto|].
    rewrite Ek, Lo by auto. intros. eapply (g_evicted _ G); eauto.
  - intros h u b c. sides h t; [easy|]. intros A B. destruct (Nat.eq_dec u t) as [->|N']; [eapply H5; eauto|].
    rewrite Lo in B by auto. eapply (g_new _ G); eauto.
Qed.

Lemma maybe_frame s s' t p : locks s -> locks s' -> u_pc s' = tset (u_pc s) t p -> u_on s' = u_on s -> rest p = rest (u_pc s t) ->
  forall u, maybe_on s' u -> maybe_on s u.
Proof. intros L L' E O R u. unfold maybe_on. rewrite O, (todo_same s s' t p) by auto. auto. Qed.

Lemma gswap s s' t p e : inv s -> ginv s -> locks s' -> mpc (u_pc s t) = true -> rest (u_pc s t) = [] -> nul (u_pc s t) = None -> u_on s = false ->
  given_back (u_pc s t) = false -> mpc p = true -> rest p = [] -> u_pc s' = tset (u_pc s) t p -> u_on s' = false -> u_chunk s' = u_chunk s ->
  u_hist s' = u_hist s ++ e -> (forall x, In x e -> ~ minor x) -> given_back p = false -> setting p = None ->
  (p = SOn -> forall u b c, lent (u_hist s) u = Some (b, c) -> u_cur s' <> Some b) -> ginv s'.
Proof.
  intros I G L' Hm R U Of Gb Hp Rp Ep Eo Ek Eh Mi P1 P2 Nw. destruct (quiet s t I Hm R U Of) as (Q1 & Q2 & Q3).
  pose proof (holder s t (i_locks _ I) Hm) as Ho.
  assert (forall u, u <> t -> given_back (u_pc s u) = false) as Gu.
  { intros u N. specialize (Q2 u). destruct (u_pc s u) eqn:X; try easy; destruct N; apply Ho; rewrite X; reflexivity. }
  assert (todo s' = []) as Td by (destruct (todo_is s' t L') as (-> & _); rewrite Ep, tset_same; auto).
  split; rewrite ?Ek, ?Eh, ?Ep; try (intros u; rewrite lent_major by exact Mi).
  - intros c. rewrite Q1. discriminate.
  - intros c. sides u t; [congruence|]. specialize (Q2 u). destruct (u_pc s u); easy.
  - sides u t; [congruence|]. rewrite Gu by auto. discriminate.
  - intros b c _ _ _ _ [X|X]; [congruence|]. now rewrite Td in X.
  - intros h u b c. rewrite lent_major by exact Mi. sides h t; [intros ->; eauto|]. intros X. destruct N. apply Ho. now rewrite X.
Qed.
Lemma lent_in h u b c : lent h u = Some (b, c) -> In (BLent u b (Some c)) h.
Proof.
  induction h as [|e h IH] using rev_ind; [easy|]. rewrite lent_snoc. destruct (Nat.eqb (caller e) u) eqn:X.
  - apply Nat.eqb_eq in X. subst u. intros Y. apply in_or_app. destruct e; cbn in Y |- *; auto; try discriminate.
    destruct c0; auto. injection Y as -> ->. auto.
  - intros Y. apply in_or_app. auto.
Qed.

Lemma ginv_step s a s' : inv s -> hinv s -> once s -> ginv s -> ~ back_threw (u_hist s') -> ustep s a = Some s' -> ginv s'.
Proof.
  intros I H O G NT E. pose proof (locks_step s a s' (i_locks _ I) E) as L'.
  open_step a E.
  all: match goal with P : u_pc _ ?t = _ |- _ =>
      pose proof (g_chunk _ G t) as K1; pose proof (g_set _ G t) as S1; pose proof (g_back _ G t) as B1; pose proof (g_evicted _ G t) as V1; pose proof (fun h => g_new _ G h t) as W1;
      pose proof (i_points _ I t) as P1;
      rewrite P in K1, S1, B1, V1, P1; cbn [given_back setting points] in K1, S1, B1, V1, P1 end.
  all: try (eapply gframe; [exact G|reflexivity|reflexivity|reflexivity|intros; fields; rewrite ?tset_other by auto; reflexivity
    | eapply maybe_frame; [apply (i_locks _ I)|exact L'|reflexivity|reflexivity|];
      match goal with P : u_pc _ ?t = _ |- _ => rewrite ?P end; cbn; auto; fail
    | discriminate | intros x X; cbn in X; repeat (destruct X as [<-|X]; [reflexivity|]); easy | | | | | ]; fields;
    rewrite ?tset_same, ?app_nil_r, ?lent_snoc, ?Nat.eqb_refl; cbn [caller given_back setting]; rewrite ?Nat.eqb_refl; try discriminate; eauto; try (intros; congruence); fail).
  all: try (exfalso; apply NT; fields; eexists _, _, _, []; split; [reflexivity|]; apply (h_back _ H); match goal with P : u_pc _ ?t = _ |- _ => rewrite P end; reflexivity).
  - apply (gswap s _ t (Held k) [BTaken t n] I G L'); auto; fields; rewrite ?Hequ; auto; try easy. intros x [<-|[]]; easy.
  - specialize (B1 eq_refl). eapply gframe; [exact G|reflexivity|reflexivity|reflexivity|intros; fields; rewrite ?tset_other by auto; reflexivity
    | eapply maybe_frame; [apply (i_locks _ I)|exact L'|reflexivity|reflexivity|rewrite Hequ; reflexivity] |discriminate|easy| | | | | ]; fields;
    rewrite ?tset_same, ?app_nil_r; try discriminate; intros; congruence.
  - eapply gframe; [exact G|reflexivity|reflexivity|reflexivity|reflexivity|intros u _; now left|discriminate|easy| | | | | ]; fields; rewrite ?app_nil_r; try discriminate; eauto.
  - eapply gframe; [exact G|reflexivity|reflexivity|reflexivity|reflexivity
    | eapply maybe_frame; [apply (i_locks _ I)|exact L'|reflexivity|fields; congruence|rewrite Hequ; reflexivity] |discriminate|easy| | | | | ]; fields; rewrite ?app_nil_r; try discriminate; eauto.
  - holds I L'. eapply gframe; [exact G|reflexivity|reflexivity|reflexivity|reflexivity| |discriminate|easy| | | | | ]; fields; rewrite ?app_nil_r; try discriminate; eauto.
    intros u [X|X]; [now left|right]. rewrite Td. right. congruence.
  - holds I L'. assert (u_on s = false) as Off by (apply (i_off _ I t); rewrite Hequ; reflexivity).
    pose proof (o_list _ O t) as Nd. rewrite Hequ in Nd. cbn [listed] in Nd. apply NoDup_cons_iff in Nd as (Nu & _).
    assert (forall v, maybe_on (at_pc (set_chunk s u None) t (SUnlock k u l) []) v -> maybe_on s v /\ v <> u) as Mo.
    { intros v [X|X]; [fields_in X; congruence|]. rewrite Td' in X. split; [right; congruence|intros ->; auto]. }
    split; fields; rewrite ?app_nil_r.
    + intros v c. destruct (Nat.eq_dec v u) as [->|Nv]; [rewrite tset_same; easy|rewrite (tset_other (u_chunk s)) by auto]. sides v t; auto. apply (g_chunk _ G).
    + intros v c. sides v t; [easy|apply (g_set _ G)].
    + intros v. sides v t; [easy|apply (g_back _ G)].
    + intros v b c A B C D M. apply Mo in M as (M & Nv). rewrite tset_other in C by auto. revert D. sides v t; intros D; [eapply V1; eauto|eapply (g_evicted _ G); eauto].
    + intros h v b c. sides h t; [easy|]. apply (g_new _ G).
  - split; fields; rewrite ?app_nil_r.
    + intros v c. sides v t; [auto|apply (g_chunk _ G)].
    + intros v c. sides v t; [easy|apply (g_set _ G)].
    + intros v. sides v t; [easy|apply (g_back _ G)].
    + intros v b c A B. destruct (g_new _ G t v b c Hequ A B).
    + intros h v b c. sides h t; [easy|]. apply (g_new _ G).
  - exfalso. destruct (i_chunk _ I t) as (_ & _ & X); congruence.
  - specialize (B1 eq_refl). eapply gframe; [exact G|reflexivity|reflexivity|reflexivity|intros; fields; rewrite ?tset_other by auto; reflexivity
    | eapply maybe_frame; [apply (i_locks _ I)|exact L'|reflexivity|reflexivity|rewrite Hequ; reflexivity] |discriminate|easy| | | | | ]; fields;
    rewrite ?tset_same, ?app_nil_r; try discriminate; intros; congruence.
  - pose proof (i_cur _ I t b) as Cu. rewrite Hequ in Cu. specialize (Cu eq_refl).
    eapply gframe; [exact G|reflexivity|reflexivity|reflexivity|reflexivity
    | eapply maybe_frame; [apply (i_locks _ I)|exact L'|reflexivity|reflexivity|rewrite Hequ; reflexivity] |discriminate|intros x [<-|[]]; reflexivity| | | | | ]; fields;
    rewrite ?lent_snoc; cbn [caller given_back setting]; rewrite ?Nat.eqb_refl; try discriminate.
    + intros. congruence.
    + intros c1 [= <-]. eauto.
    + intros h b' c1 Nh Ph. exfalso. destruct (quiet s h I) as (_ & Q & _); try (rewrite Ph; reflexivity).
      * apply (i_off _ I h). rewrite Ph. reflexivity.
      * specialize (Q t). rewrite Hequ in Q. discriminate.
  - assert (u_on s = false) as Off by (apply (i_off _ I t); rewrite Hequ; reflexivity).
    apply (gswap s _ t SOn [BMade t (u_made s); BDestroyed t n] I G L'); auto; fields; rewrite ?Hequ; auto; [intros x [<-|[<-|[]]]; easy|].
    intros _ u b c X [= <-]. apply lent_in in X. pose proof (h_fresh _ H _ (u_made s) X eq_refl). lia.
  - assert (u_on s = false) as Off by (apply (i_off _ I t); rewrite Hequ; reflexivity).
    apply (gswap s _ t SOn [BMade t (u_made s)] I G L'); auto; fields; rewrite ?Hequ; auto; [intros x [<-|[]]; easy|].
    intros _ u b c X [= <-]. apply lent_in in X. pose proof (h_fresh _ H _ (u_made s) X eq_refl). lia.
  - assert (u_on s = false) as Off by (apply (i_off _ I t); rewrite Hequ; reflexivity).
    apply (gswap s _ t SOn [BDestroyed t n] I G L'); auto; fields; rewrite ?Hequ; auto; [intros x [<-|[]]; easy|discriminate].
  - assert (u_on s = false) as Off by (apply (i_off _ I t); rewrite Hequ; reflexivity).
    apply (gswap s _ t SOn [] I G L'); auto; fields; rewrite ?Hequ; auto; discriminate.
Qed.

(** ** Each event, and what came before it *)

Definition each (P : list seen_by_buffer -> seen_by_buffer -> Prop) (h : list seen_by_buffer) : Prop :=
  forall x e y, h = x ++ e :: y -> P x e.
Lemma each_nil P : each P [].
Proof. intros x e y X. now destruct x. Qed.
Lemma each_snoc P h e : each P h -> P h e -> each P (h ++ [e]).
Proof.
  intros A B x e' y X. destruct y as [|z y] using rev_ind.
  - apply app_inj_tail in X as (<- & <-). exact B.
  - clear IHy. rewrite app_comm_cons, app_assoc in X. apply app_inj_tail in X as (X & _). eapply A, X.
Qed.
Lemma back_threw_snoc h e : ~ back_threw (h ++ e) -> ~ back_threw h.
Proof. intros N X. now apply N, back_threw_app. Qed.

Definition proper (x : list seen_by_buffer) (e : seen_by_buffer) : Prop :=
  match e with
  | BMade t b => forall e', In e' x -> ~ mentions e' b
  | BTaken t b | BDestroyed t b => of_log x b /\ forall u, inside x u <> Some b
  | BAsk t b => of_log x b /\ inside x t = None /\ (~ back_threw x -> forall c, lent x t <> Some (b, c))
  | BBack t b c => of_log x b /\ inside x t = None /\ (~ back_threw x -> lent x t = Some (b, c))
  | BStats t b => of_log x b /\ inside x t = None
  | BLent t b _ | BDone t b | BThrew t b => of_log x b /\ inside x t = Some b
  | BStored t c => inside x t = None /\ (~ back_threw x -> exists b, of_log x b /\ lent x t = Some (b, c))
  end.

Record all_inv (s : ulog) : Prop := {
  a_inv : inv s; a_hinv : hinv s; a_once : once s; a_ginv : ~ back_threw (u_hist s) -> ginv s; a_each : each proper (u_hist s) }.

Lemma of_log_made h t b b' : of_log h b -> of_log (h ++ [BMade t b']) b.
Proof.
  intros ((u & A) & B & C). split; [exists u; apply in_or_app; auto|].
  split; intros v X; apply in_app_or in X as [X|[X|[]]]; try discriminate; [eapply B, X|eapply C, X].
Qed.

Lemma nobody_inside s t b : inv s -> hinv s -> u_cur s = Some b -> mpc (u_pc s t) = true -> rest (u_pc s t) = [] -> nul (u_pc s t) = None ->
  u_on s = false -> in_buffer (u_pc s t) = None -> of_log (u_hist s) b /\ forall u, inside (u_hist s) u <> Some b.
Proof.
  intros I H C A B D O E. split; [now apply (h_of _ H)|]. intros u. rewrite (h_inside _ H). destruct (quiet s t I A B D O) as (_ & _ & Q).
  destruct (Nat.eq_dec u t) as [->|N]; [|rewrite Q by auto]; congruence.
Qed.

Lemma proper_step s a s' : inv s -> hinv s -> (~ back_threw (u_hist s) -> ginv s) -> each proper (u_hist s) ->
  ustep s a = Some s' -> each proper (u_hist s').
Proof.
  intros I H G P E. open_step a E.
  all: fields; rewrite ?app_nil_r; try exact P.
  all: match goal with Q : u_pc _ ?t = _ |- _ => pose proof (h_inside _ H t) as N1; pose proof (i_points _ I t) as P1; pose proof (i_cur _ I t) as U1;
         rewrite Q in N1, P1, U1; cbn [in_buffer points] in N1, P1, U1 end.
  all: try (apply each_snoc; [exact P|]; cbn [proper]; split; auto using (h_of _ H); fail).
  - (* BTaken *)
    apply each_snoc; [exact P|]. apply (nobody_inside s t n I H); rewrite ?Hequ; auto.
  - apply each_snoc; [exact P|]. split; [now apply (h_of _ H)|]. split; [exact N1|]. intros NT.
    destruct (g_chunk _ (G NT) t c P1) as (b & A & B); [rewrite Hequ; reflexivity|]. congruence.
  - apply each_snoc; [exact P|]. split; [now apply (h_of _ H)|]. split; [exact N1|]. intros NT c X.
    eapply (g_evicted _ (G NT) t); eauto; [rewrite Hequ; reflexivity|]. apply (i_busy _ I). rewrite Hequ. reflexivity.
  - apply each_snoc; [exact P|]. split; [exact N1|]. intros NT.
    destruct (g_chunk _ (G NT) t c P1) as (b & A & B); [rewrite Hequ; reflexivity|]. exists b. split; auto. now apply (h_of _ H).
  - apply each_snoc; [exact P|]. split; [now apply (h_of _ H)|]. split; [exact N1|]. intros NT.
    destruct (g_chunk _ (G NT) t n) as (b & A & B); [assumption|rewrite Hequ; reflexivity|]. congruence.
  - assert (proper (u_hist s) (BMade t (u_made s))) as X.
    { intros e X Y. pose proof (h_fresh _ H e (u_made s) X Y). lia. }
    change [BMade t (u_made s); BDestroyed t n] with ([BMade t (u_made s)] ++ [BDestroyed t n]). rewrite app_assoc.
    apply each_snoc; [apply each_snoc; auto|]. destruct (nobody_inside s t n I H) as (A & B); rewrite ?Hequ; auto.
    { apply (i_off _ I t). now rewrite Hequ. }
    split; [now apply of_log_made|]. intros u. rewrite inside_snoc. cbn [caller]. destruct (Nat.eqb t u); apply B.
  - apply each_snoc; [exact P|]. intros e X Y. pose proof (h_fresh _ H e (u_made s) X Y). lia.
  - apply each_snoc; [exact P|]. apply (nobody_inside s t n I H); rewrite ?Hequ; auto. apply (i_off _ I t). now rewrite Hequ.
Qed.

Lemma all_new : all_inv u_new.
Proof. split; auto using inv_new, hinv_new, once_new, ginv_new, each_nil. Qed.
Lemma grows s a s' : ustep s a = Some s' -> exists e, u_hist s' = u_hist s ++ e.
Proof. intros E. open_step a E; fields; eauto. Qed.
Lemma all_step s a s' : all_inv s -> ustep s a = Some s' -> all_inv s'.
Proof.
  intros [I H O G P] E. split; eauto using inv_step, hinv_step, once_step, proper_step.
  intros NT. assert (~ back_threw (u_hist s)) as N. { destruct (grows s a s' E) as (e & X). rewrite X in NT. now apply back_threw_snoc in NT. }
  eapply ginv_step; eauto.
Qed.
Theorem all_run sched : all_inv (user_run sched).
Proof. apply (run_inv ustep all_inv); [exact all_step|apply all_new]. Qed.

(** ** Honest buffers *)

Lemma honest_lent h : honest h -> forall u v b c, lent h u = Some (b, c) -> lent h v = Some (b, c) -> u = v.
Proof.
  induction h as [|e h IH] using rev_ind; intros Ho u v b c; [easy|].
  assert (honest h) as Hh. { intros x t b' c' y X. apply (Ho x t b' c' (y ++ [e])). rewrite X, <- app_assoc. reflexivity. }
  specialize (IH Hh). rewrite !lent_snoc.
  destruct e; try (repeat destruct (Nat.eqb _ _); try discriminate; apply IH); cbn [caller].
  destruct c0 as [c0|]; [|destruct (Nat.eqb t u), (Nat.eqb t v); apply IH].
  pose proof (Ho h t b0 c0 [] eq_refl) as Fr.
  destruct (Nat.eqb_spec t u), (Nat.eqb_spec t v); subst; auto; intros A B.
  - exfalso. injection A as <- <-. eapply Fr, B.
  - exfalso. injection B as <- <-. eapply Fr, A.
  - eapply IH; eauto.
Qed.

(** ** Nobody waits for ever *)

Definition able (s : ulog) (t : tid) : Prop :=
  (exists s', ustep s (Go t) = Some s') \/ (exists a s', ustep s (Answer t a) = Some s') \/ exists k, u_pc s t = Held k.

Lemma able_logging s t u : inv s -> tpc t (u_pc s t) u = true -> able s t.
Proof.
  intros I H. unfold able. cbn [ustep]. destruct (u_pc s t) eqn:P; try discriminate; try (left; eexists; reflexivity);
    try (right; left; exists (Full true); eexists; reflexivity); try (right; left; exists Done; eexists; reflexivity);
    try (right; left; exists (Lends None); eexists; reflexivity).
  - left. pose proof (i_points _ I t) as Q. rewrite P in Q. cbn in Q. destruct (u_cur s) eqn:C; [eexists; reflexivity|].
    exfalso. destruct (i_chunk _ I t) as (_ & _ & X); congruence.
Qed.
Lemma able_holder s t : inv s -> mpc (u_pc s t) = true -> exists v, able s v.
Proof.
  intros I H. destruct (u_pc s t) eqn:P; try discriminate;
    try (exists t; unfold able; cbn [ustep]; rewrite P; first [right; right; eexists; reflexivity | left; eexists; reflexivity | right; left; exists Done; eexists; reflexivity
         | right; left; exists Throws; eexists; reflexivity]; fail).
  - destruct l as [|u l]; [exists t; left; cbn [ustep]; rewrite P; eexists; reflexivity|].
    destruct (u_lock s u) as [w|] eqn:W; [|exists t; left; cbn [ustep]; rewrite P, W; eexists; reflexivity].
    exists w. apply (lk_t _ (i_locks _ I)) in W. now apply (able_logging s w u).
  - exists t. left. cbn [ustep]. rewrite P. destruct (u_init s t); eexists; reflexivity.
Qed.
Lemma progress s t : inv s -> u_pc s t <> UIdle -> exists v, able s v.
Proof.
  intros I H. destruct (mpc (u_pc s t)) eqn:M; [now apply (able_holder s t)|].
  destruct (tpc t (u_pc s t) t) eqn:T; [exists t; now apply (able_logging s t t)|].
  assert (forall h, u_mutex s = Some h -> exists v, able s v) as Q.
  { intros h X. apply (lk_m _ (i_locks _ I)) in X. now apply (able_holder s h). }
  destruct (u_pc s t) eqn:P; try congruence; try discriminate; cbn in T; rewrite ?Nat.eqb_refl in T; try discriminate.
  - exists t. left. cbn [ustep]. rewrite P. eexists; reflexivity.
  - exists t. left. cbn [ustep]. rewrite P. destruct (u_lock s t); eexists; reflexivity.
  - exists t. left. cbn [ustep]. rewrite P. destruct (u_mutex s); eexists; reflexivity.
  - destruct (u_mutex s) eqn:X; [eauto|]. exists t. left. cbn [ustep]. rewrite P, X. eexists; reflexivity.
  - destruct (u_mutex s) eqn:X; [eauto|]. exists t. left. cbn [ustep]. rewrite P, X. eexists; reflexivity.
  - destruct (u_mutex s) eqn:X; [eauto|]. exists t. left. cbn [ustep]. rewrite P, X. eexists; reflexivity.
Qed.
Lemma idle_free s t : inv s -> u_pc s t = UIdle -> u_mutex s <> Some t /\ forall u, u_lock s u <> Some t.
Proof.
  intros I P. split; [|intros u]; intros X; [apply (lk_m _ (i_locks _ I)) in X|apply (lk_t _ (i_locks _ I)) in X]; rewrite P in X; discriminate.
Qed.

(** ** Calls end *)

Definition goes (a : uact) : Prop := match a with Go _ | Answer _ _ => True | _ => False end.
(** Steps that a thread may still make, if at most [n] threads are registered. *)
Definition weight (n : nat) (p : upc) : nat :=
  match p with
  | UIdle | Held _ => 0
  | AStats _ _ | HUnlock | SOn | EUnlock | HWait => 1
  | SMaking | EStore _ | RDo | DErase => 2
  | ESet _ | RWait | DNull => 3
  | DReturning _ _ => 4 | DPtr => 5 | DDo => 6 | DWait => 7
  | SEvict _ l => 1 + 3 * length l | SNull _ _ l => 3 + 3 * length l | SUnlock _ _ l => 2 + 3 * length l
  | SExchange _ => 2 + 3 * n | SEnabled | MGen _ => 3 + 3 * n | MTry _ => 4 + 3 * n | EDrop _ => 5 + 3 * n | EGen => 6 + 3 * n
  | EGetting _ => 7 + 3 * n | EBuf => 8 + 3 * n | EThird => 9 + 3 * n | ENull => 10 + 3 * n | EReturning _ _ => 11 + 3 * n
  | EOld _ => 12 + 3 * n | EAgain _ => 13 + 3 * n | EFull _ => 14 + 3 * n | EPtr => 15 + 3 * n | EInit => 16 + 3 * n
  | ETry => 17 + 3 * n | ECheck => 18 + 3 * n
  end.
Definition registering (p : upc) : nat := match p with RWait | RDo => 1 | _ => 0 end.
Fixpoint total (f : tid -> nat) (l : list tid) : nat := match l with [] => 0 | t :: r => f t + total f r end.
Definition most (l : list tid) (s : ulog) : nat := length (u_tenants s) + total (fun u => registering (u_pc s u)) l.
Definition left_over (l : list tid) (s : ulog) : nat := total (fun u => weight (most l s) (u_pc s u)) l.

Lemma total_le f g l : (forall u, f u <= g u) -> total f l <= total g l.
Proof. intros H. induction l as [|t l IH]; cbn; auto. specialize (H t). lia. Qed.
Lemma total_lt f g l t : (forall u, f u <= g u) -> f t < g t -> In t l -> total f l < total g l.
Proof.
  intros H L. induction l as [|u l IH]; [easy|]. intros [->|X]; cbn.
  - pose proof (total_le f g l H). lia.
  - specialize (IH X). specialize (H u). lia.
Qed.
Lemma weight_mono n n' p : n' <= n -> weight n' p <= weight n p.
Proof. intros H. destruct p; cbn; lia. Qed.
Lemma remove_shorter (t : tid) l : length (remove Nat.eq_dec t l) <= length l.
Proof. induction l as [|u l IH]; cbn; auto. destruct (Nat.eq_dec t u); cbn; lia. Qed.

Lemma less_left l s s' t p : In t l -> u_pc s' = tset (u_pc s) t p ->
  length (u_tenants s') + registering p <= length (u_tenants s) + registering (u_pc s t) -> registering p <= registering (u_pc s t) ->
  (forall n n', n' <= n -> length (u_tenants s) <= n -> weight n' p < weight n (u_pc s t)) -> left_over l s' < left_over l s.
Proof.
  intros X E T R W. assert (most l s' <= most l s) as M.
  { unfold most. rewrite E. assert (forall u, registering (tset (u_pc s) t p u) <= registering (u_pc s u)) as Q by (intros u; sides u t; auto).
    destruct (Nat.eq_dec (registering p) (registering (u_pc s t))) as [Y|Y].
    - pose proof (total_le _ _ l Q). lia.
    - assert (registering (tset (u_pc s) t p t) < registering (u_pc s t)) as Z by (rewrite tset_same; lia).
      pose proof (total_lt (fun u => registering (tset (u_pc s) t p u)) (fun u => registering (u_pc s u)) l t Q Z X).
      assert (registering (u_pc s t) <= 1) by (destruct (u_pc s t); cbn; lia). lia. }
  unfold left_over. rewrite E. apply total_lt with (t := t); auto.
  - intros u. sides u t; [|now apply weight_mono]. apply Nat.lt_le_incl, W; [exact M|unfold most; lia].
  - rewrite tset_same. apply W; [exact M|unfold most; lia].
Qed.

Definition within (l : list tid) (s : ulog) : Prop := forall t, u_pc s t <> UIdle -> In t l.
Lemma within_go l s a s' : within l s -> goes a -> ustep s a = Some s' -> within l s' /\ left_over l s' < left_over l s.
Proof.
  intros W G E. destruct a; try easy; cbn [ustep] in E; cbv zeta in E; split_case E.
  all: match goal with P : u_pc _ ?t = _ |- _ => assert (In t l) as X by (apply W; rewrite P; discriminate) end.
  all: (split; [intros v; fields; match goal with P : u_pc _ ?t = _ |- _ => sides v t end; auto|]).
  all: eapply less_left; [exact X|reflexivity| | |]; fields; match goal with P : u_pc _ ?t = _ |- _ => rewrite ?P end; cbn;
    try match goal with |- context [remove ?d ?t ?r] => pose proof (remove_shorter t r) end; intros; try lia.
  rewrite !Nat.add_0_r. assumption.
Qed.
Lemma calls_end l s acts s' : within l s -> Forall goes acts -> do_all s acts = Some s' -> length acts <= left_over l s.
Proof.
  revert s. induction acts as [|a acts IH]; intros s W F E; cbn in *; [lia|].
  destruct (ustep s a) as [s1|] eqn:E1; [|discriminate]. apply Forall_cons_iff in F as (G & F).
  destruct (within_go l s a s1 W G E1) as (W1 & L). specialize (IH s1 W1 F E). lia.
Qed.
Lemma some_within sched : exists l, within l (user_run sched).
Proof.
  assert (forall s, (exists l, within l s) -> exists l, within l (run ustep s sched)) as H; [|apply H; exists []; intros t X; now destruct X].
  induction sched as [|a r IH]; intros s (l & W); cbn [run]; [eauto|]. unfold move. destruct (ustep s a) as [s'|] eqn:E; [|eauto].
  apply IH. assert (exists t p, u_pc s' = tset (u_pc s) t p) as (t & p & Ep).
  { clear - E. open_step a E; fields; eauto. }
  exists (t :: l). intros u. rewrite Ep. sides u t; [now left|]. intros X. right. auto.
Qed.
