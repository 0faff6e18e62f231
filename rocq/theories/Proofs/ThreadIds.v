(** Ids of threads. *)
From Verif Require Import Base Spec.ThreadIds Model.Interleave Model.ThreadIds Proofs.Interleave.
Local Open Scope N_scope.

Lemma memory_snoc x e h : memory (x ++ [e]) h =
  match e with
  | AskedId g v => if Nat.eqb g h then Some v else memory x h
  | Forked k g _ _ => if Nat.eqb k h then memory x g else memory x h
  | _ => memory x h
  end.
Proof. unfold memory. rewrite rev_app_distr. reflexivity. Qed.
Lemma last_id_snoc x e h : last_id (x ++ [e]) h =
  match e with AskedId g v => if Nat.eqb g h then Some v else last_id x h | _ => last_id x h end.
Proof. unfold last_id. rewrite rev_app_distr. reflexivity. Qed.

Definition who (e : id_event) : nat :=
  match e with Started h _ _ | Spawned h _ _ _ | Forked h _ _ _ | Ended h | AskedId h _ | AskedPid h _ => h end.

Definition answers (x : list id_event) (e : id_event) : Prop :=
  match e with
  | AskedId h v => exists p t, lives x h p t /\ v = match memory x h with Some w => w | None => t end /\
                     (~ is_forked x h -> v = t) /\ (forall w, last_id x h = Some w -> v = w) /\ v <> 0
  | AskedPid h v => exists t, lives x h v t
  | Ended _ => True
  | Started h _ _ | Spawned h _ _ _ | Forked h _ _ _ => forall e', In e' x -> who e' <> h
  end.
Definition each (P : list id_event -> id_event -> Prop) (h : list id_event) : Prop := forall x e y, h = x ++ e :: y -> P x e.
Lemma each_snoc P h e : each P h -> P h e -> each P (h ++ [e]).
Proof.
  intros A B x e' y X. destruct y as [|z y] using rev_ind.
  - apply app_inj_tail in X as (<- & <-). exact B.
  - clear IHy. rewrite app_comm_cons, app_assoc in X. apply app_inj_tail in X as (X & _). eapply A, X.
Qed.

Record os_inv (s : system) : Prop := {
  v_lives : forall h p t, lives (sy_hist s) h p t <-> exists c, In {| th_name := h; th_pid := p; th_tid := t; th_cache := c |} (sy_threads s);
  v_cache : forall x, In x (sy_threads s) -> th_cache x = match memory (sy_hist s) (th_name x) with Some w => w | None => 0 end;
  v_pos : forall x, In x (sy_threads s) -> th_tid x <> 0;
  v_mem : forall h, memory (sy_hist s) h <> Some 0;
  v_names : forall e, In e (sy_hist s) -> (who e < sy_names s)%nat;
  v_one : forall x y, In x (sy_threads s) -> In y (sy_threads s) -> th_name x = th_name y -> x = y;
  v_tids : forall x y, In x (sy_threads s) -> In y (sy_threads s) -> th_tid x = th_tid y -> x = y;
  v_own : forall x, In x (sy_threads s) -> ~ is_forked (sy_hist s) (th_name x) -> memory (sy_hist s) (th_name x) = None \/ memory (sy_hist s) (th_name x) = Some (th_tid x);
  v_last : forall h w, last_id (sy_hist s) h = Some w -> memory (sy_hist s) h = Some w;
  v_each : each answers (sy_hist s);
}.

Lemma found s h x : find_thread s h = Some x -> In x (sy_threads s) /\ th_name x = h.
Proof. intros H. apply find_some in H as (A & B). apply Nat.eqb_eq in B. auto. Qed.
Lemma unused_spec s t : unused s t = true -> t <> 0 /\ forall x, In x (sy_threads s) -> th_tid x <> t.
Proof.
  unfold unused. intros H. apply andb_true_iff in H as (A & B). apply negb_true_iff, N.eqb_neq in A. split; auto.
  intros x X. rewrite forallb_forall in B. specialize (B x X). apply andb_true_iff in B as (B & _). now apply negb_true_iff, N.eqb_neq in B.
Qed.
Lemma in_lives s x : os_inv s -> In x (sy_threads s) -> lives (sy_hist s) (th_name x) (th_pid x) (th_tid x).
Proof. intros I X. apply (v_lives _ I). exists (th_cache x). now destruct x. Qed.
Lemma lives_name s h p t : os_inv s -> lives (sy_hist s) h p t -> (h < sy_names s)%nat.
Proof. intros I ((e & A & B) & _). specialize (v_names _ I e A). destruct e; cbn in *; congruence. Qed.

Lemma lives_snoc x e h p t : began e = None -> (e <> Ended h) -> lives (x ++ [e]) h p t <-> lives x h p t.
Proof.
  intros B N. split; intros ((e' & A & C) & D); (split; [exists e'; split; auto|]).
  - apply in_app_or in A as [A|[->|[]]]; congruence.
  - intros X. apply D, in_or_app. auto.
  - apply in_or_app. auto.
  - intros X. apply in_app_or in X as [X|[X|[]]]; [auto|congruence].
Qed.
Lemma lives_new x e h p t : began e = Some (h, p, t) -> (forall e', In e' x -> who e' <> h) ->
  forall h' p' t', lives (x ++ [e]) h' p' t' <-> (h', p', t') = (h, p, t) \/ lives x h' p' t'.
Proof.
  intros B N h' p' t'. split.
  - intros ((e' & A & C) & D). apply in_app_or in A as [A|[->|[]]]; [|left; congruence].
    right. split; [exists e'; auto|]. intros X. apply D, in_or_app. auto.
  - intros [[= -> -> ->]|((e' & A & C) & D)].
    + split; [exists e; split; auto; apply in_or_app; right; now left|]. intros X. apply in_app_or in X as [X|[->|[]]]; [|discriminate].
      now apply (N _ X).
    + split; [exists e'; split; auto; apply in_or_app; auto|]. intros X. apply in_app_or in X as [X|[->|[]]]; auto. discriminate.
Qed.

Lemma os_inv_new t : t <> 0 -> os_inv (first_program t).
Proof.
  intros T. split; cbn.
  - intros h p u. split.
    + intros ((e & [<-|[]] & [= <- <- <-]) & _). eexists. now left.
    + intros (c & [[= <- <- <- <-]|[]]). split; [eexists; split; [now left|reflexivity]|]. intros [X|[]]; discriminate.
  - intros x [<-|[]]. reflexivity.
  - intros x [<-|[]]. exact T.
  - easy.
  - intros e [<-|[]]. cbn. lia.
  - intros x y [<-|[]] [<-|[]]. auto.
  - intros x y [<-|[]] [<-|[]]. auto.
  - intros x [<-|[]] _. now left.
  - easy.
  - intros x e y E. destruct x as [|? [|? ?]]; try discriminate. injection E as <- <-. now intros e' X.
Qed.

Lemma memory_none s h : os_inv s -> (sy_names s <= h)%nat -> memory (sy_hist s) h = None.
Proof.
  intros I H. assert (forall e, In e (sy_hist s) -> who e <> h) as N by (intros e X; specialize (v_names _ I e X); lia).
  clear - N. unfold memory. assert (forall e, In e (rev (sy_hist s)) -> who e <> h) as N' by (intros e X; apply N, in_rev, X). clear N.
  induction (rev (sy_hist s)) as [|e r IH]; auto. pose proof (N' e (or_introl eq_refl)) as E.
  assert (memory_rev r h = None) as R by (apply IH; intros e' X; apply N'; now right).
  destruct e; cbn in *; auto; apply Nat.eqb_neq in E; now rewrite E.
Qed.

(** A thread is added. *)
Lemma grow s e h p t c : os_inv s -> h = sy_names s -> began e = Some (h, p, t) -> who e = h -> t <> 0 -> (forall x, In x (sy_threads s) -> th_tid x <> t) ->
  c = match memory (sy_hist s ++ [e]) h with Some w => w | None => 0 end ->
  (forall k, k <> h -> memory (sy_hist s ++ [e]) k = memory (sy_hist s) k) -> memory (sy_hist s ++ [e]) h <> Some 0 ->
  (~ is_forked (sy_hist s ++ [e]) h -> memory (sy_hist s ++ [e]) h = None) ->
  os_inv {| sy_threads := {| th_name := h; th_pid := p; th_tid := t; th_cache := c |} :: sy_threads s; sy_names := S (sy_names s); sy_hist := sy_hist s ++ [e] |}.
Proof.
  intros I Eh B W T U C M M0 F0.
  assert (forall e', In e' (sy_hist s) -> who e' <> h) as N by (intros e' X; specialize (v_names _ I e' X); lia).
  assert (forall x, In x (sy_threads s) -> th_name x <> h) as Nn.
  { intros x X. pose proof (lives_name _ _ _ _ I (in_lives s x I X)). lia. }
  split; cbn [sy_threads sy_names sy_hist].
  - intros h' p' t'. rewrite (lives_new _ _ _ _ _ B N), (v_lives _ I). split.
    + intros [[= -> -> ->]|(c' & X)]; [exists c; now left|exists c'; now right].
    + intros (c' & [[= -> -> -> ->]|X]); [now left|right; eauto].
  - intros x [<-|X]; [exact C|]. rewrite M by (apply Nn, X). now apply (v_cache _ I).
  - intros x [<-|X]; [exact T|now apply (v_pos _ I)].
  - intros k. destruct (Nat.eq_dec k h) as [->|Nk]; [exact M0|]. rewrite M by auto. apply (v_mem _ I).
  - intros e' X. apply in_app_or in X as [X|[<-|[]]]; [specialize (v_names _ I e' X); lia|lia].
  - intros x y [<-|X] [<-|Y] E; auto; cbn in E; [destruct (Nn y Y); auto|destruct (Nn x X); auto|now apply (v_one _ I)].
  - intros x y [<-|X] [<-|Y] E; auto; cbn in E; [destruct (U y Y); auto|destruct (U x X); auto|now apply (v_tids _ I)].
  - intros x [<-|X] F; [left; now apply F0|]. rewrite M by (apply Nn, X). apply (v_own _ I); auto.
    intros (g & p' & t' & Y). apply F. exists g, p', t'. apply in_or_app. auto.
  - intros k w L. assert (last_id (sy_hist s) k = Some w) as L' by (rewrite last_id_snoc in L; destruct e; auto; discriminate).
    destruct (Nat.eq_dec k h) as [->|Nk]; [|rewrite M by auto; now apply (v_last _ I)].
    apply (v_last _ I) in L'. rewrite memory_none in L'; [discriminate|auto|lia].
  - apply each_snoc; [apply I|]. destruct e; cbn in B; try discriminate; injection B as -> -> ->; exact N.
Qed.

Lemma os_inv_step s a s' : os_inv s -> os_step s a = Some s' -> os_inv s'.
Proof.
  intros I E. destruct a as [h t|h t|h|h|h]; cbn [os_step] in E; destruct (find_thread s h) as [x|] eqn:F; try discriminate;
    apply found in F as (Xin & Xn).
  - destruct (unused s t) eqn:U; [|discriminate]. injection E as <-. apply unused_spec in U as (T & U).
    apply grow; auto; try reflexivity.
    + rewrite memory_snoc, memory_none; auto.
    + intros k _. now rewrite memory_snoc.
    + rewrite memory_snoc. apply (v_mem _ I).
    + intros _. rewrite memory_snoc. apply memory_none; auto.
  - destruct (unused s t) eqn:U; [|discriminate]. injection E as <-. apply unused_spec in U as (T & U).
    apply grow; auto; try reflexivity.
    + rewrite memory_snoc, Nat.eqb_refl. rewrite (v_cache _ I x Xin). now rewrite Xn.
    + intros k Nk. rewrite memory_snoc. apply Nat.eqb_neq in Nk. rewrite Nat.eqb_sym in Nk. now rewrite Nk.
    + rewrite memory_snoc, Nat.eqb_refl. apply (v_mem _ I).
    + intros F. destruct F. do 3 eexists. apply in_or_app. right. now left.
  - injection E as <-. split; cbn [sy_threads sy_names sy_hist].
    + intros h' p' t'. destruct (Nat.eq_dec h' h) as [->|N].
      * split; [intros (_ & D); destruct D; apply in_or_app; right; now left|]. intros (c & X). apply filter_In in X as (_ & X). cbn in X. rewrite Nat.eqb_refl in X. discriminate.
      * rewrite lives_snoc by (auto; congruence). rewrite (v_lives _ I). split; intros (c & X); exists c; [apply filter_In; split; auto; cbn; apply Nat.eqb_neq in N; now rewrite N|now apply filter_In in X].
    + intros y Y. apply filter_In in Y as (Y & _). rewrite memory_snoc. now apply (v_cache _ I).
    + intros y Y. apply filter_In in Y as (Y & _). now apply (v_pos _ I).
    + intros k. rewrite memory_snoc. apply (v_mem _ I).
    + intros e X. apply in_app_or in X as [X|[<-|[]]]; [now apply (v_names _ I)|]. cbn. rewrite <- Xn. eapply lives_name, in_lives; eauto.
    + intros y z Y Z. apply filter_In in Y as (Y & _), Z as (Z & _). now apply (v_one _ I).
    + intros y z Y Z. apply filter_In in Y as (Y & _), Z as (Z & _). now apply (v_tids _ I).
    + intros y Y F. apply filter_In in Y as (Y & _). rewrite memory_snoc. apply (v_own _ I); auto. intros (g & p' & t' & Z). apply F. exists g, p', t'. apply in_or_app. auto.
    + intros k w. rewrite memory_snoc, last_id_snoc. apply (v_last _ I).
    + apply each_snoc; [apply I|exact Logic.I].
  - destruct (cached_id x) as (v, c) eqn:Cv. injection E as <-. unfold cached_id, current_thread_id in Cv. injection Cv as Ev <-.
    assert (v <> 0) as V0. { destruct (N.eqb_spec (th_cache x) 0) as [Z|Z]; [rewrite <- Ev; now apply (v_pos _ I)|congruence]. }
    assert (answers (sy_hist s) (AskedId h v)) as An.
    { exists (th_pid x), (th_tid x). split; [rewrite <- Xn; now apply in_lives|]. rewrite (v_cache _ I x Xin), Xn in Ev.
      assert (v = match memory (sy_hist s) h with Some w => w | None => th_tid x end) as Vm.
      { destruct (memory (sy_hist s) h) as [w|] eqn:Mw; [|exact (eq_sym Ev)]. destruct (N.eqb_spec w 0) as [->|Z]; [destruct (v_mem _ I h Mw)|congruence]. }
      split; [exact Vm|]. split; [|split; [|exact V0]].
      - intros F. destruct (v_own _ I x Xin) as [Q|Q]; rewrite Xn in *; auto; now rewrite Q in Vm.
      - intros w L. apply (v_last _ I) in L. now rewrite L in Vm. }
    rewrite Ev. set (f := fun y : thread => if Nat.eqb (th_name y) h then {| th_name := th_name y; th_pid := th_pid y; th_tid := th_tid y; th_cache := v |} else y).
    assert (forall y, th_name (f y) = th_name y /\ th_pid (f y) = th_pid y /\ th_tid (f y) = th_tid y) as Fk by (intros y; unfold f; now destruct (Nat.eqb _ _)).
    split; cbn [sy_threads sy_names sy_hist].
    + intros h' p' t'. rewrite lives_snoc by easy. rewrite (v_lives _ I). split; intros (c & X).
      * apply (in_map f) in X. destruct (Fk {| th_name := h'; th_pid := p'; th_tid := t'; th_cache := c |}) as (A & B & C). cbn in A, B, C.
        exists (th_cache (f {| th_name := h'; th_pid := p'; th_tid := t'; th_cache := c |})).
        match type of X with In ?y _ => replace {| th_name := h'; th_pid := p'; th_tid := t'; th_cache := th_cache y |} with y; auto end.
        destruct (f _); cbn in *; congruence.
      * apply in_map_iff in X as (y & Ey & Y). destruct (Fk y) as (A & B & C). rewrite Ey in A, B, C. cbn in A, B, C. exists (th_cache y). rewrite A, B, C. now destruct y.
    + intros y Y. apply in_map_iff in Y as (z & <- & Z). rewrite memory_snoc. unfold f. destruct (Nat.eqb_spec (th_name z) h) as [Q|Q]; cbn.
      * now rewrite Q, Nat.eqb_refl.
      * apply Nat.eqb_neq in Q. rewrite Nat.eqb_sym in Q. rewrite Q. now apply (v_cache _ I).
    + intros y Y. apply in_map_iff in Y as (z & <- & Z). destruct (Fk z) as (_ & _ & ->). now apply (v_pos _ I).
    + intros k. rewrite memory_snoc. destruct (Nat.eqb h k); [congruence|apply (v_mem _ I)].
    + intros e X. apply in_app_or in X as [X|[<-|[]]]; [now apply (v_names _ I)|]. cbn. rewrite <- Xn. eapply lives_name, in_lives; eauto.
    + intros y z Y Z. apply in_map_iff in Y as (y' & <- & Y), Z as (z' & <- & Z). destruct (Fk y') as (-> & _), (Fk z') as (-> & _). intros Q. f_equal. now apply (v_one _ I).
    + intros y z Y Z. apply in_map_iff in Y as (y' & <- & Y), Z as (z' & <- & Z). destruct (Fk y') as (_ & _ & ->), (Fk z') as (_ & _ & ->). intros Q. f_equal. now apply (v_tids _ I).
    + intros y Y F. apply in_map_iff in Y as (z & <- & Z). destruct (Fk z) as (Fa & _ & Fc). rewrite Fa in F |- *. rewrite Fc, memory_snoc.
      assert (~ is_forked (sy_hist s) (th_name z)) as F' by (intros (g & p' & t' & W); apply F; exists g, p', t'; apply in_or_app; auto).
      destruct (Nat.eqb_spec h (th_name z)) as [Q|Q]; [|now apply (v_own _ I)]. right. f_equal.
      assert (z = x) as -> by (apply (v_one _ I); auto; congruence). destruct An as (p & t & Lv & _ & Ow & _). rewrite <- Q in F'. rewrite (Ow F').
      apply (v_lives _ I) in Lv as (c & Lv). assert (x = {| th_name := h; th_pid := p; th_tid := t; th_cache := c |}) as -> by (apply (v_one _ I); auto). reflexivity.
    + intros k w. rewrite memory_snoc, last_id_snoc. destruct (Nat.eqb h k); auto. apply (v_last _ I).
    + apply each_snoc; [apply I|exact An].
  - injection E as <-. split; cbn [sy_threads sy_names sy_hist]; try apply I.
    + intros. rewrite lives_snoc by easy. apply (v_lives _ I).
    + intros y Y. rewrite memory_snoc. now apply (v_cache _ I).
    + intros k. rewrite memory_snoc. apply (v_mem _ I).
    + intros e X. apply in_app_or in X as [X|[<-|[]]]; [now apply (v_names _ I)|]. cbn. rewrite <- Xn. eapply lives_name, in_lives; eauto.
    + intros y Y F. rewrite memory_snoc. apply (v_own _ I); auto. intros (g & p' & t' & Z). apply F. exists g, p', t'. apply in_or_app. auto.
    + intros k w. rewrite memory_snoc, last_id_snoc. apply (v_last _ I).
    + apply each_snoc; [apply I|]. exists (th_tid x). rewrite <- Xn. now apply in_lives.
Qed.
Theorem os_inv_run t sched : t <> 0 -> os_inv (os_run t sched).
Proof. intros T. apply (run_inv os_step os_inv); [exact os_inv_step|now apply os_inv_new]. Qed.
