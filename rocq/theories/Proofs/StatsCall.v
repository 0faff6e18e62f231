(** What holds of threads in getStats, whatever their callbacks do. *)
From Verif Require Import Base Spec.StatsUse Model.Interleave Model.StatsCall Proofs.Interleave.

Definition hold (o : option tid) (t : tid) : bool := match o with Some u => Nat.eqb u t | None => false end.

(** What is left of a call does the rest of the report. [lg], [rg]: the thread has the mutexes;
    [T]: what it has told; [f]: what the mutex protects; [ws]: the worlds there were; [th]: the
    callback threw. *)
Fixpoint valid (c : scall) (p : prog) (lg rg : bool) (T : list stat) (f : facts) (ws : list world) (th : bool) : Prop :=
  match p with
  | Done threw =>
      rg = false /\
      match c with
      | GetStats => lg = false /\ threw = th /\ if threw then begins ws T else reports ws T
      | Lookup => threw = false
      end
  | Lock MLog k => c = GetStats /\ lg = false /\ rg = false /\ forall f, valid c k true rg T f ws th
  | Lock MReg k => rg = false /\ valid c k lg true T f ws th
  | Unlock MLog k => c = GetStats /\ lg = true /\ rg = false /\ valid c k false rg T f ws th
  | Unlock MReg k => rg = true /\ valid c k lg false T f ws th
  | Look k => forall ws' w, incl ws ws' -> In w ws' -> (lg = true -> w_facts w = f) -> valid c (k w) lg rg T f ws' th
  | Tell x h k =>
      c = GetStats /\ lg = true /\ (rg = true <-> fst x = first_key) /\ th = false /\
      valid c h lg rg (T ++ [x]) f ws true /\ valid c k lg rg (T ++ [x]) f ws false
  | User _ _ _ => False
  | Grow k => c = Lookup /\ rg = true /\ valid c k lg rg T f ws th
  end.

Lemma reports_mono ws ws' T : incl ws ws' -> reports ws T -> reports ws' T.
Proof.
  intros I (a & b & c & d & e & g & A & B & C & D & E & G & H). exists a, b, c, d, e, g.
  repeat (split; [now apply I|]). exact H.
Qed.

Lemma begins_mono ws ws' T : incl ws ws' -> begins ws T -> begins ws' T.
Proof. intros I (N & r & R). split; auto. exists r. exact (reports_mono _ _ _ I R). Qed.

Lemma valid_mono c p : forall lg rg T f ws ws' th, incl ws ws' -> valid c p lg rg T f ws th -> valid c p lg rg T f ws' th.
Proof.
  induction p as [threw|m k IH|m k IH|k IH|x h IHh k IHk|x h IHh k IHk|k IH]; intros lg rg T f ws ws' th I V; cbn [valid] in *.
  - destruct V as (R & V). split; auto. destruct c; auto. destruct V as (A & B & V). repeat (split; auto).
    destruct threw; [exact (begins_mono _ _ _ I V)|exact (reports_mono _ _ _ I V)].
  - destruct m.
    + destruct V as (A & B & C & V). repeat (split; auto). intros f'. eapply IH; eauto.
    + destruct V as (A & V). split; auto. eapply IH; eauto.
  - destruct m.
    + destruct V as (A & B & C & V). repeat (split; auto). eapply IH; eauto.
    + destruct V as (A & V). split; auto. eapply IH; eauto.
  - intros ws'' w I' Iw F. apply V; auto. intros y Y. apply I', I, Y.
  - destruct V as (A & B & C & D & V1 & V2). repeat (split; auto); [eapply IHh|eapply IHk]; eauto.
  - exact V.
  - destruct V as (A & B & V). repeat (split; auto). eapply IH; eauto.
Qed.

Lemma valid_free c p : forall rg T f f' ws th, valid c p false rg T f ws th -> valid c p false rg T f' ws th.
Proof.
  induction p as [threw|m k IH|m k IH|k IH|x h IHh k IHk|x h IHh k IHk|k IH]; intros rg T f f' ws th V; cbn [valid] in *.
  - exact V.
  - destruct m; [exact V|]. destruct V as (A & V). split; auto. eapply IH; eauto.
  - destruct m; [destruct V as (_ & A & _); discriminate A|]. destruct V as (A & V). split; auto. eapply IH; eauto.
  - intros ws'' w I Iw F. eapply IH; apply V; auto; discriminate.
  - destruct V as (_ & A & _). discriminate A.
  - exact V.
  - destruct V as (A & B & V). repeat (split; auto). eapply IH; eauto.
Qed.

Lemma lookup_valid lg T f ws th : valid Lookup lookup lg false T f ws th.
Proof. cbn. repeat split. Qed.

Lemma count_min a b : (if (a <? b)%N then a else b) = N.min a b.
Proof. destruct (N.ltb_spec a b); lia. Qed.

Lemma last_key (x : stat) : fst x <> first_key -> (false = true <-> fst x = first_key).
Proof. intros N. split; [discriminate|]. intros E. now apply N in E. Qed.

Ltac tell := split; [reflexivity|]; split; [reflexivity|]; split; [apply last_key; discriminate|]; split; [reflexivity|];
  split; [repeat (split; [reflexivity|]); cbn [app]|cbn [app]].
Ltac look ws w I J F := intros ws w I J F; specialize (F eq_refl);
  repeat match goal with H : In ?x ?old |- _ => lazymatch type of I with incl old _ => apply I in H end end.

Section Rest.
  Variables (f : facts) (now groups full count total loan : world).
  Let h := Unlock MLog (Done true).
  Definition all_in (ws : list world) : Prop := In now ws /\ In groups ws /\ In full ws /\ In count ws /\ In total ws /\ In loan ws.

  Lemma all_in_incl ws ws' : incl ws ws' -> all_in ws -> all_in ws'.
  Proof. unfold all_in, incl. intuition. Qed.

  Lemma begins_in ws T : all_in ws -> T <> [] -> (exists r, T ++ r = report now groups full count total loan) -> begins ws T.
  Proof. intros (A & B & C & D & E & G) N (r & R). split; auto. exists r, now, groups, full, count, total, loan. repeat (split; auto). Qed.

  (** What is told of the log itself, after [T]. *)
  Lemma rest_valid ws T : all_in ws ->
    (T ++ [ ($"log_is_enabled", VBool (fa_on f));
            ($"log_has_buffer", VBool match fa_buf f with Some _ => true | None => false end);
            ($"log_thread_names", VSize (fa_names f));
            ($"log_deregistered_threads", VSize (fa_dereg f));
            ($"log_registered_tenants", VSize (fa_tenants f)) ] = report now groups full count total loan) ->
    valid GetStats (Look (fun w =>
      Tell (bool_stat $"log_is_enabled" (fa_on (w_facts w))) h (Look (fun w =>
      Tell (bool_stat $"log_has_buffer" match fa_buf (w_facts w) with Some _ => true | None => false end) h (Look (fun w =>
      Tell (size_stat $"log_thread_names" (fa_names (w_facts w))) h (Look (fun w =>
      Tell (size_stat $"log_deregistered_threads" (fa_dereg (w_facts w))) h (Look (fun w =>
      Tell (size_stat $"log_registered_tenants" (fa_tenants (w_facts w))) h (
      Unlock MLog (Done false)))))))))))) true false T f ws false.
  Proof.
    intros A E. unfold h, bool_stat, size_stat.
    assert (N : forall x (l : list stat), T ++ x :: l <> []) by (intros x l X; apply app_eq_nil in X as [_ X]; discriminate X).
    cbn [valid].
    intros ws1 w1 I1 _ F1. specialize (F1 eq_refl). rewrite F1. apply (all_in_incl _ _ I1) in A.
    tell; [apply begins_in; [exact A|apply N|]; rewrite <- E; eexists; rewrite <- app_assoc; reflexivity|].
    intros ws2 w2 I2 _ F2. specialize (F2 eq_refl). rewrite F2. apply (all_in_incl _ _ I2) in A.
    tell; [rewrite <- app_assoc; apply begins_in; [exact A|apply N|]; rewrite <- E; eexists; rewrite <- app_assoc; reflexivity|].
    intros ws3 w3 I3 _ F3. specialize (F3 eq_refl). rewrite F3. apply (all_in_incl _ _ I3) in A.
    tell; [rewrite <- !app_assoc; apply begins_in; [exact A|apply N|]; rewrite <- E; eexists; rewrite <- app_assoc; reflexivity|].
    intros ws4 w4 I4 _ F4. specialize (F4 eq_refl). rewrite F4. apply (all_in_incl _ _ I4) in A.
    tell; [rewrite <- !app_assoc; apply begins_in; [exact A|apply N|]; rewrite <- E; eexists; rewrite <- app_assoc; reflexivity|].
    intros ws5 w5 I5 _ F5. specialize (F5 eq_refl). rewrite F5. apply (all_in_incl _ _ I5) in A.
    tell; [rewrite <- !app_assoc; apply begins_in; [exact A|apply N|]; rewrite <- E; eexists; rewrite <- app_assoc; reflexivity|].
    repeat (split; [reflexivity|]). rewrite <- !app_assoc. cbn [app]. destruct A as (B & C & D & G & H & K).
    exists now, groups, full, count, total, loan. repeat (split; auto).
  Qed.
End Rest.

Lemma getStats_valid f0 ws : valid GetStats getStats false false [] f0 ws false.
Proof.
  unfold getStats, registry_getStats, size_stat at 1. cbn [valid]. do 3 (split; [reflexivity|]). intros f. split; [reflexivity|].
  look ws1 w1 I1 J1 F1.
  split; [reflexivity|]. split; [reflexivity|]. split; [split; reflexivity|]. split; [reflexivity|]. cbn [app].
  split.
  { repeat (split; [reflexivity|]). apply (begins_in w1 w1 w1 w1 w1 w1); [unfold all_in; auto 10|discriminate|]. eexists. reflexivity. }
  split; [reflexivity|]. look ws2 w2 I2 J2 F2. rewrite F2. destruct (fa_buf f) as [i|] eqn:Eb.
  2:{ apply (rest_valid f w2 w1 w1 w1 w1 w1); [unfold all_in; auto 10|]. unfold report. rewrite F2, Eb. reflexivity. }
  destruct i as [kk sz gn]; destruct kk; cbn [i_kind i_size i_gen]; unfold fixed_getStats, ring_getStats, text_stat, bool_stat at 1, size_stat at 1 2 3 4 5; cbn [valid].
  - tell; [apply (begins_in w2 w1 w2 w2 w2 w2); [unfold all_in; auto 10|discriminate|]; unfold report, buffer_report; rewrite F2, Eb; eexists; reflexivity|].
    look ws3 w3 I3 J3 F3.
    tell; [apply (begins_in w2 w1 w3 w2 w2 w2); [unfold all_in; auto 10|discriminate|]; unfold report, buffer_report; rewrite F2, Eb; eexists; reflexivity|].
    look ws4 w4 I4 J4 F4. cbn [i_size]. rewrite count_min.
    tell; [apply (begins_in w2 w1 w3 w4 w2 w2); [unfold all_in; auto 10|discriminate|]; unfold report, buffer_report; rewrite F2, Eb; eexists; reflexivity|].
    tell; [apply (begins_in w2 w1 w3 w4 w2 w2); [unfold all_in; auto 10|discriminate|]; unfold report, buffer_report; rewrite F2, Eb; eexists; reflexivity|].
    look ws5 w5 I5 J5 F5.
    tell; [apply (begins_in w2 w1 w3 w4 w2 w5); [unfold all_in; auto 10|discriminate|]; unfold report, buffer_report; rewrite F2, Eb; eexists; reflexivity|].
    tell; [apply (begins_in w2 w1 w3 w4 w2 w5); [unfold all_in; auto 10|discriminate|]; unfold report, buffer_report; rewrite F2, Eb; eexists; reflexivity|].
    tell; [apply (begins_in w2 w1 w3 w4 w2 w5); [unfold all_in; auto 10|discriminate|]; unfold report, buffer_report; rewrite F2, Eb; eexists; reflexivity|].
    refine (rest_valid f w2 w1 w3 w4 w2 w5 ws5 ((first_key, VSize (w_groups w1)) :: buffer_report {| i_kind := KFixed; i_size := sz; i_gen := gn |} w3 w4 w2 w5) _ _); [unfold all_in; auto 10|]. unfold report, buffer_report. rewrite F2, Eb. reflexivity.
  - tell; [apply (begins_in w2 w1 w2 w2 w2 w2); [unfold all_in; auto 10|discriminate|]; unfold report, buffer_report; rewrite F2, Eb; eexists; reflexivity|].
    tell; [apply (begins_in w2 w1 w2 w2 w2 w2); [unfold all_in; auto 10|discriminate|]; unfold report, buffer_report; rewrite F2, Eb; eexists; reflexivity|].
    look ws3 w3 I3 J3 F3.
    tell; [apply (begins_in w2 w1 w2 w3 w2 w2); [unfold all_in; auto 10|discriminate|]; unfold report, buffer_report; rewrite F2, Eb; eexists; reflexivity|].
    look ws4 w4 I4 J4 F4.
    tell; [apply (begins_in w2 w1 w2 w3 w4 w2); [unfold all_in; auto 10|discriminate|]; unfold report, buffer_report; rewrite F2, Eb; eexists; reflexivity|].
    look ws5 w5 I5 J5 F5.
    tell; [apply (begins_in w2 w1 w2 w3 w4 w5); [unfold all_in; auto 10|discriminate|]; unfold report, buffer_report; rewrite F2, Eb; eexists; reflexivity|].
    tell; [apply (begins_in w2 w1 w2 w3 w4 w5); [unfold all_in; auto 10|discriminate|]; unfold report, buffer_report; rewrite F2, Eb; eexists; reflexivity|].
    tell; [apply (begins_in w2 w1 w2 w3 w4 w5); [unfold all_in; auto 10|discriminate|]; unfold report, buffer_report; rewrite F2, Eb; eexists; reflexivity|].
    refine (rest_valid f w2 w1 w2 w3 w4 w5 ws5 ((first_key, VSize (w_groups w1)) :: buffer_report {| i_kind := KRing; i_size := sz; i_gen := gn |} w2 w3 w4 w5) _ _); [unfold all_in; auto 10|]. unfold report, buffer_report. rewrite F2, Eb. reflexivity.
Qed.

(** The same of a call in which the callback may be running. *)
Definition valid' (c : scall) (p : prog) (lg rg : bool) (T : list stat) (f : facts) (ws : list world) (th : bool) : Prop :=
  match p with
  | User x h k =>
      c = GetStats /\ lg = true /\ (rg = true <-> fst x = first_key) /\ th = false /\ (exists T0, T = T0 ++ [x]) /\
      valid c h lg rg T f ws true /\ valid c k lg rg T f ws false
  | _ => valid c p lg rg T f ws th
  end.

Definition heard (p : prog) : option stat := match p with User x _ _ => Some x | _ => None end.

(** The calls a thread is in; [L]: the stat its callback is running for. *)
Definition ok (l : list (scall * prog)) (lg rg : bool) (T : list stat) (L : option stat) (f : facts) (ws : list world) (th : bool) : Prop :=
  match l with
  | [] => lg = false /\ rg = false /\ L = None
  | [(c, p)] => valid' c p lg rg T f ws th /\ L = heard p /\ (c = Lookup -> lg = false)
  | [(c, p); (d, q)] =>
      lg = true /\
      match c with
      | GetStats => p = getStats /\ L = None
      | Lookup =>
          exists x h k, d = GetStats /\ q = User x h k /\ L = Some x /\
          ((fst x = first_key /\ p = lookup /\ rg = true /\ valid' GetStats q true true T f ws th) \/
           (fst x <> first_key /\ valid Lookup p true rg T f ws th /\ valid' GetStats q true false T f ws th))
      end
  | _ => False
  end.

Lemma valid_same c p lg rg T f f' ws ws' th : incl ws ws' -> (lg = true -> f' = f) -> valid c p lg rg T f ws th -> valid c p lg rg T f' ws' th.
Proof.
  intros I E V. apply (valid_mono _ _ _ _ _ _ ws ws'); auto. destruct lg; [rewrite E by reflexivity; exact V|]. eapply valid_free; eauto.
Qed.

Lemma valid'_same c p lg rg T f f' ws ws' th : incl ws ws' -> (lg = true -> f' = f) -> valid' c p lg rg T f ws th -> valid' c p lg rg T f' ws' th.
Proof.
  intros I E V. destruct p as [| | | | |x h k|]; try (exact (valid_same _ _ _ _ _ _ _ _ _ _ I E V)).
  destruct V as (A & B & C & D & X & V1 & V2). do 5 (split; [assumption|]). split; eapply valid_same; eauto.
Qed.

Lemma valid_valid' c p lg rg T f ws th : valid c p lg rg T f ws th -> valid' c p lg rg T f ws th /\ heard p = None.
Proof. destruct p; intros V; try (split; [exact V|reflexivity]). destruct V. Qed.

Lemma ok_same l lg rg T L f f' ws ws' th : incl ws ws' -> (lg = true -> f' = f) -> ok l lg rg T L f ws th -> ok l lg rg T L f' ws' th.
Proof.
  intros I E O. destruct l as [|[c p] [|[d q] [|]]]; cbn [ok] in *; auto.
  - destruct O as (V & O). split; auto. eapply valid'_same; eauto.
  - destruct O as (Hl & O). split; auto. destruct c; auto. destruct O as (x & h & k & A & B & C & O). exists x, h, k. repeat (split; auto).
    destruct O as [(D & P & R & V)|(D & V & W)]; [left|right]; split; [exact D| |exact D|].
    + split; [exact P|]. split; [exact R|]. eapply valid'_same; [exact I|auto|exact V].
    + split; [eapply valid_same; [exact I|auto|exact V]|eapply valid'_same; [exact I|auto|exact W]].
Qed.

Definition okat (w0 : world) (s : sst) (t : tid) : Prop :=
  ok (s_stack s t) (hold (s_log s) t) (hold (s_reg s) t) (told (s_hist s) t) (listening (s_hist s) t) (w_facts (s_world s))
    (during w0 (s_hist s) t) (thrown (s_hist s) t).

Definition current (w0 : world) (h : list happened) (t : tid) : world * list world := fold_left (watch t) h (w0, [w0]).

Lemma during_app w0 h e t : during w0 (h ++ [e]) t = snd (watch t (current w0 h t) e).
Proof. unfold during, current. rewrite fold_left_app. reflexivity. Qed.

Lemma current_app w0 h e t : current w0 (h ++ [e]) t = watch t (current w0 h t) e.
Proof. unfold current. rewrite fold_left_app. reflexivity. Qed.

Record sinv (w0 : world) (s : sst) : Prop := {
  si_ok : forall t, okat w0 s t;
  si_cur : forall t, fst (current w0 (s_hist s) t) = s_world s;
  si_in : forall t, In (s_world s) (during w0 (s_hist s) t);
}.

Lemma told_app h e t : told (h ++ [e]) t = tell t (told h t) e.
Proof. unfold told. rewrite fold_left_app. reflexivity. Qed.
Lemma listening_app h e t : listening (h ++ [e]) t = listen t (listening h t) e.
Proof. unfold listening. rewrite fold_left_app. reflexivity. Qed.
Lemma thrown_app h e t : thrown (h ++ [e]) t = throw t (thrown h t) e.
Proof. unfold thrown. rewrite fold_left_app. reflexivity. Qed.

(** An event of another thread. *)
Lemma other_event w0 h e u : did u e = false ->
  told (h ++ [e]) u = told h u /\ listening (h ++ [e]) u = listening h u /\ thrown (h ++ [e]) u = thrown h u /\
  incl (during w0 h u) (during w0 (h ++ [e]) u).
Proof.
  intros D. rewrite told_app, listening_app, thrown_app, during_app. unfold tell, listen, throw. rewrite D. repeat (split; [reflexivity|]).
  unfold during, current. destruct e as [t c|t x|t|t|t c b|w]; cbn [watch]; try apply incl_refl.
  - unfold did in D. cbn in D. destruct c; [rewrite D|]; apply incl_refl.
  - apply incl_appl, incl_refl.
Qed.

Lemma world_event w0 h w u :
  told (h ++ [Now w]) u = told h u /\ listening (h ++ [Now w]) u = listening h u /\ thrown (h ++ [Now w]) u = thrown h u /\
  incl (during w0 h u) (during w0 (h ++ [Now w]) u).
Proof. apply other_event. reflexivity. Qed.

(** What a step changes for the threads that did not make it. *)
Lemma others w0 s s' u e : okat w0 s u -> s_hist s' = s_hist s ++ e -> (length e <= 1)%nat -> (forall x, In x e -> did u x = false) ->
  s_stack s' u = s_stack s u -> hold (s_log s') u = hold (s_log s) u -> hold (s_reg s') u = hold (s_reg s) u ->
  (hold (s_log s) u = true -> w_facts (s_world s') = w_facts (s_world s)) -> okat w0 s' u.
Proof.
  intros O Eh Le D Es El Er Ef. unfold okat. rewrite Es, El, Er, Eh. destruct e as [|x [|]]; [| |cbn in Le; lia].
  - rewrite app_nil_r. eapply ok_same; [apply incl_refl|exact Ef|exact O].
  - destruct (other_event w0 (s_hist s) x u (D x (or_introl eq_refl))) as (A & B & C & I). rewrite A, B, C. eapply ok_same; [exact I|exact Ef|exact O].
Qed.

(** Steps that only change what there is to report. *)
Lemma becomes_inv w0 s w : sinv w0 s -> (forall u, hold (s_log s) u = true -> w_facts w = w_facts (s_world s)) -> sinv w0 (becomes s w).
Proof.
  intros [O C I] F. split.
  - intros u. apply (others w0 s _ u [Now w]); auto; try reflexivity; [intros x [<-|[]]; reflexivity|exact (F u)].
  - intros t. cbn [becomes s_hist s_world]. rewrite current_app. reflexivity.
  - intros t. cbn [becomes s_hist s_world]. rewrite during_app. cbn [watch snd]. apply in_or_app. right. now left.
Qed.

(** Steps of a thread that only change its calls and add at most one event of it. *)
Lemma at_inv w0 s t l e : sinv w0 s -> (length e <= 1)%nat -> (forall x, In x e -> thread_of x = Some t) ->
  ok l (hold (s_log s) t) (hold (s_reg s) t) (told (s_hist s ++ e) t) (listening (s_hist s ++ e) t) (w_facts (s_world s))
    (during w0 (s_hist s ++ e) t) (thrown (s_hist s ++ e) t) -> sinv w0 (at_ s t l e).
Proof.
  intros [O C I] Le D K.
  assert (Cur : forall u, fst (current w0 (s_hist s ++ e) u) = s_world s /\ In (s_world s) (during w0 (s_hist s ++ e) u)).
  { intros u. destruct e as [|x [|]]; [rewrite app_nil_r; auto| |cbn in Le; lia].
    rewrite current_app, during_app. specialize (D x (or_introl eq_refl)). specialize (C u). specialize (I u). unfold during in I. fold (current w0 (s_hist s) u) in I.
    destruct x as [v c|v x|v|v|v c b|w]; try discriminate D; cbn [watch]; auto.
    destruct c; auto. destruct (Nat.eqb v u); auto. cbn [fst snd]. rewrite C. split; [reflexivity|now left]. }
  split.
  - intros u. destruct (Nat.eq_dec u t) as [->|Ne].
    + unfold okat. cbn [at_ s_stack s_log s_reg s_hist s_world]. unfold tset. rewrite Nat.eqb_refl. exact K.
    + apply (others w0 s _ u e); auto; try reflexivity.
      * intros x Ix. unfold did. rewrite (D x Ix). apply Nat.eqb_neq. auto.
      * cbn [at_ s_stack]. unfold tset. destruct (Nat.eqb_spec u t); [contradiction|reflexivity].
  - intros u. apply Cur.
  - intros u. apply Cur.
Qed.

(** Steps of a thread that lock or unlock. *)
Lemma own_inv w0 s m o t l : sinv w0 s -> (owner s m = None /\ o = Some t \/ owner s m = Some t /\ o = None) ->
  ok l (match m with MLog => hold o t | MReg => hold (s_log s) t end) (match m with MReg => hold o t | MLog => hold (s_reg s) t end)
    (told (s_hist s) t) (listening (s_hist s) t) (w_facts (s_world s)) (during w0 (s_hist s) t) (thrown (s_hist s) t) -> sinv w0 (own s m o t l).
Proof.
  intros [O C I] Ho K. split; [|exact C|exact I].
  intros u. destruct (Nat.eq_dec u t) as [->|Ne].
  - unfold okat. cbn [own s_stack s_log s_reg s_hist s_world]. unfold tset. rewrite Nat.eqb_refl. destruct m; exact K.
  - assert (H : hold o u = hold (owner s m) u).
    { destruct Ho as [[-> ->]|[-> ->]]; cbn [hold]; [|symmetry]; apply Nat.eqb_neq; auto. }
    apply (others w0 s _ u []); auto; try (now destruct m).
    + cbn [own s_hist]. now rewrite app_nil_r.
    + cbn [own s_stack]. unfold tset. destruct (Nat.eqb_spec u t); [contradiction|reflexivity].
Qed.

Lemma hold_true o t : hold o t = true <-> o = Some t.
Proof.
  destruct o as [u|]; cbn; [|split; discriminate]. rewrite Nat.eqb_eq. split; [intros ->; reflexivity|now intros [= ->]].
Qed.

Lemma did_own t e : thread_of e = Some t -> did t e = true.
Proof. unfold did. intros ->. apply Nat.eqb_refl. Qed.

(** The events of the thread itself. *)
Lemma own_event h e t : thread_of e = Some t ->
  told (h ++ [e]) t = match e with Enter _ GetStats => [] | Told _ x => told h t ++ [x] | _ => told h t end /\
  listening (h ++ [e]) t = match e with Enter _ GetStats | Left _ GetStats _ | Came _ | Threw _ => None | Told _ x => Some x | _ => listening h t end /\
  thrown (h ++ [e]) t = match e with Enter _ GetStats => false | Threw _ => true | _ => thrown h t end.
Proof. intros D. rewrite told_app, listening_app, thrown_app. unfold tell, listen, throw. now rewrite (did_own t e D). Qed.

Lemma own_during w0 h e t : thread_of e = Some t -> (forall u, e <> Enter u GetStats) -> during w0 (h ++ [e]) t = during w0 h t.
Proof. intros D N. rewrite during_app. destruct e as [u c|u x|u|u|u c b|w]; try reflexivity; try discriminate D. destruct c; [|reflexivity]. now contradiction (N u). Qed.


Lemma one_ok c p lg rg T f ws th : valid c p lg rg T f ws th -> (c = Lookup -> lg = false) -> ok [(c, p)] lg rg T None f ws th.
Proof. intros V H. destruct (valid_valid' _ _ _ _ _ _ _ _ V) as (A & B). cbn [ok]. rewrite B. auto. Qed.

(** A step that is none of the callback: what is left is valid before, so it is after. *)
Lemma frame_ok c p r k lg rg lg' rg' T L f ws th :
  heard p = None -> (forall T, valid c p lg rg T f ws th -> valid c k lg' rg' T f ws th) ->
  ok ((c, p) :: r) lg rg T L f ws th -> (c = Lookup -> lg' = lg) -> (r <> [] -> p <> getStats /\ p <> lookup /\ c = Lookup) ->
  ok ((c, k) :: r) lg' rg' T L f ws th.
Proof.
  intros Hp V O Hl N. destruct r as [|[d q] [|]]; cbn [ok] in O.
  - destruct O as (W & L' & H). rewrite Hp in L'. subst L. apply one_ok; [|intros X; rewrite Hl by exact X; auto]. apply V. destruct p; try exact W. discriminate Hp.
  - destruct (N ltac:(discriminate)) as (N1 & N2 & ->). destruct O as (E & x & h & k0 & A & B & C & [(_ & X & _)|(F & W & U)]); [contradiction|].
    cbn [ok]. rewrite (Hl eq_refl). split; [exact E|]. exists x, h, k0. do 3 (split; [assumption|]). right. split; [exact F|]. split; [|exact U].
    rewrite E in *. specialize (Hl eq_refl). subst lg'. apply V, W.
  - destruct O.
Qed.

Lemma sinv_step w0 s a s' : sinv w0 s -> stats_step s a = Some s' -> sinv w0 s'.
Proof.
  intros I E. pose proof I as [O C J]. destruct a as [t c|t|t|t|f i l|i l]; cbn [stats_step] in E.
  - (* Call *)
    assert (D : thread_of (Enter t c) = Some t) by reflexivity. destruct (own_event (s_hist s) _ _ D) as (ET & EL & EW). specialize (O t). unfold okat in O.
    destruct (s_stack s t) as [|[d p] r] eqn:Es.
    + injection E as <-. apply at_inv; [exact I|cbn; lia|intros x [<-|[]]; reflexivity|]. rewrite ET, EL, EW. destruct O as (Hl & Hr & L). rewrite Hl, Hr, L.
      destruct c; apply one_ok; try reflexivity; try discriminate; [apply getStats_valid|apply lookup_valid].
    + destruct p as [| | | | |x h k|]; try discriminate E. injection E as <-. apply at_inv; [exact I|cbn; lia|intros y [<-|[]]; reflexivity|]. rewrite ET, EL, EW.
      destruct r as [|[d2 q] [|]]; cbn [ok] in O.
      * destruct O as (V & L & _). pose proof V as (-> & Hl & Hr & _). cbn [ok]. split; [exact Hl|]. destruct c; [auto|].
        exists x, h, k. split; [reflexivity|]. split; [reflexivity|]. split; [exact L|]. rewrite own_during by (auto; discriminate).
        destruct (hold (s_reg s) t) eqn:Er.
        -- left. split; [now apply Hr|]. split; [reflexivity|]. split; [reflexivity|]. rewrite Hl in V. exact V.
        -- right. split; [intros X; apply Hr in X; discriminate X|]. split; [apply lookup_valid|]. rewrite Hl in V. exact V.
      * destruct O as (_ & O). destruct d.
        -- destruct O as (X & _). discriminate X.
        -- destruct O as (x' & h' & k' & _ & _ & _ & [(_ & X & _)|(_ & X & _)]); [discriminate X|destruct X].
      * destruct O.
  - (* Step *)
    specialize (O t). unfold okat in O. destruct (s_stack s t) as [|[c p] r] eqn:Es; [discriminate E|].
    destruct p as [threw|m k|m k|k|x h k|x h k|k].
    + injection E as <-. apply at_inv; [exact I|cbn; lia|intros y [<-|[]]; reflexivity|].
      assert (D : thread_of (Left t c threw) = Some t) by reflexivity. destruct (own_event (s_hist s) _ _ D) as (-> & -> & ->). rewrite own_during by (auto; discriminate).
      destruct r as [|[d q] [|]]; cbn [ok] in O.
      * destruct O as ((Hr & V) & L & Hl). cbn [ok]. destruct c; [destruct V as (V & _); auto|auto].
      * destruct O as (Hl & O). destruct c; [destruct O as (X & _); discriminate X|].
        destruct O as (x & h & k & -> & -> & L & [(_ & X & _)|(_ & (Hr & _) & W)]); [discriminate X|]. cbn [ok]. rewrite Hl, Hr. split; [exact W|]. split; [exact L|discriminate].
      * destruct O.
    + destruct (owner s m) eqn:Eo; [discriminate E|]. injection E as <-. apply own_inv; [exact I|now left|].
      assert (Ht : hold (Some t) t = true) by apply Nat.eqb_refl. rewrite Ht.
      assert (Hm : match m with MLog => hold (s_log s) t | MReg => hold (s_reg s) t end = false) by (destruct m; cbn [owner] in Eo; rewrite Eo; reflexivity).
      destruct r as [|[d q] [|]]; cbn [ok] in O.
      * destruct O as (V & L & Hl). rewrite L. destruct m; cbn [valid' valid] in V.
        -- destruct V as (-> & V1 & V2 & V). apply one_ok; [apply V|discriminate].
        -- destruct V as (V1 & V). apply one_ok; [exact V|exact Hl].
      * destruct O as (Hl & O). destruct c.
        -- destruct O as (X & _). injection X as -> _. rewrite Hm in Hl. discriminate Hl.
        -- destruct O as (x & h & k0 & -> & -> & L & [(F & X & Hr & W)|(F & V & W)]).
           ++ injection X as -> _. rewrite Hm in Hr. discriminate Hr.
           ++ cbn [ok]. destruct m; [destruct V as (X & _); discriminate X|]. destruct V as (_ & V). split; [exact Hl|]. exists x, h, k0. do 3 (split; [reflexivity || assumption|]).
              right. auto.
      * destruct O.
    + injection E as <-.
      assert (Ow : owner s m = Some t /\ (r <> [] -> c = Lookup)).
      { destruct r as [|[d q] [|]]; cbn [ok] in O; [| |destruct O].
        - destruct O as (V & _). split; [|congruence]. destruct m; cbn [owner valid' valid] in *; apply hold_true; apply V.
        - destruct O as (_ & O). destruct c; [destruct O as (X & _); discriminate X|]. split; [|reflexivity].
          destruct O as (x & h & k0 & _ & _ & _ & [(_ & X & _)|(_ & V & _)]); [discriminate X|]. destruct m; cbn [owner valid] in *; [destruct V as (X & _); discriminate X|]. apply hold_true. apply V. }
      destruct Ow as (Ow & Oc). apply own_inv; [exact I|now right|].
      refine (frame_ok c (Unlock m k) r k (hold (s_log s) t) (hold (s_reg s) t) _ _ _ _ _ _ _ eq_refl _ O _ _).
      * intros T V. destruct m; cbn [valid hold] in *; apply V.
      * intros ->. destruct m; [|reflexivity]. exfalso. destruct r as [|[d q] [|]]; cbn [ok] in O; [| |destruct O].
        -- destruct O as ((X & _) & _). discriminate X.
        -- destruct O as (_ & x & h & k0 & _ & _ & _ & [(_ & X & _)|(_ & (X & _) & _)]); discriminate X.
      * intros N. split; [discriminate|]. split; [discriminate|auto].
    + injection E as <-. apply at_inv; [exact I|cbn; lia|intros y []|]. rewrite app_nil_r.
      refine (frame_ok c (Look k) r (k (s_world s)) _ _ _ _ _ _ _ _ _ eq_refl _ O _ _).
      * intros T V. cbn [valid] in V. apply V; auto. apply incl_refl.
      * reflexivity.
      * intros N. split; [discriminate|]. split; [discriminate|]. destruct c; [|reflexivity]. destruct r as [|[d q] [|]]; cbn [ok] in O; [congruence| |destruct O].
        destruct O as (_ & X & _). discriminate X.
    + injection E as <-. apply at_inv; [exact I|cbn; lia|intros y [<-|[]]; reflexivity|].
      assert (D : thread_of (Told t x) = Some t) by reflexivity. destruct (own_event (s_hist s) _ _ D) as (-> & -> & ->). rewrite own_during by (auto; discriminate).
      destruct r as [|[d q] [|]]; cbn [ok] in O |- *; [| |destruct O].
      * destruct O as ((-> & Hl & Hr & Hw & V1 & V2) & L & _). split; [|split; [reflexivity|discriminate]]. cbn [valid']. do 4 (split; [assumption || reflexivity|]). split; [eauto|]. auto.
      * exfalso. destruct O as (_ & O). destruct c; [destruct O as (X & _); discriminate X|].
        destruct O as (x' & h' & k0 & _ & _ & _ & [(_ & X & _)|(_ & (X & _) & _)]); discriminate X.
    + discriminate E.
    + injection E as <-. apply becomes_inv; [|reflexivity].
      apply at_inv; [exact I|cbn; lia|intros y []|]. rewrite app_nil_r.
      refine (frame_ok c (Grow k) r k _ _ _ _ _ _ _ _ _ eq_refl _ O _ _).
      * intros T V. apply V.
      * reflexivity.
      * intros N. split; [discriminate|]. split; [discriminate|]. destruct c; [|reflexivity]. destruct r as [|[d q] [|]]; cbn [ok] in O; [congruence| |destruct O].
        destruct O as (_ & X & _). discriminate X.
  - (* Return *)
    specialize (O t). unfold okat in O. destruct (s_stack s t) as [|[c p] r] eqn:Es; [discriminate E|]. destruct p as [| | | | |x h k|]; try discriminate E. injection E as <-.
    apply at_inv; [exact I|cbn; lia|intros y [<-|[]]; reflexivity|].
    assert (D : thread_of (Came t) = Some t) by reflexivity. destruct (own_event (s_hist s) _ _ D) as (-> & -> & ->). rewrite own_during by (auto; discriminate).
    destruct r as [|[d q] [|]]; cbn [ok] in O; [| |destruct O].
    + destruct O as ((-> & Hl & Hr & Hw & X & V1 & V2) & L & _). rewrite Hw. apply one_ok; [exact V2|discriminate].
    + exfalso. destruct O as (_ & O). destruct c; [destruct O as (X & _); discriminate X|].
      destruct O as (x' & h' & k0 & _ & _ & _ & [(_ & X & _)|(_ & X & _)]); [discriminate X|destruct X].
  - (* Throw *)
    specialize (O t). unfold okat in O. destruct (s_stack s t) as [|[c p] r] eqn:Es; [discriminate E|]. destruct p as [| | | | |x h k|]; try discriminate E. injection E as <-.
    apply at_inv; [exact I|cbn; lia|intros y [<-|[]]; reflexivity|].
    assert (D : thread_of (Threw t) = Some t) by reflexivity. destruct (own_event (s_hist s) _ _ D) as (-> & -> & ->). rewrite own_during by (auto; discriminate).
    destruct r as [|[d q] [|]]; cbn [ok] in O; [| |destruct O].
    + destruct O as ((-> & Hl & Hr & Hw & X & V1 & V2) & L & _). apply one_ok; [exact V1|discriminate].
    + exfalso. destruct O as (_ & O). destruct c; [destruct O as (X & _); discriminate X|].
      destruct O as (x' & h' & k0 & _ & _ & _ & [(_ & X & _)|(_ & X & _)]); [discriminate X|destruct X].
  - destruct (s_log s) eqn:El; [discriminate E|]. injection E as <-. apply becomes_inv; [exact I|]. intros u. rewrite El. discriminate.
  - injection E as <-. apply becomes_inv; [exact I|reflexivity].
Qed.

Lemma sinv_run w0 sched : sinv w0 (stats_run w0 sched).
Proof.
  unfold stats_run. induction sched as [|a sched IH] using rev_ind.
  - split; intros t; cbn; auto.
  - rewrite run_snoc. unfold move. destruct (stats_step _ a) eqn:E; [|exact IH]. eapply sinv_step; eauto.
Qed.
