(** Time stamps of several threads. *)
From Verif Require Import Base Spec.Calendar Model.Interleave Proofs.Interleave Model.Export Model.FileName Model.FileTime Proofs.FileName.
Open Scope nat_scope.

Lemma member_eqb_spec a b : reflect (a = b) (member_eqb a b).
Proof. destruct a, b; constructor; congruence. Qed.

(** Only members still to be written are not written. *)
Lemma filter_todo m x todo : ~ In x (filter (fun y => negb (member_eqb m y)) todo) -> x = m \/ ~ In x todo.
Proof.
  intros H. destruct (member_eqb_spec m x) as [->|N]; [now left|]. right. intros I. apply H, filter_In. split; [exact I|].
  now destruct (member_eqb_spec m x).
Qed.

Lemma all_members m : In m members.
Proof. destruct m; cbn; tauto. Qed.

Definition asks (a : action) (now : N) : Prop := exists t, a = Stamp t now \/ a = Other t now.

(** * Anybody *)

Section Anybody.
  Variable P : N -> Prop.

  Definition valid (w : world) (m : member) : Prop := exists now, P now /\ w_tm w m = field m (gmtime now).
  Definition sound (m : member) (v : N) : Prop := exists now, P now /\ v = field m (gmtime now).
  Definition mixed (u : utc) : Prop := forall m, sound m (field m u).

  Definition minv (w : world) : Prop :=
    (forall t, match w_doing w t with
               | Elsewhere => True
               | Filling now todo _ => P now /\ forall m, ~ In m todo -> valid w m
               | Copying now got => P now /\ (forall m, valid w m) /\ length got < 6 /\ forall i m, i < length got -> nth_error members i = Some m -> sound m (nth i got 0%N)
               end) /\
    (forall t now x, In (t, now, x) (w_stamps w) -> P now /\ exists u, x = stamp_of u /\ mixed u).

  Lemma minv_step w a w' : minv w -> (forall now, asks a now -> P now) -> step w a = Some w' -> minv w'.
  Proof.
    intros [I J] Q E. destruct a as [t now|t now|t m|t]; cbn [step] in E; cbn zeta in E; pose proof (I t) as It; destruct (w_doing w t) as [|now0 todo ours|now0 got] eqn:D; try discriminate.
    - injection E as <-. split; [|exact J]. intros u. cbn [w_doing w_tm]. unfold tset. destruct (Nat.eqb_spec u t) as [->|_]; [|exact (I u)].
      split; [apply Q; exists t; auto|]. intros m H. destruct (H (all_members m)).
    - injection E as <-. split; [|exact J]. intros u. cbn [w_doing w_tm]. unfold tset. destruct (Nat.eqb_spec u t) as [->|_]; [|exact (I u)].
      split; [apply Q; exists t; auto|]. intros m H. destruct (H (all_members m)).
    - destruct (existsb _ _) eqn:X; [|discriminate]. injection E as <-. destruct It as [Pn V].
      set (w' := {| w_tm := _; w_doing := _; w_stamps := _ |}).
      assert (K : forall x, valid w x -> valid w' x).
      { intros x (n & Pn' & En). unfold valid, w'. cbn [w_tm]. destruct (member_eqb_spec m x) as [->|_]; [exists now0; auto|exists n; auto]. }
      assert (K' : valid w' m). { exists now0. split; [exact Pn|]. unfold w'. cbn [w_tm]. destruct (member_eqb_spec m m); [reflexivity|congruence]. }
      split; [|exact J]. intros u. unfold w' at 1. cbn [w_doing]. unfold tset. destruct (Nat.eqb_spec u t) as [->|_].
      + assert (F : forall x, ~ In x (filter (fun y => negb (member_eqb m y)) todo) -> valid w' x).
        { intros x H. apply filter_todo in H as [->|H]; auto. }
        destruct (filter _ todo) as [|y r]; [|split; auto]. destruct ours; auto.
        split; [exact Pn|]. split; [intros x; apply F; intros []|]. split; [cbn; lia|]. intros i m' L. cbn [length] in L. lia.
      + specialize (I u). destruct (w_doing w u) as [|n td o|n g]; auto.
        * destruct I as [A B]. split; auto.
        * destruct I as (A & B & C). split; auto.
    - destruct It as (Pn & V & L & G). destruct (nth_error members (length got)) as [m|] eqn:M; [|discriminate]. injection E as <-.
      assert (G' : forall i m', i < length (got ++ [w_tm w m]) -> nth_error members i = Some m' -> sound m' (nth i (got ++ [w_tm w m]) 0%N)).
      { intros i m' Li Em. rewrite app_length in Li. cbn [length] in Li. destruct (Nat.eq_dec i (length got)) as [->|Ne].
        - rewrite nth_middle. rewrite M in Em. injection Em as <-. exact (V m).
        - rewrite app_nth1 by lia. apply G; [lia|exact Em]. }
      destruct (Nat.eqb_spec (length (got ++ [w_tm w m])) 6) as [S|S].
      + split.
        * intros u. cbn [w_doing w_tm]. unfold tset. destruct (Nat.eqb_spec u t) as [->|_]; [exact Logic.I|exact (I u)].
        * intros t' n x H. cbn [w_stamps] in H. destruct H as [H|H]; [|exact (J _ _ _ H)]. injection H as <- <- <-. split; [exact Pn|].
          exists (made_of (got ++ [w_tm w m])). split; [reflexivity|]. rewrite S in G'.
          intros m'. destruct m'; cbn [field made_of tm_year tm_mon tm_day tm_hour tm_min tm_sec]; apply G'; auto; lia.
      + split; [|exact J]. intros u. cbn [w_doing w_tm]. unfold tset. destruct (Nat.eqb_spec u t) as [->|_]; [|exact (I u)].
        split; [exact Pn|]. split; [exact V|]. split; [|exact G']. rewrite app_length in *. cbn [length] in *. lia.
  Qed.

  Lemma minv_run sched : forall w, minv w -> (forall a now, In a sched -> asks a now -> P now) -> minv (run step w sched).
  Proof.
    induction sched as [|a r IH]; intros w I Q; cbn [run]; [exact I|]. apply IH; [|intros b now Ib; apply Q; now right].
    unfold move. destruct (step w a) as [w'|] eqn:E; [|exact I]. apply (minv_step w a); auto. intros now. apply Q. now left.
  Qed.
End Anybody.

Lemma minv0 P : minv P world0.
Proof. split; [intros t; exact Logic.I|intros t now x []]. Qed.

(** * One thread that no other disturbs *)

Section Undisturbed.
  Variable t : tid.
  Variable before : list (tid * N * option bytes).

  Definition uinv (w : world) : Prop :=
    match w_doing w t with
    | Elsewhere => True
    | Filling now todo _ => forall m, ~ In m todo -> w_tm w m = field m (gmtime now)
    | Copying now got => (forall m, w_tm w m = field m (gmtime now)) /\ length got < 6 /\
        forall i m, i < length got -> nth_error members i = Some m -> nth i got 0%N = field m (gmtime now)
    end /\
    exists new, w_stamps w = new ++ before /\ forall now x, In (t, now, x) new -> x = stamp now.

  Lemma uinv_step w a w' : uinv w -> (forall u m, a = Put u m -> u = t) -> step w a = Some w' -> uinv w'.
  Proof.
    intros [I (new & J1 & J2)] Q E. unfold uinv. destruct a as [u now|u now|u m|u]; cbn [step] in E; cbn zeta in E; destruct (w_doing w u) as [|now0 todo ours|now0 got] eqn:D; try discriminate.
    - injection E as <-. split; [|exists new; auto]. cbn [w_doing w_tm]. unfold tset. destruct (Nat.eqb_spec t u) as [->|_]; [|exact I].
      intros m H. destruct (H (all_members m)).
    - injection E as <-. split; [|exists new; auto]. cbn [w_doing w_tm]. unfold tset. destruct (Nat.eqb_spec t u) as [->|_]; [|exact I].
      intros m H. destruct (H (all_members m)).
    - pose proof (Q u m eq_refl) as ->. rewrite D in I. destruct (existsb _ _) eqn:X; [|discriminate]. injection E as <-. split; [|exists new; auto].
      cbn [w_doing]. unfold tset. rewrite Nat.eqb_refl.
      assert (F : forall x, ~ In x (filter (fun y => negb (member_eqb m y)) todo) -> (if member_eqb m x then field m (gmtime now0) else w_tm w x) = field x (gmtime now0)).
      { intros x H. destruct (member_eqb_spec m x) as [->|N]; [reflexivity|]. apply filter_todo in H as [->|H]; [congruence|auto]. }
      destruct (filter _ todo) as [|y r]; [|exact F]. destruct ours; [|exact Logic.I].
      split; [intros x; apply F; intros []|]. split; [cbn; lia|]. intros i m' L. cbn [length] in L. lia.
    - destruct (nth_error members (length got)) as [m|] eqn:M; [|discriminate]. injection E as <-.
      destruct (Nat.eq_dec u t) as [->|Nu].
      + rewrite D in I. destruct I as (V & L & G).
        assert (G' : forall i m', i < length (got ++ [w_tm w m]) -> nth_error members i = Some m' -> nth i (got ++ [w_tm w m]) 0%N = field m' (gmtime now0)).
        { intros i m' Li Em. rewrite app_length in Li. cbn [length] in Li. destruct (Nat.eq_dec i (length got)) as [->|Ne].
          - rewrite nth_middle. rewrite M in Em. injection Em as <-. exact (V m).
          - rewrite app_nth1 by lia. apply G; [lia|exact Em]. }
        destruct (Nat.eqb_spec (length (got ++ [w_tm w m])) 6) as [S|S]; cbn [w_doing w_tm w_stamps]; unfold tset; rewrite Nat.eqb_refl.
        * split; [exact Logic.I|]. exists ((t, now0, stamp_of (made_of (got ++ [w_tm w m]))) :: new). rewrite J1. split; [reflexivity|].
          intros n x [H|H]; [|exact (J2 n x H)]. injection H as <- <-. rewrite S in G'.
          replace (made_of _) with (gmtime now0); [reflexivity|]. unfold made_of.
          rewrite (G' 0 Year), (G' 1 Month), (G' 2 Day), (G' 3 Hour), (G' 4 Minute), (G' 5 Second) by (try reflexivity; lia). cbn [field]. now destruct (gmtime now0).
        * split; [|exists new; auto]. split; [exact V|]. split; [|exact G']. rewrite app_length in *. cbn [length] in *. lia.
      + destruct (Nat.eqb_spec (length (got ++ [w_tm w m])) 6) as [S|S]; cbn [w_doing w_tm w_stamps]; rewrite tset_other by auto.
        * split; [exact I|]. exists ((u, now0, stamp_of (made_of (got ++ [w_tm w m]))) :: new). rewrite J1. split; [reflexivity|].
          intros n x [H|H]; [|exact (J2 n x H)]. congruence.
        * split; [exact I|exists new; auto].
  Qed.

  Lemma uinv_run sched : forall w, uinv w -> (forall u m, In (Put u m) sched -> u = t) -> uinv (run step w sched).
  Proof.
    induction sched as [|a r IH]; intros w I Q; cbn [run]; [exact I|]. apply IH; [|intros u m H; apply (Q u m); now right].
    unfold move. destruct (step w a) as [w'|] eqn:E; [|exact I]. apply (uinv_step w a); auto. intros u m ->. apply (Q u m). now left.
  Qed.
End Undisturbed.

Lemma stamp_of_range u : in_range u -> stamp_of u = Some (timestamp u).
Proof.
  intros H. pose proof (timestamp_length u H) as L. unfold stamp_of, strftime, stamp_room. rewrite L. cbn [Nat.leb].
  rewrite app_length, L. cbn [length Nat.add Nat.sub repeat]. rewrite app_nil_r, firstn_app, L, (firstn_all2 (n := 20)) by lia. cbn [Nat.sub firstn]. now rewrite app_nil_r.
Qed.

Lemma mixed_range (P : N -> Prop) u : (forall now, P now -> (now < 253402300800)%N) -> mixed P u -> in_range u.
Proof.
  intros Q H. assert (R : forall m, exists v, in_range v /\ field m u = field m v).
  { intros m. destruct (H m) as (now & Pn & E). exists (gmtime now). split; [|exact E]. apply (denotes_range _ now); [apply gmtime_denotes|auto]. }
  unfold in_range. destruct (R Year) as (a & Ra & Ea), (R Month) as (b & Rb & Eb), (R Day) as (c & Rc & Ec), (R Hour) as (d & Rd & Ed), (R Minute) as (e & Re & Ee), (R Second) as (f & Rf & Ef).
  cbn [field] in *. unfold in_range in *. lia.
Qed.

Lemma utc_total u v : u = v \/ utc_lt u v \/ utc_lt v u.
Proof.
  destruct u as [a b c d e f], v as [a' b' c' d' e' f']. unfold utc_lt. cbn [tm_year tm_mon tm_day tm_hour tm_min tm_sec].
  destruct (N.lt_trichotomy a a') as [?|[->|?]]; [lia| |lia]. destruct (N.lt_trichotomy b b') as [?|[->|?]]; [lia| |lia].
  destruct (N.lt_trichotomy c c') as [?|[->|?]]; [lia| |lia]. destruct (N.lt_trichotomy d d') as [?|[->|?]]; [lia| |lia].
  destruct (N.lt_trichotomy e e') as [?|[->|?]]; [lia| |lia]. destruct (N.lt_trichotomy f f') as [?|[->|?]]; [lia| |lia]. now left.
Qed.

Lemma timestamp_inj u v : in_range u -> in_range v -> timestamp u = timestamp v -> u = v.
Proof.
  intros U V E. destruct (utc_total u v) as [->|[L|L]]; [reflexivity| |]; exfalso.
  - exact (splits_ne _ _ (timestamp_order u v U V L) E).
  - exact (splits_ne _ _ (timestamp_order v u V U L) (eq_sym E)).
Qed.
