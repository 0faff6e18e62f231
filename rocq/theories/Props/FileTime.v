(** C99: time stamps of saves that overlap. *)
From Verif Require Import Base Spec.Calendar Model.Interleave Model.Export Model.FileName Model.FileTime Proofs.FileName Proofs.FileTime.
Open Scope N_scope.

(** A time somebody asks for. *)
Definition asked (sched : list action) (now : N) : Prop := exists t, In (Stamp t now) sched \/ In (Other t now) sched.

(** The start of the year 10000. *)
Definition last_year (now : N) : Prop := now < 253402300800.

(** C99: a thread in which no other thread's gmtime interferes gets the stamp of
    its time, whatever happened before and whatever others read. *)
Theorem C99_undisturbed : forall w t sched, w_doing w t = Elsewhere ->
  (forall u m, In (Put u m) sched -> u = t) ->
  exists new, w_stamps (run step w sched) = new ++ w_stamps w /\
    forall now x, In (t, now, x) new -> x = stamp now.
Proof.
  intros w t sched E Q. apply (uinv_run t (w_stamps w) sched w); [|exact Q]. split; [now rewrite E|]. exists []. split; [reflexivity|intros now x []].
Qed.
Print Assumptions C99_undisturbed.

(** C99: whatever the interleaving, a stamp has the shape of one and each of its
    members is that of a time somebody asked for. *)
Theorem C99_mixed : forall sched t now x, (forall n, asked sched n -> last_year n) ->
  In (t, now, x) (w_stamps (run step world0 sched)) ->
  asked sched now /\ exists u, x = Some (timestamp u) /\ length (timestamp u) = 20%nat /\
    forall m, exists n v, asked sched n /\ denotes v n /\ field m u = field m v.
Proof.
  intros sched t now x L H. destruct (minv_run (asked sched) sched world0 (minv0 _)) as [_ J].
  { intros a n I (v & [->| ->]); exists v; auto. }
  destruct (J t now x H) as (Pn & u & -> & M). split; [exact Pn|]. exists u. pose proof (mixed_range _ u L M) as R.
  split; [now apply stamp_of_range|]. split; [now apply timestamp_length|]. intros m. destruct (M m) as (n & An & E). exists n, (gmtime n). split; [exact An|]. split; [apply gmtime_denotes|exact E].
Qed.
Print Assumptions C99_mixed.

(** C99: so it is right if all of them ask in the same second. *)
Theorem C99_same_second : forall sched t now x, (forall n, asked sched n -> n = now) -> last_year now ->
  In (t, now, x) (w_stamps (run step world0 sched)) -> x = stamp now.
Proof.
  intros sched t now x S L H. destruct (C99_mixed sched t now x) as (_ & u & -> & _ & M); [intros n A; now rewrite (S n A)|exact H|].
  assert (E : u = gmtime now).
  { assert (K : forall m, field m u = field m (gmtime now)).
    { intros m. destruct (M m) as (n & v & A & D & ->). f_equal. apply (denotes_unique _ _ now); [now rewrite <- (S n A)|apply gmtime_denotes]. }
    pose proof (K Year); pose proof (K Month); pose proof (K Day); pose proof (K Hour); pose proof (K Minute); pose proof (K Second). cbn [field] in *.
    destruct u, (gmtime now); cbn in *; congruence. }
  rewrite E. symmetry. now apply stamp_spec.
Qed.
Print Assumptions C99_same_second.

(** One thread calls gmtime and strftime while another does the same. *)
Definition puts (t : tid) (l : list member) : list action := map (Put t) l.
Definition gets (t : tid) (n : nat) : list action := repeat (Get t) n.

(** 2024-01-31 23:59:59 and 2024-02-01 00:00:00. *)
Definition evening : N := 1706745599.
Definition midnight : N := 1706745600.

(** Refuted: "the stamp of a save is a moment of the calendar". *)
Definition month_end : list action :=
  Stamp 0%nat midnight :: Stamp 1%nat evening :: puts 0%nat members ++ gets 0%nat 2%nat ++ puts 1%nat members ++ gets 0%nat 4%nat.

Theorem C99_moment_refuted : exists sched t now x,
  (forall n, asked sched n -> last_year n) /\
  In (t, now, x) (w_stamps (run step world0 sched)) /\ forall n, last_year n -> x <> stamp n.
Proof.
  exists month_end, 0%nat, midnight, (Some $"2024.02.31T23.59.59Z"). split; [|split; [vm_compute; auto|]].
  - intros n (t & [H|H]); repeat (destruct H as [H|H]; [first [discriminate H|injection H as _ <-; reflexivity]|]); destruct H.
  - intros n L E. rewrite stamp_spec in E by exact L. set (u := {| tm_year := 2024; tm_mon := 2; tm_day := 31; tm_hour := 23; tm_min := 59; tm_sec := 59 |}).
    assert (R : in_range (gmtime n)) by (apply (denotes_range _ n); [apply gmtime_denotes|exact L]).
    assert (G : gmtime n = u).
    { apply timestamp_inj; [exact R|unfold u, in_range; cbn [tm_year tm_mon tm_day tm_hour tm_min tm_sec]; lia|].
      transitivity $"2024.02.31T23.59.59Z"; [congruence|vm_compute; reflexivity]. }
    destruct (gmtime_denotes n) as (yd & md & len & _ & _ & M & D & _). rewrite G in M, D. unfold u in M, D. cbn [tm_year tm_mon tm_day] in M, D.
    apply month_has_spec in M as [_ M]. vm_compute in M. lia.
Qed.
Print Assumptions C99_moment_refuted.

(** Refuted: "saves in different seconds have different stamps". *)
Theorem C99_different_refuted : exists sched x,
  In (0%nat, midnight, x) (w_stamps (run step world0 sched)) /\ In (1%nat, evening, x) (w_stamps (run step world0 sched)).
Proof.
  exists (Stamp 0%nat midnight :: Stamp 1%nat evening :: puts 0%nat members ++ puts 1%nat members ++ gets 0%nat 6%nat ++ gets 1%nat 6%nat), (stamp evening).
  split; vm_compute; auto.
Qed.
Print Assumptions C99_different_refuted.

(** Refuted: "making a stamp is free of data races". *)
Theorem C99_race_refuted : exists sched t u m b, t <> u /\
  may_access (run step world0 sched) t m true /\ may_access (run step world0 sched) u m b.
Proof.
  exists (Stamp 0%nat midnight :: Stamp 1%nat evening :: puts 0%nat members), 1%nat, 0%nat, Year, false. split; [discriminate|]. split; vm_compute; auto.
Qed.
Print Assumptions C99_race_refuted.

(** The other thread reads while one stamps; afterwards it stamps itself. *)
Example C99_case : let sched := Stamp 0%nat midnight :: puts 0%nat (rev members) ++ gets 0%nat 6%nat in
  (forall u m, In (Put u m) sched -> u = 0%nat) /\ w_doing world0 0%nat = Elsewhere /\
  w_stamps (run step world0 (sched ++ Stamp 1%nat evening :: puts 1%nat members ++ gets 1%nat 6%nat)) =
    [(1%nat, evening, Some $"2024.01.31T23.59.59Z"); (0%nat, midnight, Some $"2024.02.01T00.00.00Z")].
Proof.
  cbn zeta. split; [|split; [reflexivity|vm_compute; reflexivity]].
  intros u m H. repeat (destruct H as [H|H]; [first [discriminate H|injection H as <- <-; reflexivity]|]). destruct H.
Qed.
