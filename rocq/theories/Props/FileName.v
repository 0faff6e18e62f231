(** C94: the names of saved files. *)
From Verif Require Import Base Spec.Text Spec.Json Spec.Numeral Spec.Calendar
  Model.StringUtils Model.Export Model.FileName Proofs.Strings Proofs.Numerals Proofs.FileName.
Local Open Scope N_scope.

(** [mentions from path]: the two characters [from] occur in [path]. *)
Definition mentions (from path : bytes) : Prop := exists n, occurs_at from path n.

(** The start of the year 10000. *)
Definition year_10000 : N := 253402300800.

(** C94: the time stamp is the date and time of the moment in UTC, written with
    fields of a fixed width. *)
Theorem C94_stamp : forall t, t < year_10000 ->
  exists u, denotes u t /\ stamp t = Some (timestamp u) /\ length (timestamp u) = 20%nat /\
    (forall u', denotes u' t -> u' = u).
Proof.
  intros t L. exists (gmtime t). pose proof (gmtime_denotes t) as D.
  split; [exact D|]. split; [now apply stamp_spec|].
  split; [apply timestamp_length, (denotes_range _ t); [exact D|exact L]|].
  intros u' D'. apply (denotes_unique _ _ _ D' D).
Qed.
Print Assumptions C94_stamp.

(** Of two moments in different seconds, the later one's stamp, and the later
    one's file name if the path mentions %d, sorts after the earlier one's. *)
Theorem C94_order : forall path pid t t', mentions $"%d" path -> t < t' -> t' < year_10000 ->
  exists n n', file_name path pid t = Some n /\ file_name path pid t' = Some n' /\ sorts_before n n' /\ n <> n'.
Proof.
  intros path pid t t' M L L'. destruct (dated_name path pid M) as (pre & post & E).
  assert (t < 253402300800) as L0 by (unfold year_10000 in L'; lia).
  rewrite !E, !stamp_spec by assumption. do 2 eexists. split; [reflexivity|]. split; [reflexivity|].
  assert (splits (pre ++ timestamp (gmtime t) ++ post) (pre ++ timestamp (gmtime t') ++ post)) as S.
  { apply splits_pre, splits_post, timestamp_order;
      [apply (denotes_range _ t)|apply (denotes_range _ t')|apply (denotes_order _ _ t t')];
      try apply gmtime_denotes; assumption. }
  split; [now apply splits_sorts|now apply splits_ne].
Qed.
Print Assumptions C94_order.

(** Different processes whose path mentions %p never use one name. *)
Theorem C94_processes : forall path p p' t t' n, mentions $"%p" path -> p <> p' ->
  file_name path p t = Some n -> file_name path p' t' <> Some n.
Proof. intros path p p' t t' n M N E E'. apply N. exact (pid_name path p p' t t' n M E E'). Qed.
Print Assumptions C94_processes.

(** Traces saved under one path that mentions %p and %d, no two of them by the
    same process in the same second, are all still there in the end. *)
Theorem C94_all_kept : forall path l d,
  mentions $"%p" path -> mentions $"%d" path ->
  (forall s, In s l -> st_path s = path /\ st_time s < year_10000) ->
  NoDup (map (fun s => (st_pid s, st_time s)) l) ->
  exists d', save_all d l = Some d' /\
    (forall s, In s l -> exists n, file_name path (st_pid s) (st_time s) = Some n /\ d' n = Some (st_text s)) /\
    (forall n, (forall s, In s l -> file_name path (st_pid s) (st_time s) <> Some n) -> d' n = d n).
Proof.
  intros path l d MP MD. revert d. induction l as [|s l IH]; intros d H ND.
  - exists d. split; [reflexivity|]. split; [intros s []|auto].
  - cbn [map] in ND. apply NoDup_cons_iff in ND as [Nin ND].
    destruct (H s (or_introl eq_refl)) as [Ep Lt].
    destruct (dated_name path (st_pid s) MD) as (pre & post & E).
    assert (file_name path (st_pid s) (st_time s) = Some (pre ++ timestamp (gmtime (st_time s)) ++ post)) as En
      by (rewrite E, stamp_spec by exact Lt; reflexivity).
    set (n := pre ++ timestamp (gmtime (st_time s)) ++ post) in *.
    destruct (IH (put d n (st_text s)) (fun s' H' => H s' (or_intror H')) ND) as (d' & E1 & E2 & E3).
    exists d'. cbn [save_all]. unfold save. rewrite Ep, En. split; [exact E1|]. split.
    + intros s' [<-|H']; [|now apply E2]. exists n. split; [exact En|]. rewrite E3.
      * unfold put. destruct (list_eq_dec ascii_dec n n) as [_|K]; [reflexivity|contradiction K; reflexivity].
      * intros s' H' K. apply Nin. apply in_map_iff. exists s'. split; [|exact H'].
        assert (st_pid s' = st_pid s) as EP by exact (pid_name path _ _ _ _ n MP K En).
        f_equal; [exact EP|].
        destruct (N.lt_trichotomy (st_time s') (st_time s)) as [L|[L|L]]; [|exact L|]; exfalso.
        -- destruct (C94_order path (st_pid s) _ _ MD L Lt) as (a & b & A & B & _ & Ne). rewrite EP in K. congruence.
        -- destruct (C94_order path (st_pid s) _ _ MD L (proj2 (H s' (or_intror H')))) as (a & b & A & B & _ & Ne). rewrite EP in K. congruence.
    + intros m Hm. rewrite E3 by (intros s' H'; apply Hm; now right).
      unfold put. destruct (list_eq_dec ascii_dec m n) as [->|_]; [|reflexivity].
      exfalso. apply (Hm s (or_introl eq_refl)). exact En.
Qed.
Print Assumptions C94_all_kept.

(** But two traces of one process stopped within one second: the second replaces
    the first, whatever the path. *)
Theorem C94_same_second : forall path pid t text text', t < year_10000 ->
  exists d n, save_all (fun _ => None) [ {| st_path := path; st_pid := pid; st_time := t; st_text := text |};
                                        {| st_path := path; st_pid := pid; st_time := t; st_text := text' |} ] = Some d /\
    d n = Some text' /\ forall m, m <> n -> d m = None.
Proof.
  intros path pid t text text' L. cbn [save_all]. unfold save. cbn [st_path st_pid st_time st_text].
  unfold file_name. rewrite stamp_spec by exact L. set (n := string_replace _ _ _).
  eexists _, n. split; [reflexivity|]. unfold put. split.
  - destruct (list_eq_dec ascii_dec n n) as [_|K]; [reflexivity|contradiction K; reflexivity].
  - intros m Hm. destruct (list_eq_dec ascii_dec m n); [contradiction|reflexivity].
Qed.
Print Assumptions C94_same_second.

Theorem C94_kept_refuted : exists path l d s, mentions $"%p" path /\ mentions $"%d" path /\
  (forall s', In s' l -> st_path s' = path /\ st_time s' < year_10000) /\
  In s l /\ save_all (fun _ => None) l = Some d /\ forall n, d n <> Some (st_text s).
Proof.
  destruct (C94_same_second $"t.%p.%d.json" 7 1709251199 $"a" $"b" eq_refl) as (d & n & E & H1 & H2).
  set (a := {| st_path := $"t.%p.%d.json"; st_pid := 7; st_time := 1709251199; st_text := $"a" |}) in *.
  set (b := {| st_path := $"t.%p.%d.json"; st_pid := 7; st_time := 1709251199; st_text := $"b" |}) in *.
  exists $"t.%p.%d.json", [a; b], d, a. split; [exists 2%nat, $"t.", $".%d.json"; auto|].
  split; [exists 5%nat, $"t.%p.", $".json"; auto|]. split; [|split; [left; reflexivity|split; [exact E|]]].
  - intros s' [<-|[<-|[]]]; split; reflexivity.
  - intros m K. destruct (list_eq_dec ascii_dec m n) as [->|N].
    + rewrite H1 in K. discriminate K.
    + rewrite H2 in K by exact N. discriminate K.
Qed.
Print Assumptions C94_kept_refuted.

(** From the year 10000 on the text does not fit, and the name is unspecified. *)
Theorem C94_late : forall path pid t, year_10000 <= t -> file_name path pid t = None.
Proof. intros path pid t L. unfold file_name. now rewrite stamp_late by exact L. Qed.
Print Assumptions C94_late.

(** A leap day, the second after it, and the last second that fits. *)
Example C94_case :
  mentions $"%p" $"t.%p.%d.json" /\ mentions $"%d" $"t.%p.%d.json" /\ 1709251199 < year_10000 /\
  file_name $"t.%p.%d.json" 7 1709251199 = Some $"t.7.2024.02.29T23.59.59Z.json" /\
  file_name $"t.%p.%d.json" 7 1709251200 = Some $"t.7.2024.03.01T00.00.00Z.json".
Proof.
  split; [exists 2%nat, $"t.", $".%d.json"; auto|]. split; [exists 5%nat, $"t.%p.", $".json"; auto|].
  split; [reflexivity|]. split; vm_compute; reflexivity.
Qed.
Example C94_case_last : stamp (year_10000 - 1) = Some $"9999.12.31T23.59.59Z".
Proof. vm_compute. reflexivity. Qed.
