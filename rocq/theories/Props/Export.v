(** C40-C45: exporting a trace as JSON. *)
From Verif Require Import Base Spec.Text Spec.History Spec.Json Spec.Numeral Spec.EventValue Spec.Document
  Model.StringUtils Model.Event Model.Queue Model.Buffer Model.Export
  Proofs.Strings Proofs.Numerals Proofs.Buffer Proofs.JsonText Proofs.Event Proofs.Export Props.Buffer.

(** A context of one buffer and some thread names. *)
Definition holding (v : view) (names : list (N * bytes)) : context :=
  {| cx_buffer := Some v; cx_names := names |}.

(** [outs] are the successive pieces of [text] of (at most) the lengths [ns]. *)
Inductive pieces : list nat -> bytes -> list bytes -> Prop :=
| pieces_done text : pieces [] text []
| pieces_more n ns out rest outs :
    length out = n -> pieces ns rest outs -> pieces (n :: ns) (out ++ rest) (out :: outs)
| pieces_last n ns text outs :
    length text <= n -> pieces ns [] outs -> pieces (n :: ns) text (text :: outs).

Lemma cut_pieces : forall ns text, pieces ns text (cut ns text).
Proof.
  induction ns as [|n ns IH]; intros text; cbn [cut]; [constructor|].
  destruct (Nat.le_gt_cases (length text) n) as [H|H].
  - rewrite firstn_all2, skipn_all2 by lia. apply pieces_last; [exact H|apply IH].
  - rewrite <- (firstn_skipn n text) at 1. apply pieces_more; [rewrite firstn_length; lia|apply IH].
Qed.

(** Reading a fresh exporter. *)
Definition export_reads mem pid (c : context) (ns : list nat) : res (list bytes * exporter) :=
  do x <- export_new c; reads mem pid c x ns.

(** C40: the pieces are those of the one document of the context. *)
Theorem C40_read_sizes : forall mem pid v names text, document mem pid v names text ->
  forall ns, exists outs x, export_reads mem pid (holding v names) ns = Ok (outs, x) /\
    pieces ns text outs /\ concat outs = firstn (list_sum ns) text.
Proof.
  intros mem pid v names text HD ns. destruct (new_spec mem pid v names text HD) as (x & E & G & R & _).
  unfold export_reads, holding. rewrite E. cbn [bind].
  destruct (reads_spec mem pid v names ns x G) as (x' & E' & _ & _).
  exists (cut ns (remaining mem pid v x)), x'. rewrite R in *. split; [exact E'|].
  split; [apply cut_pieces|apply cut_concat].
Qed.
Print Assumptions C40_read_sizes.

(** Two events by thread 7 and a named thread. *)
Definition two_events : view := {|
  v_count := 1;
  v_chunk := fun _ => {| c_next := 2; c_tid := 7; c_arr := fun i => sample (Z.of_N i) |};
|}.
Definition no_mem : memory := fun _ => None.

Example C40_case :
  let c := holding two_events [(7%N, $"main")] in
  exists a b d x, export_reads no_mem 5 c [10; 100; 1000] = Ok ([a; b; d], x) /\
    length a = 10 /\ length b = 100 /\ 0 < length d < 1000 /\
    a ++ b ++ d = $"{""traceEvents"":[{""name"":""thread_name"",""ph"":""M"",""pid"":5,""tid"":7,""args"":{""name"":""main""}},"
      ++ $"{""name"":""name"",""cat"":""cat"",""ph"":""i"",""s"":""t"",""ts"":0.000,""pid"":5,""tid"":7,""args"":{}},"
      ++ $"{""name"":""name"",""cat"":""cat"",""ph"":""i"",""s"":""t"",""ts"":0.001,""pid"":5,""tid"":7,""args"":{}}]}".
Proof. do 4 eexists. split; [vm_compute; reflexivity|]. cbn [length]. split; [reflexivity|]. split; [reflexivity|]. split; [lia|reflexivity]. Qed.

(** C41: clean records and thread names export to one JSON object holding the
    thread names and then the events in buffer order. *)
Theorem C41_document_is_json : forall mem pid v names lgs,
  Forall2 (fun p l => stores l (fst p) /\ clean mem l) (events_of v) lgs ->
  Forall (fun a => (fst a < 2 ^ 31)%N /\ all_plain (snd a) /\ c_str (snd a) = snd a) names ->
  exists text js,
    (exists x, export_reads mem pid (holding v names) [length text] = Ok ([text], x)) /\
    document mem pid v names text /\
    json_parse text = Some (JObj [($"traceEvents", JArr (map (thread_record pid) names ++ js))]) /\
    Forall2 (fun pl j => record_of mem pid (snd (fst pl)) (snd pl) j) (combine (events_of v) lgs) js.
Proof.
  intros mem pid v names lgs H1 H2. destruct (document_json mem pid v names lgs H1 H2) as (text & js & D & J & R).
  exists text, js. split; [|auto].
  destruct (C40_read_sizes mem pid v names text D [length text]) as (outs & x & E & P & C).
  exists x. rewrite E. do 2 f_equal. inversion P as [|? ? ? ? ? L P'|? ? ? ? L P']; subst;
    inversion P'; subst; [|reflexivity].
  cbn in C. rewrite ?app_nil_r in *. rewrite app_length in L. destruct rest; [now rewrite app_nil_r|cbn in L; lia].
Qed.
Print Assumptions C41_document_is_json.

Definition plain_record (i : Z) : logged :=
  {| lg_tpi := ev_tpi (sample 0); lg_v0 := VNone; lg_v1 := VNone; lg_time := i; lg_dur := 0 |}.
Example C41_case :
  Forall2 (fun p l => stores l (fst p) /\ clean no_mem l) (events_of two_events)
    (map plain_record [0; 1]%Z) /\
  Forall (fun a => (fst a < 2 ^ 31)%N /\ all_plain (snd a) /\ c_str (snd a) = snd a) [(7%N, $"main")].
Proof.
  assert (forall i, (0 <= i < 2 ^ 63)%Z -> clean no_mem (plain_record i)) as C.
  { intros i Hi.
    assert (forall s, forallb plainb (c_str s) = true -> name_ok s) as NO.
    { intros s Hs c Hc (R & _). destruct (lit_plain _ Hs c Hc) as (_ & _ & P). lia. }
    unfold clean. split; [discriminate|]. split; [apply NO; reflexivity|].
    split; [apply NO; reflexivity|]. split; [reflexivity|]. split; [easy|]. cbn; lia. }
  split.
  - constructor; [|constructor; [|constructor]].
    all: split; [exists 0%N, 0%N; reflexivity|apply C; lia].
  - constructor; [|constructor]. split; [cbn; lia|]. split; [apply lit_plain; reflexivity|reflexivity].
Qed.

(** A thread name is copied into the document without escaping. *)
Theorem C41_any_name_refuted : exists mem pid v names text, document mem pid v names text /\
  json_parse text = None.
Proof.
  exists no_mem, 5%Z, two_events, [(7%N, $"a""b")].
  eexists. split.
  - eexists. split; [|reflexivity]. repeat (constructor; [vm_compute; reflexivity|]). constructor.
  - vm_compute. reflexivity.
Qed.
Print Assumptions C41_any_name_refuted.

(** The id of a thread-name record is printed as an [int], that of an event as
    an unsigned number: from 2^31 on they differ. *)
Theorem C41_any_tid_refuted : exists mem pid v tid, (2 ^ 31 <= tid < 2 ^ 32)%N /\
  (forall p, In p (events_of v) -> snd p = tid) /\ events_of v <> [] /\
  exists text nm ev m1 m2, document mem pid v [(tid, $"main")] text /\
    json_parse text = Some (JObj [($"traceEvents", JArr [JObj nm; JObj ev])]) /\
    In ($"tid", JNum m1 0) nm /\ In ($"tid", JNum m2 0) ev /\ m2 = Z.of_N tid /\ m1 <> m2.
Proof.
  exists no_mem, 5%Z,
    {| v_count := 1; v_chunk := fun _ => {| c_next := 1; c_tid := 2 ^ 31; c_arr := fun i => sample (Z.of_N i) |} |},
    (2 ^ 31)%N.
  split; [lia|]. split; [intros p [<-|[]]; reflexivity|]. split; [discriminate|].
  do 5 eexists. split.
  - eexists. split; [|reflexivity]. repeat (constructor; [vm_compute; reflexivity|]). constructor.
  - split; [vm_compute; reflexivity|].
    split; [do 3 right; left; reflexivity|]. split; [do 6 right; left; reflexivity|].
    split; [reflexivity|discriminate].
Qed.
Print Assumptions C41_any_tid_refuted.

(** C42: read() on a fresh exporter; [fuel] bounds the number of blocks. *)
Definition export_all mem pid (fuel : nat) (c : context) : res (bytes * exporter) :=
  do x <- export_new c; read_all mem pid fuel c x.

Theorem C42_read_all : forall mem pid v names text, document mem pid v names text ->
  forall fuel, length text < fuel * 4096 ->
  exists got x, export_all mem pid fuel (holding v names) = Ok (got, x) /\
    (length text mod 4096 <> 1 -> got = text) /\
    (length text mod 4096 = 1 -> text = got ++ $"}").
Proof.
  intros mem pid v names text HD fuel F. destruct (new_spec mem pid v names text HD) as (x & E & G & R & L).
  unfold export_all, holding. rewrite E. cbn [bind]. unfold read_all.
  destruct (read_all_spec mem pid v names fuel x [] G) as (x' & E'); [rewrite R; lia|rewrite R; exact F|].
  rewrite R in E'. change (block) with 4096 in E'. eexists _, x'. split; [exact E'|]. cbn [app].
  destruct (Nat.eqb_spec (length text mod 4096) 1) as [M|M]; split; intros H; first [contradiction|reflexivity|idtac].
  destruct HD as (texts & _ & ->).
  match goal with |- ?a ++ ?b ++ ?c = _ => set (w := a ++ b) end.
  rewrite !app_assoc. fold w. change ($"]}") with ($"]" ++ $"}"). rewrite app_assoc.
  change $"}" with [chr 125]. rewrite removelast_last. reflexivity.
Qed.
Print Assumptions C42_read_all.

(** A context whose document has 4096 + 1 bytes. *)
Definition long_name : list (N * bytes) := [(7%N, repeat (chr 97) 4013)].
Definition empty : view := {| v_count := 0; v_chunk := fun _ => blank 0 |}.
Definition long_text : bytes :=
  $"{""traceEvents"":[" ++ glue (chr 44) (map (threadAssociationToString 5) long_name ++ []) ++ $"]}".
Lemma long_document : document no_mem 5 empty long_name long_text.
Proof. exists []. split; [constructor|reflexivity]. Qed.
Lemma long_length : length long_text = 4097.
Proof. vm_compute. reflexivity. Qed.

Theorem C42_always_whole_refuted : exists mem pid v names text, document mem pid v names text /\
  json_parse text <> None /\
  forall fuel, length text < fuel * 4096 ->
  exists got x, export_all mem pid fuel (holding v names) = Ok (got, x) /\
    got <> text /\ json_parse got = None.
Proof.
  exists no_mem, 5%Z, empty, long_name, long_text. split; [exact long_document|].
  split; [vm_compute; discriminate|]. intros fuel F.
  destruct (C42_read_all _ _ _ _ _ long_document fuel F) as (got & x & E & _ & H).
  exists got, x. split; [exact E|]. rewrite long_length in H. specialize (H eq_refl).
  split.
  - intros ->. apply (f_equal (@length ascii)) in H. rewrite app_length in H. change (length $"}") with 1 in H. lia.
  - assert (got = removelast long_text) as -> by (rewrite H; change $"}" with [chr 125]; now rewrite removelast_last).
    vm_compute. reflexivity.
Qed.
Print Assumptions C42_always_whole_refuted.

Example C42_case : exists x, export_all no_mem 5 1 (holding empty [(7%N, $"main")]) =
  Ok ($"{""traceEvents"":[{""name"":""thread_name"",""ph"":""M"",""pid"":5,""tid"":7,""args"":{""name"":""main""}}]}", x).
Proof. eexists. vm_compute. reflexivity. Qed.

(** C43: after any reads, done() says that at most one byte is left: the next
    reads return what is left, and nothing after it. *)
Theorem C43_done : forall mem pid v names text, document mem pid v names text ->
  forall ns, exists outs x, export_reads mem pid (holding v names) ns = Ok (outs, x) /\
    (done x = true <-> length text <= list_sum ns + 1) /\
    forall ms, exists more x', reads mem pid (holding v names) x ms = Ok (more, x') /\
      pieces ms (skipn (list_sum ns) text) more /\
      (done x = true -> concat more = [] \/ concat more = $"}") /\
      (done x = true -> length text = list_sum ns + 1 -> 1 <= list_sum ms -> concat more = $"}") /\
      (done x = true -> length text <> list_sum ns + 1 -> concat more = []).
Proof.
  intros mem pid v names text HD ns. destruct (new_spec mem pid v names text HD) as (x & E & G & R & L).
  unfold export_reads, holding. rewrite E. cbn [bind].
  destruct (reads_spec mem pid v names ns x G) as (x' & E' & G' & R').
  eexists _, x'. split; [exact E'|]. rewrite R in R'.
  assert (length (skipn (list_sum ns) text) = length text - list_sum ns) as LS by apply skipn_length.
  split; [rewrite (done_spec mem pid v x' G'), R'; lia|].
  intros ms. destruct (reads_spec mem pid v names ms x' G') as (x'' & E'' & _).
  eexists _, x''. split; [exact E''|]. rewrite R'. split; [apply cut_pieces|].
  rewrite cut_concat.
  assert (length text = list_sum ns + 1 -> skipn (list_sum ns) text = $"}") as LAST.
  { intros H. destruct HD as (texts & _ & ->). revert H. clear.
    match goal with |- context [skipn _ ?u] => set (t := u) end.
    assert (exists w, t = w ++ [chr 125]) as (w & ->).
    { subst t. rewrite app_assoc. change ($"]}") with ([chr 93] ++ [chr 125]). rewrite app_assoc. eauto. }
    rewrite app_length. cbn. intros H. rewrite skipn_app, skipn_all2 by lia.
    replace (list_sum ns - length w) with 0 by lia. reflexivity. }
  rewrite (done_spec mem pid v x' G'), R', LS.
  destruct (Nat.eq_dec (length text) (list_sum ns + 1)) as [Q|Q].
  - rewrite (LAST Q). repeat split; intros; try congruence.
    + destruct (list_sum ms); [now left|right]. cbn. now destruct n.
    + destruct (list_sum ms); [lia|]. cbn. now destruct n.
  - repeat split; intros; try congruence; try (left; rewrite skipn_all2 by lia; apply firstn_nil).
    rewrite skipn_all2 by lia. apply firstn_nil.
Qed.
Print Assumptions C43_done.

(** A loop reading [n] bytes until done() gets all but at most the last byte. *)
Definition export_loop mem pid (fuel : nat) (c : context) (n : nat) : res (bytes * exporter) :=
  do x <- export_new c; read_until_done mem pid fuel c x n.

Theorem C43_done_loop : forall mem pid v names text, document mem pid v names text ->
  forall fuel n, 1 <= n -> length text < fuel ->
  exists got x, export_loop mem pid fuel (holding v names) n = Ok (got, x) /\
    (got = text \/ text = got ++ $"}").
Proof.
  intros mem pid v names text HD fuel n Hn F.
  destruct (new_spec mem pid v names text HD) as (x & E & G & R & L).
  unfold export_loop, holding. rewrite E. cbn [bind].
  destruct (read_until_done_spec mem pid v names fuel x n G Hn ltac:(rewrite R; exact F)) as (x' & k & E' & G' & R' & D').
  eexists _, x'. split; [exact E'|]. rewrite R in *. apply (done_spec mem pid v x' G') in D'. rewrite R' in D'.
  pose proof (firstn_skipn k text) as FS. destruct (skipn k text) as [|c [|d s]] eqn:S; cbn in D'; try lia.
  - left. now rewrite app_nil_r in FS.
  - right. rewrite <- FS at 1. f_equal. destruct HD as (texts & _ & ->).
    rewrite app_assoc in FS. change ($"]}") with ([chr 93] ++ [chr 125]) in FS. rewrite !app_assoc in FS.
    apply app_inj_tail in FS as (_ & ->). reflexivity.
Qed.
Print Assumptions C43_done_loop.

Theorem C43_done_loop_whole_refuted : exists mem pid v names text n, document mem pid v names text /\ 1 <= n /\
  exists got x, export_loop mem pid (S (length text)) (holding v names) n = Ok (got, x) /\ got <> text.
Proof.
  exists no_mem, 5%Z, empty, [], $"{""traceEvents"":[]}", 17.
  split; [exists []; split; [constructor|reflexivity]|]. split; [lia|].
  do 2 eexists. split; [vm_compute; reflexivity|]. discriminate.
Qed.
Print Assumptions C43_done_loop_whole_refuted.

Example C43_case : exists outs x, export_reads no_mem 5 (holding empty []) [17] = Ok (outs, x) /\
  done x = true /\ exists x', reads no_mem 5 (holding empty []) x [3; 3] = Ok ([$"}"; []], x').
Proof. do 2 eexists. split; [vm_compute; reflexivity|]. split; [reflexivity|]. eexists. vm_compute. reflexivity. Qed.

(** C44: the file holds the whole document, whatever its length; [fuel] bounds
    the number of blocks. *)
Theorem C44_saved_file : forall mem pid v names text, document mem pid v names text ->
  (forall fuel, length text + 4096 <= fuel * 4096 ->
     file_stop_callback mem pid fuel true (holding v names) = Ok text) /\
  (forall fuel, file_stop_callback mem pid fuel false (holding v names) = Throw SystemError).
Proof.
  intros mem pid v names text HD. split; [|reflexivity]. intros fuel F.
  destruct (new_spec mem pid v names text HD) as (x & E & G & R & L).
  unfold file_stop_callback, holding. rewrite E. cbn [bind].
  rewrite (write_loop_spec mem pid v names fuel x [] G); [now rewrite R|]. rewrite R. exact F.
Qed.
Print Assumptions C44_saved_file.

(** Also for the length where read() loses the last byte. *)
Example C44_case : document no_mem 5 empty long_name long_text /\ length long_text mod 4096 = 1 /\
  file_stop_callback no_mem 5 3 true (holding empty long_name) = Ok long_text.
Proof.
  split; [exact long_document|]. split; [rewrite long_length; reflexivity|].
  apply C44_saved_file; [exact long_document|]. rewrite long_length. lia.
Qed.

(** C45: [first_replaced from to s t]: [t] is [s] with the first occurrence of
    [from], if any, replaced by [to]. *)
Definition first_replaced (from to s t : bytes) : Prop :=
  ((forall n, ~ occurs_at from s n) /\ t = s) \/
  (exists a b, s = a ++ from ++ b /\ (forall n, n < length a -> ~ occurs_at from s n) /\ t = a ++ to ++ b).

Theorem C45_file_name : forall path pid now,
  exists mid, first_replaced $"%p" (decZ pid) path mid /\
    first_replaced $"%d" (timestamp now) mid (generateFilePath path pid now).
Proof.
  intros path pid now. exists (string_replace path $"%p" (decZ pid)).
  assert (forall s from to, from <> [] -> first_replaced from to s (string_replace s from to)) as FR.
  { intros s from to Hf. destruct (string_replace_spec s from to) as (_ & H2 & H3).
    pose proof (find_spec from s) as F. destruct (find from s) as [n|].
    - destruct F as ((a & b & Es & La) & F2). right. exists a, b. subst n.
      split; [exact Es|]. split; [exact F2|]. apply H3; [exact Hf|exact Es|exact F2].
    - left. split; [exact F|apply H2; exact F]. }
  split; apply FR; discriminate.
Qed.
Print Assumptions C45_file_name.

(** The time stamp has the 20 characters the code reserves for it and neither
    starts a new substitution nor a directory. *)
Theorem C45_time_stamp : forall now,
  (1000 <= tm_year now <= 9999)%N -> (tm_mon now < 100)%N -> (tm_day now < 100)%N ->
  (tm_hour now < 100)%N -> (tm_min now < 100)%N -> (tm_sec now < 100)%N ->
  length (timestamp now) = 20 /\
  (forall c, In c (timestamp now) -> c <> chr 47 /\ c <> chr 37).
Proof.
  intros now Y M D H MI S.
  assert (forall n, (n < 100)%N -> length (pad0 2 (dec n)) = 2) as P2.
  { intros n Hn. unfold pad0. rewrite app_length, repeat_length.
    pose proof (dec_length_bound n 2 ltac:(cbn; lia) ltac:(lia)). lia. }
  assert (length (dec (tm_year now)) = 4) as LY.
  { assert (forallb (fun k => Nat.eqb (length (dec (1000 + N.of_nat k))) 4) (seq 0 (N.to_nat 9000)) = true) as A
      by (vm_compute; reflexivity).
    rewrite forallb_forall in A. specialize (A (N.to_nat (tm_year now - 1000))).
    replace (1000 + N.of_nat (N.to_nat (tm_year now - 1000)))%N with (tm_year now) in A by lia.
    apply Nat.eqb_eq, A, in_seq. lia. }
  split.
  - unfold timestamp. rewrite !app_length, LY, !P2 by assumption. reflexivity.
  - assert (forall n c, In c (dec n) -> c <> chr 47 /\ c <> chr 37) as DG.
    { intros n c Hc%dec_digits%digit10_code. split; intros ->; cbn in Hc; lia. }
    assert (forall n c, In c (pad0 2 (dec n)) -> c <> chr 47 /\ c <> chr 37) as PG.
    { intros n c Hc. unfold pad0 in Hc. apply in_app_or in Hc as [Hc|Hc]; [|eauto].
      apply repeat_spec in Hc. subst c. split; discriminate. }
    assert (forall n c, In c $"." \/ In c $"T" \/ In c $"Z" \/ In c (dec n) \/ In c (pad0 2 (dec n)) -> c <> chr 47 /\ c <> chr 37) as AG.
    { intros n c [[<-|[]]|[[<-|[]]|[[<-|[]]|[?|?]]]]; eauto; split; discriminate. }
    intros c Hc. unfold timestamp in Hc. rewrite !in_app_iff in Hc.
    repeat match type of Hc with _ \/ _ => destruct Hc as [Hc|Hc] end;
      first [exact (DG _ _ Hc) | exact (PG _ _ Hc) | apply (AG 0%N c); tauto].
Qed.
Print Assumptions C45_time_stamp.

Example C45_case : generateFilePath $"trace.%p.%d.%p.json" 42
  {| tm_year := 2026; tm_mon := 1; tm_day := 2; tm_hour := 13; tm_min := 4; tm_sec := 59 |} =
  $"trace.42.2026.01.02T13.04.59Z.%p.json".
Proof. vm_compute. reflexivity. Qed.
