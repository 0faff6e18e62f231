(** C72: from logging to the exported text. *)
From Coq Require Import Permutation.
From Verif Require Import Base Spec.Text Spec.History Spec.Json Spec.Numeral Spec.EventValue Spec.Document
  Model.StringUtils Model.Event Model.Queue Model.Buffer Model.Config Model.Registry Model.Export
  Proofs.Strings Proofs.Numerals Proofs.Buffer Proofs.JsonText Proofs.Event
  Model.Interleave Spec.LogHistory Spec.LogFacts Model.TraceLog Spec.LogMemory Spec.LogRecords Proofs.Interleave Proofs.Export Proofs.LogFrame Proofs.LogView Proofs.LogViewInv
  Proofs.LogContract Proofs.LogBuffers Proofs.LogSafe Proofs.LogSafeAll Proofs.LogRaces Proofs.LogHolders
  Proofs.LogHandover Proofs.LogRecords Props.Buffer Props.Export Props.Log Props.LogSafety Props.LogRecords Props.LogDebts.

(** The entries of a context's name map, in any order of iteration. *)
Definition entries (ns : list (tid * bytes)) (names : list (N * bytes)) : Prop :=
  Permutation names (map (fun p => (N.of_nat (fst p), snd p)) ns).

(** Thread ids and names that can be written down. *)
Definition presentable (ns : list (tid * bytes)) : Prop :=
  Forall (fun a => (N.of_nat (fst a) < 2 ^ 31)%N /\ all_plain (snd a) /\ c_str (snd a) = snd a) ns.

Lemma entries_ok ns names : entries ns names -> presentable ns ->
  Forall (fun a => (fst a < 2 ^ 31)%N /\ all_plain (snd a) /\ c_str (snd a) = snd a) names.
Proof.
  intros P F. apply Forall_forall. intros a Ha. apply (Permutation_in _ P) in Ha. apply in_map_iff in Ha as [p [<- Hp]].
  unfold presentable in F. rewrite Forall_forall in F. exact (F p Hp).
Qed.

Lemma part_trans {A} (l m k : list A) : part_of l m -> part_of m k -> part_of l k.
Proof.
  intros H G. revert l H. induction G; intros l0 H; [exact H|constructor; auto|]. inversion H; subst; [apply part_skip|apply part_keep]; auto.
Qed.

Lemma stored_in_by h t b : part_of (stored_in h t b) (stored_by h t).
Proof.
  unfold stored_in, stored_by. induction h as [|a h IH]; cbn; [constructor|]. destruct a; auto. destruct (Nat.eqb t0 t); cbn; [|exact IH].
  destruct (Nat.eqb b0 b); cbn; [apply part_keep|apply part_skip]; exact IH.
Qed.

Section Text.
  Variables cap csz : N.
  Variable site_cat : nat -> bytes.
  Hypothesis small : (cap < 65536)%N.

  (** What the export of a retrieved context says, for fixed and ring buffers. *)
  Lemma text_of sched mem pid ev b ns names lg :
    let s := log_run cap csz site_cat sched in
    In ev (hist s) -> retrieved ev = Some (Some b) -> context_names ev = Some ns -> entries ns names -> presentable ns ->
    (forall t e, In (Stored t b e) (hist s) -> stores (lg e) e /\ clean mem (lg e)) ->
    exists text js, document mem pid (buf_view (heap s b)) names text /\
      json_parse text = Some (JObj [($"traceEvents", JArr (map (thread_record pid) names ++ js))]) /\
      Forall2 (fun p j => record_of mem pid (snd p) (lg (fst p)) j) (events_of (buf_view (heap s b))) js /\
      (forall p, In p (events_of (buf_view (heap s b))) -> exists t, snd p = N.of_nat t /\ In (Stored t b (fst p)) (hist s)).
  Proof.
    intros s Hi Hr Hn He Hp Hl. assert (R : reached cap csz site_cat s) by apply log_run_reached.
    pose proof (hb_ret _ (handed_over cap csz site_cat s R) ev b Hi Hr) as Hg.
    assert (N : forall p, In p (events_of (buf_view (heap s b))) -> exists t, snd p = N.of_nat t /\ In (Stored t b (fst p)) (hist s))
      by (intros p; apply (nothing_else cap csz site_cat small s b p R Hg)).
    destruct (document_json mem pid (buf_view (heap s b)) names (map (fun p => lg (fst p)) (events_of (buf_view (heap s b))))) as (text & js & D & J & F).
    - clear - N Hl. induction (events_of (buf_view (heap s b))) as [|p l IH]; cbn; constructor.
      + destruct (N p (or_introl eq_refl)) as (t & _ & X). exact (Hl t _ X).
      + apply IH. intros q Hq. apply N. now right.
    - exact (entries_ok ns names He Hp).
    - exists text, js. split; [exact D|]. split; [exact J|]. split; [|exact N].
      clear - F. revert js F. induction (events_of (buf_view (heap s b))) as [|p l IH]; intros js F; inversion F; subst; constructor; auto.
  Qed.
End Text.

(** ** C72 *)

(** Exporting a context with a fixed buffer, whenever after its retrieval, gives
    one JSON document: a record for each named thread and, for each thread,
    exactly the records of the events it stored in that trace, in the order in
    which it logged them. *)
Theorem C72_fixed_export : forall cap csz site_cat sched mem pid ev b ns names lg, (cap < 65536)%N ->
  let s := log_run cap csz site_cat sched in
  In ev (hist s) -> retrieved ev = Some (Some b) -> context_names ev = Some ns -> b_kind (heap s b) = Fixed ->
  entries ns names -> presentable ns ->
  (forall t e, In (Stored t b e) (hist s) -> stores (lg e) e /\ clean mem (lg e)) ->
  exists text js all,
    (exists x, export_reads mem pid (holding (buf_view (heap s b)) names) [length text] = Ok ([text], x)) /\
    json_parse text = Some (JObj [($"traceEvents", JArr (map (thread_record pid) names ++ js))]) /\
    Forall2 (fun p j => record_of mem pid (snd p) (lg (fst p)) j) all js /\
    (forall t, labelled t all = stored_in (hist s) t b /\ part_of (labelled t all) (asked_to_log (hist s) t)) /\
    (forall p, In p all -> exists t, snd p = N.of_nat t).
Proof.
  intros cap csz sc sched mem pid ev b ns names lg Hc s Hi Hr Hn Hk He Hp Hl.
  destruct (text_of cap csz sc Hc sched mem pid ev b ns names lg Hi Hr Hn He Hp Hl) as (text & js & D & J & F & N). fold s in D, F, N.
  exists text, js, (events_of (buf_view (heap s b))). assert (R : reached cap csz sc s) by apply log_run_reached.
  pose proof (hb_ret _ (handed_over cap csz sc s R) ev b Hi Hr) as Hg.
  split; [|split; [exact J|split; [exact F|split]]].
  - destruct (C40_read_sizes mem pid _ names text D [length text]) as (outs & x & E & P & C).
    exists x. rewrite E. do 2 f_equal. inversion P as [|? ? ? ? ? L P'|? ? ? ? L P']; subst;
      inversion P'; subst; [|reflexivity].
    cbn in C. rewrite ?app_nil_r in *. rewrite app_length in L. destruct rest; [now rewrite app_nil_r|cbn in L; lia].
  - intros t. assert (X : labelled t (events_of (buf_view (heap s b))) = stored_in (hist s) t b) by (apply (exact_fixed cap csz sc); auto).
    split; [exact X|]. rewrite X. eapply part_trans; [apply stored_in_by|]. apply C69_stored_in_logged_order.
  - intros p Hp'. destruct (N p Hp') as (t & X & _). now exists t.
Qed.
Print Assumptions C72_fixed_export.

(** The file written by the save-on-stop callback is that document. *)
Theorem C72_saved_file : forall cap csz site_cat sched mem pid t0 b ns names lg, (cap < 65536)%N ->
  let s := log_run cap csz site_cat sched in
  In (Nested t0 HGetContext (RCtx (Some b) ns)) (hist s) -> entries ns names -> presentable ns ->
  (forall t e, In (Stored t b e) (hist s) -> stores (lg e) e /\ clean mem (lg e)) ->
  exists text js all,
    (forall fuel, length text + 4096 <= fuel * 4096 ->
       file_stop_callback mem pid fuel true (holding (buf_view (heap s b)) names) = Ok text) /\
    json_parse text = Some (JObj [($"traceEvents", JArr (map (thread_record pid) names ++ js))]) /\
    Forall2 (fun p j => record_of mem pid (snd p) (lg (fst p)) j) all js /\
    (forall p, In p all -> exists t, snd p = N.of_nat t /\ In (fst p) (asked_to_log (hist s) t) /\ In (Stored t b (fst p)) (hist s)) /\
    (b_kind (heap s b) = Fixed -> forall t, labelled t all = stored_in (hist s) t b).
Proof.
  intros cap csz sc sched mem pid t0 b ns names lg Hc s Hi He Hp Hl.
  destruct (text_of cap csz sc Hc sched mem pid _ b ns names lg Hi eq_refl eq_refl He Hp Hl) as (text & js & D & J & F & N). fold s in D, F, N.
  exists text, js, (events_of (buf_view (heap s b))). assert (R : reached cap csz sc s) by apply log_run_reached.
  pose proof (hb_ret _ (handed_over cap csz sc s R) _ b Hi eq_refl) as Hg.
  split; [apply (C44_saved_file mem pid _ names text D)|split; [exact J|split; [exact F|split]]].
  - intros p Hp'. destruct (N p Hp') as (t & X & Y). exists t. split; [exact X|]. split; [|exact Y].
    assert (Z : In (fst p) (stored_by (hist s) t)) by (unfold stored_by; apply in_flat_map; exists (Stored t b (fst p)); split; [exact Y|]; rewrite Nat.eqb_refl; now left).
    pose proof (C69_stored_in_logged_order cap csz sc sched t) as P. cbv zeta in P. fold s in P. revert Z. clear - P. induction P; cbn; intuition.
  - intros Hk t. apply (exact_fixed cap csz sc); auto.
Qed.
Print Assumptions C72_saved_file.

(** Threads 1 and 2 log, 3 stops; the callback takes the context and writes the
    file. *)
Definition saved_run : list sact :=
  call 1 (ORegister $"one") CNone 9 ++ call 2 (ORegister $"two") CNone 9 ++ call 3 (OStart cfgA) (CFixed 2 mem0) 30 ++
  call 1 (OLog (sample 1)) CNone 20 ++ call 2 (OLog (sample 2)) CNone 20 ++ call 1 (OLog (sample 3)) CNone 20 ++
  call 3 (OStop false) CNone 4 ++ repeat (Step 3 (CPick 2)) 4 ++ repeat (Step 3 (CPick 1)) 20 ++
  HookDo 3 HGetContext :: repeat (Step 3 CNone) 4 ++ HookEnd 3 None :: repeat (Step 3 CNone) 4.
Definition saved_state : st := log_run 3 10 site0 saved_run.
Definition record_for (e : event) : logged := plain_record (Z.of_N (ev_time e)).

Lemma plain_clean i : (0 <= i < 2 ^ 63)%Z -> clean no_mem (plain_record i).
Proof.
  intros Hi. assert (NO : forall s, forallb plainb (c_str s) = true -> name_ok s).
  { intros s Hs c Hc (R & _). destruct (lit_plain _ Hs c Hc) as (_ & _ & P). lia. }
  unfold clean. split; [discriminate|]. split; [apply NO; reflexivity|].
  split; [apply NO; reflexivity|]. split; [reflexivity|]. split; [easy|]. cbn; lia.
Qed.

Lemma all_stored (P : event -> Prop) h b l :
  flat_map (fun x => match x with Stored _ c e => if Nat.eqb c b then [e] else [] | _ => [] end) h = l -> Forall P l ->
  forall t e, In (Stored t b e) h -> P e.
Proof.
  intros <- F t e H. rewrite Forall_forall in F. apply F, in_flat_map. exists (Stored t b e). split; [exact H|]. rewrite Nat.eqb_refl. now left.
Qed.

Definition both : list (tid * bytes) := [(2, $"two"); (1, $"one")].

Example C72_case :
  In (Nested 3 HGetContext (RCtx (Some 0) both)) (hist saved_state) /\
  entries both [(1%N, $"one"); (2%N, $"two")] /\ presentable both /\
  (forall t e, In (Stored t 0 e) (hist saved_state) -> stores (record_for e) e /\ clean no_mem (record_for e)) /\
  b_kind (heap saved_state 0) = Fixed /\ stored_in (hist saved_state) 1 0 = [sample 1; sample 3] /\
  file_stop_callback no_mem 5 2 true (holding (buf_view (heap saved_state 0)) [(1%N, $"one"); (2%N, $"two")]) = Ok
    ($"{""traceEvents"":[{""name"":""thread_name"",""ph"":""M"",""pid"":5,""tid"":1,""args"":{""name"":""one""}},"
     ++ $"{""name"":""thread_name"",""ph"":""M"",""pid"":5,""tid"":2,""args"":{""name"":""two""}},"
     ++ $"{""name"":""name"",""cat"":""cat"",""ph"":""i"",""s"":""t"",""ts"":0.001,""pid"":5,""tid"":1,""args"":{}},"
     ++ $"{""name"":""name"",""cat"":""cat"",""ph"":""i"",""s"":""t"",""ts"":0.003,""pid"":5,""tid"":1,""args"":{}},"
     ++ $"{""name"":""name"",""cat"":""cat"",""ph"":""i"",""s"":""t"",""ts"":0.002,""pid"":5,""tid"":2,""args"":{}}]}").
Proof.
  split; [|split; [apply perm_swap|split; [|split; [|split; [|split]]]]].
  - apply (nth_error_In _ (length (hist saved_state) - 2)). vm_compute. reflexivity.
  - constructor; [|constructor; [|constructor]]; (split; [reflexivity|split; [apply lit_plain; reflexivity|reflexivity]]).
  - apply (all_stored _ _ 0 [sample 1; sample 2; sample 3]); [vm_compute; reflexivity|].
    assert (X : forall i, (0 <= i < 1000)%Z -> stores (record_for (sample i)) (sample i) /\ clean no_mem (record_for (sample i))).
    { intros i Hi. assert (E : record_for (sample i) = plain_record i) by (unfold record_for; f_equal; change (ev_time (sample i)) with (wrap64 i); unfold wrap64; rewrite Z.mod_small by lia; lia).
      rewrite E. split; [exists 0%N, 0%N; reflexivity|]. apply plain_clean. lia. }
    repeat (apply Forall_cons; [apply X; lia|]). apply Forall_nil.
  - vm_compute. reflexivity.
  - vm_compute. reflexivity.
  - vm_compute. reflexivity.
Qed.
