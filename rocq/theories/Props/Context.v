(** C95: contexts own their buffers and pass them on; exports refer to contexts. *)
From Verif Require Import Base Spec.Text Spec.History Spec.Document Spec.Context Model.StringUtils Model.Event Model.Queue
  Model.Buffer Model.Export Model.Context Proofs.Export Proofs.Context Props.Buffer Props.Export.

(** The context [c] holds a buffer with the contents [v], and the thread names [ns]. *)
Definition holds (w : world) (c : nat) (v : view) (ns : list (N * bytes)) : Prop :=
  (exists b, getBuffer w c = Some b /\ w_buf w b = Alive v) /\ getThreadNames w c = Some ns.

(** C95: whatever contexts are made, moved, assigned and destroyed, no buffer is
    deleted twice, the buffer of a context is there with the contents it was made
    with, no two contexts have the same, and when all contexts are gone each
    buffer was deleted exactly once. *)
Theorem C95_one_owner : forall mem pid os, let w := crun mem pid world_new os in
  NoDup (made (w_hist w)) /\ NoDup (deleted (w_hist w)) /\ (forall b, ~ In (Twice b) (w_hist w)) /\
  (forall c b, getBuffer w c = Some b ->
     In b (made (w_hist w)) /\ ~ In b (deleted (w_hist w)) /\
     exists v, w_buf w b = Alive v /\ In (Made b v) (w_hist w)) /\
  (forall c c' b, getBuffer w c = Some b -> getBuffer w c' = Some b -> c = c') /\
  (forall b, In b (made (w_hist w)) -> In b (deleted (w_hist w)) \/ exists c, getBuffer w c = Some b) /\
  ((forall c, w_ctx w c = None) -> forall b, In b (made (w_hist w)) <-> In b (deleted (w_hist w))).
Proof.
  intros mem pid os w. pose proof (own_run mem pid os : own w None) as O.
  assert (forall b v, w_buf w b = Alive v -> In b (made (w_hist w))) as AM.
  { intros b v H. rewrite (ow_made _ _ O). apply in_seq. destruct (Nat.lt_ge_cases b (w_made w)) as [L|L]; [lia|].
    rewrite (ow_fresh _ _ O b L) in H. discriminate. }
  assert (forall b, In b (made (w_hist w)) -> In b (deleted (w_hist w)) \/ exists c, getBuffer w c = Some b) as ALL.
  { intros b H. rewrite (ow_made _ _ O) in H. apply in_seq in H. pose proof (ow_old _ _ O b ltac:(lia)) as N.
    destruct (w_buf w b) as [|v|] eqn:E; [easy| |left; now apply (ow_gone _ _ O)].
    destruct (ow_some _ _ O b v E) as [K|K]; [discriminate|right; exact K]. }
  split; [rewrite (ow_made _ _ O); apply seq_NoDup|]. split; [exact (ow_nodup _ _ O)|]. split; [exact (ow_twice _ _ O)|].
  split; [|split; [exact (ow_one _ _ O)|split; [exact ALL|]]].
  - intros c b H. destruct (ow_held _ _ O c b H) as (v & E). split; [exact (AM b v E)|]. split.
    + intros K. apply (ow_gone _ _ O) in K. congruence.
    + exists v. split; [exact E|exact (ow_val _ _ O b v E)].
  - intros NC b. split.
    + intros H. destruct (ALL b H) as [K|(c & K)]; [exact K|]. unfold getBuffer in K. rewrite NC in K. discriminate.
    + intros H. apply (ow_gone _ _ O) in H. rewrite (ow_made _ _ O). apply in_seq.
      destruct (Nat.lt_ge_cases b (w_made w)) as [L|L]; [lia|]. rewrite (ow_fresh _ _ O b L) in H. discriminate.
Qed.
Print Assumptions C95_one_owner.

(** Making: the new context has a new buffer with the contents given (or none) and the
    names given; no other context changes and no buffer that was there does. *)
Theorem C95_made : forall mem pid os c v ns, let w := crun mem pid world_new os in
  let w' := cstep mem pid w (CMake c v ns) in
  w_ctx w c = None ->
  match v with
  | Some v => holds w' c v ns /\ exists b, getBuffer w' c = Some b /\ ~ In b (made (w_hist w)) /\ w_hist w' = w_hist w ++ [Made b v] /\ forall x, x <> b -> w_buf w' x = w_buf w x
  | None => getBuffer w' c = None /\ getThreadNames w' c = Some ns /\ w_hist w' = w_hist w /\ w_buf w' = w_buf w
  end /\ forall x, x <> c -> w_ctx w' x = w_ctx w x.
Proof.
  intros mem pid os c v ns w w' Hc. pose proof (own_run mem pid os : own w None) as O.
  unfold w', cstep. cbn [usable]. rewrite Hc. cbn [there negb]. unfold ctx_make, make_buf, holds, getBuffer, getThreadNames.
  split; [|intros x N; destruct v; cbn; now rewrite put_other].
  destruct v as [v|]; cbn; rewrite !put_same; [|easy].
  split; [split; [|reflexivity]; eexists; split; [reflexivity|]; apply put_same|].
  exists (w_made w). split; [reflexivity|]. split.
  - rewrite (ow_made _ _ O). rewrite in_seq. lia.
  - split; [reflexivity|]. intros x N. now rewrite put_other.
Qed.
Print Assumptions C95_made.

(** Moving: the new context has what the old one had, the old one has no buffer,
    nothing is deleted and no other context changes. *)
Theorem C95_move : forall mem pid os c d lft, let w := crun mem pid world_new os in
  let w' := cstep mem pid w (CMove c d lft) in
  w_ctx w c = None -> w_ctx w d <> None ->
  getBuffer w' c = getBuffer w d /\ getThreadNames w' c = getThreadNames w d /\
  getBuffer w' d = None /\ w_hist w' = w_hist w /\ w_buf w' = w_buf w /\
  forall x, x <> c -> x <> d -> w_ctx w' x = w_ctx w x.
Proof.
  intros mem pid os c d lft w w' Hc Hd. unfold w', cstep. cbn [usable]. rewrite Hc.
  destruct (w_ctx w d) as [o|] eqn:E; [|easy]. cbn [there negb andb]. unfold ctx_move, with_ctx. rewrite E.
  assert (c <> d) as N by congruence. unfold getBuffer, getThreadNames. cbn. rewrite E, put_same, put_other, put_same by exact N.
  do 5 (split; [reflexivity|]). intros x N1 N2. rewrite !put_other by assumption. reflexivity.
Qed.
Print Assumptions C95_move.

(** Assigning: the same, and the buffer the target had is deleted, no other. *)
Theorem C95_assign : forall mem pid os c d lft, let w := crun mem pid world_new os in
  let w' := cstep mem pid w (CAssign c d lft) in
  w_ctx w c <> None -> w_ctx w d <> None -> c <> d ->
  getBuffer w' c = getBuffer w d /\ getThreadNames w' c = getThreadNames w d /\
  getBuffer w' d = None /\
  w_hist w' = w_hist w ++ match getBuffer w c with Some b => [Deleted b] | None => [] end /\
  (forall b, getBuffer w c <> Some b -> w_buf w' b = w_buf w b) /\
  forall x, x <> c -> x <> d -> w_ctx w' x = w_ctx w x.
Proof.
  intros mem pid os c d lft w w' Hc Hd N. pose proof (own_run mem pid os : own w None) as O.
  unfold w', cstep. cbn [usable]. destruct (w_ctx w c) as [oc|] eqn:Ec; [|easy].
  destruct (w_ctx w d) as [od|] eqn:Ed; [|easy]. cbn [there andb].
  assert (getBuffer w c = o_buf oc) as GC by (unfold getBuffer; now rewrite Ec).
  assert (assign_buf w c d =
    delete_buf (set_ctx (set_ctx w d (Some {| o_buf := None; o_names := o_names od; o_map := o_map od |}))
                        c (Some {| o_buf := o_buf od; o_names := o_names oc; o_map := o_map oc |})) (o_buf oc)) as E1.
  { unfold assign_buf, with_ctx. rewrite Ed. cbn [set_ctx w_ctx]. now rewrite put_other, Ec by exact N. }
  set (w2 := set_ctx (set_ctx w d _) c _) in E1.
  assert (w_ctx (delete_buf w2 (o_buf oc)) = w_ctx w2 /\ w_maps (delete_buf w2 (o_buf oc)) = w_maps w2) as (EC & EM).
  { unfold delete_buf. destruct (o_buf oc) as [b|]; [destruct (w_buf w2 b)|]; auto. }
  unfold ctx_assign. rewrite E1. set (w3 := delete_buf w2 (o_buf oc)) in *.
  assert (w_ctx w3 c = Some {| o_buf := o_buf od; o_names := o_names oc; o_map := o_map oc |}) as C3.
  { rewrite EC. unfold w2. cbn. now rewrite put_same. }
  assert (w_ctx w3 d = Some {| o_buf := None; o_names := o_names od; o_map := o_map od |}) as D3.
  { rewrite EC. unfold w2. cbn. now rewrite put_other, put_same by congruence. }
  destruct (assign_names_same w3 c d lft) as (A1 & A2 & A3 & A4 & A5). rewrite !A5, A1, A3.
  split; [|split; [|split; [|split; [|split]]]].
  - unfold getBuffer. now rewrite C3, Ed.
  - unfold getThreadNames, assign_names, with_ctx. rewrite C3, D3. cbn [new_map set_ctx w_ctx].
    rewrite put_other, D3 by congruence. cbn. rewrite put_other, put_same by exact N. now rewrite Ed.
  - unfold getBuffer. now rewrite D3.
  - rewrite GC. unfold w3, delete_buf. destruct (o_buf oc) as [b|] eqn:Eb; [|cbn; now rewrite app_nil_r].
    destruct (ow_held _ _ O c b ltac:(congruence)) as (v & Ev). change (w_buf w2 b) with (w_buf w b). now rewrite Ev.
  - rewrite GC. intros b Hb. unfold w3, delete_buf. destruct (o_buf oc) as [b'|] eqn:Eb; [|reflexivity].
    destruct (w_buf w2 b') eqn:Ew; try reflexivity. cbn. rewrite put_other by congruence. reflexivity.
  - intros x N1 N2. unfold assign_names, with_ctx. rewrite C3, D3. cbn [new_map set_ctx w_ctx].
    rewrite put_other, D3 by congruence. cbn. rewrite !put_other, EC by assumption. unfold w2. cbn. now rewrite !put_other by assumption.
Qed.
Print Assumptions C95_assign.

(** Assigning a context to itself keeps its buffer (but maybe not its names). *)
Theorem C95_self : forall mem pid os c lft, let w := crun mem pid world_new os in
  let w' := cstep mem pid w (CAssign c c lft) in
  getBuffer w' c = getBuffer w c /\ w_hist w' = w_hist w /\ w_buf w' = w_buf w.
Proof.
  intros mem pid os c lft w w'. unfold w', cstep. cbn [usable]. destruct (w_ctx w c) as [o|] eqn:E; [|auto].
  cbn [there andb]. unfold ctx_assign. destruct (assign_names_same (assign_buf w c c) c c lft) as (A1 & A2 & A3 & A4 & A5).
  rewrite A1, A3, A5. unfold assign_buf, with_ctx. rewrite E. cbn [set_ctx w_ctx]. rewrite put_same. cbn [o_buf delete_buf].
  split; [|auto]. unfold getBuffer. cbn. now rewrite put_same, E.
Qed.
Print Assumptions C95_self.

(** C95: whatever is done with other contexts and other exports meanwhile, an
    export of a context that is left in place gives out the document of that
    context, in pieces of the sizes asked for. *)
Theorem C95_in_place : forall mem pid before os e c v ns text, let w := crun mem pid world_new before in
  w_exp w e = None -> holds w c v ns -> document mem pid v ns text ->
  (forall o, In o os -> ~ touches c o /\ ~ forgets e o) ->
  exists h, w_hist (crun mem pid w (CExport e c :: os)) = w_hist w ++ h /\ sound e h /\
    pieces (asked e os) text (got e h) /\ concat (got e h) = firstn (list_sum (asked e os)) text.
Proof.
  intros mem pid before os e c v ns text w He ((b & Hb & Hv) & Hn) HD H.
  pose proof (own_run mem pid before : own w None) as O.
  destruct (steady_start mem pid w e c b v ns text O He Hb Hv Hn HD) as (S & EH).
  destruct (steady_run mem pid os _ e c v text 0 S H) as (_ & h & E & Sd & G).
  exists h. change (crun mem pid w (CExport e c :: os)) with (crun mem pid (cstep mem pid w (CExport e c)) os).
  rewrite E, EH. split; [reflexivity|]. split; [exact Sd|]. rewrite G. cbn [skipn].
  split; [apply cut_pieces|apply cut_concat].
Qed.
Print Assumptions C95_in_place.

(** Once it has given out the whole document, further reads return nothing and
    the context is no longer needed. *)
Theorem C95_finished : forall mem pid before os later e c v ns text, let w := crun mem pid world_new before in
  w_exp w e = None -> holds w c v ns -> document mem pid v ns text ->
  (forall o, In o os -> ~ touches c o /\ ~ forgets e o) -> length text <= list_sum (asked e os) ->
  (forall o, In o later -> ~ forgets e o) ->
  let w' := crun mem pid w (CExport e c :: os) in
  exists h, w_hist (crun mem pid w' later) = w_hist w' ++ h /\ sound e h /\ length (got e h) = length (asked e later) /\
    concat (got e h) = [].
Proof.
  intros mem pid before os later e c v ns text w He ((b & Hb & Hv) & Hn) HD H L HL w'.
  pose proof (own_run mem pid before : own w None) as O.
  destruct (steady_start mem pid w e c b v ns text O He Hb Hv Hn HD) as (S & EH).
  destruct (steady_run mem pid os _ e c v text 0 S H) as (S' & _).
  pose proof (steady_finished mem pid _ e c v text _ S' L) as F.
  destruct (finished_run mem pid later w' e (st_w _ _ _ _ _ _ _ _ S') F HL) as (h & E & Sd & G).
  exists h. split; [exact E|]. split; [exact Sd|]. rewrite G, map_length. split; [reflexivity|].
  clear. induction (asked e later); auto.
Qed.
Print Assumptions C95_finished.

(** Finding: an export holds on to the context object, not to its buffer. If the
    context is moved from, assigned to or destroyed after the export was made,
    every read of at least one byte is undefined, even if the buffer and the names
    live on in another context. *)
Theorem C95_moved : forall mem pid before os e c v ns text o n, let w := crun mem pid world_new before in
  w_exp w e = None -> holds w c v ns -> document mem pid v ns text ->
  usable w o = true -> touches c o -> (forall o, In o os -> ~ forgets e o) -> 1 <= n ->
  let w' := crun mem pid w (CExport e c :: o :: os) in
  w_hist (cstep mem pid w' (CRead e n)) = w_hist w' ++ [Undefined e].
Proof.
  intros mem pid before os e c v ns text o n w He ((b & Hb & Hv) & Hn) HD U T H L w'.
  pose proof (own_run mem pid before : own w None) as O.
  assert (numbered w) as NB by (apply numbered_run; intros x y; discriminate).
  destruct (w_ctx w c) as [oc|] eqn:Ec; [|unfold getBuffer in Hb; rewrite Ec in Hb; discriminate].
  destruct (new_spec mem pid v ns text HD) as (x & E & (X & _) & R & _).
  assert (cstep mem pid w (CExport e c) = set_exp w e (Some {| p_ctx := c; p_buf := b; p_map := o_map oc; p_x := x |})) as E1.
  { unfold cstep. cbn [usable]. rewrite He, Ec. cbn [there negb andb]. unfold exp_make, with_ctx. rewrite Ec.
    unfold getBuffer in Hb. rewrite Ec in Hb. unfold getThreadNames in Hn. rewrite Ec in Hn. injection Hn as Hn.
    now rewrite Hb, Hv, Hn, E. }
  assert (x_state x = opening /\ x_cache x = []) as (XS & XC).
  { unfold export_new in E. cbn [cx_buffer of_opt bind] in E. destruct (it_begin v); [|discriminate]. cbn in E. now injection E as <-. }
  set (w1 := cstep mem pid w (CExport e c)) in *.
  assert (orphan (cstep mem pid w1 o) e) as P.
  { apply (orphan_made mem pid w1 e c o).
    - unfold w1. now apply own_step.
    - rewrite E1. exact NB.
    - rewrite E1. eexists. cbn. rewrite put_same. split; [reflexivity|]. cbn. do 3 (split; [auto|]). exact (NB c oc Ec).
    - rewrite E1. destruct o; cbn in T, U |- *; try contradiction; exact U.
    - exact T. }
  assert (own (cstep mem pid w1 o) None) as O2 by (apply own_step; unfold w1; now apply own_step).
  pose proof (orphan_run mem pid os _ e O2 P H) as P'. change (crun mem pid (cstep mem pid w1 o) os) with w' in P'.
  rewrite (orphan_read mem pid w' e n P' L). reflexivity.
Qed.
Print Assumptions C95_moved.

(** Two contexts: the first is moved to a third, which is exported and then
    replaced by the second; all are destroyed. *)
Example C95_case :
  let os1 := [CMake 1 (Some two_events) [(7%N, $"main")]; CMake 2 (Some empty) []; CMove 3 1 []] in
  let os2 := [CExport 0 3; CRead 0 5; CDrop 1; CRead 0 10; CRead 0 1000; CAssign 3 2 []; CRead 0 10] in
  let w := crun no_mem 5 world_new (os1 ++ os2 ++ [CDrop 3; CDrop 2]) in
  holds (crun no_mem 5 world_new os1) 3 two_events [(7%N, $"main")] /\
  deleted (w_hist w) = [0; 1] /\ made (w_hist w) = [0; 1] /\
  nth 0 (got 0 (w_hist w)) [] = $"{""tra" /\ nth 1 (got 0 (w_hist w)) [] = $"ceEvents"":" /\ nth 3 (got 0 (w_hist w)) [NUL] = [] /\
  length (got 0 (w_hist w)) = 4 /\ ~ In (Undefined 0) (w_hist w).
Proof.
  cbv zeta. split; [split; [exists 0; split; reflexivity|reflexivity]|].
  do 6 (split; [vm_compute; reflexivity|]).
  assert (forall h, existsb (fun f => match f with Undefined 0 => true | _ => false end) h = false -> ~ In (Undefined 0) h) as K.
  { intros h E I. rewrite <- not_true_iff_false in E. apply E. apply existsb_exists. exists (Undefined 0). auto. }
  apply K. vm_compute. reflexivity.
Qed.

(** The buffer lives on in context 3, but the export of context 1 is lost. *)
Example C95_case_moved :
  let os := [CMake 1 (Some two_events) [(7%N, $"main")]; CExport 0 1; CMove 3 1 []; CRead 0 10] in
  let w := crun no_mem 5 world_new os in
  getBuffer w 3 = Some 0 /\ w_buf w 0 = Alive two_events /\ w_hist w = [Made 0 two_events; Undefined 0].
Proof. cbv zeta. split; [|split]; reflexivity. Qed.
