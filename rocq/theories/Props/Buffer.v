(** C16-C24: chunks, buffers, iteration. *)
From Coq Require Import Permutation.
From Verif Require Import Base Spec.History Model.Event Model.Queue Model.Buffer
  Proofs.Queue Proofs.Buffer.

(** A sample event, numbered by its time. *)
Definition sample (i : Z) : event :=
  make_event {| tp_category := $"cat"; tp_name := $"name"; tp_type := Instant;
                tp_arg_names := ([], []); tp_arg_types := (is_none, is_none) |} (0, 0)%N i.
Definition blank (k : N) : chunk := {| c_next := 77; c_tid := 5; c_arr := fun _ => sample 99 |}.

(** C16. [run_adds] calls addEvent once per event, recording refusals. *)
Fixpoint run_adds (cap : N) (c : chunk) (es : list event) : list (res unit) * chunk :=
  match es with
  | [] => ([], c)
  | e :: r => match chunk_add cap c e with
              | Ok c' => let '(l, c'') := run_adds cap c' r in (Ok tt :: l, c'')
              | Throw x => let '(l, c'') := run_adds cap c r in (Throw x :: l, c'')
              | UB => let '(l, c'') := run_adds cap c r in (UB :: l, c'')
              end
  end.

Theorem C16_chunk_fills_in_order : forall cap c tid es, (cap < ushort)%N ->
  let '(answers, c') := run_adds cap (chunk_reset c tid) es in
  answers = map (fun i => if (N.of_nat i <? cap)%N then Ok tt else Throw OutOfRange) (seq 0 (length es)) /\
  chunk_events c' = firstn (N.to_nat cap) es /\
  chunk_count_of c' = N.min (lenN es) cap /\
  (chunk_isFull cap c' = true <-> (cap <= lenN es)%N) /\
  c_tid c' = tid /\
  forall i e, nth_error (firstn (N.to_nat cap) es) i = Some e -> c_arr c' (N.of_nat i) = e.
Proof.
  intros cap c tid es Hcap.
  assert (forall es c, (c_next c <= cap)%N ->
    run_adds cap c es =
    (map (fun i => if (c_next c + N.of_nat i <? cap)%N then Ok tt else Throw OutOfRange) (seq 0 (length es)),
     fold_left (add_or_keep cap) es c)) as R.
  { clear es c. induction es as [|e es IH]; intros c Hc; [reflexivity|].
    cbn [run_adds length seq map fold_left]. rewrite <- seq_shift, map_map, N.add_0_r.
    destruct (N.ltb_spec (c_next c) cap) as [L|L].
    - destruct (chunk_add_ok cap c e Hcap L) as (c1 & A1 & A2 & _).
      assert (add_or_keep cap c e = c1) as -> by (unfold add_or_keep; now rewrite A1).
      rewrite A1, IH by lia. f_equal. f_equal. apply map_ext. intros i. rewrite A2.
      now replace (c_next c + 1 + N.of_nat i)%N with (c_next c + N.of_nat (S i))%N by lia.
    - assert (c_next c = cap) as E by lia.
      assert (add_or_keep cap c e = c) as -> by (unfold add_or_keep; now rewrite chunk_add_full).
      rewrite chunk_add_full by exact E. rewrite IH by lia. f_equal. f_equal.
      apply map_ext. intros i. rewrite E.
      destruct (N.ltb_spec (cap + N.of_nat i) cap); [lia|].
      destruct (N.ltb_spec (cap + N.of_nat (S i)) cap); [lia|reflexivity]. }
  rewrite R by (cbn; lia).
  destruct (chunk_fill cap Hcap es (chunk_reset c tid)) as (H1 & H2 & H3); [cbn; lia|].
  set (c' := fold_left _ _ _) in *. cbn [chunk_reset c_next c_tid] in *.
  rewrite chunk_events_reset in H1. cbn [app] in H1. rewrite N.add_0_l in H3.
  split; [apply map_ext; intros; now rewrite N.add_0_l|].
  split; [exact H1|]. split; [exact H3|]. split; [|split; [exact H2|]].
  - unfold chunk_isFull. rewrite N.eqb_eq, H3. lia.
  - intros i e Hi. rewrite <- H1 in Hi. unfold chunk_events in Hi.
    rewrite nth_error_map in Hi. destruct (nth_error (seq _ _) i) as [x|] eqn:E; [|discriminate].
    injection Hi as <-.
    assert (i < N.to_nat (c_next c')) as Hlt.
    { rewrite <- (seq_length (N.to_nat (c_next c')) 0). apply nth_error_Some. congruence. }
    rewrite nth_error_seq0 in E by exact Hlt. injection E as <-. reflexivity.
Qed.
Print Assumptions C16_chunk_fills_in_order.

Example C16_case : let '(answers, c) := run_adds 2 (chunk_reset (blank 0) 9) [sample 1; sample 2; sample 3] in
  answers = [Ok tt; Ok tt; Throw OutOfRange] /\ map ev_time (chunk_events c) = [1; 2]%N /\ c_tid c = 9%N.
Proof. vm_compute. auto. Qed.

(** C17 *)
Theorem C17_default_capacity : chunk_size 1 = 100%N /\ sizeof_chunk 1 = 4008%N.
Proof. split; reflexivity. Qed.
Print Assumptions C17_default_capacity.

Theorem C17_chunk_fits_its_pages : forall pages, (1 <= pages)%N ->
  (1 <= chunk_size pages)%N /\
  (sizeof_chunk pages <= page_size * pages)%N /\
  (page_size * pages < sizeof_chunk pages + array_offset - 8 + sizeof_event)%N.
Proof.
  intros pages Hp. unfold sizeof_chunk, chunk_size, page_size, array_offset, sizeof_event.
  pose proof (N.div_mod (4096 * pages - 64) 40 ltac:(lia)) as D.
  pose proof (N.mod_lt (4096 * pages - 64) 40 ltac:(lia)) as M.
  set (q := ((4096 * pages - 64) / 40)%N) in *. clearbody q. lia.
Qed.
Print Assumptions C17_chunk_fits_its_pages.

Theorem C17_fillable_up_to_640_pages : forall pages, (1 <= pages <= 640)%N ->
  (chunk_size pages < ushort)%N /\
  forall c tid es, lenN es = chunk_size pages ->
    chunk_isFull (chunk_size pages) (snd (run_adds (chunk_size pages) (chunk_reset c tid) es)) = true.
Proof.
  intros pages Hp.
  assert (chunk_size pages < ushort)%N as H.
  { unfold chunk_size, page_size, array_offset, sizeof_event, ushort.
    apply N.div_lt_upper_bound; lia. }
  split; [exact H|]. intros c tid es He.
  pose proof (C16_chunk_fills_in_order (chunk_size pages) c tid es H) as K.
  destruct (run_adds _ _ es) as [a c']. destruct K as (_ & _ & _ & K & _). apply K. lia.
Qed.
Print Assumptions C17_fillable_up_to_640_pages.

(** With more pages the 16-bit counter wraps first: the chunk never becomes
    full, nothing is ever refused and the count restarts at zero. *)
Theorem C17_unfillable_from_641_pages : forall pages c tid es, (641 <= pages)%N ->
  let '(answers, c') := run_adds (chunk_size pages) (chunk_reset c tid) es in
  answers = repeat (Ok tt) (length es) /\
  chunk_isFull (chunk_size pages) c' = false /\
  chunk_count_of c' = (lenN es mod ushort)%N.
Proof.
  intros pages c tid es Hp.
  assert (ushort <= chunk_size pages)%N as H.
  { unfold chunk_size, page_size, array_offset, sizeof_event, ushort.
    apply N.div_le_lower_bound; lia. }
  assert (forall es c, (c_next c < ushort)%N ->
    run_adds (chunk_size pages) c es = (repeat (Ok tt) (length es), fold_left (add_or_keep (chunk_size pages)) es c)) as R.
  { clear es c. induction es as [|e es IH]; intros c Hc; [reflexivity|].
    cbn [run_adds length repeat fold_left].
    destruct (chunk_never_full _ c H Hc) as (_ & A). destruct (A e) as (c1 & A1 & A2).
    assert (add_or_keep (chunk_size pages) c e = c1) as -> by (unfold add_or_keep; now rewrite A1).
    rewrite A1, IH; [reflexivity|]. rewrite A2. apply N.mod_lt. discriminate. }
  rewrite R by reflexivity.
  destruct (chunk_wraps _ H es (chunk_reset c tid) ltac:(reflexivity)) as (H1 & H2).
  split; [reflexivity|]. split; [exact H1|]. unfold chunk_count_of. rewrite H2. reflexivity.
Qed.
Print Assumptions C17_unfillable_from_641_pages.

Example C17_case : chunk_size 640 = 65534%N /\ chunk_size 641 = 65636%N.
Proof. split; reflexivity. Qed.

(** C18 *)
Theorem C18_fixed_chunks_once : forall mem gen n cs, (lenN (asks cs) < 2 ^ 64)%N ->
  let '(h, b) := fixed_run (fixed_new mem gen n) cs in
  calls_of h = cs /\
  replies h = map (fun i => if (i <? n)%N then Some i else None) (upto (lenN (asks cs))) /\
  lent h = upto (N.min (lenN (asks cs)) n) /\
  (fixed_isFull b = true <-> (n <= lenN (asks cs))%N) /\
  fixed_chunk_count b = N.min (lenN (asks cs)) n.
Proof.
  intros mem gen n cs Hs.
  pose proof (fixed_run_spec cs (fixed_new mem gen n) 0 eq_refl) as S.
  destruct (fixed_run _ cs) as [h b]. destruct S as (-> & S2 & S3 & _ & _).
  cbn [fixed_new f_size] in *. rewrite N.add_0_l, N.mod_small in S2 by exact Hs.
  split; [apply fixed_expect_calls|]. split; [|split; [|split]].
  - rewrite fixed_expect_replies. unfold upto. rewrite map_map.
    unfold lenN. rewrite Nat2N.id. apply map_ext_in. intros i Hi%in_seq.
    rewrite N.add_0_l, N.mod_small; [reflexivity|]. unfold lenN, w64 in *. lia.
  - rewrite lent_replies, fixed_expect_replies.
    rewrite <- (Nat2N.id (length (asks cs))) at 1. apply lent_upto. unfold lenN, w64 in *. lia.
  - unfold fixed_isFull. rewrite N.leb_le, S2, S3. reflexivity.
  - unfold fixed_chunk_count. rewrite S2, S3. destruct (N.ltb_spec (lenN (asks cs)) n); lia.
Qed.
Print Assumptions C18_fixed_chunks_once.

(** Handing out one chunk touches no other chunk. *)
Theorem C18_getChunk_isolated : forall b tid k b', fixed_getChunk b tid = (Some k, b') ->
  chunk_events (f_chunks b' k) = [] /\ c_tid (f_chunks b' k) = tid /\
  forall i, i <> k -> f_chunks b' i = f_chunks b i.
Proof.
  intros b tid k b'. unfold fixed_getChunk. destruct (_ <=? _)%N; [discriminate|].
  intros [= <- <-]. cbn [f_chunks]. rewrite upd_same. split; [reflexivity|]. split; [reflexivity|].
  intros i Hi. now apply upd_other.
Qed.
Print Assumptions C18_getChunk_isolated.

(** Without the bound on the number of calls the claim is false: the request
    counter wraps and chunk 0 is handed out again. *)
Theorem C18_fixed_chunks_once_refuted : forall mem gen, exists cs h b i j,
  fixed_run (fixed_new mem gen 1) cs = (h, b) /\ i < j /\
  nth_error (replies h) i = Some (Some 0%N) /\ nth_error (replies h) j = Some (Some 0%N).
Proof.
  intros mem gen. exists (repeat (Ask 0) (N.to_nat (w64 + 1))).
  pose proof (fixed_run_spec (repeat (Ask 0) (N.to_nat (w64 + 1))) (fixed_new mem gen 1) 0 eq_refl) as S.
  destruct (fixed_run _ _) as [h b]. destruct S as (-> & _).
  exists (fixed_expect (f_size (fixed_new mem gen 1)) 0 (repeat (Ask 0) (N.to_nat (w64 + 1)))), b, 0%nat, (N.to_nat w64).
  assert (forall m, length (asks (repeat (Ask 0) m)) = m) as HL.
  { induction m as [|m IH]; cbn; [reflexivity|]. f_equal. exact IH. }
  split; [reflexivity|]. split; [pose proof w64_pos; lia|].
  rewrite fixed_expect_replies, HL. rewrite !nth_error_map.
  rewrite !nth_error_seq0 by lia. cbn [option_map fixed_new f_size]. rewrite !N.add_0_l, N2Nat.id.
  split; [reflexivity|]. rewrite N.mod_same by exact w64_nz. reflexivity.
Qed.
Print Assumptions C18_fixed_chunks_once_refuted.

Example C18_case : fst (fixed_run (fixed_new blank 0 2) [Ask 7; GiveBack 0; Ask 8; Ask 7]) =
  [Lent 7 0; Back 0; Lent 8 1; Refused 7].
Proof. reflexivity. Qed.

(** C19. Any sequence of calls in which only lent chunks are given back. The
    answers are determined by the history alone: the first [n] requests get
    fresh chunks, request [n+i] gets the [i]-th chunk given back, and waits
    (only) if there is none yet. *)
Theorem C19_ring_lends_exclusively : forall mem gen n cs, (1 <= n <= 2 ^ 32)%N -> (lenN (asks cs) < 2 ^ 64)%N ->
  let '(h, b, e) := ring_run (ring_new mem gen n) cs in
  well_behaved h ->
  never_twice h /\
  (forall i, i < length (lent h) -> nth_error (lent h) i =
     if (N.of_nat i <? n)%N then Some (N.of_nat i) else nth_error (backs h) (i - N.to_nat n)) /\
  (exists queued, Permutation (on_loan h ++ queued) (upto (N.min (lenN (lent h)) n))) /\
  match e with
  | AllDone => cs = calls_of h
  | WaitsIn (Ask t) => (exists r, cs = calls_of h ++ Ask t :: r) /\
       lenN (lent h) = (n + lenN (backs h))%N /\ lenN (on_loan h) = n
  | WaitsIn (GiveBack k) => ~ In k (on_loan h)
  | Crash => False
  end.
Proof.
  intros mem gen n cs Hn Hs.
  pose proof (ring_run_spec n ltac:(lia) cs _ [] (rinv_new mem gen n Hn)) as S.
  pose proof (ring_run_at mem gen n cs Hn Hs) as AT.
  destruct (ring_run (ring_new mem gen n) cs) as [[h b] e]. cbn [app] in S.
  intros W. destruct S as (S1 & S2 & S3 & S4 & S5); [exact Hs|exact W|].
  split; [|split; [|split]].
  - intros p t k s E. destruct (AT h b e eq_refl W (p ++ [Lent t k]) s) as (b1 & I).
    { now rewrite <- app_assoc. }
    now apply (rinv_never n b1 p t k).
  - exact (ri_fifo _ _ _ S4).
  - eexists. exact (ri_part _ _ _ S4).
  - destruct S5 as (rest & E & S6). destruct e as [|[t|k]|].
    + rewrite S6, app_nil_r in E. exact E.
    + destruct S6 as (r & -> & S6). specialize (S6 t eq_refl). split; [eauto|].
      unfold ring_answer in S6.
      destruct (N.ltb_spec (N.of_nat (length (lent h))) n) as [L|L]; [discriminate S6|].
      apply nth_error_None in S6.
      pose proof (ri_sum _ _ _ S4) as SU.
      pose proof (Permutation_length (ri_part _ _ _ S4)) as PL.
      rewrite app_length, upto_length, skipn_length in PL. unfold lenN in *. lia.
    + exact (S1 k eq_refl).
    + exact S6.
Qed.
Print Assumptions C19_ring_lends_exclusively.

Example C19_case : fst (fst (ring_run (ring_new blank 0 2) [Ask 7; Ask 8; GiveBack 1; GiveBack 0; Ask 7; Ask 8; Ask 9])) =
  [Lent 7 0; Lent 8 1; Back 1; Back 0; Lent 7 1; Lent 8 0] /\
  snd (ring_run (ring_new blank 0 2) [Ask 7; Ask 8; GiveBack 1; GiveBack 0; Ask 7; Ask 8; Ask 9]) = WaitsIn (Ask 9).
Proof. split; vm_compute; reflexivity. Qed.

(** C20. What one thread leaves in a ring: iterating gives a rotation of the
    newest events, cut at a chunk boundary. *)
Theorem C20_ring_keeps_newest : forall n cap tid mem gen es,
  (1 <= n <= 2 ^ 32)%N -> (1 <= cap < ushort)%N -> es <> [] -> (lenN es < 2 ^ 64)%N ->
  exists b cur first fin old new dropped,
    ring_log_all cap (ring_new mem gen n) None tid es = RDone (b, cur) /\
    es = dropped ++ old ++ new /\
    (exists m, length dropped = m * N.to_nat cap) /\
    (lenN (old ++ new) <= n * cap)%N /\
    (N.min (lenN es) ((n - 1) * cap + 1) <= lenN (old ++ new))%N /\
    it_begin (ring_view b) = Some first /\ it_finish (ring_view b) = Some fin /\
    iterate (S (length es)) (ring_view b) first fin = Some (map (fun e => (e, tid)) (new ++ old)).
Proof.
  intros n cap tid mem gen es Hn Hc He Hk.
  destruct (ring_log_done n cap tid mem gen es Hn Hc He Hk) as (b & cur & j & R & L).
  destruct (linv_view n cap tid es b cur j ltac:(lia) ltac:(lia) L) as (old & new & E & V).
  destruct (iterate_all (ring_view b)) as (first & fin & I1 & I2 & I3).
  exists b, cur, first, fin, old, new, (firstn (N.to_nat (j + 1 - n) * N.to_nat cap) es).
  pose proof (li_lo _ _ _ _ _ _ _ L) as LO. pose proof (li_hi _ _ _ _ _ _ _ L) as HI.
  assert (length (old ++ new) = length es - N.to_nat (j + 1 - n) * N.to_nat cap) as HL.
  { rewrite <- E. apply skipn_length. }
  split; [exact R|]. split; [rewrite <- E; symmetry; apply firstn_skipn|].
  split.
  { exists (N.to_nat (j + 1 - n)). apply firstn_length_le.
    destruct (N.le_gt_cases (j + 1) n).
    - replace (j + 1 - n)%N with 0%N by lia. cbn. lia.
    - assert (N.to_nat (j + 1 - n) * N.to_nat cap <= N.to_nat j * N.to_nat cap) by (apply Nat.mul_le_mono_r; lia). lia. }
  split.
  { unfold lenN. rewrite HL.
    destruct (N.le_gt_cases (j + 1) n) as [C|C].
    - replace (j + 1 - n)%N with 0%N by lia. cbn [N.to_nat Nat.mul].
      assert ((N.to_nat j + 1) * N.to_nat cap <= N.to_nat n * N.to_nat cap) by (apply Nat.mul_le_mono_r; lia). lia.
    - assert ((N.to_nat j + 1) * N.to_nat cap = N.to_nat (j + 1 - n) * N.to_nat cap + N.to_nat n * N.to_nat cap) by (rewrite <- Nat.mul_add_distr_r; f_equal; lia). lia. }
  split.
  { unfold lenN. rewrite HL.
    destruct (N.le_gt_cases (j + 1) n) as [C|C].
    - replace (j + 1 - n)%N with 0%N by lia. cbn [N.to_nat Nat.mul]. lia.
    - assert (N.to_nat j * N.to_nat cap = N.to_nat (j + 1 - n) * N.to_nat cap + N.to_nat (n - 1) * N.to_nat cap) by (rewrite <- Nat.mul_add_distr_r; f_equal; lia). lia. }
  split; [exact I1|]. split; [exact I2|]. rewrite <- V. apply I3.
  rewrite V, map_length, app_length. rewrite app_length in HL. lia.
Qed.
Print Assumptions C20_ring_keeps_newest.

Example C20_case :
  match ring_log_all 2 (ring_new blank 0 2) None 5 (map sample [1; 2; 3; 4; 5]%Z) with
  | RDone (b, _) =>
      match it_begin (ring_view b), it_finish (ring_view b) with
      | Some i, Some f => option_map (map (fun p => ev_time (fst p))) (iterate 6 (ring_view b) i f) = Some [5; 3; 4]%N
      | _, _ => False
      end
  | _ => False
  end.
Proof. vm_compute. reflexivity. Qed.

(** C21 *)
Theorem C21_iteration_exact : forall v,
  let all := flat_map (fun k => map (fun e => (e, c_tid (v_chunk v k))) (chunk_events (v_chunk v k))) (upto (v_count v)) in
  exists first fin, it_begin v = Some first /\ it_finish v = Some fin /\
    forall fuel, length all < fuel -> iterate fuel v first fin = Some all.
Proof.
  intros v all. destruct (iterate_all v) as (b & e & H1 & H2 & H3).
  assert (all = from_chunk v 0) as ->.
  { unfold all, from_chunk, upto, tagged. change (N.to_nat 0) with 0. rewrite Nat.sub_0_r.
    rewrite !flat_map_concat_map, map_map. reflexivity. }
  eauto.
Qed.
Print Assumptions C21_iteration_exact.

Example C21_case :
  let c l := {| c_next := lenN l; c_tid := 3; c_arr := fun i => nth (N.to_nat i) l (sample 0) |} in
  let v := {| v_count := 4; v_chunk := fun k => c (nth (N.to_nat k) [[]; [sample 1; sample 2]; []; [sample 3]] []) |} in
  match it_begin v, it_finish v with
  | Some i, Some f => option_map (map (fun p => ev_time (fst p))) (iterate 4 v i f) = Some [1; 2; 3]%N
  | _, _ => False
  end.
Proof. vm_compute. reflexivity. Qed.

(** C22 *)
Theorem C22_rounding : forall n, (1 <= n <= 2 ^ 32)%N ->
  exists j, upper_power_of_two n = (2 ^ j)%N /\ (1 <= j <= 32)%N /\ (n <= 2 ^ j)%N /\
    (2 ^ j < 2 * n \/ n = 1 /\ 2 ^ j = 2)%N.
Proof.
  intros n Hn. destruct (upper_pow n Hn) as (j & H1 & H2 & H3 & H4). exists j.
  split; [exact H2|]. split; [exact H1|]. split; [exact H3|].
  destruct H4 as [(-> & ->)|H4]; [right; split; reflexivity|left; exact H4].
Qed.
Print Assumptions C22_rounding.

Theorem C22_rounding_refuted : upper_power_of_two 0 = 0%N /\
  (forall j, upper_power_of_two (2 ^ 32 + 1) <> 2 ^ j)%N.
Proof.
  split; [vm_compute; reflexivity|]. intros j.
  replace (upper_power_of_two (2 ^ 32 + 1)) with (2 ^ 33 - 1)%N by (vm_compute; reflexivity).
  intros E. destruct (N.le_gt_cases j 32) as [L|L].
  - assert (2 ^ j <= 2 ^ 32)%N by (apply N.pow_le_mono_r; lia). lia.
  - assert (2 ^ 33 <= 2 ^ j)%N by (apply N.pow_le_mono_r; lia). lia.
Qed.
Print Assumptions C22_rounding_refuted.

Example C22_case : upper_power_of_two 1 = 2%N /\ upper_power_of_two 5 = 8%N /\ upper_power_of_two (2 ^ 32) = (2 ^ 32)%N.
Proof. vm_compute. auto. Qed.

(** C23 *)
Theorem C23_memory_budget : forall pages size, (1 <= pages)%N ->
  let n := chunks_for pages size in
  (n * sizeof_chunk pages <= size)%N /\
  (size < n * sizeof_chunk pages + sizeof_chunk pages)%N /\
  ((1 <= n <= 2 ^ 32)%N ->
    (100 * (n * sizeof_chunk pages + upper_power_of_two n * 16) <= 101 * size)%N).
Proof.
  intros pages size Hp n.
  assert (4008 <= sizeof_chunk pages)%N as HS.
  { unfold sizeof_chunk, chunk_size, page_size, array_offset, sizeof_event.
    assert (100 <= (4096 * pages - 64) / 40)%N; [|lia]. apply N.div_le_lower_bound; lia. }
  pose proof (N.div_mod size (sizeof_chunk pages) ltac:(lia)) as D.
  pose proof (N.mod_lt size (sizeof_chunk pages) ltac:(lia)) as M.
  fold (chunks_for pages size) in D. fold n in D.
  set (s := sizeof_chunk pages) in *. clearbody s n.
  split; [lia|]. split; [lia|]. intros Hn.
  destruct (C22_rounding n Hn) as (j & -> & _ & _ & H).
  assert (2 ^ j <= 2 * n)%N as Hj by lia.
  assert (n * 4008 <= n * s)%N by (apply N.mul_le_mono_l; lia). lia.
Qed.
Print Assumptions C23_memory_budget.

Example C23_case : chunks_for 1 (8 * 1024 * 1024) = 2092%N /\ upper_power_of_two 2092 = 4096%N.
Proof. vm_compute. auto. Qed.

(** C24 *)
Lemma well_behaved_sum h : well_behaved h -> length (lent h) = length (on_loan h) + length (backs h).
Proof.
  induction h as [|d h IH] using rev_ind; intros W; [reflexivity|].
  specialize (IH (well_behaved_prefix _ _ W)).
  rewrite lent_app, backs_app, !app_length.
  assert (on_loan (h ++ [d]) = on_loan_from (on_loan h) [d]) as -> by apply on_loan_app.
  destruct d as [t k|t|k]; cbn [lent backs flat_map app length on_loan_from]; [lia|lia|].
  assert (In k (on_loan h)) as Hk by (apply (W h k []); reflexivity).
  pose proof (Permutation_length (remove_one_perm k _ Hk)) as P. cbn [length] in P. lia.
Qed.

Theorem C24_fixed_stats : forall mem gen n cs, (lenN (asks cs) < 2 ^ 64)%N ->
  let '(h, b) := fixed_run (fixed_new mem gen n) cs in
  well_behaved h ->
  st_chunk_count (fixed_stats b) = lenN (lent h) /\
  st_total_loaned (fixed_stats b) = lenN (lent h) /\
  st_loaned (fixed_stats b) = lenN (on_loan h) /\
  (st_is_full (fixed_stats b) = true <-> (n <= lenN (asked h))%N) /\
  st_size (fixed_stats b) = n /\ st_gen (fixed_stats b) = gen /\
  st_name (fixed_stats b) = $"FixedTraceBuffer".
Proof.
  intros mem gen n cs Hs.
  pose proof (C18_fixed_chunks_once mem gen n cs Hs) as C.
  pose proof (fixed_run_spec cs (fixed_new mem gen n) 0 eq_refl) as S.
  pose proof (fixed_loan_lt cs (fixed_new mem gen n) eq_refl) as HB.
  destruct (fixed_run _ cs) as [h b]. destruct S as (_ & S2 & S3 & S4 & S5). cbn [snd] in HB.
  destruct C as (C1 & _ & C3 & C4 & C5). intros W.
  cbn [fixed_new f_size f_gen f_loan] in *.
  assert (lenN (lent h) = N.min (lenN (asks cs)) n) as HL.
  { rewrite C3. unfold lenN at 1. rewrite upto_length. lia. }
  rewrite Z.add_0_l in S5.
  pose proof (well_behaved_sum h W) as WS.
  assert (f_loan b = lenN (on_loan h)) as HO.
  { apply N2Z.inj.
    assert (lenN (on_loan h) < w64)%N as H1 by (unfold w64, lenN in *; lia).
    rewrite <- (Z.mod_small (Z.of_N (f_loan b)) (2 ^ 64)) by (unfold w64 in *; lia).
    rewrite <- (Z.mod_small (Z.of_N (lenN (on_loan h))) (2 ^ 64)) by (unfold w64 in *; lia).
    replace (Z.of_N (lenN (lent h)) - Z.of_N (lenN (backs h)))%Z with (Z.of_N (lenN (on_loan h))) in S5
      by (unfold lenN; lia).
    rewrite Zminus_mod in S5.
    pose proof (Z.mod_pos_bound (Z.of_N (f_loan b)) (2 ^ 64) ltac:(lia)) as B1.
    pose proof (Z.mod_pos_bound (Z.of_N (lenN (on_loan h))) (2 ^ 64) ltac:(lia)) as B2.
    set (x := (Z.of_N (f_loan b) mod 2 ^ 64)%Z) in *. set (y := (Z.of_N (lenN (on_loan h)) mod 2 ^ 64)%Z) in *.
    apply Z.mod_divide in S5; [|lia]. destruct S5 as (q & Q). nia. }
  assert (length (asked h) = length (asks cs)) as HA by (rewrite <- C1; symmetry; apply asks_calls_of).
  cbn [fixed_stats st_chunk_count st_total_loaned st_loaned st_is_full st_size st_gen st_name].
  rewrite C5, HL. repeat (split; [first [reflexivity|assumption]|]).
  split; [|auto]. rewrite C4. unfold lenN. rewrite HA. reflexivity.
Qed.
Print Assumptions C24_fixed_stats.

Theorem C24_ring_stats : forall mem gen n cs, (1 <= n <= 2 ^ 32)%N -> (lenN (asks cs) < 2 ^ 64)%N ->
  let '(h, b, e) := ring_run (ring_new mem gen n) cs in
  well_behaved h ->
  st_chunk_count (ring_stats b) = N.min (lenN (lent h)) n /\
  st_total_loaned (ring_stats b) = lenN (lent h) /\
  st_loaned (ring_stats b) = lenN (on_loan h) /\
  st_is_full (ring_stats b) = false /\
  st_size (ring_stats b) = n /\ st_gen (ring_stats b) = gen /\
  st_name (ring_stats b) = $"RingTraceBuffer" /\
  ring_chunk_count b = N.min (lenN (lent h)) n.
Proof.
  intros mem gen n cs Hn Hs.
  pose proof (ring_run_spec n ltac:(lia) cs _ [] (rinv_new mem gen n Hn)) as S.
  destruct (ring_run (ring_new mem gen n) cs) as [[h b] e]. cbn [app] in S.
  intros W. destruct S as (_ & _ & S3 & S4 & _); [exact Hs|exact W|].
  cbn [ring_stats st_chunk_count st_total_loaned st_loaned st_is_full st_size st_gen st_name].
  unfold ring_chunk_count.
  rewrite (ri_size _ _ _ S4), (ri_count _ _ _ S4), (ri_loan _ _ _ S4), S3.
  repeat (split; [reflexivity|]). destruct (N.ltb_spec n (lenN (lent h))); lia.
Qed.
Print Assumptions C24_ring_stats.

Example C24_case : let '(h, b, _) := ring_run (ring_new blank 4 2) [Ask 7; Ask 8; GiveBack 1; Ask 7; GiveBack 0] in
  st_total_loaned (ring_stats b) = 3%N /\ st_loaned (ring_stats b) = 1%N /\ st_chunk_count (ring_stats b) = 2%N.
Proof. vm_compute. auto. Qed.

(** Events stored in the chunks change nothing else of a buffer. *)
Definition fixed_filled (b : fixed) (ch : N -> chunk) : fixed :=
  {| f_size := f_size b; f_chunks := ch; f_issued := f_issued b; f_loan := f_loan b; f_gen := f_gen b |}.
Definition ring_filled (b : ring) (ch : N -> chunk) : ring :=
  {| r_size := r_size b; r_chunks := ch; r_count := r_count b; r_loan := r_loan b; r_queue := r_queue b; r_gen := r_gen b |}.

(** C21: which chunks are visited. After any calls, and whatever is then in the chunks and in
    the memory of those never handed out, iterating visits the chunks that were handed out,
    each once, and no others. *)
Theorem C21_fixed_visits_the_lent : forall mem gen n cs ch, (lenN (asks cs) < 2 ^ 64)%N ->
  let '(h, b) := fixed_run (fixed_new mem gen n) cs in
  let v := fixed_view (fixed_filled b ch) in
  let all := flat_map (fun k => map (fun e => (e, c_tid (ch k))) (chunk_events (ch k))) (lent h) in
  exists first fin, it_begin v = Some first /\ it_finish v = Some fin /\
    forall fuel, length all < fuel -> iterate fuel v first fin = Some all.
Proof.
  intros mem gen n cs ch Hs. pose proof (C18_fixed_chunks_once mem gen n cs Hs) as C.
  destruct (fixed_run _ cs) as [h b]. destruct C as (_ & _ & C3 & _ & C5). cbv zeta.
  pose proof (C21_iteration_exact (fixed_view (fixed_filled b ch))) as H. cbv zeta in H.
  assert (v_count (fixed_view (fixed_filled b ch)) = N.min (lenN (asks cs)) n) as E by exact C5.
  rewrite E, <- C3 in H. exact H.
Qed.
Print Assumptions C21_fixed_visits_the_lent.

Lemma nth_ext_error {A} (a b : list A) : (forall i, nth_error a i = nth_error b i) -> a = b.
Proof.
  revert b. induction a as [|x a IH]; intros [|y b] H; auto; pose proof (H 0) as H0; try discriminate H0.
  injection H0 as ->. f_equal. apply IH. intros i. exact (H (S i)).
Qed.

Lemma nth_error_firstn_lt {A} n i (l : list A) : i < n -> nth_error (firstn n l) i = nth_error l i.
Proof. revert i l. induction n as [|n IH]; intros i l L; [lia|]. destruct l; [reflexivity|]. destruct i; [reflexivity|]. cbn [firstn nth_error]. apply IH. lia. Qed.

Theorem C21_ring_visits_the_lent : forall mem gen n cs ch, (1 <= n <= 2 ^ 32)%N -> (lenN (asks cs) < 2 ^ 64)%N ->
  let '(h, b, e) := ring_run (ring_new mem gen n) cs in
  well_behaved h ->
  let v := ring_view (ring_filled b ch) in
  let visited := firstn (N.to_nat n) (lent h) in
  let all := flat_map (fun k => map (fun e => (e, c_tid (ch k))) (chunk_events (ch k))) visited in
  NoDup visited /\ (forall k, In k visited <-> In k (lent h)) /\
  exists first fin, it_begin v = Some first /\ it_finish v = Some fin /\
    forall fuel, length all < fuel -> iterate fuel v first fin = Some all.
Proof.
  intros mem gen n cs ch Hn Hs. pose proof (C24_ring_stats mem gen n cs Hn Hs) as C. pose proof (C19_ring_lends_exclusively mem gen n cs Hn Hs) as D.
  pose proof (ring_run_at mem gen n cs Hn Hs) as AT.
  destruct (ring_run _ cs) as [[h b] e]. intros W. destruct (C W) as (_ & _ & _ & _ & _ & _ & _ & C8). destruct (D W) as (_ & D2 & _). clear C D.
  assert (firstn (N.to_nat n) (lent h) = upto (N.min (lenN (lent h)) n)) as E.
  { apply nth_ext_error. intros i. destruct (Nat.lt_ge_cases i (N.to_nat n)) as [L|L].
    - rewrite nth_error_firstn_lt by exact L. destruct (Nat.lt_ge_cases i (length (lent h))) as [M|M].
      + rewrite D2 by exact M. destruct (N.ltb_spec (N.of_nat i) n) as [X|X]; [|lia]. unfold upto. rewrite nth_error_map, nth_error_seq0 by (unfold lenN; lia). reflexivity.
      + rewrite (proj2 (nth_error_None _ _)) by lia. symmetry. apply nth_error_None. rewrite upto_length. unfold lenN. lia.
    - transitivity (@None N); [|symmetry]; apply nth_error_None; [rewrite firstn_length|rewrite upto_length]; lia. }
  pose proof (C21_iteration_exact (ring_view (ring_filled b ch))) as H. cbv zeta in H |- *.
  assert (v_count (ring_view (ring_filled b ch)) = N.min (lenN (lent h)) n) as Ec by exact C8.
  rewrite Ec, <- E in H. split; [rewrite E; apply upto_NoDup|]. split; [|exact H].
  intros k. split; [intros I; rewrite <- (firstn_skipn (N.to_nat n)); apply in_app_iff; now left|]. intros I. apply In_nth_error in I as [i I].
  assert (i < length (lent h)) as Li by (apply nth_error_Some; congruence). pose proof I as I'. rewrite D2 in I' by exact Li.
  rewrite E.
  destruct (N.ltb_spec (N.of_nat i) n) as [X|X].
  - injection I' as <-. unfold upto. apply in_map, in_seq. unfold lenN. lia.
  - apply nth_error_In in I'. apply in_flat_map in I' as (d & Id & Ib). destruct d as [| |k']; [destruct Ib|destruct Ib|]. destruct Ib as [->|[]].
    apply in_split in Id as (p & s & Eh). destruct (AT h b e eq_refl W p (Back k :: s) Eh) as (b1 & R).
    assert (In k (upto (N.min (lenN (lent p)) n))) as U.
    { apply (Permutation_in _ (ri_part _ _ _ R)), in_app_iff. left. exact (W p k s Eh). }
    unfold upto in U |- *. apply in_map_iff in U as (j & <- & U%in_seq). apply in_map, in_seq.
    rewrite Eh, lent_app. unfold lenN in *. rewrite app_length. lia.
Qed.
Print Assumptions C21_ring_visits_the_lent.

Example C21_case_lent : (lenN (asks [Ask 7; Ask 8; GiveBack 0; Ask 7]) < 2 ^ 64)%N /\
  let '(h, b, _) := ring_run (ring_new blank 0 2) [Ask 7; Ask 8; GiveBack 0; Ask 7] in
  lent h = [0; 1; 0]%N /\ v_count (ring_view (ring_filled b blank)) = 2%N.
Proof. vm_compute. auto. Qed.
