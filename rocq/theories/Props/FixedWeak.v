(** C100: the fixed buffer of C89 with the memory orders that it is written with:
    issued is read and changed by seq_cst operations, on_loan by relaxed ones. Fewer
    than 2^64 calls of getChunk. *)
From Verif Require Import Base Spec.FixedHistory Spec.FixedWeak Model.Queue Model.Interleave Model.WeakMem Model.FixedConc Model.FixedWeak
  Proofs.Interleave Proofs.QueueConc Proofs.WeakMem Proofs.RingConc Proofs.FixedConc Proofs.FixedWeak Props.FixedConc.
From Coq Require Import Permutation.
Local Open Scope N_scope.

Definition few (n : N) (sched : list zact) : Prop := N.of_nat (calls (core (z_hist (zrun n sched)))) < 2 ^ 64.

(** Chunks are used without data races by those who get them, and read without races by
    those who know that they were given back. *)
Theorem C100_no_race : forall n sched, few n sched -> races (z_mem (zrun n sched)) = [].
Proof. intros n sched L. destruct (run_ZI n sched L) as (s & Z). apply Z. Qed.
Print Assumptions C100_no_race.

(** Whoever knows that a chunk was given back sees everything that was written to it. *)
Theorem C100_informed : forall n sched t c e a, few n sched -> let z := zrun n sched in
  informed (z_hist z) t c = true -> nth_error (accs (z_mem z)) e = Some a -> a_loc a = chunk_var c -> a_write a = true ->
  known (seen (z_mem z) t) e = true.
Proof.
  intros n sched t c e a L z Hi A La W. destruct (run_ZI n sched L) as (s & Z). apply informed_in in Hi as (u & Hi).
  apply (zi_heard _ _ _ Z) in Hi as (Hi & _). eapply Hi; eauto.
Qed.
Print Assumptions C100_informed.

(** All but the answers that may be out of date is as if every access took effect at once:
    C89 applies. *)
Theorem C100_as_if : forall n sched, few n sched -> let z := zrun n sched in
  exists sched', few_calls n sched' /\ f_hist (frun n sched') = lasting (core (z_hist z)) /\
    (forall t, f_pc (frun n sched') t = z_pc z t) /\
    forall x v, x = issued /\ v = f_issued (frun n sched') \/ x = on_loan /\ v = f_loan (frun n sched') ->
      exists g l, hist (z_mem z) x = g :: l /\ m_val g = v /\ forall b, In b l -> m_to b < m_to g.
Proof.
  intros n sched L z. destruct (run_ZI n sched L) as (s & Z). exists s. fold z in Z. split; [|split; [apply Z|split; [apply Z|]]].
  - unfold few_calls. rewrite (zi_hist _ _ _ Z), calls_lasting. exact L.
  - assert (forall x v, newest (z_mem z) x v -> exists g l, hist (z_mem z) x = g :: l /\ m_val g = v /\ forall b, In b l -> m_to b < m_to g) as K.
    { intros x v (g & l & E & V & C). exists g, l. split; auto. split; auto. rewrite E in C. eapply chain_older; eauto. }
    intros x v [(-> & ->)|(-> & ->)]; apply K; apply Z.
Qed.
Print Assumptions C100_as_if.

Theorem C100_once : forall n sched, few n sched -> let h := core (z_hist (zrun n sched)) in
  NoDup (handed h) /\ (forall c, In c (handed h) -> c < n) /\
  (forall t u c, In (FGot t (Some c)) h -> In (FGot u (Some c)) h -> t = u).
Proof.
  intros n sched L h. destruct (C100_as_if n sched L) as (s & Ls & Eh & _). destruct (C89_once n s Ls) as (A & B & C). rewrite Eh in A, B, C. fold h in A, B, C.
  rewrite handed_lasting in A, B. split; auto. split; auto. intros t u c X Y.
  assert (forall t, In (FGot t (Some c)) h -> In (FGot t (Some c)) (lasting h)) as K by (intros x Hx; apply filter_In; auto).
  apply K, C in X. apply K, C in Y. congruence.
Qed.
Print Assumptions C100_once.

(** When nobody is inside getChunk, the chunks handed out are the first ones, as many as
    there were calls, or all of them. *)
Theorem C100_all : forall n sched, few n sched -> let h := core (z_hist (zrun n sched)) in
  answers h = calls h -> Permutation (handed h) (map N.of_nat (seq 0 (Nat.min (calls h) (N.to_nat n)))).
Proof.
  intros n sched L h A. destruct (C100_as_if n sched L) as (s & Ls & Eh & _). pose proof (C89_all n s Ls) as K. cbv zeta in K.
  rewrite Eh, handed_lasting, answers_lasting, calls_lasting in K. exact (K A).
Qed.
Print Assumptions C100_all.

(** on_loan, in the order of its changes, ends with the number of chunks handed out and not
    given back. *)
Theorem C100_loaned : forall n sched, few n sched -> n < 2 ^ 64 -> let z := zrun n sched in let h := core (z_hist z) in
  exists g l, hist (z_mem z) on_loan = g :: l /\ (forall b, In b l -> m_to b < m_to g) /\
    N.of_nat (length (handed h)) = m_val g + N.of_nat (length (came_back h)).
Proof.
  intros n sched L Hn z h. destruct (C100_as_if n sched L) as (s & Ls & Eh & _ & V). destruct (V on_loan _ (or_intror (conj eq_refl eq_refl))) as (g & l & E & Eg & O).
  exists g, l. split; auto. split; auto. pose proof (C89_loaned n s Ls Hn) as K. cbv zeta in K. rewrite Eh, handed_lasting, came_lasting in K. fold z h in K.
  rewrite Eg. exact K.
Qed.
Print Assumptions C100_loaned.

(** Null means that more calls than chunks were made; full, that as many were made. *)
Theorem C100_null_and_full : forall n sched, few n sched -> forall before e after,
  core (z_hist (zrun n sched)) = before ++ e :: after ->
  match e with
  | FGot _ None => n < N.of_nat (calls before)
  | FTold _ true => n <= N.of_nat (calls before)
  | _ => True
  end.
Proof.
  intros n sched L a e b E. destruct (C100_as_if n sched L) as (s & Ls & Eh & _). pose proof (C89_null_and_full n s Ls (lasting a) e (lasting b)) as K.
  rewrite Eh, E, lasting_app, calls_lasting in K. destruct e as [t|t [c|]|t c|t [|]|t x]; auto; apply (K eq_refl).
Qed.
Print Assumptions C100_null_and_full.

Lemma first_of u (m : list fixed_event) : (forall y, In y m -> f_actor y <> u) \/ exists m1 x m2, m = m1 ++ x :: m2 /\ f_actor x = u /\ forall y, In y m1 -> f_actor y <> u.
Proof.
  induction m as [|x m [IH|(m1 & y & m2 & -> & A & B)]]; [now left| |].
  - destruct (Nat.eq_dec (f_actor x) u) as [E|N]; [right; exists [], x, m; split; auto; split; auto; easy|]. left. intros y [<-|H]; auto.
  - destruct (Nat.eq_dec (f_actor x) u) as [E|N]; right; [exists [], x, (m1 ++ y :: m2); split; auto; split; auto; easy|].
    exists (x :: m1), y, m2. split; auto. split; auto. intros w [<-|H]; auto.
Qed.

(** Once anybody saw it full, a getChunk that is called afterwards returns null. *)
Theorem C100_full_for_good : forall n sched, few n sched -> forall before e between u m o rest,
  core (z_hist (zrun n sched)) = before ++ e :: between ++ FCalled u :: m ++ FGot u o :: rest -> seen_full e ->
  (forall x, ~ In (FGot u x) m) -> o = None.
Proof.
  intros n sched L a e w u m o r E S Nm. destruct (C100_as_if n sched L) as (s & Ls & Eh & _).
  rewrite E in Eh. assert (lasting [e] = [e]) as Le by (destruct e as [|t [c|]|t c|t [|]|t x]; cbn in *; easy).
  assert (f_hist (frun n s) = lasting a ++ e :: lasting w ++ FCalled u :: lasting m ++ FGot u o :: lasting r) as Eh2.
  { rewrite Eh. change (e :: w ++ FCalled u :: m ++ FGot u o :: r) with ([e] ++ w ++ [FCalled u] ++ m ++ [FGot u o] ++ r). rewrite !lasting_app, Le. reflexivity. }
  destruct (first_of u (lasting m)) as [N|(m1 & x & m2 & Em & Ax & N)].
  - destruct (C89_full_for_good n s Ls (lasting a) e (lasting w) _ Eh2 S) as (_ & K). specialize (K u (lasting m) (FGot u o) (lasting r) eq_refl N eq_refl). congruence.
  - exfalso. rewrite Em, <- app_assoc in Eh2. destruct (C89_full_for_good n s Ls (lasting a) e (lasting w) _ Eh2 S) as (_ & K).
    specialize (K u m1 x (m2 ++ FGot u o :: lasting r) eq_refl N Ax). subst x. apply (Nm None).
    assert (In (FGot u None) (lasting m)) as X by (rewrite Em; apply in_or_app; right; now left). now apply filter_In in X.
Qed.
Print Assumptions C100_full_for_good.

(** isFull: a thread that heard that the buffer is full, from getChunk or isFull, its own or
    those of threads it heard of, is told so. *)
Theorem C100_told : forall n sched, few n sched -> forall before t b after,
  z_hist (zrun n sched) = before ++ Did (FTold t b) :: after ->
  (exists x, In x (heard before t) /\ seen_full x) -> b = true.
Proof. intros n sched L a t b r E H. destruct (run_ZI n sched L) as (s & Z). apply (zi_says _ _ _ Z) in E as (_ & E). exact (E H). Qed.
Print Assumptions C100_told.

(** chunk_count covers the chunks whose use the thread heard of, is at least every count it
    heard of, and never more than the size. *)
Theorem C100_counted : forall n sched, few n sched -> forall before t k after,
  z_hist (zrun n sched) = before ++ Did (FCounted t k) :: after ->
  k <= n /\ k <= N.of_nat (calls (core before)) /\
  (forall u c, In (FGot u (Some c)) (heard before t) -> c < k) /\
  (forall c, informed before t c = true -> c < k) /\
  (forall u j, In (FCounted u j) (heard before t) -> j <= k) /\
  ((exists x, In x (heard before t) /\ seen_full x) -> k = n).
Proof.
  intros n sched L a t k b E. destruct (run_ZI n sched L) as (s & Z). apply (zi_says _ _ _ Z) in E as (E1 & E2 & E3 & E4 & E5 & E6).
  repeat split; auto. intros c H. apply informed_in in H as (u & H). eauto.
Qed.
Print Assumptions C100_counted.

(** A thread hears of its own events. *)
Theorem C100_own : forall h e, In e (core h) -> In e (heard h (f_actor e)).
Proof. exact heard_own. Qed.
Print Assumptions C100_own.

(** Two chunks. Thread 1 gets and fills one and gives it back; thread 2 hears of it and
    reads it; its count covers it. Thread 0 is told a count that is out of date. *)
Definition C100_sched : list zact :=
  [ZGet 1; ZGo 1 0 10; ZGo 1 0 0; ZGo 1 0 10; ZUse 1 0 true; ZRet 1 0 0 20; ZSync 2 1; ZRead 2 0; ZCount 2 0; ZCount 0 1; ZGet 0; ZGo 0 0 20; ZFull 2 1; ZFull 3 0]%nat.

Example C100_case : let z := zrun 2 C100_sched in
  few 2 C100_sched /\ races (z_mem z) = [] /\ informed (z_hist z) 2 0 = true /\ informed (z_hist z) 0 0 = false /\
  z_hist z = map Did [FCalled 1; FGot 1 (Some 0); FGaveBack 1 0] ++ [Synced 2 1] ++ map Did [FCounted 2 1; FCounted 0 0; FCalled 0; FTold 2 false; FTold 3 true] /\
  z_pc z 0%nat = FReset 1.
Proof. cbv zeta. split; [vm_compute; reflexivity|]. repeat split; vm_compute; reflexivity. Qed.

(** What is not true: that a chunk which chunk_count covers, and which was given back
    before, can be read. Nothing that the buffer tells a reader makes it hear of what its
    user wrote: issued is changed before the chunk is filled, and on_loan is relaxed. The
    log takes its own lock for that. *)
Theorem C100_count_is_not_enough_refuted : exists n sched t c k before between after, few n sched /\
  let z := zrun n sched in
  z_hist z = before ++ between ++ Did (FCounted t k) :: after /\ In c (came_back (core before)) /\ c < k /\
  races (wtouch (z_mem z) t (chunk_var c) false tt) <> [].
Proof.
  exists 1, [ZGet 1; ZGo 1 0 10; ZGo 1 0 0; ZGo 1 0 10; ZUse 1 0 true; ZRet 1 0 0 20; ZCount 2 0]%nat, 2%nat, 0, 1,
    (map Did [FCalled 1; FGot 1 (Some 0); FGaveBack 1 0]), [], []. cbv zeta.
  split; [vm_compute; reflexivity|]. split; [vm_compute; reflexivity|]. split; [vm_compute; auto|]. split; [reflexivity|].
  vm_compute. discriminate.
Qed.
Print Assumptions C100_count_is_not_enough_refuted.
