(** The log with its lock-free queues behaves as the log whose queue operations
    are single actions. *)
From Verif Require Import Base Spec.QueueHistory Model.Event Model.Queue Model.Buffer Model.Config Model.Registry Model.Interleave
  Spec.LogHistory Model.QueueConc Model.TraceLog Spec.LogMemory Model.LogQueue Spec.LogQueue
  Proofs.Interleave Proofs.QueueConc Proofs.RingConc Proofs.LogFrame Proofs.LogViewInv Proofs.LogSafeAll Proofs.LogRaces.
From Verif Require Import Model.TraceLog.
Open Scope N_scope.

(** ** Equal but for the queues and the code *)

Record same (l s : st) : Prop := {
  sa_enabled : enabled l = enabled s;
  sa_mtx : mtx l = mtx s;
  sa_gen : gen l = gen s;
  sa_bufp : bufp l = bufp s;
  sa_heap : forall b, heap l b = set_bqueue (heap s b) [];
  sa_nbuf : nbuf l = nbuf s;
  sa_ten : ten l = ten s;
  sa_regd : regd l = regd s;
  sa_cfg : cfg l = cfg s;
  sa_names : names l = names s;
  sa_dereg : dereg l = dereg s;
  sa_reg : reg l = reg s;
  sa_sites : sites l = sites s;
  sa_busy : busy l = busy s;
  sa_closing : closing l = closing s;
  sa_hist : hist l = hist s;
  sa_bad : bad l = bad s;
}.

(** An action that is not a queue operation. *)
Definition is_queue (s : st) (a : act) : bool :=
  match a with
  | ADeq _ => true
  | AReturn b _ => match b_kind (heap s b) with Ring => true | Fixed => false end
  | _ => false
  end.

Definition agree {A} (x y : result A) : Prop :=
  match x, y with
  | Blocked, Blocked => True
  | Crashed, Crashed => True
  | Next l r, Next s r' => r = r' /\ same l s
  | _, _ => False
  end.

Lemma same_put l s b x y : same l s -> x = set_bqueue y [] -> same (put_buf l b x) (put_buf s b y).
Proof. intros [] ->. split; cbn; auto. intros c. unfold tset. destruct (Nat.eqb c b); auto. Qed.

Lemma same_emit l s e : same l s -> same (emit l e) (emit s e).
Proof. intros []. split; cbn; congruence. Qed.

Lemma exec_agree cap l s t ch a : same l s -> is_queue s a = false -> agree (exec cap l t ch a) (exec cap s t ch a).
Proof.
  intros S Q. pose proof S as S0. destruct S0.
  destruct a; cbn [exec is_queue] in *; try discriminate; unfold exec_factory, with_buf, owns, status_seen;
    repeat match goal with
    | H : enabled l = _ |- context [enabled l] => rewrite H
    | H : mtx l = _ |- context [mtx l] => rewrite H
    | H : gen l = _ |- context [gen l] => rewrite H
    | H : bufp l = _ |- context [bufp l] => rewrite H
    | H : ten l = _ |- context [ten l] => rewrite H
    | H : regd l = _ |- context [regd l] => rewrite H
    | H : cfg l = _ |- context [cfg l] => rewrite H
    | H : names l = _ |- context [names l] => rewrite H
    | H : dereg l = _ |- context [dereg l] => rewrite H
    | H : reg l = _ |- context [reg l] => rewrite H
    | H : sites l = _ |- context [sites l] => rewrite H
    | H : nbuf l = _ |- context [nbuf l] => rewrite H
    | H : forall b, heap l b = _ |- context [heap l ?b] => rewrite (H b)
    end; cbn [b_kind b_size b_gen b_issued b_loan b_queue b_chunk b_owner set_bqueue]; 
    repeat match goal with
    | |- context [match ?x with _ => _ end] => match x with
        | context [exec] => fail 1 | _ => destruct x eqn:? end
    end; cbn [agree]; try easy; try (split; [reflexivity|]); auto.
  all: try (split; [unfold log_stats; rewrite ?sa_enabled0, ?sa_bufp0, ?sa_names0, ?sa_dereg0, ?sa_regd0, ?sa_reg0; f_equal; destruct (bufp s) as [b|]; cbn; auto; now rewrite (sa_heap0 b)|exact S]).
  all: unfold free_buf, give_buf in *; try (destruct (bufp s) as [b'|] eqn:Eb).
  all: repeat apply same_emit; split; cbn; try congruence;
    try (intros c'; unfold tset; match goal with |- context [Nat.eqb c' ?b] => destruct (Nat.eqb_spec c' b); subst; auto; rewrite ?sa_heap0; reflexivity end).
Qed.

(** What such an action does to the buffers. *)
Lemma exec_keeps cap s t ch a s' r : exec cap s t ch a = Next s' r -> is_queue s a = false ->
  (forall b, b <> nbuf s -> b_queue (heap s' b) = b_queue (heap s b) /\ b_kind (heap s' b) = b_kind (heap s b) /\ b_size (heap s' b) = b_size (heap s b)) /\
  ((nbuf s' = nbuf s /\ b_queue (heap s' (nbuf s)) = b_queue (heap s (nbuf s)) /\ b_kind (heap s' (nbuf s)) = b_kind (heap s (nbuf s)) /\
    b_size (heap s' (nbuf s)) = b_size (heap s (nbuf s))) \/
   (nbuf s' = S (nbuf s) /\ b_queue (heap s' (nbuf s)) = [])).
Proof.
  intros E Q. assert (Id : forall b, b <> nbuf s -> b_queue (heap s b) = b_queue (heap s b) /\ b_kind (heap s b) = b_kind (heap s b) /\ b_size (heap s b) = b_size (heap s b)) by auto.
  assert (P : forall b x, b_queue x = b_queue (heap s b) -> b_kind x = b_kind (heap s b) -> b_size x = b_size (heap s b) -> forall c,
    b_queue (tset (heap s) b x c) = b_queue (heap s c) /\ b_kind (tset (heap s) b x c) = b_kind (heap s c) /\ b_size (tset (heap s) b x c) = b_size (heap s c)).
  { intros b x H1 H2 H3 c. unfold tset. destruct (Nat.eqb_spec c b); subst; auto. }
  destruct a; cbn [exec is_queue] in *; try discriminate; unfold exec_factory, with_buf in E;
    repeat match type of E with context [match ?x with _ => _ end] => destruct x eqn:? end; try discriminate; injection E as <- _;
    unfold free_buf, give_buf; try (destruct (bufp s) as [b'|] eqn:Eb); cbn; auto;
    try (split; [exact Id|left; repeat split; reflexivity]);
    try (split; [intros c' _; apply P; reflexivity|left; split; [reflexivity|]; apply P; reflexivity]).
  all: split; [intros c' Hc; now rewrite tset_other|right; rewrite tset_same; auto].
Qed.

Lemma issue_wait cap s t ch b s' : exec cap s t ch (AIssue b) = Next s' IWait -> b_kind (heap s' b) = Ring.
Proof.
  cbn [exec]. unfold with_buf. destruct (b_owner (heap s b)); try discriminate. cbn zeta.
  destruct (_ <? _); [discriminate|]. destruct (b_kind (heap s b)) eqn:K; [discriminate|]. intros E. injection E as <-.
  cbn. now rewrite tset_same.
Qed.

(** ** The shape of the code around queue operations *)

Definition waits (a : act) : ans a -> option bid :=
  match a return ans a -> option bid with
  | AIssue b => fun r => match r with IWait => Some b | _ => None end
  | _ => fun _ => None
  end.

Definition shape (w : option bid) (a : act) : (ans a -> cmd) -> Prop :=
  match a return (ans a -> cmd) -> Prop with
  | ADeq b => fun k => w = Some b /\ forall i, exists k', k i = Act (AReset b i) k'
  | AReturn b i => fun k => exists k', k tt = Act (ALoan b false) k'
  | _ => fun _ => True
  end.

Fixpoint fine (w : option bid) (c : cmd) : Prop :=
  match c with
  | Ret => True
  | Act a k => shape w a k /\ forall r, fine (waits a r) (k r)
  end.

Lemma fine_weaken w c : fine None c -> fine w c.
Proof. destruct c as [|a k]; cbn; auto. intros [H1 H2]. split; auto. destruct a; auto. destruct H1. discriminate. Qed.

Ltac fines := repeat (cbn [fine shape waits]; match goal with
  | |- True /\ _ => split; [exact I|]
  | |- forall r, _ => let r := fresh "r" in intros r
  | |- fine _ (match ?x with _ => _ end) => destruct x
  | |- fine _ (if ?x then _ else _) => destruct x
  | |- True => exact I
  end); auto.

Section Shape.
  Variable csz : N.
  Variable site_cat : nat -> bytes.

  Lemma fine_evict n : forall l k, fine None k -> fine None (evict n l k).
  Proof. induction n as [|n IH]; intros l k H; cbn [evict]; auto. fines. Qed.

  Lemma fine_stop t nr w k : (forall r, fine None (k r)) -> fine None (stop_lh t nr w k).
  Proof. intros H. unfold stop_lh. fines. apply fine_evict. fines. Qed.

  Lemma fine_start t c k : (forall r, fine None (k r)) -> fine None (start_lh csz t c k).
  Proof. intros H. unfold start_lh. fines. apply fine_stop. fines. Qed.

  Lemma fine_get b k : (forall r, fine None (k r)) -> fine None (getChunk b k).
  Proof. intros H. unfold getChunk. fines. split; [split; eauto|]. fines. Qed.

  Lemma fine_return b i k : fine None k -> fine None (returnChunk b i k).
  Proof. intros H. unfold returnChunk. cbn [fine shape waits]. split; [eauto|]. fines. Qed.

  Lemma fine_replace k : (forall r, fine None (k r)) -> fine None (replaceChunk k).
  Proof.
    intros H. unfold replaceChunk. set (rest := Act ALdEnabled _). assert (fine None rest) as F.
    { unfold rest. fines. apply fine_get. fines. }
    clearbody rest. fines. apply fine_return. fines.
  Qed.

  Lemma fine_maybe t g k : (forall r, fine None (k r)) -> fine None (maybe_stop t g k).
  Proof. intros H. unfold maybe_stop. fines. apply fine_stop. fines. Qed.

  Lemma fine_log t e k : (forall r, fine None (k r)) -> fine None (logEvent t e k).
  Proof. intros H. unfold logEvent. fines. all: apply fine_replace; fines; apply fine_maybe; auto. Qed.

  Lemma fine_macro t x e k : (forall r, fine None (k r)) -> fine None (macro site_cat t x e k).
  Proof. intros H. unfold macro. fines. all: apply fine_log; auto. Qed.

  Lemma fine_code t o : fine None (code_of csz site_cat t o).
  Proof.
    unfold code_of, locked. destruct o as [c|c|s| | | |n| | | |category|e|x e| |]; try destruct c; unfold getBuffer_lh, getTraceContext_lh; fines;
      try (apply fine_start; fines); try (apply fine_stop; fines); try (apply fine_log; fines); try (apply fine_macro; fines); try (apply fine_return; fines).
  Qed.

  Lemma fine_hcode t h k : fine None k -> fine None (hcode csz t h k).
  Proof.
    intros H. unfold hcode, getBuffer_lh, getTraceContext_lh. destruct h; fines;
      try (apply fine_start; fines); try (apply fine_stop; fines); try (apply fine_log; fines).
  Qed.
End Shape.

(** ** The simulation *)

(** The code of the thread in the other log: it is past its queue operation as
    soon as the operation has its place. *)
Definition ahead (q : bid -> cqueue N) (t : tid) (c c' : cmd) : Prop :=
  match c with
  | Ret => c' = Ret
  | Act a k =>
      match a return (ans a -> cmd) -> Prop with
      | ADeq b => fun k =>
          match cq_pc (q b) t with
          | DData _ P | DPub _ P _ => exists i, val (q b) P = Some i /\ c' = k i
          | _ => c' = Act (ADeq b) k
          end
      | AReturn b i => fun k =>
          match cq_pc (q b) t with
          | EData _ _ _ | EPub _ _ _ => c' = k tt
          | _ => c' = Act (AReturn b i) k
          end
      | a => fun k => c' = Act a k
      end k
  end.

Definition inside (s : st) (c : cmd) (b : bid) (p : qpc N) : Prop :=
  match p with
  | QIdle => True
  | DPos | DSeq _ _ | DCas _ _ | DData _ _ | DPub _ _ _ => b_kind (heap s b) = Ring /\ exists k, c = Act (ADeq b) k
  | EPos x | ESeq x _ _ | ECas x _ _ | EData x _ _ | EPub x _ _ =>
      b_kind (heap s b) = Ring /\ x < b_size (heap s b) /\ exists k, c = Act (AReturn b x) k
  end.

Definition ready (n : N) (q : cqueue N) : Prop :=
  exists gs, qinv (upper_power_of_two n) q gs /\ hist_ok (upper_power_of_two n) (cq_hist q).

Lemma ahead_keep q q' t c c' : (forall b, cq_pc (q' b) t = cq_pc (q b) t /\ (cq_pc (q b) t <> QIdle -> forall i v, val (q b) i = Some v -> val (q' b) i = Some v)) ->
  ahead q t c c' -> ahead q' t c c'.
Proof.
  intros K. destruct c as [|a k]; cbn [ahead]; auto. destruct a; auto; destruct (K b) as [-> V]; auto.
  destruct (cq_pc (q b) t); auto; intros (i & H & ->); exists i; split; auto; apply V; auto; discriminate.
Qed.

Lemma inside_keep s s' c b p : b_kind (heap s' b) = b_kind (heap s b) -> b_size (heap s' b) = b_size (heap s b) -> inside s c b p -> inside s' c b p.
Proof. intros K Z. unfold inside. destruct p; rewrite ?K, ?Z; auto. Qed.

Section Sim.
  Variables cap csz : N.
  Variable site_cat : nat -> bytes.

  Record sim (c : qlog) (s : st) : Prop := {
    sm_reached : reached cap csz site_cat s;
    sm_same : same (ql_log c) s;
    sm_code : forall t, ahead (ql_q c) t (code (ql_log c) t) (code s t);
    sm_in : forall t b, inside s (code (ql_log c) t) b (cq_pc (ql_q c b) t);
    sm_kind : forall b, (nbuf s <= b)%nat -> b_kind (heap s b) = Fixed;
    sm_queue : forall b, b_kind (heap s b) = Ring -> b_queue (heap s b) = queued (ql_q c b) /\ ready (b_size (heap s b)) (ql_q c b);
    sm_fine : forall t, exists w, fine w (code (ql_log c) t) /\ forall b, w = Some b -> b_kind (heap s b) = Ring;
  }.

  Lemma reached_next s a s' : reached cap csz site_cat s -> pstep cap csz site_cat s a = Some s' -> reached cap csz site_cat s'.
  Proof. intros [sched ->] E. exists (sched ++ [a]). rewrite run_snoc. unfold move. now rewrite E. Qed.

  Lemma busy_add s t : reached cap csz site_cat s -> code s t <> Ret -> add t (busy s) = busy s.
  Proof.
    intros R C. destruct (safe_inv cap csz site_cat s R) as [A _]. apply (al_busy s A) in C. apply mem_In in C.
    unfold add. now rewrite C.
  Qed.

  Lemma there s t a b : reached cap csz site_cat s -> about_to s t a -> reads s t a (PObject b) -> (forall c g n, a <> AFactory c g n) ->
    b_owner (heap s b) = Mine.
  Proof.
    intros R A Rd NF. destruct (all_sound cap csz site_cat s t a R A) as [H _]. destruct (H b (or_introl Rd)) as [X|(c & g & n & X & _)]; [apply X|].
    destruct (NF c g n X).
  Qed.

  (** A thread that is not at a queue operation. *)
  Lemma not_inside c s t : sim c s -> match code (ql_log c) t with Act a _ => is_queue s a = false | Ret => True end ->
    (forall b, cq_pc (ql_q c b) t = QIdle) /\ code s t = code (ql_log c) t.
  Proof.
    intros S H. assert (Q : forall b, cq_pc (ql_q c b) t = QIdle).
    { intros b. pose proof (sm_in _ _ S t b) as X. destruct (cq_pc (ql_q c b) t); auto; exfalso; cbn [inside] in X.
      all: try (destruct X as (K & k & E); rewrite E in H; cbn in H; discriminate).
      all: destruct X as (K & _ & k & E); rewrite E in H; cbn in H; rewrite K in H; discriminate. }
    split; auto. pose proof (sm_code _ _ S t) as A. unfold ahead in A. destruct (code (ql_log c) t) as [|a k]; auto.
    destruct a; auto; now rewrite Q in A.
  Qed.

  (** Steps on a queue. *)
  Lemma sim_move c s t b q' l' s' : sim c s -> b_kind (heap s b) = Ring ->
    (forall u, u <> t -> cq_pc q' u = cq_pc (ql_q c b) u) ->
    (forall i v, val (ql_q c b) i = Some v -> val q' i = Some v) ->
    (forall u, u <> t -> code l' u = code (ql_log c) u) -> (forall u, u <> t -> code s' u = code s u) ->
    same l' s' -> reached cap csz site_cat s' -> nbuf s' = nbuf s ->
    (forall d, b_kind (heap s' d) = b_kind (heap s d) /\ b_size (heap s' d) = b_size (heap s d)) ->
    (forall d, d <> b -> b_queue (heap s' d) = b_queue (heap s d)) ->
    b_queue (heap s' b) = queued q' -> ready (b_size (heap s b)) q' ->
    (forall d, d <> b -> cq_pc (ql_q c d) t = QIdle) -> inside s (code l' t) b (cq_pc q' t) ->
    ahead (tset (ql_q c) b q') t (code l' t) (code s' t) ->
    (exists w, fine w (code l' t) /\ forall d, w = Some d -> b_kind (heap s d) = Ring) ->
    sim {| ql_log := l'; ql_q := tset (ql_q c) b q' |} s'.
  Proof.
    intros S K Pc V Cl Cs Sm R Nb Ks Qo Qb Rd Id In Ah Fi. split; cbn [ql_log ql_q]; auto.
    - intros u. destruct (Nat.eq_dec u t) as [->|N]; auto. rewrite Cl, Cs by auto.
      apply (ahead_keep (ql_q c)); [|apply S]. intros d. unfold tset. destruct (Nat.eqb_spec d b) as [->|]; auto.
    - intros u d. apply (inside_keep s); try apply Ks. destruct (Nat.eq_dec u t) as [->|N].
      + unfold tset. destruct (Nat.eqb_spec d b) as [->|N]; auto. now rewrite Id.
      + rewrite Cl by auto. unfold tset. destruct (Nat.eqb_spec d b) as [->|]; [rewrite Pc by auto|]; apply S.
    - intros d Hd. rewrite (proj1 (Ks d)). apply S. now rewrite <- Nb.
    - intros d Hd. rewrite (proj1 (Ks d)) in Hd. rewrite (proj2 (Ks d)). unfold tset. destruct (Nat.eqb_spec d b) as [->|N]; auto.
      rewrite Qo by auto. now apply S.
    - intros u. destruct (Nat.eq_dec u t) as [->|N].
      + destruct Fi as (w & F & H). exists w. split; auto. intros d E. rewrite (proj1 (Ks d)). auto.
      + rewrite Cl by auto. destruct (sm_fine _ _ S u) as (w & F & H). exists w. split; auto. intros d E. rewrite (proj1 (Ks d)). auto.
  Qed.

  (** Which queue the thread is in. *)
  Lemma only_deq c s t b k d : sim c s -> code (ql_log c) t = Act (ADeq b) k -> d <> b -> cq_pc (ql_q c d) t = QIdle.
  Proof.
    intros S E N. pose proof (sm_in _ _ S t d) as X. rewrite E in X. destruct (cq_pc (ql_q c d) t); auto; exfalso; cbn [inside] in X.
    all: try (destruct X as (_ & k' & X); injection X as X _; congruence). all: destruct X as (_ & _ & k' & X); discriminate.
  Qed.

  Lemma only_enq c s t b i k d : sim c s -> code (ql_log c) t = Act (AReturn b i) k -> d <> b -> cq_pc (ql_q c d) t = QIdle.
  Proof.
    intros S E N. pose proof (sm_in _ _ S t d) as X. rewrite E in X. destruct (cq_pc (ql_q c d) t); auto; exfalso; cbn [inside] in X.
    all: try (destruct X as (_ & k' & X); discriminate). all: destruct X as (_ & _ & k' & X); injection X as X _; congruence.
  Qed.

  (** The log stays as it is. *)
  Lemma sim_quiet c s t b q' : sim c s -> b_kind (heap s b) = Ring ->
    (forall u, u <> t -> cq_pc q' u = cq_pc (ql_q c b) u) ->
    ins (cq_hist q') = ins (cq_hist (ql_q c b)) -> outs (cq_hist q') = outs (cq_hist (ql_q c b)) -> ready (b_size (heap s b)) q' ->
    (forall d, d <> b -> cq_pc (ql_q c d) t = QIdle) -> inside s (code (ql_log c) t) b (cq_pc q' t) ->
    ahead (tset (ql_q c) b q') t (code (ql_log c) t) (code s t) ->
    sim {| ql_log := ql_log c; ql_q := tset (ql_q c) b q' |} s.
  Proof.
    intros S K Pc Ei Eo Rd Id In Ah. apply (sim_move c s t b q' (ql_log c) s); auto; try apply S.
    - unfold val. now rewrite Ei.
    - unfold queued. rewrite Ei, Eo. now apply S.
  Qed.

  (** The operation returns. *)
  Lemma sim_done c s t b q' k : sim c s -> b_kind (heap s b) = Ring ->
    (forall u, u <> t -> cq_pc q' u = cq_pc (ql_q c b) u) -> cq_pc q' t = QIdle ->
    ins (cq_hist q') = ins (cq_hist (ql_q c b)) -> outs (cq_hist q') = outs (cq_hist (ql_q c b)) -> ready (b_size (heap s b)) q' ->
    (forall d, d <> b -> cq_pc (ql_q c d) t = QIdle) ->
    k <> Ret -> code s t = k -> fine None k ->
    sim {| ql_log := set_cmd (ql_log c) t k; ql_q := tset (ql_q c) b q' |} s.
  Proof.
    intros S K Pc Pt Ei Eo Rd Id NR Ek Fk. apply (sim_move c s t b q' _ s); auto; try apply S.
    - unfold val. now rewrite Ei.
    - intros u N. cbn. now rewrite tset_other.
    - pose proof (sm_same _ _ S) as Sm. destruct Sm. split; cbn; auto. destruct k as [|a k]; [easy|]. rewrite sa_busy0. apply busy_add; [apply S|congruence].
    - unfold queued. rewrite Ei, Eo. now apply S.
    - now rewrite Pt.
    - cbn. rewrite tset_same, Ek. unfold ahead. destruct k as [|a k]; auto. destruct a; auto.
      all: unfold tset; destruct (Nat.eqb_spec b0 b) as [->|N]; [now rewrite Pt|now rewrite Id].
    - exists None. cbn. rewrite tset_same. split; auto. discriminate.
  Qed.

  Definition calm (c : qlog) : Prop :=
    (forall b t, stale (ql_q c b) t < 2 ^ 62) /\
    (forall b, b_kind (heap (ql_log c) b) = Ring -> 1 <= b_size (heap (ql_log c) b) <= 2 ^ 32).

  Lemma calm_size c s b : sim c s -> calm c -> b_kind (heap s b) = Ring -> 1 <= b_size (heap s b) <= 2 ^ 32.
  Proof. intros S [_ C] K. specialize (C b). rewrite (sa_heap _ _ (sm_same _ _ S) b) in C. now apply C. Qed.

  Lemma queue_next c s b a q' : sim c s -> calm c -> b_kind (heap s b) = Ring -> qstep (ql_q c b) a = Some q' -> ready (b_size (heap s b)) q'.
  Proof.
    intros S C K E. destruct (cap_facts _ (calm_size _ _ _ S C K)) as (j & Hc & H1 & H2 & _).
    destruct (proj2 (sm_queue _ _ S b K)) as (gs & Q & H). apply (qinv_step _ j Hc H1 H2 _ gs a _ Q H); auto. apply (proj1 C).
  Qed.

  Ltac qs := cbn [cq_hist cq_goto cq_set_data cq_set_seq cq_set_enq cq_set_deq]; rewrite ?ins_app, ?outs_app; cbn [ins outs flat_map filter app length]; rewrite ?app_nil_r, ?Nat.add_0_r; auto.
  Ltac pcs := intros u Hu; cbn [cq_pc cq_goto cq_set_data cq_set_seq cq_set_enq cq_set_deq]; now rewrite tset_other.

  Lemma take_sim c s t b sp k c' : sim c s -> calm c -> bad s = false -> code (ql_log c) t = Act (ADeq b) k -> ql_take c t b sp k = Some c' ->
    exists s', sim c' s'.
  Proof.
    intros S C B Ec E. unfold ql_take in E.
    destruct (sm_fine _ _ S t) as (w & F & Hw). rewrite Ec in F. cbn [fine shape] in F. destruct F as ((Ew & Sh) & Fk).
    assert (K : b_kind (heap s b) = Ring) by now apply Hw.
    destruct (sm_queue _ _ S b K) as (Eq & gs & Q & Hh). pose proof (i_thr _ _ _ Q t) as Th.
    pose proof (sm_in _ _ S t b) as Is. rewrite Ec in Is.
    pose proof (sm_code _ _ S t) as A. rewrite Ec in A. cbn [ahead] in A.
    assert (Id : forall d, d <> b -> cq_pc (ql_q c d) t = QIdle) by (intros d Hd; eapply only_deq; eauto).
    assert (Ow : b_owner (heap s b) = Mine).
    { destruct (code s t) as [|a k'] eqn:Es.
      - exfalso. destruct (cq_pc (ql_q c b) t); try discriminate; destruct A as (i & _ & X); destruct (Sh i) as (k2 & Y); congruence.
      - apply (there s t a); [apply S|now exists k'| |].
        + destruct (cq_pc (ql_q c b) t); try (injection A as -> _; reflexivity); destruct A as (i & _ & X); destruct (Sh i) as (k2 & Y);
            rewrite Y in X; injection X as -> _; reflexivity.
        + intros cf g n ->. destruct (cq_pc (ql_q c b) t); try discriminate; destruct A as (i & _ & X); destruct (Sh i) as (k2 & Y); congruence. }
    assert (Rt : ring_there (ql_log c) b = true).
    { unfold ring_there. rewrite (sa_heap _ _ (sm_same _ _ S) b). cbn. now rewrite Ow, K. }
    rewrite Rt in E.
    assert (Qt : forall a q', qstep (ql_q c b) a = Some q' -> ready (b_size (heap s b)) q') by (intros; eapply queue_next; eauto).
    destruct (cq_pc (ql_q c b) t) as [|x|x pos P|x pos P|x pos P|x pos P| |pos P|pos P|pos P|pos P y] eqn:Pc; cbn [inside] in Is.
    2-6: destruct Is as (_ & _ & k' & X); discriminate.
    - (* the call *)
      unfold ql_queue in E. cbn [qstep] in E. rewrite Pc in E. injection E as <-. exists s.
      apply (sim_quiet c s t b); auto; [pcs|qs|qs| | |].
      + apply (Qt (CallDeq t)). cbn [qstep]. now rewrite Pc.
      + rewrite Ec. cbn. rewrite tset_same. split; eauto.
      + rewrite Ec. cbn [ahead]. rewrite tset_same. cbn. now rewrite tset_same.
    - unfold ql_queue in E. destruct (qstep (ql_q c b) (Go t sp)) as [q'|] eqn:Es; [|discriminate]. injection E as <-. pose proof (Qt _ _ Es) as Rq. exists s.
      cbn [qstep] in Es. rewrite Pc in Es. injection Es as <-.
      apply (sim_quiet c s t b); auto; [pcs|qs|qs| |].
      + rewrite Ec. cbn. rewrite tset_same. split; eauto.
      + rewrite Ec. cbn [ahead]. rewrite tset_same. cbn. now rewrite tset_same.
    - unfold ql_queue in E. destruct (qstep (ql_q c b) (Go t sp)) as [q'|] eqn:Es; [|discriminate]. injection E as <-. pose proof (Qt _ _ Es) as Rq. exists s.
      cbn [qstep] in Es. rewrite Pc in Es. repeat match type of Es with context [if ?b then _ else _] => destruct b end; injection Es as <-.
      all: apply (sim_quiet c s t b); auto; [pcs|qs|qs| |].
      all: try (rewrite Ec; cbn; rewrite tset_same; try exact I; split; eauto; fail).
      all: rewrite Ec; cbn [ahead]; rewrite tset_same; cbn; now rewrite tset_same.
    - (* the compare-exchange *)
      unfold ql_queue in E. destruct (qstep (ql_q c b) (Go t sp)) as [q'|] eqn:Es; [|discriminate]. injection E as <-. pose proof (Qt _ _ Es) as Rq.
      cbn [qstep] in Es. rewrite Pc in Es. destruct ((cq_deq (ql_q c b) =? pos) && negb sp)%bool eqn:Bo; injection Es as <-.
      2:{ exists s. apply (sim_quiet c s t b); auto; [pcs|qs|qs| |].
          - rewrite Ec. cbn. rewrite tset_same. split; eauto.
          - rewrite Ec. cbn [ahead]. rewrite tset_same. cbn. now rewrite tset_same. }
      apply andb_prop in Bo as (Bo & _). apply N.eqb_eq in Bo. destruct Th as (Hp & Hl & Hg).
      assert (EP : placed_out (ql_q c b) = P).
      { destruct (cap_facts _ (calm_size _ _ _ S C K)) as (j & Hc & H1 & H2 & _). apply (word_eq _ j Hc H1 H2); auto.
        - now rewrite <- (i_deq _ _ _ Q), Bo.
        - pose proof (proj1 C b t) as St. unfold stale in St. now rewrite Pc in St. }
      assert (LT : placed_out (ql_q c b) < placed_in (ql_q c b)).
      { destruct Rq as (gs' & Q' & _). pose proof (i_bnd _ _ _ Q') as X. unfold placed_in, placed_out in *. cbn [cq_hist cq_goto cq_set_deq] in X.
        rewrite ins_app, outs_app, app_length in X. cbn in X. lia. }
      destruct (nth_error (ins (cq_hist (ql_q c b))) (outs (cq_hist (ql_q c b)))) as [v|] eqn:V.
      2:{ apply nth_error_None in V. unfold placed_in, placed_out in LT. lia. }
      assert (Hd : b_queue (heap s b) = v :: skipn (Datatypes.S (outs (cq_hist (ql_q c b)))) (ins (cq_hist (ql_q c b)))).
      { rewrite Eq. unfold queued. now apply nth_skipn. }
      destruct (Sh v) as (k' & Ek).
      set (rest := skipn _ _) in Hd.
      set (s1 := put_buf s b (set_bqueue (heap s b) rest)).
      assert (St : pstep cap csz site_cat s (Step t CNone) = Some (set_cmd s1 t (k v))).
      { unfold pstep. cbn [polite]. unfold step. rewrite B, A. cbn [exec]. unfold with_buf. now rewrite Ow, Hd. }
      exists (set_cmd s1 t (k v)).
      apply (sim_move c s t b _ (ql_log c)); auto.
      + pcs.
      + unfold val. qs.
      + intros u Hu. cbn. now rewrite tset_other.
      + pose proof (sm_same _ _ S) as Sm. destruct Sm. split; cbn; auto.
        * intros d. rewrite sa_heap0. unfold tset. destruct (Nat.eqb_spec d b) as [->|]; reflexivity.
        * rewrite Ek, sa_busy0. symmetry. apply busy_add; [apply S|congruence].
      + eapply reached_next; [apply S|exact St].
      + intros d. cbn. unfold tset. destruct (Nat.eqb_spec d b) as [->|]; auto.
      + intros d Hd'. cbn. now rewrite tset_other.
      + transitivity rest; [cbn [set_cmd set_busy set_code heap s1 put_buf set_heap]; now rewrite tset_same|].
        unfold rest, queued. cbn [cq_hist cq_goto cq_set_deq]. rewrite ins_app, outs_app. cbn [ins flat_map app]. rewrite app_nil_r.
        change (outs [DeqPlaced t]) with 1%nat. now rewrite Nat.add_1_r.
      + rewrite Ec. cbn. rewrite tset_same. split; eauto.
      + rewrite Ec. cbn [ahead]. rewrite tset_same. cbn. rewrite !tset_same. exists v. split; auto. unfold val. qs. rewrite <- EP. unfold placed_out. now rewrite Nat2N.id.
      + exists w. rewrite Ec. split; auto. cbn. auto.
    - unfold ql_queue in E. destruct (qstep (ql_q c b) (Go t sp)) as [q'|] eqn:Es; [|discriminate]. injection E as <-. pose proof (Qt _ _ Es) as Rq. exists s.
      cbn [qstep] in Es. rewrite Pc in Es. injection Es as <-.
      apply (sim_quiet c s t b); auto; [pcs|qs|qs| |].
      + rewrite Ec. cbn. rewrite tset_same. split; eauto.
      + rewrite Ec. cbn [ahead]. rewrite tset_same. cbn. rewrite tset_same. destruct A as (i & Vi & Ei). exists i. split; auto. unfold val in *. qs.
    - (* returns *)
      destruct A as (i & Vi & Ei). destruct Th as (_ & _ & _ & _ & Hv). rewrite Vi in Hv. subst y.
      unfold ql_queue in E. destruct (qstep (ql_q c b) (Go t sp)) as [q'|] eqn:Es; [|discriminate]. injection E as <-. pose proof (Qt _ _ Es) as Rq. exists s.
      cbn [qstep] in Es. rewrite Pc in Es. injection Es as <-. destruct (Sh i) as (k' & Ek).
      apply (sim_done c s t b); auto; [pcs|cbn; now rewrite tset_same|qs|qs|congruence|]. apply Fk.
  Qed.

  Lemma put_sim c s t b i sp k c' : sim c s -> calm c -> bad s = false -> code (ql_log c) t = Act (AReturn b i) k -> b_kind (heap s b) = Ring -> ql_put c t b i sp k = Some c' ->
    exists s', sim c' s'.
  Proof.
    intros S C B Ec K E. unfold ql_put in E.
    destruct (sm_fine _ _ S t) as (w & F & Hw). pose proof F as F0. rewrite Ec in F. cbn [fine shape] in F. destruct F as ((k' & Ek) & Fk).
    destruct (sm_queue _ _ S b K) as (Eq & gs & Q & Hh). pose proof (i_thr _ _ _ Q t) as Th.
    pose proof (sm_in _ _ S t b) as Is. rewrite Ec in Is.
    pose proof (sm_code _ _ S t) as A. rewrite Ec in A. cbn [ahead] in A.
    assert (Id : forall d, d <> b -> cq_pc (ql_q c d) t = QIdle) by (intros d Hd; eapply only_enq; eauto).
    assert (Ow : b_owner (heap s b) = Mine).
    { destruct (code s t) as [|a k2] eqn:Es.
      - exfalso. destruct (cq_pc (ql_q c b) t); try discriminate; congruence.
      - apply (there s t a); [apply S|now exists k2| |].
        + destruct (cq_pc (ql_q c b) t); try (injection A as -> _; reflexivity); rewrite Ek in A; injection A as -> _; reflexivity.
        + intros cf g n ->. destruct (cq_pc (ql_q c b) t); try discriminate; congruence. }
    assert (Sz : i < b_size (heap s b)).
    { destruct (cq_pc (ql_q c b) t) eqn:Pc; cbn [inside] in Is.
      1:{ assert (Ab : about_to s t (AReturn b i)) by (now exists k). destruct (all_sound cap csz site_cat s t _ (sm_reached _ _ S) Ab) as (_ & _ & X). exact X. }
      all: try (destruct Is as (_ & kk & X); discriminate).
      all: destruct Is as (_ & L & kk & X); injection X as -> _; exact L. }
    assert (Rt : ring_there (ql_log c) b && (i <? b_size (heap (ql_log c) b)) = true).
    { unfold ring_there. rewrite (sa_heap _ _ (sm_same _ _ S) b). cbn. rewrite Ow, K. now apply N.ltb_lt. }
    rewrite Rt in E.
    assert (Qt : forall a q', qstep (ql_q c b) a = Some q' -> ready (b_size (heap s b)) q') by (intros; eapply queue_next; eauto).
    destruct (cq_pc (ql_q c b) t) as [|x|x pos P|x pos P|x pos P|x pos P| |pos P|pos P|pos P|pos P y] eqn:Pc; cbn [inside] in Is.
    7-11: destruct Is as (_ & kk & X); discriminate.
    2-6: destruct Is as (_ & _ & kk & X); injection X as X _; subst x.
    all: unfold ql_queue in E.
    - (* the call *)
      cbn [qstep] in E. rewrite Pc in E. injection E as <-. exists s.
      apply (sim_quiet c s t b); auto; [pcs|qs|qs| | |].
      + apply (Qt (CallEnq t i)). cbn [qstep]. now rewrite Pc.
      + rewrite Ec. cbn. rewrite tset_same. repeat split; eauto.
      + rewrite Ec. cbn [ahead]. rewrite tset_same. cbn. now rewrite tset_same.
    - destruct (qstep (ql_q c b) (Go t sp)) as [q'|] eqn:Es; [|discriminate]. injection E as <-. pose proof (Qt _ _ Es) as Rq. exists s.
      cbn [qstep] in Es. rewrite Pc in Es. injection Es as <-.
      apply (sim_quiet c s t b); auto; [pcs|qs|qs| |].
      + rewrite Ec. cbn. rewrite tset_same. repeat split; eauto.
      + rewrite Ec. cbn [ahead]. rewrite tset_same. cbn. now rewrite tset_same.
    - destruct (qstep (ql_q c b) (Go t sp)) as [q'|] eqn:Es; [|discriminate]. injection E as <-. pose proof (Qt _ _ Es) as Rq. exists s.
      cbn [qstep] in Es. rewrite Pc in Es. repeat match type of Es with context [if ?b then _ else _] => destruct b end; injection Es as <-.
      all: apply (sim_quiet c s t b); auto; [pcs|qs|qs| |].
      all: try (rewrite Ec; cbn; rewrite tset_same; try exact I; repeat split; eauto; fail).
      all: rewrite Ec; cbn [ahead]; rewrite tset_same; cbn; now rewrite tset_same.
    - (* the compare-exchange *)
      destruct (qstep (ql_q c b) (Go t sp)) as [q'|] eqn:Es; [|discriminate]. injection E as <-. pose proof (Qt _ _ Es) as Rq.
      cbn [qstep] in Es. rewrite Pc in Es. destruct ((cq_enq (ql_q c b) =? pos) && negb sp)%bool eqn:Bo; injection Es as <-.
      2:{ exists s. apply (sim_quiet c s t b); auto; [pcs|qs|qs| |].
          - rewrite Ec. cbn. rewrite tset_same. repeat split; eauto.
          - rewrite Ec. cbn [ahead]. rewrite tset_same. cbn. now rewrite tset_same. }
      set (s1 := put_buf s b (set_bqueue (heap s b) (b_queue (heap s b) ++ [i]))).
      assert (St : pstep cap csz site_cat s (Step t CNone) = Some (set_cmd s1 t (k tt))).
      { unfold pstep. cbn [polite]. unfold step. rewrite B, A. cbn [exec]. unfold with_buf. rewrite Ow, K.
        apply N.ltb_lt in Sz. now rewrite Sz. }
      exists (set_cmd s1 t (k tt)).
      apply (sim_move c s t b _ (ql_log c)); auto.
      + pcs.
      + intros j v. unfold val. qs. intros X. rewrite nth_error_app1; auto. apply nth_error_Some. congruence.
      + intros u Hu. cbn. now rewrite tset_other.
      + pose proof (sm_same _ _ S) as Sm. destruct Sm. split; cbn; auto.
        * intros d. rewrite sa_heap0. unfold tset. destruct (Nat.eqb_spec d b) as [->|]; reflexivity.
        * rewrite Ek, sa_busy0. symmetry. apply busy_add; [apply S|congruence].
      + eapply reached_next; [apply S|exact St].
      + intros d. cbn. unfold tset. destruct (Nat.eqb_spec d b) as [->|]; auto.
      + intros d Hd'. cbn. now rewrite tset_other.
      + transitivity (b_queue (heap s b) ++ [i]); [cbn [set_cmd set_busy set_code heap s1 put_buf set_heap]; now rewrite tset_same|].
        rewrite Eq. unfold queued. cbn [cq_hist cq_goto cq_set_enq]. rewrite ins_app, outs_app. cbn [ins flat_map app].
        change (outs [EnqPlaced t i]) with 0%nat. rewrite Nat.add_0_r, skipn_app.
        pose proof (proj1 (i_bnd _ _ _ Q)) as Bd. unfold placed_out, placed_in in Bd.
        replace (outs (cq_hist (ql_q c b)) - length (ins (cq_hist (ql_q c b))))%nat with 0%nat by lia. reflexivity.
      + rewrite Ec. cbn. rewrite tset_same. repeat split; eauto.
      + rewrite Ec. cbn [ahead]. rewrite tset_same. cbn. rewrite !tset_same. reflexivity.
      + exists w. split; auto.
    - destruct (qstep (ql_q c b) (Go t sp)) as [q'|] eqn:Es; [|discriminate]. injection E as <-. pose proof (Qt _ _ Es) as Rq. exists s.
      cbn [qstep] in Es. rewrite Pc in Es. injection Es as <-.
      apply (sim_quiet c s t b); auto; [pcs|qs|qs| |].
      + rewrite Ec. cbn. rewrite tset_same. repeat split; eauto.
      + rewrite Ec. cbn [ahead]. rewrite tset_same. cbn. rewrite tset_same. auto.
    - (* returns *)
      destruct (qstep (ql_q c b) (Go t sp)) as [q'|] eqn:Es; [|discriminate]. injection E as <-. pose proof (Qt _ _ Es) as Rq. exists s.
      cbn [qstep] in Es. rewrite Pc in Es. injection Es as <-.
      apply (sim_done c s t b); auto; [pcs|cbn; now rewrite tset_same|qs|qs|congruence|]. apply (Fk tt).
  Qed.

  (** Other steps. *)
  Definition actor (a : sact) : tid := match a with Invoke t _ | Step t _ | HookDo t _ | HookEnd t _ => t end.

  Definition kept (s s' : st) : Prop :=
    (forall b, b <> nbuf s -> b_queue (heap s' b) = b_queue (heap s b) /\ b_kind (heap s' b) = b_kind (heap s b) /\ b_size (heap s' b) = b_size (heap s b)) /\
    ((nbuf s' = nbuf s /\ b_queue (heap s' (nbuf s)) = b_queue (heap s (nbuf s)) /\ b_kind (heap s' (nbuf s)) = b_kind (heap s (nbuf s)) /\
      b_size (heap s' (nbuf s)) = b_size (heap s (nbuf s))) \/
     (nbuf s' = S (nbuf s) /\ b_queue (heap s' (nbuf s)) = [])).

  Lemma kept_id s s' : heap s' = heap s -> nbuf s' = nbuf s -> kept s s'.
  Proof. unfold kept. intros -> ->. split; auto. Qed.

  Lemma same_cmd l s t k : same l s -> same (set_cmd l t k) (set_cmd s t k).
  Proof. intros []. split; cbn; auto. now rewrite sa_busy0. Qed.

  Lemma fine_hook w h k w' : fine w (Act (AHook h) k) -> fine w' (Act (AHook h) k).
  Proof. cbn. auto. Qed.

  Lemma plain_agree l s a l' w : same l s -> bad s = false -> code s (actor a) = code l (actor a) ->
    fine w (code l (actor a)) -> (forall b, w = Some b -> b_kind (heap s b) = Ring) ->
    match a with Step _ _ => match code l (actor a) with Act x _ => is_queue s x = false | Ret => True end | _ => True end ->
    polite l a = true -> step cap csz site_cat l a = Some l' ->
    exists s', pstep cap csz site_cat s a = Some s' /\ same l' s' /\ code s' (actor a) = code l' (actor a) /\
      (forall u, u <> actor a -> code l' u = code l u) /\ (forall u, u <> actor a -> code s' u = code s u) /\ kept s s' /\
      exists w', fine w' (code l' (actor a)) /\ forall b, w' = Some b -> b_kind (heap s' b) = Ring.
  Proof.
    intros S B Ec F Hw NQ Po E.
    assert (Po' : polite s a = true).
    { destruct a as [t o|t ch|t h|t r]; auto. cbn [actor] in Ec. destruct h; cbn in *; auto; rewrite ?Ec, <- ?(sa_enabled _ _ S); auto. }
    unfold pstep. rewrite Po'. unfold step in *. rewrite (sa_bad _ _ S), B in E. rewrite B.
    destruct a as [t o|t ch|t h|t r]; cbn [actor] in *; rewrite Ec.
    - rewrite <- (sa_closing _ _ S), <- (sa_busy _ _ S). destruct (code l t) eqn:Cl; [|discriminate]. destruct (closing l); [discriminate|].
      destruct (is_destroy o).
      + destruct (is_nil (busy l)); [|discriminate]. injection E as <-. eexists. split; [reflexivity|]. split.
        { assert (X : same (set_cmd (emit l (Invoked t o)) t (code_of csz site_cat t o)) (set_cmd (emit s (Invoked t o)) t (code_of csz site_cat t o))) by apply same_cmd, same_emit, S.
          destruct X. split; cbn in *; auto. }
        cbn. rewrite !tset_same. split; auto. split; [intros u Hu; now rewrite tset_other|]. split; [intros u Hu; now rewrite tset_other|].
        split; [now apply kept_id|]. exists None. split; [apply fine_code|discriminate].
      + injection E as <-. eexists. split; [reflexivity|]. split; [apply same_cmd, same_emit, S|].
        cbn. rewrite !tset_same. split; auto. split; [intros u Hu; now rewrite tset_other|]. split; [intros u Hu; now rewrite tset_other|].
        split; [now apply kept_id|]. exists None. split; [apply fine_code|discriminate].
    - destruct (code l t) as [|x k] eqn:Cl; [discriminate|]. pose proof (exec_agree cap l s t ch x S NQ) as A. unfold agree in A.
      destruct (exec cap l t ch x) as [| |l1 r1] eqn:El; [discriminate| |]; destruct (exec cap s t ch x) as [| |s1 r] eqn:Es; try contradiction.
      + injection E as <-. eexists. split; [reflexivity|]. split; [destruct S; split; cbn; auto|]. cbn. split; [congruence|]. split; auto. split; auto.
        split; [now apply kept_id|]. exists w. split; [now rewrite Cl|auto].
      + injection E as <-. destruct A as [-> A]. eexists. split; [reflexivity|]. split; [now apply same_cmd|].
        destruct (exec_frame _ _ _ _ _ _ _ El) as (C1 & _). destruct (exec_frame _ _ _ _ _ _ _ Es) as (C2 & _).
        cbn. rewrite C1, C2, !tset_same. split; auto. split; [intros u Hu; now rewrite tset_other|]. split; [intros u Hu; now rewrite tset_other|].
        split; [apply (exec_keeps _ _ _ _ _ _ _ Es NQ)|].
        exists (waits x r). cbn [fine] in F. split; [apply F|]. intros b Hb. destruct x; try discriminate. cbn [waits] in Hb.
        destruct r; try discriminate. injection Hb as <-. apply (issue_wait _ _ _ _ _ _ Es).
    - destruct (hook_of (code l t)) as [[hk k]|] eqn:Hk; [|discriminate]. injection E as <-. eexists. split; [reflexivity|]. split; [now apply same_cmd|].
      cbn. rewrite !tset_same. split; auto. split; [intros u Hu; now rewrite tset_other|]. split; [intros u Hu; now rewrite tset_other|].
      split; [now apply kept_id|]. exists None. split; [|discriminate]. apply fine_hcode. apply hook_of_some in Hk. rewrite Hk in *. eapply fine_hook; eauto.
    - destruct (hook_of (code l t)) as [[hk k]|] eqn:Hk; [|discriminate]. injection E as <-. eexists. split; [reflexivity|]. split; [now apply same_cmd|].
      cbn. rewrite !tset_same. split; auto. split; [intros u Hu; now rewrite tset_other|]. split; [intros u Hu; now rewrite tset_other|].
      split; [now apply kept_id|]. exists None. split; [|discriminate]. apply hook_of_some in Hk. rewrite Hk in F. cbn [fine] in F. apply (proj2 F r).
  Qed.

  (** A thread that moves although it is not at a queue operation. *)
  Lemma plain_sim c s a c' : sim c s -> bad s = false -> calm c' ->
    match a with Step _ _ => match code (ql_log c) (actor a) with Act x _ => is_queue s x = false | Ret => True end | _ => True end ->
    polite (ql_log c) a = true -> ql_plain cap csz site_cat c a = Some c' -> exists s', sim c' s'.
  Proof.
    intros S B C NQ Po E. unfold ql_plain in E. destruct (step cap csz site_cat (ql_log c) a) as [l'|] eqn:El; [|discriminate]. injection E as <-.
    assert (NI : (forall b, cq_pc (ql_q c b) (actor a) = QIdle) /\ code s (actor a) = code (ql_log c) (actor a)).
    { apply not_inside; auto. destruct a as [t o|t ch|t h|t r]; cbn [actor] in *; auto; unfold step in El; destruct (bad (ql_log c)); try discriminate;
        destruct (code (ql_log c) t) as [|x k]; auto; try discriminate; destruct x; auto; discriminate. }
    destruct NI as (Idl & Ec). destruct (sm_fine _ _ S (actor a)) as (w & F & Hw).
    destruct (plain_agree _ _ _ _ w (sm_same _ _ S) B Ec F Hw NQ Po El) as (s' & Es & Sm & Ec' & Ol & Os & Kp & w' & F' & Hw').
    exists s'. assert (Ring_keep : forall b, b_kind (heap s b) = Ring -> b <> nbuf s).
    { intros b K ->. rewrite (sm_kind _ _ S (nbuf s)) in K by lia. discriminate. }
    destruct Kp as (Kp & Kn). cbn [ql_log ql_q] in *. rewrite (sa_nbuf _ _ Sm), (sa_nbuf _ _ (sm_same _ _ S)) in *.
    assert (Pcs : forall b u, cq_pc ((if Nat.eqb (nbuf s') (nbuf s) then ql_q c else tset (ql_q c) (nbuf s) (cq_new (upper_power_of_two (b_size (heap l' (nbuf s)))))) b) u = cq_pc (ql_q c b) u).
    { intros b u. destruct (Nat.eqb (nbuf s') (nbuf s)); auto. unfold tset. destruct (Nat.eqb_spec b (nbuf s)) as [->|]; auto. cbn.
      pose proof (sm_in _ _ S u (nbuf s)) as X. destruct (cq_pc (ql_q c (nbuf s)) u); auto; cbn [inside] in X; destruct X as (X & _);
        destruct (Ring_keep _ X eq_refl). }
    split; cbn [ql_log ql_q].
    - eapply reached_next; [apply S|exact Es].
    - exact Sm.
    - intros u. destruct (Nat.eq_dec u (actor a)) as [->|N].
      + rewrite Ec'. unfold ahead. destruct (code l' (actor a)) as [|x k]; auto. destruct x; auto; now rewrite Pcs, Idl.
      + rewrite Ol, Os by auto. apply (ahead_keep (ql_q c)); [|apply S]. intros b. split; [apply Pcs|]. intros NI i v. destruct (Nat.eqb (nbuf s') (nbuf s)); auto.
        unfold tset. destruct (Nat.eqb_spec b (nbuf s)) as [->|]; auto. exfalso. pose proof (sm_in _ _ S u (nbuf s)) as X.
        destruct (cq_pc (ql_q c (nbuf s)) u); try congruence; cbn [inside] in X; destruct X as (X & _); destruct (Ring_keep _ X eq_refl).
    - intros u b. rewrite Pcs. destruct (Nat.eq_dec u (actor a)) as [->|N]; [now rewrite Idl|]. rewrite Ol by auto.
      pose proof (sm_in _ _ S u b) as X. destruct (Nat.eq_dec b (nbuf s)) as [->|Nb].
      + destruct (cq_pc (ql_q c (nbuf s)) u); auto; cbn [inside] in X; destruct X as (X & _); destruct (Ring_keep _ X eq_refl).
      + destruct (Kp b Nb) as (_ & K2 & K3). now apply (inside_keep s).
    - intros b Hb. destruct Kn as [(En & _ & K2 & _)|(En & _)].
      + destruct (Nat.eq_dec b (nbuf s)) as [->|Nb]; [rewrite K2|rewrite (proj1 (proj2 (Kp b Nb)))]; apply S; lia.
      + destruct (Kp b) as (_ & K2 & _); [lia|]. rewrite K2. apply S. lia.
    - intros b Hb. destruct (Nat.eqb_spec (nbuf s') (nbuf s)) as [En|En].
      + destruct Kn as [(_ & K1 & K2 & K3)|(X & _)]; [|lia]. destruct (Nat.eq_dec b (nbuf s)) as [->|Nb].
        * rewrite K2 in Hb. destruct (Ring_keep _ Hb eq_refl).
        * destruct (Kp b Nb) as (Q1 & Q2 & Q3). rewrite Q1, Q3. apply S. now rewrite <- Q2.
      + destruct Kn as [(X & _)|(X & K1)]; [lia|]. unfold tset. destruct (Nat.eqb_spec b (nbuf s)) as [->|Nb].
        * rewrite K1. split; [reflexivity|]. destruct C as (_ & C). specialize (C (nbuf s)). cbn [ql_log] in C. rewrite (sa_heap _ _ Sm) in C. cbn in C. specialize (C Hb).
          rewrite (sa_heap _ _ Sm). cbn. destruct (cap_facts _ C) as (j & Hc & H1 & H2 & _). exists (fun i => i). apply (qinv_new _ j Hc H1 H2).
        * destruct (Kp b Nb) as (Q1 & Q2 & Q3). rewrite Q1, Q3. apply S. now rewrite <- Q2.
    - intros u. destruct (Nat.eq_dec u (actor a)) as [->|N]; [eauto|]. rewrite Ol by auto. destruct (sm_fine _ _ S u) as (v & G & Hv). exists v. split; auto.
      intros b Hb. specialize (Hv b Hb). now rewrite (proj1 (proj2 (Kp b (Ring_keep _ Hv)))).
  Qed.

  Lemma step_sim c s a c' : sim c s -> calm c -> calm c' -> ql_step cap csz site_cat c a = Some c' -> exists s', sim c' s'.
  Proof.
    intros S C C' E. assert (B : bad s = false) by apply (never_bad cap csz site_cat), S.
    unfold ql_step in E. rewrite (sa_bad _ _ (sm_same _ _ S)), B in E. destruct (polite (ql_log c) (fst a)) eqn:Po; [|discriminate].
    destruct a as [a sp]. cbn [fst snd] in *. destruct a as [t o|t ch|t h|t r]; try (eapply (plain_sim c s); eauto; exact I; fail).
    destruct (code (ql_log c) t) as [|x k] eqn:Ec; [discriminate|].
    destruct (is_queue s x) eqn:Q.
    - destruct x; try discriminate; cbn in Q.
      + eapply take_sim; eauto.
      + assert (K : b_kind (heap s b) = Ring) by (destruct (b_kind (heap s b)); auto; discriminate).
        assert (K' : b_kind (heap (ql_log c) b) = Ring) by (rewrite (sa_heap _ _ (sm_same _ _ S)); exact K).
        rewrite K' in E. eapply put_sim; eauto.
    - assert (E' : ql_plain cap csz site_cat c (Step t ch) = Some c').
      { destruct x; auto; cbn in Q; try discriminate. rewrite (sa_heap _ _ (sm_same _ _ S)) in E. cbn in E. destruct (b_kind (heap s b)); [auto|discriminate]. }
      eapply (plain_sim c s (Step t ch)); eauto. cbn [actor]. now rewrite Ec.
  Qed.

  Definition rings_made (l : st) : Prop :=
    forall b, b_kind (heap l b) = Ring -> exists t g n, In (Made t g n (MadeRing b (b_size (heap l b)))) (hist l).

  Definition grows (l l' : st) : Prop := forall e, In e (hist l) -> In e (hist l').

  Lemma exec_rings l t ch a l' r : rings_made l -> exec cap l t ch a = Next l' r -> rings_made l' /\ grows l l'.
  Proof.
    intros M E. assert (P : forall b x h, (forall e, In e (hist l) -> In e h) -> b_kind x = b_kind (heap l b) -> b_size x = b_size (heap l b) -> forall c,
      b_kind (tset (heap l) b x c) = Ring -> exists t g n, In (Made t g n (MadeRing c (b_size (tset (heap l) b x c)))) h).
    { intros b x h H K Z c. unfold tset. destruct (Nat.eqb_spec c b) as [->|]; [rewrite K, Z|]; intros X; destruct (M _ X) as (t0 & g0 & n0 & Y); eauto. }
    assert (P0 : forall h, (forall e, In e (hist l) -> In e h) -> forall c, b_kind (heap l c) = Ring -> exists t g n, In (Made t g n (MadeRing c (b_size (heap l c)))) h).
    { intros h H c X. destruct (M _ X) as (t0 & g0 & n0 & Y); eauto. }
    assert (Gr : forall e0 e, In e (hist l) -> In e (hist l ++ [e0])) by (intros; apply in_or_app; auto).
    destruct a; cbn [exec] in E; unfold exec_factory, with_buf, rings_made, grows in *;
      repeat match type of E with context [match ?x with _ => _ end] => destruct x eqn:? end; try discriminate; injection E as <- _;
      unfold free_buf, give_buf; try (destruct (bufp l) as [b'|] eqn:Eb); cbn; split; auto; try (apply P0; auto; fail); try (apply P; auto; fail).
    all: intros c1; unfold tset; destruct (Nat.eqb_spec c1 (nbuf l)) as [->|]; cbn; try discriminate;
      try (intros X; destruct (M _ X) as (t9 & g9 & n9 & Y); do 3 eexists; apply Gr; eauto; fail).
    all: intros _; do 3 eexists; apply in_or_app; right; left; reflexivity.
  Qed.

  Lemma step_rings l a l' : rings_made l -> step cap csz site_cat l a = Some l' -> rings_made l' /\ grows l l'.
  Proof.
    intros M E. unfold step in E. destruct (bad l); [discriminate|].
    assert (X : forall l1 t o, heap l1 = heap l -> hist l1 = hist l ++ [Invoked t o] -> rings_made l1 /\ grows l l1).
    { intros l1 t o H1 H2. unfold rings_made, grows. rewrite H1, H2. split; [|intros e He; apply in_or_app; auto].
      intros b K. destruct (M _ K) as (t0 & g & n & Y). do 3 eexists. apply in_or_app. eauto. }
    destruct a as [t o|t ch|t h|t r].
    - destruct (code l t); [|discriminate]. destruct (closing l); [discriminate|].
      destruct (is_destroy o); [destruct (is_nil (busy l)); [|discriminate]|]; injection E as <-; apply (X _ t o); reflexivity.
    - destruct (code l t) as [|x k]; [discriminate|]. destruct (exec cap l t ch x) as [| |l1 r] eqn:Ex; [discriminate| |]; injection E as <-.
      + split; [exact M|now intros e]. 
      + apply (exec_rings _ _ _ _ _ _ M Ex).
    - destruct (hook_of (code l t)) as [[hk k]|]; [|discriminate]. injection E as <-. split; [exact M|now intros e].
    - destruct (hook_of (code l t)) as [[hk k]|]; [|discriminate]. injection E as <-. split; [exact M|now intros e].
  Qed.

  Lemma queue_rings c t b a k c' : rings_made (ql_log c) -> ql_queue c t b a k = Some c' -> rings_made (ql_log c') /\ grows (ql_log c) (ql_log c').
  Proof.
    intros M E. unfold ql_queue in E. destruct (qstep (ql_q c b) a); [|discriminate]. injection E as <-. cbn. destruct k; split; auto; now intros e.
  Qed.

  Lemma ql_rings c a c' : rings_made (ql_log c) -> ql_step cap csz site_cat c a = Some c' -> rings_made (ql_log c') /\ grows (ql_log c) (ql_log c').
  Proof.
    intros M E. assert (Pl : forall a, ql_plain cap csz site_cat c a = Some c' -> rings_made (ql_log c') /\ grows (ql_log c) (ql_log c')).
    { intros x H. unfold ql_plain in H. destruct (step cap csz site_cat (ql_log c) x) eqn:El; [|discriminate]. injection H as <-. eapply step_rings; eauto. }
    unfold ql_step in E. destruct (bad (ql_log c)); [discriminate|]. destruct (polite (ql_log c) (fst a)); [|discriminate].
    destruct (fst a) as [t o|t ch|t h|t r]; eauto. destruct (code (ql_log c) t) as [|x k]; [discriminate|]. destruct x; eauto.
    - unfold ql_take in E. destruct (ring_there (ql_log c) b); [|injection E as <-; split; auto; now intros e].
      destruct (cq_pc (ql_q c b) t); try (eapply queue_rings; eauto; fail). destruct v; [eapply queue_rings; eauto|injection E as <-; split; auto; now intros e].
    - destruct (b_kind (heap (ql_log c) b)); eauto. unfold ql_put in E. destruct (ring_there (ql_log c) b && _)%bool; [|injection E as <-; split; auto; now intros e].
      destruct (cq_pc (ql_q c b) t); eapply queue_rings; eauto.
  Qed.

  Lemma run_rings sched : rings_made (ql_log (ql_run cap csz site_cat sched)).
  Proof.
    unfold ql_run. apply (run_inv (ql_step cap csz site_cat) (fun c => rings_made (ql_log c))); [|intros b H; discriminate].
    intros c a c' M E. apply (ql_rings c a c' M E).
  Qed.

  Lemma run_grows pre post : grows (ql_log (ql_run cap csz site_cat pre)) (ql_log (ql_run cap csz site_cat (pre ++ post))).
  Proof.
    induction post as [|a post IH] using rev_ind; [now rewrite app_nil_r; intros e|]. intros e He. apply IH in He.
    rewrite app_assoc. unfold ql_run in *. rewrite (run_snoc _ _ (pre ++ post)). unfold move. destruct (ql_step _ _ _ _ a) as [c'|] eqn:E; auto.
    apply (proj2 (ql_rings _ _ _ (run_rings (pre ++ post)) E)), He.
  Qed.

  Lemma calm_prefix sched : awake cap csz site_cat sched -> ring_sizes (hist (ql_log (ql_run cap csz site_cat sched))) ->
    forall pre post, sched = pre ++ post -> calm (ql_run cap csz site_cat pre).
  Proof.
    intros A Z pre post ->. split; [apply (A _ _ eq_refl)|]. intros b K. destruct (run_rings pre b K) as (t & g & n & H). apply run_grows with (post := post) in H. eapply Z; eauto.
  Qed.

  Lemma awake_pre pre post : awake cap csz site_cat (pre ++ post) -> awake cap csz site_cat pre.
  Proof. intros A p q E. apply (A p (q ++ post)). now rewrite E, <- app_assoc. Qed.

  Lemma sim_new : sim ql_new log_new.
  Proof.
    split.
    - now exists [].
    - split; reflexivity.
    - reflexivity.
    - intros t b. exact I.
    - reflexivity.
    - intros b H. discriminate.
    - intros t. exists None. split; [exact I|discriminate].
  Qed.

  Theorem run_sim sched : awake cap csz site_cat sched -> ring_sizes (hist (ql_log (ql_run cap csz site_cat sched))) ->
    exists s, sim (ql_run cap csz site_cat sched) s.
  Proof.
    intros A Z. pose proof (calm_prefix sched A Z) as C. clear A Z.
    induction sched as [|a sched IH] using rev_ind; [exists log_new; apply sim_new|].
    destruct IH as (s & S). { intros pre post E. apply (C pre (post ++ [a])). now rewrite E, <- app_assoc. }
    pose proof (C sched [a] eq_refl) as C1. assert (C2 : calm (ql_run cap csz site_cat (sched ++ [a]))) by (apply (C _ []); now rewrite app_nil_r).
    unfold ql_run in *. rewrite run_snoc in *. unfold move in *. destruct (ql_step cap csz site_cat (run (ql_step cap csz site_cat) ql_new sched) a) as [c'|] eqn:E; eauto.
    eapply step_sim; eauto.
  Qed.

  (** Short runs. *)
  Lemma qstep_short (q : cqueue N) a q' : qstep q a = Some q' -> (length (cq_hist q') <= S (length (cq_hist q)))%nat.
  Proof.
    intros E. destruct a as [t x|t|t sp]; cbn [qstep] in E; destruct (cq_pc q t); try discriminate;
      repeat match type of E with context [if ?b then _ else _] => destruct b end; injection E as <-; cbn [cq_hist cq_goto cq_set_data cq_set_seq cq_set_enq cq_set_deq]; rewrite app_length; cbn; lia.
  Qed.

  Lemma ql_step_short c a c' d : ql_step cap csz site_cat c a = Some c' -> (length (cq_hist (ql_q c' d)) <= S (length (cq_hist (ql_q c d))))%nat.
  Proof.
    intros E.
    assert (Qu : forall t b0 x k, ql_queue c t b0 x k = Some c' -> (length (cq_hist (ql_q c' d)) <= S (length (cq_hist (ql_q c d))))%nat).
    { intros t b0 x k H. unfold ql_queue in H. destruct (qstep (ql_q c b0) x) as [q|] eqn:Eq; [|discriminate]. injection H as <-. cbn. unfold tset.
      destruct (Nat.eqb_spec d b0) as [->|]; [now apply qstep_short in Eq|lia]. }
    assert (Pl : forall x, ql_plain cap csz site_cat c x = Some c' -> (length (cq_hist (ql_q c' d)) <= S (length (cq_hist (ql_q c d))))%nat).
    { intros x H. unfold ql_plain in H. destruct (step cap csz site_cat (ql_log c) x); [|discriminate]. injection H as <-. cbn.
      destruct (Nat.eqb _ _); [lia|]. unfold tset. destruct (Nat.eqb d _); cbn; lia. }
    unfold ql_step in E. destruct (bad (ql_log c)); [discriminate|]. destruct (polite (ql_log c) (fst a)); [|discriminate].
    destruct (fst a) as [t o|t ch|t h|t r]; eauto. destruct (code (ql_log c) t) as [|x k]; [discriminate|]. destruct x; eauto.
    - unfold ql_take in E. destruct (ring_there (ql_log c) b); [|injection E as <-; cbn; lia].
      destruct (cq_pc (ql_q c b) t); eauto. destruct v; eauto. injection E as <-; cbn; lia.
    - destruct (b_kind (heap (ql_log c) b)); eauto. unfold ql_put in E. destruct (ring_there (ql_log c) b && _)%bool; [|injection E as <-; cbn; lia].
      destruct (cq_pc (ql_q c b) t); eauto.
  Qed.

  Lemma run_short sched b : (length (cq_hist (ql_q (ql_run cap csz site_cat sched) b)) <= length sched)%nat.
  Proof.
    induction sched as [|a sched IH] using rev_ind; [cbn; lia|]. unfold ql_run in *. rewrite run_snoc, app_length. cbn [length]. unfold move.
    destruct (ql_step _ _ _ _ a) as [c'|] eqn:E; [apply (ql_step_short _ _ _ b) in E|]; lia.
  Qed.

  Lemma short_stale (q : cqueue N) n t : (length (cq_hist q) <= n)%nat -> N.of_nat n < 2 ^ 62 -> stale q t < 2 ^ 62.
  Proof.
    intros H L. assert (X : forall h : list (queue_event N), (length (ins h) <= length h)%nat /\ (outs h <= length h)%nat).
    { induction h as [|e h [I1 I2]]; [cbn; auto|]. unfold outs, ins in *. destruct e; cbn [flat_map filter app length]; lia. }
    destruct (X (cq_hist q)) as (X1 & X2). unfold stale, placed_in, placed_out. destruct (cq_pc q t); lia.
  Qed.

  Lemma short_awake sched : N.of_nat (length sched) < 2 ^ 62 -> awake cap csz site_cat sched.
  Proof.
    intros L pre post -> b t. rewrite app_length in L. apply (short_stale _ (length pre)); [apply run_short|lia].
  Qed.

  (** ** What follows *)

  Lemma about_both c s t a : sim c s -> about_to (ql_log c) t a ->
    exists a', about_to s t a' /\ (forall p, reads (ql_log c) t a p -> reads s t a' p) /\ (forall p, writes (ql_log c) t a p -> writes s t a' p).
  Proof.
    intros S (k & E). pose proof (sm_code _ _ S t) as A. rewrite E in A. destruct (sm_fine _ _ S t) as (w & F & _). rewrite E in F.
    assert (Sa : forall p, (reads (ql_log c) t a p -> reads s t a p) /\ (writes (ql_log c) t a p -> writes s t a p)).
    { intros p. unfold reads, writes. rewrite (sa_bufp _ _ (sm_same _ _ S)), (sa_nbuf _ _ (sm_same _ _ S)). destruct a; auto. }
    assert (Plain : code s t = Act a k -> exists a', about_to s t a' /\ (forall p, reads (ql_log c) t a p -> reads s t a' p) /\ (forall p, writes (ql_log c) t a p -> writes s t a' p)).
    { intros X. exists a. split; [now exists k|]. split; intros p; apply Sa. }
    destruct a; auto; cbn [ahead fine shape] in A, F.
    - destruct F as ((_ & Sh) & _). destruct (cq_pc (ql_q c b) t); auto; destruct A as (i & _ & X); destruct (Sh i) as (k' & Y); rewrite Y in X;
        exists (AReset b i); (split; [now exists k'|]); split; intros p; cbn; auto; contradiction.
    - destruct F as ((k' & Y) & _). destruct (cq_pc (ql_q c b) t); auto; rewrite Y in A; exists (ALoan b false); (split; [now exists k'|]); split; intros p; cbn; auto.
  Qed.

  Lemma sim_race c s : sim c s -> race (ql_log c) -> race s.
  Proof.
    intros S (t & u & a & a' & p & N & A & A' & W & R). destruct (about_both _ _ _ _ S A) as (x & X & _ & Xw). destruct (about_both _ _ _ _ S A') as (y & Y & Yr & Yw).
    exists t, u, x, y, p. repeat split; auto. destruct R; auto.
  Qed.

  Lemma in_there c s t b : sim c s -> in_queue c t b -> b_owner (heap s b) = Mine /\ b_kind (heap s b) = Ring.
  Proof.
    intros S I. unfold in_queue in I. pose proof (sm_in _ _ S t b) as X.
    assert (K : b_kind (heap s b) = Ring) by (destruct (cq_pc (ql_q c b) t); cbn [inside] in X; try apply X; congruence). split; auto.
    assert (R : exists a, about_to (ql_log c) t a /\ reads (ql_log c) t a (PObject b)).
    { destruct (cq_pc (ql_q c b) t); cbn [inside] in X; try congruence; destruct X as (_ & X); try (destruct X as (_ & X)); destruct X as (k & X);
        eexists; (split; [exists k; exact X|reflexivity]). }
    destruct R as (a & A & Ra). destruct (about_both _ _ _ _ S A) as (a' & A' & Ra' & _). specialize (Ra' _ Ra).
    apply (there s t a'); auto; [apply S|]. intros cf g n ->. exact Ra'.
  Qed.

  Lemma sim_cells c s b t u x w w' : sim c s -> calm c -> t <> u ->
    data_access (ql_q c b) t = Some (x, w) -> data_access (ql_q c b) u <> Some (x, w').
  Proof.
    intros S C Ne At Au. assert (K : b_kind (heap s b) = Ring).
    { apply (in_there c s t b S). unfold in_queue. unfold data_access in At. intros X. rewrite X in At. discriminate. }
    destruct (sm_queue _ _ S b K) as (_ & gs & I & _). destruct (cap_facts _ (calm_size _ _ _ S C K)) as (j & Hc & H1 & H2 & _).
    set (q := ql_q c b) in *. set (n := upper_power_of_two _) in *.
    assert (forall v c w, data_access q v = Some (c, w) -> exists i, c = (i mod n)%N /\ (enq_busy q v i \/ deq_busy q v i)) as Q.
    { intros v c0 w0 A. unfold data_access in A. pose proof (i_thr _ _ _ I v) as H.
      destruct (cq_pc q v) as [|y|y pos P|y pos P|y pos P|y pos P| |pos P|pos P|pos P|pos P y] eqn:E; try discriminate;
        injection A as <- _; exists P; cbn [thr_ok] in H; destruct H as (-> & _);
        (split; [apply (slot_of n j Hc H1 H2); apply I|]).
      - left. exists y. eauto.
      - right. eexists. left. eauto. }
    destruct (Q _ _ _ At) as (i & -> & Bi). destruct (Q _ _ _ Au) as (i' & E & Bi').
    destruct (busy_cells n j Hc H1 H2 q gs t i u i' I (fun X => Ne (eq_sym X))) as (X1 & X2 & X3 & X4).
    destruct Bi, Bi'; [apply X1|apply X2|apply X3|apply X4]; auto.
  Qed.
End Sim.
