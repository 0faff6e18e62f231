(** A logging call that nobody disturbs. *)
From Verif Require Import Base Model.StringUtils Model.Event Model.Queue Model.Buffer Model.Config Spec.Categories Model.Registry
  Model.Interleave Spec.LogHistory Spec.LogFacts Spec.LogRecords Model.TraceLog Spec.LogMemory Proofs.Interleave Proofs.Registry Proofs.LogFrame Proofs.LogView Proofs.LogViewInv
  Proofs.LogContract Proofs.LogBuffers Proofs.LogSafe Proofs.LogSafeInv Proofs.LogSafeAT Proofs.LogSafeOW Proofs.LogSafeAll Proofs.LogRaces Proofs.LogHolders Proofs.LogGhost Proofs.LogDebts Spec.LogEnd Proofs.LogFull.

(** Tracing is not turned on any more. *)
Fixpoint not_on (c : cmd) : Prop :=
  match c with
  | Ret => True
  | Act a k => match a with AStEnabled _ _ => False | _ => True end /\ forall r, not_on (k r)
  end.

(** Nothing of the log's own state changes, until tracing is turned off. *)
Fixpoint only_logs (c : cmd) : Prop :=
  match c with
  | Ret => True
  | Act a k =>
      match a with
      | AXchg _ => forall r, not_on (k r)
      | AStEnabled _ _ | AIncGen | AMaster _ | AUnMaster _ | AEvict _ | AReg _ | ABufTake | ABufSet _ | AFree => False
      | _ => forall r, only_logs (k r)
      end
  end.

Lemma logs_not_on c : only_logs c -> not_on c.
Proof. induction c as [|a k IH]; cbn; auto. intros H. destruct a; try (split; [exact I|]; intros r; auto; fail); easy. Qed.

Lemma evict_not_on n : forall l k, not_on k -> not_on (evict n l k).
Proof. induction n as [|n IH]; intros l k K; cbn; auto. repeat (split; [exact I|]; intros _ || intros u). apply IH, K. Qed.

Lemma stop_logs t nr w k : (forall r, not_on (k r)) -> only_logs (stop_lh t nr w k).
Proof.
  intros K. unfold stop_lh. cbn. intros [|]; auto. split; [exact I|]. intros _. split; [exact I|]. intros l. apply evict_not_on. cbn. split; [exact I|]. intros c.
  split; [exact I|]. intros _. destruct (negb (is_shutdown w) || cf_stop c); [destruct (cf_callback c)|]; auto. cbn. auto.
Qed.

Lemma log_logs t e k : (forall r, only_logs (k r)) -> only_logs (logEvent t e k).
Proof.
  intros K. assert (N : forall r, not_on (k r)) by (intros r; apply logs_not_on, K).
  assert (M : forall g, only_logs (maybe_stop t g k)).
  { intros g. unfold maybe_stop. cbn [only_logs]. intros [|]; auto. cbn [only_logs]. intros g'. destruct (g' =? g)%N; [apply stop_logs; intros r; cbn; auto|cbn; auto]. }
  assert (S : only_logs (c <- AChunkGet;; match c with None => ACrash;;; Ret | Some (b, i) => x <- AStore b i e;; AUnTenant;;; k x end)).
  { cbn. intros [[b i]|]; cbn; auto. }
  assert (Rp : forall k', (forall b, only_logs (k' b)) -> only_logs (replaceChunk k')).
  { intros k' K'. unfold replaceChunk.
    match goal with |- only_logs (c <- AChunkGet;; match c with None => ?X | _ => _ end) => assert (X' : only_logs X) end.
    { cbn. intros [|]; cbn; auto. intros [b|]; cbn; auto. intros [b'|]; cbn; auto. intros [i| |]; cbn; auto. }
    cbn [only_logs]. intros [[b i]|]; auto. cbn. intros [b'|]; cbn; auto. }
  unfold logEvent. cbn [only_logs]. intros [|]; cbn [negb]; auto. cbn [only_logs]. intros [|]; cbn [negb]; auto.
  cbn [only_logs]. intros [|]; cbn [negb]; [|cbn; auto].
  assert (Rf : only_logs (on <- ALdEnabled;;
            if negb on then AUnTenant;;; k None
            else replaceChunk (fun ok =>
              if ok then (c <- AChunkGet;; match c with None => ACrash;;; Ret | Some (b, i) => x <- AStore b i e;; AUnTenant;;; k x end)
              else g <- ALdGen;; AUnTenant;;; maybe_stop t g k))).
  { cbn [only_logs]. intros [|]; cbn [negb]; [|cbn; auto]. apply Rp. intros [|]; auto. cbn [only_logs]. intros g _. apply M. }
  cbn [only_logs]. intros [[b i]|]; auto. cbn [only_logs]. intros [|]; auto.
Qed.

Section Alone.
  Variables cap csz : N.
  Variable site_cat : nat -> bytes.
  Notation reached := (reached cap csz site_cat).
  Notation pstep := (pstep cap csz site_cat).

  Lemma off_stays s t ch a s' r : match a with AStEnabled _ _ => False | _ => True end -> exec cap s t ch a = Next s' r ->
    enabled s = false -> enabled s' = false.
  Proof. intros N E F. destruct a; ex E; auto; try easy; destruct (bufp s); auto. Qed.

  (** Nobody else has a hand in this. *)
  Definition calm_for (s : st) (t : tid) (g : N) : Prop :=
    enabled s = true /\ (mtx s = None \/ mtx s = Some t) /\ gen s = g /\ t_init (ten s t) = true /\ (forall u, t_lock (ten s t) <> ByMaster u).

  Definition alone (s : st) (h : tid -> excused) (t : tid) (n : nat) (g : N) : Prop :=
    (enabled s = false /\ not_on (code s t)) \/
    (only_logs (code s t) /\ calm_for s t g /\ calls (hist s) t = n /\
     (x_call (h t) = n -> x_gen (h t) = g /\ x_met (h t) = false)).

  Lemma calm_exec s t g ch a k s' r : reached s -> code s t = Act a k -> calm_for s t g -> ch <> CFail -> only_logs (Act a k) ->
    exec cap s t ch a = Next s' r ->
    (excuse s t a r = false /\ calm_for s' t g /\ only_logs (k r)) \/ (enabled s' = false /\ not_on (k r)).
  Proof.
    intros R Ec (C1 & C2 & C3 & C4 & C5) Hc O E.
    assert (X : negb (enabled s) || match t_lock (ten s t) with ByMaster _ => true | _ => false end || negb (t_init (ten s t)) = false).
    { rewrite C1, C4. cbn. destruct (t_lock (ten s t)) eqn:Q; auto. now destruct (C5 t0). }
    unfold excuse. rewrite X. unfold calm_for. cbn [only_logs] in O.
    destruct a; try easy; ex E; cbn; try (left; repeat split; auto; fail); try (right; split; auto; congruence).
    all: try (left; repeat split; auto; rewrite ?tset_same; cbn; auto; try discriminate; fail).
    destruct C2 as [C2|C2]; [easy|]. injection C2 as ->. rewrite Nat.eqb_refl in *. easy.
  Qed.

  Lemma alone_step s h t n g a : reached s -> alone s h t n g -> own_step t a ->
    alone (fst (gstep cap csz site_cat note_excuse (s, h) a)) (snd (gstep cap csz site_cat note_excuse (s, h) a)) t n g.
  Proof.
    intros R A O. cbn [gstep fst snd]. unfold move, TraceLog.pstep, step.
    pose proof (never_bad _ _ _ s R) as B. destruct a as [u o|u ch|u m|u x]; try easy; cbn [own_step polite] in *; rewrite B.
    - destruct O as [-> Hc]. destruct (code s t) as [|a k] eqn:Ec; [exact A|].
      destruct (exec cap s t ch a) as [| |s' r] eqn:E; [exact A| |].
      + exfalso. destruct (safe_at cap csz site_cat s R) as [fb [Gb Vb]]. apply (no_crash cap site_cat s fb t ch a Gb); auto. apply Vb. now exists k.
      + unfold alone in A. rewrite Ec in A.
        assert (Cd : code (set_cmd s' t (k r)) t = k r) by (cbn; now rewrite tset_same).
        destruct A as [(A1 & A2 & A3)|(A1 & A2 & A3 & A4)].
        * left. rewrite Cd. split; [|apply A3]. exact (off_stays _ _ _ _ _ _ A2 E A1).
        * destruct (calm_exec _ _ _ _ _ _ _ _ R Ec A2 Hc A1 E) as [(X & C & O')|(X & O')]; [|left; rewrite Cd; auto].
          right. rewrite Cd. split; auto. split; [exact C|].
          assert (Cn : calls (hist s') t = calls (hist s) t).
          { pose proof (exec_adds cap csz site_cat _ _ _ _ _ _ _ R Ec E) as Y.
            destruct a; try (destruct Y as [->|[y [My ->]]]; auto; rewrite calls_snoc; destruct y; easy || lia).
            - rewrite Y. destruct r; [now rewrite app_nil_r|]. rewrite calls_snoc. lia.
            - rewrite Y, calls_snoc. lia. }
          split; [change (calls (hist s') t = n); congruence|]. intros _. unfold note_excuse. rewrite tset_same. cbn [x_gen x_met]. rewrite X, A3.
          destruct A2 as (_ & _ & G & _). destruct (Nat.eqb (x_call (h t)) n) eqn:Q.
          -- apply Nat.eqb_eq in Q. destruct (A4 Q) as (-> & ->). rewrite G, N.eqb_refl. auto.
          -- cbn. rewrite G, N.eqb_refl. auto.
    - subst u. destruct (hook_of (code s t)) as [[hk k]|] eqn:Eh; [|exact A]. apply hook_of_some in Eh.
      unfold alone in *. rewrite Eh in A. assert (Cd : code (set_cmd s t (k x)) t = k x) by (cbn; now rewrite tset_same). rewrite Cd.
      destruct A as [(A1 & A2 & A3)|(A1 & A2 & A3)]; [left; split; [exact A1|apply A3]|right]. split; [apply A1|]. exact (conj A2 A3).
  Qed.

  Lemma alone_run sched t e acts (s := run pstep log_new sched) (s1 := run pstep log_new (sched ++ Invoke t (OLog e) :: acts)) :
    enabled s = true -> mtx s = None -> t_init (ten s t) = true -> code s t = Ret -> closing s = None -> Forall (own_step t) acts ->
    alone s1 (excuses cap csz site_cat (sched ++ Invoke t (OLog e) :: acts)) t (S (calls (hist s) t)) (gen s).
  Proof.
    intros On Mx Ini Id Cl F. subst s1. unfold excuses, ghost.
    induction acts as [|a acts IH] using rev_ind.
    - rewrite fold_left_app, run_snoc. cbn [fold_left].
      pose proof (ghost_fst cap csz site_cat note_excuse sched (log_new, fun _ => {| x_call := 0; x_gen := 0; x_met := false |})) as Fs. cbn [fst] in Fs.
      destruct (full_ends cap csz site_cat sched) as [f [D _]]. cbv zeta in D. unfold excuses, ghost in D.
      destruct (fold_left (gstep cap csz site_cat note_excuse) sched (log_new, fun _ => {| x_call := 0; x_gen := 0; x_met := false |})) as [s0 h]. cbn [fst snd] in *. subst s0.
      fold s in D |- *. cbn [gstep snd]. destruct (D t) as (_ & _ & _ & (_ & D4) & _).
      assert (R : reached s) by (now exists sched).
      unfold move, TraceLog.pstep, step. cbn [polite]. rewrite (never_bad _ _ _ s R), Id, Cl. cbn [is_destroy].
      right. cbn [code set_cmd set_busy set_code]. rewrite tset_same. split; [cbn [code_of]; apply log_logs; intros r; cbn; auto|].
      split; [|split].
      + repeat split; auto. intros u Q. destruct (safe_at cap csz site_cat s R) as [fb [Gb _]]. change (t_lock (ten s t) = ByMaster u) in Q.
        apply (lk_mas _ _ (gb_lk _ _ _ Gb)) in Q. assert (m_hold (fb u) <> None) as X by (apply (lk_mash _ _ (gb_lk _ _ _ Gb)); congruence).
        apply (lk_hold _ _ (gb_lk _ _ _ Gb)) in X. congruence.
      + change (hist (set_cmd (emit s (Invoked t (OLog e))) t (code_of csz site_cat t (OLog e)))) with (hist s ++ [Invoked t (OLog e)]).
        rewrite calls_snoc, Nat.eqb_refl. lia.
      + intros Q. lia.
    - apply Forall_app in F as [F Fa]. specialize (IH F). inversion Fa; subst.
      rewrite app_comm_cons, app_assoc, fold_left_app, run_snoc. cbn [fold_left].
      pose proof (ghost_fst cap csz site_cat note_excuse (sched ++ Invoke t (OLog e) :: acts) (log_new, fun _ => {| x_call := 0; x_gen := 0; x_met := false |})) as Fs. cbn [fst] in Fs.
      destruct (fold_left (gstep cap csz site_cat note_excuse) (sched ++ Invoke t (OLog e) :: acts) (log_new, fun _ => {| x_call := 0; x_gen := 0; x_met := false |})) as [s0 h]. cbn [fst snd] in *. subst s0.
      apply (alone_step (run pstep log_new (sched ++ Invoke t (OLog e) :: acts))); auto. now exists (sched ++ Invoke t (OLog e) :: acts).
  Qed.
End Alone.
