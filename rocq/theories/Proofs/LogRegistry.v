(** The log with its registry behaves as the log whose registry operations are
    single actions. *)
From Verif Require Import Base Spec.QueueHistory Spec.Categories Spec.CategoryHistory Model.StringUtils Model.Event Model.Queue Model.Buffer Model.Config
  Model.Registry Model.Interleave Spec.LogHistory Spec.LogFacts Model.QueueConc Model.TraceLog Spec.LogMemory Model.LogQueue Spec.LogQueue
  Proofs.Interleave Proofs.Strings Proofs.Registry Proofs.LogFrame Proofs.LogView Proofs.LogViewInv Proofs.LogContract Proofs.LogGate Proofs.LogSafeAll Proofs.LogQueue
  Model.RegistryConc Proofs.RegistryConc Model.LogRegistry Spec.LogRegistry.
From Verif Require Import Model.TraceLog.
Close Scope N_scope.

(** ** A log with another registry and other code *)

Definition relab (l : st) (rho : registry) (kap : tid -> cmd) : st := set_code (set_reg l rho) kap.
Definition relabq (q : qlog) (rho : registry) (kap : tid -> cmd) : qlog := {| ql_log := relab (ql_log q) rho kap; ql_q := ql_q q |}.

(** Actions that use the registry's names, lists or statuses. *)
Definition is_reg (a : act) : bool :=
  match a with AGetStatus _ | ADisableAll | AUpdate _ _ | AStatus _ => true | _ => false end.

Definition relab_result {A} (x : result A) (rho : registry) (kap : tid -> cmd) : result A :=
  match x with Next s r => Next (relab s rho kap) r | Blocked => Blocked | Crashed => Crashed end.

Lemma exec_relab cap l rho kap t ch a : is_reg a = false -> rg_count rho = rg_count (reg l) ->
  exec cap (relab l rho kap) t ch a = relab_result (exec cap l t ch a) rho kap.
Proof.
  intros R C. destruct a; try discriminate R; cbn [exec]; unfold exec_factory, with_buf, owns;
    cbn [relab set_code set_reg enabled mtx gen bufp heap nbuf ten regd cfg names dereg sites busy closing hist bad];
    try (unfold free_buf, give_buf; cbn [relab set_code set_reg bufp heap]; destruct (bufp l); reflexivity);
    repeat match goal with
    | |- context [match ?x with _ => _ end] => match x with
        | context [exec] => fail 1 | context [relab] => fail 1 | _ => destruct x eqn:? end
    end; try reflexivity.
  cbn [relab_result]. f_equal. unfold log_stats, registry_stats. cbn. now rewrite C.
Qed.

Lemma exec_reg cap l t ch a l' r : is_reg a = false -> exec cap l t ch a = Next l' r -> reg l' = reg l /\ code l' = code l.
Proof.
  intros R E. destruct a; try discriminate R; cbn [exec] in E; unfold exec_factory, with_buf in E;
    repeat match type of E with context [match ?x with _ => _ end] => destruct x eqn:? end; try discriminate E; injection E as <- _;
    unfold free_buf, give_buf; try (destruct (bufp l)); auto.
Qed.

Definition who (a : sact) : tid := match a with Invoke t _ | Step t _ | HookDo t _ | HookEnd t _ => t end.

Section Plain.
  Variables cap csz : N.
  Variable site_cat : nat -> bytes.

  Lemma step_relab l rho kap a l' : step cap csz site_cat l a = Some l' -> kap (who a) = code l (who a) -> rg_count rho = rg_count (reg l) ->
    (forall t ch x k, a = Step t ch -> code l t = Act x k -> is_reg x = false) ->
    exists kap', step cap csz site_cat (relab l rho kap) a = Some (relab l' rho kap') /\ kap' (who a) = code l' (who a) /\
      (forall u, u <> who a -> kap' u = kap u /\ code l' u = code l u) /\ reg l' = reg l.
  Proof.
    intros E K C NR.
    assert (Fin : forall m c, reg m = reg l -> code m = code l -> l' = set_cmd m (who a) c -> step cap csz site_cat (relab l rho kap) a = Some (set_cmd (relab m rho kap) (who a) c) ->
      exists kap', step cap csz site_cat (relab l rho kap) a = Some (relab l' rho kap') /\ kap' (who a) = code l' (who a) /\
      (forall u, u <> who a -> kap' u = kap u /\ code l' u = code l u) /\ reg l' = reg l).
    { intros m c Rm Cm -> ->. exists (tset kap (who a) c). split; [reflexivity|]. cbn. rewrite !tset_same. split; [reflexivity|]. split; [|exact Rm].
      intros u Hu. rewrite !tset_other by auto. now rewrite Cm. }
    unfold step in E. destruct (bad l) eqn:B; [discriminate|].
    assert (B' : bad (relab l rho kap) = false) by exact B.
    destruct a as [t o|t ch|t h|t r]; cbn [who] in *.
    - destruct (code l t) eqn:Ec; [|discriminate]. destruct (closing l) eqn:Cl; [discriminate|].
      destruct (is_destroy o) eqn:D.
      + destruct (is_nil (busy l)) eqn:Nl; [|discriminate]. injection E as <-.
        eexists. split; [unfold step; rewrite B'; cbn [relab set_code set_reg code closing busy]; rewrite K, Cl, D, Nl; reflexivity|].
        cbn. rewrite !tset_same. split; [reflexivity|]. split; [|reflexivity]. intros u Hu. now rewrite !tset_other by auto.
      + injection E as <-. apply (Fin (emit l (Invoked t o)) (code_of csz site_cat t o)); auto.
        unfold step. rewrite B'. cbn [relab set_code set_reg code closing busy]. rewrite K, Cl, D. reflexivity.
    - destruct (code l t) as [|x k] eqn:Ec; [discriminate|]. specialize (NR t ch x k eq_refl Ec).
      pose proof (exec_relab cap l rho kap t ch x NR C) as X. 
      destruct (exec cap l t ch x) as [| |m r] eqn:Ex; [discriminate| |].
      + injection E as <-. exists kap. split; [unfold step; rewrite B'; cbn [relab set_code set_reg code]; rewrite K; fold (relab l rho kap); rewrite X; reflexivity|].
        cbn. rewrite K, Ec. auto.
      + injection E as <-. destruct (exec_reg _ _ _ _ _ _ _ NR Ex) as [Rm Cm]. apply (Fin m (k r)); auto.
        unfold step. rewrite B'. cbn [relab set_code set_reg code]. rewrite K. fold (relab l rho kap). rewrite X. reflexivity.
    - destruct (hook_of (code l t)) eqn:H; [|discriminate]. injection E as <-. apply (Fin l (hcode csz t h (code l t))); auto.
      unfold step. rewrite B'. cbn [relab set_code set_reg code]. now rewrite K, H.
    - destruct (hook_of (code l t)) as [[hk k]|] eqn:H; [|discriminate]. injection E as <-. apply (Fin l (k r)); auto.
      unfold step. rewrite B'. cbn [relab set_code set_reg code]. now rewrite K, H.
  Qed.

  Lemma ql_relab q rho kap a sp q' : ql_step cap csz site_cat q (a, sp) = Some q' -> kap (who a) = code (ql_log q) (who a) ->
    rg_count rho = rg_count (reg (ql_log q)) ->
    (forall t ch x k, a = Step t ch -> code (ql_log q) t = Act x k -> is_reg x = false) ->
    exists kap', ql_step cap csz site_cat (relabq q rho kap) (a, sp) = Some (relabq q' rho kap') /\ kap' (who a) = code (ql_log q') (who a) /\
      (forall u, u <> who a -> kap' u = kap u /\ code (ql_log q') u = code (ql_log q) u) /\ reg (ql_log q') = reg (ql_log q).
  Proof.
    intros E K C NR. unfold ql_step in *. cbn [fst snd] in *.
    assert (Bd : bad (ql_log (relabq q rho kap)) = bad (ql_log q)) by reflexivity. rewrite Bd. destruct (bad (ql_log q)) eqn:B; [discriminate|].
    assert (Po : polite (ql_log (relabq q rho kap)) a = polite (ql_log q) a).
    { unfold polite. cbn [relabq relab ql_log set_code set_reg code enabled]. destruct a; auto. cbn [who] in K. now rewrite K. }
    rewrite Po. destruct (polite (ql_log q) a) eqn:Ep; [|discriminate].
    assert (Pl : ql_plain cap csz site_cat q a = Some q' ->
      exists kap', ql_plain cap csz site_cat (relabq q rho kap) a = Some (relabq q' rho kap') /\ kap' (who a) = code (ql_log q') (who a) /\
      (forall u, u <> who a -> kap' u = kap u /\ code (ql_log q') u = code (ql_log q) u) /\ reg (ql_log q') = reg (ql_log q)).
    { unfold ql_plain. destruct (step cap csz site_cat (ql_log q) a) as [l'|] eqn:Es; [|discriminate]. intros X. injection X as <-.
      destruct (step_relab _ rho kap _ _ Es K C NR) as (kap' & E' & H). exists kap'. cbn [relabq ql_log ql_q] in *. rewrite E'. split; [reflexivity|exact H]. }
    destruct a as [t o|t ch|t h|t r]; auto. cbn [relabq ql_log relab set_code code who] in *. rewrite K.
    destruct (code (ql_log q) t) as [|x k] eqn:Ec; [discriminate|].
    assert (Qs : forall b act0 o, ql_queue q t b act0 o = Some q' ->
      exists kap', ql_queue (relabq q rho kap) t b act0 o = Some (relabq q' rho kap') /\ kap' t = code (ql_log q') t /\
      (forall u, u <> t -> kap' u = kap u /\ code (ql_log q') u = code (ql_log q) u) /\ reg (ql_log q') = reg (ql_log q)).
    { intros b a0 o. unfold ql_queue. cbn [relabq ql_q]. destruct (qstep (ql_q q b) a0) as [q0|]; [|discriminate]. intros X. injection X as <-.
      destruct o as [c0|].
      - exists (tset kap t c0). split; [reflexivity|]. cbn. rewrite !tset_same. split; [reflexivity|]. split; [|reflexivity]. intros u Hu. now rewrite !tset_other.
      - exists kap. split; [reflexivity|]. cbn. rewrite K, Ec. auto. }
    assert (Cr : Some (ql_crash q) = Some q' ->
      exists kap', Some (ql_crash (relabq q rho kap)) = Some (relabq q' rho kap') /\ kap' t = code (ql_log q') t /\
      (forall u, u <> t -> kap' u = kap u /\ code (ql_log q') u = code (ql_log q) u) /\ reg (ql_log q') = reg (ql_log q)).
    { intros X. injection X as <-. exists kap. split; [reflexivity|]. cbn. rewrite K, Ec. auto. }
    destruct x; auto; cbn [relabq ql_log relab set_code set_reg heap].
    - unfold ql_take, ring_there in *. cbn [relabq ql_log relab set_code set_reg heap ql_q].
      destruct (match b_owner (heap (ql_log q) b) with Mine => _ | _ => _ end); auto.
      destruct (cq_pc (ql_q q b) t) as [| | | | | | | | | |? ? [i|]]; auto.
    - destruct (b_kind (heap (ql_log q) b)); auto. unfold ql_put, ring_there in *. cbn [relabq ql_log relab set_code set_reg heap ql_q].
      destruct (_ && _)%bool; auto. destruct (cq_pc (ql_q q b) t); auto.
  Qed.
End Plain.

(** ** The code goes on after a registry operation *)

Fixpoint goes_on (c : cmd) : Prop :=
  match c with
  | Ret => True
  | Act a k =>
      (match a return (ans a -> cmd) -> Prop with
       | AGetStatus _ => fun k => forall r, k r <> Ret
       | ADisableAll => fun k => k tt <> Ret
       | AUpdate _ _ => fun k => k tt <> Ret
       | _ => fun _ => True
       end k) /\ forall r, goes_on (k r)
  end.

Ltac goes := repeat (cbn [goes_on]; match goal with
  | |- True /\ _ => split; [exact I|]
  | |- forall r, _ => let r := fresh "r" in intros r
  | |- goes_on (match ?x with _ => _ end) => destruct x
  | |- goes_on (if ?x then _ else _) => destruct x
  | |- True => exact I
  end); auto.

Section Goes.
  Variable csz : N.
  Variable site_cat : nat -> bytes.

  Lemma goes_evict n : forall l k, goes_on k -> goes_on (evict n l k).
  Proof. induction n as [|n IH]; intros l k H; cbn [evict]; auto. goes. Qed.

  Lemma goes_stop t nr w k : (forall r, goes_on (k r)) -> goes_on (stop_lh t nr w k).
  Proof. intros H. unfold stop_lh. goes. split; [discriminate|]. goes. apply goes_evict. goes. Qed.

  Lemma goes_start t c k : (forall r, goes_on (k r)) -> goes_on (start_lh csz t c k).
  Proof. intros H. unfold start_lh. goes; try (apply goes_stop; goes). all: split; [discriminate|]; goes. Qed.

  Lemma goes_get b k : (forall r, goes_on (k r)) -> goes_on (getChunk b k).
  Proof. intros H. unfold getChunk. goes. Qed.

  Lemma goes_return b i k : goes_on k -> goes_on (returnChunk b i k).
  Proof. intros H. unfold returnChunk. goes. Qed.

  Lemma goes_replace k : (forall r, goes_on (k r)) -> goes_on (replaceChunk k).
  Proof.
    intros H. unfold replaceChunk. set (rest := Act ALdEnabled _). assert (goes_on rest) as F.
    { unfold rest. goes. apply goes_get. goes. }
    clearbody rest. goes. apply goes_return. goes.
  Qed.

  Lemma goes_maybe t g k : (forall r, goes_on (k r)) -> goes_on (maybe_stop t g k).
  Proof. intros H. unfold maybe_stop. goes. apply goes_stop. goes. Qed.

  Lemma goes_log t e k : (forall r, goes_on (k r)) -> goes_on (logEvent t e k).
  Proof. intros H. unfold logEvent. goes. all: apply goes_replace; goes; apply goes_maybe; auto. Qed.

  Lemma goes_macro t x e k : (forall r, goes_on (k r)) -> goes_on (macro site_cat t x e k).
  Proof. intros H. unfold macro. goes; try (apply goes_log; auto). all: split; [discriminate|]; goes; apply goes_log; auto. Qed.

  Lemma goes_code t o : goes_on (code_of csz site_cat t o).
  Proof.
    unfold code_of, TraceLog.locked. destruct o as [c|c|s| | | |n| | | |category|e|x e| |]; try destruct c; unfold getBuffer_lh, getTraceContext_lh; goes;
      try (apply goes_start; goes); try (apply goes_stop; goes); try (apply goes_log; goes); try (apply goes_macro; goes); try (apply goes_return; goes).
    all: split; [discriminate|]; goes.
  Qed.

  Lemma goes_hcode t h k : goes_on k -> goes_on (hcode csz t h k).
  Proof.
    intros H. unfold hcode, getBuffer_lh, getTraceContext_lh. destruct h; goes;
      try (apply goes_start; goes); try (apply goes_stop; goes); try (apply goes_log; goes).
  Qed.
End Goes.

(** ** What is known of a log when a registry operation is due *)

Section Known.
  Variables cap csz : N.
  Variable site_cat : nat -> bytes.

  Lemma fresh_not_due h : all_legal csz h -> fresh (status_after h) <> None -> due (status_after h) = None.
  Proof.
    induction h as [|e h IH] using rev_ind; intros L; [easy|]. rewrite status_snoc.
    assert (L' : all_legal csz h) by (intros a x b ->; apply (L a x (b ++ [e])); now rewrite <- app_assoc).
    specialize (IH L'). specialize (L h e [] eq_refl). unfold advance, legal in *. destruct (inert e); auto.
    destruct L as (D & F & _). destruct e; cbn; auto; try easy.
  Qed.

  Lemma known_at s : reached cap csz site_cat s ->
    rok (reg s) /\
    (forall t k, code s t = Act ADisableAll k -> mtx s = Some t /\ enabled s = false) /\
    (forall t en dis k, code s t = Act (AUpdate en dis) k -> mtx s = Some t /\ enabled s = false /\
       (off_lists (rg_enabled (reg s), rg_disabled (reg s)) \/ (rg_enabled (reg s), rg_disabled (reg s)) = (en, dis))) /\
    (forall t w k, code s t = Act (AXchg w) k -> mtx s = Some t) /\
    (forall t g m k, code s t = Act (AStEnabled g m) k -> mtx s = Some t) /\
    (forall t i k, code s t = Act (AStatus i) k -> i < rg_count (reg s)).
  Proof.
    intros R. destruct (full_inv cap csz site_cat s R) as [_ [f [I V]]].
    assert (Sec : forall t F, insec (f t) F -> mtx s = Some t /\ F (prot s) (status_after (hist s))).
    { intros t F HF. unfold insec in HF. destruct (a_sec (f t)) as [[p q]|] eqn:Es; [|easy]. split; [apply (g_sec _ _ _ I); congruence|].
      now destruct (g_cur _ _ _ I _ _ _ Es) as [<- <-]. }
    assert (Ok : forall t a k, code s t = Act a k -> ok csz t (f t) a) by (intros t a k E; specialize (V t); rewrite E in V; apply V).
    split; [apply I|]. split; [|split; [|split; [|split]]].
    - intros t k E. apply Ok in E. destruct E as [E _]. apply Sec in E as [M E]. split; auto. now rewrite (g_on _ _ _ I).
    - intros t en dis k E. apply Ok in E. destruct E as [E _]. apply Sec in E as [M (Fr & On & Ls)]. split; auto. split; [now rewrite (g_on _ _ _ I)|].
      destruct (lists_inv cap csz site_cat s R) as [_ L2]. rewrite status_view, v_on_tracing in On.
      destruct (L2 On) as [X|[[X _]|[_ X]]]; auto.
      + destruct X. now apply fresh_not_due; [apply I|].
      + right. rewrite X, Ls, status_view, v_cfg_configuration. reflexivity.
    - intros t w k E. apply Ok in E. now apply Sec in E.
    - intros t g m k E. apply Ok in E. now apply Sec in E.
    - intros t i k E. now apply (status_known cap csz site_cat s t i k R).
  Qed.
End Known.

(** ** The simulation *)

(** The other log has done the lookup when the answer is settled, and the switch
    on when the lists are replaced; it does the switch off at the end. *)
Definition ahead_r (p : gpc) (c c' : cmd) : Prop :=
  match c with
  | Ret => c' = Ret
  | Act a k =>
      match a return (ans a -> cmd) -> Prop with
      | AGetStatus cat => fun k => match p with LRet _ i => c' = k i | _ => c' = Act (AGetStatus cat) k end
      | AUpdate en dis => fun k => match p with UCount _ | UStore _ _ _ | URet _ => c' = k tt | _ => c' = Act (AUpdate en dis) k end
      | _ => fun _ => c' = c
      end k
  end.

Definition inside_r (c : cmd) (p : gpc) : Prop :=
  match p with
  | GIdle => True
  | GCrash => False
  | GCount n | GScan n _ _ | GLock n | LCount n | LScan n _ _ | WBegin n _ | WEnd n _ | WStat n _ | WInc n _ | LRet n _ =>
      exists cat k, c = Act (AGetStatus cat) k /\ n = c_str cat
  | ULock x | UList x | UCount x | UStore x _ _ | URet x =>
      match x with
      | None => exists k, c = Act ADisableAll k
      | Some (en, dis) => exists k, c = Act (AUpdate en dis) k
      end
  end.

Definition switching_off (p : gpc) : bool :=
  match p with UCount None | UStore None _ _ | URet None => true | _ => false end.

Record rsim (c : rlog) (rho : registry) (kap : tid -> cmd) : Prop := {
  rs_run : exists sched, rl_reg c = cregistry_run sched;
  rs_code : forall t, ahead_r (cr_pc (rl_reg c) t) (code (rl_log c) t) (kap t);
  rs_in : forall t, inside_r (code (rl_log c) t) (cr_pc (rl_reg c) t);
  rs_goes : forall t, goes_on (code (rl_log c) t);
  rs_count : rg_count rho = cr_count (rl_reg c);
  rs_groups : forall i, i < cr_count (rl_reg c) -> cr_groups (rl_reg c) i = Some (rg_groups rho i);
  rs_lists : (forall t, switching_off (cr_pc (rl_reg c) t) = false) ->
    (rg_enabled rho, rg_disabled rho) = (cr_enabled (rl_reg c), cr_disabled (rl_reg c));
  rs_loose : forall i, i < cr_count (rl_reg c) -> cr_status (rl_reg c) i = rg_status rho i \/
    (cr_status (rl_reg c) i = false /\ exists t, switching (cr_pc (rl_reg c) t) = true);
  rs_hold : forall t, switching (cr_pc (rl_reg c) t) = true -> mtx (rl_log c) = Some t /\ enabled (rl_log c) = false;
  rs_seen : rg_status (reg (rl_log c)) = cr_status (rl_reg c) /\ rg_count (reg (rl_log c)) = cr_count (rl_reg c);
}.

Lemma rs_inv c rho kap : rsim c rho kap -> rinv (rl_reg c).
Proof. intros S. destruct (rs_run _ _ _ S) as (sched & ->). apply rinv_run. Qed.

(** What is needed of the other log. *)
Record known (q : st) : Prop := {
  kn_rok : rok (reg q);
  kn_off : forall t k, code q t = Act ADisableAll k -> mtx q = Some t /\ enabled q = false;
  kn_upd : forall t en dis k, code q t = Act (AUpdate en dis) k -> mtx q = Some t /\ enabled q = false /\
    (off_lists (rg_enabled (reg q), rg_disabled (reg q)) \/ (rg_enabled (reg q), rg_disabled (reg q)) = (en, dis));
  kn_xchg : forall t w k, code q t = Act (AXchg w) k -> mtx q = Some t;
  kn_on : forall t g m k, code q t = Act (AStEnabled g m) k -> mtx q = Some t;
  kn_stat : forall t i k, code q t = Act (AStatus i) k -> i < rg_count (reg q);
  kn_bad : bad q = false;
  kn_busy : forall t, code q t <> Ret -> add t (busy q) = busy q;
}.

Lemma sim_known cap csz site_cat q s : sim cap csz site_cat q s -> known (ql_log q).
Proof.
  intros S. pose proof (sm_reached _ _ _ _ _ S) as R. destruct (known_at cap csz site_cat s R) as (K1 & K2 & K3 & K4 & K5 & K6).
  pose proof (sm_same _ _ _ _ _ S) as E.
  assert (Cd : forall t a k, code (ql_log q) t = Act a k -> is_queue s a = false -> code s t = Act a k).
  { intros t a k X Q. destruct (not_inside cap csz site_cat q s t S) as (_ & ->); [now rewrite X|exact X]. }
  split; rewrite ?(sa_reg _ _ E), ?(sa_mtx _ _ E), ?(sa_enabled _ _ E), ?(sa_bad _ _ E), ?(sa_busy _ _ E); eauto.
  - apply (never_bad cap csz site_cat s R).
  - intros t X. apply (busy_add cap csz site_cat s t R). intros Y. apply X. pose proof (sm_code _ _ _ _ _ S t) as A. rewrite Y in A.
    destruct (sm_fine _ _ _ _ _ S t) as (w & F & _). clear X. destruct (code (ql_log q) t) as [|a k]; auto. exfalso. cbn [ahead fine] in A, F.
    destruct a; try discriminate A; cbn [shape] in F; destruct F as (F & _).
    + destruct F as (_ & F). destruct (cq_pc (ql_q q b) t); try discriminate A; destruct A as (i & _ & A); destruct (F i) as (k' & F'); congruence.
    + destruct F as (k' & F). destruct (cq_pc (ql_q q b) t); try discriminate A; congruence.
Qed.

(** A lookup on its own. *)
Lemma get_found r cat i : rok r -> i < rg_count r -> rg_groups r i = c_str cat -> getStatus r cat = (i, r).
Proof.
  intros K Hi E. unfold getStatus. pose proof (search_spec (rg_groups r) (c_str cat) (rg_count r) 0) as S.
  destruct (search _ _ _ _) as [j|].
  - destruct S as (Hj & S). rewrite (rk_cstr _ K) in S by lia. rewrite (rk_inj _ K j i); auto; [lia|congruence].
  - destruct (S i); [lia|]. now rewrite (rk_cstr _ K).
Qed.

Lemma get_absent r cat : rok r -> (forall i, i < rg_count r -> rg_groups r i <> c_str cat) ->
  getStatus r cat = if rg_count r <? registry_size then
    (rg_count r, {| rg_groups := updn (rg_groups r) (rg_count r) (c_str cat);
                    rg_status := updn (rg_status r) (rg_count r) (calculateEnabled (c_str cat) (rg_enabled r) (rg_disabled r));
                    rg_count := S (rg_count r); rg_enabled := rg_enabled r; rg_disabled := rg_disabled r |})
    else (index_category_limit, r).
Proof.
  intros K A. unfold getStatus. pose proof (search_spec (rg_groups r) (c_str cat) (rg_count r) 0) as S.
  destruct (search _ _ _ _) as [j|]; auto. destruct S as (Hj & S). rewrite (rk_cstr _ K) in S by lia. destruct (A j); [lia|exact S].
Qed.

Lemma run_more sched a r : rstep (cregistry_run sched) a = Some r -> r = cregistry_run (sched ++ [a]).
Proof. intros E. unfold cregistry_run in *. rewrite run_snoc. unfold move. now rewrite E. Qed.

(** A step of [t] in the registry. *)
Lemma rsim_move c rho kap t a l' r' rho' kap' : rsim c rho kap -> rstep (rl_reg c) a = Some r' ->
  (forall u, u <> t -> cr_pc r' u = cr_pc (rl_reg c) u) ->
  (forall u, u <> t -> code l' u = code (rl_log c) u /\ kap' u = kap u) ->
  mtx l' = mtx (rl_log c) -> enabled l' = enabled (rl_log c) ->
  ahead_r (cr_pc r' t) (code l' t) (kap' t) -> inside_r (code l' t) (cr_pc r' t) -> goes_on (code l' t) ->
  rg_count rho' = cr_count r' ->
  (forall i, i < cr_count r' -> cr_groups r' i = Some (rg_groups rho' i)) ->
  ((forall u, switching_off (cr_pc r' u) = false) -> (rg_enabled rho', rg_disabled rho') = (cr_enabled r', cr_disabled r')) ->
  (forall i, i < cr_count r' -> cr_status r' i = rg_status rho' i \/ (cr_status r' i = false /\ exists u, switching (cr_pc r' u) = true)) ->
  (switching (cr_pc r' t) = true -> mtx (rl_log c) = Some t /\ enabled (rl_log c) = false) ->
  rsim (rl_put c l' r') rho' kap'.
Proof.
  intros S E Pc Cd Mx En Ah In Go Cn Gr Ls Lo Ho. destruct (rs_run _ _ _ S) as (sched & Er).
  split; cbn [rl_put rl_log rl_q rl_reg ql_log set_reg code mtx enabled reg]; auto.
  - exists (sched ++ [a]). rewrite Er in E. now apply run_more.
  - intros u. destruct (Nat.eq_dec u t) as [->|N]; auto. destruct (Cd u N) as (-> & ->). rewrite Pc by auto. apply S.
  - intros u. destruct (Nat.eq_dec u t) as [->|N]; auto. destruct (Cd u N) as (-> & _). rewrite Pc by auto. apply S.
  - intros u. destruct (Nat.eq_dec u t) as [->|N]; auto. destruct (Cd u N) as (-> & _). apply S.
  - intros u. destruct (Nat.eq_dec u t) as [->|N]; rewrite Mx, En; auto. rewrite Pc by auto. apply S.
Qed.

(** ... that does not change what the registry holds. *)
Lemma rsim_quiet c rho kap t a r' : rsim c rho kap -> rstep (rl_reg c) a = Some r' ->
  (forall u, u <> t -> cr_pc r' u = cr_pc (rl_reg c) u) ->
  ahead_r (cr_pc r' t) (code (rl_log c) t) (kap t) -> inside_r (code (rl_log c) t) (cr_pc r' t) ->
  cr_count r' = cr_count (rl_reg c) ->
  (forall i, i < cr_count (rl_reg c) -> cr_groups r' i = cr_groups (rl_reg c) i /\ cr_status r' i = cr_status (rl_reg c) i) ->
  cr_enabled r' = cr_enabled (rl_reg c) -> cr_disabled r' = cr_disabled (rl_reg c) ->
  switching (cr_pc r' t) = switching (cr_pc (rl_reg c) t) -> switching_off (cr_pc r' t) = switching_off (cr_pc (rl_reg c) t) ->
  rsim (rl_put c (rl_log c) r') rho kap.
Proof.
  intros S E Pc Ah In Cn Gs En Di Sw So.
  assert (Sw' : forall u, switching (cr_pc r' u) = switching (cr_pc (rl_reg c) u)).
  { intros u. destruct (Nat.eq_dec u t) as [->|N]; auto. now rewrite Pc. }
  assert (So' : forall u, switching_off (cr_pc r' u) = switching_off (cr_pc (rl_reg c) u)).
  { intros u. destruct (Nat.eq_dec u t) as [->|N]; auto. now rewrite Pc. }
  apply (rsim_move c rho kap t a); auto; rewrite ?Cn, ?En, ?Di; try apply S.
  - intros i Hi. destruct (Gs i Hi) as (-> & _). now apply S.
  - intros H. apply S. intros u. now rewrite <- So'.
  - intros i Hi. destruct (Gs i Hi) as (_ & ->). destruct (rs_loose _ _ _ S i Hi) as [X|(X & u & Y)]; auto. right. split; auto. exists u. now rewrite Sw'.
  - rewrite Sw'. apply S.
Qed.

Lemma at_pc_other r t p e u : u <> t -> cr_pc (at_pc r t p e) u = cr_pc r u.
Proof. intros N. cbn. now rewrite tset_other. Qed.
Lemma at_pc_same r t p e : cr_pc (at_pc r t p e) t = p.
Proof. cbn. now rewrite tset_same. Qed.

(** The other log does nothing, or one step. *)
Definition follows cap csz site_cat (q q' : qlog) : Prop := q' = q \/ exists a, ql_step cap csz site_cat q a = Some q'.

Lemma relab_cmd m t c rho kap : c <> Ret -> add t (busy m) = busy m -> relab (set_cmd m t c) rho kap = relab m rho kap.
Proof. intros N B. unfold relab, set_cmd. destruct c; [easy|]. rewrite B. reflexivity. Qed.

Section Steps.
  Variables cap csz : N.
  Variable site_cat : nat -> bytes.
  Notation qstep1 := (ql_step cap csz site_cat).
  Notation follows := (follows cap csz site_cat).

  (** A plain step of the other log. *)
  Lemma other_step q rho kap t a k s' r : bad (ql_log q) = false -> kap t = Act a k -> is_queue (ql_log q) a = false ->
    forall ch, exec cap (relab (ql_log q) rho kap) t ch a = Next s' r -> nbuf s' = nbuf (ql_log q) ->
    qstep1 (relabq q rho kap) (Step t ch, false) = Some {| ql_log := set_cmd s' t (k r); ql_q := ql_q q |}.
  Proof.
    intros B K Q ch E Nb. assert (P : ql_plain cap csz site_cat (relabq q rho kap) (Step t ch) = Some {| ql_log := set_cmd s' t (k r); ql_q := ql_q q |}).
    { unfold ql_plain, step. cbn [relabq ql_log]. change (bad (relab (ql_log q) rho kap)) with (bad (ql_log q)). rewrite B.
      change (code (relab (ql_log q) rho kap) t) with (kap t). rewrite K, E. cbn [set_cmd set_busy set_code nbuf].
      change (nbuf (relab (ql_log q) rho kap)) with (nbuf (ql_log q)). now rewrite Nb, Nat.eqb_refl. }
    unfold ql_step. cbn [fst snd relabq ql_log]. change (bad (relab (ql_log q) rho kap)) with (bad (ql_log q)). rewrite B.
    cbn [polite]. change (code (relab (ql_log q) rho kap) t) with (kap t). rewrite K. fold (relabq q rho kap).
    destruct a; auto; cbn in Q; try discriminate. change (heap (relab (ql_log q) rho kap)) with (heap (ql_log q)). destruct (b_kind _); [auto|discriminate].
  Qed.

  Lemma look_step q rho kap t cat k i rho' : bad (ql_log q) = false -> kap t = Act (AGetStatus cat) k -> getStatus rho cat = (i, rho') ->
    qstep1 (relabq q rho kap) (Step t CNone, false) =
    Some (relabq {| ql_log := set_cmd (emit (ql_log q) (Looked t cat i)) t (k i); ql_q := ql_q q |} rho' (tset kap t (k i))).
  Proof.
    intros B K G. erewrite (other_step q rho kap t _ k _ _ B K eq_refl CNone);
      [|cbn [exec]; change (reg (relab (ql_log q) rho kap)) with rho; rewrite G; reflexivity|]; reflexivity.
  Qed.

  Section At.
    Variables (c : rlog) (rho : registry) (kap : tid -> cmd).
    Hypothesis S : rsim c rho kap.
    Hypothesis K : known (relab (rl_log c) rho kap).

    Let r := rl_reg c.
    Let l := rl_log c.

    Let I : rinv r := rs_inv _ _ _ S.
    Let B : bad l = false := kn_bad _ K.
    Let Rk : rok rho := kn_rok _ K.

    Lemma names_abs i : i < cr_count r -> cr_groups r i = Some (rg_groups rho i).
    Proof. apply S. Qed.

    Lemma found_abs i name : i < cr_count r -> cr_groups r i = Some name -> rg_groups rho i = name.
    Proof. intros Hi E. rewrite (names_abs i Hi) in E. congruence. Qed.

    Lemma absent_abs name : absent r name (cr_count r) -> forall i, i < rg_count rho -> rg_groups rho i <> name.
    Proof. intros A i Hi E. rewrite (rs_count _ _ _ S) in Hi. fold r in Hi. apply (A i Hi). rewrite (names_abs i Hi). congruence. Qed.

    (** While a lookup holds the mutex nobody switches. *)
    Lemma calm_now t : RegistryConc.locked (cr_pc r t) = true -> switching (cr_pc r t) = false ->
      (forall u, switching (cr_pc r u) = false) /\ (forall u, switching_off (cr_pc r u) = false) /\
      (rg_enabled rho, rg_disabled rho) = (cr_enabled r, cr_disabled r) /\ (forall i, i < cr_count r -> cr_status r i = rg_status rho i).
    Proof.
      intros L W. assert (A : forall u, switching (cr_pc r u) = false) by (apply (all_calm r t I); auto; apply (others_out r t I L)).
      assert (O : forall u, switching_off (cr_pc r u) = false).
      { intros u. specialize (A u). destruct (cr_pc r u) as [| | | | | | | | | | | | |[|]|[|]|[|]|]; auto; discriminate. }
      split; auto. split; auto. split; [now apply (rs_lists _ _ _ S)|].
      intros i Hi. destruct (rs_loose _ _ _ S i Hi) as [X|(_ & u & X)]; auto. fold r in X. now rewrite A in X.
    Qed.

    Lemma look_sim t cat k c' : code l t = Act (AGetStatus cat) k -> rl_look c t cat k = Some c' ->
      exists rho' kap', follows (relabq (rl_q c) rho kap) (relabq (rl_q c') rho' kap') /\ rsim c' rho' kap'.
    Proof.
      intros Ec E. pose proof (rs_in _ _ _ S t) as Is. fold l in Is. rewrite Ec in Is.
      pose proof (rs_code _ _ _ S t) as Ah. fold l r in Ah. rewrite Ec in Ah. cbn [ahead_r] in Ah.
      pose proof (rs_goes _ _ _ S t) as Go. fold l in Go. rewrite Ec in Go. cbn [goes_on] in Go. destruct Go as (NR & Go).
      unfold rl_look in E. fold r l in E, Is. pose proof (r_pcs _ I t) as Pk.
      destruct (rstep r _) as [r'|] eqn:Er; [|discriminate]. injection E as <-.
      assert (I' : rinv r') by (eapply rinv_step; eauto).
      assert (Stay : forall a p e, rstep r a = Some r' -> r' = at_pc r t p e -> cr_pc r t <> p ->
        ahead_r p (code l t) (kap t) -> inside_r (code l t) p ->
        switching p = switching (cr_pc r t) -> switching_off p = switching_off (cr_pc r t) -> rsim (rl_put c l r') rho kap).
      { intros a p e Ea -> _ A1 A2 A3 A4. apply (rsim_quiet c rho kap t a); auto; rewrite ?at_pc_same; auto.
        intros u Hu. now apply at_pc_other. }
      assert (NoC : cr_pc r' t <> GCrash) by (intros X; pose proof (r_pcs _ I' t) as Y; now rewrite X in Y).
      assert (Insd : exists cat0 k0, code l t = Act (AGetStatus cat0) k0 /\ c_str cat = c_str cat0) by (exists cat, k; auto).
      assert (Same : rsim (rl_put c l r') rho kap ->
        exists rho' kap', follows (relabq (rl_q c) rho kap) (relabq (rl_q (rl_put c l r')) rho' kap') /\ rsim (rl_put c l r') rho' kap').
      { intros X. exists rho, kap. split; [now left|exact X]. }
      (* the answer is settled while the mutex is held *)
      assert (Settle : forall a i rho', rstep r a = Some r' -> getStatus rho cat = (i, rho') -> kap t = Act (AGetStatus cat) k ->
        cr_pc r' t = LRet (c_str cat) i -> (forall u, u <> t -> cr_pc r' u = cr_pc r u) ->
        rg_count rho' = cr_count r' -> (forall j, j < cr_count r' -> cr_groups r' j = Some (rg_groups rho' j)) ->
        (rg_enabled rho', rg_disabled rho') = (cr_enabled r', cr_disabled r') -> (forall j, j < cr_count r' -> cr_status r' j = rg_status rho' j) ->
        exists rho' kap', follows (relabq (rl_q c) rho kap) (relabq (rl_q (rl_put c (emit l (Looked t cat i)) r')) rho' kap') /\
          rsim (rl_put c (emit l (Looked t cat i)) r') rho' kap').
      { intros a i rho' Ea G Kt Pt Po Cn Gr Ls St. exists rho', (tset kap t (k i)). split.
        - right. exists (Step t CNone, false). rewrite (look_step _ _ _ _ _ _ _ _ B Kt G). f_equal. unfold relabq. cbn [ql_log ql_q rl_put rl_q]. f_equal.
          rewrite relab_cmd; [reflexivity|apply NR|]. cbn. apply (kn_busy _ K). cbn. rewrite Kt. discriminate.
        - apply (rsim_move c rho kap t a); auto; cbn; auto.
          + intros u Hu. rewrite tset_other; auto.
          + rewrite tset_same, Pt. fold l. rewrite Ec. reflexivity.
          + fold l. rewrite Pt. exact Insd.
          + apply S.
          + rewrite Pt. discriminate. }
      destruct (cr_pc r t) as [|nm|nm i n|nm|nm|nm i n|nm i|nm i|nm i|nm i|nm i|x|x|x|x i n|x|] eqn:Pc; cbn [inside_r] in Is; cbn [rstep] in Er; rewrite ?Pc in Er;
        try (destruct x as [[en dis]|]; destruct Is as (k' & Is); discriminate); try contradiction;
        try (destruct Is as (cat' & k' & Is & Nm); injection Is as <- _; subst nm).
      - (* CallGet *) injection Er as <-. rewrite at_pc_same. apply Same. eapply (Stay (CallGet t cat)); [cbn [rstep]; now rewrite Pc|reflexivity|discriminate|..]; auto; fold l; rewrite Ec; cbn; eauto.
      - (* GCount *) injection Er as <-. rewrite at_pc_same. apply Same. eapply (Stay (RGo t)); [cbn [rstep]; now rewrite Pc|reflexivity|discriminate|..]; auto; fold l; rewrite Ec; cbn; eauto.
      - (* GScan *) cbn in Pk. destruct Pk as (Pl & Hn). destruct (Nat.ltb_spec i n) as [Hi|Hi].
        + destruct (cr_groups r i) as [g|] eqn:Eg; [|injection Er as <-; destruct NoC; apply at_pc_same].
          destruct (r_names _ I i ltac:(lia)) as (g' & Eg' & Pg). rewrite Eg in Eg'. injection Eg' as <-.
          destruct (same_name g (c_str cat)) eqn:Sn; injection Er as <-; rewrite at_pc_same in *.
          * apply same_name_eq in Sn; auto. subst g.
            exists rho, (tset kap t (k i)). split.
            -- right. exists (Step t CNone, false). rewrite (look_step _ _ _ _ _ _ i rho B Ah); [reflexivity|].
               apply get_found; auto; [rewrite (rs_count _ _ _ S); fold r; lia|]. apply found_abs; auto. lia.
            -- eapply (rsim_move c rho kap t (RGo t)); eauto.
               ++ cbn [rstep]. fold r. rewrite Pc. apply Nat.ltb_lt in Hi as ->. rewrite Eg. unfold same_name. rewrite (c_str_idem cat). rewrite (proj2 (bytes_eqb_eq _ _) eq_refl). reflexivity.
               ++ intros u Hu. now apply at_pc_other.
               ++ intros u Hu. cbn. now rewrite !tset_other.
               ++ cbn. rewrite !tset_same. destruct (k i) as [|a1 k1]; [reflexivity|]. destruct a1; reflexivity.
               ++ cbn. now rewrite !tset_same.
               ++ cbn. rewrite !tset_same. apply Go.
               ++ apply S.
               ++ apply S.
               ++ intros H. apply S. intros u. fold r. specialize (H u). destruct (Nat.eq_dec u t) as [->|N]; [now rewrite Pc|now rewrite at_pc_other in H].
               ++ intros j Hj. destruct (rs_loose _ _ _ S j Hj) as [X|(X & u & Y)]; auto. right. split; auto. exists u. fold r in Y.
                  destruct (Nat.eq_dec u t) as [->|N]; [now rewrite Pc in Y|now rewrite at_pc_other].
               ++ rewrite at_pc_same. discriminate.
          * apply Same. eapply (Stay (RGo t)); [cbn [rstep]; rewrite Pc; apply Nat.ltb_lt in Hi as ->; now rewrite Eg, Sn|reflexivity|intros X; injection X; lia|..]; auto; fold l; rewrite Ec; cbn; eauto.
        + injection Er as <-. rewrite at_pc_same in *. apply Same. eapply (Stay (RGo t)); [cbn [rstep]; rewrite Pc; apply Nat.ltb_ge in Hi as ->; reflexivity|reflexivity|discriminate|..]; auto; fold l; rewrite Ec; cbn; eauto.
      - (* GLock *) destruct (cr_mutex r) eqn:Mx; [discriminate|]. injection Er as <-. rewrite at_pc_same in *. apply Same.
        apply (rsim_quiet c rho kap t (RGo t)); fold r; fold l; rewrite ?at_pc_same, ?Pc, ?Ec; auto; cbn; eauto.
        + now rewrite Pc, Mx.
        + intros u Hu. now rewrite tset_other.
      - (* LCount *) injection Er as <-. rewrite at_pc_same in *. apply Same. eapply (Stay (RGo t)); [cbn [rstep]; now rewrite Pc|reflexivity|discriminate|..]; auto; fold l; rewrite Ec; cbn; eauto.
      - (* LScan *) cbn [pc_ok] in Pk. destruct Pk as (Pl & Hn & Hin & Ab).
        destruct (calm_now t) as (Sw & So & Ls & St); [now rewrite Pc|now rewrite Pc|].
        destruct (Nat.ltb_spec i n) as [Hi|Hi].
        + destruct (cr_groups r i) as [g|] eqn:Eg; [|injection Er as <-; destruct NoC; apply at_pc_same].
          destruct (r_names _ I i ltac:(lia)) as (g' & Eg' & Pg). rewrite Eg in Eg'. injection Eg' as <-.
          destruct (same_name g (c_str cat)) eqn:Sn; injection Er as <-; rewrite at_pc_same in *.
          * pose proof Sn as Sn'. apply same_name_eq in Sn'; auto. subst g. apply (Settle (RGo t) i rho); auto; try apply S.
            -- cbn [rstep]. rewrite Pc. apply Nat.ltb_lt in Hi as ->. now rewrite Eg, Sn.
            -- apply get_found; auto; [rewrite (rs_count _ _ _ S); fold r; lia|]. apply found_abs; auto. lia.
            -- intros u Hu. now apply at_pc_other.
          * apply Same. eapply (Stay (RGo t)); [cbn [rstep]; rewrite Pc; apply Nat.ltb_lt in Hi as ->; now rewrite Eg, Sn|reflexivity|intros X; injection X; lia|..]; auto; fold l; rewrite Ec; cbn; eauto.
        + assert (Ab' : absent r (c_str cat) (cr_count r)) by (intros j Hj; apply Ab; lia).
          assert (Ge : (i <? n) = false) by now apply Nat.ltb_ge.
          destruct (n <? registry_size) eqn:Hs; injection Er as <-; rewrite at_pc_same in *.
          * apply Same. eapply (Stay (RGo t)); [cbn [rstep]; rewrite Pc, Ge, Hs; reflexivity|reflexivity|discriminate|..]; auto; fold l; rewrite Ec; cbn; eauto.
          * apply (Settle (RGo t) index_category_limit rho); auto; try apply S.
            -- cbn [rstep]. rewrite Pc, Ge, Hs. reflexivity.
            -- rewrite get_absent; auto; [|now apply absent_abs]. rewrite (rs_count _ _ _ S). fold r. rewrite <- Hn, Hs. reflexivity.
            -- intros u Hu. now apply at_pc_other.
      - (* WBegin *) cbn [pc_ok] in Pk. injection Er as <-. rewrite at_pc_same in *. apply Same.
        apply (rsim_quiet c rho kap t (RGo t)); fold r; fold l; rewrite ?at_pc_same, ?Pc, ?Ec; auto; cbn; eauto.
        + now rewrite Pc.
        + intros u Hu. now rewrite tset_other.
        + intros j Hj. split; auto. apply updn_other. lia.
      - (* WEnd *) cbn [pc_ok] in Pk. injection Er as <-. rewrite at_pc_same in *. apply Same.
        apply (rsim_quiet c rho kap t (RGo t)); fold r; fold l; rewrite ?at_pc_same, ?Pc, ?Ec; auto; cbn; eauto.
        + now rewrite Pc.
        + intros u Hu. now rewrite tset_other.
        + intros j Hj. split; auto. apply updn_other. lia.
      - (* WStat *) cbn [pc_ok] in Pk. destruct Pk as (Pl & Hi & _ & _ & Eg). rewrite Eg in Er. injection Er as <-. rewrite at_pc_same in *. apply Same.
        apply (rsim_quiet c rho kap t (RGo t)); fold r; fold l; rewrite ?at_pc_same, ?Pc, ?Ec; auto; cbn; eauto.
        + now rewrite Pc, Eg.
        + intros u Hu. now rewrite tset_other.
        + intros j Hj. split; auto. apply updn_other. lia.
      - (* WInc *) cbn [pc_ok] in Pk. destruct Pk as (Pl & Hi & Lim & Ab & Eg & Rs). subst i.
        destruct (calm_now t) as (Sw & So & Ls & St); [now rewrite Pc|now rewrite Pc|].
        injection Er as <-. rewrite at_pc_same in *. injection Ls as L1 L2.
        eapply (Settle (RGo t) (cr_count r)); auto.
        + cbn [rstep]. now rewrite Pc.
        + rewrite get_absent; auto; [|now apply absent_abs]. rewrite (rs_count _ _ _ S). fold r. apply Nat.ltb_lt in Lim as Lim'. change registry_size with 250. rewrite Lim'. reflexivity.
        + intros u Hu. now rewrite at_pc_other.
        + cbn. reflexivity.
        + intros j Hj. cbn in Hj |- *. destruct (Nat.eq_dec j (cr_count r)) as [->|N]; [now rewrite updn_same|]. rewrite updn_other by auto. apply names_abs. lia.
        + cbn. congruence.
        + intros j Hj. cbn in Hj |- *. destruct (Nat.eq_dec j (cr_count r)) as [->|N].
          * rewrite updn_same, (Rs _ Eg). congruence.
          * rewrite updn_other by auto. apply St. lia.
      - (* LRet *) injection Er as <-. rewrite at_pc_same in *. exists rho, kap.
        destruct (calm_now t) as (Sw & So & Ls & St); [now rewrite Pc|now rewrite Pc|].
        split.
        + left. unfold relabq. cbn [rl_put rl_q ql_log ql_q]. f_equal. change (relab (set_reg (set_cmd l t (k i)) (seen (at_pc (with_mutex r None) t GIdle [CategoryHistory.Given t (c_str cat) i]))) rho kap) with (relab (set_cmd l t (k i)) rho kap).
          apply relab_cmd; [apply NR|]. apply (kn_busy _ K). cbn. rewrite Ah. apply NR.
        + eapply (rsim_move c rho kap t (RGo t)); eauto; fold r; fold l.
          * cbn [rstep]. now rewrite Pc.
          * intros u Hu. cbn. now rewrite tset_other.
          * intros u Hu. cbn. now rewrite tset_other.
          * cbn. rewrite !tset_same, Ah. destruct (k i) as [|a1 k1]; [reflexivity|]. destruct a1; reflexivity.
          * cbn. now rewrite !tset_same.
          * cbn. rewrite !tset_same. apply Go.
          * apply S.
          * apply S.
          * cbn. rewrite tset_same. discriminate.
    Qed.
    (** The statuses that were computed from the lists. *)
    Lemma right_abs i : i < cr_count r -> right_status r i -> (rg_enabled rho, rg_disabled rho) = (cr_enabled r, cr_disabled r) -> cr_status r i = rg_status rho i.
    Proof.
      intros Hi Rs Ls. injection Ls as L1 L2. rewrite (Rs _ (names_abs i Hi)), (rk_stat _ Rk), L1, L2; auto. now rewrite (rs_count _ _ _ S).
    Qed.

    Lemma own_off t : RegistryConc.locked (cr_pc r t) = true -> switching_off (cr_pc r t) = false -> forall u, switching_off (cr_pc r u) = false.
    Proof.
      intros L W u. destruct (Nat.eq_dec u t) as [->|N]; auto. pose proof (others_out r t I L u N) as O.
      destruct (cr_pc r u) as [| | | | | | | | | | | | |[|]|[|]|[|]|]; auto; discriminate.
    Qed.

    Lemma switch_sim t x (k : unit -> cmd) c' : (match x with Some (en, dis) => code l t = Act (AUpdate en dis) k | None => code l t = Act ADisableAll k end) ->
      rl_switch c t x k = Some c' ->
      exists rho' kap', follows (relabq (rl_q c) rho kap) (relabq (rl_q c') rho' kap') /\ rsim c' rho' kap'.
    Proof.
      intros Ec E. pose proof (rs_in _ _ _ S t) as Is. fold l r in Is.
      pose proof (rs_code _ _ _ S t) as Ah. fold l r in Ah.
      pose proof (rs_goes _ _ _ S t) as Go. fold l in Go.
      assert (Goes : k tt <> Ret /\ goes_on (k tt)) by (destruct x as [[en dis]|]; rewrite Ec in Go; cbn [goes_on] in Go; split; apply Go). clear Go. destruct Goes as (NR & Go).
      unfold rl_switch in E. fold r l in E. pose proof (r_pcs _ I t) as Pk.
      destruct (rstep r _) as [r'|] eqn:Er; [|discriminate]. injection E as <-.
      assert (I' : rinv r') by (eapply rinv_step; eauto).
      assert (NoC : cr_pc r' t <> GCrash) by (intros X; pose proof (r_pcs _ I' t) as Y; now rewrite X in Y).
      assert (Same : rsim (rl_put c l r') rho kap ->
        exists rho' kap', follows (relabq (rl_q c) rho kap) (relabq (rl_q (rl_put c l r')) rho' kap') /\ rsim (rl_put c l r') rho' kap').
      { intros X. exists rho, kap. split; [now left|exact X]. }
      assert (In : forall p, (p = ULock x \/ p = UList x \/ p = UCount x \/ (exists i n, p = UStore x i n) \/ p = URet x) -> inside_r (code l t) p).
      { intros p Hp. destruct x as [[en dis]|]; destruct Hp as [->|[->|[->|[(i & n & ->)| ->]]]]; cbn; eauto. }
      assert (Wait : forall p, (p = GIdle \/ p = ULock x \/ p = UList x) -> kap t = code l t -> ahead_r p (code l t) (kap t)).
      { intros p Hp ->. destruct x as [[en dis]|]; rewrite Ec; cbn; auto. destruct Hp as [->|[->| ->]]; auto. }
      assert (Early : (forall y, cr_pc r t <> UCount y) -> (forall y i n, cr_pc r t <> UStore y i n) -> (forall y, cr_pc r t <> URet y) -> kap t = code l t).
      { intros N1 N2 N3. destruct x as [[en dis]|]; rewrite Ec in *; cbn [ahead_r] in Ah; auto. destruct (cr_pc r t); auto; exfalso; [eapply N1|eapply N2|eapply N3]; reflexivity. }
      assert (Late : forall p, (p = UCount x \/ (exists i n, p = UStore x i n) \/ p = URet x) -> cr_pc r t = p -> forall p', (p' = UCount x \/ (exists i n, p' = UStore x i n) \/ p' = URet x) -> ahead_r p' (code l t) (kap t)).
      { intros p Hp Pc p' Hp'. rewrite Pc in Ah. destruct x as [[en dis]|]; rewrite Ec in *; cbn [ahead_r] in *; auto.
        destruct Hp as [->|[(i & n & ->)| ->]]; destruct Hp' as [->|[(i' & n' & ->)| ->]]; auto. }
      destruct (cr_pc r t) as [|nm|nm i n|nm|nm|nm i n|nm i|nm i|nm i|nm i|nm i|y|y|y|y i n|y|] eqn:Pc; cbn [inside_r] in Is; cbn [rstep] in Er; rewrite ?Pc in Er;
        try (destruct Is as (cat' & k' & Is & Nm); destruct x as [[en dis]|]; congruence); try contradiction;
        try (assert (y = x) by (destruct x as [[en dis]|], y as [[en' dis']|]; destruct Is as (k' & Is); rewrite Ec in Is; congruence); subst y); clear Is.
      - (* CallSwitch *) injection Er as <-. rewrite at_pc_same in *. apply Same.
        apply (rsim_quiet c rho kap t (CallSwitch t x)); fold r; fold l; rewrite ?at_pc_same, ?Pc; auto.
        + cbn [rstep]. now rewrite Pc.
        + intros u Hu. now apply at_pc_other.
      - (* ULock *) destruct (cr_mutex r) eqn:Mx; [discriminate|]. injection Er as <-. rewrite at_pc_same in *. apply Same.
        apply (rsim_quiet c rho kap t (RGo t)); fold r; fold l; rewrite ?at_pc_same, ?Pc; auto.
        + cbn [rstep]. now rewrite Pc, Mx.
        + intros u Hu. now rewrite at_pc_other.
      - (* UList *) injection Er as <-. rewrite at_pc_same in *.
        destruct (calm_now t) as (Sw & So & Ls & St); [now rewrite Pc|now rewrite Pc|].
        assert (Kt : kap t = code l t) by (apply Early; discriminate).
        assert (Stp : rstep r (RGo t) = Some (at_pc (with_lists r (stored_lists x)) t (UCount x) [])) by (cbn [rstep]; now rewrite Pc).
        destruct x as [[en dis]|].
        + rewrite Ec in Kt. destruct (kn_upd _ K t en dis k Kt) as (M & En & Of). cbn in M, En. change (reg (relab (rl_log c) rho kap)) with rho in Of.
          exists (updateEnabled rho en dis), (tset kap t (k tt)). split.
          * right. exists (Step t CNone, false). erewrite (other_step (rl_q c) rho kap t (AUpdate en dis) k _ tt B Kt eq_refl CNone); [|cbn [exec]; reflexivity|reflexivity].
            f_equal. unfold relabq. cbn [rl_put rl_q ql_log ql_q]. f_equal.
            change (relab (set_cmd l t (k tt)) (updateEnabled rho en dis) (tset kap t (k tt)) = relab l (updateEnabled rho en dis) (tset kap t (k tt))).
            apply relab_cmd; auto. apply (kn_busy _ K). cbn. rewrite Kt. discriminate.
          * apply (rsim_move c rho kap t (RGo t)); fold r; fold l; rewrite ?at_pc_same; auto.
            -- intros u Hu. now rewrite at_pc_other.
            -- intros u Hu. now rewrite tset_other.
            -- rewrite tset_same, Ec. reflexivity.
            -- apply S.
            -- cbn. apply S.
            -- cbn. apply S.
            -- intros i Hi. cbn in Hi. cbn [updateEnabled rg_status]. rewrite (rs_count _ _ _ S). fold r. pose proof Hi as Hi'. apply Nat.ltb_lt in Hi' as ->.
               cbn [at_pc with_lists cr_status]. rewrite (St i Hi), (rk_stat _ Rk) by now rewrite (rs_count _ _ _ S).
               destruct Of as [Of|Of].
               ++ right. split; [apply Of|]. exists t. now rewrite at_pc_same.
               ++ left. injection Of as -> ->. reflexivity.
        + rewrite Ec in Kt. destruct (kn_off _ K t k Kt) as (M & En). cbn in M, En. apply Same.
          apply (rsim_move c rho kap t (RGo t)); fold r; fold l; rewrite ?at_pc_same; auto.
          * intros u Hu. now rewrite at_pc_other.
          * rewrite Ec. cbn. now rewrite Kt.
          * apply S.
          * cbn. apply S.
          * cbn. apply S.
          * intros X. specialize (X t). rewrite at_pc_same in X. discriminate.
          * intros i Hi. left. now apply St.
      - (* UCount *) injection Er as <-. rewrite at_pc_same in *. apply Same.
        apply (rsim_quiet c rho kap t (RGo t)); fold r; fold l; rewrite ?at_pc_same, ?Pc; auto.
        + cbn [rstep]. now rewrite Pc.
        + intros u Hu. now apply at_pc_other.
        + apply In. do 3 right. left. eauto.
      - (* UStore *) cbn [pc_ok] in Pk. destruct Pk as (Lr & Hn & Hin & Rs).
        destruct (rs_hold _ _ _ S t) as (M & En); [fold r; now rewrite Pc|].
        destruct (Nat.ltb_spec i n) as [Hi|Hi].
        + assert (Lt : (i <? n) = true) by now apply Nat.ltb_lt.
          destruct x as [[en dis]|].
          * destruct (cr_groups r i) as [g|] eqn:Eg; [|injection Er as <-; destruct NoC; apply at_pc_same].
            injection Er as <-. rewrite at_pc_same in *. apply Same.
            assert (So : forall u, switching_off (cr_pc r u) = false) by (apply (own_off t); now rewrite Pc).
            apply (rsim_move c rho kap t (RGo t)); fold r; fold l; rewrite ?at_pc_same; auto; try apply S.
            -- cbn [rstep]. now rewrite Pc, Lt, Eg.
            -- intros u Hu. now rewrite at_pc_other.
            -- apply In. do 3 right. left. eauto.
            -- intros _. now apply (rs_lists _ _ _ S).
            -- intros j Hj. cbn in Hj. cbn [at_pc with_status cr_status]. destruct (Nat.eq_dec j i) as [->|N].
               ++ rewrite updn_same. left. pose proof (rs_lists _ _ _ S So) as X. fold r in X. injection X as X1 X2.
                  rewrite (rk_stat _ Rk) by (rewrite (rs_count _ _ _ S); exact Hj). rewrite X1, X2. now rewrite (found_abs _ _ Hj Eg).
               ++ rewrite updn_other by auto. destruct (rs_loose _ _ _ S j Hj) as [X|(X & _)]; [left; exact X|right; split; [exact X|]]. exists t. now rewrite at_pc_same.
          * injection Er as <-. rewrite at_pc_same in *. apply Same.
            apply (rsim_move c rho kap t (RGo t)); fold r; fold l; rewrite ?at_pc_same; auto; try apply S.
            -- cbn [rstep]. now rewrite Pc, Lt.
            -- intros u Hu. now rewrite at_pc_other.
            -- apply In. do 3 right. left. eauto.
            -- intros X. specialize (X t). rewrite at_pc_same in X. discriminate.
            -- intros j Hj. cbn in Hj. cbn [at_pc with_status cr_status]. destruct (Nat.eq_dec j i) as [->|N].
               ++ rewrite updn_same. right. split; auto. exists t. now rewrite at_pc_same.
               ++ rewrite updn_other by auto. destruct (rs_loose _ _ _ S j Hj) as [X|(X & _)]; [left; exact X|right; split; [exact X|]]. exists t. now rewrite at_pc_same.
        + assert (Ge : (i <? n) = false) by now apply Nat.ltb_ge. injection Er as <-. rewrite at_pc_same in *. apply Same.
          apply (rsim_quiet c rho kap t (RGo t)); fold r; fold l; rewrite ?at_pc_same, ?Pc; auto.
          * cbn [rstep]. now rewrite Pc, Ge.
          * intros u Hu. now apply at_pc_other.
          * apply In. auto 6.
      - (* URet *) cbn [pc_ok] in Pk. destruct Pk as (Lr & Rs). injection Er as <-. rewrite at_pc_same in *.
        assert (Stp : rstep r (RGo t) = Some (at_pc (with_mutex r None) t GIdle [CategoryHistory.Switched t x])) by (cbn [rstep]; now rewrite Pc).
        destruct x as [[en dis]|].
        + assert (So : forall u, switching_off (cr_pc r u) = false) by (apply (own_off t); now rewrite Pc).
          pose proof (rs_lists _ _ _ S So) as Ls. fold r in Ls.
          exists rho, kap. rewrite Ec in Ah. cbn [ahead_r] in Ah. split.
          * left. unfold relabq. cbn [rl_put rl_q ql_log ql_q]. f_equal.
            change (relab (set_cmd l t (k tt)) rho kap = relab l rho kap). apply relab_cmd; auto. apply (kn_busy _ K). cbn. now rewrite Ah.
          * apply (rsim_move c rho kap t (RGo t)); fold r; fold l; rewrite ?at_pc_same; auto; try apply S.
            -- intros u Hu. now rewrite at_pc_other.
            -- intros u Hu. cbn. now rewrite tset_other.
            -- cbn. rewrite tset_same, Ah. destruct (k tt) as [|a1 k1]; [reflexivity|]. destruct a1; reflexivity.
            -- exact Logic.I.
            -- cbn. now rewrite tset_same.
            -- intros j Hj. left. apply right_abs; auto.
            -- discriminate.
        + rewrite Ec in Ah. cbn [ahead_r] in Ah.
          exists (disableAll rho), (tset kap t (k tt)). split.
          * right. exists (Step t CNone, false). erewrite (other_step (rl_q c) rho kap t ADisableAll k _ tt B Ah eq_refl CNone); [|cbn [exec]; reflexivity|reflexivity]. reflexivity.
          * cbn in Lr. injection Lr as L1 L2. apply (rsim_move c rho kap t (RGo t)); fold r; fold l; rewrite ?at_pc_same; auto; try apply S.
            -- intros u Hu. now rewrite at_pc_other.
            -- intros u Hu. cbn. now rewrite !tset_other.
            -- cbn. rewrite !tset_same. destruct (k tt) as [|a1 k1]; [reflexivity|]. destruct a1; reflexivity.
            -- exact Logic.I.
            -- cbn. now rewrite tset_same.
            -- cbn. now rewrite L1, L2.
            -- intros j Hj. left. cbn in Hj. cbn [disableAll rg_status]. rewrite (rs_count _ _ _ S). fold r. pose proof Hj as Hj'. apply Nat.ltb_lt in Hj' as ->.
               cbn. rewrite (Rs j Hj _ (names_abs j Hj)), L1, L2. apply all_off.
            -- discriminate.
    Qed.

    Definition reg_cmd (x : cmd) : bool := match x with Act a _ => is_reg a | Ret => false end.

    (** A thread that is not at a registry operation. *)
    Lemma not_inside_r t : match code l t with Act (AStatus _) _ => True | _ => reg_cmd (code l t) = false end -> cr_pc r t = GIdle /\ kap t = code l t.
    Proof.
      intros H. assert (P : cr_pc r t = GIdle).
      { pose proof (rs_in _ _ _ S t) as Is. fold l r in Is. destruct (cr_pc r t); auto; cbn [inside_r] in Is; try contradiction Is; exfalso;
          try (destruct Is as (? & ? & Is & _); rewrite Is in H; cbn in H; discriminate H);
          match type of Is with match ?o with _ => _ end => destruct o as [[? ?]|]; destruct Is as (? & Is); rewrite Is in H; cbn in H; discriminate H end. }
      split; auto. pose proof (rs_code _ _ _ S t) as Ah. fold l r in Ah. rewrite P in Ah. destruct (code l t) as [|a k]; auto. destruct a; auto.
    Qed.

    Lemma ahead_idle x : ahead_r GIdle x x.
    Proof. destruct x as [|a k]; cbn; auto. destruct a; auto. Qed.

    (** Nobody but its holder releases the lock, and nobody else turns tracing on or off. *)
    Lemma exec_lock u t ch a k m x : kap u = Act a k -> mtx l = Some t -> u <> t -> exec cap l u ch a = Next m x -> mtx m = Some t /\ enabled m = enabled l.
    Proof.
      intros Ku M N E.
      assert (X1 : forall w, a <> AXchg w).
      { intros w ->. pose proof (kn_xchg _ K u w k Ku) as X. cbn in X. change (rl_log c) with l in X. congruence. }
      assert (X2 : forall g w, a <> AStEnabled g w).
      { intros g w ->. pose proof (kn_on _ K u g w k Ku) as X. cbn in X. change (rl_log c) with l in X. congruence. }
      destruct a; try (exfalso; eapply X1; reflexivity); try (exfalso; eapply X2; reflexivity); clear X1 X2;
        cbn [exec] in E; unfold exec_factory, with_buf, owns in E; rewrite ?M in E;
        repeat match type of E with context [match ?y with _ => _ end] => destruct y eqn:? end; try discriminate E; injection E as <- _;
        unfold free_buf, give_buf; try (destruct (bufp l)); auto.
      all: exfalso; apply N; symmetry; now apply Nat.eqb_eq.
    Qed.

    Lemma ql_lock x sp q' t : ql_step cap csz site_cat (rl_q c) (x, sp) = Some q' -> kap (who x) = code l (who x) -> mtx l = Some t -> who x <> t ->
      mtx (ql_log q') = Some t /\ enabled (ql_log q') = enabled l.
    Proof.
      intros E Kw M N. unfold ql_step in E. cbn [fst snd] in E. change (ql_log (rl_q c)) with l in E. rewrite B in E. destruct (polite l x); [|discriminate].
      assert (Pl : ql_plain cap csz site_cat (rl_q c) x = Some q' -> mtx (ql_log q') = Some t /\ enabled (ql_log q') = enabled l).
      { unfold ql_plain. change (ql_log (rl_q c)) with l. destruct (step cap csz site_cat l x) as [m|] eqn:Es; [|discriminate]. intros Y. injection Y as <-. cbn [ql_log].
        unfold step in Es. rewrite B in Es. destruct x as [u o|u ch|u h|u y]; cbn [who] in *.
        - destruct (code l u); [|discriminate]. destruct (closing l); [discriminate|]. destruct (is_destroy o); [destruct (is_nil (busy l)); [|discriminate]|]; injection Es as <-; auto.
        - destruct (code l u) as [|a k] eqn:Ec; [discriminate|]. destruct (exec cap l u ch a) as [| |m' y] eqn:Ex; [discriminate|injection Es as <-; auto|].
          injection Es as <-. cbn. eapply exec_lock; eauto.
        - destruct (hook_of (code l u)); [|discriminate]. injection Es as <-. auto.
        - destruct (hook_of (code l u)) as [[? ?]|]; [|discriminate]. injection Es as <-. auto. }
      assert (Qs : forall u b a0 o, ql_queue (rl_q c) u b a0 o = Some q' -> mtx (ql_log q') = Some t /\ enabled (ql_log q') = enabled l).
      { intros u b a0 o. unfold ql_queue. destruct (qstep _ a0); [|discriminate]. intros Y. injection Y as <-. destruct o; auto. }
      assert (Cr : Some (ql_crash (rl_q c)) = Some q' -> mtx (ql_log q') = Some t /\ enabled (ql_log q') = enabled l) by (intros Y; injection Y as <-; auto).
      destruct x as [u o|u ch|u h|u y]; auto. destruct (code l u) as [|a k]; [discriminate|]. destruct a; auto.
      - unfold ql_take in E. destruct (ring_there _ b); auto. destruct (cq_pc _ u) as [| | | | | | | | | |? ? [|]]; eauto.
      - destruct (b_kind _); auto. unfold ql_put in E. destruct (_ && _)%bool; auto. destruct (cq_pc _ u); eauto.
    Qed.

    Lemma ql_goes x sp q' : ql_step cap csz site_cat (rl_q c) (x, sp) = Some q' -> goes_on (code l (who x)) -> goes_on (code (ql_log q') (who x)).
    Proof.
      intros E G. unfold ql_step in E. cbn [fst snd] in E. change (ql_log (rl_q c)) with l in E. rewrite B in E. destruct (polite l x); [|discriminate].
      assert (Hk : forall u h k, hook_of (code l u) = Some (h, k) -> goes_on (code l u) -> forall y, goes_on (k y)).
      { intros u h k. destruct (code l u) as [|a k0]; [discriminate|]. destruct a; try discriminate. cbn. intros Y. injection Y as _ <-. intros [_ Y]. exact Y. }
      assert (Pl : ql_plain cap csz site_cat (rl_q c) x = Some q' -> goes_on (code (ql_log q') (who x))).
      { unfold ql_plain. change (ql_log (rl_q c)) with l. destruct (step cap csz site_cat l x) as [m|] eqn:Es; [|discriminate]. intros Y. injection Y as <-. cbn [ql_log].
        unfold step in Es. rewrite B in Es. destruct x as [u o|u ch|u h|u y]; cbn [who] in *.
        - destruct (code l u); [|discriminate]. destruct (closing l); [discriminate|]. destruct (is_destroy o); [destruct (is_nil (busy l)); [|discriminate]|]; injection Es as <-; cbn; rewrite tset_same; apply goes_code.
        - destruct (code l u) as [|a k] eqn:Ec; [discriminate|]. destruct (exec cap l u ch a) as [| |m' y] eqn:Ex; [discriminate|injection Es as <-; cbn; now rewrite Ec|].
          injection Es as <-. cbn. rewrite tset_same. apply G.
        - destruct (hook_of (code l u)) as [[? ?]|] eqn:Hu; [|discriminate]. injection Es as <-. cbn. rewrite tset_same. now apply goes_hcode.
        - destruct (hook_of (code l u)) as [[? ?]|] eqn:Hu; [|discriminate]. injection Es as <-. cbn. rewrite tset_same. eapply Hk; eauto. }
      destruct x as [u o|u ch|u h|u y]; auto. cbn [who] in *. destruct (code l u) as [|a k] eqn:Ec; [discriminate|].
      assert (Qs : forall b a0 o, ql_queue (rl_q c) u b a0 o = Some q' -> (forall z, o = Some z -> goes_on z) -> goes_on (code (ql_log q') u)).
      { intros b a0 o. unfold ql_queue. destruct (qstep _ a0); [|discriminate]. intros Y Z. injection Y as <-. destruct o as [z|]; cbn; [rewrite tset_same; auto|]. change (ql_log (rl_q c)) with l. rewrite Ec. exact G. }
      assert (Cr : Some (ql_crash (rl_q c)) = Some q' -> goes_on (code (ql_log q') u)) by (intros Y; injection Y as <-; cbn; change (ql_log (rl_q c)) with l; rewrite Ec; exact G).
      assert (Nn : forall z : cmd, None = Some z -> goes_on z) by discriminate.
      destruct a; auto.
      - unfold ql_take in E. destruct (ring_there _ b); auto. destruct (cq_pc _ u) as [| | | | | | | | | |? ? [i|]]; eauto. apply Qs in E; auto. intros z Z. injection Z as <-. apply G.
      - destruct (b_kind _); auto. unfold ql_put in E. destruct (_ && _)%bool; auto. destruct (cq_pc _ u); eauto. apply Qs in E; auto. intros z Z. injection Z as <-. apply G.
    Qed.

    (** A step that leaves the registry alone. *)
    Lemma rsim_plain x q' kap' : cr_pc r (who x) = GIdle ->
      kap' (who x) = code (ql_log q') (who x) -> (forall u, u <> who x -> kap' u = kap u /\ code (ql_log q') u = code l u) ->
      goes_on (code (ql_log q') (who x)) -> reg (ql_log q') = reg l ->
      (forall t, mtx l = Some t -> who x <> t -> mtx (ql_log q') = Some t /\ enabled (ql_log q') = enabled l) ->
      rsim {| rl_q := q'; rl_reg := r |} rho kap'.
    Proof.
      intros P Kw Ot Go Rg Lk. split; unfold rl_log; cbn [rl_q rl_reg]; try apply S.
      - intros u. destruct (Nat.eq_dec u (who x)) as [->|N]; [rewrite P, Kw; apply ahead_idle|]. destruct (Ot u N) as (-> & ->). apply S.
      - intros u. destruct (Nat.eq_dec u (who x)) as [->|N]; [rewrite P; exact Logic.I|]. destruct (Ot u N) as (_ & ->). apply S.
      - intros u. destruct (Nat.eq_dec u (who x)) as [->|N]; auto. destruct (Ot u N) as (_ & ->). apply S.
      - intros u Hu. destruct (rs_hold _ _ _ S u Hu) as (M & En). destruct (Lk u M) as (-> & ->); auto. intros <-. rewrite P in Hu. discriminate.
      - rewrite Rg. apply S.
    Qed.

    Lemma step_sim_r a c' : rl_step cap csz site_cat c a = Some c' ->
      exists rho' kap', follows (relabq (rl_q c) rho kap) (relabq (rl_q c') rho' kap') /\ rsim c' rho' kap'.
    Proof.
      intros E. unfold rl_step in E. fold l in E. rewrite B in E. destruct a as [x sp]. cbn [fst snd] in E.
      assert (Pl : rl_plain cap csz site_cat c (x, sp) = Some c' -> (forall t ch y k, x = Step t ch -> code l t = Act y k -> is_reg y = false) ->
        exists rho' kap', follows (relabq (rl_q c) rho kap) (relabq (rl_q c') rho' kap') /\ rsim c' rho' kap').
      { unfold rl_plain. destruct (ql_step cap csz site_cat (rl_q c) (x, sp)) as [q'|] eqn:Eq; [|discriminate]. intros Y NR. injection Y as <-.
        assert (NI : cr_pc r (who x) = GIdle /\ kap (who x) = code l (who x)).
        { apply not_inside_r. destruct x as [u o|u ch|u h|u y]; cbn [who]; pose proof Eq as Eq'; unfold ql_step, ql_plain, step in Eq'; cbn [fst snd] in Eq'; change (ql_log (rl_q c)) with l in Eq';
            rewrite B in Eq'; destruct (polite l _) in Eq'; try discriminate Eq'; destruct (code l u) as [|a k] eqn:Ec; auto; try discriminate Eq';
            try (destruct a; try reflexivity; try exact Logic.I; discriminate Eq').
          specialize (NR u ch a k eq_refl Ec). destruct a; auto. }
        destruct NI as (P & Kw).
        destruct (ql_relab cap csz site_cat (rl_q c) rho kap x sp q' Eq Kw) as (kap' & E' & K1 & K2 & K3); auto.
        { etransitivity; [exact (rs_count _ _ _ S)|]. symmetry. exact (proj2 (rs_seen _ _ _ S)). }
        exists rho, kap'. split; [right; eauto|]. apply (rsim_plain x); auto.
        - eapply ql_goes; eauto. apply S.
        - intros t M N. eapply ql_lock; eauto. }
      destruct x as [u o|u ch|u h|u y]; try (apply Pl; auto; discriminate).
      destruct (code l u) as [|a k] eqn:Ec; [discriminate|].
      assert (NR : is_reg a = false -> forall t ch0 y k0, Step u ch = Step t ch0 -> code l t = Act y k0 -> is_reg y = false).
      { intros Ra t ch0 y k0 Y. injection Y as <- <-. rewrite Ec. intros Y. injection Y as <- _. exact Ra. }
      destruct a; try (apply Pl; auto; apply NR; reflexivity); clear Pl NR.
      - eapply switch_sim; eauto. exact Ec.
      - eapply (switch_sim u (Some (en, dis))); eauto.
      - eapply look_sim; eauto.
      - (* AStatus *) unfold rl_plain in E. destruct (not_inside_r u) as (P & Kw); [now rewrite Ec|].
        assert (Eq : ql_step cap csz site_cat (rl_q c) (Step u CNone, sp) =
          Some {| ql_log := set_cmd (emit l (Tested u i (cr_status r i))) u (k (cr_status r i)); ql_q := ql_q (rl_q c) |}).
        { unfold ql_step, ql_plain, step. cbn [fst snd polite]. change (ql_log (rl_q c)) with l. rewrite B, Ec. cbn [exec status_seen].
          pose proof (proj1 (rs_seen _ _ _ S)) as X. fold l r in X. rewrite X. cbn [set_cmd set_busy set_code nbuf emit set_hist]. now rewrite Nat.eqb_refl. }
        rewrite Eq in E. injection E as <-.
        assert (Hi : i < cr_count r).
        { pose proof (kn_stat _ K u i k) as X. cbn in X. rewrite Kw, Ec in X. pose proof (rs_count _ _ _ S) as Y. fold r in Y. rewrite <- Y. auto. }
        assert (Sn : exists ch, status_seen (relab l rho kap) ch i = cr_status r i).
        { destruct (rs_loose _ _ _ S i Hi) as [X|(X & t & Y)]; [exists CNone; cbn; symmetry; exact X|]. exists CFail.
          destruct (rs_hold _ _ _ S t Y) as (M & En). fold l in M, En. fold r in X. unfold status_seen. cbn. now rewrite M, En, X. }
        destruct Sn as (ch0 & Sn). exists rho, (tset kap u (k (cr_status r i))). split.
        + right. exists (Step u ch0, false). rewrite Ec in Kw. erewrite (other_step (rl_q c) rho kap u (AStatus i) k _ _ B Kw eq_refl ch0); [|cbn [exec]; cbn zeta; reflexivity|reflexivity].
          change (ql_log (rl_q c)) with l. rewrite Sn. reflexivity.
        + pose proof (rs_goes _ _ _ S u) as G. fold l in G. rewrite Ec in G. apply (rsim_plain (Step u CNone)); auto; cbn; rewrite ?tset_same; auto.
          * intros v Hv. now rewrite !tset_other.
          * apply G.
    Qed.
  End At.
End Steps.

(** ** Whole runs *)

Lemma rev_case {A} (l : list A) : l = [] \/ exists l' x, l = l' ++ [x].
Proof. destruct l as [|a l] using rev_ind; eauto. Qed.

Section Runs.
  Variables cap csz : N.
  Variable site_cat : nat -> bytes.

  Lemma put_rings c l r : heap l = heap (rl_log c) -> grows (rl_log c) l -> rings_made (rl_log c) ->
    rings_made (rl_log (rl_put c l r)) /\ grows (rl_log c) (rl_log (rl_put c l r)).
  Proof.
    intros H G M. split; [|exact G]. intros b Hb. unfold rl_log, rl_put in *. cbn in Hb. rewrite H in Hb. destruct (M b Hb) as (t & g & n & X).
    exists t, g, n. cbn. rewrite H. now apply G.
  Qed.

  Lemma rl_rings c a c' : rings_made (rl_log c) -> rl_step cap csz site_cat c a = Some c' -> rings_made (rl_log c') /\ grows (rl_log c) (rl_log c').
  Proof.
    intros M E. assert (Pl : forall a, rl_plain cap csz site_cat c a = Some c' -> rings_made (rl_log c') /\ grows (rl_log c) (rl_log c')).
    { intros x H. unfold rl_plain in H. destruct (ql_step cap csz site_cat (rl_q c) x) as [q|] eqn:El; [|discriminate]. injection H as <-. eapply ql_rings; eauto. }
    assert (Gr : forall (e : list hev) l, hist l = hist (rl_log c) ++ e -> grows (rl_log c) l) by (intros e l H y Hy; rewrite H; apply in_or_app; auto).
    unfold rl_step in E. destruct (bad (rl_log c)); [discriminate|]. destruct (fst a) as [t o|t ch|t h|t y]; eauto. destruct (code (rl_log c) t) as [|x k]; [discriminate|].
    assert (Lk : forall cat k, rl_look c t cat k = Some c' -> rings_made (rl_log c') /\ grows (rl_log c) (rl_log c')).
    { intros cat k0. unfold rl_look. destruct (rstep _ _) as [r'|]; [|discriminate]. intros Y. injection Y as <-. apply put_rings; auto.
      - destruct (cr_pc (rl_reg c) t), (cr_pc r' t); reflexivity.
      - destruct (cr_pc (rl_reg c) t), (cr_pc r' t); try (apply (Gr []); symmetry; apply app_nil_r); eapply Gr; reflexivity. }
    assert (Sk : forall x k, rl_switch c t x k = Some c' -> rings_made (rl_log c') /\ grows (rl_log c) (rl_log c')).
    { intros z k0. unfold rl_switch. destruct (rstep _ _) as [r'|]; [|discriminate]. intros Y. injection Y as <-. apply put_rings; auto.
      - destruct (cr_pc (rl_reg c) t), (cr_pc r' t); reflexivity.
      - destruct (cr_pc (rl_reg c) t), (cr_pc r' t); apply (Gr []); symmetry; apply app_nil_r. }
    destruct x; eauto.
  Qed.

  Lemma rl_rings_run sched : rings_made (rl_log (rl_run cap csz site_cat sched)).
  Proof.
    unfold rl_run. apply (run_inv (rl_step cap csz site_cat) (fun c => rings_made (rl_log c))); [|intros b H; discriminate].
    intros c a c' M E. apply (rl_rings c a c' M E).
  Qed.

  Lemma rl_grows pre post : grows (rl_log (rl_run cap csz site_cat pre)) (rl_log (rl_run cap csz site_cat (pre ++ post))).
  Proof.
    induction post as [|a post IH] using rev_ind; [now rewrite app_nil_r; intros e|]. intros e He. apply IH in He.
    rewrite app_assoc. unfold rl_run in *. rewrite (run_snoc _ _ (pre ++ post)). unfold move. destruct (rl_step _ _ _ _ a) as [c'|] eqn:E; auto.
    apply (proj2 (rl_rings _ _ _ (rl_rings_run (pre ++ post)) E)), He.
  Qed.

  Lemma rsim_new : rsim rl_new (reg log_new) (code log_new).
  Proof.
    split; cbn; auto; try discriminate.
    - now exists [].
  Qed.

  (** The log whose registry operations are single actions can do the same; its
      queues go through the same states. *)
  Definition mirrors (sched sched' : list (sact * bool)) : Prop :=
    forall pre' post', sched' = pre' ++ post' -> exists pre post, sched = pre ++ post /\
      ql_q (ql_run cap csz site_cat pre') = ql_q (rl_q (rl_run cap csz site_cat pre)).

  Lemma mirrors_awake sched sched' : mirrors sched sched' -> awake_all cap csz site_cat sched -> awake cap csz site_cat sched'.
  Proof. intros M A pre' post' E b t. destruct (M pre' post' E) as (pre & post & E' & ->). now apply (A pre post). Qed.

  Theorem run_sim_r sched : awake_all cap csz site_cat sched -> ring_sizes (hist (rl_log (rl_run cap csz site_cat sched))) ->
    exists sched' rho kap, ql_run cap csz site_cat sched' = relabq (rl_q (rl_run cap csz site_cat sched)) rho kap /\
      rsim (rl_run cap csz site_cat sched) rho kap /\ mirrors sched sched'.
  Proof.
    induction sched as [|a sched IH] using rev_ind; intros A Z.
    - exists [], (reg log_new), (code log_new). split; [reflexivity|]. split; [apply rsim_new|].
      intros pre' post' E. symmetry in E. apply app_eq_nil in E as [-> ->]. exists [], []. auto.
    - destruct IH as (sched' & rho & kap & E & S & M).
      { intros p q Ep. apply (A p (q ++ [a])). now rewrite Ep, <- app_assoc. }
      { intros t g n b m Hi. eapply Z. apply rl_grows. exact Hi. }
      assert (Aw : awake cap csz site_cat sched').
      { apply (mirrors_awake sched); auto. intros p q Ep. apply (A p (q ++ [a])). now rewrite Ep, <- app_assoc. }
      destruct (run_sim cap csz site_cat sched' Aw) as (s & Sm).
      { intros t g n b m Hi. rewrite E in Hi. eapply Z. apply rl_grows. exact Hi. }
      pose proof (sim_known _ _ _ _ _ Sm) as K. rewrite E in K. cbn [relabq ql_log] in K.
      unfold rl_run in *. rewrite run_snoc. unfold move. set (c := run _ _ sched) in *.
      destruct (rl_step cap csz site_cat c a) as [c'|] eqn:Ec.
      + destruct (step_sim_r cap csz site_cat c rho kap S K a c' Ec) as (rho' & kap' & F & S').
        destruct F as [F|(a' & F)].
        * exists sched', rho', kap'. split; [now rewrite E, F|]. split; auto. intros pre' post' E'. destruct (M pre' post' E') as (pre & post & -> & X).
          exists pre, (post ++ [a]). now rewrite app_assoc.
        * exists (sched' ++ [a']), rho', kap'. split.
          { unfold ql_run in *. rewrite run_snoc. unfold move. now rewrite E, F. }
          split; auto. intros pre' post' E'. destruct (rev_case post') as [->|(post1 & y & ->)].
          -- rewrite app_nil_r in E'. subst pre'. exists (sched ++ [a]), []. split; [now rewrite app_nil_r|].
             unfold ql_run, rl_run in *. rewrite !run_snoc. unfold move. fold c. now rewrite Ec, E, F.
          -- rewrite app_assoc in E'. apply app_inj_tail in E' as [E' _]. destruct (M pre' post1 E') as (pre & post & -> & X).
             exists pre, (post ++ [a]). now rewrite app_assoc.
      + exists sched', rho, kap. split; auto. split; auto. intros pre' post' E'. destruct (M pre' post' E') as (pre & post & -> & X).
        exists pre, (post ++ [a]). now rewrite app_assoc.
  Qed.
End Runs.

(** ** What a simulation says *)

Lemma race_relab c rho kap : rsim c rho kap -> race (rl_log c) -> race (relab (rl_log c) rho kap).
Proof.
  intros S (t & u & a & a' & p & N & A & A' & W & R).
  assert (X : forall v b, about_to (rl_log c) v b -> reads (rl_log c) v b p \/ writes (rl_log c) v b p -> about_to (relab (rl_log c) rho kap) v b).
  { intros v b (k & E) Rw. exists k. pose proof (rs_code _ _ _ S v) as Ah. rewrite E in Ah. unfold relab. cbn [code set_code]. destruct b; auto; cbn in Rw; tauto. }
  exists t, u, a, a', p. split; [exact N|]. split; [exact (X t a A (or_intror W))|]. split; [exact (X u a' A' R)|]. split; [exact W|exact R].
Qed.

Lemma rest_calm c rho kap : rsim c rho kap -> registry_at_rest c -> forall t, switching (cr_pc (rl_reg c) t) = false.
Proof.
  intros S R t. destruct (switching (cr_pc (rl_reg c) t)) eqn:X; auto. apply switching_locked, (r_mutex _ (rs_inv _ _ _ S)) in X. unfold registry_at_rest in R. congruence.
Qed.

Lemma off_switching p : switching p = false -> switching_off p = false.
Proof. destruct p as [| | | | | | | | | | | | |x|x ? ?|x|]; auto; destruct x; auto. Qed.

(** A thread inside the registry performs the registry's next step. *)
Lemma go_on_r cap csz site_cat c rho kap u : rsim c rho kap -> bad (rl_log c) = false -> cr_pc (rl_reg c) u <> GIdle -> rstep (rl_reg c) (RGo u) <> None ->
  exists c', rl_step cap csz site_cat c (Step u CNone, false) = Some c' /\ rstep (rl_reg c) (RGo u) = Some (rl_reg c').
Proof.
  intros S B P Nn. destruct (rstep (rl_reg c) (RGo u)) as [r'|] eqn:E; [|easy]. pose proof (rs_in _ _ _ S u) as Is. unfold rl_step. rewrite B. cbn [fst].
  assert (Lk : forall cat (k : nat -> cmd), exists c', rl_look c u cat k = Some c' /\ Some r' = Some (rl_reg c')).
  { intros cat k. unfold rl_look. destruct (cr_pc (rl_reg c) u); try easy; rewrite E; eexists; (split; [reflexivity|reflexivity]). }
  assert (Sk : forall x (k : unit -> cmd), exists c', rl_switch c u x k = Some c' /\ Some r' = Some (rl_reg c')).
  { intros x k. unfold rl_switch. destruct (cr_pc (rl_reg c) u); try easy; rewrite E; eexists; (split; [reflexivity|reflexivity]). }
  destruct (cr_pc (rl_reg c) u) as [| | | | | | | | | | |x|x|x|x ? ?|x|]; try easy; cbn [inside_r] in Is;
    try (destruct Is as (cat & k & -> & _); apply Lk); destruct x as [[en dis]|]; destruct Is as (k & ->); apply Sk.
Qed.

(** ** Short runs *)

Section Short.
  Variables cap csz : N.
  Variable site_cat : nat -> bytes.

  Lemma rl_run_short sched b : length (cq_hist (ql_q (rl_q (rl_run cap csz site_cat sched)) b)) <= length sched.
  Proof.
    induction sched as [|a sched IH] using rev_ind; [cbn; lia|]. unfold rl_run in *. rewrite run_snoc, app_length. cbn [length]. unfold move.
    destruct (rl_step _ _ _ _ a) as [c'|] eqn:E; [|lia]. set (c := run _ _ sched) in *.
    assert (Pl : forall x, rl_plain cap csz site_cat c x = Some c' -> length (cq_hist (ql_q (rl_q c') b)) <= S (length (cq_hist (ql_q (rl_q c) b)))).
    { intros x H. unfold rl_plain in H. destruct (ql_step cap csz site_cat (rl_q c) x) eqn:Eq; [|discriminate]. injection H as <-. eapply ql_step_short; eauto. }
    assert (X : length (cq_hist (ql_q (rl_q c') b)) <= S (length (cq_hist (ql_q (rl_q c) b)))); [|lia].
    unfold rl_step in E. destruct (bad (rl_log c)); [discriminate|]. destruct (fst a) as [t o|t ch|t h|t y]; eauto. destruct (code (rl_log c) t) as [|x k]; [discriminate|].
    assert (Lk : forall cat k, rl_look c t cat k = Some c' -> ql_q (rl_q c') = ql_q (rl_q c)).
    { intros cat k0. unfold rl_look. destruct (rstep _ _); [|discriminate]. intros Y. now injection Y as <-. }
    assert (Sk : forall x k, rl_switch c t x k = Some c' -> ql_q (rl_q c') = ql_q (rl_q c)).
    { intros z k0. unfold rl_switch. destruct (rstep _ _); [|discriminate]. intros Y. now injection Y as <-. }
    destruct x; eauto; first [rewrite (Lk _ _ E)|rewrite (Sk _ _ E)]; lia.
  Qed.

  Lemma short_awake_all sched : (N.of_nat (length sched) < 2 ^ 62)%N -> awake_all cap csz site_cat sched.
  Proof.
    intros L pre post -> b t. rewrite app_length in L. apply (short_stale site_cat _ (length pre)); [apply rl_run_short|lia].
  Qed.
End Short.

(** ** Progress *)

Lemma rstep_moves r u r' : cr_pc r u <> GIdle -> rstep r (RGo u) = Some r' -> cr_pc r u <> cr_pc r' u.
Proof.
  intros P E X. cbn [rstep] in E. destruct (cr_pc r u) eqn:Pc; try easy;
    repeat match type of E with context [match ?y with _ => _ end] => destruct y eqn:? end; try discriminate E; injection E as <-; rewrite at_pc_same in X; try discriminate X; injection X; intros; lia.
Qed.
