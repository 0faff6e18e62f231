(** The category registry of a log, and the gate of the trace macros. *)
From Verif Require Import Base Spec.Glob Model.StringUtils Model.Event Model.Queue Model.Buffer Model.Config Spec.Categories Model.Registry
  Model.Interleave Spec.LogHistory Spec.LogFacts Model.TraceLog Proofs.Interleave Proofs.Registry Proofs.LogFrame Proofs.LogView Proofs.LogViewInv
  Proofs.LogContract.

(** ** The registry *)

Lemma looked_app a b : looked_names (a ++ b) = looked_names a ++ looked_names b.
Proof. apply flat_map_app. Qed.

Definition reg_ok (h : list hev) (r : registry) : Prop :=
  (forall u c i, In (Looked u c i) h -> settled r c i) /\
  (forall g, In g (used r) -> In g built_in \/ In g (looked_names h)).

Lemma reg_ok_count h r : rok r -> reg_ok h r -> rg_count r = group_count h.
Proof.
  intros K [St U]. unfold group_count. set (all := built_in ++ looked_names h).
  assert (I1 : incl (used r) (nodup bytes_dec all)).
  { intros g Hg. apply nodup_In. apply in_or_app. now apply U. }
  assert (LU : length (used r) = rg_count r) by (unfold used; now rewrite map_length, seq_length).
  pose proof (NoDup_incl_length (used_nodup r K) I1) as L1. rewrite LU in L1.
  pose proof (rk_hi _ K). destruct (Nat.eq_dec (rg_count r) 250) as [E|E]; [lia|].
  assert (I2 : incl (nodup bytes_dec all) (used r)).
  { intros g Hg. apply nodup_In in Hg. apply in_app_or in Hg as [Hg|Hg].
    - apply used_in. pose proof (rk_lo _ K). destruct Hg as [<-|[<-|[<-|[]]]]; [exists 0|exists 1|exists 2]; (split; [lia|]); now rewrite (rk_def _ K) by lia.
    - unfold looked_names in Hg. apply in_flat_map in Hg as [e [He Hg]]. destruct e; try easy. destruct Hg as [<-|[]].
      apply St in He as [[H1 H2]|[_ [H1 _]]]; [|lia]. apply used_in. eauto. }
  pose proof (NoDup_incl_length (NoDup_nodup bytes_dec all) I2). lia.
Qed.

Lemma used_grow r r' : grows r r' -> rg_count r' = rg_count r -> used r' = used r.
Proof. intros [A B] E. unfold used. rewrite E. apply map_ext_in. intros i Hi. apply in_seq in Hi. apply B. lia. Qed.

Definition no_look (e : hev) : Prop := match e with Looked _ _ _ => False | _ => True end.

Lemma reg_ok_skip h r l : reg_ok h r -> (forall e, In e l -> no_look e) -> reg_ok (h ++ l) r.
Proof.
  intros [A B] N. split.
  - intros u c i Hi. apply in_app_or in Hi as [Hi|Hi]; eauto. apply N in Hi. easy.
  - intros g Hg. rewrite looked_app. apply B in Hg as [Hg|Hg]; auto. right. apply in_or_app. auto.
Qed.

Section Reg.
  Variables cap csz : N.
  Variable site_cat : nat -> bytes.

  (** What an action does to the registry. *)
  Lemma exec_reg s f t ch a s' r : GA csz s f -> ok csz t (f t) a -> exec cap s t ch a = Next s' r ->
    (exists c i, a = AGetStatus c /\ hist s' = hist s ++ [Looked t c i] /\ getStatus (reg s) c = (i, reg s')) \/
    (exists l, hist s' = hist s ++ l /\ (forall e, In e l -> no_look e) /\
       rg_count (reg s') = rg_count (reg s) /\ rg_groups (reg s') = rg_groups (reg s)).
  Proof.
    intros I O E.
    assert (Hf : forall o, hist (free_buf s o) = hist s /\ reg (free_buf s o) = reg s) by (now intros [|]).
    assert (Hg : forall o, hist (give_buf s o) = hist s /\ reg (give_buf s o) = reg s) by (now intros [|]).
    assert (Nil : hist s = hist s ++ []) by now rewrite app_nil_r.
    destruct a; cbn [exec] in E;
      try (right; unfold with_buf in E;
           repeat match type of E with context [match ?x with _ => _ end] => destruct x eqn:? end;
           try discriminate E; inversion E; subst; clear E;
           cbn [hist reg set_enabled set_mtx set_gen set_bufp set_regd set_cfg set_names set_dereg set_reg set_sites emit set_hist put_ten set_ten put_buf set_heap];
           solve [ exists []; repeat split; auto; try easy
                 | eexists; split; [reflexivity|]; split; [intros e0 [<-|[]]; exact Logic.I|]; split; reflexivity ]).
    - right. destruct (owns s t); [|easy]. inversion E; subst; clear E. exists [e]. split; [reflexivity|]. split; [|split; reflexivity].
      intros e0 [<-|[]]. unfold ok, insec in O. destruct (a_sec (f t)) as [[p q]|]; [|easy]. destruct O as [_ [In _]]. destruct e; try exact Logic.I. easy.
    - right. inversion E; subst; clear E. exists []. cbn. destruct (Hg (bufp s)) as [-> ->]. repeat split; auto; easy.
    - right. inversion E; subst; clear E. exists []. cbn. destruct (Hf (bufp s)) as [-> ->]. repeat split; auto; easy.
    - right. unfold exec_factory in E.
      destruct ch, (cf_factory c); try discriminate E;
        try (destruct (N.eqb_spec n0 n) as [->|]; [|discriminate E]); inversion E; subst; clear E;
        eexists; (split; [reflexivity|]); (split; [intros e0 [<-|[]]; exact Logic.I|]); split; reflexivity.
    - left. destruct (getStatus (reg s) category) as [i r0] eqn:Eg. injection E as <- <-. exists category, i. auto.
    - right. inversion E; subst; clear E. exists [e]. split; [reflexivity|]. split; [|split; reflexivity].
      intros e0 [<-|[]]. unfold ok, insec in O. destruct (a_sec (f t)) as [[p q]|]; [|easy]. destruct O as [_ [[o [-> _]]|[h [r [-> _]]]]]; exact Logic.I.
    - right. inversion E; subst; clear E. exists [e]. split; [reflexivity|]. split; [|split; reflexivity].
      intros e0 [<-|[]]. destruct O as [o [r [-> _]]]. exact Logic.I.
    - right. inversion E; subst; clear E. exists [Freed t]. cbn. destruct (Hf (bufp s)) as [-> ->]. repeat split; auto.
      intros e0 [<-|[]]. exact Logic.I.
  Qed.

  Lemma reg_inv s : reached cap csz site_cat s -> reg_ok (hist s) (reg s).
  Proof.
    apply (reached_ind cap csz site_cat (fun s => reg_ok (hist s) (reg s))); try (intros; assumption).
    - split; [easy|]. intros g Hg. now left.
    - intros s0 t o _ A. apply reg_ok_skip; auto. intros e [<-|[]]. exact Logic.I.
    - intros s0 f t ch a s' r R I O [A B] E.
      destruct (exec_reg _ _ _ _ _ _ _ I O E) as [[c [i [-> [Eh Eg]]]]|[l [Eh [Nl [Hn Hh]]]]]; rewrite Eh.
      + pose proof (g_reg _ _ _ I) as K. pose proof (getStatus_spec (reg s0) c K) as S. rewrite Eg in S. destruct S as [K' [G [St [_ [_ Ch]]]]].
        split.
        * intros u c0 i0 Hi. apply in_app_or in Hi as [Hi|[X|[]]]; [eapply settled_grows; eauto|]. inversion X; subst. exact St.
        * intros g Hg. rewrite looked_app. cbn. destruct Ch as [Ch|[Ch1 Ch2]].
          -- rewrite Ch in Hg. apply B in Hg as [Hg|Hg]; auto. right. apply in_or_app. auto.
          -- apply used_in in Hg as [k [Hk Ek]]. destruct (Nat.eq_dec k (rg_count (reg s0))) as [->|N].
             ++ right. apply in_or_app. right. left. congruence.
             ++ destruct (B g) as [X|X]; auto; [|right; apply in_or_app; auto]. apply used_in. exists k. split; [lia|]. rewrite <- Ek. symmetry. apply G. lia.
      + apply reg_ok_skip; auto. split.
        * intros u c i Hi. specialize (A _ _ _ Hi). unfold settled in *. now rewrite Hn, Hh.
        * unfold used in *. now rewrite Hn, Hh.
  Qed.
End Reg.

(** A status is found as it is, or off while tracing is off. *)
Lemma seen_cases s ch i : status_seen s ch i = rg_status (reg s) i \/ status_seen s ch i = false /\ enabled s = false.
Proof. unfold status_seen. destruct ch, (enabled s), (mtx s); auto. Qed.

(** Tests of a category status are recorded by one action only. *)
Lemma exec_hist cap csz (site_cat : nat -> bytes) s f t ch a s' r : GA csz s f -> ok csz t (f t) a -> exec cap s t ch a = Next s' r ->
  (exists i, a = AStatus i /\ hist s' = hist s ++ [Tested t i (status_seen s ch i)]) \/
  (exists l, hist s' = hist s ++ l /\ forall e, In e l -> forall u i v, e <> Tested u i v).
Proof.
  intros I O E.
  assert (Hf : forall o, hist (free_buf s o) = hist s) by (now intros [|]).
  assert (Hg : forall o, hist (give_buf s o) = hist s) by (now intros [|]).
  destruct a; cbn [exec] in E;
    try (right; unfold with_buf in E;
         repeat match type of E with context [match ?x with _ => _ end] => destruct x eqn:? end;
         try discriminate E; inversion E; subst; clear E;
         cbn [hist reg set_enabled set_mtx set_gen set_bufp set_regd set_cfg set_names set_dereg set_reg set_sites emit set_hist put_ten set_ten put_buf set_heap];
         rewrite ?Hf, ?Hg;
         solve [ exists []; split; [now rewrite app_nil_r|easy] | eexists; split; [reflexivity|]; intros e0 [<-|[]]; easy ]).
  - right. destruct (owns s t); [|easy]. inversion E; subst; clear E. exists [e]. split; [reflexivity|].
    intros e0 [<-|[]]. unfold ok, insec in O. destruct (a_sec (f t)) as [[p q]|]; [|easy]. destruct O as [_ [In _]]. intros u i v ->. easy.
  - right. unfold exec_factory in E.
    destruct ch, (cf_factory c); try discriminate E;
      try (destruct (N.eqb_spec n0 n) as [->|]; [|discriminate E]); inversion E; subst; clear E;
      eexists; (split; [reflexivity|]); intros e0 [<-|[]]; easy.
  - left. exists i. inversion E; subst. auto.
  - right. inversion E; subst; clear E. exists [e]. split; [reflexivity|].
    intros e0 [<-|[]]. unfold ok, insec in O. destruct (a_sec (f t)) as [[p q]|]; [|easy]. destruct O as [_ [[o [-> _]]|[h [r [-> _]]]]]; easy.
  - right. inversion E; subst; clear E. exists [e]. split; [reflexivity|].
    intros e0 [<-|[]]. destruct O as [o [r [-> _]]]. easy.
Qed.

(** ** Category lists along a legal history *)

Lemma started_snoc h e : started_with (h ++ [e]) = match e with On _ _ _ => configuration h | _ => started_with h end.
Proof.
  unfold started_with. rewrite fold_left_app. cbn.
  assert (X : forall h, fst (fold_left (fun p e => match e with Configured _ c => (c, snd p) | On _ _ _ => (fst p, fst p) | _ => p end) h (config_default, config_default)) = configuration h).
  { intros h0. snoc h0. rewrite fold_left_app, configuration_snoc, <- IH. cbn. destruct e0; reflexivity. }
  rewrite <- X. destruct e; reflexivity.
Qed.

Definition off_lists (p : list bytes * list bytes) : Prop := forall g, calculateEnabled g (fst p) (snd p) = false.

(** The category lists in force after the history [h]. *)
Definition lists_now (h : list hev) (l : list bytes * list bytes) : Prop :=
  (tracing h = true -> l = config_lists (started_with h)) /\
  (tracing h = false -> off_lists l \/ (due (status_after h) <> None /\ l = config_lists (started_with h)) \/
     (fresh (status_after h) <> None /\ l = config_lists (configuration h))).

Lemma lists_now_snoc csz h e l : lists_now h l -> legal csz (status_after h) e ->
  (forall t o, e = Callback t o -> off_lists l) -> (forall t g m, e = On t g m -> l = config_lists (configuration h)) ->
  lists_now (h ++ [e]) l.
Proof.
  intros [A B] L C O. unfold lists_now. rewrite tracing_snoc, started_snoc, status_snoc, configuration_snoc.
  unfold advance. unfold legal in L. destruct (inert e) eqn:In.
  - destruct e; try easy; split; auto.
  - destruct L as [D [F X]]. rewrite status_view, v_on_tracing in X.
    assert (B' : due (status_after h) = None -> fresh (status_after h) = None -> tracing h = false -> off_lists l).
    { intros X1 X2 X3. destruct (B X3) as [Y|[[Y _]|[Y _]]]; auto; congruence. }
    destruct e; cbn [due fresh]; try discriminate In; split; auto.
    + easy.
    + intros _. right. left. split; [easy|]. apply A, X.
    + intros _. left. eapply C. reflexivity.
    + intros _. eapply O. reflexivity.
    + easy.
Qed.

Section Lists.
  Variables cap csz : N.
  Variable site_cat : nat -> bytes.

  Lemma off_nothing : off_lists ([[]], [[]]).
  Proof. intros g. apply all_off. Qed.

  Lemma lists_inv s : reached cap csz site_cat s -> lists_now (hist s) (rg_enabled (reg s), rg_disabled (reg s)).
  Proof.
    apply (reached_ind cap csz site_cat (fun s => lists_now (hist s) (rg_enabled (reg s), rg_disabled (reg s)))); try (intros; assumption).
    - split; [easy|]. intros _. left. intros g. apply not_true_iff_false. rewrite calculateEnabled_spec. intros (z & _ & (w & [] & _) & _).
    - intros s0 t o _ A. apply (lists_now_snoc csz); auto; easy.
    - intros s0 f t ch a s' r R I O A E.
      assert (Hf : forall o, hist (free_buf s0 o) = hist s0 /\ reg (free_buf s0 o) = reg s0) by (now intros [|]).
      assert (Hg : forall o, hist (give_buf s0 o) = hist s0 /\ reg (give_buf s0 o) = reg s0) by (now intros [|]).
      assert (Inert : forall e, inert e = true -> lists_now (hist s0 ++ [e]) (rg_enabled (reg s0), rg_disabled (reg s0))).
      { intros e In. apply (lists_now_snoc csz); auto; [now apply legal_inert|..]; intros; subst; easy. }
      assert (Sec : forall F, insec (f t) F -> F (prot s0) (status_after (hist s0))).
      { intros F HF. unfold insec in HF. destruct (a_sec (f t)) as [[p q]|] eqn:Es; [|easy]. now destruct (g_cur _ _ _ I _ _ _ Es) as [<- <-]. }
      destruct a; cbn [exec] in E;
        try (unfold with_buf in E;
             repeat match type of E with context [match ?x with _ => _ end] => destruct x eqn:? end;
             try discriminate E; inversion E; subst; clear E; cbn [hist reg set_hist emit];
             solve [exact A | apply Inert; reflexivity]).
      + (* AXchg *) apply Sec in O as [C Rl]. destruct (enabled s0) eqn:En; inversion E; subst; clear E; auto. cbn.
        apply (lists_now_snoc csz); auto; try easy. destruct C as [C1 C2]. split; [exact C1|]. split; [exact C2|]. split; [|exact Rl].
        now rewrite <- (g_on _ _ _ I).
      + (* AStEnabled *) apply Sec in O as [L [X _]]. inversion E; subst; clear E. cbn. apply (lists_now_snoc csz); auto; try easy.
        intros t0 g0 m0 _. rewrite <- v_cfg_configuration, <- status_view. exact X.
      + (* AUnlock *) apply Sec in O as [L [In [X [Y Z]]]]. destruct (owns s0 t); inversion E; subst; clear E. cbn. apply (lists_now_snoc csz); auto.
        * intros t0 o0 ->. cbn in Z. now destruct (since (status_after (hist s0))).
        * intros t0 g0 m0 ->. cbn in Z. now destruct (since (status_after (hist s0))).
      + inversion E; subst; clear E. cbn. destruct (Hg (bufp s0)) as [-> ->]. exact A.
      + inversion E; subst; clear E. cbn. destruct (Hf (bufp s0)) as [-> ->]. exact A.
      + (* AFactory *) pose proof (fun m => Sec _ O m) as L. cbn beta in L. clear O.
        unfold exec_factory in E.
        destruct ch, (cf_factory c); try discriminate E;
          try (destruct (N.eqb_spec n0 n) as [->|]; [|discriminate E]); inversion E; subst; clear E; cbn;
          apply (lists_now_snoc csz); auto; try easy; now apply L.
      + (* ADisableAll *) destruct O as [O _]. apply Sec in O. inversion E; subst; clear E. cbn. split.
        * rewrite status_view, v_on_tracing in O. congruence.
        * intros _. left. apply off_nothing.
      + (* AUpdate *) destruct O as [O _]. apply Sec in O as [O1 [O2 O3]]. inversion E; subst; clear E. cbn. split.
        * rewrite status_view, v_on_tracing in O2. congruence.
        * intros _. right. right. split; auto. rewrite O3, status_view, v_cfg_configuration. reflexivity.
      + (* AGetStatus *) destruct (getStatus (reg s0) category) as [i r0] eqn:Eg. injection E as <- <-. cbn.
        pose proof (getStatus_spec (reg s0) category (g_reg _ _ _ I)) as S. rewrite Eg in S. destruct S as [_ [_ [_ [S1 [S2 _]]]]]. rewrite S1, S2.
        apply Inert. reflexivity.
      + (* ACfgSet *) apply Sec in O as [C1 C2]. inversion E; subst; clear E. cbn. apply (lists_now_snoc csz); auto; easy.
      + (* AEmit *) apply Sec in O as [L K]. inversion E; subst; clear E. cbn. apply (lists_now_snoc csz); auto.
        * intros u o ->. destruct K as [[o' [_ K]]|[h [x K]]]; [|easy]. cbn in K. injection K as -> ->. apply off_nothing.
        * intros u g m ->. destruct K as [[o' [K _]]|[h [x K]]]; easy.
      + (* ANote *) destruct O as [o [x [-> O]]]. inversion E; subst; clear E. cbn. apply Inert. exact O.
      + (* AFree *) destruct O as [O1 [O2 [q [O3 [O4 O5]]]]]. inversion E; subst; clear E. cbn. destruct (Hf (bufp s0)) as [-> ->].
        apply (lists_now_snoc csz); auto; try easy. apply (g_mine _ _ _ I) in O2. destruct (g_after _ _ _ I _ _ O3 O2) as [_ ->]. exact O4.
  Qed.
End Lists.

(** ** The gate *)

Record gph := {
  c_op : option op;        (* the current call *)
  c_know : option nat;     (* slot found for the category of the trace point *)
  c_gate : bool;           (* that slot was enabled when tested *)
  c_grp : option nat;      (* number of groups found by getStats *)
  c_held : bool;           (* holds the lock *)
  c_off : bool;            (* holds the lock and knows that tracing is off *)
}.

Definition begin_c (o : op) : gph := {| c_op := Some o; c_know := None; c_gate := false; c_grp := None; c_held := false; c_off := false |}.

Section Gate.
  Variables cap csz : N.
  Variable site_cat : nat -> bytes.

  Definition okC (t : tid) (ph : gph) (a : act) : Prop :=
    match a with
    | AStore _ _ e => c_op ph = Some (OLog e) \/ exists x, c_op ph = Some (OMacro x e) /\ c_gate ph = true
    | ASiteSet x i => exists e, c_op ph = Some (OMacro x e) /\ c_know ph = Some i
    | AStatus i => c_know ph = Some i
    | AUnlock e => forall u st, e = Done u OGetStats (RStats st) -> u = t /\ c_op ph = Some OGetStats /\ c_grp ph = Some (ls_groups st)
    | ANote e => forall u st, e <> Done u OGetStats (RStats st)
    | AEmit e => forall u st, e <> Done u OGetStats (RStats st)
    | AHook _ => c_held ph = true
    | _ => True
    end.

  Definition know (ph : gph) (i : nat) : gph :=
    {| c_op := c_op ph; c_know := Some i; c_gate := c_gate ph; c_grp := c_grp ph; c_held := c_held ph; c_off := c_off ph |}.
  Definition gated (ph : gph) : gph :=
    {| c_op := c_op ph; c_know := c_know ph; c_gate := true; c_grp := c_grp ph; c_held := c_held ph; c_off := c_off ph |}.
  Definition counted (ph : gph) (n : nat) : gph :=
    {| c_op := c_op ph; c_know := c_know ph; c_gate := c_gate ph; c_grp := Some n; c_held := c_held ph; c_off := c_off ph |}.
  Definition held (ph : gph) (h o : bool) : gph :=
    {| c_op := c_op ph; c_know := c_know ph; c_gate := c_gate ph; c_grp := c_grp ph; c_held := h; c_off := o |}.

  Definition postC (t : tid) (ph : gph) (a : act) : ans a -> gph -> Prop :=
    match a return ans a -> gph -> Prop with
    | ALdEnabled => fun r ph' => ph' = ph /\ (c_off ph = true -> r = false)
    | ALock => fun _ ph' => ph' = held ph true false
    | ATryLock => fun r ph' => ph' = if r then held ph true false else ph
    | AUnlock _ => fun _ ph' => ph' = held ph false false
    | AStEnabled _ _ => fun _ ph' => ph' = held ph (c_held ph) false
    | AHook _ => fun _ ph' => ph' = held ph true false
    | ASiteGet x => fun r ph' => ph' = match r, c_op ph with Some i, Some (OMacro y _) => if Nat.eqb x y then know ph i else ph | _, _ => ph end
    | AGetStatus c => fun i ph' => ph' = match c_op ph with Some (OMacro y _) => if bytes_eqb (site_cat y) c then know ph i else ph | _ => ph end
    | AStatus i => fun r ph' => ph' = match c_know ph with Some j => if r && Nat.eqb i j then gated ph else ph | None => ph end
    | AStats => fun st ph' => ph' = counted ph (ls_groups st)
    | _ => fun _ ph' => ph' = ph
    end.

  Definition quietC (ph : gph) : Prop := True.

  Notation validC := (valid okC postC quietC).

  (** Code that is valid in every phase, or in every phase that holds the lock. *)
  Definition plain (t : tid) (c : cmd) : Prop := forall ph, validC t c ph.
  Definition inside (ph : gph) (t : tid) (c : cmd) : Prop := forall b, validC t c (held ph true b).

  Lemma evict_inside ph t k : inside ph t k -> forall n l, inside ph t (evict n l k).
  Proof.
    intros K n. induction n as [|n IH]; intros l b; cbn; auto. do 4 (split; [easy|]; intros ? ph1 ->). now apply IH.
  Qed.

  (** Skip an action that leaves the phase alone. *)
  Ltac sk := cbn [valid]; split; [first [easy|intros ? ?; easy|intros ? ? ?; easy]|let p := fresh "ph" in let X := fresh in intros ? p X; cbn in X; first [subst p|destruct X as [X _]; subst p]].
  Ltac held_ok := first [assumption|reflexivity].

  Lemma stop_inside ph t nr w k : (forall r, inside ph t (k r)) -> inside ph t (stop_lh t nr w k).
  Proof.
    intros K b. unfold stop_lh. sk. destruct r; [|now apply K]. do 2 sk. apply evict_inside. intros b3. do 2 sk.
    match goal with |- context [if ?b then ?x else None] => destruct (if b then x else None) end.
    - split; [reflexivity|]. intros x ph4 ->. apply K.
    - now apply K.
  Qed.

  Lemma start_inside ph t c k : (forall r, inside ph t (k r)) -> inside ph t (start_lh csz t c k).
  Proof.
    intros K b. unfold start_lh. sk. destruct (_ =? 0)%N; [now apply K|]. sk.
    assert (Go : inside ph t (g <- AIncGen;; m0 <- AFactory c g (cf_size c / csz)%N;;
                   match m0 with
                   | MadeThrow x => k (Some x)
                   | _ => ABufSet (made_buffer m0);;; AUpdate (cf_enabled c) (cf_disabled c);;; AClear;;; AStEnabled g m0;;; k None
                   end)).
    { intros b2. do 2 sk. match goal with |- context [match ?x with MadeFixed _ _ => _ | _ => _ end] => destruct x end; try (do 4 sk; now apply K). now apply K. }
    match goal with |- context [if ?b then _ else _] => destruct b end; [|now apply Go]. apply stop_inside. intros [x|]; auto.
  Qed.

  Lemma maybe_gate t g k ph : c_held ph = false -> (forall r ph', c_held ph' = false -> validC t (k r) ph') -> validC t (maybe_stop t g k) ph.
  Proof.
    intros H K. unfold maybe_stop. split; [easy|]. intros got ph1 H1. cbn in H1. destruct got; subst ph1; [|now apply K]. sk.
    match goal with |- context [if ?b then _ else _] => destruct b end.
    - apply (stop_inside ph). intros r1 b2. split; [easy|]. intros _ ph3 ->. now apply K.
    - split; [easy|]. intros _ ph3 ->. now apply K.
  Qed.

  (** Code that keeps the phase. *)
  Lemma replace_kept t k ph : (forall r, validC t (k r) ph) -> validC t (replaceChunk k) ph.
  Proof.
    intros K. unfold replaceChunk.
    assert (Rest : validC t (on <- ALdEnabled;;
      if negb on then k false
      else
        b <- ABufGet;;
        match b with
        | None => k false
        | Some _ =>
            b <- ABufGet;;
            match b with
            | None => ACrash;;; Ret
            | Some b =>
                getChunk b (fun c =>
                AChunkSet c;;;
                k (match c with Some _ => true | None => false end))
            end
        end) ph).
    { split; [easy|]. intros on ph1 [-> _]. destruct on; cbn [negb]; auto. split; [easy|]. intros o ph1 ->. destruct o; auto.
      split; [easy|]. intros o ph1 ->. destruct o; [|split; easy].
      unfold getChunk. split; [easy|]. intros is ph1 ->. destruct is.
      - split; [easy|]. intros _ ph1 ->. split; [easy|]. intros _ ph1 ->. split; [easy|]. intros _ ph1 ->. auto.
      - split; [easy|]. intros _ ph1 ->. auto.
      - split; [easy|]. intros ? ph1 ->. split; [easy|]. intros _ ph1 ->. split; [easy|]. intros _ ph1 ->. split; [easy|]. intros _ ph1 ->. auto. }
    split; [easy|]. intros c ph1 ->. destruct c as [[b0 i]|]; [|exact Rest].
    split; [easy|]. intros o ph1 ->. destruct o; [|split; easy].
    unfold returnChunk. split; [easy|]. intros _ ph1 ->. split; [easy|]. intros _ ph1 ->. split; [easy|]. intros _ ph1 ->. exact Rest.
  Qed.

  Lemma log_gate t e k ph : c_held ph = false -> (c_op ph = Some (OLog e) \/ exists x, c_op ph = Some (OMacro x e) /\ c_gate ph = true) ->
    (forall r ph', c_held ph' = false -> validC t (k r) ph') -> validC t (logEvent t e k) ph.
  Proof.
    intros H A K. unfold logEvent. sk. destruct r; cbn [negb]; [|now apply K].
    sk. destruct r; cbn [negb]; [|now apply K].
    sk. destruct r; cbn [negb]; [|sk; now apply K].
    assert (Store : validC t (c <- AChunkGet;;
            match c with
            | None => ACrash;;; Ret
            | Some (b, i) => x <- AStore b i e;; AUnTenant;;; k x
            end) ph).
    { split; [easy|]. intros c ph1 ->. destruct c as [[b i]|]; [|split; easy]. split; [exact A|]. intros x ph1 ->. sk. now apply K. }
    assert (Refill : validC t (on <- ALdEnabled;;
            if negb on then AUnTenant;;; k None
            else replaceChunk (fun ok =>
              if ok then c <- AChunkGet;;
            match c with
            | None => ACrash;;; Ret
            | Some (b, i) => x <- AStore b i e;; AUnTenant;;; k x
            end
              else g <- ALdGen;; AUnTenant;;; maybe_stop t g k)) ph).
    { sk. destruct r; cbn [negb]; [|sk; now apply K]. apply replace_kept. intros [|]; [exact Store|]. do 2 sk. now apply maybe_gate. }
    split; [easy|]. intros c ph1 ->. destruct c as [[b i]|]; [|exact Refill].
    split; [easy|]. intros full ph1 ->. destruct full; [exact Refill|exact Store].
  Qed.

  Lemma bytes_eqb_refl a : bytes_eqb a a = true.
  Proof. now apply bytes_eqb_eq. Qed.

  Ltac fin := repeat sk; try exact Logic.I.

  Lemma code_gate t o : validC t (code_of csz site_cat t o) (begin_c o).
  Proof.
    destruct o; cbn [code_of]; unfold locked.
    - sk. apply (start_inside (begin_c _)). intros [x|] b; fin.
    - destruct startup; sk; [|fin]. apply (start_inside (begin_c _)). intros [x|] b; fin.
    - sk. apply (stop_inside (begin_c _)). intros [x|] b; fin.
    - unfold getBuffer_lh. do 2 sk. destruct r0; fin.
    - unfold getTraceContext_lh. do 2 sk. destruct r0; fin.
    - fin.
    - do 2 sk. destruct r0; [fin|]. sk. destruct (is_nil name); fin.
    - do 2 sk. destruct r0; cbn [negb]; [|fin].
      assert (Rest : plain t (AReg false;;;
            on <- ALdEnabled;;
            if on then ADeregAdd;;; AUnlock (Done t ODeregister RUnit);;; Ret else ANameDel;;; AUnlock (Done t ODeregister RUnit);;; Ret)).
      { intros ph2. do 2 sk. destruct r1; fin. }
      split; [easy|]. intros c ph1 ->. destruct c as [[b i]|]; [|apply Rest]. split; [easy|]. intros o ph1 ->. destruct o.
      + unfold returnChunk. do 3 sk. apply Rest.
      + sk. apply Rest.
    - fin.
    - sk. split; [easy|]. intros st ph1 ->. split; [|intros; exact Logic.I].
      intros u st' X. inversion X; subst. auto.
    - sk. split; [intros u st X; discriminate X|]. intros _ ph1 ->. exact Logic.I.
    - apply log_gate; [reflexivity|left; reflexivity|]. intros r ph2 H2. fin.
    - unfold macro. split; [easy|]. intros p ph1 H1.
      assert (Gate : forall ph i, c_held ph = false -> c_op ph = Some (OMacro site e) -> c_know ph = Some i ->
                validC t (on <- AStatus i;; if on then logEvent t e (fun r => ANote (Done t (OMacro site e) (out_of r));;; Ret) else ANote (Done t (OMacro site e) (out_of None));;; Ret) ph).
      { intros ph i Hh A B. split; [exact B|]. intros on ph2 H2. cbn in H2. rewrite B, Nat.eqb_refl in H2. destruct on; cbn in H2; subst ph2.
        - apply log_gate; [exact Hh|right; exists site; auto|]. intros r ph3 H3. fin.
        - fin. }
      cbn in H1. rewrite Nat.eqb_refl in H1. destruct p as [i|]; subst ph1.
      + now apply Gate.
      + split; [easy|]. intros i ph2 H2. cbn in H2. rewrite bytes_eqb_refl in H2. subst ph2.
        split; [cbn; eauto|]. intros _ ph2 ->. now apply Gate.
    - sk. split; [reflexivity|]. intros r1 ph1 ->. fin.
    - sk. apply (stop_inside (begin_c _)). intros [x|] b; fin.
  Qed.

  (** A hook hands the same phase to the code after it. *)
  Lemma hook_any t hk k ph : validC t (Act (AHook hk) k) ph -> inside ph t (Act (AHook hk) k).
  Proof. intros [O V] b. split; [reflexivity|]. intros r ph' ->. apply V. reflexivity. Qed.

  Lemma hcode_gate t h hk k ph : validC t (Act (AHook hk) k) ph ->
    validC t (hcode csz t h (Act (AHook hk) k)) (held ph true (match h with HLog _ => true | _ => false end)).
  Proof.
    intros V. pose proof (hook_any _ _ _ _ V) as VA. clear V.
    assert (F : forall r, inside ph t (AEmit (Nested t h r);;; Act (AHook hk) k)) by (intros r b; sk; apply VA).
    destruct h; cbn [hcode].
    - apply start_inside. intros [x|]; apply F.
    - apply stop_inside. intros [x|]; apply F.
    - unfold getBuffer_lh. sk. destruct r; [|sk]; apply F.
    - unfold getTraceContext_lh. sk. destruct r; [|do 2 sk]; apply F.
    - sk. apply F.
    - unfold logEvent. split; [easy|]. intros on ph1 [-> Ho]. rewrite (Ho eq_refl). apply F.
  Qed.

  (** ** The invariant *)

  (** A recorded event belongs to the call its thread is in; if that is a trace
      point, the point's category was found enabled during the call. *)
  Definition gate_ok (h : list hev) : Prop := forall x t b e y, h = x ++ Stored t b e :: y ->
    exists o z, in_call x t o z /\
      (o = OLog e \/ exists site u i, o = OMacro site e /\ In (Looked u (site_cat site) i) x /\ In (Tested t i true) z).

  Definition stats_ok (h : list hev) : Prop := forall x t st y, h = x ++ Done t OGetStats (RStats st) :: y ->
    exists a z1 z2, x = a ++ Invoked t OGetStats :: z1 ++ z2 /\ ls_groups st = group_count (a ++ Invoked t OGetStats :: z1).

  Record call_ok (h : list hev) (t : tid) (ph : gph) (o : op) : Prop := {
    k_in : exists z, in_call h t o z /\
      (c_gate ph = true -> exists site e u i, o = OMacro site e /\ In (Looked u (site_cat site) i) h /\ In (Tested t i true) z) /\
      (forall n, c_grp ph = Some n -> exists z1 z2, z = z1 ++ z2 /\
         forall a, h = a ++ Invoked t o :: z -> n = group_count (a ++ Invoked t o :: z1));
    k_know : forall i, c_know ph = Some i -> exists site e u, o = OMacro site e /\ In (Looked u (site_cat site) i) h;
  }.

  Record GC (s : st) (f : tid -> gph) : Prop := {
    gc_call : forall t o, c_op (f t) = Some o -> call_ok (hist s) t (f t) o;
    gc_none : forall t, c_op (f t) = None -> c_know (f t) = None;
    gc_held : forall t, c_held (f t) = true -> mtx s = Some t;
    gc_off : forall t, c_off (f t) = true -> c_held (f t) = true /\ enabled s = false;
    gc_sites : forall x i, sites s x = Some i -> exists u, In (Looked u (site_cat x) i) (hist s);
    gc_gate : gate_ok (hist s);
    gc_stats : stats_ok (hist s);
  }.

  Lemma call_snoc h t ph o e : call_ok h t ph o -> (forall o', e <> Invoked t o') -> call_ok (h ++ [e]) t ph o.
  Proof.
    intros [[z [[x [E N]] [A B]]] K] Ne. split.
    - exists (z ++ [e]). split; [|split].
      + exists x. split; [now rewrite E, <- app_assoc|]. intros o' Ho. apply in_app_or in Ho as [Ho|[Ho|[]]]; [now apply N in Ho|now apply Ne in Ho].
      + intros G. destruct (A G) as [site [e0 [u [i [E1 [E2 E3]]]]]]. exists site, e0, u, i. repeat split; auto; apply in_or_app; auto.
      + intros n G. destruct (B n G) as [z1 [z2 [-> E2]]]. exists z1, (z2 ++ [e]). split; [now rewrite app_assoc|].
        intros a Ea. apply E2. rewrite app_comm_cons, app_assoc in Ea. apply snoc_inj in Ea. apply Ea.
    - intros i Hi. destruct (K i Hi) as [site [e0 [u [E1 E2]]]]. exists site, e0, u. split; auto. apply in_or_app; auto.
  Qed.

  Lemma in_call_fun h t o z o' z' : in_call h t o z -> in_call h t o' z' -> o = o' /\ z = z'.
  Proof.
    intros [x [-> N]] [x' [E N']]. revert z' N' E. clear -N.
    enough (W : forall x x' z', (forall o', ~ In (Invoked t o') z') -> x ++ Invoked t o :: z = x' ++ Invoked t o' :: z' -> o = o' /\ z = z') by (intros; eapply W; eauto).
    intros y. induction y as [|e y IH]; intros [|e' y'] z' N' E; cbn in E.
    - inversion E; auto.
    - inversion E; subst. destruct (N o'). apply in_or_app. right. now left.
    - inversion E; subst. destruct (N' o). apply in_or_app. right. now left.
    - inversion E. eauto.
  Qed.

  Lemma gate_snoc h e : gate_ok h -> (forall t b x, e = Stored t b x -> exists o z, in_call h t o z /\
      (o = OLog x \/ exists site u i, o = OMacro site x /\ In (Looked u (site_cat site) i) h /\ In (Tested t i true) z)) -> gate_ok (h ++ [e]).
  Proof. intros A B x t b x0 y E. apply split_snoc in E as [[-> [-> E]]|[y' [-> E]]]; eauto. Qed.

  Lemma stats_snoc h e : stats_ok h -> (forall t st, e = Done t OGetStats (RStats st) ->
      exists a z1 z2, h = a ++ Invoked t OGetStats :: z1 ++ z2 /\ ls_groups st = group_count (a ++ Invoked t OGetStats :: z1)) -> stats_ok (h ++ [e]).
  Proof. intros A B x t st y E. apply split_snoc in E as [[-> [-> E]]|[y' [-> E]]]; eauto. Qed.

  (** One event, by a thread that is inside a call. *)
  Definition dull (e : hev) : Prop :=
    (forall u o, e <> Invoked u o) /\ (forall u b x, e <> Stored u b x) /\ (forall u st, e <> Done u OGetStats (RStats st)).

  Lemma GC_gen s f t s' ph' l : GC s f -> hist s' = hist s ++ l -> (l = [] \/ exists e, l = [e] /\ forall u o, e <> Invoked u o) ->
    gate_ok (hist s') -> stats_ok (hist s') ->
    (forall x i, sites s' x = Some i -> exists u, In (Looked u (site_cat x) i) (hist s')) ->
    (forall o, c_op ph' = Some o -> call_ok (hist s') t ph' o) -> (c_op ph' = None -> c_know ph' = None) ->
    (c_held ph' = true -> mtx s' = Some t) -> (c_off ph' = true -> c_held ph' = true /\ enabled s' = false) ->
    (forall u, u <> t -> mtx s = Some u -> mtx s' = Some u /\ enabled s' = enabled s) ->
    GC s' (tset f t ph').
  Proof.
    intros I Eh El Hg Hs Hx Hc Hn Hh Ho Hu.
    assert (Cs : forall u o, c_op (f u) = Some o -> call_ok (hist s') u (f u) o).
    { intros u o E. rewrite Eh. apply (gc_call _ _ I) in E. destruct El as [->|[e [-> N]]]; [now rewrite app_nil_r|]. apply call_snoc; auto. }
    split; auto; intros u; (destruct (Nat.eq_dec u t) as [->|N]; [rewrite tset_same|rewrite tset_other by auto]); auto.
    - apply (gc_none _ _ I).
    - intros H. apply (gc_held _ _ I) in H. now apply Hu.
    - intros H. apply (gc_off _ _ I) in H as [H1 H2]. split; auto. apply (gc_held _ _ I) in H1. destruct (Hu _ N H1) as [_ ->]. auto.
  Qed.

  (** Others cannot interfere with the holder of the lock. *)
  Lemma exec_others s fA t ch a s' r : GA csz s fA -> ok csz t (fA t) a -> exec cap s t ch a = Next s' r ->
    forall u, u <> t -> mtx s = Some u -> mtx s' = Some u /\ enabled s' = enabled s.
  Proof.
    intros I O E u N M.
    assert (Sec : forall F, insec (fA t) F -> mtx s = Some t).
    { intros F HF. apply (g_sec _ _ _ I). unfold insec in HF. now destruct (a_sec (fA t)). }
    assert (Hf : forall o, mtx (free_buf s o) = mtx s /\ enabled (free_buf s o) = enabled s) by (now intros [|]).
    assert (Hg : forall o, mtx (give_buf s o) = mtx s /\ enabled (give_buf s o) = enabled s) by (now intros [|]).
    destruct a; cbn [exec] in E; unfold with_buf, exec_factory in E;
      try (apply Sec in O; congruence);
      repeat match type of E with context [match ?x with _ => _ end] => destruct x eqn:? end;
      try discriminate E; inversion E; subst; clear E; cbn; auto; try congruence;
      first [split; congruence|destruct (Hf (bufp s)) as [-> ->]; auto|destruct (Hg (bufp s)) as [-> ->]; auto].
  Qed.

  Ltac split_if := repeat match goal with |- context [match ?x with _ => _ end] => destruct x eqn:? end; cbn; auto.

  Lemma GC_exec s f t ch a k s' r : reached cap csz site_cat s -> GC s f -> code s t = Act a k -> okC t (f t) a ->
    exec cap s t ch a = Next s' r -> exists ph', postC t (f t) a r ph' /\ GC s' (tset f t ph').
  Proof.
    intros Rs I Ec O E. destruct (allowed _ _ _ _ _ _ _ Rs Ec) as [fA [IA OA]].
    pose proof (exec_others _ _ _ _ _ _ _ IA OA E) as Ot.
    assert (HG := gc_gate _ _ I). assert (HS := gc_stats _ _ I). assert (HX := gc_sites _ _ I).
    assert (HH : c_held (f t) = true -> mtx s = Some t) by apply (gc_held _ _ I).
    assert (HO : c_off (f t) = true -> c_held (f t) = true /\ enabled s = false) by apply (gc_off _ _ I).
    assert (HN : c_op (f t) = None -> c_know (f t) = None) by apply (gc_none _ _ I).
    (* nothing recorded *)
    assert (Quiet : forall s', hist s' = hist s -> (forall x i, sites s' x = Some i -> exists u, In (Looked u (site_cat x) i) (hist s)) ->
              mtx s' = mtx s -> (c_off (f t) = true -> enabled s' = false) ->
              (forall u, u <> t -> mtx s = Some u -> mtx s' = Some u /\ enabled s' = enabled s) -> GC s' (tset f t (f t))).
    { intros s1 E1 E2 E3 E4 E5. apply GC_gen with (s := s) (l := []); auto; rewrite ?E1; auto.
      - now rewrite app_nil_r.
      - apply (gc_call _ _ I).
      - rewrite E3. auto.
      - intros X. split; [now apply HO|auto]. }
    (* one event, and a phase that knows the same *)
    assert (Dull : forall s' e, hist s' = hist s ++ [e] -> dull e -> sites s' = sites s -> forall h o,
              (h = true -> mtx s' = Some t) -> (o = true -> h = true /\ enabled s' = false) ->
              (forall u, u <> t -> mtx s = Some u -> mtx s' = Some u /\ enabled s' = enabled s) -> GC s' (tset f t (held (f t) h o))).
    { intros s1 e E1 [D1 [D2 D3]] E2 h o E3 E4 E5. apply GC_gen with (s := s) (l := [e]); auto; rewrite ?E1, ?E2; auto.
      - right. eauto.
      - apply gate_snoc; auto. intros; subst; now destruct (D2 t0 b x).
      - apply stats_snoc; auto. intros; subst; now destruct (D3 t0 st).
      - intros x i X. apply HX in X as [u X]. exists u. apply in_or_app; auto.
      - intros o' X. apply (gc_call _ _ I) in X. assert (C := call_snoc _ _ _ _ e X (D1 t)). destruct C as [C1 C2]. split; auto. }
    assert (Hh : held (f t) (c_held (f t)) (c_off (f t)) = f t) by (now destruct (f t)).
    assert (Sec : forall F, insec (fA t) F -> mtx s = Some t).
    { intros F HF. apply (g_sec _ _ _ IA). unfold insec in HF. now destruct (a_sec (fA t)). }
    assert (Hf : forall o, hist (free_buf s o) = hist s /\ sites (free_buf s o) = sites s /\ mtx (free_buf s o) = mtx s /\ enabled (free_buf s o) = enabled s) by (now intros [|]).
    assert (Hgv : forall o, hist (give_buf s o) = hist s /\ sites (give_buf s o) = sites s /\ mtx (give_buf s o) = mtx s /\ enabled (give_buf s o) = enabled s) by (now intros [|]).
    destruct a; cbn [exec] in E;
      try (unfold with_buf in E;
           repeat match type of E with context [match ?x with _ => _ end] => destruct x eqn:? end;
           try discriminate E; injection E as <- <-; exists (f t); (split; [reflexivity|]); apply Quiet; auto; intros ?; now apply HO).
    - (* ALdEnabled *) injection E as <- <-. exists (f t). split; [split; [reflexivity|apply HO]|]. apply Quiet; auto. apply HO.
    - (* AXchg *) destruct (enabled s) eqn:En; injection E as <- <-; exists (f t); (split; [reflexivity|]); [|apply Quiet; auto].
      rewrite <- Hh. apply (Dull _ (Off t w)); auto; [easy|]. intros X. now apply HO in X.
    - (* AStEnabled *) injection E as <- <-. eexists. split; [reflexivity|]. apply (Dull _ (On t g m)); auto; easy.
    - (* ALock *) destruct (mtx s) eqn:M; [destruct (Nat.eqb _ _); discriminate E|]. injection E as <- <-. eexists. split; [reflexivity|].
      apply GC_gen with (s := s) (l := []); auto; try easy; [now rewrite app_nil_r| |intros; congruence].
      intros o X. apply (gc_call _ _ I) in X as [X1 X2]. split; auto.
    - (* ATryLock *)
      assert (W : r = false /\ s' = s \/ r = true /\ mtx s = None /\ s' = set_mtx s (Some t)).
      { destruct (mtx s) as [u|] eqn:M; [destruct (Nat.eqb u t)|]; [discriminate E|injection E as <- <-; auto|destruct ch; injection E as <- <-; auto]. }
      clear E. destruct W as [[-> ->]|[-> [M ->]]]; eexists; (split; [reflexivity|]).
      + apply Quiet; auto. apply HO.
      + apply GC_gen with (s := s) (l := []); auto; try easy; [now rewrite app_nil_r|].
        intros o X. apply (gc_call _ _ I) in X as [X1 X2]. split; auto.
    - (* AUnlock *) destruct (owns s t) eqn:Ow; [|discriminate E]. injection E as <- <-. eexists. split; [reflexivity|]. cbn in O.
      assert (Hm : mtx s = Some t) by (unfold owns in Ow; destruct (mtx s); [apply Nat.eqb_eq in Ow; congruence|easy]).
      assert (Ne : forall u o, e <> Invoked u o).
      { unfold ok, insec in OA. destruct (a_sec (fA t)) as [[p q]|]; [|easy]. destruct OA as [_ [X _]]. intros u o ->. discriminate X. }
      apply GC_gen with (s := s) (l := [e]); auto; try easy; cbn; eauto.
      + apply gate_snoc; auto. intros; subst. unfold ok, insec in OA. destruct (a_sec (fA t)) as [[p q]|]; [|easy]. now destruct OA as [_ [X _]].
      + apply stats_snoc; auto. intros u st X. apply O in X as [-> [X1 X2]]. apply (gc_call _ _ I) in X1 as [[z [[x [Z1 Z2]] [_ Z3]]] _].
        destruct (Z3 _ X2) as [z1 [z2 [-> Z4]]]. exists x, z1, z2. auto.
      + intros x i X. apply HX in X as [u X]. exists u. apply in_or_app; auto.
      + intros o X. apply (gc_call _ _ I) in X. apply (call_snoc _ _ _ _ e) in X; auto. destruct X; split; auto.
    - (* ABufTake *) injection E as <- <-. exists (f t). split; [reflexivity|]. destruct (Hgv (bufp s)) as [E1 [E2 [E3 E4]]].
      apply Quiet; cbn; rewrite ?E1, ?E2, ?E3, ?E4; auto. apply HO.
    - (* ABufSet *) injection E as <- <-. exists (f t). split; [reflexivity|]. destruct (Hf (bufp s)) as [E1 [E2 [E3 E4]]].
      apply Quiet; cbn; rewrite ?E1, ?E2, ?E3, ?E4; auto. apply HO.
    - (* AFactory *) exists (f t). split; [reflexivity|]. rewrite <- Hh. unfold exec_factory in E.
      destruct ch, (cf_factory c); try discriminate E;
        try (destruct (N.eqb_spec n0 n) as [->|]; [|discriminate E]); inversion E; subst; clear E; eapply Dull; try reflexivity; auto; easy.
    - (* AStore *) unfold with_buf in E. destruct (b_owner (heap s b)) eqn:Eo; try discriminate E.
      destruct (i <? b_size (heap s b))%N; [|discriminate E]. destruct (chunk_add cap (b_chunk (heap s b) i) e) as [c|y|]; [|injection E as <- <-; exists (f t); split; [reflexivity|]; apply Quiet; auto; apply HO|discriminate E].
      injection E as <- <-. exists (f t). split; [reflexivity|]. cbn in O. cbn in OA. destruct OA as [_ [_ _]].
      apply GC_gen with (s := s) (l := [Stored t b e]); auto; cbn; auto; try (right; eexists; split; [reflexivity|easy]).
      + apply gate_snoc; auto. intros u b0 x X. injection X as <- <- <-. destruct O as [O|[site [O Og]]].
        * apply (gc_call _ _ I) in O as [[z [Z1 _]] _]. eauto.
        * apply (gc_call _ _ I) in O as [[z [Z1 [Z2 _]]] _]. destruct (Z2 Og) as [site' [e' [u [i' [E1 [E2 E3]]]]]]. injection E1 as <- <-.
          exists (OMacro site e), z. split; auto. right. eauto 8.
      + apply stats_snoc; auto. easy.
      + intros x i0 X. apply HX in X as [u X]. exists u. apply in_or_app; auto.
      + intros o X. apply (gc_call _ _ I) in X. apply call_snoc; easy.
    - (* AGetStatus *) destruct (getStatus (reg s) category) as [i r0] eqn:Eg. injection E as <- <-. eexists. split; [reflexivity|].
      set (ph' := match c_op (f t) with Some _ => _ | None => _ end).
      assert (P : c_op ph' = c_op (f t) /\ c_held ph' = c_held (f t) /\ c_off ph' = c_off (f t)) by (subst ph'; split_if).
      destruct P as [P1 [P2 P3]].
      apply GC_gen with (s := s) (l := [Looked t category i]); auto; rewrite ?P2, ?P3; cbn; auto.
      + right. eexists. split; [reflexivity|easy].
      + apply gate_snoc; auto. easy.
      + apply stats_snoc; auto. easy.
      + intros x i0 X. apply HX in X as [u X]. exists u. apply in_or_app; auto.
      + intros o X. rewrite P1 in X.
        pose proof (gc_call _ _ I _ _ X) as K. apply (call_snoc _ _ _ _ (Looked t category i)) in K; [|easy]. subst ph'. rewrite X in *.
        destruct o; auto. destruct (bytes_eqb (site_cat site) category) eqn:Eb; auto. apply bytes_eqb_eq in Eb. destruct K as [K1 K2]. split; auto.
        cbn. intros j [= <-]. exists site, e, t. split; auto. apply in_or_app. right. left. congruence.
      + rewrite P1. intros X. subst ph'. rewrite X in *. auto.
    - (* AStatus *) injection E as <- <-. eexists. split; [reflexivity|]. cbn [exec ans] in *. set (v := status_seen s ch i) in *.
      set (ph' := match c_know (f t) with Some _ => _ | None => _ end).
      assert (P : c_op ph' = c_op (f t) /\ c_held ph' = c_held (f t) /\ c_off ph' = c_off (f t)) by (subst ph'; split_if).
      destruct P as [P1 [P2 P3]].
      apply GC_gen with (s := s) (l := [Tested t i v]); auto; rewrite ?P2, ?P3; cbn; auto.
      + right. eexists. split; [reflexivity|easy].
      + apply gate_snoc; auto. easy.
      + apply stats_snoc; auto. easy.
      + intros x i0 X. apply HX in X as [u X]. exists u. apply in_or_app; auto.
      + intros o X. rewrite P1 in X. fold v.
        pose proof (gc_call _ _ I _ _ X) as K. pose proof (k_know _ _ _ _ K) as Kk. apply (call_snoc _ _ _ _ (Tested t i v)) in K as K'; [|easy].
        subst ph'. destruct (c_know (f t)) as [j|] eqn:Ek; auto. destruct v; cbn; auto. destruct (Nat.eqb_spec i j) as [->|]; auto.
        destruct K' as [[z [Z1 [Z2 Z3]]] K2]. split; [|cbn; now rewrite Ek in *].
        exists z. split; auto. split; [|exact Z3]. intros _. destruct (Kk j eq_refl) as [site [e [u [-> Lk]]]].
        exists site, e, u, j. split; auto. split; [apply in_or_app; auto|].
        destruct K as [[z0 [[x0 [Y1 Y2]] _]] _].
        assert (z = z0 ++ [Tested t j true]) as ->.
        { eapply (in_call_fun (hist s ++ [Tested t j true])); [exact Z1|]. exists x0. split; [now rewrite Y1, <- app_assoc|].
          intros o' Ho. apply in_app_or in Ho as [Ho|[Ho|[]]]; [now apply Y2 in Ho|easy]. }
        apply in_or_app. right. now left.
      + rewrite P1. intros X. subst ph'. apply HN in X. rewrite X. auto.
    - (* ASiteGet *) injection E as <- <-. eexists. split; [reflexivity|].
      set (ph' := match sites s site with Some _ => _ | None => _ end).
      assert (P : c_op ph' = c_op (f t) /\ c_held ph' = c_held (f t) /\ c_off ph' = c_off (f t)) by (subst ph'; split_if).
      destruct P as [P1 [P2 P3]].
      apply GC_gen with (s := s) (l := []); auto; rewrite ?P1, ?P2, ?P3; auto; [now rewrite app_nil_r|..].
      + intros o X. pose proof (gc_call _ _ I _ _ X) as K. subst ph'. rewrite X in *. destruct (sites s site) as [j|] eqn:Es; auto. destruct o; auto.
        destruct (Nat.eqb_spec site site0) as [->|]; auto. destruct K as [K1 K2]. split; auto. cbn. intros i [= <-].
        apply HX in Es as [u Es]. exists site0, e, u. auto.
      + intros X. subst ph'. rewrite X in *. destruct (sites s site); auto.
    - (* ASiteSet *) injection E as <- <-. exists (f t). split; [reflexivity|]. apply Quiet; auto; [|apply HO]. cbn. intros x j X.
      unfold updn in X. destruct (Nat.eqb_spec x site) as [->|]; [|now apply HX]. injection X as <-. destruct O as [e [O1 O2]].
      apply (gc_call _ _ I) in O1 as [_ K]. destruct (K _ O2) as [site' [e' [u [E1 E2]]]]. injection E1 as <- <-. eauto.
    - (* ACfgSet *) injection E as <- <-. exists (f t). split; [reflexivity|]. rewrite <- Hh. apply (Dull _ (Configured t c)); auto; easy.
    - (* AStats *) injection E as <- <-. eexists. split; [reflexivity|]. apply GC_gen with (s := s) (l := []); auto; [now rewrite app_nil_r|].
      cbn. intros o X. apply (gc_call _ _ I) in X as [[z [Z1 [Z2 _]]] K]. split; auto. exists z. split; auto. split; auto. cbn.
      intros n [= <-]. exists z, []. split; [now rewrite app_nil_r|]. intros x Ex. rewrite <- Ex. unfold registry_stats.
      apply reg_ok_count; [apply (g_reg _ _ _ IA)|now apply (reg_inv cap csz site_cat)].
    - (* AEmit *) injection E as <- <-. exists (f t). split; [reflexivity|]. rewrite <- Hh. cbn in O. apply (Dull _ e); auto.
      cbn in OA. unfold insec in OA. destruct (a_sec (fA t)) as [[p q]|]; [|easy]. destruct OA as [_ [[o [-> _]]|[h [r [-> _]]]]]; easy.
    - (* ANote *) injection E as <- <-. exists (f t). split; [reflexivity|]. rewrite <- Hh. cbn in O. apply (Dull _ e); auto.
      destruct OA as [o [r [-> _]]]. split; [easy|]. split; [easy|exact O].
    - (* AFree *) injection E as <- <-. exists (f t). split; [reflexivity|]. rewrite <- Hh. destruct (Hf (bufp s)) as [E1 [E2 [E3 E4]]].
      apply (Dull _ (Freed t)); cbn; rewrite ?E1, ?E2, ?E3, ?E4; auto. easy.
    - (* ATerminate *) injection E as <- <-. exists (f t). split; [reflexivity|]. rewrite <- Hh. apply (Dull _ (Terminated t)); auto; easy.
  Qed.

  Lemma GC_ext s f g : (forall t, g t = f t) -> GC s f -> GC s g.
  Proof.
    intros E []. split; auto; intros t; rewrite E; auto.
  Qed.

  Lemma gate_full s : reached cap csz site_cat s -> inv okC postC quietC GC s.
  Proof.
    intros R.
    { apply (layer cap csz site_cat okC postC quietC GC (fun _ => {| c_op := None; c_know := None; c_gate := false; c_grp := None; c_held := false; c_off := false |})); auto.
      - intros s0 f t c []. split; auto.
      - intros s0 f []. split; auto.
      - intros s0 f t ch a k s' r Rs I _ Ec O E. eapply GC_exec; eauto.
      - intros s0 f t o Rs I _ _ Cl _. exists (begin_c o). split; [apply code_gate|].
        assert (G : GC (emit s0 (Invoked t o)) (tset f t (begin_c o))).
        { destruct I as [I1 I2 I3 I4 I5 I6 I7].
          split; cbn; auto.
          - intros u o'. destruct (Nat.eq_dec u t) as [->|N]; [rewrite tset_same|rewrite tset_other by auto].
            + intros [= <-]. split; [|easy]. exists []. split; [|split; easy]. exists (hist s0). split; auto.
            + intros X. apply call_snoc; auto. intros o1 X1. injection X1 as X1 _. auto.
          - intros u. destruct (Nat.eq_dec u t) as [->|N]; [rewrite tset_same|rewrite tset_other by auto]; auto. 
          - intros u. destruct (Nat.eq_dec u t) as [->|N]; [rewrite tset_same|rewrite tset_other by auto]; auto. easy.
          - intros u. destruct (Nat.eq_dec u t) as [->|N]; [rewrite tset_same|rewrite tset_other by auto]; auto. easy.
          - intros x i X. apply I5 in X as [u X]. exists u. apply in_or_app; auto.
          - apply gate_snoc; auto. easy.
          - apply stats_snoc; auto. easy. }
        destruct (is_destroy o); auto. destruct G; split; auto.
      - intros s0 f t h hk k Rs I Po Ec V. exists (held (f t) true (match h with HLog _ => true | _ => false end)). split; [now apply hcode_gate|].
        destruct V as [O _]. cbn in O. pose proof (gc_held _ _ I _ O) as M. destruct I as [I1 I2 I3 I4 I5 I6 I7].
        split; auto; intros u; (destruct (Nat.eq_dec u t) as [->|N]; [rewrite tset_same|rewrite tset_other by auto]); auto.
        + intros o X. apply I1 in X as [X1 X2]. split; auto.
        + exact (I2 t).
        + cbn. intros X. split; auto. destruct h; try easy. cbn in Po. now apply negb_true_iff in Po.
      - intros s0 f t hk k r Rs I Ec O. exists (held (f t) true false). split; [reflexivity|].
        cbn in O. pose proof (gc_held _ _ I _ O) as M. destruct I as [I1 I2 I3 I4 I5 I6 I7].
        split; auto; intros u; (destruct (Nat.eq_dec u t) as [->|N]; [rewrite tset_same|rewrite tset_other by auto]); auto.
        + intros o X. apply I1 in X as [X1 X2]. split; auto.
        + exact (I2 t).
        + easy.
      - split; cbn; try easy.
        + intros x t b e y E. now destruct x.
        + intros x t st y E. now destruct x.
      - easy. }
  Qed.

  Theorem gate_inv s : reached cap csz site_cat s -> gate_ok (hist s) /\ stats_ok (hist s).
  Proof. intros R. destruct (gate_full s R) as [_ [f [I _]]]. split; [apply (gc_gate _ _ I)|apply (gc_stats _ _ I)]. Qed.

  (** A trace point tests a slot that was found for its category. *)
  Lemma status_known s t i k : reached cap csz site_cat s -> code s t = Act (AStatus i) k -> i < rg_count (reg s).
  Proof.
    intros R E. destruct (gate_full s R) as [_ [f [I V]]]. specialize (V t). rewrite E in V. destruct V as [O _]. cbn in O.
    assert (Lk : exists u c, In (Looked u c i) (hist s)).
    { destruct (c_op (f t)) as [o|] eqn:Eo.
      - destruct (k_know _ _ _ _ (gc_call _ _ I t o Eo) i O) as (x & e & u & _ & L). eauto.
      - rewrite (gc_none _ _ I t Eo) in O. discriminate. }
    destruct Lk as (u & c & Lk). destruct (reg_inv cap csz site_cat s R) as [St _]. destruct (view_inv cap csz site_cat s R) as [g G].
    pose proof (rk_lo _ (g_reg _ _ _ G)) as Lo. apply St in Lk as [[H _]|[-> _]]; [exact H|]. unfold index_category_limit. lia.
  Qed.

  (** ** What a category test shows *)

  Lemma section_calm h x y : all_legal csz h -> h = x ++ y -> section x = [] -> due (status_after x) = None /\ fresh (status_after x) = None.
  Proof.
    intros L. revert y. snoc x; intros y E; [easy|]. rewrite <- app_assoc in E. cbn in E. rewrite section_snoc, status_snoc. unfold advance.
    destruct (inert e) eqn:In; [eauto|]. intros S. pose proof (legal_at _ _ L _ _ _ E In) as [D [F _]].
    destruct e; cbn; auto; now destruct (section x).
  Qed.

  Definition tested_ok (h : list hev) : Prop := forall x t i v y u c, h = x ++ Tested t i v :: y -> In (Looked u c i) x ->
    (tracing x = true -> (v = true <-> switched_by (started_with x) (group_of i c))) /\
    (tracing x = false -> v = true -> switched_by (started_with x) (group_of i c) \/ switched_by (configuration x) (group_of i c)) /\
    (tracing x = false -> section x = [] -> v = false).

  Lemma tested_inv s : reached cap csz site_cat s -> tested_ok (hist s).
  Proof.
    apply (reached_ind cap csz site_cat (fun s => tested_ok (hist s))); try (intros; assumption).
    - intros x t i v y u c E. now destruct x.
    - intros s0 t o _ A x t0 i v y u c E. apply split_snoc in E as [[_ [_ E]]|[y' [-> E]]]; [easy|]. eauto.
    - intros s0 f t ch a s' r R I O A E x t0 i v y u c Ex Lk.
      destruct (exec_hist cap csz site_cat _ _ _ _ _ _ _ I O E) as [[i0 [-> Eh]]|[l [Eh Nl]]].
      + cbn in E. injection E as <- <-. cbn in Ex. apply split_snoc in Ex as [[-> [-> E]]|[y' [-> E]]]; [|eauto].
        injection E as Et Ei Ev. subst t0 i0 v. pose proof (g_reg _ _ _ I) as K. destruct (reg_inv cap csz site_cat _ R) as [St _].
        destruct (lists_inv cap csz site_cat _ R) as [L1 L2]. specialize (St _ _ _ Lk).
        assert (Hi : i < rg_count (reg s0) /\ rg_groups (reg s0) i = group_of i c).
        { unfold group_of. destruct (Nat.eqb_spec i 1) as [->|N].
          - pose proof (rk_lo _ K). split; [lia|]. rewrite (rk_def _ K) by lia. reflexivity.
          - destruct St as [St|[St _]]; [exact St|contradiction]. }
        destruct Hi as [Hi Hg].
        destruct (seen_cases s0 ch i) as [Sv|[Sv So]].
        2:{ rewrite Sv. rewrite (g_on _ _ _ I), status_view, v_on_tracing in So. rewrite So. split; [easy|]. split; easy. }
        rewrite Sv, (rk_stat _ K) by auto. rewrite Hg. unfold switched_by. split; [|split].
        * intros T. specialize (L1 T). unfold config_lists in L1. injection L1 as -> ->. apply calculateEnabled_spec.
        * intros T Hv. destruct (L2 T) as [X|[[_ X]|[_ X]]].
          -- specialize (X (group_of i c)). cbn in X. congruence.
          -- injection X as X1 X2. rewrite X1, X2 in Hv. left. now apply calculateEnabled_spec.
          -- injection X as X1 X2. rewrite X1, X2 in Hv. right. now apply calculateEnabled_spec.
        * intros T Sx. destruct (section_calm (hist s0) (hist s0) [] (g_legal _ _ _ I)) as [D F]; auto; [now rewrite app_nil_r|].
          destruct (L2 T) as [X|[[X _]|[X _]]]; [apply X|congruence|congruence].
      + assert (exists y', hist s0 = x ++ Tested t0 i v :: y') as [y' Ey]; [|eauto].
        rewrite Eh in Ex. clear - Ex Nl. revert y Ex. induction l as [|e l IH] using rev_ind; intros y Ex; [rewrite app_nil_r in Ex; eauto|].
        rewrite app_assoc in Ex. apply split_snoc in Ex as [[-> [E1 E2]]|[y' [-> Ex]]].
        * exfalso. eapply Nl; [apply in_or_app; right; left; reflexivity|]. symmetry. exact E2.
        * apply IH with y'; auto. intros e0 H0. apply Nl, in_or_app. now left.
  Qed.
End Gate.
