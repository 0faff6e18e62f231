(** Threads that end, and ids that are used again. *)
From Verif Require Import Base Model.StringUtils Model.Event Model.Queue Model.Buffer Model.Config Spec.Categories Model.Registry
  Model.Interleave Spec.LogHistory Spec.LogFacts Spec.LogCalls Spec.ThreadLife Model.TraceLog Model.ManyLogs Model.ThreadLife
  Proofs.Interleave Proofs.Registry Proofs.LogFrame Proofs.LogView Proofs.LogViewInv Proofs.LogContract Proofs.LogCalls.

(** * What a history does to the tables under ids *)

Definition tables := (list (N * bytes) * list N)%type.

(** What the holder of the lock has done to the tables and not yet told. *)
Inductive pending := PNone | PSet (n : bytes) | PReg (n : bytes) | PAdd | PDel | PClr.

Section Tables.
  Variable oid : tid -> N.

  Definition part (t : tid) (p : pending) (T : tables) : tables :=
    match p with
    | PNone => T
    | PSet n => (id_name_set (oid t) n (fst T), snd T)
    | PReg n => (id_name_set (oid t) n (fst T), id_del (oid t) (snd T))
    | PAdd => (fst T, id_add (oid t) (snd T))
    | PDel => (id_name_del (oid t) (fst T), snd T)
    | PClr => (id_name_clear (snd T) (fst T), snd T)
    end.

  (** The part that an event stands for. *)
  Definition stands (on : bool) (e : hev) : tid * pending :=
    match e with
    | Done t (ORegister n) RUnit => (t, if is_nil n then PNone else PReg n)
    | Done t ODeregister RUnit => (t, if on then PAdd else PDel)
    | On t _ _ => (t, PClr)
    | _ => (0, PNone)
    end.

  Definition told (on : bool) (T : tables) (e : hev) : tables := let '(t, p) := stands on e in part t p T.

  Definition book (h : list hev) : bool * tables :=
    fold_left (fun x e => (match e with On _ _ _ => true | Off _ _ => false | _ => fst x end, told (fst x) (snd x) e)) h (false, ([], [])).

  Lemma book_snoc h e : book (h ++ [e]) = (match e with On _ _ _ => true | Off _ _ => false | _ => fst (book h) end, told (fst (book h)) (snd (book h)) e).
  Proof. unfold book. now rewrite fold_left_app. Qed.

  Lemma book_tracing h : fst (book h) = tracing h.
  Proof.
    induction h as [|e h IH] using rev_ind; auto. rewrite book_snoc. unfold tracing in *. rewrite fold_left_app. cbn. now rewrite IH.
  Qed.
End Tables.

(** * The code of the calls *)

Record nph := { n_hold : bool; n_pend : pending; n_knows : option bool; n_left : list tid }.
Definition outside : nph := {| n_hold := false; n_pend := PNone; n_knows := None; n_left := [] |}.
Definition inside (p : pending) (b : option bool) (l : list tid) : nph := {| n_hold := true; n_pend := p; n_knows := b; n_left := l |}.

Definition mute (e : hev) : Prop := forall b, snd (stands b e) = PNone.

Definition ends_section (t : tid) (ph : nph) (e : hev) : Prop :=
  match n_pend ph with
  | PNone => mute e
  | PReg n => n <> [] /\ e = Done t (ORegister n) RUnit
  | PAdd => n_knows ph = Some true /\ e = Done t ODeregister RUnit
  | PDel => n_knows ph = Some false /\ e = Done t ODeregister RUnit
  | _ => False
  end.

Definition okN (t : tid) (ph : nph) (a : act) : Prop :=
  match a with
  | ALock | ATryLock => n_hold ph = false
  | AUnlock e => n_hold ph = true /\ ends_section t ph e
  | ANameSet n => n_hold ph = true /\ n_pend ph = PNone /\ n <> []
  | ADeregDel => n_hold ph = true /\ exists n, n_pend ph = PSet n
  | ADeregAdd => n_hold ph = true /\ n_pend ph = PNone /\ n_knows ph = Some true
  | ANameDel => n_hold ph = true /\ n_pend ph = PNone /\ n_knows ph = Some false
  | AClear | AXchg _ | ANames | AHook _ => n_hold ph = true /\ n_pend ph = PNone
  | AStEnabled _ _ => n_hold ph = true /\ n_pend ph = PClr
  | AReg _ => n_hold ph = true /\ n_left ph = []
  | ASnap => n_hold ph = true
  | APick l => n_hold ph = true /\ incl l (n_left ph)
  | AMaster u | AEvict u | AUnMaster u => n_hold ph = true /\ In u (n_left ph)
  | AEmit e | ANote e => mute e /\ (forall t w, e <> Off t w)
  | _ => True
  end.

Definition nextN (ph : nph) (a : act) : ans a -> nph :=
  match a return ans a -> nph with
  | ALock => fun _ => inside PNone None []
  | ATryLock => fun got => if got then inside PNone None [] else ph
  | AUnlock _ => fun _ => outside
  | ALdEnabled => fun on => if n_hold ph then inside (n_pend ph) (Some on) (n_left ph) else ph
  | ANameSet n => fun _ => inside (PSet n) (n_knows ph) (n_left ph)
  | ADeregDel => fun _ => inside (match n_pend ph with PSet n => PReg n | p => p end) (n_knows ph) (n_left ph)
  | ADeregAdd => fun _ => inside PAdd (n_knows ph) (n_left ph)
  | ANameDel => fun _ => inside PDel (n_knows ph) (n_left ph)
  | AClear => fun _ => inside PClr (n_knows ph) (n_left ph)
  | AXchg _ => fun _ => inside PNone None (n_left ph)
  | AStEnabled _ _ => fun _ => inside PNone None (n_left ph)
  | AHook _ => fun _ => inside PNone None []
  | ASnap => fun l => inside (n_pend ph) (n_knows ph) l
  | _ => fun _ => ph
  end.

(** What the thread knows of the answer. *)
Definition postN (t : tid) (ph : nph) (a : act) (r : ans a) (ph' : nph) : Prop :=
  ph' = nextN ph a r /\
  match a return ans a -> Prop with
  | ALdEnabled => fun on => n_hold ph = true -> forall b, n_knows ph = Some b -> on = b
  | APick l => fun u => In u l
  | _ => fun _ => True
  end r.

Definition quietN (ph : nph) : Prop := n_hold ph = false.

Notation validN := (valid okN postN quietN).

Section Code.
  Variable csz : N.
  Variable site_cat : nat -> bytes.
  Variable t : tid.

  Lemma act_N a k ph : okN t ph a -> (forall r, postN t ph a r (nextN ph a r) -> validN t (k r) (nextN ph a r)) -> validN t (Act a k) ph.
  Proof. intros O K. split; auto. intros r ph' P. assert (E : ph' = nextN ph a r) by apply P. subst ph'. auto. Qed.

  Ltac nx := apply act_N; [try (cbn; easy)|intros ?r [_ ?P]; try clear P; cbn [nextN n_hold n_pend n_knows n_left inside]].

  Lemma evict_N n left l k p b : incl left l -> (forall l', validN t k (inside p b l')) -> validN t (evict n left k) (inside p b l).
  Proof.
    revert left. induction n as [|n IH]; intros left Il K; cbn [evict]; auto.
    apply act_N; [now split|]. intros u [_ Hu]. cbn in Hu. cbn [nextN].
    do 3 (apply act_N; [split; auto; now apply Il|]; intros ?r _; cbn [nextN]). apply IH; auto. intros v Hv. apply Il. now apply In_del in Hv.
  Qed.

  Lemma stop_N nr w k b l : (forall r b' l', validN t (k r) (inside PNone b' l')) -> validN t (stop_lh t nr w k) (inside PNone b l).
  Proof.
    intros K. unfold stop_lh. nx. destruct r; auto. nx. nx.
    apply evict_N; [apply incl_refl|]. intros l'. nx. destruct (if _ : bool then _ else _); nx; auto. nx. auto.
  Qed.

  Lemma start_N c k b l : (forall r b' l', validN t (k r) (inside PNone b' l')) -> validN t (start_lh csz t c k) (inside PNone b l).
  Proof.
    intros K. unfold start_lh. nx. destruct (_ =? 0)%N; auto. nx.
    match goal with |- validN t (if r0 then stop_lh _ _ _ (fun r => match r with Some x => _ | None => ?g end) else _) _ => set (go := g) end.
    assert (Mg : forall b' l', validN t go (inside PNone b' l')).
    { intros b' l'. subst go. nx. nx. destruct r2; auto; do 4 nx; auto. }
    destruct r0; auto. apply stop_N. intros [x|] b' l'; auto.
  Qed.

  Lemma maybe_N g k : (forall r, validN t (k r) outside) -> validN t (maybe_stop t g k) outside.
  Proof.
    intros K. unfold maybe_stop. nx. destruct r; auto. nx. destruct (_ =? g)%N.
    - apply stop_N. intros r0 b' l'. nx. auto.
    - nx. auto.
  Qed.

  Lemma log_N e k : (forall r, validN t (k r) outside) -> validN t (logEvent t e k) outside.
  Proof.
    intros K. unfold logEvent. nx. destruct r; cbn [negb]; auto. nx. destruct r; cbn [negb]; auto. nx. destruct r; cbn [negb]; [|nx; auto].
    match goal with |- context [fun ok : bool => if ok then ?st else _] => set (store := st) end.
    assert (Ms : validN t store outside).
    { subst store. nx. destruct r as [[b i]|]; [nx; nx; auto|]. nx. easy. }
    assert (Mr : validN t (on <- ALdEnabled;; if negb on then AUnTenant;;; k None
             else replaceChunk (fun ok => if ok then store else g <- ALdGen;; AUnTenant;;; maybe_stop t g k)) outside).
    { nx. destruct r; cbn [negb]; [|nx; auto].
      set (cont := fun ok : bool => if ok then store else _).
      assert (Mc : forall ok, validN t (cont ok) outside) by (intros [|]; subst cont; cbv beta; auto; nx; nx; now apply maybe_N).
      clearbody cont. unfold replaceChunk, returnChunk, getChunk. nx.
      match goal with |- context [AChunkSet None;;; ?rs] => set (rest := rs) end.
      assert (Mrest : validN t rest outside).
      { subst rest. nx. destruct r0; cbn [negb]; auto. nx. destruct r0 as [b0|]; auto. nx. destruct r0 as [b|]; [|nx; easy].
        nx. destruct r0; [do 3 nx; auto|nx; auto|do 4 nx; auto]. }
      destruct r as [[b0 i]|]; [|exact Mrest]. nx. destruct r as [b|]; [|nx; easy]. do 3 nx. exact Mrest. }
    nx. destruct r as [[b i]|]; [|exact Mr]. nx. destruct r; [exact Mr|exact Ms].
  Qed.

  (** In a locked section that knows that tracing is off. *)
  Lemma log_off_N e k l : (forall r b' l', validN t (k r) (inside PNone b' l')) -> validN t (logEvent t e k) (inside PNone (Some false) l).
  Proof.
    intros K. unfold logEvent. apply act_N; [easy|]. intros r [_ P]. cbn in P. rewrite (P eq_refl false eq_refl). cbn [negb]. apply K.
  Qed.

  Lemma buffer_N k b l : (forall r b' l', validN t (k r) (inside PNone b' l')) -> validN t (getBuffer_lh k) (inside PNone b l).
  Proof. intros K. unfold getBuffer_lh. nx. destruct r; auto. nx. auto. Qed.

  Lemma context_N k b l : (forall r b' l', validN t (k r) (inside PNone b' l')) -> validN t (getTraceContext_lh k) (inside PNone b l).
  Proof. intros K. unfold getTraceContext_lh. nx. destruct r; auto. nx. nx. auto. Qed.

  Lemma locked_N o body :
    (forall k : out -> cmd, (forall r p b l, ends_section t (inside p b l) (Done t o r) -> validN t (k r) (inside p b l)) ->
      validN t (body k) (inside PNone None [])) -> validN t (locked t o body) outside.
  Proof.
    intros H. unfold locked. nx. apply H. intros r0 p b l E. apply act_N; [now split|]. intros ?r _. reflexivity.
  Qed.

  Lemma code_N o : validN t (code_of csz site_cat t o) outside.
  Proof.
    assert (Log : forall e o', mute (Done t o' RUnit) -> (forall x, mute (Done t o' (RThrow x))) ->
              validN t (logEvent t e (fun r => ANote (Done t o' (out_of r));;; Ret)) outside).
    { intros e o' M M'. apply log_N. intros r.
      apply act_N; [cbn; split; [destruct r; [apply M'|apply M]|easy]|].
      intros ?r _. reflexivity. }
    assert (Note : forall o' r, mute (Done t o' r) -> validN t (ANote (Done t o' r);;; Ret) outside).
    { intros o' r M. apply act_N; [now split|]. intros ?r _. reflexivity. }
    destruct o; unfold code_of; try (apply locked_N; intros k K).
    - apply start_N. intros r b l. apply K. now intros b'.
    - destruct startup; apply locked_N; intros k K; [apply start_N; intros r b l|]; apply K; now intros b'.
    - apply stop_N. intros r b l. apply K. now intros b'.
    - apply buffer_N. intros r b l. apply K. now intros b'.
    - apply context_N. intros r b l. apply K. now intros b'.
    - nx. apply Note. now intros b'.
    - nx. destruct r; [apply K; now intros b'|]. nx. destruct (is_nil name) eqn:Nn.
      + apply K. intros b'. cbn. now rewrite Nn.
      + assert (name <> []) by (intros ->; discriminate Nn). nx. apply act_N; [cbn; eauto|]. intros ?r _. cbn [nextN]. cbn [n_pend inside]. apply K. now split.
    - nx. destruct r; cbn [negb]; [|apply K; now intros b'].
      match goal with |- context [returnChunk _ _ (AChunkSet None;;; ?rs)] => set (rest := rs) end.
      assert (R : validN t rest (inside PNone None [])).
      { subst rest. nx. nx. destruct r0; (nx; apply K; now split). }
      nx. destruct r as [[b i]|]; auto. nx. unfold returnChunk. destruct r as [b'|]; [do 3 nx; auto|nx; auto].
    - nx. apply K. now intros b'.
    - nx. apply K. now intros b'.
    - nx. apply Note. now intros b'.
    - apply Log; now intros b'.
    - unfold macro. nx. destruct r as [i|].
      + nx. destruct r; [apply Log; now intros b'|apply Note; now intros b'].
      + do 3 nx. destruct r1; [apply Log; now intros b'|apply Note; now intros b'].
    - nx. apply K. now intros b'.
    - nx. apply stop_N. intros r0 b' l'. nx. destruct r0; [nx; easy|]. nx. apply Note. now intros b2.
  Qed.

  Lemma hcode_N h k b l : (forall b' l', validN t k (inside PNone b' l')) -> (forall e, h = HLog e -> b = Some false) ->
    validN t (hcode csz t h k) (inside PNone b l).
  Proof.
    intros K B. assert (F : forall r b' l', validN t (AEmit (Nested t h r);;; k) (inside PNone b' l')).
    { intros r b' l'. apply act_N; [now split|]. intros ?r _. cbn [nextN]. apply K. }
    destruct h; unfold hcode; cbv zeta.
    - apply start_N. intros r b' l'. apply F.
    - apply stop_N. intros r b' l'. apply F.
    - apply buffer_N. intros r b' l'. apply F.
    - apply context_N. intros r b' l'. apply F.
    - nx. apply F.
    - rewrite (B e eq_refl). apply log_off_N. intros r b' l'. apply F.
  Qed.
End Code.

(** * The invariant *)

Section Life.
  Variables cap csz : N.
  Variable site_cat : nat -> bytes.
  Variable oid : tid -> N.
  Notation reached := (reached cap csz site_cat).
  Notation pstep := (pstep cap csz site_cat).
  Notation lstep := (lstep cap csz site_cat oid).

  Record GN (s : st) (T : tables) (f : tid -> nph) : Prop := {
    gn_hold : forall t, n_hold (f t) = true <-> mtx s = Some t;
    gn_pend : forall t, n_hold (f t) = true -> T = part oid t (n_pend (f t)) (snd (book oid (hist s)));
    gn_free : mtx s = None -> T = snd (book oid (hist s));
    gn_knows : forall t b, n_hold (f t) = true -> n_knows (f t) = Some b -> enabled s = b;
    gn_left : forall t, n_hold (f t) = true -> incl (n_left (f t)) (regd s);
  }.

  Ltac byt u t := destruct (Nat.eq_dec u t) as [->|?N]; [rewrite ?tset_same in *|rewrite ?tset_other in * by auto].

  Lemma book_mute h l : (forall e, In e l -> mute e) -> snd (book oid (h ++ l)) = snd (book oid h).
  Proof.
    induction l as [|e l IH] using rev_ind; intros M; [now rewrite app_nil_r|].
    rewrite app_assoc, book_snoc. cbn [snd]. unfold told. pose proof (M e ltac:(apply in_app_iff; right; now left)) as Me.
    specialize (Me (fst (book oid (h ++ l)))). destruct (stands _ e) as [u p]. cbn in Me. subst p. cbn [part]. apply IH. intros e' H. apply M, in_app_iff. now left.
  Qed.

  (** What most actions leave alone. *)
  Definition locks (a : act) : bool := match a with ALock | ATryLock | AUnlock _ => true | _ => false end.
  Definition switches (a : act) : bool := match a with AXchg _ | AStEnabled _ _ => true | _ => false end.
  Definition tells (a : act) : bool := match a with AStEnabled _ _ | AUnlock _ => true | _ => false end.

  Lemma exec_keeps s t ch a s' r : exec cap s t ch a = Next s' r ->
    (locks a = false -> mtx s' = mtx s) /\ (switches a = false -> enabled s' = enabled s) /\
    ((forall v, a <> AReg v) -> regd s' = regd s).
  Proof.
    intros E.
    destruct a; cbn [exec] in E; unfold with_buf, exec_factory in E;
      repeat match type of E with context [match ?x with _ => _ end] => destruct x eqn:? end;
      try discriminate E; inversion E; subst; clear E; cbn [locks switches];
      repeat split; intros; try discriminate; auto; try reflexivity;
      repeat match goal with
      | |- context [free_buf _ ?x] => destruct x; reflexivity
      | |- context [give_buf _ ?x] => destruct x; reflexivity
      end.
    all: now destruct (H _ eq_refl).
  Qed.

  Lemma exec_mute s t ch a s' r ph : okN t ph a -> tells a = false -> exec cap s t ch a = Next s' r ->
    exists l, hist s' = hist s ++ l /\ forall e, In e l -> mute e.
  Proof.
    intros O Ta E. destruct (exec_events _ _ _ _ _ _ _ E) as (l & El & _ & By & On). exists l. split; auto.
    intros e Hi. destruct (By e Hi) as [Sa|[_ Pe]].
    - destruct a; cbn in Sa; try contradiction; try discriminate Ta; try (subst e); try (now intros b); try (now apply O).
      destruct Sa as (m & ->). now intros b.
    - destruct e; try discriminate Pe; try (now intros ?).
      exfalso. (* On *)
      destruct a; cbn [exec] in E; unfold with_buf, exec_factory in E;
      repeat match type of E with context [match ?x with _ => _ end] => destruct x eqn:? end;
      try discriminate E; try discriminate Ta; inversion E; subst; clear E;
      cbn [hist nbuf heap set_enabled set_mtx set_gen set_bufp set_regd set_cfg set_names set_dereg set_reg set_sites emit set_hist put_ten set_ten put_buf set_heap set_nbuf] in El;
      try (rewrite <- (app_nil_r (hist s)) in El at 1; apply app_inv_head in El; subst l; contradiction Hi);
      try (apply app_inv_head in El; subst l; destruct Hi as [Hi|[]]; discriminate Hi).
      all: try (rewrite <- (app_nil_r (hist s')) in El at 1; apply app_inv_head in El; subst l; contradiction Hi).
      all: try (destruct (bufp s); cbn in El; first [rewrite <- (app_nil_r (hist s)) in El at 1; apply app_inv_head in El; subst l; contradiction Hi
        | apply app_inv_head in El; subst l; destruct Hi as [Hi|[]]; discriminate Hi]).
      all: cbn in O; apply app_inv_head in El; subst l; destruct Hi as [Hi|[]]; subst e; destruct O as [O _]; specialize (O true); discriminate O.
  Qed.

  Lemma GN_same s s' T f t ph' : GN s T f -> mtx s' = mtx s -> enabled s' = enabled s -> regd s' = regd s ->
    snd (book oid (hist s')) = snd (book oid (hist s)) ->
    n_hold ph' = n_hold (f t) -> (n_hold ph' = true -> n_pend ph' = n_pend (f t)) ->
    (n_hold ph' = true -> forall b, n_knows ph' = Some b -> enabled s = b) -> (n_hold ph' = true -> incl (n_left ph') (regd s)) ->
    GN s' T (tset f t ph').
  Proof.
    intros [H P F K L] Em Ee Er Eb Eh Ep Hk Hl. split.
    - intros u. rewrite Em, <- H. byt u t; [now rewrite Eh|easy].
    - intros u Hu. rewrite Eb. byt u t; [rewrite Ep by auto; apply P; congruence|now apply P].
    - rewrite Em, Eb. exact F.
    - intros u b Hu Hb. rewrite Ee. byt u t; [now apply Hk|now apply (K u)].
    - intros u Hu. rewrite Er. byt u t; [now apply Hl|now apply L].
  Qed.

  (** The holder changes the tables. *)
  Lemma GN_part s s' T T' f t ph' : GN s T f -> n_hold (f t) = true -> mtx s' = mtx s -> enabled s' = enabled s -> regd s' = regd s -> hist s' = hist s ->
    n_hold ph' = true -> n_knows ph' = n_knows (f t) -> n_left ph' = n_left (f t) -> T' = part oid t (n_pend ph') (snd (book oid (hist s))) ->
    GN s' T' (tset f t ph').
  Proof.
    intros [H P F K L] Ht Em Ee Er Eb Eh Ek El ET.
    assert (M : mtx s = Some t) by now apply H.
    split.
    - intros u. rewrite Em, <- H. byt u t; [rewrite Eh, Ht|]; easy.
    - intros u Hu. rewrite Eb. byt u t; [exact ET|]. apply H in Hu. congruence.
    - rewrite Em, M. easy.
    - intros u b Hu Hb. rewrite Ee. byt u t; [apply (K t); congruence|now apply (K u)].
    - intros u Hu. rewrite Er. byt u t; [rewrite El; now apply L|now apply L].
  Qed.

  Definition after_act (a : act) (t : tid) (T : tables) : tables :=
    (names_by oid (Act a (fun _ => Ret)) t (snd T) (fst T), dereg_by oid (Act a (fun _ => Ret)) t (snd T)).

  Lemma pair_eta (T : tables) : (fst T, snd T) = T. Proof. now destruct T. Qed.

  Lemma exec_GN s T f t ch a s' r : reached s -> GN s T f -> okN t (f t) a -> exec cap s t ch a = Next s' r ->
    postN t (f t) a r (nextN (f t) a r) /\ GN s' (after_act a t T) (tset f t (nextN (f t) a r)).
  Proof.
    intros R G O E. pose proof G as [H P F K L].
    destruct (exec_keeps _ _ _ _ _ _ E) as (Km & Ke & Kr).
    assert (Id : forall a', locks a' = false -> switches a' = false -> (forall v, a' <> AReg v) -> True) by auto. clear Id.
    assert (Plain : forall ph', locks a = false -> switches a = false -> (forall v, a <> AReg v) -> tells a = false -> after_act a t T = T ->
              n_hold ph' = n_hold (f t) -> n_pend ph' = n_pend (f t) ->
              (n_hold ph' = true -> forall b, n_knows ph' = Some b -> enabled s = b) -> (n_hold ph' = true -> incl (n_left ph') (regd s)) ->
              GN s' (after_act a t T) (tset f t ph')).
    { intros ph' X1 X2 X3 X4 -> X6 X7 X8 X9. destruct (exec_mute _ _ _ _ _ _ _ O X4 E) as (l & El & Ml).
      apply (GN_same s s'); auto. rewrite El. now apply book_mute. }
    assert (Dull : locks a = false -> switches a = false -> (forall v, a <> AReg v) -> tells a = false -> after_act a t T = T -> GN s' (after_act a t T) (tset f t (f t))).
    { intros X1 X2 X3 X4 X5. apply Plain; auto. intros Hh b Eb. now apply (K t). }
    assert (Hist : forall l, hist s' = hist s ++ l -> l = [] -> hist s' = hist s) by (intros l X ->; now rewrite X, app_nil_r).
    destruct a; try (split; [split; [reflexivity|exact Logic.I]|apply Dull; try reflexivity; try easy; apply pair_eta]).
    - (* ALdEnabled *)
      cbn in E. injection E as <- <-. split.
      + split; auto. intros Hh b Eb. now apply (K t).
      + cbn [nextN]. destruct (n_hold (f t)) eqn:Eh; [|apply Dull; try reflexivity; try easy; apply pair_eta].
        apply Plain; try reflexivity; try easy; first [now apply pair_eta|cbn; now rewrite Eh|cbn; intros _ b Eb; now injection Eb|cbn; intros _; now apply L].
    - (* AXchg *)
      split; [now split|]. cbn [nextN]. destruct O as [Oh Op]. assert (M : mtx s = Some t) by now apply H.
      destruct (exec_mute _ _ _ _ _ _ (f t) (conj Oh Op : okN t (f t) (AXchg w)) eq_refl E) as (l & El & Ml).
      assert (Eb : snd (book oid (hist s')) = snd (book oid (hist s))) by (rewrite El; now apply book_mute).
      unfold after_act. cbn. rewrite pair_eta. split.
      + intros u. rewrite (Km eq_refl), <- H. byt u t; [cbn; now rewrite Oh|easy].
      + intros u Hu. rewrite Eb. byt u t; [cbn; rewrite (P t Oh), Op; reflexivity|now apply P].
      + rewrite (Km eq_refl), M. easy.
      + intros u b Hu Hb. byt u t; [discriminate Hb|]. apply H in Hu. congruence.
      + intros u Hu. rewrite (Kr ltac:(easy)). byt u t; [cbn; now apply L|now apply L].
    - (* AStEnabled *)
      split; [now split|]. cbn [nextN]. destruct O as [Oh Op]. assert (M : mtx s = Some t) by now apply H.
      cbn in E. injection E as <- <-. unfold after_act. cbn [names_by dereg_by]. rewrite pair_eta. split; cbn [mtx regd enabled hist emit set_hist set_enabled].
      + intros u. rewrite <- H. byt u t; [cbn; now rewrite Oh|easy].
      + intros u Hu. rewrite book_snoc. cbn [snd]. byt u t; [|apply H in Hu; congruence]. cbn [n_pend inside part]. rewrite (P t Oh), Op.
        unfold told. reflexivity.
      + congruence.
      + intros u b Hu Hb. byt u t; [discriminate Hb|]. apply H in Hu. congruence.
      + intros u Hu. byt u t; [cbn; now apply L|now apply L].
    - (* ALock *)
      split; [now split|]. cbn in E. destruct (mtx s) as [v|] eqn:M; [destruct (Nat.eqb v t); discriminate E|]. injection E as <- <-.
      unfold after_act. cbn [names_by dereg_by nextN]. rewrite pair_eta. split; cbn [mtx regd enabled hist set_mtx].
      + intros u. byt u t; [easy|]. split; [intros Hu; apply H in Hu; discriminate|intros Hu; congruence].
      + intros u Hu. byt u t; [cbn; now apply F|]. apply H in Hu. congruence.
      + discriminate.
      + intros u b Hu Hb. byt u t; [discriminate Hb|]. apply H in Hu. congruence.
      + intros u Hu. byt u t; [easy|]. now apply L.
    - (* ATryLock *)
      split; [now split|]. cbn in E. unfold after_act. cbn [names_by dereg_by nextN]. rewrite pair_eta.
      assert (Fail : s' = s /\ r = false -> GN s' T (tset f t (if r then inside PNone None [] else f t))).
      { intros [-> ->]. apply (GN_same s); auto. intros Hh b Eb. now apply (K t). }
      assert (Got : mtx s = None -> s' = set_mtx s (Some t) -> GN s' T (tset f t (inside PNone None []))).
      { intros M ->. split; cbn [mtx regd enabled hist set_mtx].
        - intros u. byt u t; [easy|]. split; [intros Hu; apply H in Hu; congruence|intros Hu; congruence].
        - intros u Hu. byt u t; [cbn; now apply F|]. apply H in Hu. congruence.
        - discriminate.
        - intros u b Hu Hb. byt u t; [discriminate Hb|]. apply H in Hu. congruence.
        - intros u Hu. byt u t; [easy|]. now apply L. }
      destruct (mtx s) as [v|] eqn:M.
      + destruct (Nat.eqb v t); [discriminate E|]. injection E as <- <-. now apply Fail.
      + destruct ch; injection E as <- <-; first [now apply Fail|now apply Got].
    - (* AUnlock *)
      split; [now split|]. cbn in E. destruct O as [Oh Oe]. assert (M : mtx s = Some t) by now apply H.
      destruct (owns s t); [|discriminate E]. injection E as <- <-.
      unfold after_act. cbn [names_by dereg_by nextN]. rewrite pair_eta. split; cbn [mtx regd enabled hist set_mtx emit set_hist].
      + intros u. byt u t; [easy|]. split; [intros Hu; apply H in Hu; congruence|discriminate].
      + intros u Hu. byt u t; [easy|]. apply H in Hu. congruence.
      + intros _. rewrite book_snoc. cbn [snd]. rewrite (P t Oh). unfold told. rewrite book_tracing.
        assert (En : forall b, n_knows (f t) = Some b -> tracing (hist s) = b).
        { intros b Eb. rewrite <- (K t b Oh Eb), <- v_on_tracing. symmetry. eapply enabled_view; eauto. }
        unfold ends_section in Oe. destruct (n_pend (f t)).
        * specialize (Oe (tracing (hist s))). destruct (stands _ e) as [u p]. cbn in Oe. now subst p.
        * contradiction.
        * destruct Oe as [Nn ->]. cbn [stands]. now destruct n.
        * destruct Oe as [Eb ->]. cbn [stands]. now rewrite (En _ Eb).
        * destruct Oe as [Eb ->]. cbn [stands]. now rewrite (En _ Eb).
        * contradiction.
      + intros u b Hu Hb. byt u t; [discriminate Hb|]. apply H in Hu. congruence.
      + intros u Hu. byt u t; [discriminate Hu|]. now apply L.
    - (* AReg *)
      split; [now split|]. cbn in E. injection E as <- <-. destruct O as [Oh Ol].
      unfold after_act. cbn [names_by dereg_by nextN]. rewrite pair_eta. split; cbn [mtx regd enabled hist set_regd put_ten set_ten].
      + intros u. rewrite <- H. now rewrite tset_id.
      + intros u Hu. rewrite tset_id in *. now apply P.
      + exact F.
      + intros u b Hu Hb. rewrite tset_id in *. now apply (K u).
      + intros u Hu. rewrite tset_id in *. assert (u = t) as -> by (apply H in Hu, Oh; congruence). rewrite Ol. easy.
    - (* ASnap *)
      split; [now split|]. cbn in E. injection E as <- <-. cbn [nextN]. cbn in O.
      unfold after_act. cbn [names_by dereg_by]. rewrite pair_eta. apply (GN_same s); auto; cbn; auto.
      + intros _ b Eb. now apply (K t).
      + intros _. apply incl_refl.
    - (* APick *)
      cbn in E. destruct ch; try discriminate E. destruct (mem u l) eqn:Hu; [|discriminate E]. injection E as <- <-. split; [split; [reflexivity|now apply mem_In]|].
      apply Dull; try reflexivity; try easy. apply pair_eta.
    - (* ANameSet *)
      split; [now split|]. cbn in E. injection E as <- <-. destruct O as (Oh & Op & _).
      apply (GN_part s _ T); auto. unfold after_act. cbn. now rewrite (P t Oh), Op.
    - (* ANameDel *)
      split; [now split|]. cbn in E. injection E as <- <-. destruct O as (Oh & Op & _).
      apply (GN_part s _ T); auto. unfold after_act. cbn. now rewrite (P t Oh), Op.
    - (* ADeregAdd *)
      split; [now split|]. cbn in E. injection E as <- <-. destruct O as (Oh & Op & _).
      apply (GN_part s _ T); auto. unfold after_act. cbn. now rewrite (P t Oh), Op.
    - (* ADeregDel *)
      split; [now split|]. cbn in E. injection E as <- <-. destruct O as (Oh & n & Op).
      apply (GN_part s _ T); auto. unfold after_act. cbn. now rewrite (P t Oh), Op.
    - (* AClear *)
      split; [now split|]. cbn in E. injection E as <- <-. destruct O as (Oh & Op).
      apply (GN_part s _ T); auto. unfold after_act. cbn. now rewrite (P t Oh), Op.
    - (* AHook *)
      discriminate E.
  Qed.

  Lemma mannered_reached s : reached s -> forall u, mannered u (code s u).
  Proof. intros [sched ->] u. apply all_mannered. Qed.

  Lemma reached_step s a s' : reached s -> pstep s a = Some s' -> reached s'.
  Proof. intros [sched ->] E. exists (sched ++ [a]). rewrite run_snoc. unfold move. now rewrite E. Qed.

  Definition tabs (w : life) : tables := (l_names w, l_dereg w).

  (** What the code does with the tables under ids. *)
  Definition booked (w : life) : Prop :=
    reached (l_log w) /\
    (exists f, (forall t, validN t (code (l_log w) t) (f t)) /\ GN (l_log w) (tabs w) f) /\
    (forall h ns, In (h, ns) (l_read w) -> ns = fst (snd (book oid h)) /\ exists z, hist (l_log w) = h ++ z).

  Lemma lstep_do w a w' : lstep w (Do a) = Some w' ->
    l_dangling w = false /\ can_run oid w (thread_of a) = true /\ pstep (l_log w) a = Some (l_log w') /\
    l_stage w' = tset (l_stage w) (thread_of a) Running /\ l_running w' = add (thread_of a) (l_running w) /\
    l_names w' = names_by oid (doing w a) (thread_of a) (l_dereg w) (l_names w) /\
    l_dereg w' = dereg_by oid (doing w a) (thread_of a) (l_dereg w) /\
    l_read w' = l_read w ++ read_by (doing w a) (hist (l_log w)) (l_names w) /\
    l_dangling w' = match visits (doing w a) with Some u => ended w u | None => false end.
  Proof.
    unfold ThreadLife.lstep. destruct (l_dangling w); [easy|]. destruct (can_run oid w (thread_of a)); [|easy].
    destruct (TraceLog.pstep cap csz site_cat (l_log w) a) as [s|]; [|easy]. intros E. injection E as <-. cbn. tauto.
  Qed.

  Lemma lstep_exit w t w' : lstep w (Exit t) = Some w' ->
    l_dangling w = false /\ l_stage w t = Running /\ code (l_log w) t = Ret /\ l_log w' = l_log w /\
    l_stage w' = tset (l_stage w) t Ended /\ l_running w' = del t (l_running w) /\ tabs w' = tabs w /\ l_read w' = l_read w /\ l_dangling w' = false.
  Proof.
    unfold ThreadLife.lstep. destruct (l_dangling w); [easy|]. destruct (l_stage w t); try easy. destruct (code (l_log w) t); [|easy].
    intros E. injection E as <-. cbn. tauto.
  Qed.

  (** A step of the log, seen from the tables. *)
  Lemma pstep_GN s T f a s' : reached s -> GN s T f -> (forall t, validN t (code s t) (f t)) -> pstep s a = Some s' ->
    let c := match a with Step t _ => code s t | _ => Ret end in
    exists f', (forall t, validN t (code s' t) (f' t)) /\ GN s' (names_by oid c (thread_of a) (snd T) (fst T), dereg_by oid c (thread_of a) (snd T)) f'.
  Proof.
    intros R G V E. pose proof G as [H P F K L]. unfold TraceLog.pstep in E. destruct (polite s a) eqn:Po; [|easy]. unfold step in E. destruct (bad s); [easy|].
    assert (Val : forall s1 t c ph, code s1 = code s -> validN t c ph -> forall u, validN u (code (set_cmd s1 t c) u) (tset f t ph u)).
    { intros s1 t c ph Ec Vc u. cbn. rewrite Ec. byt u t; auto. }
    destruct a as [t o|t ch|t h|t r]; cbn [thread_of names_by dereg_by].
    - (* Invoke *)
      pose proof (V t) as Vt. destruct (code s t); [|easy]. destruct (closing s); [easy|]. cbn in Vt. unfold quietN in Vt.
      assert (Gi : GN (emit s (Invoked t o)) T (tset f t outside)).
      { assert (B : snd (book oid (hist (emit s (Invoked t o)))) = snd (book oid (hist s))) by (cbn [hist emit set_hist]; rewrite book_snoc; reflexivity).
        apply (GN_same s); auto; easy. }
      assert (X : s' = set_closing (set_cmd (emit s (Invoked t o)) t (code_of csz site_cat t o)) (Some t) \/ s' = set_cmd (emit s (Invoked t o)) t (code_of csz site_cat t o)).
      { destruct (is_destroy o); [destruct (is_nil (busy s)); [|easy]|]; injection E as <-; auto. }
      exists (tset f t outside). rewrite pair_eta. split.
      + intros u. assert (Ec : code s' u = code (set_cmd (emit s (Invoked t o)) t (code_of csz site_cat t o)) u) by (destruct X as [->| ->]; reflexivity).
        rewrite Ec. apply Val; auto. apply code_N.
      + destruct Gi as [H1 P1 F1 K1 L1]. destruct X as [->| ->]; split; cbn in *; auto.
    - (* Step *)
      pose proof (V t) as Vt. destruct (code s t) as [|x k] eqn:Ec; [easy|]. destruct Vt as [Ok Vk].
      destruct (exec cap s t ch x) as [| |s1 r] eqn:Ex; [easy| |]; injection E as <-.
      + assert (Ea : (names_by oid (Act x k) t (snd T) (fst T), dereg_by oid (Act x k) t (snd T)) = T).
        { destruct x; cbn in Ex; try discriminate Ex; apply pair_eta. }
        rewrite Ea. exists f. split; [exact V|]. split; auto.
      + destruct (exec_GN _ _ _ _ _ _ _ _ R G Ok Ex) as [Po' G'].
        exists (tset f t (nextN (f t) x r)). split.
        * apply Val; [now destruct (exec_frame _ _ _ _ _ _ _ Ex)|]. now apply Vk.
        * assert (Ea : (names_by oid (Act x k) t (snd T) (fst T), dereg_by oid (Act x k) t (snd T)) = after_act x t T) by (unfold after_act; destruct x; reflexivity).
          rewrite Ea. destruct G' as [H1 P1 F1 K1 L1]. split; cbn in *; auto.
    - (* HookDo *)
      destruct (hook_of (code s t)) as [[hk k]|] eqn:Eh; [|easy]. injection E as <-. apply hook_of_some in Eh.
      pose proof (V t) as Vt. rewrite Eh in Vt. destruct Vt as [[Oh Op] Vk]. rewrite pair_eta.
      set (b := match h with HLog _ => Some false | _ => None end).
      exists (tset f t (inside PNone b [])). split.
      + apply Val; auto. apply hcode_N.
        * intros b' l'. rewrite Eh. split; [now split|]. intros r ph' [-> _]. apply Vk. now split.
        * intros e ->. reflexivity.
      + assert (G' : GN s T (tset f t (inside PNone b []))).
        { apply (GN_same s); auto; cbn; auto; [intros _ v Eb|easy].
          destruct h; try discriminate Eb. injection Eb as <-. cbn in Po. now apply negb_true_iff in Po. }
        destruct G' as [H1 P1 F1 K1 L1]. split; cbn in *; auto.
    - (* HookEnd *)
      destruct (hook_of (code s t)) as [[hk k]|] eqn:Eh; [|easy]. injection E as <-. apply hook_of_some in Eh.
      pose proof (V t) as Vt. rewrite Eh in Vt. destruct Vt as [[Oh Op] Vk]. rewrite pair_eta.
      exists (tset f t (inside PNone None [])). split.
      + apply Val; auto. apply (Vk r). now split.
      + assert (G' : GN s T (tset f t (inside PNone None []))) by (apply (GN_same s); auto; cbn; auto; easy).
        destruct G' as [H1 P1 F1 K1 L1]. split; cbn in *; auto.
  Qed.

  Lemma hist_step s a s' : reached s -> pstep s a = Some s' -> exists l, hist s' = hist s ++ l /\ forall e, In e l -> by_thread e = thread_of a.
  Proof. intros R E. destruct (step_events _ _ _ _ _ _ (mannered_reached s R) E) as (l & El & B & _). exists l. split; auto. Qed.

  Lemma read_mtx w a h ns : (exists f, (forall t, validN t (code (l_log w) t) (f t)) /\ GN (l_log w) (tabs w) f) ->
    In (h, ns) (read_by (doing w a) (hist (l_log w)) (l_names w)) -> h = hist (l_log w) /\ ns = l_names w /\ ns = fst (snd (book oid h)).
  Proof.
    intros (f & V & G) Hi. destruct a as [t o|t ch|t h'|t r]; try contradiction Hi. cbn in Hi. pose proof (V t) as Vt.
    destruct (code (l_log w) t) as [|x k]; [easy|]. destruct x; try contradiction Hi. destruct Hi as [Hi|[]]. injection Hi as <- <-.
    split; auto. split; auto. destruct Vt as [[Oh Op] _]. pose proof (gn_pend _ _ _ G t Oh) as E. rewrite Op in E. cbn in E. now rewrite <- E.
  Qed.

  Lemma booked_step w x w' : booked w -> lstep w x = Some w' -> booked w'.
  Proof.
    intros (R & G & Rd) E. destruct x as [a|t].
    - apply lstep_do in E as (_ & _ & Ep & _ & _ & En & Ed & Er & _). split; [eapply reached_step; eauto|]. split.
      + destruct G as (f & V & G). destruct (pstep_GN _ _ _ _ _ R G V Ep) as (f' & V' & G'). exists f'. split; auto.
        unfold tabs. rewrite En, Ed. exact G'.
      + intros h ns Hi. destruct (hist_step _ _ _ R Ep) as (l & El & _). rewrite Er in Hi. apply in_app_or in Hi as [Hi|Hi].
        * destruct (Rd h ns Hi) as (B & z & Ez). split; auto. exists (z ++ l). now rewrite El, Ez, app_assoc.
        * destruct (read_mtx w a h ns G Hi) as (-> & _ & B). split; auto. eauto.
    - apply lstep_exit in E as (_ & _ & _ & El & _ & _ & Et & Er & _). unfold booked. rewrite El, Et, Er. tauto.
  Qed.

  Lemma reached_new : reached log_new. Proof. now exists []. Qed.

  Theorem booked_inv sched : booked (run lstep life_new sched).
  Proof.
    apply (run_inv lstep booked); [apply booked_step|]. split; [apply reached_new|]. split; [|easy].
    exists (fun _ => outside). split; [easy|]. split; cbn; easy.
  Qed.

  (** * Who is running *)

  Record lives (w : life) : Prop := {
    lv_run : forall t, In t (l_running w) <-> l_stage w t = Running;
    lv_one : forall t u, l_stage w t = Running -> l_stage w u = Running -> oid t = oid u -> t = u;
    lv_code : forall t, l_stage w t <> Running -> code (l_log w) t = Ret;
    lv_began : forall e, In e (hist (l_log w)) -> l_stage w (by_thread e) <> NotStarted;
    lv_order : forall x e y d z, hist (l_log w) = x ++ e :: y ++ d :: z -> by_thread e <> by_thread d -> oid (by_thread e) = oid (by_thread d) ->
      l_stage w (by_thread e) = Ended;
  }.

  Lemma lives_step w x w' : booked w -> lives w -> lstep w x = Some w' -> lives w'.
  Proof.
    intros (R & _) [Hr Ho Hc Hb Hd] E. destruct x as [a|t].
    - apply lstep_do in E as (_ & Cr & Ep & Es & Er & _). set (t := thread_of a) in *.
      assert (One : forall u, l_stage w u = Running -> oid u = oid t -> u = t).
      { intros u Hu Eo. unfold can_run in Cr. destruct (l_stage w t) eqn:St; [|now apply Ho|discriminate].
        apply Hr in Hu. rewrite forallb_forall in Cr. specialize (Cr u Hu). rewrite negb_true_iff, N.eqb_neq in Cr. congruence. }
      assert (Ne : l_stage w t <> Ended) by (unfold can_run in Cr; intros X; rewrite X in Cr; discriminate).
      destruct (step_events _ _ _ _ _ _ (mannered_reached _ R) Ep) as (l & El & By & Co). fold t in By, Co.
      change (actor a) with t in *.
      split.
      + intros u. rewrite Er, Es, In_add, Hr. byt u t; intuition congruence.
      + intros u v Hu Hv Eo. rewrite Es in Hu, Hv. byt u t; byt v t; auto; symmetry; now apply One.
      + intros u Hu. rewrite Es in Hu. byt u t; [easy|]. rewrite Co by auto. auto.
      + intros e Hi. rewrite Es. byt (by_thread e) t; [easy|]. rewrite El in Hi. apply in_app_or in Hi as [Hi|Hi]; [auto|now apply By in Hi].
      + intros x e y d z Eh Nt Eo. rewrite El in Eh. rewrite Es.
        assert (Old : forall e0, In e0 (hist (l_log w)) -> by_thread e0 <> t -> oid (by_thread e0) = oid t -> l_stage w (by_thread e0) = Ended).
        { intros e0 Hi N0 Eo0. pose proof (Hb e0 Hi) as Bg. destruct (l_stage w (by_thread e0)) eqn:St; auto; [easy|]. destruct N0. now apply One. }
        assert (Split : forall p q : list hev, hist (l_log w) ++ p = x ++ e :: y ++ d :: z -> (forall v, In v p -> by_thread v = t) -> 
            (exists z', hist (l_log w) = x ++ e :: y ++ d :: z') \/ (by_thread d = t /\ (In e (hist (l_log w)) \/ by_thread e = t))).
          { intros p _ Ep' Bp. assert (Hle : In e (hist (l_log w) ++ p)) by (rewrite Ep'; apply in_app_iff; right; now left).
            replace (x ++ e :: y ++ d :: z) with ((x ++ e :: y) ++ d :: z) in Ep' by now rewrite <- app_assoc.
            symmetry in Ep'. apply app_eq_app in Ep' as (m0 & [(E1 & E2)|(E1 & E2)]).
            - right. split; [apply Bp; rewrite E2; apply in_app_iff; right; now left|]. apply in_app_or in Hle as [X|X]; auto.
            - destruct m0 as [|d' m0].
              + cbn in E2. right. split; [apply Bp; rewrite <- E2; now left|]. apply in_app_or in Hle as [X|X]; auto.
              + cbn in E2. injection E2 as <- E2. left. exists m0. rewrite E1. now rewrite <- app_assoc. }
          destruct (Split _ [] Eh By) as [(z' & Ez)|(Ed & [Ie|Ee])].
        * pose proof (Hd _ _ _ _ _ Ez Nt Eo) as Ee. rewrite tset_other; auto. intros X. rewrite X in Ee. contradiction.
        * rewrite Ed in *. rewrite tset_other by auto. now apply Old.
        * congruence.
    - apply lstep_exit in E as (_ & Sr & Cr & El & Es & Er & _). split.
      + intros u. rewrite Er, Es, In_del, Hr. byt u t; [split; [tauto|discriminate]|tauto].
      + intros u v Hu Hv. rewrite Es in Hu, Hv. byt u t; [discriminate|]. byt v t; [discriminate|]. now apply Ho.
      + intros u Hu. rewrite El. rewrite Es in Hu. byt u t; auto.
      + intros e Hi. rewrite El in Hi. rewrite Es. byt (by_thread e) t; [discriminate|]. auto.
      + intros x e y d z Eh Nt Eo. rewrite El in Eh. rewrite Es. byt (by_thread e) t; auto. eauto.
  Qed.

  Theorem lives_inv sched : lives (run lstep life_new sched).
  Proof.
    cut (booked (run lstep life_new sched) /\ lives (run lstep life_new sched)); [tauto|].
    apply (run_inv lstep (fun w => booked w /\ lives w)).
    - intros w x w' [B L] E. split; [eapply booked_step|eapply lives_step]; eauto.
    - split; [apply (booked_inv [])|]. split; cbn; try easy. intros x e y d z E. now destruct x.
  Qed.

  (** * Visits to tenants *)

  Lemma visit_regd w a u : booked w -> visits (doing w a) = Some u -> In u (regd (l_log w)) /\ exists t, mtx (l_log w) = Some t /\ code (l_log w) t <> Ret.
  Proof.
    intros (_ & (f & V & G) & _) Vi. destruct a as [t o|t ch|t h|t r]; try discriminate Vi. cbn in Vi. pose proof (V t) as Vt.
    destruct (code (l_log w) t) as [|x k] eqn:Ec; [discriminate|]. destruct Vt as [O _].
    assert (X : n_hold (f t) = true /\ In u (n_left (f t))) by (destruct x; try discriminate Vi; injection Vi as ->; exact O).
    destruct X as [Oh Il]. split; [now apply (gn_left _ _ _ G t Oh)|]. exists t. split; [now apply (gn_hold _ _ _ G)|]. rewrite Ec. discriminate.
  Qed.

  Lemma regd_registered s u : reached s -> code s u = Ret -> mem u (regd s) = registered u (hist s).
  Proof.
    intros R C. rewrite <- v_regd_registered.
    destruct (full_inv _ _ _ s R) as (_ & f & G & V). rewrite <- status_view. apply (g_regd _ _ _ G).
    intros M. apply (g_own _ _ _ G) in M. pose proof (V u) as Vu. rewrite C in Vu. cbn in Vu. unfold quiet in Vu. tauto.
  Qed.
End Life.

(** * What the tables say of a history *)

Lemma split_two {A} (x y x0 y0 : list A) a d : x ++ a :: y = x0 ++ d :: y0 ->
  (x0 = x /\ a = d /\ y = y0) \/ (exists y1, y = y1 ++ d :: y0 /\ x0 = x ++ a :: y1) \/ (exists y1, y0 = y1 ++ a :: y /\ x = x0 ++ d :: y1).
Proof.
  revert x0. induction x as [|b x IH]; intros [|b0 x0] E; cbn in E; injection E as E1 E.
  - auto.
  - subst. right. left. exists x0. auto.
  - subst. right. right. exists x. auto.
  - subst b0. destruct (IH _ E) as [(-> & -> & ->)|[(y1 & -> & ->)|(y1 & -> & ->)]]; [auto|right; left; eauto|right; right; eauto].
Qed.

Lemma snoc_cases {A} (x y h : list A) a e : x ++ a :: y = h ++ [e] -> (y = [] /\ x = h /\ a = e) \/ (exists y', y = y' ++ [e] /\ h = x ++ a :: y').
Proof.
  intros E. destruct y as [|e' y' _] using rev_ind.
  - apply app_inj_tail in E as [-> ->]. auto.
  - right. exists y'. rewrite app_comm_cons, app_assoc in E. apply app_inj_tail in E as [E ->]. auto.
Qed.

Section Named.
  Variable oid : tid -> N.

  Lemma departed_snoc i h e : id_departed oid i (h ++ [e]) <->
    (gives_up oid i e /\ tracing h = true) \/ (id_departed oid i h /\ forall m, ~ gives_name oid i m e).
  Proof.
    split.
    - intros (x & d & y & E & Gu & Tr & Nn). symmetry in E. apply snoc_cases in E as [(-> & -> & ->)|(y' & -> & ->)]; [auto|].
      right. split; [|intros m; apply Nn, in_app_iff; right; now left]. exists x, d, y'. repeat split; auto. intros d' m Hi. apply Nn, in_app_iff. auto.
    - intros [[Gu Tr]|[(x & d & y & -> & Gu & Tr & Nn) Ne]]; [exists h, e, []; repeat split; auto; easy|].
      exists x, d, (y ++ [e]). rewrite <- app_assoc. repeat split; auto. intros d' m Hi. apply in_app_or in Hi as [Hi|[<-|[]]]; auto.
  Qed.

  Lemma named_snoc i n h e : id_named oid i n (h ++ [e]) <->
    gives_name oid i n e \/
    (id_named oid i n h /\ (forall m, ~ gives_name oid i m e) /\ (gives_up oid i e -> tracing h = true) /\ (starts e -> ~ id_departed oid i h)).
  Proof.
    split.
    - intros (x & t & y & E & Eo & Nn & Nm & Up). symmetry in E. apply snoc_cases in E as [(-> & -> & <-)|(y' & -> & ->)]; [left; now exists t|].
      right. split; [|split; [|split]].
      + exists x, t, y'. repeat split; auto.
        * intros d m Hi. apply Nm, in_app_iff. auto.
        * rewrite H in Up. destruct (Up y1 e0 (y2 ++ [e])); [now rewrite <- app_assoc|auto|auto].
        * rewrite H in Up. destruct (Up y1 e0 (y2 ++ [e])) as [_ S]; [now rewrite <- app_assoc|auto|]. intros d Hd. apply S, in_app_iff. auto.
      + intros m. apply Nm, in_app_iff. right. now left.
      + intros Gu. now destruct (Up y' e []).
      + intros St (x0 & d & y0 & E & Gu & Tr & Nn0).
        destruct (split_two _ _ _ _ _ _ E) as [(_ & <- & _)|[(y1 & -> & _)|(y1 & -> & _)]].
        * destruct Gu as (u & X & _). discriminate X.
        * destruct (Up y1 d (y0 ++ [e])) as [_ S]; [now rewrite <- app_assoc|auto|]. apply (S e); auto. apply in_app_iff. right. now left.
        * apply (Nn0 (Done t (ORegister n) RUnit) n); [apply in_app_iff; right; now left|]. now exists t.
    - intros [(t & -> & Eo & Nn)|((x & t & y & -> & Eo & Nn & Nm & Up) & Ne & Ue & Se)].
      + exists h, t, []. repeat split; auto; try easy; destruct y1; discriminate.
      + exists x, t, (y ++ [e]). split; [now rewrite <- app_assoc|]. split; auto. split; auto. split.
        * intros d m Hi. apply in_app_or in Hi as [Hi|[<-|[]]]; auto.
        * intros y1 d y2 E Gu. symmetry in E. apply snoc_cases in E as [(-> & -> & ->)|(y' & -> & ->)]; [split; [auto|easy]|].
          destruct (Up y1 d y' eq_refl Gu) as [Tr S]. split; auto. intros d' Hi. apply in_app_or in Hi as [Hi|[<-|[]]]; auto.
          intros St. apply (Se St). exists (x ++ Done t (ORegister n) RUnit :: y1), d, y'. repeat split; auto; [now rewrite <- app_assoc|].
          intros d0 m Hi. apply Nm, in_app_iff. right. now right.
  Qed.

  Lemma id_mem_In i l : id_mem i l = true <-> In i l.
  Proof.
    unfold id_mem. rewrite existsb_exists. split; [intros (j & Hj & E); apply N.eqb_eq in E; now subst|]. intros H. exists i. split; auto. apply N.eqb_refl.
  Qed.

  Lemma NoDup_keys_filter {A} (p : N * A -> bool) l : NoDup (map fst l) -> NoDup (map fst (filter p l)).
  Proof.
    induction l as [|a l IH]; cbn; auto. intros H. inversion H as [|? ? Hn Hd]; subst. destruct (p a); cbn; auto. constructor; auto.
    intros Hi. apply Hn. apply in_map_iff in Hi as (q & E & Hq). apply filter_In in Hq as [Hq _]. rewrite <- E. now apply in_map.
  Qed.

  Definition says_right (h : list hev) (T : tables) : Prop :=
    NoDup (map fst (fst T)) /\ (forall i n, In (i, n) (fst T) <-> id_named oid i n h) /\ (forall i, In i (snd T) <-> id_departed oid i h).

  Lemma In_name_del i j (n : bytes) l : In (i, n) (id_name_del j l) <-> In (i, n) l /\ i <> j.
  Proof. unfold id_name_del. rewrite filter_In, negb_true_iff, N.eqb_neq. cbn. split; intros [A B]; split; congruence. Qed.
  Lemma In_id_del i j l : In i (id_del j l) <-> In i l /\ i <> j.
  Proof. unfold id_del. rewrite filter_In, negb_true_iff, N.eqb_neq. split; intros [A B]; split; congruence. Qed.
  Lemma In_id_add i j l : In i (id_add j l) <-> i = j \/ In i l.
  Proof. unfold id_add. destruct (id_mem j l) eqn:E; cbn; [|intuition congruence]. apply id_mem_In in E. split; auto. now intros [->|H]. Qed.

  Lemma book_right h : says_right h (snd (book oid h)).
  Proof.
    induction h as [|e h IH] using rev_ind.
    - split; [constructor|]. split; cbn.
      + intros i n. split; [easy|]. intros (x & t & y & E & _). now destruct x.
      + intros i. split; [easy|]. intros (x & t & y & E & _). now destruct x.
    - rewrite book_snoc. cbn [snd]. rewrite book_tracing. destruct (snd (book oid h)) as [ns ds]. destruct IH as (ND & Nm & Dp). cbn [fst snd] in *.
      assert (Plain : (forall i n, ~ gives_name oid i n e) -> (forall i, ~ gives_up oid i e) -> ~ starts e -> says_right (h ++ [e]) (ns, ds)).
      { intros A B C. split; auto. split; cbn [fst snd].
        - intros i n. rewrite named_snoc, Nm. split; [intros H; right; split; auto; split; auto; split; [now intros X; apply B in X|easy]|].
          intros [X|[X _]]; auto. now apply A in X.
        - intros i. rewrite departed_snoc, Dp. split; [intros H; right; split; auto|]. intros [[X _]|[X _]]; auto. now apply B in X. }
      assert (G : forall t n i m, gives_name oid i m (Done t (ORegister n) RUnit) <-> i = oid t /\ m = n /\ n <> []).
      { intros t n i m. split; [intros (u & E & <- & Hn); injection E as <- <-; auto|]. intros (-> & -> & Hn). now exists t. }
      assert (U : forall t i, gives_up oid i (Done t ODeregister RUnit) <-> i = oid t).
      { intros t i. split; [intros (u & E & <-); injection E as <-; auto|]. intros ->. now exists t. }
      destruct e; try (apply Plain; [intros ? ? (? & E & _)|intros ? (? & E & _)|intros (? & ? & ? & E)]; discriminate E).
      + (* On *)
        assert (NoN : forall i n, ~ gives_name oid i n (On t g m)) by (intros i n (u & E & _); discriminate E).
        assert (NoU : forall i, ~ gives_up oid i (On t g m)) by (intros i (u & E & _); discriminate E).
        assert (St : starts (On t g m)) by (do 3 eexists; reflexivity).
        unfold told. cbn [stands part fst snd]. split; [|split]; cbn [fst snd].
        * now apply NoDup_keys_filter.
        * intros i n. rewrite named_snoc, <- Nm, <- Dp. unfold id_name_clear. rewrite filter_In, negb_true_iff. cbn [fst].
          assert (Z : id_mem i ds = false <-> ~ In i ds) by (rewrite <- id_mem_In; destruct (id_mem i ds); split; congruence). rewrite Z. split.
          -- intros [Hi Ni]. right. split; auto. split; auto. split; auto. intros X. now apply NoU in X.
          -- intros [X|(Hi & _ & _ & X)]; [now apply NoN in X|]. auto.
        * intros i. rewrite departed_snoc, <- Dp. split; [auto|]. intros [[X _]|[X _]]; auto. now apply NoU in X.
      + (* Done *)
        assert (Thr : forall i n0, (forall n, o <> ORegister n \/ r <> RUnit) -> ~ gives_name oid i n0 (Done t o r)).
        { intros i n0 H (u & E & _). injection E as -> -> ->. destruct (H n0) as [X|X]; now apply X. }
        assert (Thu : forall i, (o <> ODeregister \/ r <> RUnit) -> ~ gives_up oid i (Done t o r)).
        { intros i H (u & E & _). injection E as -> -> ->. destruct H as [X|X]; now apply X. }
        assert (Ths : ~ starts (Done t o r)) by (intros (u & gg & mm & E); discriminate E).
        destruct o as [c|o|sd| | | |n| | | |c|e|si e| |];
          try (apply Plain; auto; intros; [apply Thr; intros; left; discriminate|apply Thu; left; discriminate]).
        * destruct r; try (apply Plain; auto; intros; [apply Thr; intros; right; discriminate|apply Thu; left; discriminate]).
          destruct n as [|c n']; unfold told; cbn [stands is_nil part fst snd].
          -- apply Plain; auto; intros; [rewrite G; intros (_ & _ & X); now apply X|apply Thu; left; discriminate].
          -- set (n := c :: n') in *. assert (Hn : n <> []) by discriminate. split; [|split]; cbn [fst snd].
             ++ unfold id_name_set. cbn. constructor; [|now apply NoDup_keys_filter]. intros Hi. apply in_map_iff in Hi as ((i & m) & E & Hq).
                cbn in E. subst i. apply In_name_del in Hq. tauto.
             ++ intros i m. rewrite named_snoc, <- Nm, G. unfold id_name_set. cbn [In]. rewrite In_name_del. split.
                ** intros [E|[Hi Ni]]; [left; injection E as -> ->; auto|]. right. split; auto. split; [intros m'; rewrite G; tauto|]. split; [|easy].
                   intros X. apply Thu in X; [easy|left; discriminate].
                ** intros [(-> & -> & _)|(Hi & X & _)]; auto. right. split; auto. intros ->. apply (X n). rewrite G. auto.
             ++ intros i. rewrite departed_snoc, <- Dp, In_id_del. split.
                ** intros [Hi Ni]. right. split; auto. intros m. rewrite G. tauto.
                ** intros [[X _]|[Hi X]]; [apply Thu in X; [easy|left; discriminate]|]. split; auto. intros ->. apply (X n). rewrite G. auto.
        * destruct r; try (apply Plain; auto; intros; [apply Thr; intros; left; discriminate|apply Thu; right; discriminate]).
          assert (NoN : forall i m, ~ gives_name oid i m (Done t ODeregister RUnit)) by (intros; apply Thr; intros; left; discriminate).
          unfold told. cbn [stands]. destruct (tracing h) eqn:Tr; cbn [part fst snd]; (split; [|split]); cbn [fst snd]; auto.
          -- intros i m. rewrite named_snoc, <- Nm, Tr. split; [intros H; right; split; auto|intros [X|[X _]]; auto; now apply NoN in X].
          -- intros i. rewrite departed_snoc, <- Dp, In_id_add, U, Tr. split; [intros [->|H]; auto|intros [[-> _]|[H _]]; auto].
          -- now apply NoDup_keys_filter.
          -- intros i m. rewrite named_snoc, <- Nm, U, Tr, In_name_del. split.
             ++ intros [Hi Ni]. right. split; auto.
             ++ intros [X|(Hi & _ & X & _)]; [now apply NoN in X|]. split; auto. intros ->. now discriminate X.
          -- intros i. rewrite departed_snoc, <- Dp, U, Tr. split; [intros H; right; auto|]. intros [[_ X]|[H _]]; [discriminate|auto].
  Qed.
End Named.
