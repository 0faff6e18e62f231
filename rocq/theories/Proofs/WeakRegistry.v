(** The category registry and the status check of trace points, with the memory
    orders they are written with. *)
From Verif Require Import Base Spec.Categories Spec.CategoryHistory Spec.SwitchHistory Model.StringUtils Model.Queue
  Model.Interleave Model.Registry Model.RegistryConc Model.WeakMem Model.WeakRegistry
  Proofs.Strings Proofs.Registry Proofs.Interleave Proofs.WeakMem.
Local Open Scope nat_scope.
Local Arguments after_load : simpl never.
Local Arguments lset : simpl never.
Local Arguments Nat.ltb : simpl never.
Local Arguments tset : simpl never.
Local Opaque calculateEnabled built_in.

(** ** Histories *)

Definition inert (e : list switch_event) : Prop :=
  forall y, In y e -> match y with SPlaced _ _ | SRegistered _ _ _ => False | _ => True end.

Lemma switches_app h e : switches (h ++ e) = switches h ++ switches e.
Proof. unfold switches. apply flat_map_app. Qed.

Lemma inert_switches e : inert e -> switches e = [].
Proof.
  unfold switches. induction e as [|y e IH]; intros H; [reflexivity|]. cbn [flat_map]. rewrite IH by (intros z Hz; apply H; now right).
  specialize (H y (or_introl eq_refl)). destruct y; try contradiction; reflexivity.
Qed.

Lemma inert_groups h e : inert e -> groups_of (h ++ e) = groups_of h.
Proof.
  intros H. unfold groups_of. rewrite flat_map_app. f_equal. rewrite <- app_nil_r. f_equal.
  induction e as [|y e IH]; [reflexivity|]. cbn [flat_map]. rewrite IH by (intros z Hz; apply H; now right).
  specialize (H y (or_introl eq_refl)). destruct y; try contradiction; reflexivity.
Qed.

Lemma groups_reg h t g i : groups_of (h ++ [SRegistered t g i]) = groups_of h ++ [g].
Proof. unfold groups_of. rewrite flat_map_app. cbn. now rewrite app_assoc. Qed.

Lemma groups_placed h t l : groups_of (h ++ [SPlaced t l]) = groups_of h.
Proof. unfold groups_of. rewrite flat_map_app. cbn. now rewrite app_nil_r. Qed.

Lemma in_snoc_split {A} (h : list A) e p x s :
  h ++ [e] = p ++ x :: s -> (s = [] /\ p = h /\ e = x) \/ exists s', s = s' ++ [e] /\ h = p ++ x :: s'.
Proof.
  intros E. destruct (exists_last (l := x :: s) ltac:(discriminate)) as (l & y & El).
  rewrite El, app_assoc in E. apply app_inj_tail in E as [E ->].
  destruct l as [|z l]; cbn in El; inversion El; subst.
  - left. now rewrite app_nil_r.
  - right. exists l. auto.
Qed.

Lemma reg_after_inert h e i r : inert e -> registered_after (h ++ e) i r <-> registered_after h i r.
Proof.
  intros H. split.
  - intros [A|(a & t & g & b & E & L)]; [now left|right].
    revert b E H. induction e as [|y e IH] using rev_ind; intros b E H; [rewrite app_nil_r in E; eauto 8|].
    rewrite app_assoc in E. apply in_snoc_split in E as [(-> & -> & ->)|(s' & -> & E)].
    + exfalso. apply (H (SRegistered t g i)). apply in_or_app. right. now left.
    + eapply IH; eauto. intros z Hz. apply H, in_or_app. now left.
  - intros [A|(a & t & g & b & -> & L)]; [now left|right]. exists a, t, g, (b ++ e). now rewrite <- app_assoc.
Qed.

Lemma reg_slot_inert h e : inert e -> (forall a t g i b, h = a ++ SRegistered t g i :: b -> i = length (groups_of a)) ->
  forall a t g i b, h ++ e = a ++ SRegistered t g i :: b -> i = length (groups_of a).
Proof.
  intros H R a t g i. induction e as [|y e IH] using rev_ind; intros b E; [rewrite app_nil_r in E; eauto|].
  rewrite app_assoc in E. apply in_snoc_split in E as [(-> & -> & ->)|(s' & -> & E)].
  - exfalso. apply (H (SRegistered t g i)). apply in_or_app. right. now left.
  - eapply IH; eauto. intros z Hz. apply H, in_or_app. now left.
Qed.

Lemma reg_after_le h i r : registered_after h i r -> r <= length (switches h).
Proof.
  intros [(_ & ->)|(a & t & g & b & -> & ->)]; [lia|]. rewrite switches_app, app_length. lia.
Qed.

Lemma reg_after_snoc h e i r : registered_after (h ++ [e]) i r ->
  registered_after h i r \/ exists t g, e = SRegistered t g i /\ r = length (switches h).
Proof.
  intros [A|(a & t & g & b & E & L)]; [left; now left|]. apply in_snoc_split in E as [(-> & -> & ->)|(s' & -> & E)].
  - right. eauto.
  - left. right. eauto 8.
Qed.

Lemma setting_app h e k : k <= length (switches h) -> setting (h ++ e) k = setting h k.
Proof. intros L. destruct k as [|k]; [reflexivity|]. cbn. rewrite switches_app, app_nth1; [reflexivity|lia]. Qed.

Lemma NoDup_app_snoc {A} (l : list A) x : NoDup l -> ~ In x l -> NoDup (l ++ [x]).
Proof.
  intros N H. apply NoDup_rev in N. rewrite <- (rev_involutive (l ++ [x])). apply NoDup_rev. rewrite rev_app_distr. cbn.
  constructor; [now rewrite <- in_rev|exact N].
Qed.

(** ** The invariant *)

Notation mem := (wmem rval).

Definition wlocked (p : wrpc) : bool :=
  match p with
  | WLCount _ _ | WLScan _ _ _ _ | WWName _ _ _ | WWStat _ _ _ | WWInc _ _ _ | WLRet _ _ _
  | WUList _ | WUCount _ | WUStore _ _ _ | WURet _ => true
  | _ => false
  end.

(** What the holder of the mutex has heard of, or would on taking it. *)
Definition cover (m : mem) : view :=
  match held m reg_mutex with Some t => seen m t | None => left_at m reg_mutex end.

Definition cnt (h : list switch_event) : nat := length (groups_of h).
Definition nsw (h : list switch_event) : nat := length (switches h).

(** A thread with view [v] knows of the names in the first [n] slots. *)
Definition heard_names (m : mem) (v : view) (n : nat) : Prop :=
  forall i e a, i < n -> nth_error (accs m) e = Some a -> a_loc a = name_at i -> a_write a = true -> known v e = true.

(** [ver i n]: how many switches had been placed when the status in slot [i] was
    stored at time [n]. A thread with view [v] sees at least the [r]-th. *)
Definition fresh (m : mem) (ver : nat -> N -> nat) (v : view) (i r : nat) : Prop :=
  forall b, In b (hist m (status_at i)) -> (ts v (status_at i) <= m_to b)%N -> r <= ver i (m_to b).

Definition floor (m : mem) (h : list switch_event) ver v i : Prop :=
  forall r, registered_after h i r -> fresh m ver v i r.

(** Slot [i] is the answer for [name]. *)
Definition slot_ok (h : list switch_event) (name : bytes) (i : nat) : Prop :=
  nth_error (groups_of h) i = Some name \/ (i = 1 /\ cnt h = 250 /\ ~ In name (groups_of h)).

Definition absent (h : list switch_event) (name : bytes) (k : nat) : Prop :=
  forall i, i < k -> nth_error (groups_of h) i <> Some name.

Definition right (m : mem) (h : list switch_event) ver (i : nat) (g : bytes) : Prop :=
  forall b, In b (hist m (status_at i)) ->
  (m_val b = 1%N /\ on_by (setting h (ver i (m_to b))) g) \/ (m_val b = 0%N /\ ~ on_by (setting h (ver i (m_to b))) g).

Definition placed_last (h : list switch_event) (l : option (list bytes * list bytes)) : Prop := setting h (nsw h) = l.

Section WeakRegistry.
  Variable site_cat : nat -> bytes.

  Definition tok (m : mem) (h : list switch_event) ver (t : tid) (v : view) (p : wrpc) : Prop :=
    match p with
    | WRIdle | TSite _ | WULock _ | WUList _ => True
    | TStore s i | TStatus s i => slot_ok h (c_str (site_cat s)) i /\ floor m h ver v i
    | WGCount k name | WGLock k name | WLCount k name =>
        c_str name = name /\ (forall s, k = Some s -> name = c_str (site_cat s))
    | WGScan k name i n => c_str name = name /\ (forall s, k = Some s -> name = c_str (site_cat s)) /\
        n <= cnt h /\ heard_names m v n /\ forall j, j < n -> floor m h ver v j
    | WLScan k name i n => c_str name = name /\ (forall s, k = Some s -> name = c_str (site_cat s)) /\
        n = cnt h /\ i <= n /\ absent h name i
    | WWName k name i => c_str name = name /\ (forall s, k = Some s -> name = c_str (site_cat s)) /\
        i = cnt h /\ i < 250 /\ absent h name i
    | WWStat k name i => c_str name = name /\ (forall s, k = Some s -> name = c_str (site_cat s)) /\
        i = cnt h /\ i < 250 /\ absent h name i /\ plain m (name_at i) = RName name
    | WWInc k name i => c_str name = name /\ (forall s, k = Some s -> name = c_str (site_cat s)) /\
        i = cnt h /\ i < 250 /\ absent h name i /\ plain m (name_at i) = RName name /\ fresh m ver v i (nsw h)
    | WLRet k name i => (forall s, k = Some s -> name = c_str (site_cat s)) /\ slot_ok h name i
    | WUCount l => placed_last h l
    | WUStore l i n => placed_last h l /\ n = cnt h /\ i <= n /\ forall j, j < i -> fresh m ver v j (nsw h)
    | WURet l => placed_last h l /\ forall j, j < cnt h -> fresh m ver v j (nsw h)
    end.

  Record winv (m : mem) (pc : tid -> wrpc) (h : list switch_event) (ver : nat -> N -> nat) : Prop := {
    v_race : races m = [];
    v_held : forall t, wlocked (pc t) = true <-> held m reg_mutex = Some t;
    v_bnd : 3 <= cnt h <= 250;
    v_plain : forall g, In g (groups_of h) -> c_str g = g;
    v_nodup : NoDup (groups_of h);
    v_names : forall i g, nth_error (groups_of h) i = Some g -> plain m (name_at i) = RName g;
    v_lists : forall g, calculateEnabled g (fst (lists_in (plain m lists_at))) (snd (lists_in (plain m lists_at))) = true
                <-> on_by (setting h (nsw h)) g;
    v_count : exists g l, hist m group_count = g :: l /\ chain (fun _ => True) (g :: l) /\ m_val g = N.of_nat (cnt h) /\
                (m_to g <= ts (cover m) group_count)%N;
    v_cmsg : forall b, In b (hist m group_count) -> exists n, m_val b = N.of_nat n /\ n <= cnt h /\
                heard_names m (m_view b) n /\ forall i, i < n -> floor m h ver (m_view b) i;
    v_cacc : forall e a, nth_error (accs m) e = Some a -> a_write a = true \/ a_loc a = lists_at -> known (cover m) e = true;
    v_cfloor : forall i, i < cnt h -> floor m h ver (cover m) i;
    v_cstat : forall i b, In b (hist m (status_at i)) -> (m_to b <= ts (cover m) (status_at i))%N;
    v_acc : forall e a, nth_error (accs m) e = Some a -> a_loc a = lists_at \/
              exists i, a_loc a = name_at i /\ (i < cnt h \/ (i = cnt h /\ exists t k name, pc t = WWStat k name i \/ pc t = WWInc k name i));
    v_mono : forall i a b, In a (hist m (status_at i)) -> In b (hist m (status_at i)) -> (m_to a <= m_to b)%N ->
               ver i (m_to a) <= ver i (m_to b);
    v_ver : forall i b, In b (hist m (status_at i)) -> ver i (m_to b) <= nsw h;
    v_right : forall i g, nth_error (groups_of h) i = Some g -> right m h ver i g;
    v_new : forall i, cnt h <= i -> (forall b, In b (hist m (status_at i)) -> m_val b = 0%N /\ ver i (m_to b) = 0) \/
              (i = cnt h /\ exists t k name, pc t = WWInc k name i /\ right m h ver i name);
    v_site : forall s b, In b (hist m (site_at s)) -> m_val b = 0%N \/
              exists i, m_val b = N.succ (N.of_nat i) /\ slot_ok h (c_str (site_cat s)) i /\ floor m h ver (m_view b) i;
    v_tok : forall t, tok m h ver t (seen m t) (pc t);
    v_given : forall t name i, In (SGiven t name i) h -> slot_ok h name i;
    v_reg : forall a t g i b, h = a ++ SRegistered t g i :: b -> i = cnt a;
  }.

  Lemma fresh_view m ver v v' i r : vle v v' -> fresh m ver v i r -> fresh m ver v' i r.
  Proof. intros (L & _) F b Hb Lb. apply F; auto. specialize (L (status_at i)). lia. Qed.
  Lemma fresh_le m ver v i r r' : r' <= r -> fresh m ver v i r -> fresh m ver v i r'.
  Proof. intros L F b Hb Lb. specialize (F b Hb Lb). lia. Qed.
  Lemma floor_view m h ver v v' i : vle v v' -> floor m h ver v i -> floor m h ver v' i.
  Proof. intros L F r Hr. eapply fresh_view; eauto. Qed.
  Lemma heard_view m v v' n : vle v v' -> heard_names m v n -> heard_names m v' n.
  Proof. intros (_ & L) H i e a Hi Ha Hl Hw. eauto. Qed.

  Lemma tok_view m h ver t v v' p : vle v v' -> tok m h ver t v p -> tok m h ver t v' p.
  Proof.
    intros L. destruct p; cbn; auto; intros H.
    - destruct H as (A & B). split; auto. eapply floor_view; eauto.
    - destruct H as (A & B). split; auto. eapply floor_view; eauto.
    - destruct H as (A & B & C & D & E). split; [|split; [|split; [|split]]]; auto.
      + eapply heard_view; eauto.
      + intros j Hj. eapply floor_view; eauto.
    - destruct H as (A & B & C & D & E & F & G). repeat (split; auto). eapply fresh_view; eauto.
    - destruct H as (A & B & C & D). split; [|split; [|split]]; auto. intros j Hj. eapply fresh_view; eauto.
    - destruct H as (A & D). split; auto. intros j Hj. eapply fresh_view; eauto.
  Qed.

  Lemma slot_lt_cnt h name i : 3 <= cnt h -> slot_ok h name i -> i < cnt h.
  Proof.
    intros B [H|(-> & _)]; [|lia]. unfold cnt. apply nth_error_Some. congruence.
  Qed.

  Lemma tok_out m h ver m' h' ver' u v p : wlocked p = false -> 3 <= cnt h ->
    (forall nm i, slot_ok h nm i -> slot_ok h' nm i) ->
    (forall i, i < cnt h -> floor m h ver v i -> floor m' h' ver' v i) ->
    cnt h <= cnt h' ->
    (forall n, n <= cnt h -> heard_names m v n -> heard_names m' v n) ->
    tok m h ver u v p -> tok m' h' ver' u v p.
  Proof.
    intros Lp B S F C N. destruct p; try discriminate Lp; cbn; auto.
    - intros (X & Y). pose proof (slot_lt_cnt _ _ _ B X). auto.
    - intros (X & Y). pose proof (slot_lt_cnt _ _ _ B X). auto.
    - intros (X & Y & Z & W & V). repeat (split; auto); [lia|]. intros j Hj. apply F; auto. lia.
  Qed.

  Lemma slot_inert h e nm i : inert e -> slot_ok h nm i -> slot_ok (h ++ e) nm i.
  Proof. intros H. unfold slot_ok, cnt. now rewrite inert_groups. Qed.
  Lemma cnt_inert h e : inert e -> cnt (h ++ e) = cnt h.
  Proof. intros H. unfold cnt. now rewrite inert_groups. Qed.
  Lemma nsw_inert h e : inert e -> nsw (h ++ e) = nsw h.
  Proof. intros H. unfold nsw. rewrite switches_app, (inert_switches e) by auto. now rewrite app_nil_r. Qed.
  Lemma placed_inert h e l : inert e -> placed_last h l -> placed_last (h ++ e) l.
  Proof. intros H. unfold placed_last. rewrite nsw_inert by auto. now rewrite setting_app by (unfold nsw; lia). Qed.
  Lemma absent_inert h e nm i : inert e -> absent h nm i -> absent (h ++ e) nm i.
  Proof. intros H. unfold absent. now rewrite inert_groups. Qed.

  (** Nothing that matters changes. *)
  Definition calm (m m' : mem) : Prop :=
    hist m' group_count = hist m group_count /\ (forall i, hist m' (status_at i) = hist m (status_at i)) /\
    (forall x, plain m' x = plain m x) /\
    (forall e a, nth_error (accs m') e = Some a -> nth_error (accs m) e = Some a \/ a_write a = false).

  Lemma fresh_calm m m' ver v i r : calm m m' -> fresh m ver v i r -> fresh m' ver v i r.
  Proof. intros (_ & H & _) F b. rewrite H. apply F. Qed.
  Lemma floor_calm m m' h e ver v i : calm m m' -> inert e -> floor m h ver v i -> floor m' (h ++ e) ver v i.
  Proof. intros C H F r Hr. apply (reg_after_inert h e i r H) in Hr. eapply fresh_calm; eauto. Qed.
  Lemma heard_calm m m' v n : calm m m' -> heard_names m v n -> heard_names m' v n.
  Proof.
    intros (_ & _ & _ & A) H i e a Hi Ha Hl Hw. destruct (A e a Ha) as [X|X]; [eauto|congruence].
  Qed.

  Lemma tok_calm m m' h e ver u v p : calm m m' -> inert e ->
    tok m h ver u v p -> tok m' (h ++ e) ver u v p.
  Proof.
    intros C H. pose proof C as (_ & Ch & Cp & _). destruct p; cbn; auto; rewrite ?cnt_inert, ?nsw_inert, ?Cp by auto.
    - intros (X & Y). split; [now apply slot_inert|]. eapply floor_calm; eauto.
    - intros (X & Y). split; [now apply slot_inert|]. eapply floor_calm; eauto.
    - intros (X & Y & Z & W & V). repeat (split; auto); [eapply heard_calm; eauto|]. intros j Hj. eapply floor_calm; eauto.
    - intros (X & Y & Z & W & V). repeat (split; auto). now apply absent_inert.
    - intros (X & Y & Z & W & V). repeat (split; auto). now apply absent_inert.
    - intros (X & Y & Z & W & V & U). repeat (split; auto). now apply absent_inert.
    - intros (X & Y & Z & W & V & U & T). repeat (split; auto); [now apply absent_inert|]. eapply fresh_calm; eauto.
    - intros (X & Y). split; auto. now apply slot_inert.
    - now apply placed_inert.
    - intros (X & Y & Z & W). split; [now apply placed_inert|]. repeat (split; auto). intros j Hj. eapply fresh_calm; eauto.
    - intros (X & Y). split; [now apply placed_inert|]. intros j Hj. eapply fresh_calm; eauto.
  Qed.

  Definition busy (p : wrpc) : bool := match p with WWStat _ _ _ | WWInc _ _ _ => true | _ => false end.

  Lemma inv_calm m pc h ver m' t p e :
    winv m pc h ver -> calm m m' ->
    (forall s b, In b (hist m' (site_at s)) -> In b (hist m (site_at s)) \/
       exists i, m_val b = N.succ (N.of_nat i) /\ slot_ok h (c_str (site_cat s)) i /\ floor m h ver (m_view b) i) ->
    (forall u, vle (seen m u) (seen m' u)) -> vle (cover m) (cover m') -> races m' = [] ->
    (forall e a, nth_error (accs m') e = Some a -> nth_error (accs m) e = Some a \/
       (a_loc a = lists_at /\ known (cover m') e = true) \/
       (exists i, a_loc a = name_at i /\ (i < cnt h \/ (i = cnt h /\ exists k name, p = WWStat k name i)))) ->
    (forall u, wlocked (tset pc t p u) = true <-> held m' reg_mutex = Some u) ->
    (busy (pc t) = true -> p = pc t) ->
    inert e -> (forall u nm i, In (SGiven u nm i) e -> slot_ok h nm i) ->
    tok m h ver t (seen m' t) p ->
    winv m' (tset pc t p) (h ++ e) ver.
  Proof.
    intros I C Si Ls Lc R A Hd Bz In Gv Tk. pose proof C as (Cg & Ch & Cp & Ca). split; rewrite ?cnt_inert, ?nsw_inert, ?inert_groups by auto.
    - exact R.
    - exact Hd.
    - apply (v_bnd _ _ _ _ I).
    - apply (v_plain _ _ _ _ I).
    - apply (v_nodup _ _ _ _ I).
    - intros i g Hg. rewrite Cp. now apply (v_names _ _ _ _ I).
    - intros g. rewrite Cp, setting_app by (unfold nsw; lia). apply (v_lists _ _ _ _ I).
    - destruct (v_count _ _ _ _ I) as (g & l & E & X & V & T). exists g, l. rewrite Cg. repeat (split; auto).
      destruct Lc as (Lc & _). specialize (Lc group_count). lia.
    - intros b. rewrite Cg. intros Hb. destruct (v_cmsg _ _ _ _ I b Hb) as (n & V & L & N & F). exists n. repeat (split; auto).
      + eapply heard_calm; eauto.
      + intros i Hi. eapply floor_calm; eauto.
    - intros e0 a Ha Hw. destruct (A e0 a Ha) as [X|[(X & Y)|(i & X & _)]].
      + apply Lc. eapply (v_cacc _ _ _ _ I); eauto.
      + exact Y.
      + destruct Hw as [Hw|Hw]; [|rewrite Hw in X; discriminate]. destruct (Ca e0 a Ha) as [Y|Y]; [|congruence].
        apply Lc. eapply (v_cacc _ _ _ _ I); eauto.
    - intros i Hi. eapply floor_calm; eauto. eapply floor_view; [exact Lc|]. now apply (v_cfloor _ _ _ _ I).
    - intros i b. rewrite Ch. intros Hb. pose proof (v_cstat _ _ _ _ I i b Hb). destruct Lc as (Lc & _). specialize (Lc (status_at i)). lia.
    - intros e0 a Ha. destruct (A e0 a Ha) as [X|[(X & Y)|(i & X & [Y|(Y & k & nm & Z)])]]; auto.
      + destruct (v_acc _ _ _ _ I e0 a X) as [Y|(i & Y & Z)]; [now left|right]. exists i. split; [auto|].
        destruct Z as [Z|(Z & u & k & nm & W)]; [now left|right]. split; [auto|]. exists u, k, nm.
        destruct (Nat.eq_dec u t) as [->|Nu]; [|rewrite tset_other by auto; exact W]. rewrite tset_same.
        rewrite Bz; [exact W|]. destruct W as [W|W]; rewrite W; reflexivity.
      + right. exists i. auto.
      + right. exists i. split; [auto|]. right. split; [auto|]. exists t, k, nm. rewrite tset_same. now left.
    - intros i a b. rewrite Ch. apply (v_mono _ _ _ _ I).
    - intros i b. rewrite Ch. apply (v_ver _ _ _ _ I).
    - intros i g Hg b. rewrite Ch. intros Hb. rewrite setting_app by (apply (v_ver _ _ _ _ I); auto). now apply (v_right _ _ _ _ I).
    - intros i Hi. destruct (v_new _ _ _ _ I i Hi) as [X|(X & u & k & nm & Y & Z)]; [left; intros b; rewrite Ch; apply X|right].
      split; [auto|]. exists u, k, nm. split.
      + destruct (Nat.eq_dec u t) as [->|Nu]; [|now rewrite tset_other by auto]. rewrite tset_same, Bz; [exact Y|]. now rewrite Y.
      + intros b. rewrite Ch. intros Hb. rewrite setting_app by (apply (v_ver _ _ _ _ I); auto). now apply Z.
    - intros s b Hb. assert (m_val b = 0%N \/ exists i, m_val b = N.succ (N.of_nat i) /\ slot_ok h (c_str (site_cat s)) i /\ floor m h ver (m_view b) i) as W
        by (destruct (Si s b Hb) as [W|W]; [now apply (v_site _ _ _ _ I)|now right]).
      destruct W as [X|(i & X & Y & Z)]; [now left|right].
      exists i. split; [auto|]. split; [now apply slot_inert|]. eapply floor_calm; eauto.
    - intros u. destruct (Nat.eq_dec u t) as [->|Nu].
      + rewrite tset_same. now apply (tok_calm m).
      + rewrite tset_other by auto. apply (tok_view _ _ _ _ (seen m u)); [apply Ls|]. eapply tok_calm; eauto. apply (v_tok _ _ _ _ I).
    - intros u nm i Hi. apply in_app_or in Hi as [Hi|Hi]; apply slot_inert; auto; [now apply (v_given _ _ _ _ I) in Hi|eauto].
    - apply reg_slot_inert; auto. apply (v_reg _ _ _ _ I).
  Qed.

  Definition keeps (m : mem) (h : list switch_event) ver (m' : mem) ver' : Prop :=
    forall v i r, r <= nsw h -> fresh m ver v i r -> fresh m' ver' v i r.

  Lemma keeps_hist m h ver m' : (forall i, hist m' (status_at i) = hist m (status_at i)) -> keeps m h ver m' ver.
  Proof. intros H v i r _ F b. rewrite H. apply F. Qed.

  Lemma seen_tset (s : tid -> view) t v : vle (s t) v -> forall u, vle (s u) (tset s t v u).
  Proof.
    intros L u. destruct (Nat.eq_dec u t) as [->|N]; [now rewrite tset_same|]. rewrite tset_other by auto. apply vle_refl.
  Qed.

  Lemma cover_mono (m m' : mem) : held m' reg_mutex = held m reg_mutex -> left_at m' reg_mutex = left_at m reg_mutex ->
    (forall u, vle (seen m u) (seen m' u)) -> vle (cover m) (cover m').
  Proof. intros H L S. unfold cover. rewrite H, L. destruct (held m reg_mutex); [apply S|apply vle_refl]. Qed.

  Lemma cover_holder m pc h ver t : winv m pc h ver -> wlocked (pc t) = true -> cover m = seen m t.
  Proof. intros I L. apply (v_held _ _ _ _ I) in L. unfold cover. now rewrite L. Qed.

  Lemma holder_unique m pc h ver t u : winv m pc h ver -> wlocked (pc t) = true -> wlocked (pc u) = true -> u = t.
  Proof. intros I A B. apply (v_held _ _ _ _ I) in A, B. congruence. Qed.

  Lemma held_same m pc h ver (m' : mem) t p : winv m pc h ver -> held m' reg_mutex = held m reg_mutex ->
    wlocked p = wlocked (pc t) -> forall u, wlocked (tset pc t p u) = true <-> held m' reg_mutex = Some u.
  Proof.
    intros I H L u. rewrite H, <- (v_held _ _ _ _ I u). destruct (Nat.eq_dec u t) as [->|N].
    - now rewrite tset_same, L.
    - now rewrite tset_other.
  Qed.

  Lemma winv_ext m pc pc' h ver : (forall u, pc' u = pc u) -> winv m pc h ver -> winv m pc' h ver.
  Proof.
    intros E I. destruct I. split; auto.
    - intros t. now rewrite E.
    - intros e a Ha. destruct (v_acc0 e a Ha) as [X|(i & X & [Y|(Y & t & k & nm & Z)])]; [now left| |]; right; exists i.
      + auto.
      + split; [exact X|]. right. split; [exact Y|]. exists t, k, nm. now rewrite E.
    - intros i Hi. destruct (v_new0 i Hi) as [X|(X & t & k & nm & Y & Z)]; [now left|right]. split; auto.
      exists t, k, nm. now rewrite E.
    - intros t. rewrite E. auto.
  Qed.

  (** Only the view of [t] grows, at most. *)
  Lemma inv_view m pc h ver t v' p e :
    winv m pc h ver -> vle (seen m t) v' -> wlocked p = wlocked (pc t) -> busy (pc t) = false ->
    inert e -> (forall u nm i, In (SGiven u nm i) e -> slot_ok h nm i) ->
    tok m h ver t v' p -> winv (with_seen m t v') (tset pc t p) (h ++ e) ver.
  Proof.
    intros I L Lk B In Gv Tk. apply (inv_calm m); auto.
    - repeat (split; [reflexivity|]). cbn. auto.
    - cbn. now apply seen_tset.
    - apply cover_mono; auto. cbn. now apply seen_tset.
    - cbn. apply (v_race _ _ _ _ I).
    - eapply held_same; eauto.
    - rewrite B. discriminate.
    - cbn. now rewrite tset_same.
  Qed.

  Lemma inv_local m pc h ver t p e :
    winv m pc h ver -> wlocked p = wlocked (pc t) -> busy (pc t) = false ->
    inert e -> (forall u nm i, In (SGiven u nm i) e -> slot_ok h nm i) ->
    tok m h ver t (seen m t) p -> winv m (tset pc t p) (h ++ e) ver.
  Proof.
    intros I Lk B In Gv Tk. apply (inv_calm m); auto.
    - repeat (split; [reflexivity|]). cbn. auto.
    - intros; apply vle_refl.
    - apply vle_refl.
    - apply (v_race _ _ _ _ I).
    - eapply held_same; eauto.
    - rewrite B. discriminate.
  Qed.

  Lemma inv_load m pc h ver t acq x c v m' p e :
    winv m pc h ver -> wload m t acq x c = Some (v, m') -> wlocked p = wlocked (pc t) -> busy (pc t) = false ->
    inert e -> (forall u nm i, In (SGiven u nm i) e -> slot_ok h nm i) ->
    (forall b, nth_error (hist m x) c = Some b -> (ts (seen m t) x <= m_to b)%N -> v = m_val b ->
       tok m h ver t (after_load (seen m t) acq x b) p) ->
    winv m' (tset pc t p) (h ++ e) ver /\ forall i, hist m' (status_at i) = hist m (status_at i).
  Proof.
    intros I E Lk B In Gv Tk. unfold wload in E. destruct (nth_error (hist m x) c) as [b|] eqn:Eb; [|discriminate].
    destruct (ts (seen m t) x <=? m_to b)%N eqn:Lt; [|discriminate]. injection E as E1 E2. subst v m'. split; [|reflexivity].
    apply inv_view; auto; [apply after_load_le|]. apply Tk; auto. now apply N.leb_le.
  Qed.

  Lemma tset_pc_same (pc : tid -> wrpc) t u : tset pc t (pc t) u = pc u.
  Proof. destruct (Nat.eq_dec u t) as [->|N]; [now rewrite tset_same|now rewrite tset_other]. Qed.

  (** A plain variable is read. *)
  Definition may_read (m : mem) (h : list switch_event) (t : tid) (lk : bool) (p : wrpc) (x : loc) : Prop :=
    (x = lists_at /\ lk = true) \/
    exists i, x = name_at i /\ (i < cnt h \/ (i = cnt h /\ exists k nm, p = WWStat k nm i)) /\
      (lk = true \/ exists n, i < n /\ heard_names m (seen m t) n).

  Lemma inv_read m pc h ver t x p e :
    winv m pc h ver -> may_read m h t (wlocked (pc t)) p x -> wlocked p = wlocked (pc t) ->
    (busy (pc t) = true -> p = pc t) ->
    inert e -> (forall u nm i, In (SGiven u nm i) e -> slot_ok h nm i) ->
    tok m h ver t (seen m t) p -> winv (snd (wread m t x)) (tset pc t p) (h ++ e) ver.
  Proof.
    intros I Mr Lk B In Gv Tk.
    assert (ordered (seen m t) x false 0 (accs m) = true) as O.
    { apply ordered_spec. intros i a Ha Hl [W|W]; [discriminate|]. cbn [Nat.add].
      assert (wlocked (pc t) = true -> known (seen m t) i = true) as K.
      { intros L. rewrite <- (cover_holder _ _ _ _ t I L). eapply (v_cacc _ _ _ _ I); eauto. }
      destruct Mr as [(-> & L)|(j & -> & _ & [L|(n & L & H)])]; auto. eapply H; eauto. }
    assert (forall u, vle (seen m u) (tset (seen m) t (vknow (seen m t) (length (accs m))) u)) as Ls
      by (apply seen_tset, vle_vknow).
    apply (inv_calm m); auto.
    - split; [reflexivity|]. split; [reflexivity|]. split.
      + intros y. cbn. destruct (loc_eqb y x) eqn:Y; [apply loc_eqb_eq in Y as ->; apply lset_same|].
        apply lset_other. intros ->. now rewrite loc_eqb_refl in Y.
      + cbn. intros e0 a Ha. destruct (Nat.lt_ge_cases e0 (length (accs m))) as [L|L].
        * rewrite nth_error_app1 in Ha by auto. now left.
        * rewrite nth_error_app2 in Ha by auto. destruct (e0 - length (accs m)) as [|[|?]]; [|discriminate|discriminate].
          injection Ha as <-. now right.
    - apply cover_mono; auto.
    - cbn. rewrite O. apply (v_race _ _ _ _ I).
    - cbn. intros e0 a Ha. destruct (Nat.lt_ge_cases e0 (length (accs m))) as [L|L].
      + rewrite nth_error_app1 in Ha by auto. now left.
      + rewrite nth_error_app2 in Ha by auto. destruct (e0 - length (accs m)) as [|[|?]] eqn:Ee; [|discriminate|discriminate].
        injection Ha as <-. cbn [a_loc]. right. destruct Mr as [(-> & Lt)|(j & -> & C & _)]; [left|right; eauto].
        split; [reflexivity|]. unfold cover. cbn. apply (v_held _ _ _ _ I) in Lt. rewrite Lt, tset_same.
        replace e0 with (length (accs m)) by lia. apply vknow_self.
    - eapply held_same; eauto.
    - cbn. rewrite tset_same. eapply tok_view; eauto. apply vle_vknow.
  Qed.

  Lemma inv_lock m pc h ver t m' p :
    winv m pc h ver -> wlock m t reg_mutex = Some m' -> wlocked p = true -> wlocked (pc t) = false ->
    tok m h ver t (seen m t) p ->
    winv m' (tset pc t p) (h ++ []) ver /\ forall i, hist m' (status_at i) = hist m (status_at i).
  Proof.
    intros I E Lp Lt Tk. unfold wlock in E. destruct (held m reg_mutex) eqn:Hm; [discriminate|]. injection E as <-. split; [|reflexivity].
    apply (inv_calm m); auto.
    - repeat (split; [reflexivity|]). cbn. auto.
    - cbn. apply seen_tset, vle_join_l.
    - unfold cover. cbn. rewrite Hm, lset_same, tset_same. apply vle_join_r.
    - apply (v_race _ _ _ _ I).
    - cbn. rewrite lset_same. intros u. destruct (Nat.eq_dec u t) as [->|N].
      + rewrite tset_same, Lp. split; auto.
      + rewrite tset_other by auto. rewrite (v_held _ _ _ _ I u), Hm. split; [discriminate|congruence].
    - intros B. destruct (pc t); discriminate.
    - intros y [].
    - intros u nm i [].
    - cbn. rewrite tset_same. eapply tok_view; eauto. apply vle_join_l.
  Qed.

  Lemma inv_unlock m pc h ver t p e :
    winv m pc h ver -> wlocked p = false -> wlocked (pc t) = true -> busy (pc t) = false ->
    inert e -> (forall u nm i, In (SGiven u nm i) e -> slot_ok h nm i) ->
    tok m h ver t (seen m t) p -> winv (wunlock m t reg_mutex) (tset pc t p) (h ++ e) ver.
  Proof.
    intros I Lp Lt B In Gv Tk. pose proof (proj1 (v_held _ _ _ _ I t) Lt) as Hm. apply (inv_calm m); auto.
    - repeat (split; [reflexivity|]). cbn. auto.
    - intros; apply vle_refl.
    - unfold cover. cbn. rewrite Hm, !lset_same. apply vle_refl.
    - apply (v_race _ _ _ _ I).
    - cbn. rewrite lset_same. intros u. destruct (Nat.eq_dec u t) as [->|N].
      + rewrite tset_same, Lp. split; discriminate.
      + rewrite tset_other by auto. rewrite (v_held _ _ _ _ I u), Hm. split; [congruence|discriminate].
    - rewrite B. discriminate.
  Qed.

  Lemma status_at_inj i j : status_at i = status_at j -> i = j.
  Proof. unfold status_at. intros [= E]. lia. Qed.
  Lemma name_at_inj i j : name_at i = name_at j -> i = j.
  Proof. unfold name_at. intros [= E]. lia. Qed.
  Lemma site_at_inj i j : site_at i = site_at j -> i = j.
  Proof. unfold site_at. intros [= E]. lia. Qed.

  Lemma wstore_inv (m : mem) t rel x v f n m' : wstore m t rel x v f n = Some m' ->
    (ts (seen m t) x < n)%N /\ exists w, hist m' x = {| m_from := f; m_to := n; m_val := v; m_view := w |} :: hist m x /\
      (forall y, y <> x -> hist m' y = hist m y) /\ plain m' = plain m /\ accs m' = accs m /\ held m' = held m /\
      left_at m' = left_at m /\ races m' = races m /\ seen m' = tset (seen m) t (vat (seen m t) x n) /\
      (rel = true -> w = vat (seen m t) x n).
  Proof.
    unfold wstore. destruct (ts (seen m t) x <? n)%N eqn:L; [|discriminate]. destruct (free f n (hist m x)); [|discriminate].
    cbn [andb]. intros E. injection E as E. subst m'. split; [now apply N.ltb_lt|].
    exists (if rel then vat (seen m t) x n else vat vbot x n). cbn. split; [now rewrite lset_same|].
    split; [intros y Hy; now rewrite lset_other|]. repeat (split; [reflexivity|]). now intros ->.
  Qed.

  (** phosphor-internal.h:74-76 *)
  Lemma inv_site m pc h ver t s i f n m' :
    winv m pc h ver -> pc t = TStore s i -> wstore m t true (site_at s) (N.succ (N.of_nat i)) f n = Some m' ->
    winv m' (tset pc t (TStatus s i)) (h ++ []) ver /\ forall j, hist m' (status_at j) = hist m (status_at j).
  Proof.
    intros I Pc E. apply wstore_inv in E as (_ & w & Hx & Ho & Ep & Ea & Eh & El & Er & Es & Ew). specialize (Ew eq_refl).
    pose proof (v_tok _ _ _ _ I t) as Tk. rewrite Pc in Tk. cbn in Tk. destruct Tk as (So & Fl).
    assert (vle (seen m t) (vat (seen m t) (site_at s) n)) as L by apply vle_vat.
    split; [|intros j; apply Ho; discriminate]. apply (inv_calm m); auto.
    - split; [apply Ho; discriminate|]. split; [intros j; apply Ho; discriminate|]. split; [now rewrite Ep|]. rewrite Ea. auto.
    - intros s0 b. destruct (Nat.eq_dec s0 s) as [->|N].
      + rewrite Hx. intros [<-|Hb]; [right|now left]. exists i. cbn. split; [reflexivity|]. split; [exact So|].
        rewrite Ew. eapply floor_view; eauto.
      + rewrite Ho; [now left|]. intros X. now apply site_at_inj in X.
    - rewrite Es. now apply seen_tset.
    - apply cover_mono; [now rewrite Eh|now rewrite El|]. rewrite Es. now apply seen_tset.
    - rewrite Er. apply (v_race _ _ _ _ I).
    - rewrite Ea. auto.
    - eapply held_same; eauto; [now rewrite Eh|now rewrite Pc].
    - rewrite Pc. discriminate.
    - intros y [].
    - intros u nm j [].
    - rewrite Es, tset_same. cbn. split; [exact So|]. eapply floor_view; eauto.
  Qed.

  Lemma toks m pc h ver m' h' ver' t p : winv m pc h ver -> wlocked (pc t) = true ->
    (forall u, u <> t -> seen m' u = seen m u) ->
    (forall nm i, slot_ok h nm i -> slot_ok h' nm i) ->
    (forall v i, i < cnt h -> floor m h ver v i -> floor m' h' ver' v i) ->
    cnt h <= cnt h' ->
    (forall v n, n <= cnt h -> heard_names m v n -> heard_names m' v n) ->
    tok m' h' ver' t (seen m' t) p -> forall u, tok m' h' ver' u (seen m' u) (tset pc t p u).
  Proof.
    intros I Lk Es So Fl C Hn Tk u. destruct (Nat.eq_dec u t) as [->|N]; [now rewrite tset_same|].
    rewrite tset_other, Es by auto. apply (tok_out m h ver); auto.
    - destruct (wlocked (pc u)) eqn:Lu; [|reflexivity]. exfalso. apply N. eapply holder_unique; eauto.
    - apply (v_bnd _ _ _ _ I).
    - apply (v_tok _ _ _ _ I).
  Qed.

  Lemma off_at_start h g : ~ on_by (setting h 0) g.
  Proof. cbn. auto. Qed.

  (** category_registry.cc:52 *)
  Lemma inv_name m pc h ver t k name i :
    winv m pc h ver -> pc t = WWName k name i ->
    winv (wwrite m t (name_at i) (RName name)) (tset pc t (WWStat k name i)) (h ++ []) ver.
  Proof.
    intros I Pc. rewrite app_nil_r. pose proof (v_tok _ _ _ _ I t) as Tk. rewrite Pc in Tk. cbn in Tk. destruct Tk as (T1 & T2 & T3 & T4 & T5).
    assert (wlocked (pc t) = true) as Lk by now rewrite Pc.
    pose proof (proj1 (v_held _ _ _ _ I t) Lk) as Hm. pose proof (cover_holder _ _ _ _ t I Lk) as Cv.
    set (m' := wwrite m t (name_at i) (RName name)).
    assert (cover m' = vknow (seen m t) (length (accs m))) as Cv' by (unfold cover, m'; cbn; now rewrite Hm, tset_same).
    assert (vle (cover m) (cover m')) as Lc by (rewrite Cv, Cv'; apply vle_vknow).
    assert (forall e a, nth_error (accs m) e = Some a -> a_loc a <> name_at i) as Na.
    { intros e a Ha Hl. destruct (v_acc _ _ _ _ I e a Ha) as [X|(j & X & Y)]; [rewrite Hl in X; discriminate|].
      rewrite Hl in X. apply name_at_inj in X as <-. destruct Y as [Y|(_ & u & k' & nm & Y)]; [lia|].
      assert (wlocked (pc u) = true) as Lu by (destruct Y as [Y|Y]; now rewrite Y).
      assert (u = t) by (eapply holder_unique; eauto). subst u. rewrite Pc in Y. destruct Y; discriminate. }
    assert (forall e a, nth_error (accs m') e = Some a -> nth_error (accs m) e = Some a \/
              (e = length (accs m) /\ a = {| a_loc := name_at i; a_write := true |})) as Ac.
    { unfold m'. cbn. intros e a Ha. destruct (Nat.lt_ge_cases e (length (accs m))) as [L|L].
      - rewrite nth_error_app1 in Ha by auto. now left.
      - rewrite nth_error_app2 in Ha by auto. destruct (e - length (accs m)) as [|[|?]] eqn:Ee; [|discriminate|discriminate].
        injection Ha as <-. right. split; [lia|reflexivity]. }
    assert (forall v n, n <= cnt h -> heard_names m v n -> heard_names m' v n) as Hn.
    { intros v n Ln H j e a Hj Ha Hl Hw. destruct (Ac e a Ha) as [X|(_ & ->)]; [eauto|].
      cbn in Hl. apply name_at_inj in Hl. lia. }
    assert (forall v j, floor m h ver v j -> floor m' h ver v j) as Fl by auto.
    split; try exact (v_bnd _ _ _ _ I); try exact (v_plain _ _ _ _ I); try exact (v_nodup _ _ _ _ I);
      try exact (v_mono _ _ _ _ I); try exact (v_ver _ _ _ _ I); try exact (v_right _ _ _ _ I); try exact (v_given _ _ _ _ I);
      try exact (v_reg _ _ _ _ I).
    - unfold m'. cbn. replace (ordered (seen m t) (name_at i) true 0 (accs m)) with true; [apply (v_race _ _ _ _ I)|].
      symmetry. apply ordered_spec. intros e a Ha Hl. exfalso. eapply Na; eauto.
    - eapply held_same; eauto; now rewrite Pc.
    - intros j g Hg. unfold m'. cbn. rewrite lset_other; [now apply (v_names _ _ _ _ I)|].
      intros X. apply name_at_inj in X. subst j. assert (i < cnt h) by (unfold cnt; apply nth_error_Some; congruence). lia.
    - unfold m'. cbn. rewrite lset_other by discriminate. apply (v_lists _ _ _ _ I).
    - destruct (v_count _ _ _ _ I) as (g & l & X & Y & Z & W). exists g, l. repeat (split; auto).
      destruct Lc as (Lc & _). specialize (Lc group_count). lia.
    - intros b Hb. destruct (v_cmsg _ _ _ _ I b Hb) as (n & X & Y & Z & W). exists n. repeat (split; auto).
    - intros e a Ha Hw. destruct (Ac e a Ha) as [X|(-> & ->)]; [apply Lc; eapply (v_cacc _ _ _ _ I); eauto|].
      rewrite Cv'. apply vknow_self.
    - intros j Hj. apply Fl. eapply floor_view; [exact Lc|]. now apply (v_cfloor _ _ _ _ I).
    - intros j b Hb. pose proof (v_cstat _ _ _ _ I j b Hb). destruct Lc as (Lc & _). specialize (Lc (status_at j)). lia.
    - intros e a Ha. destruct (Ac e a Ha) as [X|(-> & ->)].
      + destruct (v_acc _ _ _ _ I e a X) as [Y|(j & Y & [Z|(Z & _)])]; [now left|right; eauto|].
        exfalso. apply (Na e a X). rewrite Y. congruence.
      + right. exists i. split; [reflexivity|]. right. split; [auto|]. exists t, k, name. rewrite tset_same. now left.
    - intros j Hj. destruct (v_new _ _ _ _ I j Hj) as [X|(X & u & k' & nm & Y & Z)]; [now left|]. exfalso.
      assert (wlocked (pc u) = true) as Lu by now rewrite Y.
      assert (u = t) by (eapply holder_unique; eauto). subst u. rewrite Pc in Y. discriminate.
    - exact (v_site _ _ _ _ I).
    - eapply toks; eauto.
      + intros u Nu. unfold m'. cbn. now rewrite tset_other.
      + cbn. repeat (split; auto). now rewrite lset_same.
  Qed.

  Definition stored_at (ver : nat -> N -> nat) (i : nat) (n : N) (k : nat) : nat -> N -> nat :=
    fun j n' => if Nat.eqb j i && (n' =? n)%N then k else ver j n'.

  (** category_registry.cc:53, 110-112, 122-125 *)
  Lemma inv_status m pc h ver t rel i on g f n m' p :
    winv m pc h ver -> wlocked (pc t) = true -> wstore m t rel (status_at i) (status_val on) f n = Some m' ->
    (on = true <-> on_by (setting h (nsw h)) g) ->
    ((nth_error (groups_of h) i = Some g /\ busy (pc t) = false) \/
     (i = cnt h /\ exists k, pc t = WWStat k g i /\ p = WWInc k g i)) ->
    wlocked p = true ->
    let ver' := stored_at ver i n (nsw h) in
    (keeps m h ver m' ver' -> fresh m' ver' (seen m' t) i (nsw h) -> tok m' h ver' t (seen m' t) p) ->
    winv m' (tset pc t p) (h ++ []) ver' /\ keeps m h ver m' ver'.
  Proof.
    intros I Lk E On Wh Lp ver' Tk. rewrite app_nil_r. apply wstore_inv in E as (Lt & w & Hx & Ho & Ep & Ea & Eh & El & Er & Es & Ew).
    pose proof (proj1 (v_held _ _ _ _ I t) Lk) as Hm. pose proof (cover_holder _ _ _ _ t I Lk) as Cv.
    assert (cover m' = vat (seen m t) (status_at i) n) as Cv' by (unfold cover; now rewrite Eh, Hm, Es, tset_same).
    assert (vle (cover m) (cover m')) as Lc by (rewrite Cv, Cv'; apply vle_vat).
    assert (forall j b, In b (hist m (status_at j)) -> ver' j (m_to b) = ver j (m_to b)) as Old.
    { intros j b Hb. unfold ver', stored_at. destruct (Nat.eqb_spec j i) as [->|N]; [|reflexivity].
      pose proof (v_cstat _ _ _ _ I i b Hb) as X. rewrite Cv in X. destruct (N.eqb_spec (m_to b) n); [lia|reflexivity]. }
    assert (forall j b, In b (hist m' (status_at j)) ->
              In b (hist m (status_at j)) \/ (j = i /\ m_to b = n /\ m_val b = status_val on)) as Inv.
    { intros j b. destruct (Nat.eq_dec j i) as [->|N].
      - rewrite Hx. intros [<-|Hb]; [right; auto|now left].
      - rewrite Ho; [auto|]. intros X. now apply status_at_inj in X. }
    assert (ver' i n = nsw h) as Vn by (unfold ver', stored_at; now rewrite Nat.eqb_refl, N.eqb_refl).
    assert (forall j b, In b (hist m (status_at j)) -> ver' j (m_to b) <= nsw h) as Vle
      by (intros j b Hb; rewrite Old by auto; now apply (v_ver _ _ _ _ I)).
    assert (keeps m h ver m' ver') as K.
    { intros v j r Lr F b Hb Lb. destruct (Inv j b Hb) as [X|(-> & Tb & _)].
      - rewrite Old by auto. now apply F.
      - now rewrite Tb, Vn. }
    assert (fresh m' ver' (seen m' t) i (nsw h)) as Fr.
    { intros b Hb Lb. rewrite Es, tset_same in Lb. pose proof (vat_ts (seen m t) (status_at i) n).
      destruct (Inv i b Hb) as [X|(_ & Tb & _)]; [|now rewrite Tb, Vn].
      pose proof (v_cstat _ _ _ _ I i b X) as Y. rewrite Cv in Y. lia. }
    specialize (Tk K Fr).
    assert (forall v j, floor m h ver v j -> floor m' h ver' v j) as Fl.
    { intros v j F r Hr. apply K; [now apply reg_after_le in Hr|]. now apply F. }
    assert (forall v k, heard_names m v k -> heard_names m' v k) as Hn
      by (intros v k; unfold heard_names; now rewrite Ea).
    assert (forall j gj, (forall b, In b (hist m (status_at j)) ->
               (m_val b = 1%N /\ on_by (setting h (ver j (m_to b))) gj) \/ (m_val b = 0%N /\ ~ on_by (setting h (ver j (m_to b))) gj)) ->
             (j = i -> gj = g) -> right m' h ver' j gj) as Rg.
    { intros j gj R Ej b Hb. destruct (Inv j b Hb) as [X|(-> & Tb & Vb)]; [rewrite Old by auto; now apply R|].
      rewrite (Ej eq_refl), Tb, Vn, Vb. destruct on; [left|right]; (split; [reflexivity|]); [now apply On|].
      intros X. apply On in X. discriminate. }
    split; [|exact K].
    split; try exact (v_bnd _ _ _ _ I); try exact (v_plain _ _ _ _ I); try exact (v_nodup _ _ _ _ I);
      try exact (v_given _ _ _ _ I); try exact (v_reg _ _ _ _ I).
    - rewrite Er. apply (v_race _ _ _ _ I).
    - apply (held_same m pc h ver); [exact I|now rewrite Eh|now rewrite Lp, Lk].
    - rewrite Ep. apply (v_names _ _ _ _ I).
    - rewrite Ep. apply (v_lists _ _ _ _ I).
    - destruct (v_count _ _ _ _ I) as (gm & l & X & Y & Z & W). exists gm, l. rewrite Ho by discriminate. repeat (split; auto).
      destruct Lc as (Lc & _). specialize (Lc group_count). lia.
    - intros b. rewrite Ho by discriminate. intros Hb. destruct (v_cmsg _ _ _ _ I b Hb) as (k & X & Y & Z & W). exists k. repeat (split; auto).
    - intros e a. rewrite Ea. intros Ha Hw. apply Lc. eapply (v_cacc _ _ _ _ I); eauto.
    - intros j Hj. apply Fl. eapply floor_view; [exact Lc|]. now apply (v_cfloor _ _ _ _ I).
    - intros j b Hb. rewrite Cv'. destruct (Inv j b Hb) as [X|(-> & Tb & _)].
      + pose proof (v_cstat _ _ _ _ I j b X) as Y. destruct Lc as (Lc & _). specialize (Lc (status_at j)). rewrite Cv' in Lc. lia.
      + rewrite Tb. apply vat_ts.
    - intros e a. rewrite Ea. intros Ha. destruct (v_acc _ _ _ _ I e a Ha) as [Y|(j & Y & [Z|(Z & u & k & nm & W)])]; [now left|right; eauto|right].
      exists j. split; [exact Y|]. right. split; [exact Z|].
      assert (wlocked (pc u) = true) as Lu by (destruct W as [W|W]; now rewrite W).
      assert (u = t) by (eapply holder_unique; eauto). subst u. destruct Wh as [(_ & B)|(-> & k' & P1 & P2)].
      + destruct W as [W|W]; rewrite W in B; discriminate.
      + exists t, k', g. rewrite tset_same, P2, Z. now right.
    - intros j a b Ha Hb L. destruct (Inv j a Ha) as [Xa|(Ej & Ta & _)], (Inv j b Hb) as [Xb|(Ej' & Tb & _)].
      + rewrite !Old by auto. now apply (v_mono _ _ _ _ I).
      + subst j. rewrite Tb, Vn. auto.
      + subst j. exfalso. pose proof (v_cstat _ _ _ _ I i b Xb) as Y. rewrite Cv in Y. lia.
      + subst j. now rewrite Ta, Tb.
    - intros j b Hb. destruct (Inv j b Hb) as [X|(-> & Tb & _)]; [auto|]. rewrite Tb, Vn. auto.
    - intros j gj Hj. apply Rg; [now apply (v_right _ _ _ _ I)|]. intros ->. destruct Wh as [(X & _)|(X & _)]; [congruence|].
      exfalso. assert (i < cnt h) by (unfold cnt; apply nth_error_Some; congruence). lia.
    - intros j Hj. destruct Wh as [(X & B)|(X & k & P1 & P2)].
      + assert (i < cnt h) by (unfold cnt; apply nth_error_Some; congruence).
        destruct (v_new _ _ _ _ I j Hj) as [Y|(Y & u & k & nm & Z & R)].
        * left. intros b Hb. destruct (Inv j b Hb) as [W|(-> & _)]; [rewrite Old by auto; now apply Y|lia].
        * exfalso. assert (wlocked (pc u) = true) as Lu by now rewrite Z.
          assert (u = t) by (eapply holder_unique; eauto). subst u. rewrite Z in B. discriminate.
      + assert (forall b, In b (hist m (status_at j)) -> m_val b = 0%N /\ ver j (m_to b) = 0) as Y.
        { destruct (v_new _ _ _ _ I j Hj) as [Y|(Y & u & k' & nm & Z & R)]; [exact Y|].
          exfalso. assert (wlocked (pc u) = true) as Lu by now rewrite Z.
          assert (u = t) by (eapply holder_unique; eauto). subst u. rewrite P1 in Z. discriminate. }
        destruct (Nat.eq_dec j i) as [->|N].
        * right. split; [auto|]. exists t, k, g. rewrite tset_same. split; [auto|]. apply Rg; auto.
          intros b Hb. right. destruct (Y b Hb) as (Y1 & Y2). rewrite Y2. split; [auto|]. apply off_at_start.
        * left. intros b Hb. destruct (Inv j b Hb) as [W|(W & _)]; [rewrite Old by auto; now apply Y|contradiction].
    - intros s0 b. rewrite Ho by discriminate. intros Hb. destruct (v_site _ _ _ _ I s0 b Hb) as [X|(j & X & Y & Z)]; [now left|right; eauto].
    - eapply toks; eauto. intros u Nu. now rewrite Es, tset_other.
  Qed.

  (** category_registry.cc:54 *)
  Lemma inv_count m pc h ver t k name i c n v m' :
    winv m pc h ver -> pc t = WWInc k name i -> wfetch_add m t false true group_count 1 c n = Some (v, m') ->
    winv m' (tset pc t (WLRet k name i)) (h ++ [SRegistered t name i]) ver /\
    forall j, hist m' (status_at j) = hist m (status_at j).
  Proof.
    intros I Pc E. pose proof (v_tok _ _ _ _ I t) as Tk. rewrite Pc in Tk. cbn in Tk. destruct Tk as (T1 & T2 & T3 & T4 & T5 & T6 & T7).
    assert (wlocked (pc t) = true) as Lk by now rewrite Pc.
    pose proof (proj1 (v_held _ _ _ _ I t) Lk) as Hm. pose proof (cover_holder _ _ _ _ t I Lk) as Cv.
    destruct (v_count _ _ _ _ I) as (gm & l & Hh & Ch & Vg & Tg).
    unfold wfetch_add in E. destruct (nth_error (hist m group_count) c) as [g|] eqn:Eg; [|discriminate].
    unfold wrmw in E. destruct (ts (seen m t) group_count <=? m_to g)%N eqn:Lt; [|discriminate]. apply N.leb_le in Lt.
    destruct (free (m_to g) n (hist m group_count)) eqn:Fr; [|discriminate]. cbn [andb] in E. injection E as E1 E2.
    rewrite Hh in Eg, Fr. rewrite Cv in Tg.
    assert (c = 0) by (eapply chain_load; eauto; lia). subst c. cbn in Eg. injection Eg as <-.
    set (w := vat (after_load (seen m t) false group_count gm) group_count n) in *.
    assert (vle (seen m t) w) as Lw by (eapply vle_trans; [apply after_load_le|apply vle_vat]).
    set (nm := {| m_from := m_to gm; m_to := n; m_val := ((m_val gm + 1) mod 2 ^ 64)%N; m_view := vjoin (m_view gm) w |}) in *.
    assert (hist m' group_count = nm :: gm :: l) as Hx by (rewrite <- E2; cbn; now rewrite lset_same, Hh).
    assert (forall y, y <> group_count -> hist m' y = hist m y) as Ho by (intros y Hy; rewrite <- E2; cbn; now rewrite lset_other).
    assert (plain m' = plain m /\ accs m' = accs m /\ held m' = held m /\ left_at m' = left_at m /\ races m' = races m /\
            seen m' = tset (seen m) t w) as (Ep & Ea & Eh & El & Er & Es) by (rewrite <- E2; repeat (split; [reflexivity|]); reflexivity).
    assert (vle (seen m t) (vjoin (m_view gm) w)) as Ln by (eapply vle_trans; [exact Lw|apply vle_join_r]).
    assert (chain (fun _ => True) (nm :: gm :: l)) as Ch' by (apply chain_add; auto).
    pose proof (v_bnd _ _ _ _ I) as Bd.
    assert (m_to nm = n /\ m_val nm = N.of_nat (S (cnt h)) /\ vle (seen m t) (m_view nm)) as (Nt & Nv & Nw).
    { unfold nm. cbn. split; [reflexivity|]. split; [|exact Ln]. rewrite Vg, N.mod_small; lia. }
    clear E2 E1. clearbody nm.
    assert (cover m' = w) as Cv' by (unfold cover; now rewrite Eh, Hm, Es, tset_same).
    assert (vle (cover m) (cover m')) as Lc by (rewrite Cv, Cv'; auto).
    set (h' := h ++ [SRegistered t name i]).
    assert (groups_of h' = groups_of h ++ [name]) as Gr by apply groups_reg.
    assert (cnt h' = S (cnt h)) as Cn by (unfold cnt; rewrite Gr, app_length; cbn; lia).
    assert (nsw h' = nsw h) as Ns by (unfold nsw, h'; now rewrite switches_app, app_length, Nat.add_0_r).
    assert (forall k, k <= nsw h -> setting h' k = setting h k) as Se by (intros; now apply setting_app).
    assert (forall v j r, fresh m ver v j r -> fresh m' ver v j r) as Fk.
    { intros v0 j r F b. rewrite Ho by discriminate. apply F. }
    assert (forall v j, j < cnt h -> floor m h ver v j -> floor m' h' ver v j) as Fl.
    { intros v0 j Hj F r Hr. apply Fk. apply reg_after_snoc in Hr as [Hr|(u & g & X & _)]; [now apply F|].
      injection X as _ _ X. lia. }
    assert (forall v, vle (seen m t) v -> forall j, j < cnt h' -> floor m' h' ver v j) as Fa.
    { intros v0 Lv j Hj. destruct (Nat.eq_dec j i) as [->|Nj].
      - intros r Hr. apply Fk. apply (fresh_le _ _ _ _ (nsw h)); [rewrite <- Ns; now apply reg_after_le in Hr|].
        eapply fresh_view; eauto.
      - apply Fl; [lia|]. eapply floor_view; [exact Lv|]. rewrite <- Cv. apply (v_cfloor _ _ _ _ I). lia. }
    assert (forall v k, heard_names m v k -> heard_names m' v k) as Hn
      by (intros v0 k0; unfold heard_names; now rewrite Ea).
    assert (~ In name (groups_of h)) as Ni.
    { intros X. apply In_nth_error in X as (j & X). apply (T5 j); [|exact X]. rewrite T3. unfold cnt. apply nth_error_Some. congruence. }
    assert (forall nm0 j, slot_ok h nm0 j -> slot_ok h' nm0 j) as So.
    { intros nm0 j [X|(_ & X & _)]; [left|lia]. rewrite Gr, nth_error_app1; [exact X|]. apply nth_error_Some. congruence. }
    assert (nth_error (groups_of h') i = Some name) as Gi.
    { rewrite Gr, nth_error_app2 by (unfold cnt in T3; lia). rewrite T3. unfold cnt. now rewrite Nat.sub_diag. }
    assert (forall j, S (cnt h) <= j -> forall b, In b (hist m (status_at j)) -> m_val b = 0%N /\ ver j (m_to b) = 0) as Nw'.
    { intros j Hj. destruct (v_new _ _ _ _ I j) as [X|(X & _)]; [lia|exact X|lia]. }
    split; [|intros j; apply Ho; discriminate].
    split; rewrite ?Cn, ?Ns; try rewrite !Gr.
    - rewrite Er. apply (v_race _ _ _ _ I).
    - apply (held_same m pc h ver); [exact I|now rewrite Eh|now rewrite Lk].
    - lia.
    - intros g X. apply in_app_or in X as [X|[<-|[]]]; [now apply (v_plain _ _ _ _ I)|exact T1].
    - apply NoDup_app_snoc; [apply (v_nodup _ _ _ _ I)|exact Ni].
    - intros j g X. rewrite Ep. destruct (Nat.lt_ge_cases j (cnt h)) as [L|L].
      + rewrite nth_error_app1 in X by exact L. now apply (v_names _ _ _ _ I).
      + rewrite nth_error_app2 in X by exact L. destruct (j - length (groups_of h)) as [|[|?]] eqn:Ej; [|discriminate|discriminate].
        injection X as <-. unfold cnt in *. replace j with i by lia. exact T6.
    - intros g. rewrite Ep, Se by auto. apply (v_lists _ _ _ _ I).
    - exists nm, (gm :: l). split; [exact Hx|]. split; [exact Ch'|]. split; [exact Nv|]. rewrite Cv', Nt. apply vat_ts.
    - intros b. rewrite Hx. intros [<-|Hb].
      + exists (S (cnt h)). split; [exact Nv|]. split; [auto|]. split.
        * intros j e a Hj. rewrite Ea. intros Ha _ Hw. apply Nw. rewrite <- Cv. eapply (v_cacc _ _ _ _ I); eauto.
        * intros j Hj. apply Fa; [exact Nw|lia].
      + rewrite <- Hh in Hb. destruct (v_cmsg _ _ _ _ I b Hb) as (k0 & X & Y & Z & W). exists k0. split; [exact X|]. split; [lia|].
        split; [now apply Hn|]. intros j Hj. apply Fl; [lia|]. now apply W.
    - intros e a. rewrite Ea. intros Ha Hw. apply Lc. eapply (v_cacc _ _ _ _ I); eauto.
    - intros j Hj. apply Fa; [now rewrite <- Cv|lia].
    - intros j b. rewrite Ho by discriminate. intros Hb. pose proof (v_cstat _ _ _ _ I j b Hb). destruct Lc as (Lc & _). specialize (Lc (status_at j)). lia.
    - intros e a. rewrite Ea. intros Ha. destruct (v_acc _ _ _ _ I e a Ha) as [Y|(j & Y & Z)]; [now left|right].
      exists j. split; [exact Y|]. left. destruct Z as [Z|(Z & _)]; lia.
    - intros j a b. rewrite Ho by discriminate. apply (v_mono _ _ _ _ I).
    - intros j b. rewrite Ho by discriminate. apply (v_ver _ _ _ _ I).
    - intros j g X. intros b. rewrite Ho by discriminate. intros Hb. rewrite Se by (now apply (v_ver _ _ _ _ I)).
      destruct (Nat.lt_ge_cases j (cnt h)) as [L|L].
      + rewrite nth_error_app1 in X by exact L. now apply (v_right _ _ _ _ I j g X b).
      + rewrite nth_error_app2 in X by exact L. destruct (j - length (groups_of h)) as [|[|?]] eqn:Ej; [|discriminate|discriminate].
        injection X as <-. assert (j = i) by (unfold cnt in *; lia). subst j.
        destruct (v_new _ _ _ _ I i) as [X|(_ & u & k' & nm' & X & Y)]; [lia| |].
        * right. destruct (X b Hb) as (X1 & X2). rewrite X2. split; [exact X1|apply off_at_start].
        * assert (wlocked (pc u) = true) as Lu by now rewrite X.
          assert (u = t) by (eapply holder_unique; eauto). subst u. rewrite Pc in X. injection X as _ <-. now apply Y.
    - intros j Hj. left. intros b. rewrite Ho by discriminate. now apply Nw'.
    - intros s0 b. rewrite Ho by discriminate. intros Hb. destruct (v_site _ _ _ _ I s0 b Hb) as [X|(j & X & Y & Z)]; [now left|right].
      exists j. split; [exact X|]. split; [auto|]. apply Fl; [|exact Z]. eapply slot_lt_cnt; eauto. lia.
    - eapply toks; eauto; [intros u Nu; now rewrite Es, tset_other|lia|]. cbn. split; [exact T2|]. now left.
    - intros u nm0 j X. apply in_app_or in X as [X|[X|[]]]; [|discriminate]. apply So. eapply (v_given _ _ _ _ I); eauto.
    - intros a u g j b X. apply in_snoc_split in X as [(-> & -> & X)|(s' & -> & X)].
      + injection X as _ _ <-. exact T3.
      + eapply (v_reg _ _ _ _ I); eauto.
  Qed.

  (** category_registry.cc:105-106, 117-118 *)
  Lemma inv_lists m pc h ver t l :
    winv m pc h ver -> pc t = WUList l ->
    winv (wwrite m t lists_at (RLists (fst (stored_lists l)) (snd (stored_lists l)))) (tset pc t (WUCount l)) (h ++ [SPlaced t l]) ver.
  Proof.
    intros I Pc. assert (wlocked (pc t) = true) as Lk by now rewrite Pc.
    pose proof (proj1 (v_held _ _ _ _ I t) Lk) as Hm. pose proof (cover_holder _ _ _ _ t I Lk) as Cv.
    set (m' := wwrite m t lists_at (RLists (fst (stored_lists l)) (snd (stored_lists l)))).
    assert (cover m' = vknow (seen m t) (length (accs m))) as Cv' by (unfold cover, m'; cbn; now rewrite Hm, tset_same).
    assert (vle (cover m) (cover m')) as Lc by (rewrite Cv, Cv'; apply vle_vknow).
    assert (forall e a, nth_error (accs m') e = Some a -> nth_error (accs m) e = Some a \/
              (e = length (accs m) /\ a = {| a_loc := lists_at; a_write := true |})) as Ac.
    { unfold m'. cbn. intros e a Ha. destruct (Nat.lt_ge_cases e (length (accs m))) as [L|L].
      - rewrite nth_error_app1 in Ha by auto. now left.
      - rewrite nth_error_app2 in Ha by auto. destruct (e - length (accs m)) as [|[|?]] eqn:Ee; [|discriminate|discriminate].
        injection Ha as <-. right. split; [lia|reflexivity]. }
    assert (forall v n, heard_names m v n -> heard_names m' v n) as Hn.
    { intros v n H j e a Hj Ha Hl Hw. destruct (Ac e a Ha) as [X|(_ & ->)]; [eauto|discriminate]. }
    set (h' := h ++ [SPlaced t l]).
    assert (groups_of h' = groups_of h) as Gr by apply groups_placed.
    assert (cnt h' = cnt h) as Cn by (unfold cnt; now rewrite Gr).
    assert (nsw h' = S (nsw h)) as Ns by (unfold nsw, h'; rewrite switches_app, app_length; cbn; lia).
    assert (forall k, k <= nsw h -> setting h' k = setting h k) as Se by (intros; now apply setting_app).
    assert (setting h' (S (nsw h)) = l) as Sl.
    { cbn. unfold h', nsw. rewrite switches_app, app_nth2, Nat.sub_diag by auto. reflexivity. }
    assert (forall v j, floor m h ver v j -> floor m' h' ver v j) as Fl.
    { intros v j F r Hr. apply reg_after_snoc in Hr as [Hr|(u & g & X & _)]; [now apply F|discriminate]. }
    assert (forall nm0 j, slot_ok h nm0 j -> slot_ok h' nm0 j) as So by (intros nm0 j; unfold slot_ok; now rewrite Gr, Cn).
    assert (forall u, wlocked (pc u) = true -> pc u = WUList l) as Un.
    { intros u Lu. assert (u = t) by (eapply holder_unique; eauto). now subst u. }
    split; rewrite ?Cn, ?Ns; try rewrite !Gr; try exact (v_bnd _ _ _ _ I); try exact (v_plain _ _ _ _ I); try exact (v_nodup _ _ _ _ I);
      try exact (v_mono _ _ _ _ I).
    - unfold m'. cbn. replace (ordered (seen m t) lists_at true 0 (accs m)) with true; [apply (v_race _ _ _ _ I)|].
      symmetry. apply ordered_spec. intros e a Ha Hl _. cbn [Nat.add]. rewrite <- Cv. eapply (v_cacc _ _ _ _ I); eauto.
    - apply (held_same m pc h ver); [exact I|reflexivity|now rewrite Lk].
    - intros j g Hg. unfold m'. cbn. rewrite lset_other by discriminate. now apply (v_names _ _ _ _ I).
    - intros g. unfold m'. cbn [wwrite wtouch plain]. rewrite lset_same, Sl. cbn [lists_in fst snd].
      destruct l as [[en dis]|]; cbn [stored_lists fst snd on_by]; [apply calculateEnabled_spec|]. rewrite all_off. split; [discriminate|contradiction].
    - destruct (v_count _ _ _ _ I) as (g & l0 & X & Y & Z & W). exists g, l0. repeat (split; auto).
      destruct Lc as (Lc & _). specialize (Lc group_count). lia.
    - intros b Hb. destruct (v_cmsg _ _ _ _ I b Hb) as (n & X & Y & Z & W). exists n. repeat (split; auto).
    - intros e a Ha Hw. destruct (Ac e a Ha) as [X|(-> & ->)]; [apply Lc; eapply (v_cacc _ _ _ _ I); eauto|].
      rewrite Cv'. apply vknow_self.
    - intros j Hj. apply Fl. eapply floor_view; [exact Lc|]. now apply (v_cfloor _ _ _ _ I).
    - intros j b Hb. pose proof (v_cstat _ _ _ _ I j b Hb). destruct Lc as (Lc & _). specialize (Lc (status_at j)). lia.
    - intros e a Ha. destruct (Ac e a Ha) as [X|(-> & ->)]; [|now left].
      destruct (v_acc _ _ _ _ I e a X) as [Y|(j & Y & [Z|(Z & u & k & nm & W)])]; [now left|right; eauto|].
      exfalso. destruct W as [W|W]; specialize (Un u); rewrite W in Un; discriminate (Un eq_refl).
    - intros j b Hb. pose proof (v_ver _ _ _ _ I j b Hb). lia.
    - intros j g Hg b Hb. rewrite Se by now apply (v_ver _ _ _ _ I). now apply (v_right _ _ _ _ I j g Hg b).
    - intros j Hj. destruct (v_new _ _ _ _ I j Hj) as [X|(X & u & k' & nm & Y & Z)]; [now left|]. exfalso.
      specialize (Un u). rewrite Y in Un. discriminate (Un eq_refl).
    - intros s0 b Hb. destruct (v_site _ _ _ _ I s0 b Hb) as [X|(j & X & Y & Z)]; [now left|right; eauto 8].
    - eapply toks; eauto.
      + intros u Nu. unfold m'. cbn. now rewrite tset_other.
      + lia.
      + cbn. unfold placed_last. now rewrite Ns.
    - intros u nm0 j X. apply in_app_or in X as [X|[X|[]]]; [|discriminate]. apply So. eapply (v_given _ _ _ _ I); eauto.
    - intros a u g j b X. apply in_snoc_split in X as [(-> & -> & X)|(s' & -> & X)]; [discriminate|].
      eapply (v_reg _ _ _ _ I); eauto.
  Qed.

  Lemma inv_peek m pc h ver t x :
    winv m pc h ver -> may_read m h t (wlocked (pc t)) (pc t) x -> winv (snd (wread m t x)) pc h ver.
  Proof.
    intros I Mr. apply (winv_ext _ (tset pc t (pc t))); [intros u; symmetry; apply tset_pc_same|].
    rewrite <- (app_nil_r h). apply inv_read; auto; [intros y []|intros u nm i []|]. apply (v_tok _ _ _ _ I).
  Qed.

  (** What the events of a step say. *)
  Definition news (m : mem) (h : list switch_event) ver (m' : mem) ver' (e : list switch_event) : Prop :=
    (forall t s i on, In (STraced t s i on) e -> exists k g,
       k <= nsw h /\ (slot_ok h (c_str (site_cat s)) i /\ nth_error (groups_of h) i = Some g) /\ (on = true <-> on_by (setting h k) g) /\
       (forall q, registered_after h i q -> q <= k) /\ fresh m' ver' (seen m' t) i k /\
       forall v q, (forall y, (ts v y <= ts (seen m t) y)%N) -> fresh m ver v i q -> q <= k) /\
    (forall t, In (SSwitched t) e -> forall j, j < cnt h -> fresh m' ver' (seen m' t) j (nsw h)).

  Definition step_ok (r r' : wregistry) ver : Prop := exists ver' e,
    wr_hist r' = wr_hist r ++ e /\ winv (wr_mem r') (wr_pc r') (wr_hist r') ver' /\
    keeps (wr_mem r) (wr_hist r) ver (wr_mem r') ver' /\ news (wr_mem r) (wr_hist r) ver (wr_mem r') ver' e.

  Definition quiet (e : list switch_event) : Prop :=
    forall y, In y e -> match y with STraced _ _ _ _ | SSwitched _ => False | _ => True end.

  Lemma quiet_news m h ver m' ver' e : quiet e -> news m h ver m' ver' e.
  Proof.
    intros Q. split.
    - intros t s i on H. destruct (Q _ H).
    - intros t H. destruct (Q _ H).
  Qed.

  Lemma step_same r ver m' t p e :
    winv m' (tset (wr_pc r) t p) (wr_hist r ++ e) ver -> (forall i, hist m' (status_at i) = hist (wr_mem r) (status_at i)) ->
    quiet e -> step_ok r (wr_goto r m' t p e) ver.
  Proof.
    intros I H Q. exists ver, e. split; [reflexivity|]. split; [exact I|]. split; [now apply keeps_hist|now apply quiet_news].
  Qed.

  Ltac evs := intros y Hy; repeat (destruct Hy as [<-|Hy]); [exact Logic.I ..|destruct Hy].
  Ltac nogiven := intros ? ? ? Hy; repeat (destruct Hy as [Hy|Hy]); [discriminate Hy ..|destruct Hy].

  Lemma slot_name m pc h ver i : winv m pc h ver -> i < cnt h ->
    exists g, nth_error (groups_of h) i = Some g /\ plain m (name_at i) = RName g /\ c_str g = g.
  Proof.
    intros I L. destruct (nth_error (groups_of h) i) as [g|] eqn:E; [|apply nth_error_None in E; unfold cnt in L; lia].
    exists g. split; [reflexivity|]. split; [now apply (v_names _ _ _ _ I)|]. apply (v_plain _ _ _ _ I). now apply nth_error_In in E.
  Qed.

  Lemma same_name_eq g name : c_str g = g -> same_name g name = true <-> g = name.
  Proof. intros E. unfold same_name. rewrite E. apply bytes_eqb_eq. Qed.

  Lemma count_newest m pc h ver t b c : winv m pc h ver -> wlocked (pc t) = true ->
    nth_error (hist m group_count) c = Some b -> (ts (seen m t) group_count <= m_to b)%N -> m_val b = N.of_nat (cnt h).
  Proof.
    intros I Lk E L. destruct (v_count _ _ _ _ I) as (g & l & H & C & V & T). rewrite (cover_holder _ _ _ _ t I Lk) in T.
    rewrite H in E. assert (c = 0) by (eapply chain_load; eauto; lia). subst c. cbn in E. now injection E as <-.
  Qed.

  Lemma tok_back m h ver t v k name i :
    (forall s, k = Some s -> name = c_str (site_cat s)) -> slot_ok h name i -> floor m h ver v i -> tok m h ver t v (back k i).
  Proof. intros Hk So Fl. destruct k as [s|]; cbn; auto. now rewrite <- (Hk s eq_refl). Qed.

  Lemma wlocked_back k i : wlocked (back k i) = false.
  Proof. now destruct k. Qed.

  Local Arguments wtouch : simpl never.
  Lemma wrstep_ok r a r' ver : winv (wr_mem r) (wr_pc r) (wr_hist r) ver -> wrstep site_cat r a = Some r' -> step_ok r r' ver.
  Proof.
    intros I E. destruct a as [t arg|t l|t s|t c f n]; cbn in E; destruct (wr_pc r t) eqn:Pc; try discriminate E;
      pose proof (v_tok _ _ _ _ I t) as Tk; rewrite Pc in Tk; cbn [tok] in Tk.
    - (* getStatus called *) injection E as <-. apply step_same; [|reflexivity|evs].
      apply inv_local; [exact I|now rewrite Pc|now rewrite Pc|evs|nogiven|]. cbn. split; [apply c_str_idem|discriminate].
    - injection E as <-. apply step_same; [|reflexivity|evs].
      apply inv_local; [exact I|now rewrite Pc|now rewrite Pc|evs|nogiven|]. exact Logic.I.
    - injection E as <-. apply step_same; [|reflexivity|evs].
      apply inv_local; [exact I|now rewrite Pc|now rewrite Pc|evs|nogiven|]. exact Logic.I.
    - (* TSite *)
      destruct (wload (wr_mem r) t true (site_at s) c) as [[v m']|] eqn:Ld; [|discriminate]. destruct v as [|v].
      + injection E as <-. eapply inv_load in Ld as (J & H); [apply step_same; [exact J|exact H|evs]|exact I|now rewrite Pc|now rewrite Pc|evs|nogiven|].
        intros b _ _ _. cbn. split; [apply c_str_idem|]. now intros s' [= <-].
      + injection E as <-. eapply inv_load in Ld as (J & H); [apply step_same; [exact J|exact H|evs]|exact I|now rewrite Pc|now rewrite Pc|evs|nogiven|].
        intros b Hb _ Vb. apply nth_error_In in Hb. destruct (v_site _ _ _ _ I s b Hb) as [X|(i & X & Y & Z)]; [congruence|].
        change (Pos.pred_N v) with (N.pred (N.pos v)). rewrite Vb, X, N.pred_succ, Nat2N.id. cbn. split; [exact Y|]. eapply floor_view; [apply after_load_acq|exact Z].
    - (* TStore *)
      destruct (wstore (wr_mem r) t true (site_at s) (N.succ (N.of_nat i)) f n) as [m'|] eqn:St; [|discriminate]. injection E as <-.
      eapply inv_site in St as (J & H); eauto. apply step_same; auto. evs.
    - (* TStatus *)
      destruct (wload (wr_mem r) t true (status_at i) c) as [[v m']|] eqn:Ld; [|discriminate]. injection E as <-.
      destruct Tk as (So & Fl). pose proof Ld as Ld'.
      eapply (inv_load _ _ _ _ _ _ _ _ _ _ WRIdle [STraced t s i (negb (v =? 0)%N)]) in Ld as (J & H);
        [|exact I|now rewrite Pc|now rewrite Pc|evs|nogiven|intros; exact Logic.I].
      exists ver, [STraced t s i (negb (v =? 0)%N)]. split; [reflexivity|]. split; [exact J|]. split; [now apply keeps_hist|].
      unfold wload in Ld'. destruct (nth_error (hist (wr_mem r) (status_at i)) c) as [b|] eqn:Eb; [|discriminate].
      destruct (ts (seen (wr_mem r) t) (status_at i) <=? m_to b)%N eqn:Lt; [|discriminate]. apply N.leb_le in Lt. injection Ld' as Ev Em.
      apply nth_error_In in Eb.
      assert (i < cnt (wr_hist r)) as Li by (eapply slot_lt_cnt; eauto; apply (v_bnd _ _ _ _ I)).
      destruct (slot_name _ _ _ _ i I Li) as (g & Gg & _ & _).
      split; [|intros u [X|[]]; discriminate X]. intros t' s' i' on [X|[]]. injection X as <- <- <- <-.
      exists (ver i (m_to b)), g. split; [now apply (v_ver _ _ _ _ I)|]. split; [split; [exact So|exact Gg]|].
      assert (forall v0 q, (forall y, (ts v0 y <= ts (seen (wr_mem r) t) y)%N) -> fresh (wr_mem r) ver v0 i q -> q <= ver i (m_to b)) as Q.
      { intros v0 q Lv F. apply F; [exact Eb|]. specialize (Lv (status_at i)). lia. }
      split; [|split; [|split; [|exact Q]]].
      + destruct (v_right _ _ _ _ I i g Gg b Eb) as [(V & O)|(V & O)]; rewrite <- Ev, V; cbn; split; intros X; [exact O|reflexivity|discriminate|contradiction].
      + intros q Hq. apply (Q (seen (wr_mem r) t)); [intros; lia|]. now apply Fl.
      + intros b' Hb' Lb. cbn [wr_goto wr_mem] in *. rewrite H in Hb'. apply (v_mono _ _ _ _ I); auto.
        rewrite <- Em in Lb. cbn in Lb. rewrite tset_same in Lb. pose proof (after_load_ts (seen (wr_mem r) t) true (status_at i) b). lia.
    - (* WGCount *)
      destruct (wload (wr_mem r) t true group_count c) as [[v m']|] eqn:Ld; [|discriminate]. injection E as <-.
      eapply inv_load in Ld as (J & H); [apply step_same; [exact J|exact H|evs]|exact I|now rewrite Pc|now rewrite Pc|evs|nogiven|].
      intros b Hb _ Vb. apply nth_error_In in Hb. destruct (v_cmsg _ _ _ _ I b Hb) as (k0 & X & Y & Z & W).
      rewrite Vb, X, Nat2N.id. destruct Tk as (T1 & T2). cbn. split; [exact T1|]. split; [exact T2|]. split; [exact Y|]. split.
      + eapply heard_view; [apply after_load_acq|exact Z].
      + intros j Hj. eapply floor_view; [apply after_load_acq|auto].
    - (* WGScan *)
      destruct Tk as (T1 & T2 & T3 & T4 & T5). destruct (Nat.ltb_spec i n0) as [L|L].
      + destruct (slot_name _ _ _ _ i I ltac:(lia)) as (g & Gg & Pg & Cg).
        assert (may_read (wr_mem r) (wr_hist r) t (wlocked (wr_pc r t)) WRIdle (name_at i)) as Mr
          by (right; exists i; split; [reflexivity|]; split; [left; lia|]; right; exists n0; auto).
        rewrite Pg in E. cbn [name_in] in E. destruct (same_name g name) eqn:Sn; injection E as <-.
        * apply same_name_eq in Sn; [subst g|exact Cg]. apply step_same; [|reflexivity|evs].
          rewrite <- Pg. change (wtouch (wr_mem r) t (name_at i) false (plain (wr_mem r) (name_at i))) with (snd (wread (wr_mem r) t (name_at i))).
          apply inv_read.
          -- exact I.
          -- destruct Mr as [X|(j & X1 & [X2|(X2 & _)] & X3)]; [now left| |apply name_at_inj in X1; lia]. right. exists j. auto.
          -- rewrite Pc. now rewrite wlocked_back.
          -- rewrite Pc. discriminate.
          -- evs.
          -- intros u nm j [X|[]]. injection X as <- <- <-. now left.
          -- apply (tok_back _ _ _ _ _ _ name); auto. now left.
        * apply step_same; [|reflexivity|evs].
          rewrite <- Pg. change (wtouch (wr_mem r) t (name_at i) false (plain (wr_mem r) (name_at i))) with (snd (wread (wr_mem r) t (name_at i))).
          apply inv_read.
          -- exact I.
          -- destruct Mr as [X|(j & X1 & [X2|(X2 & _)] & X3)]; [now left| |apply name_at_inj in X1; lia]. right. exists j. auto.
          -- now rewrite Pc.
          -- rewrite Pc. discriminate.
          -- evs.
          -- nogiven.
          -- cbn. auto.
      + injection E as <-. apply step_same; [|reflexivity|evs].
        apply inv_local; [exact I|now rewrite Pc|now rewrite Pc|evs|nogiven|]. cbn. auto.
    - (* WGLock *)
      destruct (wlock (wr_mem r) t reg_mutex) as [m'|] eqn:Lk; [|discriminate]. injection E as <-.
      eapply inv_lock in Lk as (J & H); [apply step_same; [exact J|exact H|evs]|exact I|reflexivity|now rewrite Pc|]. exact Tk.
    - (* WLCount *)
      destruct (wload (wr_mem r) t false group_count c) as [[v m']|] eqn:Ld; [|discriminate]. injection E as <-.
      eapply inv_load in Ld as (J & H); [apply step_same; [exact J|exact H|evs]|exact I|now rewrite Pc|now rewrite Pc|evs|nogiven|].
      intros b Hb Lb Vb. rewrite Vb, (count_newest _ _ _ _ t b c I) by (auto; now rewrite Pc). rewrite Nat2N.id.
      destruct Tk as (T1 & T2). cbn. split; [exact T1|]. split; [exact T2|]. split; [reflexivity|]. split; [lia|]. intros j Hj. lia.
    - (* WLScan *)
      destruct Tk as (T1 & T2 & T3 & T4 & T5). destruct (Nat.ltb_spec i n0) as [L|L].
      + destruct (slot_name _ _ _ _ i I ltac:(lia)) as (g & Gg & Pg & Cg).
        assert (forall p, may_read (wr_mem r) (wr_hist r) t (wlocked (wr_pc r t)) p (name_at i)) as Mr
          by (intros p; right; exists i; split; [reflexivity|]; split; [left; lia|]; left; now rewrite Pc).
        rewrite Pg in E. cbn [name_in] in E. destruct (same_name g name) eqn:Sn; injection E as <-.
        * apply same_name_eq in Sn; [subst g|exact Cg]. apply step_same; [|reflexivity|evs].
          rewrite <- Pg. change (wtouch (wr_mem r) t (name_at i) false (plain (wr_mem r) (name_at i))) with (snd (wread (wr_mem r) t (name_at i))).
          apply inv_read; [exact I|apply Mr|now rewrite Pc|rewrite Pc; discriminate|evs|nogiven|]. cbn. split; [exact T2|now left].
        * apply step_same; [|reflexivity|evs].
          rewrite <- Pg. change (wtouch (wr_mem r) t (name_at i) false (plain (wr_mem r) (name_at i))) with (snd (wread (wr_mem r) t (name_at i))).
          apply inv_read; [exact I|apply Mr|now rewrite Pc|rewrite Pc; discriminate|evs|nogiven|]. cbn.
          split; [exact T1|]. split; [exact T2|]. split; [exact T3|]. split; [lia|]. intros j Hj.
          destruct (Nat.eq_dec j i) as [->|N]; [|apply T5; lia]. rewrite Gg. intros [= ->].
          rewrite (proj2 (same_name_eq name name Cg) eq_refl) in Sn. discriminate.
      + assert (i = n0) by lia. subst i. destruct (Nat.ltb_spec n0 registry_size) as [L'|L']; injection E as <-.
        * apply step_same; [|reflexivity|evs]. apply inv_local; [exact I|now rewrite Pc|now rewrite Pc|evs|nogiven|]. cbn.
          unfold registry_size in L'. auto 8.
        * apply step_same; [|reflexivity|evs]. apply inv_local; [exact I|now rewrite Pc|now rewrite Pc|evs|nogiven|]. cbn.
          split; [exact T2|]. right. pose proof (v_bnd _ _ _ _ I). unfold registry_size in L'. split; [reflexivity|]. split; [lia|].
          intros X. apply In_nth_error in X as (j & X). apply (T5 j); [|exact X]. rewrite T3. unfold cnt. apply nth_error_Some. congruence.
    - (* WWName *)
      injection E as <-. apply step_same; [|reflexivity|evs]. now apply inv_name.
    - (* WWStat *)
      destruct Tk as (T1 & T2 & T3 & T4 & T5 & T6). assert (wlocked (wr_pc r t) = true) as Lk by now rewrite Pc.
      set (m1 := wtouch (wr_mem r) t (name_at i) false (plain (wr_mem r) (name_at i))) in *.
      assert (winv m1 (wr_pc r) (wr_hist r) ver) as I1.
      { apply (inv_peek _ _ _ _ t (name_at i) I). right. exists i. split; [reflexivity|]. split; [right; eauto|now left]. }
      set (m2 := wtouch m1 t lists_at false (plain m1 lists_at)) in *.
      assert (winv m2 (wr_pc r) (wr_hist r) ver) as I2.
      { apply (inv_peek _ _ _ _ t lists_at I1). now left. }
      rewrite T6 in E. cbn [name_in] in E.
      destruct (wstore m2 t true (status_at i) _ f n) as [m'|] eqn:St; [|discriminate]. injection E as <-.
      assert (plain m2 (name_at i) = RName name) as T6'.
      { unfold m2, m1, wtouch. cbn. rewrite lset_other by discriminate. now rewrite lset_same. }
      eapply (inv_status m2 _ _ _ _ _ _ _ name _ _ _ (WWInc k name i)) in St as (J & K); eauto.
      + exists (stored_at ver i n (nsw (wr_hist r))), []. split; [reflexivity|]. split; [exact J|]. split; [|apply quiet_news; evs].
        intros v j q Lq F. apply K; auto.
      + pose proof (v_lists _ _ _ _ I name) as V. unfold m1, wtouch. cbn. rewrite lset_other by discriminate. exact V.
      + intros K Fr. cbn. repeat (split; [assumption|]). split; [|exact Fr].
        assert (plain m' = plain m2) as -> by (apply wstore_inv in St as (_ & w & X); tauto). exact T6'.
    - (* WWInc *)
      destruct (wfetch_add (wr_mem r) t false true group_count 1 c n) as [[v m']|] eqn:Fa; [|discriminate]. injection E as <-.
      eapply inv_count in Fa as (J & H); eauto. apply step_same; auto. evs.
    - (* WLRet *)
      injection E as <-. destruct Tk as (T1 & T2). apply step_same; [|reflexivity|evs].
      assert (wlocked (wr_pc r t) = true) as Lk by now rewrite Pc.
      apply inv_unlock; [exact I|apply wlocked_back|exact Lk|now rewrite Pc|evs| |].
      + intros u nm j [X|[]]. now injection X as <- <- <-.
      + apply (tok_back _ _ _ _ _ _ name); auto. rewrite <- (cover_holder _ _ _ _ t I Lk). apply (v_cfloor _ _ _ _ I).
        eapply slot_lt_cnt; eauto. apply (v_bnd _ _ _ _ I).
    - (* WULock *)
      destruct (wlock (wr_mem r) t reg_mutex) as [m'|] eqn:Lk; [|discriminate]. injection E as <-.
      eapply inv_lock in Lk as (J & H); [apply step_same; [exact J|exact H|evs]|exact I|reflexivity|now rewrite Pc|]. exact Logic.I.
    - (* WUList *)
      injection E as <-. apply step_same; [|reflexivity|evs]. now apply inv_lists.
    - (* WUCount *)
      destruct (wload (wr_mem r) t false group_count c) as [[v m']|] eqn:Ld; [|discriminate]. injection E as <-.
      eapply inv_load in Ld as (J & H); [apply step_same; [exact J|exact H|evs]|exact I|now rewrite Pc|now rewrite Pc|evs|nogiven|].
      intros b Hb Lb Vb. rewrite Vb, (count_newest _ _ _ _ t b c I) by (auto; now rewrite Pc). rewrite Nat2N.id.
      cbn. split; [exact Tk|]. split; [reflexivity|]. split; [lia|]. intros j Hj. lia.
    - (* WUStore *)
      destruct Tk as (T1 & T2 & T3 & T4). assert (wlocked (wr_pc r t) = true) as Lk by now rewrite Pc.
      destruct (Nat.ltb_spec i n0) as [L|L].
      + destruct (slot_name _ _ _ _ i I ltac:(lia)) as (g & Gg & Pg & Cg).
        assert (forall m2 m' on, winv m2 (wr_pc r) (wr_hist r) ver -> wstore m2 t false (status_at i) (status_val on) f n = Some m' ->
                  (forall x, hist m2 x = hist (wr_mem r) x) -> vle (seen (wr_mem r) t) (seen m2 t) ->
                  (on = true <-> on_by (setting (wr_hist r) (nsw (wr_hist r))) g) ->
                  step_ok r (wr_goto r m' t (WUStore l (S i) n0) []) ver) as Go.
        { intros m2 m' on I2 St Hh Ls On.
          assert (seen m' t = vat (seen m2 t) (status_at i) n) as Sn
            by (apply wstore_inv in St as (_ & w & _ & _ & _ & _ & _ & _ & _ & -> & _); apply tset_same).
          eapply (inv_status m2 _ _ _ _ _ _ _ g _ _ _ (WUStore l (S i) n0)) in St as (J & K); eauto.
          - exists (stored_at ver i n (nsw (wr_hist r))), []. split; [reflexivity|]. split; [exact J|]. split; [|apply quiet_news; evs].
            intros v j q Lq F. apply K; auto. intros b. rewrite Hh. apply F.
          - left. split; [exact Gg|now rewrite Pc].
          - intros K Fr. cbn. split; [exact T1|]. split; [exact T2|]. split; [lia|]. intros j Hj.
            destruct (Nat.eq_dec j i) as [->|N]; [exact Fr|]. apply K; [auto|]. rewrite Sn. eapply fresh_view; [apply vle_vat|].
            eapply fresh_view; [exact Ls|]. intros b. rewrite Hh. apply T4. lia. }
        destruct l as [[en dis]|].
        * set (m1 := wtouch (wr_mem r) t (name_at i) false (plain (wr_mem r) (name_at i))) in *.
          assert (winv m1 (wr_pc r) (wr_hist r) ver) as I1.
          { apply (inv_peek _ _ _ _ t (name_at i) I). right. exists i. split; [reflexivity|]. split; [left; lia|now left]. }
          set (m2 := wtouch m1 t lists_at false (plain m1 lists_at)) in *.
          assert (winv m2 (wr_pc r) (wr_hist r) ver) as I2.
          { apply (inv_peek _ _ _ _ t lists_at I1). now left. }
          rewrite Pg in E. cbn [name_in] in E.
          destruct (wstore m2 t false (status_at i) _ f n) as [m'|] eqn:St; [|discriminate]. injection E as <-.
          eapply (Go m2); eauto.
          -- unfold m2, m1, wtouch. cbn. rewrite !tset_same. eapply vle_trans; apply vle_vknow.
          -- pose proof (v_lists _ _ _ _ I g) as V. unfold m1, wtouch. cbn. rewrite lset_other by discriminate. exact V.
        * destruct (wstore (wr_mem r) t false (status_at i) _ f n) as [m'|] eqn:St; [|discriminate]. injection E as <-.
          apply (Go (wr_mem r) m' false); [exact I|exact St|reflexivity|apply vle_refl|]. unfold placed_last in T1. rewrite T1. cbn. split; [discriminate|contradiction].
      + injection E as <-. apply step_same; [|reflexivity|evs].
        apply inv_local; [exact I|now rewrite Pc|now rewrite Pc|evs|nogiven|]. cbn. split; [exact T1|]. intros j Hj. apply T4. lia.
    - (* WURet *)
      injection E as <-. destruct Tk as (T1 & T2). assert (wlocked (wr_pc r t) = true) as Lk by now rewrite Pc.
      exists ver, [SSwitched t]. split; [reflexivity|]. split; [|split; [now apply keeps_hist|split]].
      + apply inv_unlock; [exact I|reflexivity|exact Lk|now rewrite Pc|evs|nogiven|exact Logic.I].
      + intros t' s i on [X|[]]. discriminate X.
      + intros u [X|[]]. injection X as <-. exact T2.
  Qed.

  (** ** Runs *)

  Local Notation wrun := (wregistry_run site_cat).

  Lemma wrstep_seen r a r' : wrstep site_cat r a = Some r' -> forall u, vle (seen (wr_mem r) u) (seen (wr_mem r') u).
  Proof.
    assert (forall (m : mem) t acq x c v m', wload m t acq x c = Some (v, m') -> forall u, vle (seen m u) (seen m' u)) as Ld.
    { intros m t acq x c v m' E. unfold wload in E. destruct (nth_error (hist m x) c) as [b|]; [|discriminate].
      destruct (_ <=? _)%N; [|discriminate]. injection E as _ <-. apply seen_tset, after_load_le. }
    assert (forall (m : mem) t rel x v f n m', wstore m t rel x v f n = Some m' -> forall u, vle (seen m u) (seen m' u)) as St.
    { intros m t rel x v f n m' E. apply wstore_inv in E as (_ & w & _ & _ & _ & _ & _ & _ & _ & -> & _). apply seen_tset, vle_vat. }
    assert (forall (m : mem) t x w v u, vle (seen m u) (seen (wtouch m t x w v) u)) as To
      by (intros m t x w v; apply seen_tset, vle_vknow).
    assert (forall (m : mem) t x m', wlock m t x = Some m' -> forall u, vle (seen m u) (seen m' u)) as Lk.
    { intros m t x m' E. unfold wlock in E. destruct (held m x); [discriminate|]. injection E as <-. apply seen_tset, vle_join_l. }
    intros E u. destruct a as [t arg|t l|t s|t c f n]; cbn in E; destruct (wr_pc r t) eqn:Pc; try discriminate E;
      try (injection E as <-; apply vle_refl);
      try (destruct (wload (wr_mem r) t _ _ c) as [[[|v] m']|] eqn:X; [| |discriminate]; injection E as <-; eapply Ld; eauto);
      try (destruct (wstore (wr_mem r) t _ _ _ f n) as [m'|] eqn:X; [|discriminate]; injection E as <-; eapply St; eauto);
      try (destruct (wlock (wr_mem r) t _) as [m'|] eqn:X; [|discriminate]; injection E as <-; eapply Lk; eauto).
    - destruct (i <? n0); [|injection E as <-; apply vle_refl]. destruct (same_name _ name); injection E as <-; apply To.
    - destruct (i <? n0); [|destruct (n0 <? registry_size); injection E as <-; apply vle_refl].
      destruct (same_name _ name); injection E as <-; apply To.
    - injection E as <-. apply To.
    - destruct (wstore _ t _ _ _ f n) as [m'|] eqn:X; [|discriminate]. injection E as <-.
      eapply vle_trans; [apply (To _ t (name_at i) false (plain (wr_mem r) (name_at i)))|].
      eapply vle_trans; [|eapply St; exact X]. apply To.
    - destruct (wfetch_add (wr_mem r) t false true group_count 1 c n) as [[v m']|] eqn:X; [|discriminate]. injection E as <-.
      unfold wfetch_add, wrmw in X. destruct (nth_error _ c); [|discriminate]. destruct (_ && _)%bool; [|discriminate]. injection X as _ <-.
      apply seen_tset. eapply vle_trans; [apply after_load_le|apply vle_vat].
    - injection E as <-. apply To.
    - destruct (i <? n0); [|injection E as <-; apply vle_refl]. destruct l as [l|].
      + destruct (wstore _ t _ _ _ f n) as [m'|] eqn:X; [|discriminate]. injection E as <-.
        eapply vle_trans; [apply (To _ t (name_at i) false (plain (wr_mem r) (name_at i)))|].
        eapply vle_trans; [|eapply St; exact X]. apply To.
      + destruct (wstore _ t _ _ _ f n) as [m'|] eqn:X; [|discriminate]. injection E as <-. eapply St; eauto.
  Qed.

  Lemma wrun_seen s1 s2 u : vle (seen (wr_mem (wrun s1)) u) (seen (wr_mem (wrun (s1 ++ s2))) u).
  Proof.
    unfold wregistry_run. rewrite run_app.
    apply (run_rel (wrstep site_cat) (fun r r' => vle (seen (wr_mem r) u) (seen (wr_mem r') u))).
    - intros; apply vle_refl.
    - intros a b c. apply vle_trans.
    - intros r a r' E. eapply wrstep_seen. exact E.
  Qed.

  Lemma winv_new : winv (wr_mem wr_new) (wr_pc wr_new) (wr_hist wr_new) (fun _ _ => 0).
  Proof.
    assert (forall h i r, h = [] -> registered_after h i r -> r = 0) as R0.
    { intros h i r -> [(_ & ->)|(a & t & g & b & E & _)]; [reflexivity|destruct a; discriminate]. }
    assert (forall m ver v i, floor m [] ver v i) as F0.
    { intros m ver v i r Hr b _ _. rewrite (R0 [] i r eq_refl Hr). lia. }
    assert (groups_of [] = built_in) as G0 by apply app_nil_r.
    assert (cnt [] = 3) as C0 by (unfold cnt; rewrite G0; reflexivity).
    split; cbn [wr_new wr_mem wr_pc wr_hist wmem_new races held plain hist accs seen left_at]; rewrite ?G0, ?C0; auto; try easy.
    - lia.
    - intros g Hg. Local Transparent built_in. cbn in Hg. repeat (destruct Hg as [<-|Hg]; [reflexivity|]). destruct Hg.
    - repeat constructor; cbn; intuition discriminate.
    - intros i g Hg. unfold wr_plain, name_at. rewrite Nat2N.id. f_equal. now apply nth_error_nth.
    - intros g. cbn. split; [|contradiction]. intros X. apply calculateEnabled_spec in X as (z & _ & (w & [] & _) & _).
    - eexists _, []. split; [reflexivity|]. split; [constructor; cbn; lia|]. split; reflexivity.
    - intros b [<-|[]]. exists 3. split; [reflexivity|]. split; [auto|]. split; [|auto]. intros i e a _ Ha. now destruct e.
    - intros e a Ha. now destruct e.
    - intros i b [<-|[]]. cbn. lia.
    - intros e a Ha. now destruct e.
    - intros i g _ b [<-|[]]. right. split; [reflexivity|apply off_at_start].
    - intros i _. left. intros b [<-|[]]. split; reflexivity.
    - intros s b [<-|[]]. now left.
    - intros a t g i b E. destruct a; discriminate.
  Qed.
  Local Opaque built_in.

  (** [u] had seen the setting number [k] of slot [i], by a trace point or by
      making it. *)
  Inductive learned (h : list switch_event) (sees : nat -> nat) (u : tid) (i : nat) : nat -> Prop :=
  | learned_trace j s on : nth_error h j = Some (STraced u s i on) -> learned h sees u i (sees j)
  | learned_switch a l b c q : h = a ++ SPlaced u l :: b ++ SSwitched u :: c ->
      registered_after h i q -> q <= length (switches a) -> learned h sees u i (S (length (switches a))).

  Definition traced (h : list switch_event) (sees : nat -> nat) : Prop :=
    forall j t s i on, nth_error h j = Some (STraced t s i on) -> exists g,
      slot_ok h (c_str (site_cat s)) i /\ nth_error (groups_of h) i = Some g /\ sees j <= nsw (firstn j h) /\ (on = true <-> on_by (setting h (sees j)) g) /\
      forall q, registered_after h i q -> q <= sees j.

  Record rinv (sched : list wract) (ver : nat -> N -> nat) (sees : nat -> nat) : Prop := {
    n_inv : winv (wr_mem (wrun sched)) (wr_pc (wrun sched)) (wr_hist (wrun sched)) ver;
    n_traced : traced (wr_hist (wrun sched)) sees;
    n_learned : forall s1 s2 u i k, sched = s1 ++ s2 -> learned (wr_hist (wrun s1)) sees u i k ->
      k <= nsw (wr_hist (wrun s1)) /\ fresh (wr_mem (wrun sched)) ver (seen (wr_mem (wrun s1)) u) i k;
    n_heard : forall s1 s2 s3 j t s i on u k, sched = s1 ++ s2 ++ s3 -> length (wr_hist (wrun (s1 ++ s2))) = j ->
      nth_error (wr_hist (wrun sched)) j = Some (STraced t s i on) -> learned (wr_hist (wrun s1)) sees u i k ->
      (forall y, (ts (seen (wr_mem (wrun s1)) u) y <= ts (seen (wr_mem (wrun (s1 ++ s2))) t) y)%N) -> k <= sees j;
  }.

  Lemma step_refl r ver : winv (wr_mem r) (wr_pc r) (wr_hist r) ver -> step_ok r r ver.
  Proof.
    intros I. exists ver, []. split; [now rewrite app_nil_r|]. split; [exact I|]. split; [intros v i q _ F; exact F|]. apply quiet_news. intros y [].
  Qed.

  Lemma wrstep_short r a r' : wrstep site_cat r a = Some r' -> exists e, wr_hist r' = wr_hist r ++ e /\ length e <= 1.
  Proof.
    intros E. assert (forall m t p e, length e <= 1 -> Some (wr_goto r m t p e) = Some r' -> exists e, wr_hist r' = wr_hist r ++ e /\ length e <= 1) as G
      by (intros m t p e L X; injection X as <-; exists e; split; [reflexivity|exact L]).
    destruct a as [t arg|t l|t s|t c f n]; cbn in E; destruct (wr_pc r t); try discriminate E;
      repeat (match type of E with
              | match ?x with _ => _ end = _ => destruct x; try discriminate E
              | (if ?x then _ else _) = _ => destruct x; try discriminate E
              end); try (eapply G; [|exact E]; cbn; lia).
  Qed.

  Lemma learned_lt h sees sees' u i k : (forall j, j < length h -> sees' j = sees j) -> learned h sees' u i k -> learned h sees u i k.
  Proof.
    intros E [j s on Hj|a l b c q Hh Hr Hq]; [|eapply learned_switch; eauto].
    rewrite E by (apply nth_error_Some; congruence). eapply learned_trace; eauto.
  Qed.

  Lemma reg_slot_lt m pc h ver i q : winv m pc h ver -> registered_after h i q -> i < cnt h.
  Proof.
    intros I [(L & _)|(a & t & g & b & E & _)].
    - pose proof (v_bnd _ _ _ _ I). lia.
    - rewrite (v_reg _ _ _ _ I _ _ _ _ _ E). rewrite E. unfold cnt, groups_of. rewrite flat_map_app, !app_length. cbn. lia.
  Qed.

  Lemma snoc_split {A} (s : list A) x s1 s2 : s ++ [x] = s1 ++ s2 -> (s2 = [] /\ s1 = s ++ [x]) \/ exists s2', s2 = s2' ++ [x] /\ s = s1 ++ s2'.
  Proof.
    intros E. destruct s2 as [|y s2] using rev_ind.
    - rewrite app_nil_r in E. left. auto.
    - rewrite app_assoc in E. apply app_inj_tail in E as (E & ->). right. eauto.
  Qed.

  Lemma slot_grows h e nm i : 3 <= cnt (h ++ e) <= 250 -> slot_ok h nm i -> slot_ok (h ++ e) nm i.
  Proof.
    unfold slot_ok, cnt, groups_of. rewrite flat_map_app, app_assoc, app_length. set (g := built_in ++ _).
    intros B [X|(-> & L & X)]; [left|right].
    - rewrite nth_error_app1; [exact X|]. apply nth_error_Some. congruence.
    - destruct (flat_map _ e) as [|y l]; cbn [length] in *; [|lia]. rewrite app_nil_r. repeat (split; auto). lia.
  Qed.

  Lemma rinv_step s x ver sees : rinv s ver sees -> exists ver' sees', rinv (s ++ [x]) ver' sees'.
  Proof.
    intros R. pose proof (n_inv _ _ _ R) as I.
    assert (exists e, wr_hist (wrun (s ++ [x])) = wr_hist (wrun s) ++ e /\ length e <= 1) as (e & He & Le).
    { unfold wregistry_run. rewrite run_snoc. unfold move. destruct (wrstep site_cat _ x) as [r'|] eqn:E; [now apply wrstep_short in E|].
      exists []. rewrite app_nil_r. auto. }
    assert (step_ok (wrun s) (wrun (s ++ [x])) ver) as (ver' & e' & He' & I' & K & Ntr & Nsw).
    { unfold wregistry_run. rewrite run_snoc. unfold move. destruct (wrstep site_cat _ x) as [r'|] eqn:E.
      - eapply wrstep_ok; eauto.
      - now apply step_refl. }
    rewrite He in He'. apply app_inv_head in He'. subst e'.
    pose proof (wrun_seen s [x]) as Vs.
    set (h := wr_hist (wrun s)) in *. set (h' := wr_hist (wrun (s ++ [x]))) in *.
    set (m := wr_mem (wrun s)) in *. set (m' := wr_mem (wrun (s ++ [x]))) in *.
    assert (exists k0, match e with [STraced t s0 i on] => exists g,
              k0 <= nsw h /\ (slot_ok h (c_str (site_cat s0)) i /\ nth_error (groups_of h) i = Some g) /\ (on = true <-> on_by (setting h k0) g) /\
              (forall q, registered_after h i q -> q <= k0) /\ fresh m' ver' (seen m' t) i k0 /\
              (forall v q, (forall y, (ts v y <= ts (seen m t) y)%N) -> fresh m ver v i q -> q <= k0) | _ => True end) as (k0 & Hk).
    { destruct e as [|y [|? ?]]; [now exists 0| |now (exists 0; destruct y)]. destruct y; try now exists 0.
      destruct (Ntr _ _ _ _ (or_introl eq_refl)) as (k & g & X). now exists k, g. }
    set (sees' := fun j => if Nat.eqb j (length h) then k0 else sees j).
    assert (forall j, j < length h -> sees' j = sees j) as So.
    { intros j Hj. unfold sees'. destruct (Nat.eqb_spec j (length h)); [lia|reflexivity]. }
    assert (sees' (length h) = k0) as Sn by (unfold sees'; now rewrite Nat.eqb_refl).
    assert (forall s1 s2, s = s1 ++ s2 -> exists e1, h = wr_hist (wrun s1) ++ e1) as Pre.
    { intros s1 s2 E. unfold h. rewrite E. unfold wregistry_run. rewrite run_app.
      apply (run_rel (wrstep site_cat) (fun r r' => exists e1, wr_hist r' = wr_hist r ++ e1)).
      - intros r. exists []. now rewrite app_nil_r.
      - intros a b c (e1 & E1) (e2 & E2). exists (e1 ++ e2). now rewrite E2, E1, app_assoc.
      - intros r a r' X. apply wrstep_short in X as (e1 & X & _). eauto. }
    assert (forall s1 s2, s = s1 ++ s2 -> length (wr_hist (wrun s1)) <= length h) as Pl.
    { intros s1 s2 E. destruct (Pre s1 s2 E) as (e1 & ->). rewrite app_length. lia. }
    exists ver', sees'. split; fold h h' m m'.
    - exact I'.
    - intros j t s0 i on Hj. rewrite He in Hj.
      assert (forall q, registered_after h' i q -> i < cnt h -> registered_after h i q) as Rg.
      { intros q Hq Li. rewrite He in Hq. destruct e as [|y [|? ?]]; [now rewrite app_nil_r in Hq| |cbn in Le; lia].
        pose proof Hq as Hq'. apply reg_after_snoc in Hq as [X|(u & g & -> & _)]; [exact X|exfalso].
        assert (i = cnt h); [|lia]. apply (v_reg _ _ _ _ I' h u g i []). exact He. }
      destruct (Nat.lt_ge_cases j (length h)) as [L|L].
      + rewrite nth_error_app1 in Hj by auto. destruct (n_traced _ _ _ R j _ _ _ _ Hj) as (g & Sk & G & S & O & Q). fold h in Sk, G, S, O, Q.
        assert (i < cnt h) as Li by (unfold cnt; apply nth_error_Some; congruence).
        rewrite (So j L). exists g. rewrite He.
        assert (nth_error (groups_of (h ++ e)) i = Some g) as G'.
        { unfold groups_of in *. rewrite flat_map_app, app_assoc. rewrite nth_error_app1; [exact G|]. apply nth_error_Some. congruence. }
        assert (sees j <= nsw h) as Sl.
        { eapply Nat.le_trans; [exact S|]. unfold nsw. rewrite <- (firstn_skipn j h) at 2. rewrite switches_app, app_length. lia. }
        split; [apply slot_grows; [rewrite <- He; apply (v_bnd _ _ _ _ I')|exact Sk]|]. split; [exact G'|]. split; [|split].
        * rewrite firstn_app. replace (j - length h) with 0 by lia. cbn. now rewrite app_nil_r.
        * now rewrite setting_app.
        * intros q Hq. apply Q. apply Rg; [now rewrite He|exact Li].
      + rewrite nth_error_app2 in Hj by auto. destruct e as [|y [|? ?]]; [now destruct (j - length h)| |cbn in Le; lia].
        destruct (j - length h) as [|[|?]] eqn:Ej; [|discriminate|discriminate]. injection Hj as ->. assert (j = length h) by lia. subst j.
        destruct Hk as (g & K1 & (K0 & K2) & K3 & K4 & _). rewrite Sn. exists g.
        assert (i < cnt h) as Li by (unfold cnt; apply nth_error_Some; congruence).
        rewrite He. rewrite inert_groups by (intros y [<-|[]]; exact Logic.I).
        split; [apply slot_inert; [intros y [<-|[]]; exact Logic.I|exact K0]|]. split; [exact K2|]. split; [|split].
        * rewrite firstn_app, firstn_all, Nat.sub_diag. cbn. now rewrite app_nil_r.
        * now rewrite setting_app.
        * intros q Hq. apply K4. apply Rg; [now rewrite He|exact Li].
    - intros s1 s2 u i k E Lr. apply snoc_split in E as [(-> & ->)|(s2' & -> & E)].
      + fold h' in Lr. fold h' m'.
        assert (learned h sees u i k -> k <= nsw h' /\ fresh m' ver' (seen m' u) i k) as Old.
        { intros X. destruct (n_learned _ _ _ R s [] u i k) as (A & B); [now rewrite app_nil_r|exact X|]. fold h in A. fold m in B.
          split; [rewrite He; unfold nsw in *; rewrite switches_app, app_length; lia|].
          apply K; [exact A|]. eapply fresh_view; [apply Vs|exact B]. }
        destruct Lr as [j s0 on Hj|a l b c q Hh Hr Hq].
        * rewrite He in Hj. destruct (Nat.lt_ge_cases j (length h)) as [L|L].
          -- rewrite nth_error_app1 in Hj by auto. rewrite (So j L) in *. apply Old. eapply learned_trace; eauto.
          -- rewrite nth_error_app2 in Hj by auto. destruct e as [|y [|? ?]]; [now destruct (j - length h)| |cbn in Le; lia].
             destruct (j - length h) as [|[|?]] eqn:Ej; [|discriminate|discriminate]. injection Hj as ->. assert (j = length h) by lia. subst j.
             destruct Hk as (g & K1 & K2 & K3 & K4 & K5 & _). rewrite Sn. split; [|exact K5].
             rewrite He. unfold nsw in *. rewrite switches_app, app_length. lia.
        * assert (forall h0 c0, h0 = a ++ SPlaced u l :: b ++ c0 -> S (length (switches a)) <= nsw h0) as Ln.
          { intros h0 c0 ->. unfold nsw. rewrite switches_app, app_length. cbn. rewrite switches_app, app_length. lia. }
          destruct e as [|y [|? ?]]; [| |cbn in Le; lia].
          -- rewrite He, app_nil_r in *. apply Old. eapply learned_switch; eauto.
          -- rewrite He in Hh. change (SPlaced u l :: b ++ SSwitched u :: c) with ((SPlaced u l :: b) ++ SSwitched u :: c) in Hh.
             rewrite app_assoc in Hh. apply in_snoc_split in Hh as [(-> & Hh & ->)|(c' & -> & Hh)].
             ++ assert (h = a ++ SPlaced u l :: b ++ []) as Hh' by (rewrite app_nil_r; auto).
                rewrite He in Hr. apply reg_after_inert in Hr; [|intros y [<-|[]]; exact Logic.I].
                split.
                ** rewrite He, nsw_inert by (intros y [<-|[]]; exact Logic.I). eauto.
                ** apply (fresh_le _ _ _ _ (nsw h)); [eauto|]. apply Nsw; [now left|]. eapply reg_slot_lt; eauto.
             ++ rewrite <- app_assoc in Hh. cbn in Hh. rewrite He in Hr. apply reg_after_snoc in Hr as [Hr|(u0 & g & -> & ->)].
                ** apply Old. eapply learned_switch; eauto.
                ** exfalso. specialize (Ln h _ Hh). unfold nsw in Ln. lia.
      + assert (learned (wr_hist (wrun s1)) sees u i k) as Lr'.
        { eapply learned_lt; [|exact Lr]. intros j Hj. apply So. specialize (Pl _ _ E). lia. }
        destruct (n_learned _ _ _ R s1 s2' u i k E Lr') as (A & B). split; [exact A|]. apply K; [|exact B].
        eapply Nat.le_trans; [exact A|]. destruct (Pre _ _ E) as (e1 & ->). unfold nsw. rewrite switches_app, app_length. lia.
    - intros s1 s2 s3 j t s0 i on u k E Hl Hj Lr V. rewrite app_assoc in E. apply snoc_split in E as [(-> & E)|(s3' & -> & E)].
      + exfalso. rewrite E in Hl. fold h' in Hl. assert (j < length h') by (apply nth_error_Some; congruence). lia.
      + pose proof (Pl _ _ E) as Lj. rewrite Hl in Lj. assert (E' := E). rewrite <- app_assoc in E'.
        assert (learned (wr_hist (wrun s1)) sees u i k) as Lr'.
        { eapply learned_lt; [|exact Lr]. intros j0 Hj0. apply So. specialize (Pl s1 (s2 ++ s3') E'). lia. }
        rewrite He in Hj. destruct (Nat.lt_ge_cases j (length h)) as [L|L].
        * rewrite nth_error_app1 in Hj by auto. rewrite (So j L). eapply (n_heard _ _ _ R); eauto.
        * assert (j = length h) by lia. rewrite nth_error_app2 in Hj by auto. destruct e as [|y [|? ?]]; [now destruct (j - length h)| |cbn in Le; lia].
          destruct (j - length h) as [|[|?]] eqn:Ej; [|discriminate|discriminate]. injection Hj as ->.
          destruct Hk as (g & K1 & K2 & K3 & K4 & K5 & K6). rewrite H, Sn.
          destruct (n_learned _ _ _ R s1 (s2 ++ s3') u i k E' Lr') as (A & B). eapply K6; [|exact B].
          intros y. specialize (V y). pose proof (wrun_seen (s1 ++ s2) s3' t) as (W & _). specialize (W y). rewrite <- E in W. fold m in W. lia.
  Qed.

  Theorem wregistry_run_inv sched : exists ver sees, rinv sched ver sees.
  Proof.
    induction sched as [|x s IH] using rev_ind; [|destruct IH as (v & w & R); eapply rinv_step; eauto].
    exists (fun _ _ => 0), (fun _ => 0). split.
    - apply winv_new.
    - intros j t s i on H. destruct j; discriminate.
    - intros s1 s2 u i k E Lr. symmetry in E. apply app_eq_nil in E as (-> & ->).
      destruct Lr as [j s0 on Hj|a l b c q Hh _ _]; [destruct j; discriminate|destruct a; discriminate].
    - intros s1 s2 s3 j t s0 i on u k E Hl Hj. destruct j; discriminate.
  Qed.

  Lemma wrun_prefix s1 s2 : exists e, wr_hist (wrun (s1 ++ s2)) = wr_hist (wrun s1) ++ e.
  Proof.
    unfold wregistry_run. rewrite run_app.
    apply (run_rel (wrstep site_cat) (fun r r' => exists e1, wr_hist r' = wr_hist r ++ e1)).
    - intros r. exists []. now rewrite app_nil_r.
    - intros a b c (e1 & E1) (e2 & E2). exists (e1 ++ e2). now rewrite E2, E1, app_assoc.
    - intros r a r' X. apply wrstep_short in X as (e1 & X & _). eauto.
  Qed.

  Lemma registered_before h e i q : registered_after (h ++ e) i q -> q < nsw h -> registered_after h i q.
  Proof.
    intros R L. induction e as [|y e IH] using rev_ind; [now rewrite app_nil_r in R|].
    rewrite app_assoc in R. apply reg_after_snoc in R as [R|(t & g & _ & ->)]; [auto|].
    rewrite switches_app, app_length in L. unfold nsw in L. lia.
  Qed.

  Lemma slot_registered sched ver sees i g : rinv sched ver sees ->
    nth_error (groups_of (wr_hist (wrun sched))) i = Some g -> exists q, registered_after (wr_hist (wrun sched)) i q.
  Proof.
    intros R. pose proof (v_reg _ _ _ _ (n_inv _ _ _ R)) as V. revert V. generalize (wr_hist (wrun sched)). intros h.
    induction h as [|y h IH] using rev_ind; intros V G.
    - exists 0. left. split; [|reflexivity]. assert (i < length (groups_of [])) as L by (apply nth_error_Some; congruence). exact L.
    - destruct (Nat.lt_ge_cases i (length (groups_of h))) as [L|L].
      + destruct IH as (q & Hq).
        * intros a t g0 j b E. apply (V a t g0 j (b ++ [y])). rewrite E, <- app_assoc. reflexivity.
        * unfold groups_of in *. rewrite flat_map_app, app_assoc, nth_error_app1 in G by exact L. exact G.
        * exists q. destruct Hq as [Hq|(a & t & g0 & b & E & Hq)]; [now left|right].
          exists a, t, g0, (b ++ [y]). split; [rewrite E, <- app_assoc; reflexivity|exact Hq].
      + assert (forall t n s, y = SRegistered t n s -> s = length (groups_of h)) as Vy
          by (intros t n s ->; exact (V h t n s [] eq_refl)).
        destruct y as [| t n s| | | |]; try (rewrite inert_groups in G by (intros z [<-|[]]; exact Logic.I);
          assert (i < length (groups_of h)) by (apply nth_error_Some; congruence); lia).
        * rewrite groups_reg in G. assert (i < length (groups_of h ++ [n])) as X by (apply nth_error_Some; congruence).
          rewrite app_length in X. cbn in X. exists (length (switches h)). right. exists h, t, n, [].
          rewrite (Vy t n s eq_refl) at 1. split; [|reflexivity]. repeat f_equal. lia.
        * rewrite groups_placed in G. assert (i < length (groups_of h)) by (apply nth_error_Some; congruence). lia.
  Qed.
End WeakRegistry.
