(** The trace log with the memory orders it is written with. *)
From Verif Require Import Base Spec.LogUse Model.Queue Model.Interleave Model.WeakMem Model.WeakLog
  Proofs.Queue Proofs.Interleave Proofs.WeakMem.
Local Open Scope N_scope.
Local Arguments after_load : simpl never.
Local Arguments lset : simpl never.
Local Arguments Nat.ltb : simpl never.
Local Arguments tset : simpl never.
Local Arguments upd : simpl never.
Local Arguments remove : simpl never.

Notation mem := (wmem lval).

(** ** What is known of the accesses to a variable *)

(** Who holds lock [x] has heard of this, or would on taking it. *)
Definition lview (m : mem) (x : loc) : view :=
  match held m x with Some t => seen m t | None => left_at m x end.
Definition cov (m : mem) : view := lview m log_mutex.
Definition ecov (m : mem) (u : tid) : view := lview m (tenant_lock u).
(** What [u] has heard of when it holds the lock of its tenant. *)
Definition sview (m : mem) (u : tid) : view := vjoin (seen m u) (ecov m u).

(** [P] holds of all accesses to [x] (of all writes, if not [all]). *)
Definition acc (m : mem) (x : loc) (all : bool) (P : nat -> Prop) : Prop :=
  forall e a, nth_error (accs m) e = Some a -> a_loc a = x -> all = true \/ a_write a = true -> P e.
Definition kn (v : view) (e : nat) : Prop := known v e = true.

(** The variables of buffer [b]. *)
Definition of_buf (b : N) (x : loc) : Prop := x = buffer_obj b \/ exists i, x = buffer_chunk b i.

(** Whether the log is on: the value of the newest store. *)
Definition newest (m : mem) : N := match hist m log_enabled with g :: _ => m_val g | [] => 0 end.

(** ** The state, as the invariant sees it *)

(** Whose is a buffer. *)
Inductive bst := BUnborn | BBuild (t : tid) | BCur | BOwned (t : tid) | BDying (t : tid) | BGone.
Definition mine (s : bst) (t : tid) : Prop := s = BBuild t \/ s = BOwned t \/ s = BDying t.

Record scene := {
  zcur : option N;                  (* the log's buffer *)
  zten : tid -> option (N * nat);   (* the chunk pointers of the tenants *)
  zregs : list tid;
  zinit : tid -> bool;
  zown : tid -> list N;
  zshape : N -> bool * nat;
  znxt : N -> nat;
  zque : N -> list (nat * view);
  zcnt : N;
  zon : bool;
  zlive : tid -> bool;              (* registered, and not evicted by the stop going on *)
  ztok : tid -> option nat;         (* the chunk of the log's buffer that is this thread's *)
  zst : N -> bst;
  zt1 : N;                          (* when the log was last switched on *)
}.

Definition open (Z : scene) : Prop := zon Z = true \/ exists u, zlive Z u = true.
Definition covered (m : mem) (Z : scene) (e : nat) : Prop :=
  kn (cov m) e \/ exists u, zlive Z u = true /\ kn (ecov m u) e.

Record vinv (m : mem) (Z : scene) : Prop := {
  v_race : races m = [];
  v_on : exists g l, hist m log_enabled = g :: l /\ chain (fun _ => False) (g :: l) /\ m_to g <= ts (cov m) log_enabled /\
           zon Z = negb (m_val g =? 0) /\ (zon Z = true -> m_to g = zt1 Z) /\ (open Z -> zt1 Z <= m_to g);
  v_live : forall u b, zlive Z u = true -> In b (hist m log_enabled) -> ts (sview m u) log_enabled <= m_to b ->
             m_val b <> 0 -> m_to b = zt1 Z;
  v_dead : forall u b, zinit Z u = true -> zlive Z u = false -> In b (hist m log_enabled) ->
             ts (sview m u) log_enabled <= m_to b -> m_val b = 0;
  v_pub : open Z -> forall g, In g (hist m log_enabled) -> m_to g = zt1 Z ->
            acc m log_buffer false (kn (m_view g)) /\
            forall b, zcur Z = Some b -> acc m (buffer_obj b) false (kn (m_view g)) /\
              forall i, (znxt Z b <= i)%nat -> acc m (buffer_chunk b i) true (kn (m_view g));
  v_tens : acc m log_tenants true (kn (cov m));
  v_bufw : acc m log_buffer false (kn (cov m));
  v_objw : forall b, zcur Z = Some b -> acc m (buffer_obj b) false (kn (cov m));
  v_buf : acc m log_buffer true (covered m Z);
  v_cur : forall b x, zcur Z = Some b -> of_buf b x -> acc m x true (covered m Z);
  v_mine : forall b t x, mine (zst Z b) t -> of_buf b x -> acc m x true (kn (seen m t));
  v_unborn : forall b x, zst Z b = BUnborn -> of_buf b x -> acc m x true (fun _ => False);
  v_ten : forall u, acc m (tenant_chunk u) true (fun e =>
            (kn (seen m u) e \/ (kn (cov m) e /\ kn (ecov m u) e)) /\ (kn (cov m) e \/ kn (ecov m u) e));
  v_tok : forall b u i, zcur Z = Some b -> ztok Z u = Some i -> acc m (buffer_chunk b i) true (kn (sview m u));
  v_que : forall b i w, zcur Z = Some b -> In (i, w) (zque Z b) -> acc m (buffer_chunk b i) true (kn w);
  v_ecov : forall u, vle (ecov m u) (vjoin (seen m u) (cov m));
}.

(** ** The program counters *)

Definition mpc (p : wlpc) : bool :=
  match p with
  | MGen _ | Held _ | HUnlock | SEnabled _ | SExchange _ | SList _ | SEvict _ _ | SNull _ _ _ | SUnlock _ _ _ | SNew _
  | SMake _ _ | SAssign _ | SStore _ | TEnabled _ | TMove _ | AList _ | ABuf _ | AObj _ _ | RDo | DDo | DPtr | DBuf _ _
  | DReturn _ _ _ | DNull | DErase => true
  | GFree _ _ KIdle => false
  | GFree _ _ _ => true
  | _ => false
  end.

(** [h] at [p] holds the lock of the tenant of [u]. *)
Definition tpc (h : tid) (p : wlpc) (u : tid) : bool :=
  match p with
  | LInit _ | LPtr _ | LFull _ _ _ | LAgain _ _ | LOld _ _ | LReturn _ _ _ _ | LNull _ | LThird _ | LBuf _ | LGet _ _
  | LDeq _ _ | LReset _ _ _ | LSet _ _ _ | LStore _ _ _ | LUnlock | LGen | LDrop _ => Nat.eqb h u
  | SNull _ v _ | SUnlock _ v _ => Nat.eqb v u
  | _ => false
  end.

(** A stop is going on at [p] that has not come to [u] yet. *)
Definition stops (p : wlpc) (u : tid) : Prop :=
  match p with
  | SList _ => True
  | SEvict _ l | SNull _ _ l | SUnlock _ _ l => In u l
  | _ => False
  end.
Definition nulls (p : wlpc) (u : tid) : Prop := match p with SNull _ v _ => v = u | _ => False end.

(** [v] has heard of the start of the trace going on. *)
Definition pub (m : mem) (Z : scene) (v : view) : Prop :=
  exists g, In g (hist m log_enabled) /\ m_to g = zt1 Z /\ vle (m_view g) v.

Section Pc.
  Variables (m : mem) (Z : scene) (u : tid) (v : view).

  Definition inside : Prop := zinit Z u = true /\ zlive Z u = true /\ pub m Z v.

  Definition koff (k : wish) : Prop := match k with Some _ => zon Z = false | None => True end.

  Definition pcok (p : wlpc) : Prop :=
    match p with
    | LPtr _ => zinit Z u = true
    | LFull _ b i | LStore _ b i => zinit Z u = true /\ zten Z u = Some (b, i)
    | LAgain _ c => zinit Z u = true /\ zten Z u = c
    | LOld _ c => inside /\ zten Z u = c /\ c <> None
    | LReturn _ b' b i => inside /\ zten Z u = Some (b, i) /\ zcur Z = Some b'
    | LNull _ => inside
    | LThird _ | LBuf _ => inside /\ zten Z u = None
    | LGet _ b => inside /\ zten Z u = None /\ zcur Z = Some b
    | LDeq _ b => inside /\ zten Z u = None /\ zcur Z = Some b
    | LReset _ b i | LSet _ b i => inside /\ zten Z u = None /\ zcur Z = Some b /\ ztok Z u = Some i
    | SList _ => zon Z = false
    | SEvict _ l | SNull _ _ l | SUnlock _ _ l => zon Z = false /\ NoDup l
    | SNew _ | TMove _ => zon Z = false
    | SMake b _ | SAssign b => zst Z b = BBuild u /\ zon Z = false
    | SStore b => zcur Z = Some b /\ zon Z = false
    | AObj k b => koff k /\ zcur Z = Some b
    | GFree b _ k => zst Z b = BDying u /\
        match k with KEnable b' => zcur Z = Some b' /\ zon Z = false | KHeld k => koff k | KIdle => True end
    | Held k | TEnabled k | AList k | ABuf k => koff k
    | DPtr | DNull => zinit Z u = true
    | DBuf b i => zinit Z u = true /\ zten Z u = Some (b, i)
    | DReturn b' b i => zinit Z u = true /\ zten Z u = Some (b, i) /\ zcur Z = Some b'
    | DErase => zinit Z u = true /\ zten Z u = None
    | _ => True
    end.

  Definition tokrule (p : wlpc) : Prop :=
    match p with
    | LReset _ _ _ | LSet _ _ _ => True
    | LNull _ | DNull => ztok Z u = None
    | _ => ztok Z u = option_map snd (zten Z u)
    end.
End Pc.

Record agree (s : wlog) (Z : scene) : Prop := {
  a_buf : plain (wl_mem s) log_buffer = VBuf (zcur Z);
  a_ten : forall u, plain (wl_mem s) (tenant_chunk u) = VPtr (zten Z u);
  a_regs : plain (wl_mem s) log_tenants = VTenants (zregs Z);
  a_init : wl_init s = zinit Z;
  a_own : wl_own s = zown Z;
  a_shape : wl_shape s = zshape Z;
  a_nxt : wl_issued s = znxt Z;
  a_que : wl_queue s = zque Z;
  a_cnt : wl_count s = zcnt Z;
}.

(** Who holds which lock. *)
Definition locks (m : mem) (pc : tid -> wlpc) : Prop :=
  (forall t, mpc (pc t) = true <-> held m log_mutex = Some t) /\
  (forall h u, tpc h (pc h) u = true <-> held m (tenant_lock u) = Some h).

Record pinv (m : mem) (pc : tid -> wlpc) (Z : scene) : Prop := {
  p_locks : locks m pc;
  p_regs : NoDup (zregs Z) /\ forall u, In u (zregs Z) <-> zinit Z u = true;
  p_live : forall u, zlive Z u = true -> zinit Z u = true;
  p_on : zon Z = true -> forall u, zinit Z u = true -> zlive Z u = true;
  p_quiet : zon Z = false -> forall u, zlive Z u = true -> exists t, stops (pc t) u;
  p_ten : forall u b i, zten Z u = Some (b, i) -> zcur Z = Some b /\ (zlive Z u = true \/ exists t, nulls (pc t) u);
  p_tok : forall u i, ztok Z u = Some i -> (zlive Z u = true \/ exists t, nulls (pc t) u) /\
            exists b, zcur Z = Some b /\ (i < znxt Z b)%nat;
  p_dist : forall u u' i, ztok Z u = Some i -> ztok Z u' = Some i -> u = u';
  p_que : forall b, zcur Z = Some b -> NoDup (map fst (zque Z b)) /\
            forall i, In i (map fst (zque Z b)) -> (i < znxt Z b)%nat /\ forall u, ztok Z u <> Some i;
  p_cur : forall b, zcur Z = Some b -> zst Z b = BCur;
  p_own : forall t b, In b (zown Z t) -> zst Z b = BOwned t;
  p_born : forall b, zcnt Z <= b <-> zst Z b = BUnborn;
  p_build : forall b t, zst Z b = BBuild t -> zque Z b = [] /\ znxt Z b = O;
  p_pc : forall u, pcok m Z u (seen m u) (pc u);
  p_tokr : forall u, tokrule Z u (pc u);
}.

Definition inv (s : wlog) (Z : scene) : Prop := agree s Z /\ vinv (wl_mem s) Z /\ pinv (wl_mem s) (wl_pc s) Z.

(** ** Variables *)

Lemma tenant_lock_inj u v : tenant_lock u = tenant_lock v -> u = v.
Proof. intros [= H]. lia. Qed.
Lemma tenant_chunk_inj u v : tenant_chunk u = tenant_chunk v -> u = v.
Proof. intros [= H]. lia. Qed.
Definition loc_obj (x : loc) : N := match x with Loc o _ => o end.
Definition loc_idx (x : loc) : N := match x with Loc _ i => i end.
Lemma chunk_obj b i : loc_obj (buffer_chunk b i) = 6 + b.
Proof. reflexivity. Qed.
Lemma chunk_idx b i : loc_idx (buffer_chunk b i) = N.of_nat i.
Proof. reflexivity. Qed.
Lemma buffer_chunk_inj b i b' i' : buffer_chunk b i = buffer_chunk b' i' -> b = b' /\ i = i'.
Proof.
  intros H. pose proof (f_equal loc_obj H) as A. pose proof (f_equal loc_idx H) as B. rewrite !chunk_obj in A. rewrite !chunk_idx in B. lia.
Qed.
Lemma chunk_low b i x : loc_obj x < 6 -> buffer_chunk b i <> x.
Proof. intros L H. apply (f_equal loc_obj) in H. rewrite chunk_obj in H. lia. Qed.
Lemma chunk_not_obj b i b' : buffer_chunk b i <> buffer_obj b'.
Proof. apply chunk_low. cbn. lia. Qed.
Lemma of_buf_inj b b' x : of_buf b x -> of_buf b' x -> b = b'.
Proof.
  intros [->|(i & ->)] [H|(j & H)].
  - now injection H.
  - symmetry in H. now apply chunk_not_obj in H.
  - now apply chunk_not_obj in H.
  - apply buffer_chunk_inj in H. tauto.
Qed.
Lemma of_buf_obj b : of_buf b (buffer_obj b).
Proof. now left. Qed.
Lemma of_buf_chunk b i : of_buf b (buffer_chunk b i).
Proof. right. eauto. Qed.
Lemma of_buf_not b x : of_buf b x -> x <> log_buffer /\ x <> log_tenants /\ forall u, x <> tenant_chunk u.
Proof.
  intros [->|(i & ->)].
  - repeat split; intros; discriminate.
  - repeat split; intros; apply chunk_low; cbn; lia.
Qed.
Global Opaque buffer_chunk.

(** ** What grows *)

Definition grow (m m' : mem) : Prop :=
  (forall u, vle (seen m u) (seen m' u)) /\ forall x, vle (lview m x) (lview m' x).

Lemma grow_refl (m : mem) : grow m m.
Proof. split; intros; apply vle_refl. Qed.

Lemma vle_join_mono a b a' b' : vle a a' -> vle b b' -> vle (vjoin a b) (vjoin a' b').
Proof.
  intros (A & B) (C & D). split; cbn.
  - intros x. specialize (A x). specialize (C x). lia.
  - intros e H. apply orb_true_iff in H as [H|H]; apply orb_true_iff; auto.
Qed.
Lemma vle_join_lub a b c : vle a c -> vle b c -> vle (vjoin a b) c.
Proof.
  intros (A & B) (C & D). split; cbn.
  - intros x. specialize (A x). specialize (C x). lia.
  - intros e H. apply orb_true_iff in H as [H|H]; auto.
Qed.

Lemma grow_sview (m : mem) m' u : grow m m' -> vle (sview m u) (sview m' u).
Proof. intros (A & B). apply vle_join_mono; [apply A|apply B]. Qed.

Lemma kn_le a b e : vle a b -> kn a e -> kn b e.
Proof. intros (_ & H). apply H. Qed.
Lemma kn_join a b e : kn (vjoin a b) e <-> kn a e \/ kn b e.
Proof. unfold kn. cbn. apply orb_true_iff. Qed.

Lemma covered_grow (m : mem) m' Z e : grow m m' -> covered m Z e -> covered m' Z e.
Proof.
  intros (_ & G) [H|(u & L & H)]; [left|right; exists u; split; auto]; (eapply kn_le; [apply G|exact H]).
Qed.

Lemma acc_impl (m : mem) x all (P Q : nat -> Prop) : (forall e, P e -> Q e) -> acc m x all P -> acc m x all Q.
Proof. intros H A e a Ha Hx Hw. apply H. eapply A; eauto. Qed.
Lemma acc_weak (m : mem) x (P : nat -> Prop) : acc m x true P -> acc m x false P.
Proof. intros A e a Ha Hx Hw. eapply A; eauto. Qed.

(** No access is made, nothing is switched. *)
Lemma vinv_grow (m m' : mem) Z : vinv m Z -> grow m m' -> hist m' log_enabled = hist m log_enabled -> accs m' = accs m ->
  races m' = races m -> (forall u, vle (ecov m' u) (vjoin (seen m' u) (cov m'))) -> vinv m' Z.
Proof.
  intros I G Hh Ha Hr He. pose proof G as (Gs & Gx).
  assert (forall u, vle (sview m u) (sview m' u)) as Gv by (intros; now apply grow_sview).
  assert (forall x al P, acc m x al P -> acc m' x al P) as Ac by (intros x al P; unfold acc; now rewrite Ha).
  assert (vle (cov m) (cov m')) as Gc by apply Gx. assert (forall u, vle (ecov m u) (ecov m' u)) as Ge by (intros; apply Gx).
  split; auto.
  - rewrite Hr. apply (v_race _ _ I).
  - rewrite Hh. destruct (v_on _ _ I) as (g & l & A & B & C & D). exists g, l. repeat (split; [solve [auto]|]). split; [|exact D].
    destruct Gc as (Gc & _). specialize (Gc log_enabled). lia.
  - intros u b L. rewrite Hh. intros Hb Hl. apply (v_live _ _ I u b L Hb). destruct (Gv u) as (X & _). specialize (X log_enabled). lia.
  - intros u b Iu L. rewrite Hh. intros Hb Hl. apply (v_dead _ _ I u b Iu L Hb). destruct (Gv u) as (X & _). specialize (X log_enabled). lia.
  - intros O g. rewrite Hh. intros Hg Ht. destruct (v_pub _ _ I O g Hg Ht) as (A & B). split; [auto|]. intros b Hb.
    destruct (B b Hb) as (C & D). split; auto.
  - apply Ac. eapply acc_impl; [|apply (v_tens _ _ I)]. intros e. now apply kn_le.
  - apply Ac. eapply acc_impl; [|apply (v_bufw _ _ I)]. intros e. now apply kn_le.
  - intros b Hb. apply Ac. eapply acc_impl; [|apply (v_objw _ _ I); exact Hb]. intros e. now apply kn_le.
  - apply Ac. eapply acc_impl; [|apply (v_buf _ _ I)]. intros e. now apply covered_grow.
  - intros b x Hb Hx. apply Ac. eapply acc_impl; [|eapply (v_cur _ _ I); eauto]. intros e. now apply covered_grow.
  - intros b t x Hb Hx. apply Ac. eapply acc_impl; [|eapply (v_mine _ _ I); eauto]. intros e. now apply kn_le.
  - intros b x Hb Hx. apply Ac. eapply (v_unborn _ _ I); eauto.
  - intros u. apply Ac. eapply acc_impl; [|eapply (v_ten _ _ I)]. intros e (A & B). split.
    + destruct A as [A|(A & C)]; [left; now apply (kn_le (seen m u))|right].
      split; [now apply (kn_le (cov m))|now apply (kn_le (ecov m u))].
    + destruct B as [B|B]; [left; now apply (kn_le (cov m))|right; now apply (kn_le (ecov m u))].
  - intros b u i Hb Hi. apply Ac. eapply acc_impl; [|eapply (v_tok _ _ I); eauto]. intros e. now apply kn_le.
  - intros b i w Hb Hi. apply Ac. eapply (v_que _ _ I); eauto.
Qed.

(** An access is made. *)
Lemma acc_touch (m : mem) t x w v y al (P : nat -> Prop) : acc m y al P -> (x = y -> al = true \/ w = true -> P (length (accs m))) ->
  acc (wtouch m t x w v) y al P.
Proof.
  intros A N e a Ha Hx Hw. cbn [wtouch accs] in Ha. destruct (Nat.lt_ge_cases e (length (accs m))) as [L|L].
  - rewrite nth_error_app1 in Ha by auto. eapply A; eauto.
  - rewrite nth_error_app2 in Ha by auto. destruct (e - length (accs m))%nat as [|j] eqn:Ej.
    + cbn in Ha. injection Ha as <-. cbn in Hx, Hw. replace e with (length (accs m)) by lia. auto.
    + cbn in Ha. destruct j; discriminate.
Qed.

Lemma touch_grow (m : mem) t x w v : grow m (wtouch m t x w v).
Proof.
  assert (forall u, vle (seen m u) (seen (wtouch m t x w v) u)) as A.
  { intros u. cbn [wtouch seen]. destruct (Nat.eq_dec u t) as [->|N].
    - rewrite tset_same. apply vle_vknow.
    - rewrite tset_other by auto. apply vle_refl. }
  split; [exact A|]. intros y. unfold lview. cbn [wtouch held left_at]. destruct (held m y); [apply A|apply vle_refl].
Qed.

Lemma touch_kn (m : mem) t x w v : kn (seen (wtouch m t x w v) t) (length (accs m)).
Proof. cbn [wtouch seen]. rewrite tset_same. apply vknow_self. Qed.
Lemma touch_kn_lock (m : mem) t x w v y : held m y = Some t -> kn (lview (wtouch m t x w v) y) (length (accs m)).
Proof. intros H. unfold lview. cbn [wtouch held]. rewrite H. apply touch_kn. Qed.

Lemma ordered_acc (m : mem) t x w : acc m x w (kn (seen m t)) -> ordered (seen m t) x w 0 (accs m) = true.
Proof. intros H. apply ordered_spec. intros i a Ha Hx Hw. cbn. apply (H i a); auto. Qed.

Lemma vinv_touch (m : mem) t x w v Z :
  vinv m Z ->
  (forall u h, held m (tenant_lock u) = Some h -> h = u \/ held m log_mutex = Some h) ->
  acc m x w (kn (seen m t)) ->
  (x = log_tenants -> held m log_mutex = Some t) ->
  (forall u, x = tenant_chunk u ->
     (t = u /\ held m (tenant_lock u) = Some t) \/ (held m log_mutex = Some t /\ (t = u \/ held m (tenant_lock u) = Some t))) ->
  (x = log_buffer -> held m log_mutex = Some t \/ (w = false /\ zlive Z t = true /\ held m (tenant_lock t) = Some t)) ->
  (x = log_buffer -> w = true -> ~ open Z) ->
  (forall b, of_buf b x -> zst Z b <> BUnborn /\ forall t', mine (zst Z b) t' -> t' = t) ->
  (forall b, zcur Z = Some b -> of_buf b x -> held m log_mutex = Some t \/ (zlive Z t = true /\ held m (tenant_lock t) = Some t)) ->
  (forall b, zcur Z = Some b -> x = buffer_obj b -> w = false) ->
  (forall b i, zcur Z = Some b -> x = buffer_chunk b i -> (i < znxt Z b)%nat /\
     (forall u, ztok Z u = Some i -> u = t) /\ forall w, ~ In (i, w) (zque Z b)) ->
  vinv (wtouch m t x w v) Z.
Proof.
  intros I Hl Or Ht Hu Hb Hbw Hm Hc Ho Hk. pose proof (touch_grow m t x w v) as G. pose proof G as (Gs & Gx).
  set (m' := wtouch m t x w v) in *. set (e0 := length (accs m)).
  assert (forall u, vle (sview m u) (sview m' u)) as Gv by (intros; now apply grow_sview).
  assert (vle (cov m) (cov m')) as Gc by apply Gx. assert (forall u, vle (ecov m u) (ecov m' u)) as Ge by (intros; apply Gx).
  assert (hist m' log_enabled = hist m log_enabled) as Hh by reflexivity.
  assert (kn (seen m' t) e0) as Kt by apply touch_kn.
  assert (held m log_mutex = Some t -> kn (cov m') e0) as Km by (intros X; now apply touch_kn_lock).
  assert (forall u, held m (tenant_lock u) = Some t -> kn (ecov m' u) e0) as Ke by (intros u X; now apply touch_kn_lock).
  assert (forall y al P, acc m y al P -> (x = y -> al = true \/ w = true -> P e0) -> acc m' y al P) as Ac
    by (intros y al P A1 A2; now apply acc_touch).
  split; auto.
  - cbn [m' wtouch races]. rewrite ordered_acc by exact Or. apply (v_race _ _ I).
  - rewrite Hh. destruct (v_on _ _ I) as (g & l & A & B & C & D). exists g, l. repeat (split; [solve [auto]|]). split; [|exact D].
    destruct Gc as (Gc & _). specialize (Gc log_enabled). lia.
  - intros u b L. rewrite Hh. intros Hb0 Hl0. apply (v_live _ _ I u b L Hb0). destruct (Gv u) as (X & _). specialize (X log_enabled). lia.
  - intros u b Iu L. rewrite Hh. intros Hb0 Hl0. apply (v_dead _ _ I u b Iu L Hb0). destruct (Gv u) as (X & _). specialize (X log_enabled). lia.
  - intros O g. rewrite Hh. intros Hg Htm. destruct (v_pub _ _ I O g Hg Htm) as (A & B). split.
    + apply Ac; [exact A|]. intros X [Y|Y]; [discriminate|]. exfalso. now apply Hbw.
    + intros b Eb. destruct (B b Eb) as (C & D). split.
      * apply Ac; [exact C|]. intros X [Y|Y]; [discriminate|]. rewrite (Ho b Eb X) in Y. discriminate.
      * intros i Li. apply Ac; [now apply D|]. intros X _. destruct (Hk b i Eb X) as (Y & _). lia.
  - apply Ac; [|intros X _; auto]. eapply acc_impl; [|apply (v_tens _ _ I)]. intros e. now apply kn_le.
  - apply Ac.
    + eapply acc_impl; [|apply (v_bufw _ _ I)]. intros e. now apply kn_le.
    + intros X [Y|Y]; [discriminate|]. destruct (Hb X) as [W|(W & _)]; [auto|congruence].
  - intros b Eb. apply Ac.
    + eapply acc_impl; [|apply (v_objw _ _ I); exact Eb]. intros e. now apply kn_le.
    + intros X [Y|Y]; [discriminate|]. rewrite (Ho b Eb X) in Y. discriminate.
  - apply Ac.
    + eapply acc_impl; [|apply (v_buf _ _ I)]. intros e. now apply covered_grow.
    + intros X _. destruct (Hb X) as [W|(_ & W & V)]; [left; auto|right; exists t; auto].
  - intros b y Eb Hy. apply Ac.
    + eapply acc_impl; [|eapply (v_cur _ _ I); eauto]. intros e. now apply covered_grow.
    + intros <- _. destruct (Hc b Eb Hy) as [W|(W & V)]; [left; auto|right; exists t; auto].
  - intros b t' y Eb Hy. apply Ac.
    + eapply acc_impl; [|eapply (v_mine _ _ I); eauto]. intros e. now apply kn_le.
    + intros <- _. destruct (Hm b Hy) as (_ & X). now rewrite (X _ Eb).
  - intros b y Eb Hy. apply Ac; [eapply (v_unborn _ _ I); eauto|]. intros <- _. destruct (Hm b Hy) as (X & _). now apply X.
  - intros u. apply Ac.
    + eapply acc_impl; [|eapply (v_ten _ _ I)]. intros e (A & B). split.
      * destruct A as [A|(A & C)]; [left; now apply (kn_le (seen m u))|right].
        split; [now apply (kn_le (cov m))|now apply (kn_le (ecov m u))].
      * destruct B as [B|B]; [left; now apply (kn_le (cov m))|right; now apply (kn_le (ecov m u))].
    + intros X _. destruct (Hu u X) as [(-> & Y)|(Y & [->|W])]; split; auto.
  - intros b u i Eb Hi. apply Ac.
    + eapply acc_impl; [|eapply (v_tok _ _ I); eauto]. intros e. now apply kn_le.
    + intros X _. destruct (Hk b i Eb X) as (_ & Y & _). rewrite (Y u Hi). apply kn_join. now left.
  - intros b i q Eb Hi. apply Ac; [eapply (v_que _ _ I); eauto|]. intros X _. destruct (Hk b i Eb X) as (_ & _ & Y).
    exfalso. eapply Y; eauto.
  - intros u. unfold ecov, lview. cbn [m' wtouch held left_at]. destruct (held m (tenant_lock u)) as [h|] eqn:Eh.
    + destruct (Hl u h Eh) as [->|Y]; [apply vle_join_l|]. eapply vle_trans; [|apply vle_join_r].
      assert (cov m' = seen m' h) as -> by (unfold cov, lview; cbn [m' wtouch held]; now rewrite Y). apply vle_refl.
    + pose proof (v_ecov _ _ I u) as X. unfold ecov, lview in X. rewrite Eh in X. eapply vle_trans; [exact X|].
      apply vle_join_mono; [apply Gs|exact Gc].
Qed.

(** ** The steps of the memory *)

Lemma locks_tenant m pc u h : locks m pc -> held m (tenant_lock u) = Some h -> h = u \/ held m log_mutex = Some h.
Proof.
  intros (A & B) H. apply B in H. destruct (pc h) eqn:E; try discriminate H; cbn in H;
    try (left; now apply Nat.eqb_eq in H); right; apply A; now rewrite E.
Qed.

Lemma ecov_ok (m m' : mem) pc : locks m' pc -> grow m m' ->
  (forall u, held m' (tenant_lock u) = None -> vle (ecov m' u) (ecov m u)) ->
  (forall u, vle (ecov m u) (vjoin (seen m u) (cov m))) ->
  forall u, vle (ecov m' u) (vjoin (seen m' u) (cov m')).
Proof.
  intros L (Gs & Gx) N E u. destruct (held m' (tenant_lock u)) as [h|] eqn:Eh.
  - assert (ecov m' u = seen m' h) as -> by (unfold ecov, lview; now rewrite Eh).
    destruct (locks_tenant _ _ _ _ L Eh) as [->|Y]; [apply vle_join_l|]. eapply vle_trans; [|apply vle_join_r].
    assert (cov m' = seen m' h) as -> by (unfold cov, lview; now rewrite Y). apply vle_refl.
  - eapply vle_trans; [apply N; exact Eh|]. eapply vle_trans; [apply E|]. apply vle_join_mono; [apply Gs|apply Gx].
Qed.

Lemma seen_grow (m : mem) t v : vle (seen m t) v -> grow m (with_seen m t v).
Proof.
  intros L. assert (forall u, vle (seen m u) (seen (with_seen m t v) u)) as A.
  { intros u. cbn [with_seen seen]. destruct (Nat.eq_dec u t) as [->|N].
    - now rewrite tset_same.
    - rewrite tset_other by auto. apply vle_refl. }
  split; [exact A|]. intros y. unfold lview. cbn [with_seen held left_at]. destruct (held m y); [apply A|apply vle_refl].
Qed.

Lemma wload_inv (m : mem) t acq x c v m' : wload m t acq x c = Some (v, m') ->
  exists g, nth_error (hist m x) c = Some g /\ v = m_val g /\ ts (seen m t) x <= m_to g /\
    m' = with_seen m t (after_load (seen m t) acq x g).
Proof.
  unfold wload. destruct (nth_error (hist m x) c) as [g|]; [|discriminate].
  destruct (ts (seen m t) x <=? m_to g) eqn:L; [|discriminate]. intros [= <- <-]. exists g. apply N.leb_le in L. auto.
Qed.

Lemma vinv_seen (m : mem) pc t v Z : vinv m Z -> locks m pc -> vle (seen m t) v -> vinv (with_seen m t v) Z.
Proof.
  intros I L Lv. pose proof (seen_grow m t v Lv) as G. eapply vinv_grow; eauto.
  eapply ecov_ok; [exact L|exact G| |apply (v_ecov _ _ I)].
  intros u Hu. cbn [with_seen held] in Hu. unfold ecov, lview. cbn [with_seen held left_at]. rewrite Hu. apply vle_refl.
Qed.

Lemma wlock_inv (m : mem) t x m' : wlock m t x = Some m' -> held m x = None /\
  m' = {| hist := hist m; plain := plain m; accs := accs m; seen := tset (seen m) t (vjoin (seen m t) (left_at m x));
          held := lset (held m) x (Some t); left_at := left_at m; races := races m |}.
Proof. unfold wlock. destruct (held m x) eqn:E; [discriminate|]. intros [= <-]. auto. Qed.

Lemma lock_grow (m : mem) t x m' : wlock m t x = Some m' -> grow m m'.
Proof.
  intros H. apply wlock_inv in H as (E & ->).
  assert (forall u, vle (seen m u) (tset (seen m) t (vjoin (seen m t) (left_at m x)) u)) as A.
  { intros u. destruct (Nat.eq_dec u t) as [->|N].
    - rewrite tset_same. apply vle_join_l.
    - rewrite tset_other by auto. apply vle_refl. }
  split; [exact A|]. intros y. unfold lview. cbn. destruct (loc_eqb y x) eqn:Ey.
  - apply loc_eqb_eq in Ey as ->. rewrite lset_same, E, tset_same. apply vle_join_r.
  - rewrite lset_other by (intros ->; now rewrite loc_eqb_refl in Ey). destruct (held m y); [apply A|apply vle_refl].
Qed.

Lemma vinv_lock (m : mem) pc t x m' Z : vinv m Z -> wlock m t x = Some m' -> locks m' pc -> vinv m' Z.
Proof.
  intros I H L. pose proof (lock_grow _ _ _ _ H) as G. apply wlock_inv in H as (E & ->). eapply vinv_grow; eauto.
  eapply ecov_ok; [exact L|exact G| |apply (v_ecov _ _ I)].
  intros u Hu. unfold ecov, lview. cbn [held left_at] in *. rewrite Hu. destruct (loc_eqb (tenant_lock u) x) eqn:Ey.
  - apply loc_eqb_eq in Ey as <-. rewrite lset_same in Hu. discriminate.
  - rewrite lset_other in Hu by (intros <-; now rewrite loc_eqb_refl in Ey). rewrite Hu. apply vle_refl.
Qed.

Lemma unlock_grow (m : mem) t x : held m x = Some t -> grow m (wunlock m t x).
Proof.
  intros H. split; [intros; apply vle_refl|]. intros y. unfold lview. cbn. destruct (loc_eqb y x) eqn:Ey.
  - apply loc_eqb_eq in Ey as ->. rewrite !lset_same, H. apply vle_refl.
  - rewrite !lset_other by (intros ->; now rewrite loc_eqb_refl in Ey). apply vle_refl.
Qed.

Lemma vinv_unlock (m : mem) pc t x Z : vinv m Z -> held m x = Some t -> locks (wunlock m t x) pc -> vinv (wunlock m t x) Z.
Proof.
  intros I H L. pose proof (unlock_grow _ _ _ H) as G. eapply vinv_grow; eauto.
  eapply ecov_ok; [exact L|exact G| |apply (v_ecov _ _ I)].
  intros u Hu. unfold ecov, lview. cbn [wunlock held left_at seen] in *. rewrite Hu. destruct (loc_eqb (tenant_lock u) x) eqn:Ey.
  - apply loc_eqb_eq in Ey as <-. rewrite lset_same, H. apply vle_refl.
  - rewrite lset_other in Hu by (intros <-; now rewrite loc_eqb_refl in Ey).
    rewrite lset_other by (intros <-; now rewrite loc_eqb_refl in Ey). rewrite Hu. apply vle_refl.
Qed.

(** ** Who holds which lock after a step *)

Lemma locks_same (m m' : mem) pc t p : locks m pc -> held m' = held m -> mpc p = mpc (pc t) ->
  (forall u, tpc t p u = tpc t (pc t) u) -> locks m' (tset pc t p).
Proof.
  intros (A & B) H Hm Ht. split.
  - intros u. rewrite H. destruct (Nat.eq_dec u t) as [->|N]; [rewrite tset_same, Hm|rewrite tset_other by auto]; apply A.
  - intros h u. rewrite H. destruct (Nat.eq_dec h t) as [->|N]; [rewrite tset_same, Ht|rewrite tset_other by auto]; apply B.
Qed.

Lemma mutex_not_tenant u : log_mutex <> tenant_lock u.
Proof. discriminate. Qed.

Lemma locks_mlock (m m' : mem) pc t p : locks m pc -> held m log_mutex = None -> held m' = lset (held m) log_mutex (Some t) ->
  mpc p = true -> (forall u, tpc t p u = tpc t (pc t) u) -> locks m' (tset pc t p).
Proof.
  intros (A & B) E H Hm Ht. split.
  - intros u. rewrite H, lset_same. destruct (Nat.eq_dec u t) as [->|N].
    + rewrite tset_same, Hm. tauto.
    + rewrite tset_other by auto. rewrite (A u), E. split; intros; congruence.
  - intros h u. rewrite H, lset_other by (intros X; symmetry in X; now apply mutex_not_tenant in X).
    destruct (Nat.eq_dec h t) as [->|N]; [rewrite tset_same, Ht|rewrite tset_other by auto]; apply B.
Qed.

Lemma locks_munlock (m m' : mem) pc t p : locks m pc -> mpc (pc t) = true -> held m' = lset (held m) log_mutex None ->
  mpc p = false -> (forall u, tpc t p u = tpc t (pc t) u) -> locks m' (tset pc t p).
Proof.
  intros (A & B) E H Hm Ht. split.
  - intros u. rewrite H, lset_same. destruct (Nat.eq_dec u t) as [->|N].
    + rewrite tset_same, Hm. split; intros; discriminate.
    + rewrite tset_other by auto. rewrite (A u). apply A in E. rewrite E. split; intros; congruence.
  - intros h u. rewrite H, lset_other by (intros X; symmetry in X; now apply mutex_not_tenant in X).
    destruct (Nat.eq_dec h t) as [->|N]; [rewrite tset_same, Ht|rewrite tset_other by auto]; apply B.
Qed.

Lemma locks_tlock (m m' : mem) pc t p v : locks m pc -> held m (tenant_lock v) = None ->
  held m' = lset (held m) (tenant_lock v) (Some t) -> mpc p = mpc (pc t) ->
  (forall u, tpc t (pc t) u = false) -> (forall u, tpc t p u = Nat.eqb v u) -> locks m' (tset pc t p).
Proof.
  intros (A & B) E H Hm Hf Ht. split.
  - intros u. rewrite H, lset_other by apply mutex_not_tenant.
    destruct (Nat.eq_dec u t) as [->|N]; [rewrite tset_same, Hm|rewrite tset_other by auto]; apply A.
  - intros h u. rewrite H. destruct (Nat.eq_dec u v) as [->|Nv].
    + rewrite lset_same. destruct (Nat.eq_dec h t) as [->|N].
      * rewrite tset_same, Ht, Nat.eqb_refl. tauto.
      * rewrite tset_other by auto. rewrite (B h v), E. split; intros; congruence.
    + rewrite lset_other by (intros X; now apply tenant_lock_inj in X). destruct (Nat.eq_dec h t) as [->|N].
      * rewrite tset_same, Ht. rewrite <- (B t u), Hf. assert (Nat.eqb v u = false) as -> by (apply Nat.eqb_neq; auto). tauto.
      * rewrite tset_other by auto. apply B.
Qed.

Lemma locks_tunlock (m m' : mem) pc t p v : locks m pc ->
  held m' = lset (held m) (tenant_lock v) None -> mpc p = mpc (pc t) ->
  (forall u, tpc t (pc t) u = Nat.eqb v u) -> (forall u, tpc t p u = false) -> locks m' (tset pc t p).
Proof.
  intros (A & B) H Hm Hf Ht. assert (held m (tenant_lock v) = Some t) as E by (apply B; rewrite Hf; apply Nat.eqb_refl). split.
  - intros u. rewrite H, lset_other by apply mutex_not_tenant.
    destruct (Nat.eq_dec u t) as [->|N]; [rewrite tset_same, Hm|rewrite tset_other by auto]; apply A.
  - intros h u. rewrite H. destruct (Nat.eq_dec u v) as [->|Nv].
    + rewrite lset_same. destruct (Nat.eq_dec h t) as [->|N].
      * rewrite tset_same, Ht. split; intros; discriminate.
      * rewrite tset_other by auto. rewrite (B h v), E. split; intros; congruence.
    + rewrite lset_other by (intros X; now apply tenant_lock_inj in X). destruct (Nat.eq_dec h t) as [->|N].
      * rewrite tset_same, Ht. rewrite <- (B t u), Hf. assert (Nat.eqb v u = false) as -> by (apply Nat.eqb_neq; auto). tauto.
      * rewrite tset_other by auto. apply B.
Qed.

(** ** Steps that leave the scene as it is *)

Lemma pub_mono m m' Z v v' : hist m' log_enabled = hist m log_enabled -> vle v v' -> pub m Z v -> pub m' Z v'.
Proof. intros H L (g & A & B & C). exists g. rewrite H. repeat (split; [solve [auto]|]). eapply vle_trans; eauto. Qed.

Lemma pcok_mono m m' Z u v v' p : hist m' log_enabled = hist m log_enabled -> vle v v' -> pcok m Z u v p -> pcok m' Z u v' p.
Proof.
  intros H L. assert (inside m Z u v -> inside m' Z u v') as X.
  { intros (A & B & C). split; [exact A|split; [exact B|]]. eapply pub_mono; eauto. }
  destruct p; cbn; tauto.
Qed.

Lemma pinv_go m pc Z m' t p : pinv m pc Z -> (forall u, vle (seen m u) (seen m' u)) -> hist m' log_enabled = hist m log_enabled ->
  locks m' (tset pc t p) ->
  (forall u, zon Z = false -> zlive Z u = true -> stops (pc t) u -> stops p u) -> (forall u, ~ nulls (pc t) u) ->
  pcok m' Z t (seen m' t) p -> tokrule Z t p -> pinv m' (tset pc t p) Z.
Proof.
  intros I Ls H L S N K T.
  assert (forall u, (exists h, nulls (pc h) u) -> exists h, nulls (tset pc t p h) u) as Nu.
  { intros u (h & X). destruct (Nat.eq_dec h t) as [->|Nt]; [now apply N in X|]. exists h. now rewrite tset_other by auto. }
  split; [exact L|apply (p_regs _ _ _ I)|apply (p_live _ _ _ I)|apply (p_on _ _ _ I)| | | |apply (p_dist _ _ _ I)|apply (p_que _ _ _ I)
    |apply (p_cur _ _ _ I)|apply (p_own _ _ _ I)|apply (p_born _ _ _ I)|apply (p_build _ _ _ I)| |].
  - intros O u Lu. destruct (p_quiet _ _ _ I O u Lu) as (h & X). destruct (Nat.eq_dec h t) as [->|Nt].
    + exists t. rewrite tset_same. auto.
    + exists h. now rewrite tset_other by auto.
  - intros u b i X. destruct (p_ten _ _ _ I u b i X) as (A & B). split; [exact A|]. destruct B; auto.
  - intros u i X. destruct (p_tok _ _ _ I u i X) as (A & B). split; [|exact B]. destruct A; auto.
  - intros u. destruct (Nat.eq_dec u t) as [->|Nt].
    + now rewrite tset_same.
    + rewrite tset_other by auto. apply (pcok_mono m m' Z u (seen m u)); auto. apply (p_pc _ _ _ I).
  - intros u. destruct (Nat.eq_dec u t) as [->|Nt].
    + now rewrite tset_same.
    + rewrite tset_other by auto. apply (p_tokr _ _ _ I).
Qed.

(** ** The accesses the log makes *)

Lemma cov_held (m : mem) t : held m log_mutex = Some t -> cov m = seen m t.
Proof. intros H. unfold cov, lview. now rewrite H. Qed.
Lemma ecov_held (m : mem) u t : held m (tenant_lock u) = Some t -> ecov m u = seen m t.
Proof. intros H. unfold ecov, lview. now rewrite H. Qed.

Lemma chain_inj P l a b : chain P l -> In a l -> In b l -> m_to a = m_to b -> a = b.
Proof.
  induction l as [|g l IH]; intros C Ha Hb E; [destruct Ha|]. destruct Ha as [<-|Ha], Hb as [<-|Hb]; auto.
  - pose proof (chain_older _ _ _ C b Hb). lia.
  - pose proof (chain_older _ _ _ C a Ha). lia.
  - apply IH; auto. inversion C; subst; auto. destruct Ha.
Qed.

(** What holds of the locks is all these need of the program counters. *)
Definition honest (m : mem) : Prop :=
  forall u h, held m (tenant_lock u) = Some h -> h = u \/ held m log_mutex = Some h.

Lemma locks_honest m pc : locks m pc -> honest m.
Proof. intros L u h. now apply (locks_tenant m pc). Qed.

Ltac notbuf :=
  intros;
  match goal with
  | H : of_buf _ log_buffer |- _ => apply of_buf_not in H; exfalso; apply (proj1 H); reflexivity
  | H : of_buf _ log_tenants |- _ => apply of_buf_not in H; exfalso; apply (proj1 (proj2 H)); reflexivity
  | H : of_buf _ (tenant_chunk _) |- _ => apply of_buf_not in H; exfalso; eapply (proj2 (proj2 H)); reflexivity
  | H : log_buffer = buffer_chunk _ _ |- _ => symmetry in H; exfalso; revert H; apply chunk_low; reflexivity
  | H : log_tenants = buffer_chunk _ _ |- _ => symmetry in H; exfalso; revert H; apply chunk_low; reflexivity
  | H : tenant_chunk _ = buffer_chunk _ _ |- _ => symmetry in H; exfalso; revert H; apply chunk_low; reflexivity
  | H : buffer_obj _ = buffer_chunk _ _ |- _ => symmetry in H; exfalso; revert H; apply chunk_low; reflexivity
  | H : buffer_chunk _ _ = _ |- _ => exfalso; revert H; apply chunk_low; reflexivity
  | H : log_buffer = _ |- _ => discriminate H
  | H : log_tenants = _ |- _ => discriminate H
  | H : buffer_obj _ = _ |- _ => discriminate H
  | H : tenant_chunk _ = _ |- _ => discriminate H
  end.

Lemma vt_tenants m Z t w v : vinv m Z -> honest m -> held m log_mutex = Some t -> vinv (wtouch m t log_tenants w v) Z.
Proof.
  intros I L H. apply vinv_touch; auto; try solve [notbuf].
  eapply acc_impl; [|destruct w; [|apply acc_weak]; apply (v_tens _ _ I)]. intros e. now rewrite (cov_held m t).
Qed.

Lemma vt_ptr m Z t u w v : vinv m Z -> honest m ->
  (t = u /\ held m (tenant_lock u) = Some t) \/ (held m log_mutex = Some t /\ (t = u \/ held m (tenant_lock u) = Some t)) ->
  vinv (wtouch m t (tenant_chunk u) w v) Z.
Proof.
  intros I L H. apply vinv_touch; auto; try solve [notbuf].
  - eapply acc_impl; [|destruct w; [|apply acc_weak]; apply (v_ten _ _ I u)]. cbv beta. intros e (A & B).
    destruct H as [(-> & X)|(X & [->|Y])]; [rewrite (ecov_held m u u X) in *|rewrite (cov_held m u X) in *|
      rewrite (cov_held m t X) in *; rewrite (ecov_held m u t Y) in *]; tauto.
  - intros u' E. apply tenant_chunk_inj in E as <-. exact H.
Qed.

Lemma vt_buffer_read m Z t v : vinv m Z -> honest m -> zlive Z t = true -> held m (tenant_lock t) = Some t ->
  pub m Z (seen m t) -> vinv (wtouch m t log_buffer false v) Z.
Proof.
  intros I L Lv H (g & Hg & Tg & P). apply vinv_touch; auto; try solve [notbuf]; try (intros; discriminate).
  eapply acc_impl; [|apply (v_pub _ _ I); [right; eauto|exact Hg|exact Tg]]. intros e. now apply kn_le.
Qed.

Lemma open_covered m Z e : ~ open Z -> covered m Z e -> kn (cov m) e.
Proof. intros O [H|(u & L & _)]; [exact H|]. exfalso. apply O. right. eauto. Qed.

Lemma vt_buffer m Z t w v : vinv m Z -> honest m -> held m log_mutex = Some t -> (w = true -> ~ open Z) ->
  vinv (wtouch m t log_buffer w v) Z.
Proof.
  intros I L H O. apply vinv_touch; auto; try solve [notbuf]. rewrite <- (cov_held m t H). destruct w; [|apply (v_bufw _ _ I)].
  eapply acc_impl; [|apply (v_buf _ _ I)]. intros e. apply open_covered. auto.
Qed.

Lemma vt_obj_read m Z t b v : vinv m Z -> honest m -> zlive Z t = true -> held m (tenant_lock t) = Some t ->
  pub m Z (seen m t) -> zcur Z = Some b -> zst Z b = BCur ->
  vinv (wtouch m t (buffer_obj b) false v) Z.
Proof.
  intros I L Lv H (g & Hg & Tg & P) C S. apply vinv_touch; auto; try solve [notbuf].
  - destruct (v_pub _ _ I (or_intror (ex_intro _ t Lv)) g Hg Tg) as (_ & X). destruct (X b C) as (Y & _).
    eapply acc_impl; [|exact Y]. intros e. now apply kn_le.
  - intros b' Hb. apply (of_buf_inj b) in Hb as <-; [|apply of_buf_obj]. rewrite S. split; [discriminate|].
    intros t' [X|[X|X]]; discriminate.
Qed.

Lemma vt_obj m Z t b v : vinv m Z -> honest m -> held m log_mutex = Some t -> zcur Z = Some b -> zst Z b = BCur ->
  vinv (wtouch m t (buffer_obj b) false v) Z.
Proof.
  intros I L H C S. apply vinv_touch; auto; try solve [notbuf].
  - rewrite <- (cov_held m t H). now apply (v_objw _ _ I).
  - intros b' Hb. apply (of_buf_inj b) in Hb as <-; [|apply of_buf_obj]. rewrite S. split; [discriminate|].
    intros t' [X|[X|X]]; discriminate.
Qed.

Lemma vt_chunk m Z t b i w v : vinv m Z -> honest m -> zlive Z t = true -> held m (tenant_lock t) = Some t ->
  zcur Z = Some b -> zst Z b = BCur -> ztok Z t = Some i -> (i < znxt Z b)%nat ->
  (forall u, ztok Z u = Some i -> u = t) -> (forall q, ~ In (i, q) (zque Z b)) ->
  vinv (wtouch m t (buffer_chunk b i) w v) Z.
Proof.
  intros I L Lv H C S T N D Q. apply vinv_touch; auto; try solve [notbuf].
  - eapply acc_impl; [|destruct w; [|apply acc_weak]; apply (v_tok _ _ I b t i C T)]. intros e X. unfold sview in X.
    rewrite (ecov_held m t t H) in X. apply kn_join in X. tauto.
  - intros b' Hb. apply (of_buf_inj b) in Hb as <-; [|apply of_buf_chunk]. rewrite S. split; [discriminate|].
    intros t' [X|[X|X]]; discriminate.
  - intros b' j C' E. apply buffer_chunk_inj in E as (-> & ->). auto.
Qed.

Lemma vt_mine m Z t b x w v : vinv m Z -> honest m -> mine (zst Z b) t -> (forall b', zcur Z = Some b' -> zst Z b' = BCur) ->
  of_buf b x -> vinv (wtouch m t x w v) Z.
Proof.
  intros I L M S Hx. pose proof (of_buf_not b x Hx) as (X1 & X2 & X3).
  assert (forall b', zcur Z = Some b' -> of_buf b' x -> False) as Nc.
  { intros b' C Hb. apply (of_buf_inj b) in Hb as <-; [|exact Hx]. rewrite (S b C) in M. destruct M as [M|[M|M]]; discriminate. }
  apply vinv_touch; [exact I|exact L| | | | | | | | |].
  - eapply acc_impl; [|destruct w; [|apply acc_weak]; apply (v_mine _ _ I b t x M Hx)]. auto.
  - intros E. now apply X2 in E.
  - intros u E. now apply X3 in E.
  - intros E. now apply X1 in E.
  - intros E. now apply X1 in E.
  - intros b' Hb. apply (of_buf_inj b) in Hb as <-; [|exact Hx]. split.
    + intros E. rewrite E in M. destruct M as [M|[M|M]]; discriminate.
    + intros t'. destruct M as [M|[M|M]]; rewrite M; intros [E|[E|E]]; congruence.
  - intros b' C Hb. exfalso. eauto.
  - intros b' C ->. exfalso. eapply Nc; eauto. apply of_buf_obj.
  - intros b' i C ->. exfalso. eapply Nc; eauto. apply of_buf_chunk.
Qed.

(** ** Reads of [enabled] *)

Lemma read_newest m pc Z t c v m' : vinv m Z -> locks m pc -> held m log_mutex = Some t ->
  wload m t true log_enabled c = Some (v, m') -> zon Z = negb (v =? 0).
Proof.
  intros I L H W. apply wload_inv in W as (g & Hg & -> & Tg & ->). destruct (v_on _ _ I) as (g0 & l & E & C & T & O & _).
  rewrite E in Hg. rewrite (cov_held m t H) in T. assert (c = 0%nat) as -> by (eapply chain_load; eauto; lia).
  cbn in Hg. injection Hg as <-. exact O.
Qed.

Lemma read_on m Z t c v m' : vinv m Z -> held m (tenant_lock t) = Some t -> zinit Z t = true ->
  wload m t true log_enabled c = Some (v, m') -> v <> 0 -> zlive Z t = true /\ pub m' Z (seen m' t).
Proof.
  intros I H Ii W V. apply wload_inv in W as (g & Hg & -> & Tg & ->). apply nth_error_In in Hg.
  assert (ts (sview m t) log_enabled <= m_to g) as Ts.
  { unfold sview. rewrite (ecov_held m t t H). cbn. lia. }
  destruct (zlive Z t) eqn:Lv.
  - split; [reflexivity|]. exists g. split; [exact Hg|]. split; [now apply (v_live _ _ I t g)|].
    cbn [with_seen seen]. rewrite tset_same. apply after_load_acq.
  - exfalso. apply V. now apply (v_dead _ _ I t g).
Qed.

(** ** Changes of the scene alone *)

Lemma vinv_scene m Z Z' : vinv m Z ->
  zon Z' = zon Z -> zt1 Z' = zt1 Z ->
  (forall u, zlive Z' u = true -> zlive Z u = true \/ vle (cov m) (sview m u)) ->
  (forall u, zinit Z' u = true -> zlive Z' u = false ->
     (zinit Z u = true /\ zlive Z u = false) \/ (vle (cov m) (sview m u) /\ zon Z = false)) ->
  (open Z' -> open Z) ->
  (forall e, covered m Z e -> covered m Z' e) ->
  (forall b, zcur Z' = Some b -> (zcur Z = Some b /\ (znxt Z b <= znxt Z' b)%nat) \/
     (~ open Z' /\ exists t, mine (zst Z b) t /\ held m log_mutex = Some t)) ->
  (forall b t, mine (zst Z' b) t -> mine (zst Z b) t \/ zst Z b = BUnborn \/
     (zcur Z = Some b /\ ~ open Z /\ held m log_mutex = Some t)) ->
  (forall b, zst Z' b = BUnborn -> zst Z b = BUnborn) ->
  (forall b u i, zcur Z' = Some b -> ztok Z' u = Some i ->
     (zcur Z = Some b /\ ztok Z u = Some i) \/ acc m (buffer_chunk b i) true (kn (sview m u))) ->
  (forall b i w, zcur Z' = Some b -> In (i, w) (zque Z' b) ->
     (zcur Z = Some b /\ In (i, w) (zque Z b)) \/ acc m (buffer_chunk b i) true (kn w)) ->
  vinv m Z'.
Proof.
  intros I Eo Et Hl Hd Op Cv Hc Hm Hu Ht Hq. split.
  - apply (v_race _ _ I).
  - rewrite Eo, Et. destruct (v_on _ _ I) as (g & l & A & B & C & D & E & F). exists g, l. repeat (split; [solve [auto]|]). auto.
  - intros u b Lu Hb Tb Vb. rewrite Et. destruct (Hl u Lu) as [X|(X & _)]; [eapply (v_live _ _ I); eauto|].
    destruct (v_on _ _ I) as (g & l & E & C & T & O & N & _). specialize (X log_enabled). rewrite E in Hb.
    destruct (In_nth_error _ _ Hb) as (j & Hj). assert (j = 0%nat) as -> by (eapply chain_load; eauto; lia).
    cbn in Hj. injection Hj as <-. apply N. rewrite O. now destruct (N.eqb_spec (m_val g) 0).
  - intros u b Iu Lu Hb Tb. destruct (Hd u Iu Lu) as [(X & Y)|((X & _) & Y)]; [eapply (v_dead _ _ I); eauto|].
    destruct (v_on _ _ I) as (g & l & E & C & T & O & N & _). specialize (X log_enabled). rewrite E in Hb.
    destruct (In_nth_error _ _ Hb) as (j & Hj). assert (j = 0%nat) as -> by (eapply chain_load; eauto; lia).
    cbn in Hj. injection Hj as <-. rewrite O in Y. now destruct (N.eqb_spec (m_val g) 0).
  - intros O g Hg Tg. rewrite Et in Tg. destruct (v_pub _ _ I (Op O) g Hg Tg) as (A & B). split; [exact A|]. intros b Hb.
    destruct (Hc b Hb) as [(X & Y)|(X & _)]; [|contradiction]. destruct (B b X) as (C & D). split; [exact C|].
    intros i Hi. apply D. lia.
  - apply (v_tens _ _ I).
  - apply (v_bufw _ _ I).
  - intros b Hb. destruct (Hc b Hb) as [(X & Y)|(_ & t & X & Y)]; [now apply (v_objw _ _ I)|]. rewrite (cov_held m t Y).
    apply acc_weak. apply (v_mine _ _ I b t); [exact X|apply of_buf_obj].
  - eapply acc_impl; [|apply (v_buf _ _ I)]. exact Cv.
  - intros b x Hb Hx. destruct (Hc b Hb) as [(X & Y)|(_ & t & X & Y)].
    + eapply acc_impl; [|eapply (v_cur _ _ I); eauto]. exact Cv.
    + eapply acc_impl; [|apply (v_mine _ _ I b t x X Hx)]. intros e K. left. now rewrite (cov_held m t Y).
  - intros b t x Hb Hx. destruct (Hm b t Hb) as [X|[X|(X & Y & W)]].
    + now apply (v_mine _ _ I b t x).
    + eapply acc_impl; [|apply (v_unborn _ _ I b x X Hx)]. intros e [].
    + eapply acc_impl; [|apply (v_cur _ _ I b x X Hx)]. intros e K. rewrite <- (cov_held m t W). now apply (open_covered m Z).
  - intros b x Hb Hx. apply (v_unborn _ _ I b x); auto.
  - apply (v_ten _ _ I).
  - intros b u i Hb Hi. destruct (Ht b u i Hb Hi) as [(X & Y)|X]; [now apply (v_tok _ _ I)|exact X].
  - intros b i w Hb Hi. destruct (Hq b i w Hb Hi) as [(X & Y)|X]; [now apply (v_que _ _ I)|exact X].
  - apply (v_ecov _ _ I).
Qed.

(** ** The switch *)

Lemma msg_grow (m : mem) t x g w : vle (seen m t) w -> grow m (with_msg (with_seen m t w) x g).
Proof. intros L. exact (seen_grow m t w L). Qed.

(** Another store of false, or the store of true of a log that nobody writes to. *)
Lemma vinv_switch m pc Z Z' t g w : vinv m Z -> locks m pc -> held m log_mutex = Some t ->
  vle (seen m t) w -> m_to g <= ts w log_enabled -> (forall h, In h (hist m log_enabled) -> m_to h <= m_from g) -> m_from g < m_to g ->
  zinit Z' = zinit Z -> zcur Z' = zcur Z -> znxt Z' = znxt Z -> zst Z' = zst Z -> ztok Z' = ztok Z -> zque Z' = zque Z ->
  zon Z' = negb (m_val g =? 0) ->
  (zon Z' = false /\ zlive Z' = zlive Z /\ zt1 Z' = zt1 Z \/
   zon Z' = true /\ zon Z = false /\ (forall u, zlive Z u = false) /\ zt1 Z' = m_to g /\ zlive Z' = zinit Z /\ m_view g = w) ->
  vinv (with_msg (with_seen m t w) log_enabled g) Z'.
Proof.
  intros I L H Lw Tg Fr Lt Ei Ec En Es Ek Eq Eo Cs. set (m' := with_msg (with_seen m t w) log_enabled g).
  assert (grow m m') as G by exact (seen_grow m t w Lw). pose proof G as (Gs & Gx).
  assert (forall u, vle (sview m u) (sview m' u)) as Gv by (intros; now apply grow_sview).
  assert (vle (cov m) (cov m')) as Gc by apply Gx. assert (forall u, vle (ecov m u) (ecov m' u)) as Ge by (intros; apply Gx).
  assert (hist m' log_enabled = g :: hist m log_enabled) as Hh by (unfold m'; cbn [with_msg hist]; now rewrite lset_same).
  assert (cov m' = w) as Cw.
  { unfold cov, lview, m'. cbn [with_msg with_seen held seen]. rewrite H. apply tset_same. }
  assert (forall e, covered m Z e -> covered m' Z' e) as Cv.
  { intros e [X|(u & Lu & X)]; [left; now apply (kn_le (cov m))|]. destruct Cs as [(_ & El & _)|(_ & _ & N & _)].
    - right. exists u. rewrite El. split; [exact Lu|]. now apply (kn_le (ecov m u)).
    - rewrite N in Lu. discriminate. }
  destruct (v_on _ _ I) as (g0 & l & E & C & T & O & N0 & N1).
  assert (forall h, In h (hist m log_enabled) -> m_to h < m_to g) as Old by (intros h Hh0; specialize (Fr h Hh0); lia).
  split.
  - apply (v_race _ _ I).
  - exists g, (g0 :: l). rewrite Hh, E. split; [reflexivity|]. split.
    { constructor; [exact C| |exact Lt|intros []]. apply Fr. rewrite E. now left. }
    split; [now rewrite Cw|]. split; [exact Eo|]. specialize (Old g0). rewrite E in Old. specialize (Old (or_introl eq_refl)).
    destruct Cs as [(Y & El & Et)|(_ & _ & _ & Y & _)]; [|split; intros _; lia]. split; [congruence|]. intros [X|(u & X)]; [congruence|].
    rewrite El in X. rewrite Et. specialize (N1 (or_intror (ex_intro _ u X))). lia.
  - intros u b Lu. rewrite Hh. intros [<-|Hb] Tb Vb.
    + destruct Cs as [(Y & _)|(_ & _ & _ & Y & _)]; [|auto]. rewrite Eo in Y. now destruct (N.eqb_spec (m_val g) 0).
    + assert (ts (sview m u) log_enabled <= m_to b) as Tb' by (destruct (Gv u) as (X & _); specialize (X log_enabled); lia).
      destruct Cs as [(_ & El & Et)|(_ & _ & Nl & _ & El & _)].
      * rewrite Et. rewrite El in Lu. now apply (v_live _ _ I u b).
      * rewrite El in Lu. exfalso. apply Vb. now apply (v_dead _ _ I u b).
  - intros u b Iu Lu. rewrite Ei in Iu. rewrite Hh. intros [<-|Hb] Tb.
    + destruct Cs as [(Y & _)|(_ & _ & _ & _ & Y & _)]; [|congruence]. rewrite Eo in Y. now destruct (N.eqb_spec (m_val g) 0).
    + assert (ts (sview m u) log_enabled <= m_to b) as Tb' by (destruct (Gv u) as (X & _); specialize (X log_enabled); lia).
      destruct Cs as [(_ & El & _)|(_ & _ & _ & _ & El & _)]; [|congruence]. rewrite El in Lu. now apply (v_dead _ _ I u b).
  - intros Op h. rewrite Hh, Ec, En. destruct Cs as [(Y & El & Et)|(_ & Y & Nl & Et & _ & Ew)].
    + assert (open Z) as Op'.
      { destruct Op as [X|(u & X)]; [congruence|]. rewrite El in X. right. eauto. }
      rewrite Et. intros [<-|Hin] Th.
      * exfalso. specialize (N1 Op'). specialize (Old g0). rewrite E in Old. specialize (Old (or_introl eq_refl)). lia.
      * exact (v_pub _ _ I Op' h Hin Th).
    + rewrite Et. intros [<-|Hin] Th; [|specialize (Old h Hin); lia]. rewrite Ew.
      assert (forall e, covered m Z e -> kn w e) as K.
      { intros e X. apply (kn_le (cov m)); [rewrite (cov_held m t H); exact Lw|]. apply (open_covered m Z); [|exact X].
        intros [A|(u & A)]; [congruence|]. rewrite Nl in A. discriminate. }
      split.
      * eapply acc_impl; [exact K|]. apply acc_weak. exact (v_buf _ _ I).
      * intros b Hb. split.
        -- eapply acc_impl; [exact K|]. apply acc_weak. apply (v_cur _ _ I b); [exact Hb|apply of_buf_obj].
        -- intros i _. eapply acc_impl; [exact K|]. apply (v_cur _ _ I b); [exact Hb|apply of_buf_chunk].
  - eapply acc_impl; [|exact (v_tens _ _ I)]. intros e. now apply kn_le.
  - eapply acc_impl; [|exact (v_bufw _ _ I)]. intros e. now apply kn_le.
  - intros b. rewrite Ec. intros Hb. eapply acc_impl; [|exact (v_objw _ _ I b Hb)]. intros e. now apply kn_le.
  - eapply acc_impl; [exact Cv|exact (v_buf _ _ I)].
  - intros b x. rewrite Ec. intros Hb Hx. eapply acc_impl; [exact Cv|exact (v_cur _ _ I b x Hb Hx)].
  - intros b u x. rewrite Es. intros Hb Hx. eapply acc_impl; [|exact (v_mine _ _ I b u x Hb Hx)]. intros e. now apply kn_le.
  - intros b x. rewrite Es. exact (v_unborn _ _ I b x).
  - intros u. eapply acc_impl; [|exact (v_ten _ _ I u)]. intros e (A & B). split.
    + destruct A as [A|(A & D)]; [left; now apply (kn_le (seen m u))|right].
      split; [now apply (kn_le (cov m))|now apply (kn_le (ecov m u))].
    + destruct B as [B|B]; [left; now apply (kn_le (cov m))|right; now apply (kn_le (ecov m u))].
  - intros b u i. rewrite Ec, Ek. intros Hb Hi. eapply acc_impl; [|exact (v_tok _ _ I b u i Hb Hi)]. intros e. now apply kn_le.
  - intros b i q. rewrite Ec, Eq. exact (v_que _ _ I b i q).
  - eapply ecov_ok; [|exact G| |apply (v_ecov _ _ I)]; [exact L|]. intros u Hu. unfold ecov, lview.
    cbn [m' with_msg with_seen held left_at] in *. rewrite Hu. apply vle_refl.
Qed.

(** ** What the history gains in a step *)

Definition bst_le (x y : bst) : Prop :=
  match x with
  | BDying t => y = BDying t \/ y = BGone
  | BGone => y = BGone
  | BOwned t => y = BOwned t \/ y = BDying t
  | BCur => match y with BUnborn | BBuild _ => False | _ => True end
  | _ => True
  end.

Definition goes (e : list use) (b : N) (x y : bst) : Prop :=
  bst_le x y /\ forall t, y = BOwned t -> x = BOwned t \/ In (UTaken t b) e.

Definition fill (l : list N) (e : list use) (b : N) (i : nat) : list N :=
  fold_left (fun l u =>
    match u with
    | UCleared _ b' i' => if (b =? b')%N && (i =? i')%nat then [] else l
    | UStored _ b' i' v => if (b =? b')%N && (i =? i')%nat then l ++ [v] else l
    | _ => l
    end) e l.

Definition dying (x : bst) : Prop := match x with BDying _ | BGone => True | _ => False end.
Definition fresh (x : bst) : Prop := match x with BUnborn | BBuild _ => True | _ => False end.

Definition event_ok (m : mem) (Z Z' : scene) (u : use) : Prop :=
  match u with
  | UMade _ _ => True
  | UUsed _ b => zst Z b = BCur
  | UCleared t b i | UStored t b i _ => zst Z b = BCur /\ ztok Z t = Some i /\ zcur Z = Some b
  | UTaken t b => zst Z b = BCur /\ zst Z' b = BOwned t
  | URead t b i l => zst Z b = BOwned t /\ l = events_in (plain m (buffer_chunk b i))
  | UDestroyed t b => (zst Z b = BCur \/ zst Z b = BOwned t) /\ zst Z' b = BDying t
  | UNull _ | UAstray _ _ => False
  end.

Definition tr (m m' : mem) (Z Z' : scene) (e : list use) : Prop :=
  (e = [] \/ exists u, e = [u] /\ event_ok m Z Z' u) /\
  (forall b, goes e b (zst Z b) (zst Z' b)) /\
  (forall b i, ~ dying (zst Z' b) ->
     events_in (plain m' (buffer_chunk b i)) = fill (events_in (plain m (buffer_chunk b i))) e b i \/
     fresh (zst Z b) /\ fresh (zst Z' b) /\ events_in (plain m' (buffer_chunk b i)) = [] /\ e = []).

Definition next (s s' : wlog) (Z : scene) : Prop :=
  exists Z' e, inv s' Z' /\ wl_hist s' = wl_hist s ++ e /\ tr (wl_mem s) (wl_mem s') Z Z' e.

Lemma goes_refl e b x : goes e b x x.
Proof. split; [destruct x; cbn; auto|auto]. Qed.

Lemma agree_goto s Z m' t p e : agree s Z -> plain m' log_buffer = plain (wl_mem s) log_buffer ->
  plain m' log_tenants = plain (wl_mem s) log_tenants ->
  (forall u, plain m' (tenant_chunk u) = plain (wl_mem s) (tenant_chunk u)) -> agree (goto s m' t p e) Z.
Proof.
  intros A E1 E2 E3. split; cbn; try apply A; [rewrite E1|intros u; rewrite E3|rewrite E2]; apply A.
Qed.

(** The scene stays. *)
Lemma same s Z m' t p e : inv s Z -> vinv m' Z ->
  (forall x, loc_obj x < 5 -> plain m' x = plain (wl_mem s) x) ->
  (forall u, vle (seen (wl_mem s) u) (seen m' u)) -> hist m' log_enabled = hist (wl_mem s) log_enabled ->
  locks m' (tset (wl_pc s) t p) ->
  (forall u, zon Z = false -> zlive Z u = true -> stops (wl_pc s t) u -> stops p u) -> (forall u, ~ nulls (wl_pc s t) u) ->
  pcok m' Z t (seen m' t) p -> tokrule Z t p ->
  e = [] \/ (exists u, e = [u] /\ event_ok (wl_mem s) Z Z u) ->
  (forall b i, ~ dying (zst Z b) -> events_in (plain m' (buffer_chunk b i)) = fill (events_in (plain (wl_mem s) (buffer_chunk b i))) e b i) ->
  next s (goto s m' t p e) Z.
Proof.
  intros (A & V & P) V' Pl Ls H L St N K T Ev Fl. exists Z, e. split; [|split; [reflexivity|]].
  - split; [|split; [exact V'|]].
    + apply agree_goto; auto; try apply Pl; cbn; try lia. intros u. apply Pl. cbn. lia.
    + eapply pinv_go; eauto.
  - split; [exact Ev|]. split; [intros; apply goes_refl|auto].
Qed.

Lemma fill_nil l b i : fill l [] b i = l.
Proof. reflexivity. Qed.

(** Nothing but the program counter changes. *)
Lemma same_pc s Z t p : inv s Z -> mpc p = mpc (wl_pc s t) -> (forall u, tpc t p u = tpc t (wl_pc s t) u) ->
  (forall u, zon Z = false -> zlive Z u = true -> stops (wl_pc s t) u -> stops p u) -> (forall u, ~ nulls (wl_pc s t) u) ->
  pcok (wl_mem s) Z t (seen (wl_mem s) t) p -> tokrule Z t p -> next s (goto s (wl_mem s) t p []) Z.
Proof.
  intros I Hm Ht St N K T. pose proof I as (A & V & P). apply same; auto.
  - intros; apply vle_refl.
  - eapply locks_same; eauto. apply P.
Qed.

(** A load. *)
Lemma same_seen s Z t v p : inv s Z -> vle (seen (wl_mem s) t) v -> mpc p = mpc (wl_pc s t) ->
  (forall u, tpc t p u = tpc t (wl_pc s t) u) ->
  (forall u, zon Z = false -> zlive Z u = true -> stops (wl_pc s t) u -> stops p u) -> (forall u, ~ nulls (wl_pc s t) u) ->
  pcok (with_seen (wl_mem s) t v) Z t v p -> tokrule Z t p -> next s (goto s (with_seen (wl_mem s) t v) t p []) Z.
Proof.
  intros I Lv Hm Ht St N K T. pose proof I as (A & V & P). apply same; auto.
  - eapply vinv_seen; eauto. apply P.
  - apply (seen_grow _ _ _ Lv).
  - eapply locks_same; eauto. apply P.
  - cbn [with_seen seen]. now rewrite tset_same.
Qed.

(** A read of a plain variable. *)
Lemma same_read s Z t x p e : inv s Z -> vinv (wtouch (wl_mem s) t x false (plain (wl_mem s) x)) Z -> mpc p = mpc (wl_pc s t) ->
  (forall u, tpc t p u = tpc t (wl_pc s t) u) ->
  (forall u, zon Z = false -> zlive Z u = true -> stops (wl_pc s t) u -> stops p u) -> (forall u, ~ nulls (wl_pc s t) u) ->
  pcok (wl_mem s) Z t (seen (wl_mem s) t) p -> tokrule Z t p ->
  e = [] \/ (exists t b, e = [UUsed t b] /\ zst Z b = BCur) ->
  next s (goto s (wtouch (wl_mem s) t x false (plain (wl_mem s) x)) t p e) Z.
Proof.
  intros I V' Hm Ht St N K T Ev. pose proof I as (A & V & P). apply same; auto.
  - intros y _. cbn. unfold lset. destruct (loc_eqb y x) eqn:E; [|reflexivity]. apply loc_eqb_eq in E as ->. reflexivity.
  - apply touch_grow.
  - eapply locks_same; eauto. apply P.
  - eapply (pcok_mono (wl_mem s)); [| |exact K]; [reflexivity|apply touch_grow].
  - destruct Ev as [->|(t0 & b & -> & S)]; [now left|right]. eexists. split; [reflexivity|exact S].
  - intros b i _. cbn. assert (lset (plain (wl_mem s)) x (plain (wl_mem s) x) (buffer_chunk b i) = plain (wl_mem s) (buffer_chunk b i)) as ->.
    { unfold lset. destruct (loc_eqb (buffer_chunk b i) x) eqn:E; [|reflexivity]. apply loc_eqb_eq in E as ->. reflexivity. }
    destruct Ev as [->|(t0 & b0 & -> & S)]; reflexivity.
Qed.

(** A lock is taken or released. *)
Lemma same_lock s Z t x m' p : inv s Z -> wlock (wl_mem s) t x = Some m' -> locks m' (tset (wl_pc s) t p) ->
  (forall u, zon Z = false -> zlive Z u = true -> stops (wl_pc s t) u -> stops p u) -> (forall u, ~ nulls (wl_pc s t) u) ->
  pcok m' Z t (seen m' t) p -> tokrule Z t p -> next s (goto s m' t p []) Z.
Proof.
  intros I W L St N K T. pose proof I as (A & V & P).
  pose proof (lock_grow _ _ _ _ W) as G. pose proof (vinv_lock _ _ _ _ _ _ V W L) as V'.
  apply wlock_inv in W as (E & ->). apply same; auto. apply G.
Qed.

Lemma same_unlock s Z t x p : inv s Z -> held (wl_mem s) x = Some t -> locks (wunlock (wl_mem s) t x) (tset (wl_pc s) t p) ->
  (forall u, zon Z = false -> zlive Z u = true -> stops (wl_pc s t) u -> stops p u) -> (forall u, ~ nulls (wl_pc s t) u) ->
  pcok (wl_mem s) Z t (seen (wl_mem s) t) p -> tokrule Z t p -> next s (goto s (wunlock (wl_mem s) t x) t p []) Z.
Proof.
  intros I W L St N K T. pose proof I as (A & V & P). apply same; auto.
  - eapply vinv_unlock; eauto.
  - intros; apply vle_refl.
Qed.

(** ** Changes of the scene *)

Definition z_ten (Z : scene) (f : tid -> option (N * nat)) : scene :=
  {| zcur := zcur Z; zten := f; zregs := zregs Z; zinit := zinit Z; zown := zown Z; zshape := zshape Z; znxt := znxt Z; zque := zque Z; zcnt := zcnt Z; zon := zon Z; zlive := zlive Z; ztok := ztok Z; zst := zst Z; zt1 := zt1 Z |}.
Definition z_tok (Z : scene) (f : tid -> option nat) : scene :=
  {| zcur := zcur Z; zten := zten Z; zregs := zregs Z; zinit := zinit Z; zown := zown Z; zshape := zshape Z; znxt := znxt Z; zque := zque Z; zcnt := zcnt Z; zon := zon Z; zlive := zlive Z; ztok := f; zst := zst Z; zt1 := zt1 Z |}.
Definition z_que (Z : scene) (n : N -> nat) (q : N -> list (nat * view)) : scene :=
  {| zcur := zcur Z; zten := zten Z; zregs := zregs Z; zinit := zinit Z; zown := zown Z; zshape := zshape Z; znxt := n; zque := q; zcnt := zcnt Z; zon := zon Z; zlive := zlive Z; ztok := ztok Z; zst := zst Z; zt1 := zt1 Z |}.
Definition z_live (Z : scene) (f : tid -> bool) : scene :=
  {| zcur := zcur Z; zten := zten Z; zregs := zregs Z; zinit := zinit Z; zown := zown Z; zshape := zshape Z; znxt := znxt Z; zque := zque Z; zcnt := zcnt Z; zon := zon Z; zlive := f; ztok := ztok Z; zst := zst Z; zt1 := zt1 Z |}.
Definition z_sw (Z : scene) (o : bool) (f : tid -> bool) (n : N) : scene :=
  {| zcur := zcur Z; zten := zten Z; zregs := zregs Z; zinit := zinit Z; zown := zown Z; zshape := zshape Z; znxt := znxt Z; zque := zque Z; zcnt := zcnt Z; zon := o; zlive := f; ztok := ztok Z; zst := zst Z; zt1 := n |}.
Definition z_st (Z : scene) (f : N -> bst) (o : tid -> list N) : scene :=
  {| zcur := zcur Z; zten := zten Z; zregs := zregs Z; zinit := zinit Z; zown := o; zshape := zshape Z; znxt := znxt Z; zque := zque Z; zcnt := zcnt Z; zon := zon Z; zlive := zlive Z; ztok := ztok Z; zst := f; zt1 := zt1 Z |}.
Definition z_cur (Z : scene) (c : option N) (f : N -> bst) (o : tid -> list N) : scene :=
  {| zcur := c; zten := zten Z; zregs := zregs Z; zinit := zinit Z; zown := o; zshape := zshape Z; znxt := znxt Z; zque := zque Z; zcnt := zcnt Z; zon := zon Z; zlive := zlive Z; ztok := ztok Z; zst := f; zt1 := zt1 Z |}.
Definition z_new (Z : scene) (t : tid) (w : bool * nat) : scene :=
  {| zcur := zcur Z; zten := zten Z; zregs := zregs Z; zinit := zinit Z; zown := zown Z; zshape := upd (zshape Z) (zcnt Z) w; znxt := upd (znxt Z) (zcnt Z) O; zque := upd (zque Z) (zcnt Z) []; zcnt := N.succ (zcnt Z); zon := zon Z; zlive := zlive Z; ztok := ztok Z; zst := upd (zst Z) (zcnt Z) (BBuild t); zt1 := zt1 Z |}.
Definition z_reg (Z : scene) (l : list tid) (i f : tid -> bool) : scene :=
  {| zcur := zcur Z; zten := zten Z; zregs := l; zinit := i; zown := zown Z; zshape := zshape Z; znxt := znxt Z; zque := zque Z; zcnt := zcnt Z; zon := zon Z; zlive := f; ztok := ztok Z; zst := zst Z; zt1 := zt1 Z |}.

Lemma pcok_other m m' Z Z' u v v' p : incl (hist m log_enabled) (hist m' log_enabled) -> vle v v' ->
  (zlive Z u = true -> zt1 Z' = zt1 Z) ->
  zinit Z' u = zinit Z u -> zten Z' u = zten Z u -> ztok Z' u = ztok Z u ->
  (zlive Z u = true -> tpc u p u = true -> zlive Z' u = true) ->
  (zcur Z' = zcur Z \/ (mpc p = false /\ zlive Z u = false)) ->
  (zon Z' = zon Z \/ mpc p = false) ->
  (forall b, zst Z b = BBuild u -> zst Z' b = BBuild u) -> (forall b, zst Z b = BDying u -> zst Z' b = BDying u) ->
  pcok m Z u v p -> pcok m' Z' u v' p.
Proof.
  intros H L Et Ei En Ek El Ec Eo Sb Sd. assert (tpc u p u = true -> inside m Z u v -> inside m' Z' u v') as X.
  { intros Tp (A & B & C). split; [congruence|]. split; [auto|]. destruct C as (g & C1 & C2 & C3). exists g. rewrite Et by exact B.
    split; [now apply H|]. split; [auto|]. eapply vle_trans; eauto. }
  assert (inside m Z u v -> zlive Z u = true) as Y by (intros (_ & B & _); exact B).
  destruct p; cbn in *; rewrite ?En, ?Ek, ?Ei, ?Nat.eqb_refl in *; auto; unfold koff;
    try (destruct Eo as [Eo|Eo]; [rewrite Eo; auto|discriminate Eo]);
    try (destruct Ec as [Ec|(Ec1 & Ec2)]; [rewrite Ec in *|]; intuition congruence).
  - intros (A & B). auto.
  - intros (A & B). auto.
  - intros (A & B). auto.
  - intros (A & B). auto.
  - intros (A & B). auto.
  - intros (A & B). split; [auto|]. destruct k as [|b'|k]; [auto| |].
    + destruct Ec as [Ec|(Ec1 & Ec2)]; [|discriminate]. destruct Eo as [Eo|Eo]; [|discriminate]. now rewrite Ec, Eo.
    + destruct Eo as [Eo|Eo]; [|discriminate]. now rewrite Eo.
Qed.

Lemma pcok_out m m' Z Z' u v v' p : mpc p = false -> tpc u p u = false -> (forall b, zst Z b = BDying u -> zst Z' b = BDying u) ->
  pcok m Z u v p -> pcok m' Z' u v' p.
Proof.
  intros Hm Ht Sd. destruct p; cbn in *; rewrite ?Nat.eqb_refl in *; try discriminate; auto.
  destruct k; try discriminate. intros (A & _). auto.
Qed.

Definition other_ok (Z Z' : scene) (pc : tid -> wlpc) (u : tid) : Prop :=
  (forall b, zst Z b = BDying u -> zst Z' b = BDying u) /\
  ((tpc u (pc u) u = false /\ mpc (pc u) = false /\ ztok Z' u = option_map snd (zten Z' u)) \/
   ((zlive Z u = true -> zt1 Z' = zt1 Z) /\ zinit Z' u = zinit Z u /\ zten Z' u = zten Z u /\ ztok Z' u = ztok Z u /\
    (zlive Z u = true -> tpc u (pc u) u = true -> zlive Z' u = true) /\
    (zcur Z' = zcur Z \/ (mpc (pc u) = false /\ zlive Z u = false)) /\
    (zon Z' = zon Z \/ mpc (pc u) = false) /\
    (forall b, zst Z b = BBuild u -> zst Z' b = BBuild u))).

Lemma others m m' pc Z Z' t p : pinv m pc Z -> incl (hist m log_enabled) (hist m' log_enabled) ->
  (forall u, vle (seen m u) (seen m' u)) -> (forall u, u <> t -> other_ok Z Z' pc u) ->
  pcok m' Z' t (seen m' t) p -> tokrule Z' t p ->
  (forall u, pcok m' Z' u (seen m' u) (tset pc t p u)) /\ (forall u, tokrule Z' u (tset pc t p u)).
Proof.
  intros P H Ls O K T. split; intros u; (destruct (Nat.eq_dec u t) as [->|N]; [now rewrite tset_same|rewrite tset_other by auto]).
  - destruct (O u N) as (Sd & [(A & B & C)|(A & B & C & D & E & F & G & J)]).
    + eapply pcok_out; eauto. apply (p_pc _ _ _ P).
    + eapply pcok_other; eauto. apply (p_pc _ _ _ P).
  - pose proof (p_tokr _ _ _ P u) as X. destruct (O u N) as (Sd & [(A & B & C)|(A & B & C & D & _)]).
    + destruct (pc u); cbn in *; rewrite ?Nat.eqb_refl in *; try discriminate; exact C.
    + unfold tokrule in *. rewrite C, D. exact X.
Qed.

Lemma alone m pc Z t : pinv m pc Z -> mpc (pc t) = true -> forall u, u <> t -> mpc (pc u) = false.
Proof.
  intros P Ht u N. destruct (mpc (pc u)) eqn:E; [|reflexivity]. apply (p_locks _ _ _ P) in E, Ht. congruence.
Qed.

Lemma stops_mpc p u : stops p u -> mpc p = true.
Proof. destruct p; cbn; tauto. Qed.
Lemma nulls_mpc p u : nulls p u -> mpc p = true.
Proof. destruct p; cbn; tauto. Qed.

(** The holder of the mutex is not in a stop: nobody writes, no chunk is out. *)
Lemma nobody m pc Z t : pinv m pc Z -> mpc (pc t) = true -> (forall u, ~ stops (pc t) u) -> (forall u, ~ nulls (pc t) u) ->
  zon Z = false -> (forall u, zlive Z u = false) /\ (forall u, zten Z u = None) /\ (forall u, ztok Z u = None) /\ ~ open Z.
Proof.
  intros P Ht S N O.
  assert (forall u, zlive Z u = false) as L.
  { intros u. destruct (zlive Z u) eqn:E; [|reflexivity]. destruct (p_quiet _ _ _ P O u E) as (h & X).
    pose proof (stops_mpc _ _ X) as Y. apply (p_locks _ _ _ P) in Y, Ht. assert (h = t) as -> by congruence. now apply S in X. }
  assert (forall u, (zlive Z u = true \/ exists h, nulls (pc h) u) -> False) as X.
  { intros u [E|(h & X)]; [now rewrite L in E|]. pose proof (nulls_mpc _ _ X) as Y. apply (p_locks _ _ _ P) in Y, Ht.
    assert (h = t) as -> by congruence. now apply N in X. }
  split; [exact L|]. split; [|split].
  - intros u. destruct (zten Z u) as [[b i]|] eqn:E; [|reflexivity]. exfalso. destruct (p_ten _ _ _ P u b i E) as (_ & Y). eauto.
  - intros u. destruct (ztok Z u) as [i|] eqn:E; [|reflexivity]. exfalso. destruct (p_tok _ _ _ P u i E) as (Y & _). eauto.
  - intros [Y|(u & Y)]; [congruence|]. now rewrite L in Y.
Qed.

Lemma moved (pc : tid -> wlpc) t p (Q : wlpc -> Prop) : ~ Q (pc t) -> (exists h, Q (pc h)) -> exists h, Q (tset pc t p h).
Proof.
  intros N (h & X). destruct (Nat.eq_dec h t) as [->|D]; [contradiction|]. exists h. now rewrite tset_other by auto.
Qed.

Lemma take_nth_split {A} n (l : list A) x r : take_nth n l = Some (x, r) -> exists a b, l = a ++ x :: b /\ r = a ++ b.
Proof.
  revert n r. induction l as [|y l IH]; intros n r; [destruct n; discriminate|]. destruct n as [|n]; cbn.
  - intros [= -> ->]. exists [], r. auto.
  - destruct (take_nth n l) as [[z r']|] eqn:E; [|discriminate]. intros [= -> <-].
    destruct (IH _ _ E) as (a & b & -> & ->). exists (y :: a), b. auto.
Qed.

Ltac sd :=
  intros; repeat match goal with E : wl_pc _ _ = _ |- _ => rewrite E in * end; cbn in *;
  try reflexivity; try tauto; try contradiction; try congruence.

Section Steps.
  Variables (cap : nat) (s s' : wlog) (Z : scene) (t : tid).
  Hypothesis I : inv s Z.
  Local Notation m := (wl_mem s).
  Local Notation pc := (wl_pc s).

  Lemma held_mutex : mpc (pc t) = true -> held m log_mutex = Some t.
  Proof. intros H. destruct I as (_ & _ & P). now apply (p_locks _ _ _ P). Qed.
  Lemma held_own : tpc t (pc t) t = true -> held m (tenant_lock t) = Some t.
  Proof. intros H. destruct I as (_ & _ & P). now apply (p_locks _ _ _ P). Qed.
  Lemma my_pc : pcok m Z t (seen m t) (pc t).
  Proof. destruct I as (_ & _ & P). apply (p_pc _ _ _ P). Qed.
  Lemma my_tok : tokrule Z t (pc t).
  Proof. destruct I as (_ & _ & P). apply (p_tokr _ _ _ P). Qed.
  Lemma hon : honest m.
  Proof. destruct I as (_ & _ & P). eapply locks_honest. apply (p_locks _ _ _ P). Qed.
  Lemma vin : vinv m Z.
  Proof. apply I. Qed.
  Lemma pin : pinv m pc Z.
  Proof. apply I. Qed.

  Lemma step_call_log v : pc t = GIdle -> next s (goto s m t (LCheck v) []) Z.
  Proof. intros E. pose proof my_tok as T. apply same_pc; auto; sd. Qed.
  Lemma step_call_lock : pc t = GIdle -> next s (goto s m t HWait []) Z.
  Proof. intros E. pose proof my_tok as T. apply same_pc; auto; sd. Qed.
  Lemma step_call_reg : pc t = GIdle -> next s (goto s m t RWait []) Z.
  Proof. intros E. pose proof my_tok as T. apply same_pc; auto; sd. Qed.
  Lemma step_call_dereg : pc t = GIdle -> next s (goto s m t DWait []) Z.
  Proof. intros E. pose proof my_tok as T. apply same_pc; auto; sd. Qed.
  Lemma step_held_stop : pc t = Held None -> next s (goto s m t (SExchange None) []) Z.
  Proof. intros E. pose proof my_tok as T. apply same_pc; auto; sd. Qed.
  Lemma step_held_take k : pc t = Held k -> next s (goto s m t (TEnabled k) []) Z.
  Proof. intros E. pose proof my_tok as T. pose proof my_pc as K. apply same_pc; auto; sd. Qed.
  Lemma step_held_stats k : pc t = Held k -> next s (goto s m t (AList k) []) Z.
  Proof. intros E. pose proof my_tok as T. pose proof my_pc as K. apply same_pc; auto; sd. Qed.
  Lemma step_held_done : pc t = Held None -> next s (goto s m t HUnlock []) Z.
  Proof. intros E. pose proof my_tok as T. pose proof my_pc as K. apply same_pc; auto; sd. Qed.
  Lemma step_held_go w : pc t = Held (Some w) -> next s (goto s m t (SNew w) []) Z.
  Proof. intros E. pose proof my_tok as T. pose proof my_pc as K. apply same_pc; auto; sd. Qed.

  Lemma step_check c v v0 m' : pc t = LCheck v -> wload m t true log_enabled c = Some (v0, m') ->
    next s (goto s m' t (match v0 with 0 => GIdle | _ => LTry v end) []) Z.
  Proof.
    intros E W. pose proof my_tok as T. apply wload_inv in W as (g & _ & _ & _ & ->).
    apply same_seen; auto; [apply after_load_le| | | | | |]; destruct v0; sd.
  Qed.

  Lemma step_try v : pc t = LTry v ->
    match wlock m t (tenant_lock t) with
    | Some m' => next s (goto s m' t (LInit v) []) Z
    | None => next s (goto s m t GIdle []) Z
    end.
  Proof.
    intros E. pose proof my_tok as T. destruct (wlock m t (tenant_lock t)) as [m'|] eqn:W.
    - eapply same_lock; [exact I|exact W| | | | |]; [|sd..]. apply wlock_inv in W as (H & ->).
      eapply locks_tlock; [apply pin|exact H|reflexivity| | |]; sd.
    - apply same_pc; auto; sd.
  Qed.

  Lemma step_init v : pc t = LInit v -> next s (goto s m t (if wl_init s t then LPtr v else LUnlock) []) Z.
  Proof.
    intros E. pose proof my_tok as T. destruct I as (A & _). rewrite (a_init _ _ A). destruct (zinit Z t) eqn:Ei; apply same_pc; auto; sd.
  Qed.

  Lemma step_ptr v : pc t = LPtr v ->
    next s (let '(p, m') := wread m t (tenant_chunk t) in
            goto s m' t (match ptr_in p with Some (b, i) => LFull v b i | None => LAgain v None end) []) Z.
  Proof.
    intros E. pose proof my_tok as T. pose proof my_pc as K. pose proof I as (A & _). cbn [wread]. rewrite (a_ten _ _ A t) at 2. cbn [ptr_in].
    assert (held m (tenant_lock t) = Some t) as H by (apply held_own; rewrite E; cbn; apply Nat.eqb_refl).
    assert (forall p, vinv (wtouch m t (tenant_chunk t) false p) Z) as V by (intros p; apply vt_ptr; [apply vin|apply hon|now left]).
    destruct (zten Z t) as [[b i]|] eqn:Et; apply same_read; auto; sd.
  Qed.

  Lemma has_tok b i : zten Z t = Some (b, i) -> ztok Z t = Some i -> tpc t (pc t) t = true ->
    (forall u q l, pc t <> SNull q u l) ->
    zcur Z = Some b /\ zst Z b = BCur /\ zlive Z t = true /\ (i < znxt Z b)%nat /\
    (forall u, ztok Z u = Some i -> u = t) /\ (forall q, ~ In (i, q) (zque Z b)).
  Proof.
    intros Et Ek Ht Nn. pose proof pin as P. destruct (p_ten _ _ _ P t b i Et) as (C & D).
    assert (zlive Z t = true) as Lv.
    { destruct D as [D|(h & D)]; [exact D|]. exfalso. destruct (pc h) eqn:Eh; try contradiction D. cbn in D. subst u.
      destruct (p_locks _ _ _ P) as (_ & B). apply B in Ht. assert (tpc h (pc h) t = true) as X by (rewrite Eh; cbn; apply Nat.eqb_refl).
      apply B in X. assert (h = t) as -> by congruence. eapply Nn; eauto. }
    destruct (p_tok _ _ _ P t i Ek) as (_ & b' & C' & N'). assert (b' = b) as -> by congruence.
    split; [exact C|]. split; [now apply (p_cur _ _ _ P)|]. split; [exact Lv|]. split; [exact N'|]. split.
    - intros u Hu. now apply (p_dist _ _ _ P u t i).
    - intros q Hq. destruct (p_que _ _ _ P b C) as (_ & X). destruct (X i) as (_ & Y).
      { apply in_map_iff. exists (i, q). auto. }
      now apply (Y t).
  Qed.

  Lemma step_full v b i : pc t = LFull v b i ->
    next s (let '(l, m') := wread m t (buffer_chunk b i) in
            goto s m' t (if (length (events_in l) <? cap)%nat then LStore v b i else LAgain v (Some (b, i))) []) Z.
  Proof.
    intros E. pose proof my_tok as T. pose proof my_pc as K. rewrite E in K, T. cbn in K, T. destruct K as (Ki & Kt).
    cbn [wread].
    assert (tpc t (pc t) t = true) as Tp by (rewrite E; cbn; apply Nat.eqb_refl).
    rewrite Kt in T. cbn in T. destruct (has_tok b i Kt T Tp) as (C & S & Lv & N & D & Q); [intros; rewrite E; discriminate|].
    assert (forall p, vinv (wtouch m t (buffer_chunk b i) false p) Z) as V.
    { intros p. apply vt_chunk; auto; [apply vin|apply hon|now apply held_own]. }
    destruct (length _ <? cap)%nat; apply same_read; auto; sd; rewrite ?Kt, ?T; auto.
  Qed.

  Lemma step_again v c0 c v0 m' : pc t = LAgain v c0 -> wload m t true log_enabled c = Some (v0, m') ->
    next s (goto s m' t (match v0 with 0 => LUnlock | _ => match c0 with None => LThird v | Some _ => LOld v c0 end end) []) Z.
  Proof.
    intros E W. pose proof my_tok as T. pose proof my_pc as K. rewrite E in K. cbn in K. destruct K as (Ki & Kt).
    assert (held m (tenant_lock t) = Some t) as H by (apply held_own; rewrite E; cbn; apply Nat.eqb_refl).
    assert (v0 <> 0 -> zlive Z t = true /\ pub m' Z (seen m' t)) as R by (intros V; eapply read_on; eauto; apply vin).
    apply wload_inv in W as (g & _ & _ & _ & ->).
    cbn [with_seen seen] in R. rewrite tset_same in R.
    apply same_seen; auto; [apply after_load_le| | | | | |]; destruct v0 as [|v0]; sd; destruct c0 as [[b i]|]; sd.
    - specialize (R ltac:(discriminate)) as (R1 & R2). split; [|split; [auto|discriminate]]. split; [auto|split; auto].
    - specialize (R ltac:(discriminate)) as (R1 & R2). split; [|auto]. split; [auto|split; auto].
  Qed.

  Lemma step_third v c v0 m' : pc t = LThird v -> wload m t true log_enabled c = Some (v0, m') ->
    next s (goto s m' t (match v0 with 0 => LGen | _ => LBuf v end) []) Z.
  Proof.
    intros E W. pose proof my_tok as T. pose proof my_pc as K. rewrite E in K. cbn in K. destruct K as ((Ki & Kl & Kp) & Kt).
    apply wload_inv in W as (g & _ & _ & _ & ->).
    apply same_seen; auto; [apply after_load_le| | | | | |]; destruct v0 as [|v0]; sd.
    split; [|auto]. split; [auto|split; auto]. eapply pub_mono; [| |exact Kp]; [reflexivity|apply after_load_le].
  Qed.

  Lemma step_old v b i : pc t = LOld v (Some (b, i)) ->
    next s (let '(q, m') := wread m t log_buffer in
            match buf_in q with
            | Some b' => goto s m' t (LReturn v b' b i) []
            | None => goto s m' t LUnlock [UNull t]
            end) Z.
  Proof.
    intros E. pose proof my_tok as T. pose proof my_pc as K. rewrite E in K. cbn in K. destruct K as ((Ki & Kl & Kp) & Kt & _).
    pose proof I as (A & _). cbn [wread]. rewrite (a_buf _ _ A) at 1. cbn [buf_in].
    destruct (p_ten _ _ _ pin t b i Kt) as (C & _). rewrite C.
    assert (held m (tenant_lock t) = Some t) as H by (apply held_own; rewrite E; cbn; apply Nat.eqb_refl).
    apply same_read; auto; [|sd..].
    - apply vt_buffer_read; auto; [apply vin|apply hon].
    - split; [split; [auto|split; auto]|auto].
  Qed.

  Lemma step_buf v : pc t = LBuf v ->
    next s (let '(q, m') := wread m t log_buffer in
            goto s m' t (match buf_in q with Some b => LGet v b | None => LGen end) []) Z.
  Proof.
    intros E. pose proof my_tok as T. pose proof my_pc as K. rewrite E in K. cbn in K. destruct K as ((Ki & Kl & Kp) & Kt).
    pose proof I as (A & _). cbn [wread]. rewrite (a_buf _ _ A) at 2. cbn [buf_in].
    assert (held m (tenant_lock t) = Some t) as H by (apply held_own; rewrite E; cbn; apply Nat.eqb_refl).
    assert (forall p, vinv (wtouch m t log_buffer false p) Z) as V by (intros p; apply vt_buffer_read; auto; [apply vin|apply hon]).
    destruct (zcur Z) as [b|] eqn:C; apply same_read; auto; sd. split; [|auto]. split; [auto|split; auto].
  Qed.

  (** A write to a chunk or a buffer object. *)
  Lemma same_write x w v p e : vinv (wtouch m t x w v) Z -> 5 <= loc_obj x -> mpc p = mpc (pc t) ->
    (forall u, tpc t p u = tpc t (pc t) u) ->
    (forall u, zon Z = false -> zlive Z u = true -> stops (pc t) u -> stops p u) -> (forall u, ~ nulls (pc t) u) ->
    pcok m Z t (seen m t) p -> tokrule Z t p ->
    e = [] \/ (exists u, e = [u] /\ event_ok m Z Z u) ->
    (forall b i, ~ dying (zst Z b) -> events_in (lset (plain m) x v (buffer_chunk b i)) = fill (events_in (plain m (buffer_chunk b i))) e b i) ->
    next s (goto s (wtouch m t x w v) t p e) Z.
  Proof.
    intros V' Lx Hm Ht St N K T Ev Fl. apply same; auto.
    - intros y Ly. cbn. apply lset_other. intros ->. lia.
    - apply touch_grow.
    - eapply locks_same; eauto. apply pin.
    - eapply (pcok_mono m); [| |exact K]; [reflexivity|apply touch_grow].
  Qed.

  Lemma chunk_in b i : zcur Z = Some b -> ztok Z t = Some i -> zlive Z t = true ->
    zst Z b = BCur /\ (i < znxt Z b)%nat /\ (forall u, ztok Z u = Some i -> u = t) /\ (forall q, ~ In (i, q) (zque Z b)).
  Proof.
    intros C Ek Lv. pose proof pin as P. destruct (p_tok _ _ _ P t i Ek) as (_ & b' & C' & N'). assert (b' = b) as -> by congruence.
    split; [now apply (p_cur _ _ _ P)|]. split; [exact N'|]. split.
    - intros u Hu. now apply (p_dist _ _ _ P u t i).
    - intros q Hq. destruct (p_que _ _ _ P b C) as (_ & X). destruct (X i) as (_ & Y).
      { apply in_map_iff. exists (i, q). auto. }
      now apply (Y t).
  Qed.

  Lemma fill_one b i b' i' (p : loc -> lval) v u :
    events_in v = fill (events_in (p (buffer_chunk b i))) [u] b i ->
    (forall l, b' <> b \/ i' <> i -> fill l [u] b' i' = l) ->
    events_in (lset p (buffer_chunk b i) v (buffer_chunk b' i')) = fill (events_in (p (buffer_chunk b' i'))) [u] b' i'.
  Proof.
    intros Y N. destruct (loc_eqb (buffer_chunk b' i') (buffer_chunk b i)) eqn:E.
    - apply loc_eqb_eq in E. apply buffer_chunk_inj in E as (-> & ->). now rewrite lset_same.
    - assert (b' <> b \/ i' <> i) as D.
      { destruct (N.eq_dec b' b) as [->|]; [|auto]. destruct (Nat.eq_dec i' i) as [->|]; [|auto]. now rewrite loc_eqb_refl in E. }
      rewrite lset_other by (intros X; apply buffer_chunk_inj in X; tauto). now rewrite N.
  Qed.

  Lemma eqb_pair (b b' : N) (i i' : nat) : b' <> b \/ i' <> i -> (b' =? b) && (i' =? i)%nat = false.
  Proof.
    intros [X|X].
    - apply N.eqb_neq in X. now rewrite X.
    - apply Nat.eqb_neq in X. rewrite X. apply andb_false_r.
  Qed.

  Lemma step_reset v b i : pc t = LReset v b i ->
    next s (goto s (wwrite m t (buffer_chunk b i) (VEvents [])) t (LSet v b i) [UCleared t b i]) Z.
  Proof.
    intros E. pose proof my_pc as K. rewrite E in K. cbn in K. destruct K as ((Ki & Kl & Kp) & Kt & C & Ek).
    destruct (chunk_in b i C Ek Kl) as (S & N & D & Q).
    assert (held m (tenant_lock t) = Some t) as H by (apply held_own; rewrite E; cbn; apply Nat.eqb_refl).
    apply same_write; [| | | | | | | | |].
    - apply vt_chunk; auto; [apply vin|apply hon].
    - rewrite chunk_obj. lia.
    - sd.
    - sd.
    - sd.
    - sd.
    - cbn. split; [split; [auto|split; auto]|auto].
    - exact Logic.I.
    - right. eexists. split; [reflexivity|]. cbn. auto.
    - intros b' i' _. apply fill_one.
      + cbn. now rewrite N.eqb_refl, Nat.eqb_refl.
      + intros l X. cbn. now rewrite eqb_pair.
  Qed.

  Lemma step_store v b i : pc t = LStore v b i ->
    next s (goto s (wwrite m t (buffer_chunk b i) (VEvents (events_in (plain m (buffer_chunk b i)) ++ [v]))) t LUnlock [UStored t b i v]) Z.
  Proof.
    intros E. pose proof my_tok as T. pose proof my_pc as K. rewrite E in K, T. cbn in K, T. destruct K as (Ki & Kt).
    rewrite Kt in T. cbn in T.
    assert (tpc t (pc t) t = true) as Tp by (rewrite E; cbn; apply Nat.eqb_refl).
    destruct (has_tok b i Kt T Tp) as (C & S & Lv & N & D & Q); [intros; rewrite E; discriminate|].
    apply same_write; [| | | | | | | | |].
    - apply vt_chunk; auto; [apply vin|apply hon|now apply held_own].
    - rewrite chunk_obj. lia.
    - sd.
    - sd.
    - sd.
    - sd.
    - exact Logic.I.
    - cbn. now rewrite Kt.
    - right. eexists. split; [reflexivity|]. cbn. auto.
    - intros b' i' _. apply fill_one.
      + cbn. now rewrite N.eqb_refl, Nat.eqb_refl.
      + intros l X. cbn. now rewrite eqb_pair.
  Qed.

  Lemma step_unlock : pc t = LUnlock -> next s (goto s (wunlock m t (tenant_lock t)) t GIdle []) Z.
  Proof.
    intros E. pose proof my_tok as T. rewrite E in T.
    assert (held m (tenant_lock t) = Some t) as H by (apply held_own; rewrite E; cbn; apply Nat.eqb_refl).
    apply same_unlock; auto; try solve [sd]. eapply locks_tunlock; [apply pin|reflexivity| | |]; sd.
  Qed.

  Lemma step_drop g : pc t = LDrop g -> next s (goto s (wunlock m t (tenant_lock t)) t (MTry g) []) Z.
  Proof.
    intros E. pose proof my_tok as T. rewrite E in T.
    assert (held m (tenant_lock t) = Some t) as H by (apply held_own; rewrite E; cbn; apply Nat.eqb_refl).
    apply same_unlock; auto; try solve [sd]. eapply locks_tunlock; [apply pin|reflexivity| | |]; sd.
  Qed.

  Lemma step_gen c v0 m' : pc t = LGen -> wload m t true log_generation c = Some (v0, m') ->
    next s (goto s m' t (LDrop v0) []) Z.
  Proof.
    intros E W. pose proof my_tok as T. apply wload_inv in W as (g & _ & _ & _ & ->).
    apply same_seen; auto; [apply after_load_le| | | | | |]; sd.
  Qed.

  Lemma step_mtry g : pc t = MTry g ->
    match wlock m t log_mutex with
    | Some m' => next s (goto s m' t (MGen g) []) Z
    | None => next s (goto s m t GIdle []) Z
    end.
  Proof.
    intros E. pose proof my_tok as T. destruct (wlock m t log_mutex) as [m'|] eqn:W.
    - eapply same_lock; [exact I|exact W| | | | |]; [|sd..]. apply wlock_inv in W as (H & ->).
      eapply locks_mlock; [apply pin|exact H|reflexivity| |]; sd.
    - apply same_pc; auto; sd.
  Qed.

  Lemma step_mgen g c v0 m' : pc t = MGen g -> wload m t true log_generation c = Some (v0, m') ->
    next s (goto s m' t (if g =? v0 then SExchange None else HUnlock) []) Z.
  Proof.
    intros E W. pose proof my_tok as T. apply wload_inv in W as (g0 & _ & _ & _ & ->).
    destruct (g =? v0); apply same_seen; auto; try apply after_load_le; sd.
  Qed.

  Lemma step_take_mutex q p m' : pc t = q -> (q = HWait /\ p = Held None) \/ (q = RWait /\ p = RDo) \/ (q = DWait /\ p = DDo) ->
    wlock m t log_mutex = Some m' -> next s (goto s m' t p []) Z.
  Proof.
    intros E Q W. pose proof my_tok as T. rewrite E in T. eapply same_lock; [exact I|exact W| | | | |].
    - apply wlock_inv in W as (H & ->). eapply locks_mlock; [apply pin|exact H|reflexivity| |];
        destruct Q as [(-> & ->)|[(-> & ->)|(-> & ->)]]; sd.
    - destruct Q as [(-> & ->)|[(-> & ->)|(-> & ->)]]; sd.
    - destruct Q as [(-> & ->)|[(-> & ->)|(-> & ->)]]; sd.
    - destruct Q as [(-> & ->)|[(-> & ->)|(-> & ->)]]; sd.
    - destruct Q as [(-> & ->)|[(-> & ->)|(-> & ->)]]; sd.
  Qed.

  Lemma step_hunlock : pc t = HUnlock -> next s (goto s (wunlock m t log_mutex) t GIdle []) Z.
  Proof.
    intros E. pose proof my_tok as T. rewrite E in T.
    assert (held m log_mutex = Some t) as H by (apply held_mutex; now rewrite E).
    apply same_unlock; auto; try solve [sd]. eapply locks_munlock; [apply pin| |reflexivity| |]; sd.
  Qed.

  Lemma step_senabled w c v0 m' : pc t = SEnabled w -> wload m t true log_enabled c = Some (v0, m') ->
    next s (goto s m' t (match v0 with 0 => SNew w | _ => SExchange (Some w) end) []) Z.
  Proof.
    intros E W. pose proof my_tok as T.
    assert (held m log_mutex = Some t) as H by (apply held_mutex; now rewrite E).
    assert (zon Z = negb (v0 =? 0)) as On by (eapply read_newest; eauto; [apply vin|apply pin]).
    apply wload_inv in W as (g & _ & _ & _ & ->).
    apply same_seen; auto; [apply after_load_le| | | | | |]; destruct v0; sd.
  Qed.

  Lemma step_tenabled k c v0 m' : pc t = TEnabled k -> wload m t true log_enabled c = Some (v0, m') ->
    next s (goto s m' t (match v0 with 0 => TMove k | _ => Held k end) []) Z.
  Proof.
    intros E W. pose proof my_tok as T. pose proof my_pc as K.
    assert (held m log_mutex = Some t) as H by (apply held_mutex; now rewrite E).
    assert (zon Z = negb (v0 =? 0)) as On by (eapply read_newest; eauto; [apply vin|apply pin]).
    apply wload_inv in W as (g & _ & _ & _ & ->).
    apply same_seen; auto; [apply after_load_le| | | | | |]; destruct v0; sd.
  Qed.

  Lemma step_slist k : pc t = SList k ->
    next s (let '(v, m') := wread m t log_tenants in goto s m' t (SEvict k (tenants_in v)) []) Z.
  Proof.
    intros E. pose proof my_tok as T. pose proof my_pc as K. pose proof I as (A & _). cbn [wread]. rewrite (a_regs _ _ A) at 2.
    cbn [tenants_in].
    assert (held m log_mutex = Some t) as H by (apply held_mutex; now rewrite E).
    apply same_read; auto; try solve [sd].
    - apply vt_tenants; auto; [apply vin|apply hon].
    - intros u _ Lu _. cbn. apply (p_regs _ _ _ pin). now apply (p_live _ _ _ pin).
    - rewrite E in K. cbn in *. split; [auto|]. apply (p_regs _ _ _ pin).
  Qed.

  Lemma step_sdone k : pc t = SEvict k [] -> next s (goto s m t (Held k) []) Z.
  Proof.
    intros E. pose proof my_tok as T. pose proof my_pc as K. rewrite E in K. apply same_pc; auto; try solve [sd].
    cbn in *. destruct k; cbn; tauto.
  Qed.

  Lemma step_sunlock k u l : pc t = SUnlock k u l -> next s (goto s (wunlock m t (tenant_lock u)) t (SEvict k l) []) Z.
  Proof.
    intros E. pose proof my_tok as T. rewrite E in T. pose proof my_pc as K. rewrite E in K.
    assert (held m (tenant_lock u) = Some t) as H by (apply (p_locks _ _ _ pin); rewrite E; cbn; apply Nat.eqb_refl).
    apply same_unlock; auto; try solve [sd]. eapply locks_tunlock; [apply pin|reflexivity| | |]; sd.
  Qed.

  Lemma step_alist k : pc t = AList k ->
    next s (let '(_, m') := wread m t log_tenants in goto s m' t (ABuf k) []) Z.
  Proof.
    intros E. pose proof my_tok as T. pose proof my_pc as K. cbn [wread].
    assert (held m log_mutex = Some t) as H by (apply held_mutex; now rewrite E).
    apply same_read; auto; try solve [sd]. apply vt_tenants; auto; [apply vin|apply hon].
  Qed.

  Lemma step_abuf k : pc t = ABuf k ->
    next s (let '(q, m') := wread m t log_buffer in
            goto s m' t (match buf_in q with Some b => AObj k b | None => Held k end) []) Z.
  Proof.
    intros E. pose proof my_tok as T. pose proof my_pc as K. pose proof I as (A & _). cbn [wread]. rewrite (a_buf _ _ A) at 2. cbn [buf_in].
    assert (held m log_mutex = Some t) as H by (apply held_mutex; now rewrite E).
    assert (forall p, vinv (wtouch m t log_buffer false p) Z) as V.
    { intros p. apply vt_buffer; auto; [apply vin|apply hon|discriminate]. }
    destruct (zcur Z) as [b|] eqn:C; apply same_read; auto; try solve [sd].
  Qed.

  Lemma step_aobj k b : pc t = AObj k b ->
    next s (let '(_, m') := wread m t (buffer_obj b) in goto s m' t (Held k) [UUsed t b]) Z.
  Proof.
    intros E. pose proof my_tok as T. pose proof my_pc as K. rewrite E in K. destruct K as (K1 & K2). cbn [wread].
    assert (held m log_mutex = Some t) as H by (apply held_mutex; now rewrite E).
    assert (zst Z b = BCur) as S by now apply (p_cur _ _ _ pin).
    apply same_read; auto; try solve [sd].
    - apply vt_obj; auto; [apply vin|apply hon].
    - right. eauto.
  Qed.

  Lemma step_rthrow : pc t = RDo -> next s (goto s m t HUnlock []) Z.
  Proof. intros E. pose proof my_tok as T. apply same_pc; auto; sd. Qed.

  Lemma step_ddo : pc t = DDo -> next s (goto s m t (if wl_init s t then DPtr else HUnlock) []) Z.
  Proof.
    intros E. pose proof my_tok as T. destruct I as (A & _). rewrite (a_init _ _ A). destruct (zinit Z t) eqn:Ei; apply same_pc; auto; sd.
  Qed.

  Lemma step_dptr : pc t = DPtr ->
    next s (let '(p, m') := wread m t (tenant_chunk t) in
            goto s m' t (match ptr_in p with Some (b, i) => DBuf b i | None => DErase end) []) Z.
  Proof.
    intros E. pose proof my_tok as T. pose proof my_pc as K. pose proof I as (A & _). cbn [wread]. rewrite (a_ten _ _ A t) at 2. cbn [ptr_in].
    assert (held m log_mutex = Some t) as H by (apply held_mutex; now rewrite E).
    assert (forall p, vinv (wtouch m t (tenant_chunk t) false p) Z) as V by (intros p; apply vt_ptr; [apply vin|apply hon|right; auto]).
    destruct (zten Z t) as [[b i]|] eqn:Et; apply same_read; auto; sd.
  Qed.

  Lemma step_dbuf b i : pc t = DBuf b i ->
    next s (let '(q, m') := wread m t log_buffer in
            goto s m' t (match buf_in q with Some b' => DReturn b' b i | None => DNull end) []) Z.
  Proof.
    intros E. pose proof my_tok as T. pose proof my_pc as K. rewrite E in K. cbn in K. destruct K as (Ki & Kt).
    pose proof I as (A & _). cbn [wread]. rewrite (a_buf _ _ A) at 2. cbn [buf_in].
    destruct (p_ten _ _ _ pin t b i Kt) as (C & _). rewrite C.
    assert (held m log_mutex = Some t) as H by (apply held_mutex; now rewrite E).
    apply same_read; auto; try solve [sd]. apply vt_buffer; auto; [apply vin|apply hon|discriminate].
  Qed.

  (** *** The chunk pointer of the own tenant *)

  Lemma agree_ten f m' p e u v : m' = wtouch m t (tenant_chunk u) true (VPtr v) -> f = tset (zten Z) u v ->
    agree (goto s m' t p e) (z_ten Z f).
  Proof.
    intros -> ->. destruct I as (A & _). split; cbn; try apply A.
    intros w. destruct (Nat.eq_dec w u) as [->|N].
    - now rewrite lset_same, tset_same.
    - rewrite lset_other, tset_other by (auto; intros X; now apply tenant_chunk_inj in X). apply A.
  Qed.

  Lemma chunks_low x v b i : loc_obj x < 6 -> lset (plain m) x v (buffer_chunk b i) = plain m (buffer_chunk b i).
  Proof. intros L. apply lset_other. now apply chunk_low. Qed.

  Lemma vinv_ten f m' : vinv m' Z -> vinv m' (z_ten Z f).
  Proof.
    intros V. apply (vinv_scene m' Z); auto; cbn; auto.
  Qed.

  (** The tenant of [t] gets pointer [v]. *)
  Lemma set_ptr v p : (tpc t (pc t) t = true \/ mpc (pc t) = true) -> mpc p = mpc (pc t) ->
    (forall u, tpc t p u = tpc t (pc t) u) -> (forall u, ~ stops (pc t) u) -> (forall u, ~ nulls (pc t) u) ->
    (forall b i, v = Some (b, i) -> zcur Z = Some b /\ zlive Z t = true) ->
    pcok m (z_ten Z (tset (zten Z) t v)) t (seen m t) p -> tokrule (z_ten Z (tset (zten Z) t v)) t p ->
    next s (goto s (wwrite m t (tenant_chunk t) (VPtr v)) t p []) Z.
  Proof.
    intros H Hm Ht St Nu Hv K T. pose proof pin as P.
    assert (vinv (wwrite m t (tenant_chunk t) (VPtr v)) Z) as V.
    { apply vt_ptr; [apply vin|apply hon|]. destruct H as [H|H]; [left; split; [auto|now apply held_own]|right; split; [now apply held_mutex|auto]]. }
    exists (z_ten Z (tset (zten Z) t v)), []. split; [|split; [reflexivity|]].
    - split; [eapply agree_ten; reflexivity|]. split; [now apply vinv_ten|].
      destruct (others m (wwrite m t (tenant_chunk t) (VPtr v)) pc Z (z_ten Z (tset (zten Z) t v)) t p) as (Pk & Pt); auto.
      + intros g Hg. exact Hg.
      + apply touch_grow.
      + intros u N. split; [auto|]. right. cbn. rewrite tset_other by auto. repeat (split; [solve [auto]|]). auto.
      + eapply (pcok_mono m); [| |exact K]; [reflexivity|apply touch_grow].
      + cbn [wl_mem goto wl_pc]. split; cbn.
        * eapply locks_same; [apply P|reflexivity|exact Hm|exact Ht].
        * apply P.
        * apply P.
        * apply P.
        * intros O u Lu. apply (moved _ _ _ (fun q => stops q u)); [apply St|]. now apply (p_quiet _ _ _ P).
        * intros u b i E. destruct (Nat.eq_dec u t) as [->|N].
          -- rewrite tset_same in E. destruct (Hv b i E). auto.
          -- rewrite tset_other in E by auto. destruct (p_ten _ _ _ P u b i E) as (C & D). split; [exact C|].
             destruct D as [D|D]; [auto|right]. apply (moved _ _ _ (fun q => nulls q u)); [apply Nu|exact D].
        * intros u i E. destruct (p_tok _ _ _ P u i E) as (D & C). split; [|exact C].
          destruct D as [D|D]; [auto|right]. apply (moved _ _ _ (fun q => nulls q u)); [apply Nu|exact D].
        * apply P.
        * apply P.
        * apply P.
        * apply P.
        * apply P.
        * apply P.
        * exact Pk.
        * exact Pt.
    - split; [now left|]. split; [intros; apply goes_refl|]. intros b i _. left. cbn. rewrite chunks_low by (cbn; lia). reflexivity.
  Qed.

  Lemma step_null v : pc t = LNull v -> next s (goto s (wwrite m t (tenant_chunk t) (VPtr None)) t (LThird v) []) Z.
  Proof.
    intros E. pose proof my_tok as T. pose proof my_pc as K. rewrite E in T, K. cbn in T, K.
    apply set_ptr; try solve [sd].
    - left. rewrite E. cbn. apply Nat.eqb_refl.
    - cbn. rewrite tset_same. split; [exact K|reflexivity].
    - cbn. now rewrite tset_same.
  Qed.

  Lemma step_dnull : pc t = DNull -> next s (goto s (wwrite m t (tenant_chunk t) (VPtr None)) t DErase []) Z.
  Proof.
    intros E. pose proof my_tok as T. pose proof my_pc as K. rewrite E in T, K. cbn in T, K.
    apply set_ptr; try solve [sd].
    - cbn. rewrite tset_same. split; [exact K|reflexivity].
    - cbn. now rewrite tset_same.
  Qed.

  Lemma step_set v b i : pc t = LSet v b i ->
    next s (goto s (wwrite m t (tenant_chunk t) (VPtr (Some (b, i)))) t (LStore v b i) []) Z.
  Proof.
    intros E. pose proof my_pc as K. rewrite E in K. cbn in K. destruct K as ((Ki & Kl & Kp) & Kt & C & Ek).
    apply set_ptr; try solve [sd].
    - left. rewrite E. cbn. apply Nat.eqb_refl.
    - intros b' i' [= <- <-]. auto.
    - cbn. now rewrite tset_same.
    - cbn. now rewrite tset_same.
  Qed.

  (** *** Writes that change nothing *)

  Lemma step_held_start w : pc t = Held None ->
    next s (goto s (wwrite m t log_tenants (plain m log_tenants)) t (if (snd w =? 0)%nat then Held None else SEnabled w) []) Z.
  Proof.
    intros E. pose proof my_tok as T. rewrite E in T. cbn in T.
    assert (held m log_mutex = Some t) as H by (apply held_mutex; now rewrite E).
    apply same; auto.
    - apply vt_tenants; auto; [apply vin|apply hon].
    - intros y _. cbn. unfold lset. destruct (loc_eqb y log_tenants) eqn:X; [|reflexivity]. apply loc_eqb_eq in X as ->. reflexivity.
    - apply touch_grow.
    - eapply locks_same; [apply pin|reflexivity| |]; destruct (snd w =? 0)%nat; sd.
    - destruct (snd w =? 0)%nat; sd.
    - sd.
    - destruct (snd w =? 0)%nat; exact Logic.I.
    - destruct (snd w =? 0)%nat; exact T.
    - intros b i _. cbn. rewrite chunks_low by (cbn; lia). reflexivity.
  Qed.

  Lemma plain_obj b b' i (n : mem) : lset (plain n) (buffer_obj b) (plain n (buffer_obj b)) (buffer_chunk b' i) = plain n (buffer_chunk b' i).
  Proof. apply lset_other. apply chunk_not_obj. Qed.

  Lemma lset_id (f : loc -> lval) x y : lset f x (f x) y = f y.
  Proof. unfold lset. destruct (loc_eqb y x) eqn:E; [|reflexivity]. apply loc_eqb_eq in E as ->. reflexivity. Qed.

  Lemma step_read b i k : after_of (pc t) = Some k -> In b (wl_own s t) ->
    next s (let '(_, m1) := wread m t (buffer_obj b) in
            let '(v, m2) := wread m1 t (buffer_chunk b i) in
            goto s m2 t (pc t) [URead t b i (events_in v)]) Z.
  Proof.
    intros E Hb. pose proof I as (A & _). rewrite (a_own _ _ A) in Hb. pose proof (p_own _ _ _ pin t b Hb) as S.
    assert (mine (zst Z b) t) as M by (right; now left). cbn [wread].
    set (m1 := wtouch m t (buffer_obj b) false (plain m (buffer_obj b))).
    assert (vinv m1 Z) as V1 by (eapply vt_mine; eauto; [apply vin|apply hon|apply (p_cur _ _ _ pin)|apply of_buf_obj]).
    assert (plain m1 (buffer_chunk b i) = plain m (buffer_chunk b i)) as Ep by apply plain_obj.
    assert (forall y, lset (plain m1) (buffer_chunk b i) (plain m1 (buffer_chunk b i)) y = plain m y) as Pl.
    { intros y. rewrite lset_id. unfold m1. cbn. apply lset_id. }
    apply same; auto.
    - eapply vt_mine; eauto; [apply hon|apply (p_cur _ _ _ pin)|apply of_buf_chunk].
    - intros y _. apply Pl.
    - intros u. eapply vle_trans; [apply (touch_grow m)|apply touch_grow].
    - eapply locks_same; [apply pin|reflexivity|reflexivity|reflexivity].
    - intros u. destruct (pc t); cbn in E |- *; try discriminate; auto.
    - eapply (pcok_mono m); [| |apply my_pc]; [reflexivity|]. eapply vle_trans; [apply (touch_grow m)|apply touch_grow].
    - apply my_tok.
    - right. eexists. split; [reflexivity|]. split; [exact S|now rewrite Ep].
    - intros b' i' _. exact (f_equal events_in (Pl _)).
  Qed.

  Lemma step_smake b i : pc t = SMake b i ->
    next s (goto s (wwrite m t (buffer_chunk b i) (VEvents [])) t (SMake b (S i)) []) Z.
  Proof.
    intros E. pose proof my_tok as T. pose proof my_pc as K. rewrite E in K, T. cbn in K, T. destruct K as (S & O).
    assert (vinv (wwrite m t (buffer_chunk b i) (VEvents [])) Z) as V.
    { eapply vt_mine; [apply vin|apply hon|left; exact S|apply (p_cur _ _ _ pin)|apply of_buf_chunk]. }
    pose proof I as (A & _ & P). exists Z, []. split; [|split; [reflexivity|]].
    - split; [|split; [exact V|]].
      + apply agree_goto; auto; intros; cbn; apply lset_other; intros X; symmetry in X; revert X; apply chunk_low; cbn; lia.
      + eapply pinv_go; eauto.
        * apply touch_grow.
        * eapply locks_same; [apply P|reflexivity|sd|sd].
        * sd.
        * sd.
        * cbn. auto.
    - split; [now left|]. split; [intros; apply goes_refl|]. intros b' i' D. cbn.
      destruct (loc_eqb (buffer_chunk b' i') (buffer_chunk b i)) eqn:X.
      + apply loc_eqb_eq in X. apply buffer_chunk_inj in X as (-> & ->). rewrite lset_same, S. cbn. auto.
      + left. rewrite lset_other; [reflexivity|]. intros Y. rewrite Y, loc_eqb_refl in X. discriminate.
  Qed.

  Lemma step_smade b i : pc t = SMake b i -> next s (goto s m t (SAssign b) []) Z.
  Proof.
    intros E. pose proof my_tok as T. pose proof my_pc as K. apply same_pc; auto; sd.
  Qed.

  Lemma step_gfree b i k : pc t = GFree b i k ->
    next s (goto s (wwrite m t (buffer_chunk b i) VNone) t (GFree b (S i) k) []) Z.
  Proof.
    intros E. pose proof my_tok as T. pose proof my_pc as K. rewrite E in K, T. cbn in K, T. destruct K as (S & O).
    apply same_write; auto.
    - eapply vt_mine; [apply vin|apply hon|right; right; exact S|apply (p_cur _ _ _ pin)|apply of_buf_chunk].
    - rewrite chunk_obj. lia.
    - rewrite E. reflexivity.
    - rewrite E. reflexivity.
    - rewrite E. auto.
    - rewrite E. auto.
    - cbn. auto.
    - intros b' i' D. cbn. rewrite lset_other; [reflexivity|]. intros Y. apply buffer_chunk_inj in Y as (-> & _). rewrite S in D. now apply D.
  Qed.

  (** *** The chunks of the log's buffer *)

  Lemma set_chunk s1 m' p e b fn fq k :
    let Z' := z_tok (z_que Z fn fq) (tset (ztok Z) t k) in
    zcur Z = Some b -> agree (goto s1 m' t p e) Z' -> wl_pc s1 = pc -> wl_hist s1 = wl_hist s ->
    vinv m' Z -> (forall u, vle (seen m u) (seen m' u)) -> hist m' log_enabled = hist m log_enabled -> locks m' (tset pc t p) ->
    (forall u, ~ stops (pc t) u) -> (forall u, ~ nulls (pc t) u) ->
    (forall b', b' <> b -> fn b' = znxt Z b' /\ fq b' = zque Z b') -> (znxt Z b <= fn b)%nat ->
    (forall i, k = Some i -> zlive Z t = true /\ (i < fn b)%nat /\ (forall u, u <> t -> ztok Z u <> Some i) /\
       acc m' (buffer_chunk b i) true (kn (sview m' t))) ->
    NoDup (map fst (fq b)) ->
    (forall i, In i (map fst (fq b)) -> (i < fn b)%nat /\ k <> Some i /\ forall u, u <> t -> ztok Z u <> Some i) ->
    (forall i w, In (i, w) (fq b) -> In (i, w) (zque Z b) \/ acc m' (buffer_chunk b i) true (kn w)) ->
    pcok m' Z' t (seen m' t) p -> tokrule Z' t p -> e = [UUsed t b] ->
    (forall b i, plain m' (buffer_chunk b i) = plain m (buffer_chunk b i)) ->
    next s (goto s1 m' t p e) Z.
  Proof.
    intros Z' C A1 Ep Eh V Ls H L St Nu Fo Fn Kk Nd Qi Qa K T Ee Pl. pose proof pin as P.
    pose proof (p_cur _ _ _ P b C) as Sb.
    exists Z', e. split; [|split; [cbn; now rewrite Eh|]].
    - split; [exact A1|]. split.
      + apply (vinv_scene m' Z); auto; cbn.
        * intros b' C'. left. split; [exact C'|]. assert (b' = b) as -> by congruence. exact Fn.
        * intros b' u i C' X. assert (b' = b) as -> by congruence. destruct (Nat.eq_dec u t) as [->|N].
          -- rewrite tset_same in X. right. now apply Kk.
          -- rewrite tset_other in X by auto. auto.
        * intros b' i w C' X. assert (b' = b) as -> by congruence. destruct (Qa i w X); auto.
      + cbn [goto wl_mem wl_pc]. rewrite Ep.
        destruct (others m m' pc Z Z' t p) as (Pk & Pt); auto.
        * rewrite H. apply incl_refl.
        * intros u N. split; [auto|]. right. cbn. rewrite tset_other by auto. repeat (split; [solve [auto]|]). auto.
        * split; cbn.
          -- exact L.
          -- apply P.
          -- apply P.
          -- apply P.
          -- intros O u Lu. apply (moved _ _ _ (fun q => stops q u)); [apply St|]. now apply (p_quiet _ _ _ P).
          -- intros u b' i E. destruct (p_ten _ _ _ P u b' i E) as (X & D). split; [exact X|].
             destruct D as [D|D]; [auto|right]. apply (moved _ _ _ (fun q => nulls q u)); [apply Nu|exact D].
          -- intros u i E. destruct (Nat.eq_dec u t) as [->|N].
             ++ rewrite tset_same in E. destruct (Kk i E) as (X & Y & _). split; [auto|]. exists b. auto.
             ++ rewrite tset_other in E by auto. destruct (p_tok _ _ _ P u i E) as (D & b' & X & Y). split.
                ** destruct D as [D|D]; [auto|right]. apply (moved _ _ _ (fun q => nulls q u)); [apply Nu|exact D].
                ** exists b. assert (b' = b) as -> by congruence. split; [auto|lia].
          -- intros u u' i X Y. destruct (Nat.eq_dec u t) as [->|N], (Nat.eq_dec u' t) as [->|N'];
               rewrite ?tset_same in *; rewrite ?tset_other in * by auto; auto.
             ++ exfalso. destruct (Kk i X) as (_ & _ & D & _). now apply (D u').
             ++ exfalso. destruct (Kk i Y) as (_ & _ & D & _). now apply (D u).
             ++ now apply (p_dist _ _ _ P u u' i).
          -- intros b' C'. assert (b' = b) as -> by congruence. split; [exact Nd|]. intros i X.
             destruct (Qi i X) as (Y1 & Y2 & Y3). split; [exact Y1|]. intros u. destruct (Nat.eq_dec u t) as [->|N].
             ++ now rewrite tset_same.
             ++ rewrite tset_other by auto. auto.
          -- apply P.
          -- apply P.
          -- apply P.
          -- intros b' t' X. assert (b' <> b) as N by congruence. destruct (Fo b' N) as (-> & ->). now apply (p_build _ _ _ P b' t').
          -- exact Pk.
          -- exact Pt.
    - split; [right; exists (UUsed t b); split; [exact Ee|exact Sb]|]. split; [intros; apply goes_refl|].
      intros b' i _. left. rewrite Pl, Ee. reflexivity.
  Qed.

  Lemma returned v0 b' b i p : zten Z t = Some (b, i) -> ztok Z t = Some i -> zcur Z = Some b' ->
    vle (sview m t) (seen m t) -> vinv (wtouch m t (buffer_obj b') false v0) Z -> v0 = plain m (buffer_obj b') ->
    mpc p = mpc (pc t) -> (forall u, tpc t p u = tpc t (pc t) u) -> (forall u, ~ stops (pc t) u) -> (forall u, ~ nulls (pc t) u) ->
    (forall fn fq, pcok m (z_tok (z_que Z fn fq) (tset (ztok Z) t None)) t (seen m t) p) ->
    (forall fn fq, tokrule (z_tok (z_que Z fn fq) (tset (ztok Z) t None)) t p) ->
    next s (goto (give_back s t b' i) (wtouch m t (buffer_obj b') false v0) t p (UUsed t b' :: if b =? b' then [] else [UAstray t b'])) Z.
  Proof.
    intros Et Ek C Sv V Ev Hm Ht St Nu K T. pose proof I as (A & _ & P).
    destruct (p_ten _ _ _ P t b i Et) as (C2 & _). assert (b' = b) as -> by congruence. rewrite N.eqb_refl.
    destruct (p_tok _ _ _ P t i Ek) as (_ & b2 & C3 & Ni). assert (b2 = b) as -> by congruence.
    destruct (p_que _ _ _ P b C) as (Nd & Qi).
    assert (acc m (buffer_chunk b i) true (kn (seen m t))) as Ac.
    { eapply acc_impl; [|apply (v_tok _ _ vin b t i C Ek)]. intros x. now apply kn_le. }
    assert (forall b0 i0, plain (wtouch m t (buffer_obj b) false v0) (buffer_chunk b0 i0) = plain m (buffer_chunk b0 i0)) as Pl.
    { intros b0 i0. cbn. rewrite Ev. apply lset_id. }
    assert (forall y, lset (plain m) (buffer_obj b) v0 y = plain m y) as Py by (intros y; rewrite Ev; apply lset_id).
    assert (forall w, acc m (buffer_chunk b i) true (kn w) -> acc (wtouch m t (buffer_obj b) false v0) (buffer_chunk b i) true (kn w)) as At.
    { intros w X. apply acc_touch; [exact X|]. intros Y. symmetry in Y. now apply chunk_not_obj in Y. }
    assert (locks (wtouch m t (buffer_obj b) false v0) (tset pc t p)) as L by (eapply locks_same; [apply P|reflexivity|exact Hm|exact Ht]).
    assert (forall fn fq, pcok (wtouch m t (buffer_obj b) false v0) (z_tok (z_que Z fn fq) (tset (ztok Z) t None)) t
       (seen (wtouch m t (buffer_obj b) false v0) t) p) as K'.
    { intros fn fq. eapply (pcok_mono m); [| |apply K]; [reflexivity|apply touch_grow]. }
    assert (forall j, In j (map fst (zque Z b)) -> (j < znxt Z b)%nat /\ None <> Some j /\ forall u, u <> t -> ztok Z u <> Some j) as Qj.
    { intros j X. destruct (Qi j X) as (X1 & X2). split; [exact X1|]. split; [discriminate|]. intros u _. apply X2. }
    unfold give_back. rewrite (a_shape _ _ A). destruct (fst (zshape Z b)) eqn:Sh.
    - eapply (set_chunk _ _ p _ b (upd (znxt Z) b (znxt Z b)) (upd (zque Z) b (zque Z b ++ [(i, seen m t)])) None);
        rewrite ?upd_same; auto; try discriminate.
      + split; cbn; try apply A.
        * now rewrite (a_nxt _ _ A).
        * now rewrite (a_que _ _ A).
      + apply touch_grow.
      + intros b' N. now rewrite !upd_other.
      + rewrite map_app. cbn.
        apply NoDup_rev in Nd. rewrite <- (rev_involutive (_ ++ _)). apply NoDup_rev. rewrite rev_app_distr. cbn. constructor; [|exact Nd].
        rewrite <- in_rev. intros X. destruct (Qi i X) as (_ & Y). now apply (Y t).
      + intros j X. rewrite map_app, in_app_iff in X. destruct X as [X|[<-|[]]]; [auto|]. cbn. split; [exact Ni|].
        split; [discriminate|]. intros u N X. apply N. now apply (p_dist _ _ _ P u t i).
      + intros j w X. apply in_app_iff in X as [X|[[= <- <-]|[]]]; auto.
    - eapply (set_chunk _ _ p _ b (znxt Z) (zque Z) None); auto; try discriminate.
      + split; cbn; apply A.
      + apply touch_grow.
  Qed.

  Lemma step_return v b' b i : pc t = LReturn v b' b i ->
    next s (let '(_, m') := wread m t (buffer_obj b') in
            goto (give_back s t b' i) m' t (LNull v) (UUsed t b' :: if b =? b' then [] else [UAstray t b'])) Z.
  Proof.
    intros E. pose proof my_tok as T. pose proof my_pc as K. rewrite E in T, K. cbn in T, K. destruct K as ((Ki & Kl & Kp) & Kt & C).
    rewrite Kt in T. cbn in T. assert (held m (tenant_lock t) = Some t) as H by (apply held_own; rewrite E; cbn; apply Nat.eqb_refl).
    cbn [wread]. apply (returned _ b' b i (LNull v)); auto; try solve [sd].
    - unfold sview. rewrite (ecov_held m t t H). apply vle_join_lub; apply vle_refl.
    - apply vt_obj_read; auto; [apply vin|apply hon|now apply (p_cur _ _ _ pin)].
    - intros fn fq. cbn. split; [exact Ki|]. split; [exact Kl|]. exact Kp.
    - intros fn fq. cbn. apply tset_same.
  Qed.

  Lemma step_dreturn b' b i : pc t = DReturn b' b i ->
    next s (let '(_, m') := wread m t (buffer_obj b') in
            goto (give_back s t b' i) m' t DNull (UUsed t b' :: if b =? b' then [] else [UAstray t b'])) Z.
  Proof.
    intros E. pose proof my_tok as T. pose proof my_pc as K. rewrite E in T, K. cbn in T, K. destruct K as (Ki & Kt & C).
    rewrite Kt in T. cbn in T. assert (held m log_mutex = Some t) as H by (apply held_mutex; now rewrite E).
    cbn [wread]. apply (returned _ b' b i DNull); auto; try solve [sd].
    - unfold sview. apply vle_join_lub; [apply vle_refl|]. eapply vle_trans; [apply (v_ecov _ _ vin)|].
      apply vle_join_lub; [apply vle_refl|]. rewrite (cov_held m t H). apply vle_refl.
    - apply vt_obj; auto; [apply vin|apply hon|now apply (p_cur _ _ _ pin)].
    - intros fn fq. cbn. apply tset_same.
  Qed.

  Lemma step_get v b : pc t = LGet v b ->
    next s (let '(_, m') := wread m t (buffer_obj b) in
            let i := wl_issued s b in
            goto (set_buffer s b (S i) (wl_queue s b)) m' t
              (if (i <? snd (wl_shape s b))%nat then LReset v b i else if fst (wl_shape s b) then LDeq v b else LGen)
              [UUsed t b]) Z.
  Proof.
    intros E. pose proof my_tok as T. pose proof my_pc as K. rewrite E in T, K. cbn in T, K. destruct K as ((Ki & Kl & Kp) & Kt & C).
    rewrite Kt in T. cbn in T. assert (held m (tenant_lock t) = Some t) as H by (apply held_own; rewrite E; cbn; apply Nat.eqb_refl).
    pose proof I as (A & _ & P). cbn [wread]. cbv zeta. rewrite (a_nxt _ _ A), (a_shape _ _ A), (a_que _ _ A).
    set (n := znxt Z b). set (m' := wtouch m t (buffer_obj b) false (plain m (buffer_obj b))).
    set (p := if (n <? snd (zshape Z b))%nat then LReset v b n else if fst (zshape Z b) then LDeq v b else LGen).
    destruct (p_que _ _ _ P b C) as (Nd & Qi).
    eapply (set_chunk _ _ p _ b (upd (znxt Z) b (S n)) (upd (zque Z) b (zque Z b)) (if (n <? snd (zshape Z b))%nat then Some n else None));
      rewrite ?upd_same; auto.
    - split; cbn; try apply A.
      + now rewrite (a_nxt _ _ A).
      + now rewrite (a_que _ _ A).
    - apply vt_obj_read; auto; [apply vin|apply hon|now apply (p_cur _ _ _ pin)].
    - apply touch_grow.
    - eapply locks_same; [apply P|reflexivity| |]; rewrite E; unfold p; destruct (n <? _)%nat; [|destruct (fst _)| |destruct (fst _)]; reflexivity.
    - sd.
    - sd.
    - intros b' N. now rewrite !upd_other.
    - intros i Hi. destruct (n <? snd (zshape Z b))%nat; [|discriminate]. injection Hi as <-.
      split; [exact Kl|]. split; [lia|]. split.
      + intros u N X. destruct (p_tok _ _ _ P u n X) as (_ & b2 & C2 & L2). assert (b2 = b) as -> by congruence. unfold n in L2. lia.
      + apply acc_touch; [|intros X; symmetry in X; now apply chunk_not_obj in X].
        destruct Kp as (g & G1 & G2 & G3). destruct (v_pub _ _ vin (or_intror (ex_intro _ t Kl)) g G1 G2) as (_ & Y).
        destruct (Y b C) as (_ & W). eapply acc_impl; [|apply (W n); reflexivity]. intros e X.
        eapply kn_le; [|exact X]. eapply vle_trans; [exact G3|]. eapply vle_trans; [apply (touch_grow m t)|]. apply vle_join_l.
    - intros i X. destruct (Qi i X) as (Y1 & Y2). fold n in Y1. split; [lia|]. split; [|auto].
      destruct (n <? _)%nat; [|discriminate]. intros [= <-]. lia.
    - assert (inside m' (z_tok (z_que Z (upd (znxt Z) b (S n)) (upd (zque Z) b (zque Z b))) (tset (ztok Z) t (if (n <? snd (zshape Z b))%nat then Some n else None))) t (seen m' t)) as In'.
      { split; [exact Ki|]. split; [exact Kl|]. eapply (pub_mono m); [| |exact Kp]; [reflexivity|apply touch_grow]. }
      unfold p. destruct (n <? snd (zshape Z b))%nat; [|destruct (fst _)]; cbn [pcok]; auto.
      split; [exact In'|]. cbn. rewrite tset_same. auto.
    - unfold p. destruct (n <? snd (zshape Z b))%nat; [|destruct (fst _)]; cbn; rewrite ?tset_same, ?Kt; auto.
    - intros b' i. apply plain_obj.
  Qed.

  Lemma step_deq v b c i w q : pc t = LDeq v b -> take_nth c (wl_queue s b) = Some ((i, w), q) ->
    next s (let '(_, m') := wread (with_seen m t (vjoin (seen m t) w)) t (buffer_obj b) in
            goto (set_buffer s b (wl_issued s b) q) m' t (LReset v b i) [UUsed t b]) Z.
  Proof.
    intros E Tn. pose proof my_tok as T. pose proof my_pc as K. rewrite E in T, K. cbn in T, K. destruct K as ((Ki & Kl & Kp) & Kt & C).
    rewrite Kt in T. cbn in T. assert (held m (tenant_lock t) = Some t) as H by (apply held_own; rewrite E; cbn; apply Nat.eqb_refl).
    pose proof I as (A & _ & P). cbn [wread]. rewrite (a_que _ _ A) in Tn. rewrite (a_nxt _ _ A).
    apply take_nth_split in Tn as (l1 & l2 & Q1 & Q2). destruct (p_que _ _ _ P b C) as (Nd & Qi). rewrite Q1 in Nd, Qi.
    rewrite map_app in Nd, Qi. cbn in Nd, Qi. pose proof (NoDup_remove _ _ _ Nd) as (Nd1 & Nd2). rewrite <- map_app, <- Q2 in Nd1, Nd2.
    set (m1 := with_seen m t (vjoin (seen m t) w)). set (m' := wtouch m1 t (buffer_obj b) false (plain m1 (buffer_obj b))).
    assert (vle (seen m t) (vjoin (seen m t) w)) as Lw by apply vle_join_l.
    assert (vinv m1 Z) as V1 by (eapply vinv_seen; eauto; [apply vin|apply P]).
    assert (forall u, vle (seen m u) (seen m1 u)) as G1 by apply (seen_grow m t _ Lw).
    assert (forall u, vle (seen m u) (seen m' u)) as G2.
    { intros u. eapply vle_trans; [apply G1|apply (touch_grow m1)]. }
    assert (pub m1 Z (seen m1 t)) as Kp1 by (eapply (pub_mono m); [| |exact Kp]; [reflexivity|apply G1]).
    eapply (set_chunk _ _ (LReset v b i) _ b (upd (znxt Z) b (znxt Z b)) (upd (zque Z) b q) (Some i)); rewrite ?upd_same; auto.
    - split; cbn; try apply A.
      + now rewrite (a_nxt _ _ A).
      + now rewrite (a_que _ _ A).
    - apply vt_obj_read; auto; [apply hon|now apply (p_cur _ _ _ pin)].
    - eapply locks_same; [apply P|reflexivity|rewrite E; reflexivity|rewrite E; reflexivity].
    - sd.
    - sd.
    - intros b' N. now rewrite !upd_other.
    - intros j [= <-]. destruct (Qi i) as (Y1 & Y2); [apply in_app_iff; right; now left|]. split; [exact Kl|]. split; [exact Y1|].
      split; [auto|]. apply acc_touch; [|intros X; symmetry in X; now apply chunk_not_obj in X].
      eapply acc_impl; [|apply (v_que _ _ V1 b i w C); rewrite Q1; apply in_app_iff; right; now left]. intros e X.
      eapply kn_le; [|exact X]. eapply vle_trans; [|apply vle_join_l]. eapply vle_trans; [|apply (touch_grow m1)].
      unfold m1. cbn [with_seen seen]. rewrite tset_same. apply vle_join_r.
    - intros j X. destruct (Qi j) as (Y1 & Y2).
      { rewrite Q2, map_app in X. apply in_app_iff in X as [X|X]; apply in_app_iff; [auto|right; now right]. }
      split; [exact Y1|]. split; [|auto]. intros [= <-]. contradiction.
    - intros j w' X. left. rewrite Q1. rewrite Q2 in X. apply in_app_iff in X as [X|X]; apply in_app_iff; [auto|right; now right].
    - split; [split; [exact Ki|split; [exact Kl|]]|].
      + eapply (pub_mono m1); [| |exact Kp1]; [reflexivity|apply (touch_grow m1)].
      + cbn. rewrite tset_same. auto.
    - exact Logic.I.
    - intros b' j. exact (plain_obj b b' j m1).
  Qed.

  (** *** Eviction *)

  Lemma mutex_of h : held m log_mutex = Some t -> mpc (pc h) = true -> h = t.
  Proof. intros H X. apply (p_locks _ _ _ pin) in X. congruence. Qed.

  Lemma step_evict k u l m' : pc t = SEvict k (u :: l) -> wlock m t (tenant_lock u) = Some m' ->
    next s (goto s m' t (SNull k u l) []) Z.
  Proof.
    intros E W. pose proof my_tok as T. pose proof my_pc as K. rewrite E in T, K. cbn in T, K. destruct K as (O & Nd).
    assert (held m log_mutex = Some t) as H by (apply held_mutex; now rewrite E). pose proof I as (A & _ & P).
    pose proof (lock_grow _ _ _ _ W) as G. assert (locks m' (tset pc t (SNull k u l))) as L.
    { apply wlock_inv in W as (F & ->). eapply (locks_tlock m _ pc t _ u); [apply P|exact F|reflexivity|sd|sd|sd]. }
    pose proof (vinv_lock _ _ _ _ _ _ vin W L) as V. set (Z' := z_live Z (tset (zlive Z) u false)).
    assert (held m (tenant_lock u) = None /\ held m' = lset (held m) (tenant_lock u) (Some t) /\ plain m' = plain m /\ hist m' = hist m) as (F & Eh & Ep & Et).
    { apply wlock_inv in W as (F & ->). auto. }
    assert (held m' log_mutex = Some t) as H1 by (rewrite Eh, lset_other by apply mutex_not_tenant; exact H).
    assert (held m' (tenant_lock u) = Some t) as H2 by (rewrite Eh; apply lset_same).
    exists Z', []. split; [|split; [reflexivity|]].
    - split; [|split].
      + split; cbn; rewrite ?Ep; apply A.
      + apply (vinv_scene m' Z); auto; unfold Z'; cbn [z_live zlive zinit zon zt1 zcur znxt zst ztok zque].
        * intros v X. left. destruct (Nat.eq_dec v u) as [->|N]; [now rewrite tset_same in X|now rewrite tset_other in X by auto].
        * intros v X Y. destruct (Nat.eq_dec v u) as [->|N]; [|left; now rewrite tset_other in Y by auto].
          right. split; [|exact O]. rewrite (cov_held _ _ H1). unfold sview. rewrite (ecov_held _ _ _ H2). apply vle_join_r.
        * intros [X|(v & X)]; [now left|right]. exists v. cbn in X. destruct (Nat.eq_dec v u) as [->|N];
            [now rewrite tset_same in X|now rewrite tset_other in X by auto].
        * intros e [X|(v & X & Y)]; [now left|]. destruct (Nat.eq_dec v u) as [->|N].
          -- left. rewrite (cov_held _ _ H1). now rewrite (ecov_held _ _ _ H2) in Y.
          -- right. exists v. cbn. rewrite tset_other by auto. auto.
      + destruct (others m m' pc Z Z' t (SNull k u l)) as (Pk & Pt); auto.
        * rewrite Et. apply incl_refl.
        * apply G.
        * intros v N. split; [auto|]. right. cbn. repeat (split; [solve [auto]|]). split; [|auto].
          intros X Y. destruct (Nat.eq_dec v u) as [->|D]; [|now rewrite tset_other by auto].
          apply (p_locks _ _ _ P) in Y. congruence.
        * cbn. split; [exact O|]. now inversion Nd.
        * cbn [goto wl_mem wl_pc]. split; cbn [Z' z_live zcur zten zregs zinit zown zshape znxt zque zcnt zon zlive ztok zst zt1].
          -- exact L.
          -- apply P.
          -- intros v X. destruct (Nat.eq_dec v u) as [->|D]; [now rewrite tset_same in X|]. rewrite tset_other in X by auto. now apply (p_live _ _ _ P).
          -- intros X. congruence.
          -- intros _ v X. destruct (Nat.eq_dec v u) as [->|D]; [now rewrite tset_same in X|]. rewrite tset_other in X by auto.
             exists t. rewrite tset_same. cbn. destruct (p_quiet _ _ _ P O v X) as (h & Y).
             pose proof (mutex_of h H (stops_mpc _ _ Y)) as ->. rewrite E in Y. cbn in Y. destruct Y as [Y|Y]; [congruence|exact Y].
          -- intros v b i X. destruct (p_ten _ _ _ P v b i X) as (C & Y). split; [exact C|].
             destruct (Nat.eq_dec v u) as [->|D]; [right; exists t; now rewrite tset_same|].
             destruct Y as [Y|(h & Y)]; [left; now rewrite tset_other by auto|]. exfalso.
             pose proof (mutex_of h H (nulls_mpc _ _ Y)) as ->. now rewrite E in Y.
          -- intros v i X. destruct (p_tok _ _ _ P v i X) as (Y & C). split; [|exact C].
             destruct (Nat.eq_dec v u) as [->|D]; [right; exists t; now rewrite tset_same|].
             destruct Y as [Y|(h & Y)]; [left; now rewrite tset_other by auto|]. exfalso.
             pose proof (mutex_of h H (nulls_mpc _ _ Y)) as ->. now rewrite E in Y.
          -- apply P.
          -- apply P.
          -- apply P.
          -- apply P.
          -- apply P.
          -- apply P.
          -- exact Pk.
          -- exact Pt.
    - split; [now left|]. split; [intros; apply goes_refl|]. intros b i _. left. cbn. now rewrite Ep.
  Qed.

  Lemma step_snull k u l : pc t = SNull k u l -> next s (goto s (wwrite m t (tenant_chunk u) (VPtr None)) t (SUnlock k u l) []) Z.
  Proof.
    intros E. pose proof my_tok as T. pose proof my_pc as K. rewrite E in T, K. cbn in T, K. destruct K as (O & Nd).
    assert (held m log_mutex = Some t) as H by (apply held_mutex; now rewrite E). pose proof I as (A & _ & P).
    assert (held m (tenant_lock u) = Some t) as Hu by (apply (p_locks _ _ _ P); rewrite E; cbn; apply Nat.eqb_refl).
    set (m' := wwrite m t (tenant_chunk u) (VPtr None)). assert (vinv m' Z) as V by (apply vt_ptr; [apply vin|apply hon|auto]).
    set (Z' := z_tok (z_ten Z (tset (zten Z) u None)) (tset (ztok Z) u None)).
    assert (locks m' (tset pc t (SUnlock k u l))) as L by (eapply locks_same; [apply P|reflexivity|sd|sd]).
    assert (forall v i, tset (ztok Z) u None v = Some i -> v <> u /\ ztok Z v = Some i) as Tk.
    { intros v i X. destruct (Nat.eq_dec v u) as [->|D]; [now rewrite tset_same in X|]. rewrite tset_other in X by auto. auto. }
    assert (forall v, v <> u -> (zlive Z v = true \/ exists h, nulls (pc h) v) -> zlive Z v = true) as Nn.
    { intros v D [Y|(h & Y)]; [auto|]. exfalso. pose proof (mutex_of h H (nulls_mpc _ _ Y)) as ->. rewrite E in Y. cbn in Y. congruence. }
    exists Z', []. split; [|split; [reflexivity|]].
    - split; [|split].
      + split; cbn; try apply A. intros w. destruct (Nat.eq_dec w u) as [->|N].
        * now rewrite lset_same, tset_same.
        * rewrite lset_other, tset_other by (auto; intros X; now apply tenant_chunk_inj in X). apply A.
      + apply (vinv_scene m' Z); auto; cbn; auto. intros b v i C X. left. split; [exact C|]. now apply Tk in X.
      + destruct (others m m' pc Z Z' t (SUnlock k u l)) as (Pk & Pt); auto.
        * apply incl_refl.
        * apply touch_grow.
        * intros v N. split; [auto|]. destruct (Nat.eq_dec v u) as [->|D].
          -- left. split; [|split].
             ++ destruct (tpc u (pc u) u) eqn:X; [|reflexivity]. apply (p_locks _ _ _ P) in X. congruence.
             ++ eapply (alone m pc Z t); eauto. now rewrite E.
             ++ cbn. now rewrite !tset_same.
          -- right. cbn. rewrite !tset_other by auto. repeat (split; [solve [auto]|]). auto.
        * cbn. auto.
        * cbn. destruct (Nat.eq_dec t u) as [->|D]; [now rewrite !tset_same|now rewrite !tset_other by auto].
        * cbn [goto wl_mem wl_pc]. split; cbn.
          -- exact L.
          -- apply P.
          -- apply P.
          -- apply P.
          -- intros _ v X. exists t. rewrite tset_same. cbn. destruct (p_quiet _ _ _ P O v X) as (h & Y).
             pose proof (mutex_of h H (stops_mpc _ _ Y)) as ->. now rewrite E in Y.
          -- intros v b i X. destruct (Nat.eq_dec v u) as [->|D]; [now rewrite tset_same in X|]. rewrite tset_other in X by auto.
             destruct (p_ten _ _ _ P v b i X) as (C & Y). split; [exact C|]. left. auto.
          -- intros v i X. apply Tk in X as (D & X). destruct (p_tok _ _ _ P v i X) as (Y & C). split; [|exact C]. left. auto.
          -- intros v v' i X Y. apply Tk in X, Y. apply (p_dist _ _ _ P v v' i); tauto.
          -- intros b C. destruct (p_que _ _ _ P b C) as (X & Y). split; [exact X|]. intros i Hi. destruct (Y i Hi) as (Y1 & Y2).
             split; [exact Y1|]. intros v Hv. apply Tk in Hv as (_ & Hv). now apply (Y2 v).
          -- apply P.
          -- apply P.
          -- apply P.
          -- apply P.
          -- exact Pk.
          -- exact Pt.
    - split; [now left|]. split; [intros; apply goes_refl|]. intros b i _. left. cbn. rewrite chunks_low by (cbn; lia). reflexivity.
  Qed.

  (** *** Switching *)

  Lemma newest_first g l g' n : hist m log_enabled = g :: l -> chain (fun _ => False) (g :: l) -> In g' (hist m log_enabled) -> m_to g <= n ->
    m_to g' <= n.
  Proof.
    intros E C X L. rewrite E in X. destruct X as [<-|X]; [exact L|]. pose proof (chain_older _ _ _ C _ X). lia.
  Qed.

  Lemma step_exchange k c n g m' : pc t = SExchange k -> nth_error (hist m log_enabled) c = Some g ->
    wrmw m t true true log_enabled g 0 n = Some m' ->
    next s (goto s m' t (if m_val g =? 0 then Held k else SList k) []) Z.
  Proof.
    intros E Hg W. pose proof my_tok as T. rewrite E in T. cbn in T.
    assert (held m log_mutex = Some t) as H by (apply held_mutex; now rewrite E). pose proof I as (A & _ & P).
    unfold wrmw in W. destruct (_ && _) eqn:F in W; [|discriminate]. apply andb_true_iff in F as (F1 & F2). apply N.leb_le in F1.
    injection W as <-. destruct (v_on _ _ vin) as (g0 & l & Eh & Ch & Tg & Ov & _). rewrite (cov_held m t H) in Tg.
    assert (c = 0%nat) as ->.
    { rewrite Eh in Hg. eapply chain_load; eauto. lia. }
    rewrite Eh in Hg. cbn in Hg. injection Hg as ->. apply free_in in F2 as (Lt & Fr).
    set (w := vat (after_load (seen m t) true log_enabled g) log_enabled n).
    set (g' := {| m_from := m_to g; m_to := n; m_val := 0; m_view := vjoin (m_view g) w |}).
    set (m' := with_msg (with_seen m t w) log_enabled g'). set (p := if m_val g =? 0 then Held k else SList k).
    assert (vle (seen m t) w) as Lw by (eapply vle_trans; [apply after_load_le|apply vle_vat]).
    assert (zon Z = false -> forall u, zlive Z u = false) as Nl.
    { intros O. eapply (nobody m pc Z t); eauto; rewrite E; cbn; auto. }
    exists (z_sw Z false (zlive Z) (zt1 Z)), []. split; [|split; [reflexivity|]].
    - split; [|split].
      + split; cbn; apply A.
      + eapply (vinv_switch m pc Z _ t g' w); eauto; [apply vin|apply P| |].
        * apply vat_ts.
        * intros h X. cbn. eapply newest_first; eauto. lia.
      + destruct (others m m' pc Z (z_sw Z false (zlive Z) (zt1 Z)) t p) as (Pk & Pt); auto.
        * intros x X. unfold m'. cbn [with_msg hist]. rewrite lset_same. now right.
        * apply (msg_grow m t log_enabled g' w Lw).
        * intros u N. split; [auto|]. right. cbn. repeat (split; [solve [auto]|]). split; [|auto]. right.
          eapply alone; eauto. now rewrite E.
        * unfold p. destruct (m_val g =? 0); cbn; auto. destruct k; cbn; auto.
        * unfold p. destruct (m_val g =? 0); exact T.
        * cbn [goto wl_mem wl_pc]. split; cbn [z_sw zcur zten zregs zinit zown zshape znxt zque zcnt zon zlive ztok zst zt1]; try apply P.
          -- eapply locks_same; [apply P|reflexivity| |]; rewrite E; unfold p; destruct (m_val g =? 0); reflexivity.
          -- discriminate.
          -- intros _ u Lu. exists t. rewrite tset_same. unfold p. destruct (m_val g =? 0) eqn:V; [|exact Logic.I].
             cbn in Ov. rewrite Nl in Lu; [discriminate|exact Ov].
          -- intros u b i X. destruct (p_ten _ _ _ P u b i X) as (C & Y). split; [exact C|].
             destruct Y as [Y|Y]; [auto|right]. apply (moved _ _ _ (fun q => nulls q u)); [rewrite E; auto|exact Y].
          -- intros u i X. destruct (p_tok _ _ _ P u i X) as (Y & C). split; [|exact C].
             destruct Y as [Y|Y]; [auto|right]. apply (moved _ _ _ (fun q => nulls q u)); [rewrite E; auto|exact Y].
          -- exact Pk.
          -- exact Pt.
    - split; [now left|]. split; [intros; apply goes_refl|]. intros b i _. now left.
  Qed.

  Lemma step_sstore b f n m' : pc t = SStore b -> wstore m t true log_enabled 1 f n = Some m' ->
    next s (goto s m' t (Held None) []) Z.
  Proof.
    intros E W. pose proof my_tok as T. pose proof my_pc as K. rewrite E in T, K. cbn in T, K. destruct K as (C & O).
    assert (held m log_mutex = Some t) as H by (apply held_mutex; now rewrite E). pose proof I as (A & _ & P).
    unfold wstore in W. destruct (_ && _) eqn:F in W; [|discriminate]. apply andb_true_iff in F as (F1 & F2). apply N.ltb_lt in F1.
    injection W as <-. destruct (v_on _ _ vin) as (g0 & l & Eh & Ch & Tg & Ov & _). rewrite (cov_held m t H) in Tg.
    apply free_in in F2 as (Lt & Fr). destruct (nobody m pc Z t P) as (Nl & Nt & Nk & Op); auto; try (rewrite E; cbn; auto).
    set (w := vat (seen m t) log_enabled n).
    set (g' := {| m_from := f; m_to := n; m_val := 1; m_view := w |}).
    set (m' := with_msg (with_seen m t w) log_enabled g').
    assert (vle (seen m t) w) as Lw by apply vle_vat.
    exists (z_sw Z true (zinit Z) n), []. split; [|split; [reflexivity|]].
    - split; [|split].
      + split; cbn; apply A.
      + eapply (vinv_switch m pc Z _ t g' w); eauto; [apply vin|apply P| | |].
        * apply vat_ts.
        * intros h X. cbn. eapply newest_first; eauto. pose proof (chain_head _ _ _ Ch). destruct (Fr g0) as [Y|Y]; [rewrite Eh; now left| |exact Y]. lia.
        * right. repeat (split; [solve [auto]|]). reflexivity.
      + destruct (others m m' pc Z (z_sw Z true (zinit Z) n) t (Held None)) as (Pk & Pt); auto.
        * intros x X. unfold m'. cbn [with_msg hist]. rewrite lset_same. now right.
        * apply (msg_grow m t log_enabled g' w Lw).
        * intros u N. split; [auto|]. right. cbn. assert (mpc (pc u) = false) as Mu by (eapply alone; eauto; now rewrite E).
          rewrite Nl. split; [discriminate|]. repeat (split; [solve [auto]|]). split; [discriminate|]. auto.
        * exact Logic.I.
        * cbn [goto wl_mem wl_pc]. split; cbn [z_sw zcur zten zregs zinit zown zshape znxt zque zcnt zon zlive ztok zst zt1]; try apply P; auto.
          -- eapply locks_same; [apply P|reflexivity| |]; rewrite E; reflexivity.
          -- discriminate.
          -- intros u b' i X. now rewrite Nt in X.
          -- intros u i X. now rewrite Nk in X.
    - split; [now left|]. split; [intros; apply goes_refl|]. intros b' i _. now left.
  Qed.

  (** *** Buffers *)

  Lemma vinv_other x g w : vle (seen m t) w -> x <> log_enabled -> vinv (with_msg (with_seen m t w) x g) Z.
  Proof.
    intros Lw N. pose proof (vinv_seen m pc t w Z vin (p_locks _ _ _ pin) Lw) as V. eapply vinv_grow; [exact V| | | | |].
    - exact (grow_refl (with_seen m t w)).
    - cbn [with_msg hist]. rewrite lset_other by auto. reflexivity.
    - reflexivity.
    - reflexivity.
    - exact (v_ecov _ _ V).
  Qed.

  Lemma bound u : forall b, zst Z b = BUnborn -> zcur Z <> Some b /\ ~ In b (zown Z u).
  Proof.
    intros b X. split.
    - intros C. rewrite (p_cur _ _ _ pin b C) in X. discriminate.
    - intros C. rewrite (p_own _ _ _ pin u b C) in X. discriminate.
  Qed.

  Lemma step_new w c n v m1 : pc t = SNew w -> wfetch_add m t true true log_generation 1 c n = Some (v, m1) ->
    next s (goto (new_buffer s w) (wwrite m1 t (buffer_obj (wl_count s)) VNone) t (SMake (wl_count s) 0) [UMade t (wl_count s)]) Z.
  Proof.
    intros E W. pose proof my_tok as T. pose proof my_pc as K. rewrite E in T, K. cbn in T, K. rename K into O.
    assert (held m log_mutex = Some t) as H by (apply held_mutex; now rewrite E). pose proof I as (A & _ & P).
    unfold wfetch_add in W. destruct (nth_error _ c) as [g|]; [|discriminate]. unfold wrmw in W. destruct (_ && _) in W; [|discriminate].
    injection W as _ <-. set (w' := vat (after_load (seen m t) true log_generation g) log_generation n).
    match goal with |- context [with_msg _ _ ?x] => set (g' := x) end.
    set (m1 := with_msg (with_seen m t w') log_generation g').
    assert (vle (seen m t) w') as Lw by (eapply vle_trans; [apply after_load_le|apply vle_vat]).
    assert (vinv m1 Z) as V1 by (apply vinv_other; [exact Lw|discriminate]).
    rewrite (a_cnt _ _ A). set (b := zcnt Z). assert (zst Z b = BUnborn) as Sb by (apply (p_born _ _ _ P); apply N.le_refl).
    assert (zcur Z <> Some b) as Cb by now apply (bound t).
    set (Z' := z_new Z t w).
    assert (forall b', zcur Z = Some b' -> b' <> b) as Cn by (intros b' X ->; contradiction).
    assert (forall b', b' <> b -> zst Z' b' = zst Z b') as So by (intros b' X; cbn; now rewrite upd_other by auto).
    assert (zst Z' b = BBuild t) as Sb' by (cbn; apply upd_same).
    assert (vinv m1 Z') as V2.
    { apply (vinv_scene m1 Z); auto; cbn.
      - intros b' X. left. split; [exact X|]. rewrite upd_other by (now apply Cn). apply le_n.
      - intros b' t' M. destruct (N.eq_dec b' b) as [->|D]; [auto|]. rewrite upd_other in M by auto. auto.
      - intros b' X. destruct (N.eq_dec b' b) as [->|D]; [auto|]. now rewrite upd_other in X by auto.
      - intros b' i v0 X Y. rewrite upd_other in Y by (now apply Cn). auto. }
    set (m2 := wwrite m1 t (buffer_obj b) VNone).
    assert (vinv m2 Z') as V3.
    { eapply (vt_mine m1 Z' t b); [exact V2|exact hon|left; exact Sb'| |apply of_buf_obj].
      intros b' X. rewrite So by (now apply Cn). now apply (p_cur _ _ _ P). }
    assert (forall u, vle (seen m u) (seen m2 u)) as G.
    { intros u. eapply vle_trans; [apply (msg_grow m t log_generation g' w' Lw)|apply (touch_grow m1)]. }
    exists Z', [UMade t b]. split; [|split; [reflexivity|]].
    - split; [|split; [exact V3|]].
      + split; cbn; try apply A; rewrite ?(a_shape _ _ A), ?(a_nxt _ _ A), ?(a_que _ _ A), ?(a_cnt _ _ A); reflexivity.
      + destruct (others m m2 pc Z Z' t (SMake b 0)) as (Pk & Pt); auto.
        * apply incl_refl.
        * intros u N. assert (forall b' y, y <> BUnborn -> zst Z b' = y -> zst Z' b' = y) as X.
          { intros b' y Y1 Y2. rewrite So; [exact Y2|]. intros ->. congruence. }
          split; [intros b'; apply X; discriminate|]. right. cbn -[Z']. repeat (split; [solve [auto]|]). intros b'; apply X; discriminate.
        * cbn -[Z']. auto.
        * change (pinv m2 (tset pc t (SMake b 0)) Z'). split; try apply P.
          -- eapply locks_same; [apply P|reflexivity| |]; rewrite E; reflexivity.
          -- intros X u Y. destruct (p_quiet _ _ _ P X u Y) as (h & Y2). exists h. rewrite tset_other; [exact Y2|]. intros ->. now rewrite E in Y2.
          -- intros u b' i X. destruct (p_ten _ _ _ P u b' i X) as (C & Y). split; [exact C|].
             destruct Y as [Y|Y]; [auto|right]. apply (moved _ _ _ (fun q => nulls q u)); [rewrite E; auto|exact Y].
          -- intros u i X. destruct (p_tok _ _ _ P u i X) as (Y & b' & C & Y2). split.
             ++ destruct Y as [Y|Y]; [auto|right]. apply (moved _ _ _ (fun q => nulls q u)); [rewrite E; auto|exact Y].
             ++ exists b'. split; [exact C|]. cbn. rewrite upd_other by (now apply Cn). exact Y2.
          -- intros b' C. cbn in C |- *. rewrite !upd_other by (now apply Cn). now apply (p_que _ _ _ P).
          -- intros b' C. rewrite So by (now apply Cn). now apply (p_cur _ _ _ P).
          -- intros u b' X. cbn in X. rewrite So; [now apply (p_own _ _ _ P)|]. intros ->. now apply (bound u) in Sb.
          -- intros b'. cbn. destruct (N.eq_dec b' b) as [->|D].
             ++ rewrite upd_same. fold b. split; [lia|discriminate].
             ++ rewrite upd_other by auto. rewrite <- (p_born _ _ _ P b'). fold b. lia.
          -- intros b' u X. cbn. destruct (N.eq_dec b' b) as [->|D]; [now rewrite !upd_same|].
             rewrite So in X by auto. rewrite !upd_other by auto. now apply (p_build _ _ _ P b' u).
          -- exact Pk.
          -- exact Pt.
    - split; [right; eexists; split; [reflexivity|exact Logic.I]|]. split.
      + intros b'. destruct (N.eq_dec b' b) as [->|D]; [rewrite Sb, Sb'; split; [exact Logic.I|discriminate]|]. rewrite So by auto. apply goes_refl.
      + intros b' i _. left. cbn. rewrite lset_other by apply chunk_not_obj. reflexivity.
  Qed.

  Lemma same_two x v1 v2 y : lset (lset (plain m) x v1) x v2 y = lset (plain m) x v2 y.
  Proof.
    unfold lset. destruct (loc_eqb y x) eqn:E; reflexivity.
  Qed.

  (** The log's buffer is exchanged: nobody is using it. *)
  Lemma set_buf s1 v1 v c f o p e :
    let m' := wwrite (wtouch m t log_buffer false v1) t log_buffer (VBuf c) in
    let Z' := z_cur Z c f o in
    mpc (pc t) = true -> (forall u, ~ stops (pc t) u) -> (forall u, ~ nulls (pc t) u) -> zon Z = false -> (forall u, tpc t (pc t) u = false) ->
    v = v1 ->
    wl_pc s1 = pc -> wl_hist s1 = wl_hist s -> wl_init s1 = wl_init s -> wl_count s1 = wl_count s -> wl_shape s1 = wl_shape s ->
    wl_issued s1 = wl_issued s -> wl_queue s1 = wl_queue s -> wl_own s1 = o ->
    (forall b, c = Some b -> zst Z b = BBuild t /\ f b = BCur) ->
    (forall b, f b = zst Z b \/ c = Some b \/ (zcur Z = Some b /\ (f b = BOwned t \/ f b = BDying t))) ->
    (forall u b, In b (o u) -> f b = BOwned u) ->
    mpc p = true -> (forall u, tpc t p u = false) ->
    (forall n w, pcok n Z' t w p) -> tokrule Z' t p ->
    e = [] \/ (exists u, e = [u] /\ event_ok m Z Z' u) -> (forall l b i, fill l e b i = l) ->
    (forall u b, zcur Z = Some b -> f b = BOwned u -> In (UTaken u b) e) ->
    next s (goto s1 m' t p e) Z.
  Proof.
    intros m' Z' Hm St Nu O Htp _ Ep Eh Ei En Es Ek Eq Eo Cb Fo Ow Pm Pt0 K T Ee Fl Tk. pose proof I as (A & _ & P).
    destruct (nobody m pc Z t P Hm St Nu O) as (Nl & Nt & Nk & Op).
    assert (held m log_mutex = Some t) as H by now apply held_mutex.
    assert (vinv (wtouch m t log_buffer false v1) Z) as V1 by (apply vt_buffer; auto; [apply vin|apply hon]).
    assert (vinv m' Z) as V2 by (apply vt_buffer; auto; exact hon).
    assert (held m' log_mutex = Some t) as H' by exact H.
    assert (forall b, f b = BUnborn <-> zst Z b = BUnborn) as Fu.
    { intros b. destruct (Fo b) as [->|[X|(X & [Y|Y])]]; [tauto| | |].
      - destruct (Cb b X) as (-> & ->). split; discriminate.
      - rewrite Y, (p_cur _ _ _ P b X). split; discriminate.
      - rewrite Y, (p_cur _ _ _ P b X). split; discriminate. }
    assert (forall b u, f b = BBuild u -> zst Z b = BBuild u) as Fb.
    { intros b u Y. destruct (Fo b) as [<-|[X|(X & [Y2|Y2])]]; [exact Y| |congruence|congruence]. destruct (Cb b X). congruence. }
    assert (forall b u, zst Z b = BDying u -> f b = BDying u) as Fd.
    { intros b u Y. destruct (Fo b) as [->|[X|(X & _)]]; [exact Y| |].
      - destruct (Cb b X). congruence.
      - rewrite (p_cur _ _ _ P b X) in Y. discriminate. }
    assert (forall b u, u <> t -> zst Z b = BBuild u -> f b = BBuild u) as Fb2.
    { intros b u N Y. destruct (Fo b) as [->|[X|(X & _)]]; [exact Y| |].
      - destruct (Cb b X). congruence.
      - rewrite (p_cur _ _ _ P b X) in Y. discriminate. }
    assert (~ open Z') as Op' by (intros [X|(u & X)]; cbn in X; [congruence|rewrite Nl in X; discriminate]).
    assert (forall u, vle (seen m u) (seen m' u)) as G.
    { intros u. eapply vle_trans; [apply (touch_grow m)|apply touch_grow]. }
    exists Z', e. split; [|split; [cbn; now rewrite Eh|]].
    - split; [|split].
      + split; cbn; rewrite ?Ei, ?En, ?Es, ?Ek, ?Eq, ?Eo; try apply A; reflexivity.
      + apply (vinv_scene m' Z); auto; cbn.
        * intros b X. right. split; [exact Op'|]. exists t. split; [|exact H']. left. now apply Cb.
        * intros b u M. destruct (Fo b) as [X|[X|(X & Y)]].
          -- left. now rewrite X in M.
          -- exfalso. destruct (Cb b X) as (_ & Y). rewrite Y in M. destruct M as [M|[M|M]]; discriminate.
          -- right. right. split; [exact X|]. split; [exact Op|]. assert (u = t) as ->; [|exact H'].
             destruct Y as [Y|Y]; rewrite Y in M; destruct M as [M|[M|M]]; congruence.
        * intros b X. now apply Fu.
        * intros b u i _ X. now rewrite Nk in X.
        * intros b i w X Y. destruct (Cb b X) as (Z1 & _). destruct (p_build _ _ _ P b t Z1) as (Z2 & _). rewrite Z2 in Y. destruct Y.
      + change (pinv m' (tset (wl_pc s1) t p) Z'). rewrite Ep.
        destruct (others m m' pc Z Z' t p) as (Pk & Pt); auto.
        * apply incl_refl.
        * intros u N. split; [intros b; apply Fd|]. right. cbn. assert (mpc (pc u) = false) as Mu by (eapply alone; eauto).
          rewrite Nl. repeat (split; [solve [auto]|]). intros b. now apply Fb2.
        * split; cbn [Z' z_cur zcur zten zregs zinit zown zshape znxt zque zcnt zon zlive ztok zst zt1]; try apply P.
          -- eapply locks_same; [apply P|reflexivity|congruence|]. intros u. now rewrite Pt0, Htp.
          -- intros _ u X. now rewrite Nl in X.
          -- intros u b i X. now rewrite Nt in X.
          -- intros u i X. now rewrite Nk in X.
          -- intros b X. destruct (Cb b X) as (Z1 & _). destruct (p_build _ _ _ P b t Z1) as (-> & ->). split; [constructor|intros i []].
          -- intros b X. now apply Cb.
          -- exact Ow.
          -- intros b. rewrite Fu. apply P.
          -- intros b u X. apply (p_build _ _ _ P b u). now apply Fb.
          -- exact Pk.
          -- exact Pt.
    - split; [exact Ee|]. split.
      + intros b. change (zst Z' b) with (f b). destruct (Fo b) as [->|[X|(X & Y)]]; [apply goes_refl| |].
        * destruct (Cb b X) as (-> & ->). split; [exact Logic.I|discriminate].
        * rewrite (p_cur _ _ _ P b X). split; [destruct Y as [-> | ->]; exact Logic.I|]. intros u Z1. right. apply (Tk u b X Z1).
      + intros b i _. left. rewrite Fl. cbn. rewrite !lset_other by (apply chunk_low; cbn; lia). reflexivity.
  Qed.

  Lemma step_assign b : pc t = SAssign b ->
    next s (let '(q, m1) := wread m t log_buffer in
            let m' := wwrite m1 t log_buffer (VBuf (Some b)) in
            match buf_in q with
            | Some b0 => goto s m' t (GFree b0 0 (KEnable b)) [UDestroyed t b0]
            | None => goto s m' t (SStore b) []
            end) Z.
  Proof.
    intros E. pose proof my_tok as T. pose proof my_pc as K. rewrite E in T, K. cbn in T, K. destruct K as (S & O).
    pose proof I as (A & _ & P). cbn [wread]. cbv zeta. replace (buf_in (plain m log_buffer)) with (zcur Z) by (now rewrite (a_buf _ _ A)).
    destruct (zcur Z) as [b0|] eqn:C.
    - pose proof (p_cur _ _ _ P b0 C) as S0. assert (b0 <> b) as N by (intros ->; congruence).
      eapply (set_buf s _ _ (Some b) (upd (upd (zst Z) b0 (BDying t)) b BCur)); try reflexivity; try (rewrite E; cbn; solve [auto]); auto.
      + intros b' [= <-]. now rewrite upd_same.
      + intros b'. destruct (N.eq_dec b' b) as [->|D]; [auto|]. rewrite upd_other by auto.
        destruct (N.eq_dec b' b0) as [->|D']; [rewrite upd_same; auto|rewrite upd_other by auto; auto].
      + rewrite (a_own _ _ A). intros u b' X. pose proof (p_own _ _ _ P u b' X) as Y. rewrite !upd_other; [exact Y| |]; intros ->; congruence.
      + intros n w. cbn. rewrite upd_other, upd_same by auto. auto.
      + right. eexists. split; [reflexivity|]. cbn. rewrite upd_other, upd_same by auto. auto.
      + intros u b' X Y. assert (b' = b0) as -> by congruence. rewrite upd_other, upd_same in Y by auto. discriminate.
    - eapply (set_buf s _ _ (Some b) (upd (zst Z) b BCur)); try reflexivity; try (rewrite E; cbn; solve [auto]); auto.
      + intros b' [= <-]. now rewrite upd_same.
      + intros b'. destruct (N.eq_dec b' b) as [->|D]; [auto|]. rewrite upd_other by auto. auto.
      + rewrite (a_own _ _ A). intros u b' X. pose proof (p_own _ _ _ P u b' X) as Y. rewrite !upd_other; [exact Y|]; intros ->; congruence.
      + intros n w. cbn. auto.
      + intros u b' X. congruence.
  Qed.

  Lemma step_tmove k : pc t = TMove k ->
    next s (let '(q, m1) := wread m t log_buffer in
            let m' := wwrite m1 t log_buffer (VBuf None) in
            match buf_in q with
            | Some b => goto (set_own s t (wl_own s t ++ [b])) m' t (Held k) [UTaken t b]
            | None => goto s m' t (Held k) []
            end) Z.
  Proof.
    intros E. pose proof my_tok as T. pose proof my_pc as K. rewrite E in T, K. cbn in T, K. rename K into O.
    pose proof I as (A & _ & P). cbn [wread]. cbv zeta. replace (buf_in (plain m log_buffer)) with (zcur Z) by (now rewrite (a_buf _ _ A)).
    destruct (zcur Z) as [b|] eqn:C.
    - pose proof (p_cur _ _ _ P b C) as S.
      eapply (set_buf _ _ _ None (upd (zst Z) b (BOwned t))); try reflexivity; try (rewrite E; cbn; solve [auto]); auto.
      + discriminate.
      + intros b'. destruct (N.eq_dec b' b) as [->|D]; [rewrite upd_same; auto|rewrite upd_other by auto; auto].
      + cbn. rewrite (a_own _ _ A). intros u b' X. destruct (Nat.eq_dec u t) as [->|D].
        * rewrite tset_same in X. apply in_app_iff in X as [X|[<-|[]]]; [|apply upd_same].
          pose proof (p_own _ _ _ P t b' X) as Y. rewrite upd_other; [exact Y|]. intros ->. congruence.
        * rewrite tset_other in X by auto. pose proof (p_own _ _ _ P u b' X) as Y. rewrite upd_other; [exact Y|]. intros ->. congruence.
      + intros n w. destruct k; cbn; auto.
      + right. eexists. split; [reflexivity|]. cbn. rewrite upd_same. auto.
      + intros u b' X Y. assert (b' = b) as -> by congruence. rewrite upd_same in Y. injection Y as <-. now left.
    - eapply (set_buf s _ _ None (zst Z)); try reflexivity; try (rewrite E; cbn; solve [auto]); auto.
      + discriminate.
      + rewrite (a_own _ _ A). apply P.
      + intros n w. destruct k; cbn; auto.
      + intros u b' X. congruence.
  Qed.

  (** A buffer of [t]'s own goes on to its next stage. *)
  Lemma set_st s1 m' b y o p e :
    let Z' := z_st Z (upd (zst Z) b y) o in
    agree (goto s1 m' t p e) Z' -> wl_pc s1 = pc -> wl_hist s1 = wl_hist s ->
    vinv m' Z -> (forall u, vle (seen m u) (seen m' u)) -> hist m' log_enabled = hist m log_enabled -> held m' = held m ->
    (zst Z b = BOwned t /\ y = BDying t \/ zst Z b = BDying t /\ y = BGone) ->
    (forall u b', In b' (o u) -> b' <> b /\ In b' (zown Z u)) ->
    (forall u, ~ stops (pc t) u) -> (forall u, ~ nulls (pc t) u) -> mpc p = mpc (pc t) -> (forall u, tpc t p u = tpc t (pc t) u) ->
    pcok m' Z' t (seen m' t) p -> tokrule Z' t p ->
    e = [] \/ (exists u, e = [u] /\ event_ok m Z Z' u) -> (forall l b i, fill l e b i = l) ->
    (forall b' i, b' <> b -> plain m' (buffer_chunk b' i) = plain m (buffer_chunk b' i)) ->
    next s (goto s1 m' t p e) Z.
  Proof.
    intros Z' A1 Ep Eh V G Hh Hl Sb Ow St Nu Hm Ht K T Ee Fl Pl. pose proof I as (A & _ & P).
    assert (zcur Z <> Some b) as Cb by (intros C; rewrite (p_cur _ _ _ P b C) in Sb; destruct Sb as [(X & _)|(X & _)]; discriminate).
    assert (forall b', b' <> b -> zst Z' b' = zst Z b') as So by (intros b' X; cbn; now rewrite upd_other by auto).
    assert (zst Z' b = y) as Sy by (cbn; apply upd_same).
    exists Z', e. split; [|split; [cbn; now rewrite Eh|]].
    - split; [exact A1|]. split.
      + apply (vinv_scene m' Z); auto.
        * intros b' u M. left. destruct (N.eq_dec b' b) as [->|D]; [|now rewrite So in M by auto]. rewrite Sy in M.
          destruct Sb as [(X & ->)|(X & ->)]; destruct M as [M|[M|M]]; try discriminate. injection M as <-. rewrite X. right. now left.
        * intros b' X. destruct (N.eq_dec b' b) as [->|D]; [|now rewrite So in X by auto]. rewrite Sy in X. destruct Sb as [(_ & ->)|(_ & ->)]; discriminate.
      + change (pinv m' (tset (wl_pc s1) t p) Z'). rewrite Ep.
        destruct (others m m' pc Z Z' t p) as (Pk & Pt); auto.
        * rewrite Hh. apply incl_refl.
        * intros u N. split.
          -- intros b' X. rewrite So; [exact X|]. intros ->. destruct Sb as [(Y & _)|(Y & _)]; congruence.
          -- right. cbn -[Z']. repeat (split; [solve [auto]|]). intros b' X. rewrite So; [exact X|]. intros ->. destruct Sb as [(Y & _)|(Y & _)]; congruence.
        * split; try apply P.
          -- eapply locks_same; [apply P|exact Hl|exact Hm|exact Ht].
          -- intros O u Lu. apply (moved _ _ _ (fun q => stops q u)); [apply St|]. now apply (p_quiet _ _ _ P).
          -- intros u b' i X. destruct (p_ten _ _ _ P u b' i X) as (C & Y). split; [exact C|].
             destruct Y as [Y|Y]; [auto|right]. apply (moved _ _ _ (fun q => nulls q u)); [apply Nu|exact Y].
          -- intros u i X. destruct (p_tok _ _ _ P u i X) as (Y & C). split; [|exact C].
             destruct Y as [Y|Y]; [auto|right]. apply (moved _ _ _ (fun q => nulls q u)); [apply Nu|exact Y].
          -- intros b' C. rewrite So; [now apply (p_cur _ _ _ P)|]. intros ->. contradiction.
          -- intros u b' X. destruct (Ow u b' X) as (D & Y). rewrite So by auto. now apply (p_own _ _ _ P).
          -- intros b'. destruct (N.eq_dec b' b) as [->|D]; [|rewrite So by auto; apply P]. rewrite Sy.
             change (zcnt Z') with (zcnt Z). rewrite (p_born _ _ _ P b). destruct Sb as [(-> & ->)|(-> & ->)]; split; discriminate.
          -- intros b' u X. apply (p_build _ _ _ P b' u). destruct (N.eq_dec b' b) as [->|D]; [|now rewrite So in X by auto]. rewrite Sy in X.
             destruct Sb as [(_ & ->)|(_ & ->)]; discriminate.
          -- exact Pk.
          -- exact Pt.
    - split; [exact Ee|]. split.
      + intros b'. destruct (N.eq_dec b' b) as [->|D]; [rewrite Sy|rewrite So by auto; apply goes_refl].
        destruct Sb as [(-> & ->)|(-> & ->)]; (split; [cbn; auto|discriminate]).
      + intros b' i X. left. rewrite Fl. destruct (N.eq_dec b' b) as [->|D]; [|now rewrite Pl].
        exfalso. apply X. rewrite Sy. destruct Sb as [(_ & ->)|(_ & ->)]; exact Logic.I.
  Qed.

  Lemma step_freed b i k : pc t = GFree b i k -> next s (goto s (wwrite m t (buffer_obj b) VNone) t (continue k) []) Z.
  Proof.
    intros E. pose proof my_tok as T. pose proof my_pc as K. rewrite E in T, K. cbn in T, K. destruct K as (S & O).
    pose proof I as (A & _ & P). eapply (set_st s _ b BGone (zown Z)); auto.
    - split; cbn; apply A.
    - eapply vt_mine; [apply vin|apply hon|right; right; exact S|apply (p_cur _ _ _ pin)|apply of_buf_obj].
    - apply touch_grow.
    - intros u b' X. split; [|exact X]. intros ->. rewrite (p_own _ _ _ P u b X) in S. discriminate.
    - rewrite E. auto.
    - rewrite E. auto.
    - rewrite E. destruct k; reflexivity.
    - rewrite E. destruct k; reflexivity.
    - destruct k; cbn; auto.
    - destruct k; exact T.
    - intros b' i' _. cbn. rewrite lset_other by apply chunk_not_obj. reflexivity.
  Qed.

  Lemma step_drop_buffer b k : after_of (pc t) = Some k -> In b (wl_own s t) ->
    next s (goto (set_own s t (remove N.eq_dec b (wl_own s t))) m t (GFree b 0 k) [UDestroyed t b]) Z.
  Proof.
    intros E Hb. pose proof I as (A & _ & P). rewrite (a_own _ _ A) in Hb |- *. pose proof (p_own _ _ _ P t b Hb) as S.
    pose proof my_pc as K. pose proof my_tok as T.
    eapply (set_st _ _ b (BDying t) (tset (zown Z) t (remove N.eq_dec b (zown Z t)))); auto.
    - split; cbn; try apply A. now rewrite (a_own _ _ A).
    - apply vin.
    - intros u. apply vle_refl.
    - intros u b' X. destruct (Nat.eq_dec u t) as [->|D].
      + rewrite tset_same in X. apply in_remove in X. tauto.
      + rewrite tset_other in X by auto. split; [|exact X]. intros ->. rewrite (p_own _ _ _ P u b X) in S. congruence.
    - intros u. destruct (pc t); cbn in *; try discriminate; auto.
    - intros u. destruct (pc t); cbn in *; try discriminate; auto.
    - destruct (pc t); cbn in *; try discriminate; injection E as <-; auto.
    - intros u. destruct (pc t); cbn in *; try discriminate; injection E as <-; auto.
    - cbn. rewrite upd_same. split; [reflexivity|]. destruct (pc t); cbn in *; try discriminate; injection E as <-; auto.
    - destruct (pc t); cbn in *; try discriminate; exact T.
    - right. eexists. split; [reflexivity|]. cbn. rewrite upd_same. auto.
  Qed.

  (** *** Registration *)

  Lemma set_reg v1 l x y :
    mpc (pc t) = true -> (forall u, ~ stops (pc t) u) -> (forall u, ~ nulls (pc t) u) -> (forall u, tpc t (pc t) u = false) ->
    ztok Z t = option_map snd (zten Z t) ->
    (x = true /\ y = zon Z /\ zinit Z t = false /\ l = t :: zregs Z \/
     x = false /\ y = false /\ zinit Z t = true /\ zten Z t = None /\ l = remove Nat.eq_dec t (zregs Z)) ->
    next s (goto (set_init s t x) (wwrite (wtouch m t log_tenants false v1) t log_tenants (VTenants l)) t HUnlock []) Z.
  Proof.
    intros Hm St Nu Htp Tk Cs. pose proof I as (A & _ & P). set (m1 := wtouch m t log_tenants false v1). set (m' := wwrite m1 t log_tenants (VTenants l)).
    assert (held m log_mutex = Some t) as H by now apply held_mutex.
    assert (vinv m1 Z) as V1 by (apply vt_tenants; auto; [apply vin|apply hon]).
    assert (vinv m' Z) as V2 by (apply vt_tenants; auto; exact hon).
    assert (held m' log_mutex = Some t) as H' by exact H.
    assert (vle (cov m') (sview m' t)) as Cv by (rewrite (cov_held _ _ H'); apply vle_join_l).
    assert (forall u, vle (seen m u) (seen m' u)) as G.
    { intros u. eapply vle_trans; [apply (touch_grow m)|apply touch_grow]. }
    set (Z' := z_reg Z l (tset (zinit Z) t x) (tset (zlive Z) t y)).
    assert (zlive Z' t = y) as Ly by apply tset_same. assert (zinit Z' t = x) as Ix by apply tset_same.
    assert (forall u, u <> t -> zlive Z' u = zlive Z u) as Lo by (intros u N; cbn; now rewrite tset_other by auto).
    assert (forall u, u <> t -> zinit Z' u = zinit Z u) as Io by (intros u N; cbn; now rewrite tset_other by auto).
    exists Z', []. split; [|split; [reflexivity|]].
    - split; [|split].
      + split; cbn; try apply A; try reflexivity. now rewrite (a_init _ _ A).
      + apply (vinv_scene m' Z); auto.
        * intros u X. destruct (Nat.eq_dec u t) as [->|D]; [auto|]. rewrite Lo in X by auto. auto.
        * intros u X Y. destruct (Nat.eq_dec u t) as [->|D].
          -- right. split; [exact Cv|]. destruct Cs as [(-> & -> & _)|(-> & _)]; congruence.
          -- left. rewrite Io in X by auto. rewrite Lo in Y by auto. auto.
        * intros [X|(u & X)]; [now left|]. destruct (Nat.eq_dec u t) as [->|D].
          -- rewrite Ly in X. destruct Cs as [(_ & -> & _)|(_ & -> & _)]; [now left|discriminate].
          -- rewrite Lo in X by auto. right. eauto.
        * intros e [X|(u & X & Y)]; [now left|]. destruct (Nat.eq_dec u t) as [->|D].
          -- left. eapply kn_le; [|exact Y]. eapply vle_trans; [apply (v_ecov _ _ V2)|]. rewrite (cov_held _ _ H'). apply vle_join_lub; apply vle_refl.
          -- right. exists u. rewrite Lo by auto. auto.
      + change (pinv m' (tset pc t HUnlock) Z'). destruct (others m m' pc Z Z' t HUnlock) as (Pk & Pt); auto.
        * apply incl_refl.
        * intros u N. split; [auto|]. right. rewrite Io, Lo by auto. repeat (split; [solve [auto]|]). auto.
        * exact Logic.I.
        * split; try apply P.
          -- eapply locks_same; [apply P|reflexivity|now rewrite Hm|]. intros u. now rewrite Htp.
          -- destruct (p_regs _ _ _ P) as (Nd & Rg). change (zregs Z') with l. destruct Cs as [(-> & _ & Ni & ->)|(-> & _ & Ni & _ & ->)].
             ++ split.
                ** constructor; [|exact Nd]. rewrite Rg. congruence.
                ** intros u. destruct (Nat.eq_dec u t) as [->|D]; [rewrite Ix; cbn; tauto|]. rewrite Io by auto. rewrite <- Rg. cbn. intuition congruence.
             ++ split.
                ** clear -Nd. induction Nd as [|a l N Nd IH]; [constructor|]. unfold remove; fold (remove Nat.eq_dec). destruct (Nat.eq_dec t a); [exact IH|].
                   constructor; [|exact IH]. intros X. apply in_remove in X. tauto.
                ** intros u. destruct (Nat.eq_dec u t) as [->|D].
                   --- rewrite Ix. split; [|discriminate]. intros X. now apply remove_In in X.
                   --- rewrite Io by auto. rewrite <- Rg. split; [intros X; now apply in_remove in X|]. intros X. now apply in_in_remove.
          -- intros u X. destruct (Nat.eq_dec u t) as [->|D].
             ++ rewrite Ix. rewrite Ly in X. destruct Cs as [(-> & _)|(_ & -> & _)]; [reflexivity|discriminate].
             ++ rewrite Io by auto. rewrite Lo in X by auto. now apply (p_live _ _ _ P).
          -- intros O u X. change (zon Z') with (zon Z) in O. destruct (Nat.eq_dec u t) as [->|D].
             ++ rewrite Ly. rewrite Ix in X. destruct Cs as [(_ & -> & _)|(-> & _)]; [exact O|discriminate].
             ++ rewrite Lo by auto. rewrite Io in X by auto. now apply (p_on _ _ _ P).
          -- intros O u X. change (zon Z') with (zon Z) in O. destruct (Nat.eq_dec u t) as [->|D].
             ++ rewrite Ly in X. destruct Cs as [(_ & -> & _)|(_ & -> & _)]; congruence.
             ++ rewrite Lo in X by auto. apply (moved _ _ _ (fun q => stops q u)); [apply St|]. now apply (p_quiet _ _ _ P).
          -- intros u b i X. change (zten Z' u) with (zten Z u) in X. destruct (p_ten _ _ _ P u b i X) as (C & Y). split; [exact C|].
             destruct Y as [Y|Y]; [left|right].
             ++ destruct (Nat.eq_dec u t) as [->|D]; [|now rewrite Lo]. exfalso. destruct Cs as [(_ & _ & N & _)|(_ & _ & _ & N & _)]; [|congruence].
                apply (p_live _ _ _ P) in Y. congruence.
             ++ apply (moved _ _ _ (fun q => nulls q u)); [apply Nu|exact Y].
          -- intros u i X. change (ztok Z' u) with (ztok Z u) in X. destruct (p_tok _ _ _ P u i X) as (Y & C). split; [|exact C].
             destruct Y as [Y|Y]; [left|right].
             ++ destruct (Nat.eq_dec u t) as [->|D]; [|now rewrite Lo]. exfalso. destruct Cs as [(_ & _ & N & _)|(_ & _ & _ & N & _)].
                ** apply (p_live _ _ _ P) in Y. congruence.
                ** rewrite Tk, N in X. discriminate.
             ++ apply (moved _ _ _ (fun q => nulls q u)); [apply Nu|exact Y].
          -- exact Pk.
          -- exact Pt.
    - split; [now left|]. split; [intros; apply goes_refl|]. intros b i _. left. cbn. rewrite !lset_other by (apply chunk_low; cbn; lia). reflexivity.
  Qed.

  Lemma step_rdo : pc t = RDo -> wl_init s t = false ->
    next s (let '(v, m1) := wread m t log_tenants in
            goto (set_init s t true) (wwrite m1 t log_tenants (VTenants (t :: tenants_in v))) t HUnlock []) Z.
  Proof.
    intros E Ei. pose proof my_tok as T. rewrite E in T. cbn in T. pose proof I as (A & _ & P). rewrite (a_init _ _ A) in Ei.
    cbn [wread]. replace (tenants_in (plain m log_tenants)) with (zregs Z) by (now rewrite (a_regs _ _ A)).
    apply (set_reg _ _ true (zon Z)); try (rewrite E; cbn; solve [auto]); auto 6.
  Qed.

  Lemma step_derase : pc t = DErase ->
    next s (let '(v, m1) := wread m t log_tenants in
            goto (set_init s t false) (wwrite m1 t log_tenants (VTenants (remove Nat.eq_dec t (tenants_in v)))) t HUnlock []) Z.
  Proof.
    intros E. pose proof my_tok as T. pose proof my_pc as K. rewrite E in T, K. cbn in T, K. destruct K as (Ki & Kt). pose proof I as (A & _ & P).
    cbn [wread]. replace (tenants_in (plain m log_tenants)) with (zregs Z) by (now rewrite (a_regs _ _ A)).
    apply (set_reg _ _ false false); try (rewrite E; cbn; solve [auto]); auto 7.
  Qed.
End Steps.

(** ** Every step *)

Lemma existsb_In b l : existsb (N.eqb b) l = true -> In b l.
Proof. intros H. apply existsb_exists in H as (x & Hx & E). apply N.eqb_eq in E as ->. exact Hx. Qed.

Lemma inv_step cap s a s' Z : inv s Z -> wlstep cap s a = Some s' -> next s s' Z.
Proof.
  intros I H. destruct a as [t v|t|t|t|t [r n]|t|t|t|t|t b i|t b|t c f n]; cbn [wlstep] in H.
  - destruct (wl_pc s t) eqn:E; try discriminate. injection H as <-. now apply step_call_log.
  - destruct (wl_pc s t) eqn:E; try discriminate. injection H as <-. now apply step_call_lock.
  - destruct (wl_pc s t) eqn:E; try discriminate. injection H as <-. now apply step_call_reg.
  - destruct (wl_pc s t) eqn:E; try discriminate. injection H as <-. now apply step_call_dereg.
  - destruct (wl_pc s t) eqn:E; try discriminate. destruct k as [w|]; try discriminate. injection H as <-. exact (step_held_start s Z t I (r, n) E).
  - destruct (wl_pc s t) eqn:E; try discriminate. destruct k as [w|]; try discriminate. injection H as <-. now apply step_held_stop.
  - destruct (wl_pc s t) eqn:E; try discriminate. injection H as <-. now apply step_held_take.
  - destruct (wl_pc s t) eqn:E; try discriminate. injection H as <-. now apply step_held_stats.
  - destruct (wl_pc s t) eqn:E; try discriminate. destruct k as [w|]; try discriminate; injection H as <-; [now apply step_held_go|now apply step_held_done].
  - destruct (after_of (wl_pc s t)) as [k|] eqn:E; [|discriminate]. destruct (_ && _) eqn:X in H; [|discriminate].
    apply andb_true_iff in X as (X & _). apply existsb_In in X. injection H as <-. exact (step_read s Z t I b i k E X).
  - destruct (after_of (wl_pc s t)) as [k|] eqn:E; [|discriminate]. destruct (existsb _ _) eqn:X in H; [|discriminate].
    apply existsb_In in X. injection H as <-. now apply step_drop_buffer.
  - destruct (wl_pc s t) eqn:E; try discriminate.
    + destruct (wload _ _ _ _ _) as [[v0 m']|] eqn:W in H; [|discriminate]. pose proof (step_check s Z t I c v v0 m' E W) as X. destruct v0; injection H as <-; exact X.
    + pose proof (step_try s Z t I v E) as X. destruct (wlock _ _ _); injection H as <-; exact X.
    + injection H as <-. now apply step_init.
    + injection H as <-. exact (step_ptr s Z t I v E).
    + injection H as <-. exact (step_full cap s Z t I v b i E).
    + destruct (wload _ _ _ _ _) as [[v0 m']|] eqn:W in H; [|discriminate]. pose proof (step_again s Z t I v c0 c v0 m' E W) as X. destruct v0; injection H as <-; exact X.
    + destruct c0 as [[b i]|]; [|discriminate]. pose proof (step_old s Z t I v b i E) as X. cbn [wread] in X, H. destruct (buf_in _); injection H as <-; exact X.
    + injection H as <-. exact (step_return s Z t I v b' b i E).
    + injection H as <-. now apply step_null.
    + destruct (wload _ _ _ _ _) as [[v0 m']|] eqn:W in H; [|discriminate]. pose proof (step_third s Z t I v c v0 m' E W) as X. destruct v0; injection H as <-; exact X.
    + injection H as <-. exact (step_buf s Z t I v E).
    + injection H as <-. exact (step_get s Z t I v b E).
    + destruct (take_nth _ _) as [[[i w] q]|] eqn:W in H; [|discriminate]. injection H as <-. exact (step_deq s Z t I v b c i w q E W).
    + injection H as <-. now apply step_reset.
    + injection H as <-. now apply step_set.
    + injection H as <-. now apply step_store.
    + injection H as <-. now apply step_unlock.
    + destruct (wload _ _ _ _ _) as [[v0 m']|] eqn:W in H; [|discriminate]. injection H as <-. exact (step_gen s Z t I c v0 m' E W).
    + injection H as <-. now apply step_drop.
    + pose proof (step_mtry s Z t I g E) as X. destruct (wlock _ _ _); injection H as <-; exact X.
    + destruct (wload _ _ _ _ _) as [[v0 m']|] eqn:W in H; [|discriminate]. injection H as <-. exact (step_mgen s Z t I g c v0 m' E W).
    + destruct (wlock _ _ _) as [m'|] eqn:W in H; [|discriminate]. injection H as <-. eapply step_take_mutex; eauto.
    + injection H as <-. now apply step_hunlock.
    + destruct (wload _ _ _ _ _) as [[v0 m']|] eqn:W in H; [|discriminate]. pose proof (step_senabled s Z t I w c v0 m' E W) as X. destruct v0; injection H as <-; exact X.
    + destruct (nth_error _ _) as [g|] eqn:G in H; [|discriminate]. destruct (wrmw _ _ _ _ _ _ _ _) as [m'|] eqn:W in H; [|discriminate].
      injection H as <-. exact (step_exchange s Z t I k c n g m' E G W).
    + injection H as <-. exact (step_slist s Z t I k E).
    + destruct l as [|u l].
      * injection H as <-. now apply step_sdone.
      * destruct (wlock _ _ _) as [m'|] eqn:W in H; [|discriminate]. injection H as <-. exact (step_evict s Z t I k u l m' E W).
    + injection H as <-. now apply step_snull.
    + injection H as <-. now apply step_sunlock.
    + destruct (wfetch_add _ _ _ _ _ _ _ _) as [[v m']|] eqn:W in H; [|discriminate]. injection H as <-. exact (step_new s Z t I w c n v m' E W).
    + destruct (_ <? _)%nat in H; injection H as <-; [now apply step_smake|eapply step_smade; eauto].
    + pose proof (step_assign s Z t I b E) as X. cbn [wread] in X, H. destruct (buf_in _); injection H as <-; exact X.
    + destruct (wstore _ _ _ _ _ _ _) as [m'|] eqn:W in H; [|discriminate]. injection H as <-. exact (step_sstore s Z t I b f n m' E W).
    + destruct (wload _ _ _ _ _) as [[v0 m']|] eqn:W in H; [|discriminate]. pose proof (step_tenabled s Z t I k c v0 m' E W) as X. destruct v0; injection H as <-; exact X.
    + pose proof (step_tmove s Z t I k E) as X. cbn [wread] in X, H. destruct (buf_in _); injection H as <-; exact X.
    + injection H as <-. exact (step_alist s Z t I k E).
    + injection H as <-. exact (step_abuf s Z t I k E).
    + injection H as <-. exact (step_aobj s Z t I k b E).
    + destruct (_ <? _)%nat in H; injection H as <-; [now apply step_gfree|eapply step_freed; eauto].
    + destruct (wlock _ _ _) as [m'|] eqn:W in H; [|discriminate]. injection H as <-. eapply step_take_mutex; eauto.
    + destruct (wl_init s t) eqn:Ei in H; injection H as <-; [now apply step_rthrow|exact (step_rdo s Z t I E Ei)].
    + destruct (wlock _ _ _) as [m'|] eqn:W in H; [|discriminate]. injection H as <-. eapply step_take_mutex; eauto 6.
    + injection H as <-. now apply step_ddo.
    + injection H as <-. exact (step_dptr s Z t I E).
    + injection H as <-. exact (step_dbuf s Z t I b i E).
    + injection H as <-. exact (step_dreturn s Z t I b' b i E).
    + injection H as <-. now apply step_dnull.
    + injection H as <-. exact (step_derase s Z t I E).
Qed.

(** ** The history *)

Record told (h : list use) (m : mem) (Z : scene) : Prop := {
  d_proper : forall x u y, h = x ++ u :: y -> proper x u;
  d_dead : forall t b, In (UDestroyed t b) h -> dying (zst Z b);
  d_taken : forall t b, In (UTaken t b) h -> zst Z b = BOwned t \/ dying (zst Z b);
  d_owned : forall t b, zst Z b = BOwned t -> In (UTaken t b) h;
  d_events : forall b i, ~ dying (zst Z b) -> events_in (plain m (buffer_chunk b i)) = stored_in h b i;
  d_fresh : forall b i, fresh (zst Z b) -> stored_in h b i = [];
}.

Lemma stored_app h e b i : stored_in (h ++ e) b i = fill (stored_in h b i) e b i.
Proof. unfold stored_in, fill. apply fold_left_app. Qed.

Lemma bst_dying x y : bst_le x y -> dying x -> dying y.
Proof. destruct x; cbn; try tauto; [intros [-> | ->]| intros ->]; intros; exact I. Qed.

Lemma last_of {A} (l : list A) : l = [] \/ exists l' x, l = l' ++ [x].
Proof. destruct l as [|a l]; [now left|right]. destruct (exists_last (l := a :: l)) as (l' & x & ->); [discriminate|eauto]. Qed.

Lemma told_step h m m' Z Z' e : told h m Z -> tr m m' Z Z' e -> told (h ++ e) m' Z'.
Proof.
  intros [Dp Dd Dt Do De Df] (Ev & Go & Pl).
  assert (forall b, bst_le (zst Z b) (zst Z' b)) as Bl by (intros b; apply Go).
  assert (forall t b, zst Z' b = BOwned t -> zst Z b = BOwned t \/ In (UTaken t b) e) as Ow by (intros t b; apply Go). split.
  - intros x u y E. destruct Ev as [->|(u0 & -> & Ok)]; [rewrite app_nil_r in E; eauto|].
    destruct (last_of y) as [->|(y' & u' & ->)].
    + apply app_inj_tail in E as (-> & ->). destruct u; cbn in Ok |- *; try tauto.
      * split; intros t' X; [apply Dd in X; now rewrite Ok in X|apply Dt in X; rewrite Ok in X; destruct X; [discriminate|contradiction]].
      * destruct Ok as (Ok & _). split; intros t' X; [apply Dd in X; now rewrite Ok in X|apply Dt in X; rewrite Ok in X; destruct X; [discriminate|contradiction]].
      * destruct Ok as (Ok & _). split; intros t' X; [apply Dd in X; now rewrite Ok in X|apply Dt in X; rewrite Ok in X; destruct X; [discriminate|contradiction]].
      * destruct Ok as (Ok & _). split; intros t' X; [apply Dd in X; now rewrite Ok in X|apply Dt in X; rewrite Ok in X; destruct X; [discriminate|contradiction]].
      * destruct Ok as (Ok & ->). split; [intros t' X; apply Dd in X; now rewrite Ok in X|]. split; [now apply Do|].
        apply De. now rewrite Ok.
      * destruct Ok as (Ok & _). split.
        -- intros t' X. apply Dd in X. destruct Ok as [Ok|Ok]; now rewrite Ok in X.
        -- intros t' X. apply Dt in X. destruct Ok as [Ok|Ok]; rewrite Ok in X; destruct X as [X|X]; try contradiction; congruence.
    + apply (Dp x u y'). rewrite app_comm_cons, app_assoc in E. now apply app_inj_tail in E as (E & _).
  - intros t b X. apply in_app_iff in X as [X|X]; [eapply bst_dying; [apply Bl|now apply (Dd t)]|].
    destruct Ev as [->|(u0 & -> & Ok)]; [destruct X|]. destruct X as [->|[]]. cbn in Ok. destruct Ok as (_ & ->). exact I.
  - intros t b X. apply in_app_iff in X as [X|X].
    + specialize (Bl b). destruct (Dt t b X) as [Y|Y]; [|right; eapply bst_dying; eauto]. rewrite Y in Bl. cbn in Bl.
      destruct Bl as [-> | ->]; [now left|right; exact I].
    + destruct Ev as [->|(u0 & -> & Ok)]; [destruct X|]. destruct X as [->|[]]. cbn in Ok. now left.
  - intros t b X. apply in_app_iff. destruct (Ow t b X) as [Y|Y]; auto.
  - intros b i X. rewrite stored_app. assert (~ dying (zst Z b)) as N by (intros Y; apply X; eapply bst_dying; eauto).
    rewrite <- (De b i N). destruct (Pl b i X) as [Y|(Y1 & Y2 & Y3 & ->)]; [exact Y|]. cbn. rewrite Y3, (De b i N). symmetry. now apply Df.
  - intros b i X. rewrite stored_app. assert (fresh (zst Z b)) as F.
    { specialize (Bl b). destruct (zst Z b), (zst Z' b); cbn in *; try tauto; try discriminate; destruct Bl; discriminate. }
    rewrite (Df b i F). destruct Ev as [->|(u0 & -> & Ok)]; [reflexivity|]. destruct u0; try reflexivity; cbn in Ok |- *.
    + destruct Ok as (Ok & _). destruct (N.eqb_spec b b0) as [->|]; [rewrite Ok in F; contradiction|reflexivity].
    + destruct Ok as (Ok & _). destruct (N.eqb_spec b b0) as [->|]; [rewrite Ok in F; contradiction|reflexivity].
Qed.

(** ** All runs *)

Definition scene_new : scene :=
  {| zcur := None; zten := fun _ => None; zregs := []; zinit := fun _ => false; zown := fun _ => []; zshape := fun _ => (false, O);
     znxt := fun _ => O; zque := fun _ => []; zcnt := 0; zon := false; zlive := fun _ => false; ztok := fun _ => None;
     zst := fun _ => BUnborn; zt1 := 0 |}.

Lemma acc_none x al (P : nat -> Prop) : acc (wl_mem wl_new) x al P.
Proof. intros e a X. destruct e; discriminate. Qed.

Lemma inv_new : inv wl_new scene_new.
Proof.
  split; [|split].
  - split; reflexivity.
  - split; try (intros; apply acc_none); try (cbn; discriminate); try reflexivity.
    + eexists _, []. split; [reflexivity|]. split; [constructor; apply N.le_refl|]. split; [apply N.le_0_l|]. split; [reflexivity|].
      split; [discriminate|]. intros _. apply N.le_refl.
    + intros _ g _ _. split; [apply acc_none|]. discriminate.
    + intros u. eapply vle_trans; [|apply vle_join_l]. apply vle_refl.
  - split; cbn; try discriminate; auto.
    + split; [intros t; split; discriminate|intros h u; split; discriminate].
    + split; [constructor|]. intros u. split; [intros []|discriminate].
    + intros t b [].
    + intros b. split; [reflexivity|]. intros _. apply N.le_0_l.
Qed.

Lemma told_new : told [] (wl_mem wl_new) scene_new.
Proof.
  split; try (cbn; discriminate).
  - intros x u y E. now apply app_cons_not_nil in E.
  - intros t b [].
  - intros t b [].
  - intros b i _. cbn. Transparent buffer_chunk. unfold buffer_chunk, wl_plain. destruct (6 + b)%N as [|q] eqn:E; [lia|].
    destruct q as [[[]|[]|]|[[]|[]|]|]; try reflexivity; lia.
  - reflexivity.
Qed.

Lemma wlog_run_inv cap sched : let s := wlog_run cap sched in exists Z, inv s Z /\ told (wl_hist s) (wl_mem s) Z.
Proof.
  unfold wlog_run. apply (run_inv (wlstep cap) (fun s => exists Z, inv s Z /\ told (wl_hist s) (wl_mem s) Z)).
  - intros s a s' (Z & I & T) H. destruct (inv_step cap s a s' Z I H) as (Z' & e & I' & -> & X). exists Z'. split; [exact I'|].
    eapply told_step; eauto.
  - exists scene_new. split; [apply inv_new|apply told_new].
Qed.

(** ** Histories used properly *)

Definition properly (h : list use) : Prop := forall x u y, h = x ++ u :: y -> proper x u.

Lemma taken_once h x t b y : properly h -> h = x ++ UTaken t b :: y -> forall t', In (UTaken t' b) h -> t' = t.
Proof.
  intros G E t' H. rewrite E in H. apply in_app_iff in H as [H|[H|H]].
  - destruct (G _ _ _ E) as (_ & P). now apply P in H.
  - congruence.
  - apply in_split in H as (y1 & y2 & ->).
    assert (h = (x ++ UTaken t b :: y1) ++ UTaken t' b :: y2) as E' by (rewrite E, <- app_assoc; reflexivity).
    destruct (G _ _ _ E') as (_ & P). exfalso. apply (P t). apply in_app_iff. right. now left.
Qed.

Lemma stored_after h x t b y z i : properly h -> h = x ++ UTaken t b :: y ++ z -> stored_in (x ++ UTaken t b :: y) b i = stored_in x b i.
Proof.
  intros G. revert z. induction y as [|u y IH] using rev_ind; intros z E.
  - rewrite stored_app. reflexivity.
  - rewrite app_comm_cons, app_assoc, stored_app, (IH (u :: z)) by (rewrite E, <- app_assoc; reflexivity).
    assert (h = (x ++ UTaken t b :: y) ++ u :: z) as E' by (rewrite E, <- !app_assoc; reflexivity).
    pose proof (G _ _ _ E') as P. assert (In (UTaken t b) (x ++ UTaken t b :: y)) as D by (apply in_app_iff; right; now left).
    destruct u; try reflexivity; cbn in P |- *; (destruct (N.eqb_spec b b0) as [<-|]; [|reflexivity]); destruct P as (_ & P); now apply P in D.
Qed.
