(** The category registry under every interleaving. *)
From Verif Require Import Base Spec.Text Spec.Glob Spec.Categories Spec.CategoryHistory Model.StringUtils Model.Queue
  Model.Interleave Model.Registry Model.RegistryConc Proofs.Strings Proofs.Registry Proofs.Interleave.

Lemma same_name_eq g name : c_str g = g -> same_name g name = true <-> g = name.
Proof. intros E. unfold same_name. rewrite E. apply bytes_eqb_eq. Qed.

Definition plain (name : bytes) : Prop := c_str name = name.

Local Opaque last_switch.

(** Holding the mutex. *)
Definition locked (p : gpc) : bool :=
  match p with
  | LCount _ | LScan _ _ _ | WBegin _ _ | WEnd _ _ | WStat _ _ | WInc _ _ | LRet _ _
  | UList _ | UCount _ | UStore _ _ _ | URet _ => true
  | _ => false
  end.

Definition absent (r : cregistry) (name : bytes) (k : nat) : Prop := forall i, i < k -> cr_groups r i <> Some name.

Definition settled_at (r : cregistry) (name : bytes) (i : nat) : Prop :=
  (i < cr_count r /\ cr_groups r i = Some name) \/ (i = 1 /\ cr_count r = 250 /\ absent r name 250).

Definition right_status (r : cregistry) (i : nat) : Prop :=
  forall g, cr_groups r i = Some g -> cr_status r i = calculateEnabled g (cr_enabled r) (cr_disabled r).

Definition pc_ok (r : cregistry) (p : gpc) : Prop :=
  match p with
  | GIdle | ULock _ | UList _ => True
  | GCount name | GLock name | LCount name => plain name
  | GScan name i n => plain name /\ n <= cr_count r
  | LScan name i n => plain name /\ n = cr_count r /\ i <= n /\ absent r name i
  | WBegin name i | WEnd name i => plain name /\ i = cr_count r /\ i < 250 /\ absent r name i
  | WStat name i => plain name /\ i = cr_count r /\ i < 250 /\ absent r name i /\ cr_groups r i = Some name
  | WInc name i => plain name /\ i = cr_count r /\ i < 250 /\ absent r name i /\ cr_groups r i = Some name /\ right_status r i
  | LRet name i => settled_at r name i
  | UCount l => (cr_enabled r, cr_disabled r) = stored_lists l
  | UStore l i n => (cr_enabled r, cr_disabled r) = stored_lists l /\ n = cr_count r /\ i <= n /\ forall k, k < i -> right_status r k
  | URet l => (cr_enabled r, cr_disabled r) = stored_lists l /\ forall k, k < cr_count r -> right_status r k
  | GCrash => False
  end.

(** Between UList and the end of the loop the statuses are being changed. *)
Definition switching (p : gpc) : bool :=
  match p with UCount _ | UStore _ _ _ | URet _ => true | _ => false end.

Record rinv (r : cregistry) : Prop := {
  r_bound : 3 <= cr_count r <= 250;
  r_names : forall i, i < cr_count r -> exists g, cr_groups r i = Some g /\ plain g;
  r_distinct : forall i j, i < cr_count r -> j < cr_count r -> cr_groups r i = cr_groups r j -> i = j;
  r_builtin : forall i, i < 3 -> cr_groups r i = Some (nth i built_in []);
  r_mutex : forall t, locked (cr_pc r t) = true <-> cr_mutex r = Some t;
  r_pcs : forall t, pc_ok r (cr_pc r t);
  r_lists : (forall t, switching (cr_pc r t) = false) ->
            (cr_enabled r, cr_disabled r) = stored_lists (last_switch (cr_hist r)) \/
            (cr_enabled r = [] /\ cr_disabled r = [] /\ last_switch (cr_hist r) = None);
  r_status : (forall t, switching (cr_pc r t) = false) -> forall i, i < cr_count r -> right_status r i;
  r_hist : forall t name i, In (Given t name i) (cr_hist r) -> settled_at r name i;
}.

Lemma at_pc_pc r t p e u : cr_pc (at_pc r t p e) u = if Nat.eqb u t then p else cr_pc r u.
Proof. reflexivity. Qed.

Local Transparent last_switch.
Lemma last_switch_snoc h e : last_switch (h ++ [e]) = match e with Switched _ l => l | _ => last_switch h end.
Proof. unfold last_switch. rewrite fold_left_app. destruct e; reflexivity. Qed.
Local Opaque last_switch.

Lemma owner_unique r t u : rinv r -> locked (cr_pc r t) = true -> locked (cr_pc r u) = true -> t = u.
Proof. intros I A B. apply (r_mutex _ I) in A, B. congruence. Qed.

Lemma switching_locked p : switching p = true -> locked p = true.
Proof. destruct p; auto. Qed.

Lemma settled_keep r r' name i : cr_count r <= cr_count r' <= 250 ->
  (forall k, k < cr_count r -> cr_groups r' k = cr_groups r k) -> settled_at r name i -> settled_at r' name i.
Proof.
  intros Bd G [(A & B)|(A & B & C)]; [left|right].
  - split; [lia|]. now rewrite G.
  - repeat split; [exact A|lia|]. intros k Hk. rewrite G by lia. now apply C.
Qed.

Lemma pc_keep r r' p : locked p = false -> cr_count r <= cr_count r' -> pc_ok r p -> pc_ok r' p.
Proof. intros L C. destruct p; try discriminate L; cbn; auto. intros (A & B). split; [exact A|lia]. Qed.

(** A step of the thread that holds, takes or releases the mutex. *)
Lemma rinv_owner r t r' :
  rinv r ->
  (forall u, u <> t -> locked (cr_pc r u) = false) ->
  (forall u, u <> t -> cr_pc r' u = cr_pc r u) ->
  cr_mutex r' = (if locked (cr_pc r' t) then Some t else None) ->
  cr_count r <= cr_count r' <= 250 ->
  (forall k, k < cr_count r -> cr_groups r' k = cr_groups r k) ->
  (forall k, cr_count r <= k < cr_count r' -> k = cr_count r /\ exists g, cr_groups r' k = Some g /\ plain g /\ absent r g k) ->
  pc_ok r' (cr_pc r' t) ->
  (switching (cr_pc r' t) = false ->
    (cr_enabled r', cr_disabled r') = stored_lists (last_switch (cr_hist r')) \/
    (cr_enabled r' = [] /\ cr_disabled r' = [] /\ last_switch (cr_hist r') = None)) ->
  (switching (cr_pc r' t) = false -> forall i, i < cr_count r' -> right_status r' i) ->
  (forall u name i, In (Given u name i) (cr_hist r') -> In (Given u name i) (cr_hist r) \/ settled_at r' name i) ->
  rinv r'.
Proof.
  intros I NL Pcs Mx Bd G New Pt Ls St Hs. pose proof (r_bound _ I) as B0. split.
  - lia.
  - intros k Hk. destruct (Nat.lt_ge_cases k (cr_count r)) as [H|H].
    + rewrite G by exact H. now apply I.
    + destruct (New k ltac:(lia)) as (_ & g & A & B & _). eauto.
  - intros i j Hi Hj. destruct (Nat.lt_ge_cases i (cr_count r)) as [A|A], (Nat.lt_ge_cases j (cr_count r)) as [B|B].
    + rewrite !G by auto. now apply I.
    + destruct (New j ltac:(lia)) as (E & g & H1 & _ & H2). rewrite H1, G by exact A. intros H. exfalso. apply (H2 i); [lia|exact H].
    + destruct (New i ltac:(lia)) as (E & g & H1 & _ & H2). rewrite H1, G by exact B. intros H. exfalso. apply (H2 j); [lia|now symmetry].
    + destruct (New i ltac:(lia)) as (E & _). destruct (New j ltac:(lia)) as (E' & _). lia.
  - intros i Hi. rewrite G by lia. now apply I.
  - intros u. destruct (Nat.eq_dec u t) as [->|Hu].
    + rewrite Mx. destruct (locked (cr_pc r' t)); split; congruence.
    + rewrite Pcs, NL, Mx by exact Hu. split; [discriminate|]. destruct (locked (cr_pc r' t)); congruence.
  - intros u. destruct (Nat.eq_dec u t) as [->|Hu]; [exact Pt|]. rewrite Pcs by exact Hu.
    apply (pc_keep r); [now apply NL|lia|apply I].
  - intros Q. apply Ls, Q.
  - intros Q. apply St, Q.
  - intros u n i Hi. destruct (Hs _ _ _ Hi) as [H|H]; [|exact H]. apply (settled_keep r); auto. eapply (r_hist _ I); eauto.
Qed.

(** A step that changes only the program counter of [t]. *)
Lemma rinv_move r t p e : rinv r -> locked (cr_pc r t) = locked p -> switching (cr_pc r t) = switching p -> pc_ok r p ->
  (e = [] \/ exists x, e = [x] /\ (forall u l, x <> Switched u l) /\ (forall u n i, x = Given u n i -> settled_at r n i)) ->
  rinv (at_pc r t p e).
Proof.
  intros I L S P E. split; try apply I.
  - intros u. rewrite at_pc_pc. destruct (Nat.eqb_spec u t) as [->|Hu]; [rewrite <- L|]; apply I.
  - intros u. rewrite at_pc_pc. destruct (Nat.eqb_spec u t) as [->|Hu]; [exact P|apply I].
  - intros Q. assert (last_switch (cr_hist r ++ e) = last_switch (cr_hist r)) as X.
    { destruct E as [->|(x & -> & Hx & _)]; [now rewrite app_nil_r|]. rewrite last_switch_snoc. destruct x as [| |u l]; auto. now destruct (Hx u l). }
    cbn [cr_enabled cr_disabled cr_hist at_pc]. rewrite X. apply (r_lists _ I). intros u. specialize (Q u). cbn [at_pc cr_pc] in Q.
    destruct (Nat.eq_dec u t) as [Hu|Hu]; [rewrite Hu, tset_same in Q; rewrite Hu; congruence|now rewrite tset_other in Q].
  - intros Q. apply (r_status _ I). intros u. specialize (Q u). cbn [at_pc cr_pc] in Q.
    destruct (Nat.eq_dec u t) as [Hu|Hu]; [rewrite Hu, tset_same in Q; rewrite Hu; congruence|now rewrite tset_other in Q].
  - intros u n i Hi. cbn in Hi. apply in_app_or in Hi as [Hi|Hi]; [eapply (r_hist _ I); eauto|].
    destruct E as [->|(x & -> & _ & Hx)]; [destruct Hi|]. destruct Hi as [Hi|[]]. eapply Hx; eauto.
Qed.

Ltac plain_move I Pc := apply rinv_move; [exact I|now rewrite Pc|now rewrite Pc| |try (now left)].

Lemma updn_same {A} (f : nat -> A) k v : updn f k v k = v.
Proof. unfold updn. now rewrite Nat.eqb_refl. Qed.
Lemma updn_other {A} (f : nat -> A) k v i : i <> k -> updn f k v i = f i.
Proof. unfold updn. intros H. destruct (Nat.eqb_spec i k); [contradiction|reflexivity]. Qed.

Lemma others_out r t : rinv r -> locked (cr_pc r t) = true -> forall u, u <> t -> locked (cr_pc r u) = false.
Proof. intros I L u Hu. destruct (locked (cr_pc r u)) eqn:X; auto. exfalso. apply Hu. eapply owner_unique; eauto. Qed.

Lemma all_calm r t : rinv r -> (forall u, u <> t -> locked (cr_pc r u) = false) -> switching (cr_pc r t) = false ->
  forall u, switching (cr_pc r u) = false.
Proof.
  intros I L S u. destruct (Nat.eq_dec u t) as [->|Hu]; [exact S|]. destruct (switching (cr_pc r u)) eqn:X; auto.
  apply switching_locked in X. now rewrite (L u Hu) in X.
Qed.

Ltac owner_move r t I NL :=
  apply (rinv_owner r t); [exact I|exact NL|intros u Hu; apply tset_other; exact Hu
  |cbn [at_pc cr_pc]; rewrite tset_same; cbn [locked]|cbn [at_pc cr_count]|cbn [at_pc cr_groups cr_count]|cbn [at_pc cr_groups cr_count]
  |cbn [at_pc cr_pc]; rewrite tset_same|cbn [at_pc cr_pc]; rewrite tset_same; cbn [switching]
  |cbn [at_pc cr_pc]; rewrite tset_same; cbn [switching]|cbn [at_pc cr_hist]; intros u nm i' Hin].

Lemma rinv_step r a r' : rinv r -> rstep r a = Some r' -> rinv r'.
Proof.
  intros I E. destruct a as [t arg|t l|t]; cbn [rstep] in E.
  - destruct (cr_pc r t) eqn:Pc; try discriminate. injection E as <-. plain_move I Pc.
    + apply c_str_idem.
    + right. eexists. repeat split; discriminate.
  - destruct (cr_pc r t) eqn:Pc; try discriminate. injection E as <-. plain_move I Pc. exact Logic.I.
  - pose proof (r_pcs _ I t) as P. pose proof (r_bound _ I) as Bd.
    assert (cr_mutex r = None -> forall u, u <> t -> locked (cr_pc r u) = false) as Free.
    { intros Mx u _. destruct (locked (cr_pc r u)) eqn:X; auto. apply (r_mutex _ I) in X. congruence. }
    pose proof (others_out r t I) as NL.
    pose proof (r_mutex _ I t) as Own.
    destruct (cr_pc r t) as [|name|name i n|name|name|name i n|name i|name i|name i|name i|name i|l|l|l|l i n|l|] eqn:Pc;
      try discriminate; cbn [pc_ok locked] in P, NL, Own; try specialize (NL eq_refl); try (specialize (proj1 Own eq_refl) as Mx).
    + (* GCount *) injection E as <-. plain_move I Pc. cbn. auto.
    + (* GScan *) destruct P as (Pl & Pn). destruct (Nat.ltb_spec i n) as [Hi|Hi].
      * destruct (r_names _ I i ltac:(lia)) as (g & G & Pg). rewrite G in E.
        destruct (same_name g name) eqn:Sn; injection E as <-; plain_move I Pc; try exact Logic.I.
        -- right. eexists. split; [reflexivity|]. split; [discriminate|]. intros u n' i' [= <- <- <-]. left.
           apply same_name_eq in Sn; [|exact Pg]. subst. split; [lia|exact G].
        -- cbn. auto.
      * injection E as <-. plain_move I Pc. exact Pl.
    + (* GLock *) destruct (cr_mutex r) eqn:Mx; [discriminate|]. injection E as <-.
      specialize (Free eq_refl). assert (forall u, switching (cr_pc r u) = false) as Calm by (apply (all_calm r t); auto; now rewrite Pc).
      owner_move r t I Free; cbn; auto; try lia; rewrite ?app_nil_r in *; auto.
      * intros _. now apply (r_lists _ I).
      * intros _. now apply (r_status _ I).
    + (* LCount *) injection E as <-. plain_move I Pc. cbn. repeat split; auto; [lia|]. intros k Hk. lia.
    + (* LScan *) destruct P as (Pl & Pn & Pi & Ab). destruct (Nat.ltb_spec i n) as [Hi|Hi].
      * destruct (r_names _ I i ltac:(lia)) as (g & G & Pg). rewrite G in E.
        destruct (same_name g name) eqn:Sn; injection E as <-; plain_move I Pc; cbn.
        -- left. apply same_name_eq in Sn; [|exact Pg]. subst. split; [lia|exact G].
        -- repeat split; auto. intros k Hk. destruct (Nat.eq_dec k i) as [->|]; [|apply Ab; lia].
           rewrite G. intros [= ->]. rewrite (proj2 (same_name_eq name name Pg) eq_refl) in Sn. discriminate.
      * assert (i = n) as -> by lia. unfold registry_size in E.
        destruct (Nat.ltb_spec n 250) as [Hn|Hn]; injection E as <-; plain_move I Pc; cbn.
        -- repeat split; auto.
        -- right. assert (cr_count r = 250) as X by lia. rewrite X in *. subst n. auto.
    + (* WBegin *) injection E as <-. destruct P as (Pl & Pi & Lt & Ab). subst i.
      assert (forall u, switching (cr_pc r u) = false) as Calm by (apply (all_calm r t); auto; now rewrite Pc).
      owner_move r t I NL; cbn; rewrite ?app_nil_r in *; auto; try lia.
      * intros k Hk. apply updn_other. lia.
      * repeat split; auto. intros k Hk. cbn. rewrite updn_other by lia. now apply Ab.
      * intros _. now apply (r_lists _ I).
      * intros _ k Hk g Hg. cbn in *. rewrite updn_other in Hg by lia. now apply (r_status _ I).
    + (* WEnd *) injection E as <-. destruct P as (Pl & Pi & Lt & Ab). subst i.
      assert (forall u, switching (cr_pc r u) = false) as Calm by (apply (all_calm r t); auto; now rewrite Pc).
      owner_move r t I NL; cbn; rewrite ?app_nil_r in *; auto; try lia.
      * intros k Hk. apply updn_other. lia.
      * repeat split; auto; [|apply updn_same]. intros k Hk. cbn. rewrite updn_other by lia. now apply Ab.
      * intros _. now apply (r_lists _ I).
      * intros _ k Hk g Hg. cbn in *. rewrite updn_other in Hg by lia. now apply (r_status _ I).
    + (* WStat *) destruct P as (Pl & Pi & Lt & Ab & G). rewrite G in E. injection E as <-. subst i.
      assert (forall u, switching (cr_pc r u) = false) as Calm by (apply (all_calm r t); auto; now rewrite Pc).
      owner_move r t I NL; cbn; rewrite ?app_nil_r in *; auto; try lia.
      * repeat split; auto. intros g Hg. cbn in *. rewrite updn_same. congruence.
      * intros _. now apply (r_lists _ I).
      * intros _ k Hk g Hg. cbn in *. rewrite updn_other by lia. now apply (r_status _ I).
    + (* WInc *) destruct P as (Pl & Pi & Lt & Ab & G & Rs). injection E as <-. subst i.
      assert (forall u, switching (cr_pc r u) = false) as Calm by (apply (all_calm r t); auto; now rewrite Pc).
      owner_move r t I NL; cbn; rewrite ?app_nil_r in *; auto; try lia.
      * intros k Hk. assert (k = cr_count r) as -> by lia. split; [reflexivity|]. exists name. auto.
      * left. cbn. split; [lia|exact G].
      * intros _. now apply (r_lists _ I).
      * intros _ k Hk. destruct (Nat.eq_dec k (cr_count r)) as [->|]; [exact Rs|]. apply (r_status _ I Calm k). lia.
    + (* LRet *) injection E as <-.
      assert (forall u, switching (cr_pc r u) = false) as Calm by (apply (all_calm r t); auto; now rewrite Pc).
      owner_move r t I NL; cbn; rewrite ?last_switch_snoc; auto; try lia.
      * intros _. now apply (r_lists _ I).
      * intros _. now apply (r_status _ I).
      * cbn in Hin. apply in_app_or in Hin as [Hin|[[= <- <- <-]|[]]]; auto.
    + (* ULock *) destruct (cr_mutex r) eqn:Mx; [discriminate|]. injection E as <-.
      specialize (Free eq_refl). assert (forall u, switching (cr_pc r u) = false) as Calm by (apply (all_calm r t); auto; now rewrite Pc).
      owner_move r t I Free; cbn; auto; try lia; rewrite ?app_nil_r in *; auto.
      * intros _. now apply (r_lists _ I).
      * intros _. now apply (r_status _ I).
    + (* UList *) injection E as <-. owner_move r t I NL; cbn; rewrite ?app_nil_r in *; auto; try lia; try discriminate.
      now destruct (stored_lists l).
    + (* UCount *) injection E as <-. plain_move I Pc. cbn. repeat split; auto; lia.
    + (* UStore *) destruct P as (Pl & Pn & Pi & Ps). destruct (Nat.ltb_spec i n) as [Hi|Hi].
      * destruct (r_names _ I i ltac:(lia)) as (g & G & Pg). rewrite G in E.
        assert (forall g, match l with None => false | Some _ => calculateEnabled g (cr_enabled r) (cr_disabled r) end =
                          calculateEnabled g (cr_enabled r) (cr_disabled r)) as X.
        { intros x. destruct l; auto. cbn in Pl. injection Pl as -> ->. now rewrite (all_off x). }
        assert (r' = at_pc (with_status r i (calculateEnabled g (cr_enabled r) (cr_disabled r))) t (UStore l (S i) n) []) as ->.
        { rewrite <- X. destruct l; now injection E as <-. }
        clear E. owner_move r t I NL; cbn; rewrite ?app_nil_r in *; auto; try lia; try discriminate.
        repeat split; auto. intros k Hk h Hh. cbn in *. destruct (Nat.eq_dec k i) as [->|]; [rewrite updn_same; congruence|].
        rewrite updn_other by auto. apply Ps; auto. lia.
      * injection E as <-. plain_move I Pc. split; [exact Pl|]. intros k Hk. apply Ps. lia.
    + (* URet *) injection E as <-. destruct P as (Pl & Ps). owner_move r t I NL; cbn; rewrite ?last_switch_snoc; auto; try lia.
      cbn in Hin. apply in_app_or in Hin as [Hin|[[=]|[]]]; auto.
Qed.

Local Transparent last_switch.
Lemma rinv_new : rinv cr_new.
Proof.
  split; cbn [cr_new cr_count cr_groups cr_mutex cr_pc cr_enabled cr_disabled cr_status cr_hist]; unfold index_non_default_categories.
  - lia.
  - intros i Hi. eexists. split; [reflexivity|]. destruct i as [|[|[|]]]; try lia; reflexivity.
  - intros i j Hi Hj. destruct i as [|[|[|]]], j as [|[|[|]]]; try lia; cbn; congruence.
  - reflexivity.
  - intros t. split; discriminate.
  - intros t. exact Logic.I.
  - intros _. right. auto.
  - intros _ i Hi g [= <-]. cbn. destruct i as [|[|[|]]]; try lia; reflexivity.
  - intros _ _ _ [].
Qed.

Lemma rinv_run sched : rinv (cregistry_run sched).
Proof. exact (run_inv rstep rinv rinv_step sched cr_new rinv_new). Qed.
