(** A fixed buffer shared by threads. *)
From Verif Require Import Base Spec.FixedHistory Model.Queue Model.Interleave Model.FixedConc Proofs.Interleave Proofs.QueueConc Proofs.RingConc.
Local Open Scope N_scope.
Local Opaque N.modulo N.pow.

Definition fhand (f : cfixed) (t : tid) : option N := match f_pc f t with FReset c | FLoan c => Some c | _ => None end.

Lemma handed_snoc h e : handed (h ++ [e]) = handed h ++ handed [e].
Proof. apply flat_map_app. Qed.
Lemma came_snoc h e : came_back (h ++ [e]) = came_back h ++ came_back [e].
Proof. apply flat_map_app. Qed.
Lemma calls_snoc h e : calls (h ++ [e]) = (calls h + calls [e])%nat.
Proof. unfold calls. now rewrite filter_app, app_length. Qed.
Lemma answers_snoc h e : answers (h ++ [e]) = (answers h + answers [e])%nat.
Proof. unfold answers. now rewrite filter_app, app_length. Qed.

(** What an event says about the history before it. *)
Definition tells (n : N) (a : list fixed_event) (e : fixed_event) : Prop :=
  match e with
  | FGot _ None => n < N.of_nat (calls a)
  | FTold _ b => if b then n <= N.of_nat (calls a) else N.of_nat (answers a) < n
  | FCounted _ k => k <= n /\ k <= N.of_nat (calls a) /\ N.min n (N.of_nat (answers a)) <= k /\ forall c, In c (handed a) -> c < k
  | _ => True
  end.

Lemma one32 : 1 <= 1 <= 2 ^ 32.
Proof. lia. Qed.

Section Fixed.
  Variable n : N.

  Record FI (f : cfixed) (F : N) (asking busy : list tid) : Prop := {
    fi_size : f_size f = n;
    fi_issued : f_issued f = F mod w64;
    fi_asking : NoDup asking /\ (forall t, In t asking <-> f_pc f t = FIssue) /\ N.of_nat (calls (f_hist f)) = F + N.of_nat (length asking);
    fi_busy : NoDup busy /\ (forall t, In t busy <-> f_pc f t <> FIdle) /\ calls (f_hist f) = (answers (f_hist f) + length busy)%nat;
    fi_u : U (N.min F n) [] (handed (f_hist f)) (fhand f);
    fi_mark : forall t c, f_pc f t = FLoan c -> f_user f c = Some t;
    fi_marked : forall t c, In (FGot t (Some c)) (f_hist f) -> f_user f c = Some t;
    fi_loan : (f_loan f + N.of_nat (length (came_back (f_hist f)))) mod w64 = N.of_nat (length (handed (f_hist f))) mod w64 /\ f_loan f < w64;
    fi_back : NoDup (came_back (f_hist f)) /\ incl (came_back (f_hist f)) (handed (f_hist f));
    fi_tells : forall a e b, f_hist f = a ++ e :: b -> tells n a e;
    fi_full : (exists e, In e (f_hist f) /\ seen_full e) -> n <= F;
    fi_open : forall u a m, f_hist f = a ++ FCalled u :: m -> (forall y, In y m -> f_actor y <> u) -> f_pc f u <> FIdle;
    fi_late : forall u a e m m', f_hist f = a ++ e :: m ++ FCalled u :: m' -> seen_full e -> (forall y, In y m' -> f_actor y <> u) -> fhand f u = None;
    fi_after : forall a e m u m' x b, f_hist f = a ++ e :: m ++ FCalled u :: m' ++ x :: b -> seen_full e ->
      (forall y, In y m' -> f_actor y <> u) -> f_actor x = u -> x = FGot u None;
    fi_told : forall a e m u b r, f_hist f = a ++ e :: m ++ FTold u b :: r -> seen_full e -> b = true;
  }.

  Lemma FI_new : FI (cfixed_new n) 0 [] [].
  Proof.
    split; cbn; try (intros; match goal with H : [] = ?l ++ _ |- _ => destruct l; discriminate end); try easy.
    - split; [constructor|]. split; [intros t; split; [easy|discriminate]|lia].
    - split; [constructor|]. split; [intros t; split; [easy|congruence]|lia].
    - split; cbn; try easy; [constructor|]. intros c Hc. lia.
    - split; [constructor|]. easy.
    - intros (e & [] & _).
  Qed.

  Definition news (t : tid) (e : list fixed_event) : Prop := e = [] \/ exists x, e = [x] /\ f_actor x = t.

  Lemma FI_move f f' t F F' asking busy asking' busy' e : FI f F asking busy ->
    (forall u, u <> t -> f_pc f' u = f_pc f u) -> f_hist f' = f_hist f ++ e -> news t e -> F <= F' ->
    f_size f' = n -> f_issued f' = F' mod w64 ->
    NoDup asking' /\ (forall t, In t asking' <-> f_pc f' t = FIssue) /\ N.of_nat (calls (f_hist f')) = F' + N.of_nat (length asking') ->
    NoDup busy' /\ (forall t, In t busy' <-> f_pc f' t <> FIdle) /\ calls (f_hist f') = (answers (f_hist f') + length busy')%nat ->
    U (N.min F' n) [] (handed (f_hist f')) (fhand f') ->
    (forall c, f_pc f' t = FLoan c -> f_user f' c = Some t) ->
    (forall c, f_user f' c = f_user f c \/ fhand f t = Some c) ->
    (forall c, e = [FGot t (Some c)] -> f_user f' c = Some t) ->
    (f_loan f' + N.of_nat (length (came_back (f_hist f')))) mod w64 = N.of_nat (length (handed (f_hist f'))) mod w64 /\ f_loan f' < w64 ->
    NoDup (came_back (f_hist f')) /\ incl (came_back (f_hist f')) (handed (f_hist f')) ->
    (forall x, In x e -> tells n (f_hist f) x) ->
    (forall x, In x e -> seen_full x -> n <= F') ->
    (In (FCalled t) e \/ f_pc f t <> FIdle /\ e = [] -> f_pc f' t <> FIdle) ->
    (fhand f' t = None \/ e = [] /\ (fhand f t <> None \/ F < n)) ->
    (forall x, In x e -> x = FGot t None \/ f_pc f t = FIdle \/ fhand f t <> None) ->
    (forall b, In (FTold t b) e -> n <= F -> b = true) ->
    FI f' F' asking' busy'.
  Proof.
    intros I Pc Eh Ne LF H1 H2 H3 H4 H5 Mk Us Mg H6 H7 Te Fu Op La Af To. pose proof (fi_u _ _ _ _ I) as U0.
    assert (Sp : forall a x b, f_hist f' = a ++ x :: b -> (exists b', f_hist f = a ++ x :: b' /\ b = b' ++ e) \/ (e = [x] /\ f_actor x = t /\ a = f_hist f /\ b = [])).
    { intros a x b E. rewrite Eh in E. destruct Ne as [->|(y & -> & Ey)].
      - rewrite app_nil_r in E. left. exists b. now rewrite app_nil_r.
      - apply snoc_split in E as [(-> & -> & ->)|(s & -> & E)]; [right; auto|left; exists s; auto]. }
    assert (Act : forall x, In x e -> f_actor x = t) by (intros x Hx; destruct Ne as [->|(y & -> & Ey)]; [easy|destruct Hx as [<-|[]]; auto]).
    split; auto.
    - intros u c Hu. destruct (Nat.eq_dec u t) as [->|Nu]; auto. rewrite Pc in Hu by auto. destruct (Us c) as [->|X]; [now apply (fi_mark _ _ _ _ I)|].
      exfalso. apply Nu. apply (u_inj _ _ _ _ U0 u t c); auto. unfold fhand. now rewrite Hu.
    - intros u c Hu. rewrite Eh in Hu. apply in_app_or in Hu as [Hu|Hu].
      + destruct (Us c) as [->|X]; [now apply (fi_marked _ _ _ _ I)|]. exfalso. apply (u_hand _ _ _ _ U0) in X as (_ & X). apply X. cbn [app].
        unfold handed. apply in_flat_map. eexists. split; [exact Hu|now left].
      + pose proof (Act _ Hu) as X. cbn in X. subst u. apply Mg. destruct Ne as [->|(y & -> & _)]; [easy|]. destruct Hu as [->|[]]; auto.
    - intros a x b E. destruct (Sp _ _ _ E) as [(b' & E' & _)|(-> & _ & -> & _)]; [apply (fi_tells _ _ _ _ I a x b' E')|apply Te; now left].
    - intros (x & Hx & Sx). rewrite Eh in Hx. apply in_app_or in Hx as [Hx|Hx]; [|eauto]. assert (n <= F) by (apply (fi_full _ _ _ _ I); eauto). lia.
    - intros u a m E Nm. destruct (Nat.eq_dec u t) as [->|Nu].
      + apply Op. destruct (Sp _ _ _ E) as [(b' & E' & ->)|(-> & _)]; [|left; now left]. right.
        assert (e = []) as -> by (destruct e as [|y e0]; auto; exfalso; apply (Nm y); [apply in_or_app; right; now left|apply Act; now left]).
        split; auto. apply (fi_open _ _ _ _ I t a b' E'). intros y Hy. apply Nm, in_or_app. auto.
      + rewrite Pc by auto. destruct (Sp _ _ _ E) as [(b' & E' & ->)|(_ & X & _)]; [|cbn in X; congruence].
        apply (fi_open _ _ _ _ I u a b' E'). intros y Hy. apply Nm, in_or_app. auto.
    - intros u a x m m' E Sx Nm. assert (E2 : f_hist f' = (a ++ x :: m) ++ FCalled u :: m') by (rewrite E, <- app_assoc; reflexivity).
      destruct (Sp _ _ _ E2) as [(b' & E' & ->)|(Ee & X & Ea & Em)].
      + rewrite <- app_assoc in E'. cbn [app] in E'. destruct (Nat.eq_dec u t) as [->|Nu].
        * destruct La as [La|(-> & La)]; auto. exfalso.
          assert (fhand f t = None) as Y by (apply (fi_late _ _ _ _ I t a x m b' E' Sx); intros y Hy; apply Nm, in_or_app; auto).
          destruct La as [La|La]; [easy|]. assert (n <= F); [|lia]. apply (fi_full _ _ _ _ I). exists x. split; auto. rewrite E'. apply in_or_app. right. now left.
        * unfold fhand. rewrite Pc by auto. apply (fi_late _ _ _ _ I u a x m b' E' Sx). intros y Hy. apply Nm, in_or_app. auto.
      + cbn in X. subst u. destruct La as [La|(-> & _)]; [auto|discriminate].
    - intros a x m u m' z b E Sx Nm Az. assert (E2 : f_hist f' = (a ++ x :: m ++ FCalled u :: m') ++ z :: b) by (rewrite E, <- !app_assoc; cbn; rewrite <- app_assoc; reflexivity).
      destruct (Sp _ _ _ E2) as [(b' & E' & ->)|(Ee & X & Ea & Em)].
      + apply (fi_after _ _ _ _ I a x m u m' z b'); auto. rewrite E', <- !app_assoc. cbn. now rewrite <- app_assoc.
      + assert (u = t) as -> by congruence. subst e. destruct (Af z (or_introl eq_refl)) as [Y|[Y|Y]]; auto; exfalso.
        * revert Y. apply (fi_open _ _ _ _ I t (a ++ x :: m) m'); auto. rewrite <- Ea, <- app_assoc. reflexivity.
        * apply Y. apply (fi_late _ _ _ _ I t a x m m'); auto.
    - intros a x m u b r E Sx. assert (E2 : f_hist f' = (a ++ x :: m) ++ FTold u b :: r) by (rewrite E, <- app_assoc; reflexivity).
      destruct (Sp _ _ _ E2) as [(b' & E' & ->)|(Ee & X & Ea & Em)].
      + apply (fi_told _ _ _ _ I a x m u b b'); auto. rewrite E', <- app_assoc. reflexivity.
      + cbn in X. subst u e. apply To; [now left|]. apply (fi_full _ _ _ _ I). exists x. split; auto. rewrite <- Ea. apply in_or_app. right. now left.
  Qed.

  Ltac fc := cbn [f_size f_issued f_loan f_user f_pc f_hist f_goto f_set_issued f_set_loan f_set_user] in *.
  Ltac others := let X := fresh in intros ? X; fc; now rewrite tset_other by auto.

  Lemma asked_ge f F asking busy : FI f F asking busy -> F <= N.of_nat (calls (f_hist f)).
  Proof. intros I. destruct (fi_asking _ _ _ _ I) as (_ & _ & E). lia. Qed.

  Lemma answers_le f F asking busy : FI f F asking busy -> N.of_nat (answers (f_hist f)) <= F.
  Proof.
    intros I. destruct (fi_asking _ _ _ _ I) as (D & A & E). destruct (fi_busy _ _ _ _ I) as (D2 & A2 & E2).
    assert (length asking <= length busy)%nat; [|lia]. apply NoDup_incl_length; auto. intros t Ht. apply A in Ht. apply A2. congruence.
  Qed.

  (** A step that only appends an event that is not an answer of getChunk, from outside. *)
  Lemma FI_aside f t F asking busy x l : FI f F asking busy -> f_pc f t = FIdle -> f_actor x = t ->
    (forall u, x <> FCalled u) -> (forall u o, x <> FGot u o) ->
    (f_loan (f_goto l t FIdle [x]) + N.of_nat (length (came_back (f_hist f ++ [x])))) mod w64 = N.of_nat (length (handed (f_hist f))) mod w64 /\ f_loan l < w64 ->
    (l = f \/ exists v, l = f_set_loan f v) ->
    NoDup (came_back (f_hist f ++ [x])) /\ incl (came_back (f_hist f ++ [x])) (handed (f_hist f)) ->
    tells n (f_hist f) x -> (seen_full x -> n <= F) -> (forall b, x = FTold t b -> n <= F -> b = true) ->
    FI (f_goto l t FIdle [x]) F asking busy.
  Proof.
    intros I P Ax N1 N2 Hl Il Hb Te Fu To. pose proof (fi_u _ _ _ _ I) as U0.
    assert (calls [x] = 0%nat /\ answers [x] = 0%nat /\ handed [x] = []) as (C0 & A0 & H0).
    { destruct x as [u|u o|u c|u b|u k]; try (repeat split; reflexivity); [now destruct (N1 u)|now destruct (N2 u o)]. }
    assert (f_hist (f_goto l t FIdle [x]) = f_hist f ++ [x] /\ f_pc (f_goto l t FIdle [x]) = tset (f_pc f) t FIdle /\ f_size l = n /\ f_issued l = f_issued f /\ f_user l = f_user f) as (Eh & Ep & Es & Ei & Eu).
    { destruct Il as [->|(v & ->)]; fc; repeat split; auto; apply I. }
    destruct (fi_asking _ _ _ _ I) as (D & A & E). destruct (fi_busy _ _ _ _ I) as (D2 & A2 & E2).
    assert (forall u, tset (f_pc f) t FIdle u = f_pc f u) as Tp by (intros u; destruct (Nat.eq_dec u t) as [->|]; [now rewrite tset_same|now rewrite tset_other]).
    eapply (FI_move f _ t F F asking busy asking busy [x] I); rewrite ?Eh, ?Ep, ?calls_snoc, ?answers_snoc, ?handed_snoc, ?C0, ?A0, ?H0, ?Nat.add_0_r, ?app_nil_r; auto.
    - right. eauto.
    - lia.
    - fc. rewrite Ei. apply I.
    - split; auto. split; auto. intros u. rewrite Tp. apply A.
    - split; auto. split; auto. intros u. rewrite Tp. apply A2.
    - apply (U_same _ _ _ _ U0 t); [intros u _|]; unfold fhand; now rewrite Ep, Tp.
    - intros c. rewrite tset_same. discriminate.
    - intros c. fc. rewrite Eu. auto.
    - intros c X. injection X as ->. now destruct (N2 t (Some c)).
    - intros y [<-|[]]. exact Te.
    - intros y [<-|[]]. exact Fu.
    - intros [[->|[]]|(_ & X)]; [now destruct (N1 t)|discriminate].
    - left. unfold fhand. now rewrite Ep, tset_same.
    - intros b [->|[]]. apply To. reflexivity.
  Qed.

  Lemma FI_step f a f' F asking busy : FI f F asking busy -> N.of_nat (calls (f_hist f)) < 2 ^ 64 -> fstep f a = Some f' ->
    exists F' asking' busy', FI f' F' asking' busy'.
  Proof.
    intros I Lt E. destruct (fi_asking _ _ _ _ I) as (A1 & A2 & A3). destruct (fi_busy _ _ _ _ I) as (B1 & B2 & B3). pose proof (fi_u _ _ _ _ I) as U0.
    assert (f_issued f = F) as Is by (rewrite (fi_issued _ _ _ _ I); apply N.mod_small; unfold w64; lia).
    pose proof (fi_size _ _ _ _ I) as Sz. pose proof (answers_le _ _ _ _ I) as Al.
    destruct a as [t|t|t c|t|t]; cbn [fstep] in E.
    - destruct (f_pc f t) eqn:P; try discriminate. injection E as <-.
      destruct (set_add 1 one32 asking (fun u => f_pc f u = FIssue) (fun u => tset (f_pc f) t FIssue u = FIssue) t) as (C1 & C2); auto; [intros u X; now rewrite tset_other|congruence|now rewrite tset_same|].
      destruct (set_add 1 one32 busy (fun u => f_pc f u <> FIdle) (fun u => tset (f_pc f) t FIssue u <> FIdle) t) as (D1 & D2); auto; [intros u X; now rewrite tset_other|now rewrite tset_same|].
      exists F, (t :: asking), (t :: busy). eapply (FI_move f _ t F F asking busy _ _ [FCalled t] I); fc; rewrite ?calls_snoc, ?answers_snoc, ?handed_snoc, ?came_snoc, ?app_nil_r; auto.
      + others.
      + right. eauto.
      + lia.
      + apply I.
      + split; auto. split; auto. cbn [length]. change (calls [FCalled t]) with 1%nat. lia.
      + split; auto. split; auto. cbn [length]. change (calls [FCalled t]) with 1%nat. change (answers [FCalled t]) with 0%nat. lia.
      + apply (U_same _ _ _ _ U0 t); [intros u X|]; unfold fhand; fc; [now rewrite tset_other|now rewrite tset_same, P].
      + intros c. rewrite tset_same. discriminate.
      + discriminate.
      + apply I.
      + apply I.
      + intros x [<-|[]]. exact Logic.I.
      + intros x [<-|[]]. intros [].
      + rewrite tset_same. discriminate.
      + left. unfold fhand. fc. now rewrite tset_same.
      + intros b [X|[]]. discriminate.
    - destruct (f_pc f t) as [| |c|c] eqn:P; try discriminate.
      + assert (In t asking) as It by now apply A2. assert (F + 1 < w64) as Lw by (destruct asking; [easy|]; cbn [length] in A3; unfold w64; lia).
        rewrite Sz, Is in E. destruct (N.leb_spec n F) as [Le|Gt]; injection E as <-.
        * destruct (set_del 1 one32 asking (fun u => f_pc f u = FIssue) (fun u => tset (f_pc f) t FIdle u = FIssue) t) as (k & C1 & C2 & C3); auto; [intros u X; now rewrite tset_other|rewrite tset_same; discriminate|].
          destruct (set_del 1 one32 busy (fun u => f_pc f u <> FIdle) (fun u => tset (f_pc f) t FIdle u <> FIdle) t) as (b & D1 & D2 & D3); auto; [intros u X; now rewrite tset_other|congruence|rewrite tset_same; congruence|].
          exists (F + 1), k, b. eapply (FI_move f _ t F (F + 1) asking busy _ _ [FGot t None] I); fc; rewrite ?calls_snoc, ?answers_snoc, ?handed_snoc, ?came_snoc, ?app_nil_r; auto.
          -- others.
          -- right. eauto.
          -- lia.
          -- split; auto. split; auto. change (calls [FGot t None]) with 0%nat. lia.
          -- split; auto. split; auto. change (calls [FGot t None]) with 0%nat. change (answers [FGot t None]) with 1%nat. lia.
          -- replace (N.min (F + 1) n) with (N.min F n) by lia. apply (U_same _ _ _ _ U0 t); [intros u X|]; unfold fhand; fc; [now rewrite tset_other|now rewrite tset_same, P].
          -- intros c. rewrite tset_same. discriminate.
          -- discriminate.
          -- apply I.
          -- apply I.
          -- intros x [<-|[]]. cbn. destruct asking; [easy|]. cbn [length] in A3. lia.
          -- intros x [<-|[]]. lia.
          -- intros [[X|[]]|(_ & X)]; discriminate.
          -- left. unfold fhand. fc. now rewrite tset_same.
          -- intros x [<-|[]]. auto.
          -- intros b' [X|[]]. discriminate.
        * destruct (set_del 1 one32 asking (fun u => f_pc f u = FIssue) (fun u => tset (f_pc f) t (FReset F) u = FIssue) t) as (k & C1 & C2 & C3); auto; [intros u X; now rewrite tset_other|rewrite tset_same; discriminate|].
          exists (F + 1), k, busy. eapply (FI_move f _ t F (F + 1) asking busy _ _ [] I); fc; rewrite ?app_nil_r; auto.
          -- others.
          -- now left.
          -- lia.
          -- split; auto. split; auto. lia.
          -- split; auto. split; auto. apply (set_same busy (fun u => f_pc f u <> FIdle) _ t); auto; [intros u X; now rewrite tset_other|]. rewrite tset_same, P. split; discriminate.
          -- replace (N.min (F + 1) n) with (N.min F n + 1) by lia. apply (U_fresh _ _ _ _ U0 t); [intros u X; unfold fhand; fc; now rewrite tset_other|unfold fhand; now rewrite P|].
             unfold fhand. fc. rewrite tset_same. f_equal. lia.
          -- intros c. rewrite tset_same. discriminate.
          -- discriminate.
          -- apply I.
          -- apply I.
          -- easy.
          -- easy.
          -- intros _. rewrite tset_same. discriminate.
      + injection E as <-. exists F, asking, busy. eapply (FI_move f _ t F F asking busy _ _ [] I); fc; rewrite ?app_nil_r; auto.
        * others.
        * now left.
        * lia.
        * apply I.
        * split; auto. split; auto. apply (set_same asking (fun u => f_pc f u = FIssue) _ t); auto; [intros u X; now rewrite tset_other|]. rewrite tset_same, P. split; discriminate.
        * split; auto. split; auto. apply (set_same busy (fun u => f_pc f u <> FIdle) _ t); auto; [intros u X; now rewrite tset_other|]. rewrite tset_same, P. split; discriminate.
        * apply (U_same _ _ _ _ U0 t); [intros u X|]; unfold fhand; fc; [now rewrite tset_other|now rewrite tset_same, P].
        * intros d. rewrite tset_same. intros [= <-]. unfold upd. now rewrite N.eqb_refl.
        * intros d. unfold upd. destruct (N.eqb_spec d c) as [->|]; auto. right. unfold fhand. now rewrite P.
        * discriminate.
        * apply I.
        * apply I.
        * easy.
        * easy.
        * intros _. rewrite tset_same. discriminate.
        * right. split; auto. left. unfold fhand. now rewrite P.
      + injection E as <-. assert (fhand f t = Some c) as Ha by (unfold fhand; now rewrite P).
        destruct (set_del 1 one32 busy (fun u => f_pc f u <> FIdle) (fun u => tset (f_pc f) t FIdle u <> FIdle) t) as (b & D1 & D2 & D3); auto; [intros u X; now rewrite tset_other|congruence|rewrite tset_same; congruence|].
        exists F, asking, b. eapply (FI_move f _ t F F asking busy _ _ [FGot t (Some c)] I); fc; rewrite ?calls_snoc, ?answers_snoc, ?handed_snoc, ?came_snoc, ?app_nil_r; auto.
        * others.
        * right. eauto.
        * lia.
        * apply I.
        * split; auto. split; [|change (calls [FGot t (Some c)]) with 0%nat; lia].
          apply (set_same asking (fun u => f_pc f u = FIssue) _ t); auto; [intros u X; now rewrite tset_other|]. rewrite tset_same, P. split; discriminate.
        * split; auto. split; auto. change (calls [FGot t (Some c)]) with 0%nat. change (answers [FGot t (Some c)]) with 1%nat. lia.
        * apply (U_put _ _ _ _ U0 t); auto; [intros u X; unfold fhand; fc; now rewrite tset_other|unfold fhand; fc; now rewrite tset_same].
        * intros d. rewrite tset_same. discriminate.
        * intros d [= ->]. now apply (fi_mark _ _ _ _ I).
        * destruct (fi_loan _ _ _ _ I) as (L1 & L2). cbn [handed came_back flat_map app]. rewrite !app_length. cbn [length]. unfold w64 in *. split; [|apply N.mod_lt; lia].
          rewrite Nat2N.inj_add. rewrite N.add_mod_idemp_l by lia. rewrite <- (N.add_mod_idemp_l (N.of_nat (length (handed (f_hist f))))), <- L1, N.add_mod_idemp_l by lia. f_equal. lia.
        * destruct (fi_back _ _ _ _ I) as (K1 & K2). cbn [came_back flat_map app]. rewrite ?app_nil_r. split; auto. intros x Hx. apply in_or_app. auto.
        * intros x [<-|[]]. exact Logic.I.
        * intros x [<-|[]]. intros [].
        * intros [[X|[]]|(_ & X)]; discriminate.
        * left. unfold fhand. fc. now rewrite tset_same.
        * intros x [<-|[]]. right. right. congruence.
        * intros b' [X|[]]. discriminate.
    - destruct (f_pc f t) eqn:P; try discriminate. destruct (existsb _ _ && _) eqn:G; [|discriminate]. injection E as <-. exists F, asking, busy.
      apply andb_prop in G as (G1 & G2). apply existsb_exists in G1 as (d & G1 & X). apply N.eqb_eq in X. subst d.
      assert (~ In c (came_back (f_hist f))) as G3 by (intros X; apply Bool.negb_true_iff in G2; assert (existsb (N.eqb c) (came_back (f_hist f)) = true) by (apply existsb_exists; exists c; split; auto; apply N.eqb_refl); congruence).
      destruct (fi_loan _ _ _ _ I) as (L1 & L2). destruct (fi_back _ _ _ _ I) as (K1 & K2).
      apply (FI_aside f t F asking busy (FGaveBack t c) (f_set_loan f ((f_loan f + (w64 - 1)) mod w64)) I P); auto; try discriminate; try easy.
      + fc. rewrite came_snoc, app_length. cbn [came_back flat_map app length]. unfold w64 in *. split; [|apply N.mod_lt; lia].
        rewrite N.add_mod_idemp_l by lia. rewrite <- L1. rewrite Nat2N.inj_add.
        replace (f_loan f + (2 ^ 64 - 1) + (N.of_nat (length (came_back (f_hist f))) + N.of_nat 1)) with (f_loan f + N.of_nat (length (came_back (f_hist f))) + 1 * 2 ^ 64) by lia.
        apply N.mod_add. lia.
      + eauto.
      + rewrite came_snoc. cbn [came_back flat_map app]. split.
        * apply NoDup_rev in K1 as K3. rewrite <- (rev_involutive (_ ++ [c])), rev_app_distr. apply NoDup_rev. cbn. constructor; auto. now rewrite <- in_rev.
        * intros x Hx. apply in_app_or in Hx as [Hx|[<-|[]]]; auto.
    - destruct (f_pc f t) eqn:P; try discriminate. injection E as <-. exists F, asking, busy. rewrite Sz, Is.
      apply (FI_aside f t F asking busy (FTold t (n <=? F)) f I P); auto; try discriminate.
      + fc. rewrite came_snoc, app_nil_r. apply I.
      + rewrite came_snoc, app_nil_r. apply I.
      + cbn [tells]. destruct (N.leb_spec n F); lia.
      + cbn. destruct (N.leb_spec n F); easy.
      + intros b [= <-] Le. now apply N.leb_le.
    - destruct (f_pc f t) eqn:P; try discriminate. injection E as <-. exists F, asking, busy. rewrite Sz, Is.
      eapply (FI_aside f t F asking busy (FCounted t _) f I P); auto; try discriminate; try easy.
      + fc. rewrite came_snoc, app_nil_r. apply I.
      + rewrite came_snoc, app_nil_r. apply I.
      + cbn [tells]. assert (forall c, In c (handed (f_hist f)) -> c < N.min F n) as K by (intros c; apply (u_range _ _ _ _ U0)).
        destruct (N.ltb_spec F n); repeat split; try lia; intros c Hc; apply K in Hc; lia.
  Qed.

  Lemma run_FI sched : N.of_nat (calls (f_hist (frun n sched))) < 2 ^ 64 -> exists F asking busy, FI (frun n sched) F asking busy.
  Proof.
    induction sched as [|a sched IH] using rev_ind; intros L.
    - exists 0, [], []. apply FI_new.
    - unfold frun in *. rewrite run_snoc in *. unfold move in *. destruct (fstep (run fstep (cfixed_new n) sched) a) as [f'|] eqn:E; auto.
      assert (exists e, f_hist f' = f_hist (run fstep (cfixed_new n) sched) ++ e) as (e & Eh).
      { clear - E. revert E. generalize (run fstep (cfixed_new n) sched). intros f E. destruct a as [t|t|t c|t|t]; cbn [fstep] in E; destruct (f_pc f t); try discriminate;
          repeat match type of E with context [if ?b then _ else _] => destruct b end; try discriminate; injection E as <-; eexists; reflexivity. }
      assert (N.of_nat (calls (f_hist (run fstep (cfixed_new n) sched))) < 2 ^ 64) as L' by (rewrite Eh in L; unfold calls in *; rewrite filter_app, app_length in L; lia).
      destruct (IH L') as (F & k & b & I). eapply FI_step; eauto.
  Qed.
End Fixed.

(** ** Steps that a call takes *)

Definition left_to_do (p : fpc) : nat := match p with FIdle => 0 | FIssue => 3 | FReset _ => 2 | FLoan _ => 1 end.
Definition own (t : tid) (l : list fact) : nat := length (filter (fun a => match a with FGo u => Nat.eqb u t | _ => false end) l).

Lemma f_grows f l : exists e, f_hist (run fstep f l) = f_hist f ++ e.
Proof.
  revert f. induction l as [|a l IH]; intros f; [exists []; now rewrite app_nil_r|]. cbn [run]. unfold move. destruct (fstep f a) as [f'|] eqn:E; [|apply IH].
  assert (exists e, f_hist f' = f_hist f ++ e) as (e & Eh).
  { destruct a as [t|t|t c|t|t]; cbn [fstep] in E; destruct (f_pc f t); try discriminate;
      repeat match type of E with context [if ?b then _ else _] => destruct b end; try discriminate; injection E as <-; eexists; reflexivity. }
  destruct (IH f') as (e' & ->). rewrite Eh, <- app_assoc. eauto.
Qed.

Lemma answered f t l : f_pc f t <> FIdle -> (left_to_do (f_pc f t) <= own t l)%nat ->
  exists e o, f_hist (run fstep f l) = f_hist f ++ e /\ In (FGot t o) e.
Proof.
  revert f. induction l as [|a l IH]; intros f P L; [destruct (f_pc f t); cbn in L; try lia; congruence|].
  assert (Idle : forall f', fstep f a = Some f' -> forall o, f_hist f' = f_hist f ++ [FGot t o] ->
    exists e o, f_hist (run fstep f (a :: l)) = f_hist f ++ e /\ In (FGot t o) e).
  { intros f' E o Eh. cbn [run]. unfold move. rewrite E. destruct (f_grows f' l) as (e & ->). rewrite Eh, <- app_assoc. eexists _, o. split; [reflexivity|now left]. }
  assert (On : forall f' e, move fstep f a = f' -> f_hist f' = f_hist f ++ e -> f_pc f' t <> FIdle -> (left_to_do (f_pc f' t) <= own t l)%nat ->
    exists e o, f_hist (run fstep f (a :: l)) = f_hist f ++ e /\ In (FGot t o) e).
  { intros f' e E Eh P' L'. cbn [run]. rewrite E. destruct (IH f' P' L') as (e' & o & -> & Hin). rewrite Eh, <- app_assoc. eexists _, o. split; [reflexivity|]. apply in_or_app. auto. }
  assert (Same : forall v, own t (a :: l) = own t l -> v <> t -> (forall f', fstep f a = Some f' -> exists e, f_hist f' = f_hist f ++ e /\ f_pc f' t = f_pc f t) ->
    exists e o, f_hist (run fstep f (a :: l)) = f_hist f ++ e /\ In (FGot t o) e).
  { intros v Eo Nv H. destruct (fstep f a) as [f'|] eqn:E.
    - destruct (H f' eq_refl) as (e & Eh & Ep). apply (On f' e); auto; [unfold move; now rewrite E|now rewrite Ep|]. rewrite Ep. now rewrite <- Eo.
    - apply (On f []); [unfold move; now rewrite E|now rewrite app_nil_r|auto|now rewrite <- Eo]. }
  assert (Stuck : own t (a :: l) = own t l -> fstep f a = None ->
    exists e o, f_hist (run fstep f (a :: l)) = f_hist f ++ e /\ In (FGot t o) e).
  { intros Eo E. apply (On f []); [unfold move; now rewrite E|now rewrite app_nil_r|auto|now rewrite <- Eo]. }
  destruct a as [v|v|v c|v|v]; destruct (Nat.eq_dec v t) as [->|Nv].
  - apply Stuck; [reflexivity|]. cbn [fstep]. destruct (f_pc f t); congruence.
  - apply (Same v); auto. cbn [fstep]. intros f' E. destruct (f_pc f v); try discriminate. injection E as <-. eexists. split; [reflexivity|]. cbn. now rewrite tset_other by auto.
  - unfold own in L. cbn [filter] in L. rewrite Nat.eqb_refl in L. cbn [length] in L. fold (own t l) in L.
    destruct (f_pc f t) as [| |c|c] eqn:Pc; [congruence| | |].
    + destruct (f_size f <=? f_issued f) eqn:G.
      * eapply Idle; [cbn [fstep]; rewrite Pc, G; reflexivity|reflexivity].
      * eapply On; [unfold move; cbn [fstep]; rewrite Pc, G; reflexivity|reflexivity|cbn; now rewrite tset_same|]. cbn. rewrite tset_same. cbn in *. lia.
    + eapply On; [unfold move; cbn [fstep]; rewrite Pc; reflexivity|reflexivity|cbn; now rewrite tset_same|]. cbn. rewrite tset_same. cbn in *. lia.
    + eapply Idle; [cbn [fstep]; rewrite Pc; reflexivity|reflexivity].
  - apply (Same v); auto; [unfold own; cbn [filter]; apply Nat.eqb_neq in Nv; now rewrite Nv|]. cbn [fstep]. intros f' E.
    destruct (f_pc f v); try discriminate; repeat match type of E with context [if ?b then _ else _] => destruct b end; injection E as <-; eexists; (split; [reflexivity|]); cbn; now rewrite tset_other by auto.
  - apply Stuck; [reflexivity|]. cbn [fstep]. destruct (f_pc f t); congruence.
  - apply (Same v); auto. cbn [fstep]. intros f' E. destruct (f_pc f v); try discriminate. destruct (_ && _); [|discriminate]. injection E as <-. eexists. split; [reflexivity|]. cbn. now rewrite tset_other by auto.
  - apply Stuck; [reflexivity|]. cbn [fstep]. destruct (f_pc f t); congruence.
  - apply (Same v); auto. cbn [fstep]. intros f' E. destruct (f_pc f v); try discriminate. injection E as <-. eexists. split; [reflexivity|]. cbn. now rewrite tset_other by auto.
  - apply Stuck; [reflexivity|]. cbn [fstep]. destruct (f_pc f t); congruence.
  - apply (Same v); auto. cbn [fstep]. intros f' E. destruct (f_pc f v); try discriminate. injection E as <-. eexists. split; [reflexivity|]. cbn. now rewrite tset_other by auto.
Qed.
