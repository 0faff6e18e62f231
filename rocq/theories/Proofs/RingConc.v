(** A ring buffer shared by any number of threads. *)
From Verif Require Import Base Spec.QueueHistory Spec.RingHistory Model.Queue Model.Buffer Model.Interleave Model.QueueConc Model.RingConc
  Proofs.Queue Proofs.Buffer Proofs.Interleave Proofs.QueueConc.
Local Open Scope N_scope.
Local Opaque N.modulo N.pow upper_power_of_two.

(** ** Chunks are in one place *)

Record U (M : N) (lent queued : list N) (hand : tid -> option N) : Prop := {
  u_nodup : NoDup (lent ++ queued);
  u_range : forall c, In c (lent ++ queued) -> c < M;
  u_hand : forall t c, hand t = Some c -> c < M /\ ~ In c (lent ++ queued);
  u_inj : forall t u c, hand t = Some c -> hand u = Some c -> t = u;
  u_all : forall c, c < M -> In c (lent ++ queued) \/ exists t, hand t = Some c;
}.

Section U.
  Variables (M : N) (lent queued : list N) (hand : tid -> option N).
  Hypothesis H : U M lent queued hand.
  Variables (t : tid) (hand' : tid -> option N).
  Hypothesis Ho : forall u, u <> t -> hand' u = hand u.

  Lemma U_same : hand' t = hand t -> U M lent queued hand'.
  Proof.
    intros E. assert (forall u, hand' u = hand u) as X by (intros u; destruct (Nat.eq_dec u t) as [->|]; auto).
    split; try apply H.
    - intros u c. rewrite X. apply (u_hand _ _ _ _ H).
    - intros u v c. rewrite !X. apply (u_inj _ _ _ _ H).
    - intros c Hc. destruct (u_all _ _ _ _ H c Hc) as [|(u & Hu)]; auto. right. exists u. now rewrite X.
  Qed.

  Lemma U_fresh : hand t = None -> hand' t = Some M -> U (M + 1) lent queued hand'.
  Proof.
    intros E E'. assert (R : forall c, In c (lent ++ queued) -> c < M) by apply H. split.
    - apply H.
    - intros c Hc. apply R in Hc. lia.
    - intros u c Hu. destruct (Nat.eq_dec u t) as [->|Hn].
      + rewrite E' in Hu. injection Hu as <-. split; [lia|]. intros X. apply R in X. lia.
      + rewrite Ho in Hu by auto. destruct (u_hand _ _ _ _ H u c Hu). split; auto; lia.
    - assert (forall u, u <> t -> hand' u <> Some M) as F.
      { intros u Hn X. rewrite Ho in X by auto. apply (u_hand _ _ _ _ H) in X. lia. }
      intros u v c Hu Hv. destruct (Nat.eq_dec u t) as [->|Hn], (Nat.eq_dec v t) as [->|Hm]; auto.
      + rewrite E' in Hu. injection Hu as <-. now apply F in Hv.
      + rewrite E' in Hv. injection Hv as <-. now apply F in Hu.
      + rewrite Ho in Hu, Hv by auto. eapply (u_inj _ _ _ _ H); eauto.
    - intros c Hc. destruct (N.eq_dec c M) as [->|]; [eauto|]. destruct (u_all _ _ _ _ H c) as [|(u & Hu)]; [lia|auto|].
      right. exists u. rewrite Ho; auto. congruence.
  Qed.

  Lemma U_drop l q c : hand t = Some c -> hand' t = None -> (forall x, In x (l ++ q) <-> x = c \/ In x (lent ++ queued)) -> NoDup (l ++ q) ->
    U M l q hand'.
  Proof.
    intros E E' I D. destruct (u_hand _ _ _ _ H t c E) as [L NI]. split; auto.
    - intros x Hx. apply I in Hx as [->|Hx]; auto. now apply (u_range _ _ _ _ H).
    - intros u x Hu. assert (u <> t) as Hn by congruence. rewrite Ho in Hu by auto. destruct (u_hand _ _ _ _ H u x Hu) as [A B].
      split; auto. rewrite I. intros [->|X]; auto. apply Hn. eapply (u_inj _ _ _ _ H); eauto.
    - intros u v x Hu Hv. assert (u <> t) by congruence. assert (v <> t) by congruence. rewrite Ho in Hu, Hv by auto. eapply (u_inj _ _ _ _ H); eauto.
    - intros x Hx. rewrite I. destruct (u_all _ _ _ _ H x Hx) as [|(u & Hu)]; auto. destruct (Nat.eq_dec u t) as [->|]; [left; left; congruence|].
      right. exists u. rewrite Ho; auto.
  Qed.

  Lemma U_lend c : hand t = Some c -> hand' t = None -> U M (c :: lent) queued hand'.
  Proof.
    intros E E'. apply (U_drop _ _ c); auto.
    - intros x. cbn. split; intros [X|X]; auto.
    - cbn. constructor; [|apply H]. now apply (u_hand _ _ _ _ H t).
  Qed.

  Lemma U_put c : hand t = Some c -> hand' t = None -> U M lent (queued ++ [c]) hand'.
  Proof.
    intros E E'. pose proof (u_nodup _ _ _ _ H) as D0. apply (U_drop _ _ c); auto.
    - intros x. rewrite !in_app_iff. cbn. intuition auto.
    - rewrite app_assoc. apply NoDup_rev in D0 as D1. rewrite <- (rev_involutive (_ ++ [c])), rev_app_distr. apply NoDup_rev. cbn.
      constructor; auto. rewrite <- in_rev. now apply (u_hand _ _ _ _ H t).
  Qed.

  Lemma U_pick l q c : hand t = None -> hand' t = Some c -> (forall x, In x (lent ++ queued) <-> x = c \/ In x (l ++ q)) -> NoDup (l ++ q) -> ~ In c (l ++ q) ->
    U M l q hand'.
  Proof.
    intros E E' I D NI. assert (In c (lent ++ queued)) as Hc by (apply I; auto). split; auto.
    - intros x Hx. apply (u_range _ _ _ _ H), I. auto.
    - intros u x Hu. destruct (Nat.eq_dec u t) as [->|Hn].
      + rewrite E' in Hu. injection Hu as <-. split; auto. now apply (u_range _ _ _ _ H).
      + rewrite Ho in Hu by auto. destruct (u_hand _ _ _ _ H u x Hu) as [A B]. split; auto. intros X. apply B, I. auto.
    - assert (forall u, u <> t -> hand' u <> Some c) as F.
      { intros u Hn X. rewrite Ho in X by auto. now apply (u_hand _ _ _ _ H) in X as [_ X]. }
      intros u v x Hu Hv. destruct (Nat.eq_dec u t) as [->|Hn], (Nat.eq_dec v t) as [->|Hm]; auto.
      + rewrite E' in Hu. injection Hu as <-. now apply F in Hv.
      + rewrite E' in Hv. injection Hv as <-. now apply F in Hu.
      + rewrite Ho in Hu, Hv by auto. eapply (u_inj _ _ _ _ H); eauto.
    - intros x Hx. destruct (u_all _ _ _ _ H x Hx) as [X|(u & Hu)]; [apply I in X as [->|]; eauto|].
      right. exists u. rewrite Ho; auto. congruence.
  Qed.

  Lemma take_out_in c l x : NoDup l -> (In x (take_out c l) <-> In x l /\ x <> c).
  Proof.
    clear. induction l as [|d l IH]; intros D; cbn; [tauto|]. inversion D; subst. destruct (N.eqb_spec d c) as [->|Hn].
    - split; [intros X; split; auto; intros ->; auto|]. intros [[X|X] Y]; [now rewrite X in Y|auto].
    - cbn. rewrite IH by auto. split; [intros [->|[X Y]]; auto|]. intros [[X|X] Y]; auto.
  Qed.

  Lemma take_out_nodup c l : NoDup l -> NoDup (take_out c l).
  Proof.
    clear. induction l as [|d l IH]; intros D; cbn; auto. inversion D; subst. destruct (d =? c); auto. constructor; auto.
    rewrite take_out_in by auto. tauto.
  Qed.

  Lemma take_out_length c l : In c l -> length l = S (length (take_out c l)).
  Proof. clear. induction l as [|d l IH]; cbn; [easy|]. destruct (N.eqb_spec d c); auto. intros [X|X]; [congruence|]. cbn. now rewrite <- IH. Qed.

  Lemma nodup_app (a b : list N) : NoDup (a ++ b) <-> NoDup a /\ NoDup b /\ forall x, In x a -> ~ In x b.
  Proof.
    clear. induction a as [|x a IH]; cbn; [intuition constructor|]. rewrite !NoDup_cons_iff, IH, in_app_iff. split.
    - intros (A & B & C & D). repeat split; auto. intros y [->|Hy]; auto.
    - intros ((A & B) & C & D). repeat split; auto. intros [X|X]; auto. now apply (D x); auto.
  Qed.

  Lemma U_back c : In c lent -> hand t = None -> hand' t = Some c -> U M (take_out c lent) queued hand'.
  Proof.
    intros Ic E E'. pose proof (u_nodup _ _ _ _ H) as D. apply nodup_app in D as (D1 & D2 & D3). apply (U_pick _ _ c); auto.
    - intros x. rewrite !in_app_iff, take_out_in by auto. split; [|intuition congruence].
      intros [X|X]; auto. destruct (N.eq_dec x c); auto.
    - apply nodup_app. split; [now apply take_out_nodup|]. split; auto. intros x Hx. apply D3. now apply take_out_in in Hx.
    - rewrite in_app_iff, take_out_in by auto. intros [X|X]; [tauto|]. now apply (D3 c).
  Qed.

  Lemma U_get c q : queued = c :: q -> hand t = None -> hand' t = Some c -> U M lent q hand'.
  Proof.
    intros Eq E E'. pose proof (u_nodup _ _ _ _ H) as D. rewrite Eq in D. apply (U_pick _ _ c); auto.
    - intros x. rewrite Eq, !in_app_iff. cbn. intuition auto.
    - now apply NoDup_remove_1 in D.
    - now apply NoDup_remove_2 in D.
  Qed.
End U.

Lemma nth_skipn {A} (l : list A) i x : nth_error l i = Some x -> skipn i l = x :: skipn (S i) l.
Proof. revert i. induction l as [|a l IH]; intros [|i] E; cbn in *; try discriminate; [now injection E as ->|]. now apply IH. Qed.

(** ** Histories *)

Lemma lent_snoc h e : lent_out (h ++ [e]) =
  match e with GetReturned _ c => c :: lent_out h | RetCalled _ c => take_out c (lent_out h) | _ => lent_out h end.
Proof. unfold lent_out. rewrite fold_left_app. reflexivity. Qed.

Lemma backs_snoc h e : backs (h ++ [e]) = backs h ++ match e with Placed _ c => [c] | _ => [] end.
Proof. unfold backs. rewrite flat_map_app. cbn. now rewrite app_nil_r. Qed.

Lemma count_snoc p h e : count p (h ++ [e]) = (count p h + if p e then 1 else 0)%nat.
Proof. unfold count. rewrite filter_app, app_length. cbn. now destruct (p e). Qed.

Lemma due_more n h e i c : due n h i = Some c -> due n (h ++ e) i = Some c.
Proof.
  unfold due. destruct (_ <? _); auto. intros X. unfold backs. rewrite flat_map_app.
  rewrite nth_error_app1; [exact X|]. apply nth_error_Some. unfold backs in X. congruence.
Qed.

Definition served (n : N) (h : list ring_event) : Prop :=
  forall pre t c post, h = pre ++ GetReturned t c :: post ->
  exists before between, pre = before ++ Claimed t :: between /\ (forall e, In e between -> r_actor e <> t) /\
    due n h (claims before) = Some c.

Lemma served_plain n h e : served n h -> (forall t c, e <> GetReturned t c) -> served n (h ++ [e]).
Proof.
  intros H N pre t c post E. apply snoc_split in E as [(-> & -> & ->)|(s & -> & ->)]; [now destruct (N t c)|].
  destruct (H _ _ _ _ eq_refl) as (b & m & -> & Q & D). exists b, m. repeat split; auto. now apply due_more.
Qed.

Lemma served_more n h t c a b : served n h -> h = a ++ Claimed t :: b -> (forall e, In e b -> r_actor e <> t) ->
  due n h (claims a) = Some c -> served n (h ++ [GetReturned t c]).
Proof.
  intros H E Q D pre u d post X. apply snoc_split in X as [(-> & -> & Y)|(s & -> & ->)].
  - injection Y as <- <-. exists a, b. repeat split; auto. now apply due_more.
  - destruct (H _ _ _ _ eq_refl) as (b' & m & -> & Q' & D'). exists b', m. repeat split; auto. now apply due_more.
Qed.

(** The chunk carries the id of the thread that got it. *)
Definition marked (r : cring) : Prop :=
  forall a t c b, r_hist r = a ++ GetReturned t c :: b -> (forall u, ~ In (RetCalled u c) b) -> r_user r c = Some t.

Lemma still_lent a t c b : (forall u, ~ In (RetCalled u c) b) -> In c (lent_out (a ++ GetReturned t c :: b)).
Proof.
  induction b as [|e b IH] using rev_ind; intros H.
  - rewrite lent_snoc. now left.
  - replace (a ++ GetReturned t c :: b ++ [e]) with ((a ++ GetReturned t c :: b) ++ [e]) by now rewrite <- app_assoc.
    rewrite lent_snoc. assert (In c (lent_out (a ++ GetReturned t c :: b))) as X.
    { apply IH. intros u Hu. apply (H u), in_or_app. auto. }
    destruct e; auto; [now right|]. assert (c0 <> c) as Ne.
    { intros ->. apply (H t0), in_or_app. right. now left. }
    revert X. generalize (lent_out (a ++ GetReturned t c :: b)). induction l as [|d l IHl]; cbn; auto.
    intros [X|X]; destruct (N.eqb_spec d c0); cbn; auto. congruence.
Qed.

(** ** The invariant *)

Definition queued (q : cqueue N) : list N := skipn (outs (cq_hist q)) (ins (cq_hist q)).

Definition hand (r : cring) (t : tid) : option N :=
  match r_pc r t with
  | GReset c | GLoan c => Some c
  | RPut c => match cq_pc (r_q r) t with EData _ _ _ | EPub _ _ _ => None | _ => Some c end
  | GWait => match cq_pc (r_q r) t with DData _ P | DPub _ P _ => val (r_q r) P | _ => None end
  | _ => None
  end.

Definition fits (p : rpc) (qp : qpc N) : Prop :=
  match p with
  | RIdle | GCount | GReset _ | GLoan _ | RLoan => qp = QIdle
  | GWait => match qp with QIdle | DPos | DSeq _ _ | DCas _ _ | DData _ _ | DPub _ _ _ => True | _ => False end
  | RPut c => match qp with QIdle => True | EPos x | ESeq x _ _ | ECas x _ _ | EData x _ _ | EPub x _ _ => x = c | _ => False end
  end.

Definition open_claim (h : list ring_event) (t : tid) (i : nat) : Prop :=
  exists a b, h = a ++ Claimed t :: b /\ claims a = i /\ forall e, In e b -> r_actor e <> t.

Lemma open_more h t i e : r_actor e <> t -> open_claim h t i -> open_claim (h ++ [e]) t i.
Proof.
  intros N (a & b & -> & L & H). exists a, (b ++ [e]). rewrite <- app_assoc. repeat split; auto.
  intros y Hy. apply in_app_or in Hy as [Hy|[<-|[]]]; auto.
Qed.

Section Ring.
  Variable n : N.

  Definition ticket (r : cring) (t : tid) : Prop :=
    match r_pc r t with
    | GReset c | GLoan c => exists i, open_claim (r_hist r) t i /\ due n (r_hist r) i = Some c
    | GWait => match cq_pc (r_q r) t with
               | DData _ P | DPub _ P _ => open_claim (r_hist r) t (N.to_nat n + N.to_nat P)
               | _ => True
               end
    | _ => True
    end.

  Record RI (r : cring) (F : N) (gs : N -> N) (asking giving : list tid) : Prop := {
    ri_q : qinv (upper_power_of_two n) (r_q r) gs;
    ri_h : hist_ok (upper_power_of_two n) (cq_hist (r_q r));
    ri_size : r_size r = n;
    ri_bad : r_bad r = false;
    ri_fits : forall t, fits (r_pc r t) (cq_pc (r_q r) t);
    ri_count : r_count r = F mod w64;
    ri_asking : NoDup asking /\ (forall t, In t asking <-> r_pc r t = GCount) /\ N.of_nat (asked (r_hist r)) = F + N.of_nat (length asking);
    ri_claims : N.of_nat (claims (r_hist r)) = N.min F n + placed_out (r_q r);
    ri_first : forall t, r_pc r t = GWait -> n <= F;
    ri_outs : 0 < placed_out (r_q r) -> n <= F;
    ri_backs : backs (r_hist r) = ins (cq_hist (r_q r));
    ri_u : U (N.min F n) (lent_out (r_hist r)) (queued (r_q r)) (hand r);
    ri_ticket : forall t, ticket r t;
    ri_served : served n (r_hist r);
    ri_mark : forall t c, r_pc r t = GLoan c -> r_user r c = Some t;
    ri_marked : marked r;
    ri_giving : NoDup giving /\ (forall t, In t giving <-> (r_pc r t = RLoan \/ exists c, r_pc r t = RPut c)) /\
      got (r_hist r) = (length (lent_out (r_hist r)) + length giving + given_back (r_hist r))%nat;
    ri_loan : r_loan r = N.of_nat (length (lent_out (r_hist r)) + length giving) mod w64;
  }.

  Hypothesis Hn : 1 <= n <= 2 ^ 32.

  Lemma cap_facts : exists j, upper_power_of_two n = 2 ^ j /\ 1 <= j /\ j <= 61 /\ n <= upper_power_of_two n.
  Proof. destruct (upper_pow n Hn) as (j & H1 & H2 & H3 & _). exists j. rewrite H2. repeat split; auto; lia. Qed.

  (** Sets of threads, as lists. *)
  Lemma set_same (l : list tid) (P P' : tid -> Prop) t : (forall u, In u l <-> P u) -> (forall u, u <> t -> (P' u <-> P u)) -> (P' t <-> P t) ->
    forall u, In u l <-> P' u.
  Proof. intros H O S u. rewrite H. destruct (Nat.eq_dec u t) as [->|X]; [now rewrite S|now rewrite O]. Qed.

  Lemma set_add (l : list tid) (P P' : tid -> Prop) t : NoDup l -> (forall u, In u l <-> P u) -> (forall u, u <> t -> (P' u <-> P u)) -> ~ P t -> P' t ->
    NoDup (t :: l) /\ forall u, In u (t :: l) <-> P' u.
  Proof.
    intros D H O N S. split; [constructor; auto; now rewrite H|]. intros u. cbn. destruct (Nat.eq_dec u t) as [->|X].
    - tauto.
    - rewrite H, O by auto. split; auto. intros [->|Y]; tauto.
  Qed.

  Lemma set_del (l : list tid) (P P' : tid -> Prop) t : NoDup l -> (forall u, In u l <-> P u) -> (forall u, u <> t -> (P' u <-> P u)) -> P t -> ~ P' t ->
    exists l', NoDup l' /\ (forall u, In u l' <-> P' u) /\ length l = S (length l').
  Proof.
    intros D H O S N. apply H in S as I. apply in_split in I as (a & b & ->). exists (a ++ b). split; [now apply NoDup_remove_1 in D|]. split.
    - intros u. destruct (Nat.eq_dec u t) as [->|X].
      + apply NoDup_remove_2 in D. tauto.
      + rewrite O by auto. rewrite <- H, !in_app_iff. cbn. split; intros [Y|Y]; auto. destruct Y; auto. congruence.
    - rewrite !app_length. cbn. lia.
  Qed.

  (** ** One step of one thread *)

  Lemma RI_move r r' t F gs asking giving F' gs' asking' giving' e l :
    RI r F gs asking giving ->
    (forall u, u <> t -> r_pc r' u = r_pc r u) -> (forall u, u <> t -> cq_pc (r_q r') u = cq_pc (r_q r) u) ->
    ins (cq_hist (r_q r')) = ins (cq_hist (r_q r)) ++ l ->
    r_hist r' = r_hist r ++ e -> (e = [] \/ exists x, e = [x] /\ r_actor x = t) ->
    (forall u, u <> t -> hand r' u = hand r u) -> 
    F <= F' ->
    qinv (upper_power_of_two n) (r_q r') gs' -> hist_ok (upper_power_of_two n) (cq_hist (r_q r')) ->
    r_size r' = n -> r_bad r' = false -> fits (r_pc r' t) (cq_pc (r_q r') t) -> r_count r' = F' mod w64 ->
    NoDup asking' /\ (forall t, In t asking' <-> r_pc r' t = GCount) /\ N.of_nat (asked (r_hist r')) = F' + N.of_nat (length asking') ->
    N.of_nat (claims (r_hist r')) = N.min F' n + placed_out (r_q r') ->
    (r_pc r' t = GWait -> n <= F') -> (0 < placed_out (r_q r') -> n <= F') ->
    backs (r_hist r') = ins (cq_hist (r_q r')) ->
    U (N.min F' n) (lent_out (r_hist r')) (queued (r_q r')) (hand r') ->
    ticket r' t -> served n (r_hist r') ->
    (forall u c, r_pc r' u = GLoan c -> r_user r' c = Some u) -> marked r' ->
    NoDup giving' /\ (forall t, In t giving' <-> (r_pc r' t = RLoan \/ exists c, r_pc r' t = RPut c)) /\
      got (r_hist r') = (length (lent_out (r_hist r')) + length giving' + given_back (r_hist r'))%nat ->
    r_loan r' = N.of_nat (length (lent_out (r_hist r')) + length giving') mod w64 ->
    RI r' F' gs' asking' giving'.
  Proof.
    intros R Op Oq Ei Eh He Oh Lf Q H Sz Bd Ft Ct As Cl Fi Ou Ba Hu Ti Se Mk Md Gi Lo.
    split; auto; intros u; destruct (Nat.eq_dec u t) as [->|X]; auto.
    - rewrite Op, Oq by auto. apply R.
    - rewrite Op by auto. intros Y. pose proof (ri_first _ _ _ _ _ R u Y). lia.
    - pose proof (ri_ticket _ _ _ _ _ R u) as T. unfold ticket in *. rewrite Op, Oq by auto. rewrite Eh.
      destruct He as [->|(x & -> & Hx)]; [now rewrite app_nil_r|].
      destruct (r_pc r u); auto; [destruct (cq_pc (r_q r) u); auto; apply open_more; auto; congruence| |];
        (destruct T as (i & T1 & T2); exists i; split; [apply open_more; auto; congruence|now apply due_more]).
  Qed.

  Lemma hand_other r r' u l gs : qinv (upper_power_of_two n) (r_q r) gs -> r_pc r' u = r_pc r u -> cq_pc (r_q r') u = cq_pc (r_q r) u ->
    ins (cq_hist (r_q r')) = ins (cq_hist (r_q r)) ++ l -> hand r' u = hand r u.
  Proof.
    intros Q Ep Eq Ei. unfold hand. rewrite Ep, Eq. destruct (r_pc r u); auto.
    pose proof (i_thr _ _ _ Q u) as T. pose proof (i_bnd _ _ _ Q) as B.
    destruct (cq_pc (r_q r) u); auto; cbn [thr_ok] in T; destruct T as (_ & T & _); unfold val; rewrite Ei; apply nth_error_app1; unfold placed_in, placed_out in *; lia.
  Qed.

  Lemma marked_plain r r' e : marked r -> r_user r' = r_user r -> r_hist r' = r_hist r ++ e ->
    (e = [] \/ exists x, e = [x] /\ forall u c, x <> GetReturned u c) -> marked r'.
  Proof.
    intros M Eu Eh He a t c b E N. rewrite Eu. rewrite Eh in E. destruct He as [->|(x & -> & Nx)].
    - rewrite app_nil_r in E. now apply (M a t c b).
    - apply snoc_split in E as [(-> & -> & ->)|(s & -> & E)]; [now destruct (Nx t c)|].
      apply (M a t c s E). intros u Hu. apply (N u), in_or_app. auto.
  Qed.

  (** A step inside the queue that places nothing. *)
  Lemma RI_quiet r r' t F gs asking giving gs' :
    RI r F gs asking giving ->
    (forall u, u <> t -> r_pc r' u = r_pc r u) -> (forall u, u <> t -> cq_pc (r_q r') u = cq_pc (r_q r) u) ->
    ins (cq_hist (r_q r')) = ins (cq_hist (r_q r)) -> outs (cq_hist (r_q r')) = outs (cq_hist (r_q r)) ->
    qinv (upper_power_of_two n) (r_q r') gs' -> hist_ok (upper_power_of_two n) (cq_hist (r_q r')) ->
    r_hist r' = r_hist r -> r_size r' = r_size r -> r_bad r' = r_bad r -> r_count r' = r_count r -> r_loan r' = r_loan r -> r_user r' = r_user r ->
    fits (r_pc r' t) (cq_pc (r_q r') t) -> hand r' t = hand r t -> ticket r' t ->
    r_pc r t <> GCount -> r_pc r' t <> GCount -> (r_pc r' t = GWait -> r_pc r t = GWait) -> (forall c, r_pc r' t <> GLoan c) ->
    ((r_pc r' t = RLoan \/ exists c, r_pc r' t = RPut c) <-> (r_pc r t = RLoan \/ exists c, r_pc r t = RPut c)) ->
    RI r' F gs' asking giving.
  Proof.
    intros R Op Oq Ei Eo Q H Eh Es Eb Ec El Eu Ft Ha Ti N1 N2 W NL G.
    assert (Epo : placed_out (r_q r') = placed_out (r_q r)) by (unfold placed_out; now rewrite Eo).
    assert (Oh : forall u, u <> t -> hand r' u = hand r u).
    { intros u X. apply (hand_other r r' u [] gs); auto; [apply R|now rewrite app_nil_r]. }
    apply (RI_move r r' t F gs asking giving F gs' asking giving [] []); auto; rewrite ?Eh, ?app_nil_r; auto; try (rewrite ?Es, ?Eb, ?Ec, ?El, ?Epo, ?Ei; apply R).
    - lia.
    - destruct (ri_asking _ _ _ _ _ R) as (A & B & C). split; auto. split; auto. apply (set_same _ (fun u => r_pc r u = GCount) _ t); auto; [|tauto].
      intros u X. now rewrite Op.
    - intros X. apply (ri_first _ _ _ _ _ R t); auto.
    - apply (U_same _ _ _ (hand r)) with (t := t); auto. unfold queued. rewrite Ei, Eo. apply R.
    - intros u c Hu. rewrite Eu. destruct (Nat.eq_dec u t) as [->|X]; [now apply NL in Hu|]. rewrite Op in Hu by auto. now apply (ri_mark _ _ _ _ _ R).
    - apply (marked_plain r r' []); auto; [apply R|now rewrite app_nil_r].
    - destruct (ri_giving _ _ _ _ _ R) as (A & B & C). split; auto. split; auto.
      apply (set_same _ (fun u => r_pc r u = RLoan \/ exists c, r_pc r u = RPut c) _ t); auto. intros u X. now rewrite Op.
  Qed.

  Lemma q_move r (t : tid) a q' F gs asking giving : RI r F gs asking giving -> (forall u, stale (r_q r) u < 2 ^ 62) -> qstep (r_q r) a = Some q' ->
    exists gs', qinv (upper_power_of_two n) q' gs' /\ hist_ok (upper_power_of_two n) (cq_hist q').
  Proof. intros R S E. destruct cap_facts as (j & Hc & H1 & H2 & _). eapply (qinv_step _ j Hc H1 H2); eauto; apply R. Qed.

  Lemma ins_app h (e : list (queue_event N)) : ins (h ++ e) = ins h ++ ins e.
  Proof. apply flat_map_app. Qed.
  Lemma outs_app h (e : list (queue_event N)) : outs (h ++ e) = (outs h + outs e)%nat.
  Proof. unfold outs. rewrite filter_app, app_length. reflexivity. Qed.

  Ltac qnil := cbn [r_q r_set_q r_goto cq_hist cq_goto cq_set_data cq_set_seq cq_set_enq cq_set_deq]; rewrite ?ins_app, ?outs_app, ?app_nil_r, ?Nat.add_0_r; cbn [ins outs flat_map filter app length]; rewrite ?app_nil_r, ?Nat.add_0_r; auto.

  Ltac rc := cbn [r_q r_set_q r_goto r_set_count r_set_loan r_set_user r_pc r_hist r_size r_bad r_count r_loan r_user cq_hist cq_pc cq_goto cq_set_data cq_set_seq cq_set_enq cq_set_deq].
  Ltac qgo Qp Eq :=
    cbn [qstep] in Eq; rewrite Qp in Eq; repeat match type of Eq with context [if ?b then _ else _] => destruct b end; injection Eq as <-.
  Ltac placing_of Qp E := unfold placing in E; rewrite Qp in E; cbn [cq_pc cq_goto] in E; rewrite ?tset_same in E; injection E as <-.
  Ltac silent R Pc Ha :=
    eapply (RI_quiet _ _ _ _ _ _ _ _ R); auto; cbn [r_q r_set_q r_goto r_pc r_hist]; rewrite ?tset_same, ?app_nil_r; auto; try (qnil; fail); rewrite ?Pc; try discriminate; try easy;
    try (intros u X; cbn; rewrite ?tset_other; auto; fail); try (cbn; rewrite ?tset_same; easy);
    try (rewrite Ha; unfold hand; cbn; rewrite ?Pc, ?tset_same; auto; fail); try (unfold ticket; cbn; rewrite ?Pc, ?tset_same; auto; fail).

  (** The step of a thread in getChunk that waits for a chunk. *)
  Lemma step_wait r t sp r' F gs asking giving : RI r F gs asking giving -> (forall u, stale (r_q r) u < 2 ^ 62) -> r_pc r t = GWait ->
    rstep r (RGo t sp) = Some r' -> exists gs', RI r' F gs' asking giving.
  Proof.
    intros R St Pc E. unfold rstep in E. rewrite (ri_bad _ _ _ _ _ R), Pc in E.
    pose proof (ri_fits _ _ _ _ _ R t) as Ft. rewrite Pc in Ft. cbn [fits] in Ft.
    pose proof (ri_ticket _ _ _ _ _ R t) as Ti. unfold ticket in Ti. rewrite Pc in Ti.
    assert (Ha : hand r t = match cq_pc (r_q r) t with DData _ P | DPub _ P _ => val (r_q r) P | _ => None end) by (unfold hand; now rewrite Pc).
    assert (Q0 : qinv (upper_power_of_two n) (r_q r) gs) by apply R.
    pose proof (i_thr _ _ _ Q0 t) as Th.
    destruct (cq_pc (r_q r) t) as [|x|x pos P|x pos P|x pos P|x pos P| |pos P|pos P|pos P|pos P y] eqn:Qp; try contradiction.
    all: match type of E with context [qstep ?q ?a] => destruct (qstep q a) as [q'|] eqn:Eq; [|discriminate]; destruct (q_move r t a q' F gs asking giving R St Eq) as (gs' & Q & H) end;
      exists gs'.
    - injection E as <-. qgo Qp Eq. silent R Pc Ha.
    - qgo Qp Eq. placing_of Qp E. silent R Pc Ha.
    - qgo Qp Eq; placing_of Qp E; silent R Pc Ha.
    - (* the compare-exchange *)
      cbn [qstep] in Eq. rewrite Qp in Eq. destruct ((cq_deq (r_q r) =? pos) && negb sp)%bool eqn:B.
      + injection Eq as <-. placing_of Qp E.
        assert (W : n <= F) by (apply (ri_first _ _ _ _ _ R t Pc)).
        apply andb_prop in B as (B & _). apply N.eqb_eq in B. destruct Th as (Hp & Hl & Hg).
        assert (EP : placed_out (r_q r) = P).
        { destruct cap_facts as (j & Hc & H1 & H2 & _). apply (word_eq _ j Hc H1 H2); auto.
          - now rewrite <- (i_deq _ _ _ Q0), B.
          - specialize (St t). unfold stale in St. now rewrite Qp in St. }
        assert (LT : placed_out (r_q r) < placed_in (r_q r)).
        { pose proof (i_bnd _ _ _ Q) as X. unfold placed_in, placed_out in *. cbn [cq_hist cq_goto cq_set_deq] in X. rewrite ins_app, outs_app, app_length in X. cbn in X. lia. }
        destruct (nth_error (ins (cq_hist (r_q r))) (outs (cq_hist (r_q r)))) as [c|] eqn:V.
        2:{ apply nth_error_None in V. unfold placed_in, placed_out in LT. lia. }
        set (r' := r_goto _ _ _ _).
        assert (Ev : hand r' t = Some c).
        { unfold hand, r'. rc. rewrite !tset_same. unfold val. rc. rewrite ins_app. cbn. rewrite app_nil_r, <- EP. unfold placed_out. now rewrite Nat2N.id. }
        apply (RI_move r r' t F gs asking giving F gs' asking giving [Claimed t] []); auto; try apply R.
        * intros u X. unfold r'. rc. now rewrite tset_other.
        * intros u X. unfold r'. rc. now rewrite tset_other.
        * unfold r'; rc. rewrite ins_app. reflexivity.
        * right. exists (Claimed t). auto.
        * intros u X. apply (hand_other r r' u [] gs); auto; unfold r'; rc; rewrite ?tset_other; auto. rewrite ins_app. reflexivity.
        * lia.
        * unfold r'; rc. rewrite !tset_same. exact I.
        * unfold r'; rc. unfold asked. rewrite count_snoc, Nat.add_0_r. destruct (ri_asking _ _ _ _ _ R) as (A1 & A2 & A3). split; auto. split; auto.
          apply (set_same _ (fun u => r_pc r u = GCount) _ t); auto; [intros u X; now rewrite tset_other|rewrite tset_same, Pc; easy].
        * unfold r'; rc. unfold claims. rewrite count_snoc. pose proof (ri_claims _ _ _ _ _ R) as X. unfold claims in X.
          unfold placed_out in *. unfold r'. rc. rewrite outs_app. cbn. lia.
        * unfold r'; rc. rewrite backs_snoc, app_nil_r, ins_app. cbn. rewrite app_nil_r. apply R.
        * apply (U_get (N.min F n) _ (queued (r_q r)) (hand r)) with (t := t) (c := c); auto.
          -- unfold r'. rc. rewrite lent_snoc. apply R.
          -- intros u X. apply (hand_other r r' u [] gs); auto; unfold r'; rc; rewrite ?tset_other; auto. rewrite ins_app. reflexivity.
          -- unfold queued. unfold r'. rc. rewrite ins_app, outs_app. cbn. rewrite app_nil_r. rewrite (nth_skipn _ _ _ V). now rewrite Nat.add_1_r.
        * unfold ticket, r'. rc. rewrite !tset_same. exists (r_hist r), []. split; auto. split; [|easy].
          pose proof (ri_claims _ _ _ _ _ R) as X. unfold placed_out in EP. rewrite <- EP. unfold placed_out in X. lia.
        * unfold r'; rc. apply served_plain; [apply R|discriminate].
        * intros u d. unfold r'. rc. destruct (Nat.eq_dec u t) as [->|X]; [rewrite tset_same; discriminate|rewrite tset_other by auto; apply R].
        * apply (marked_plain r r' [Claimed t]); auto; [apply R|]. right. exists (Claimed t). split; auto. discriminate.
        * unfold r'; rc. unfold got, given_back. rewrite !count_snoc, !Nat.add_0_r, lent_snoc. destruct (ri_giving _ _ _ _ _ R) as (A1 & A2 & A3). split; auto. split; auto.
          apply (set_same _ (fun u => r_pc r u = RLoan \/ exists c, r_pc r u = RPut c) _ t); auto; [intros u X; now rewrite tset_other|rewrite tset_same, Pc].
          split; intros [X|(d & X)]; discriminate.
        * unfold r'; rc. rewrite lent_snoc. apply R.
      + injection Eq as <-. placing_of Qp E. silent R Pc Ha.
    - qgo Qp Eq. placing_of Qp E. silent R Pc Ha.
      + rewrite Ha. unfold hand, val. rc. rewrite !tset_same, app_nil_r. reflexivity.
      + unfold ticket. rc. now rewrite !tset_same, app_nil_r.
    - (* returns *)
      cbn [qstep] in Eq. rewrite Qp in Eq. injection Eq as <-. destruct Th as (Hp & Hl & Hg & Hd & Hv).
      assert (LT : P < placed_in (r_q r)) by (pose proof (i_bnd _ _ _ Q0); lia).
      destruct y as [c|].
      2:{ exfalso. symmetry in Hv. unfold val in Hv. apply nth_error_None in Hv. unfold placed_in in LT. lia. }
      injection E as <-.
      apply (RI_quiet r _ t F gs); auto; cbn [r_q r_set_q r_goto r_pc r_hist]; rewrite ?tset_same, ?app_nil_r; auto; try (qnil; fail); rewrite ?Pc; try discriminate; try easy.
      + intros u X. now rewrite tset_other.
      + intros u X. cbn. now rewrite tset_other.
      + cbn. now rewrite tset_same.
      + rewrite Ha. unfold hand. cbn. now rewrite tset_same.
      + unfold ticket. cbn. rewrite tset_same, app_nil_r. exists (N.to_nat n + N.to_nat P)%nat. split; auto.
        unfold due. destruct (N.ltb_spec (N.of_nat (N.to_nat n + N.to_nat P)) n); [lia|].
        rewrite (ri_backs _ _ _ _ _ R). rewrite Nat.add_comm, Nat.add_sub. unfold val in Hv. now symmetry.
      + split; intros [X|(d & X)]; discriminate.
  Qed.

  (** The step of a thread in returnChunk that hands the chunk to the queue. *)
  Lemma step_put r t sp r' F gs asking giving c : RI r F gs asking giving -> (forall u, stale (r_q r) u < 2 ^ 62) -> r_pc r t = RPut c ->
    rstep r (RGo t sp) = Some r' -> exists gs', RI r' F gs' asking giving.
  Proof.
    intros R St Pc E. unfold rstep in E. rewrite (ri_bad _ _ _ _ _ R), Pc in E.
    pose proof (ri_fits _ _ _ _ _ R t) as Ft. rewrite Pc in Ft. cbn [fits] in Ft.
    assert (Ha : hand r t = match cq_pc (r_q r) t with EData _ _ _ | EPub _ _ _ => None | _ => Some c end) by (unfold hand; now rewrite Pc).
    assert (Q0 : qinv (upper_power_of_two n) (r_q r) gs) by apply R.
    destruct (cq_pc (r_q r) t) as [|x|x pos P|x pos P|x pos P|x pos P| |pos P|pos P|pos P|pos P y] eqn:Qp; try contradiction; try subst x.
    all: match type of E with context [qstep ?q ?a] => destruct (qstep q a) as [q'|] eqn:Eq; [|discriminate]; destruct (q_move r t a q' F gs asking giving R St Eq) as (gs' & Q & H) end;
      exists gs'.
    - injection E as <-. qgo Qp Eq. silent R Pc Ha.
    - qgo Qp Eq. placing_of Qp E. silent R Pc Ha.
    - qgo Qp Eq; placing_of Qp E; silent R Pc Ha.
    - (* the compare-exchange *)
      cbn [qstep] in Eq. rewrite Qp in Eq. destruct ((cq_enq (r_q r) =? pos) && negb sp)%bool eqn:B.
      + injection Eq as <-. placing_of Qp E.
        set (r' := r_goto _ _ _ _).
        assert (Ev : hand r' t = None) by (unfold hand, r'; rc; now rewrite !tset_same).
        assert (Oh : forall u, u <> t -> hand r' u = hand r u).
        { intros u X. apply (hand_other r r' u [c] gs); auto; unfold r'; rc; rewrite ?tset_other; auto. rewrite ins_app. reflexivity. }
        apply (RI_move r r' t F gs asking giving F gs' asking giving [Placed t c] [c]); auto; try apply R.
        * intros u X. unfold r'; rc. now rewrite tset_other.
        * intros u X. unfold r'; rc. now rewrite tset_other.
        * unfold r'; rc. rewrite ins_app. reflexivity.
        * right. exists (Placed t c). auto.
        * lia.
        * unfold r'; rc. rewrite !tset_same. reflexivity.
        * unfold r'; rc. unfold asked. rewrite count_snoc, Nat.add_0_r. destruct (ri_asking _ _ _ _ _ R) as (A1 & A2 & A3). split; auto. split; auto.
          apply (set_same _ (fun u => r_pc r u = GCount) _ t); auto; [intros u X; now rewrite tset_other|rewrite tset_same, Pc; easy].
        * unfold r'; rc. unfold claims. rewrite count_snoc. pose proof (ri_claims _ _ _ _ _ R) as X. unfold claims in X.
          unfold placed_out in *. rc. rewrite outs_app. cbn. lia.
        * unfold r'; rc. rewrite tset_same. discriminate.
        * unfold r', placed_out; rc. rewrite outs_app. cbn. rewrite Nat.add_0_r. apply (ri_outs _ _ _ _ _ R).
        * unfold r'; rc. rewrite backs_snoc, ins_app. cbn. f_equal. apply R.
        * assert (Eq : queued (r_q r') = queued (r_q r) ++ [c]).
          { unfold queued, r'; rc. rewrite ins_app, outs_app. cbn. rewrite Nat.add_0_r, skipn_app.
            pose proof (proj1 (i_bnd _ _ _ Q0)) as Bd. unfold placed_out, placed_in in Bd.
            replace (outs (cq_hist (r_q r)) - length (ins (cq_hist (r_q r))))%nat with 0%nat by lia. reflexivity. }
          rewrite Eq. apply (U_put (N.min F n) _ (queued (r_q r)) (hand r)) with (t := t); auto.
          unfold r'; rc. rewrite lent_snoc. apply R.
        * unfold ticket, r'; rc. rewrite !tset_same. exact I.
        * unfold r'; rc. apply served_plain; [apply R|discriminate].
        * intros u d. unfold r'; rc. destruct (Nat.eq_dec u t) as [->|X]; [rewrite tset_same; discriminate|rewrite tset_other by auto; apply R].
        * apply (marked_plain r r' [Placed t c]); auto; [apply R|]. right. exists (Placed t c). split; auto. discriminate.
        * unfold r'; rc. unfold got, given_back. rewrite !count_snoc, !Nat.add_0_r, lent_snoc. destruct (ri_giving _ _ _ _ _ R) as (A1 & A2 & A3). split; auto. split; auto.
          apply (set_same _ (fun u => r_pc r u = RLoan \/ exists c, r_pc r u = RPut c) _ t); auto; [intros u X; now rewrite tset_other|rewrite tset_same, Pc].
          split; intros _; right; eauto.
        * unfold r'; rc. rewrite lent_snoc. apply R.
      + injection Eq as <-. placing_of Qp E. silent R Pc Ha.
    - qgo Qp Eq. placing_of Qp E. silent R Pc Ha.
    - qgo Qp Eq. injection E as <-. silent R Pc Ha. split; auto. right. eauto.
  Qed.

  Lemma down_one a b : (N.of_nat (a + S b) mod w64 + (w64 - 1)) mod w64 = N.of_nat (a + b) mod w64.
  Proof.
    unfold w64. rewrite N.add_mod_idemp_l by lia. replace (N.of_nat (a + S b) + (2 ^ 64 - 1)) with (N.of_nat (a + b) + 1 * 2 ^ 64) by lia.
    now apply N.mod_add.
  Qed.

  (** ** The other steps *)
  Lemma RI_step r a r' F gs asking giving : RI r F gs asking giving -> (forall u, stale (r_q r) u < 2 ^ 62) ->
    (N.of_nat (asked (r_hist r)) < 2 ^ 64) -> rstep r a = Some r' -> exists F' gs' asking' giving', RI r' F' gs' asking' giving'.
  Proof.
    intros R St Lt E. destruct (ri_asking _ _ _ _ _ R) as (A1 & A2 & A3). destruct (ri_giving _ _ _ _ _ R) as (G1 & G2 & G3).
    assert (Q0 : qinv (upper_power_of_two n) (r_q r) gs) by apply R.
    destruct a as [t|t c|t sp].
    - unfold rstep in E. rewrite (ri_bad _ _ _ _ _ R) in E. destruct (r_pc r t) eqn:Pc; try discriminate. injection E as <-.
      pose proof (ri_fits _ _ _ _ _ R t) as Ft. rewrite Pc in Ft. cbn in Ft.
      destruct (set_add asking (fun u => r_pc r u = GCount) (fun u => tset (r_pc r) t GCount u = GCount) t) as (B1 & B2); auto; [intros u X; now rewrite tset_other|congruence|now rewrite tset_same|].
      exists F, gs, (t :: asking), giving. set (r' := r_goto _ _ _ _).
      assert (Oh : forall u, u <> t -> hand r' u = hand r u) by (intros u X; unfold hand, r'; rc; now rewrite tset_other).
      apply (RI_move r r' t F gs asking giving F gs (t :: asking) giving [GetCalled t] []); auto; try apply R.
      + intros u X. unfold r'; rc. now rewrite tset_other.
      + unfold r'; rc. now rewrite app_nil_r.
      + right. exists (GetCalled t). auto.
      + lia.
      + unfold r'; rc. now rewrite tset_same.
      + unfold r'; rc. unfold asked in *. rewrite count_snoc. split; auto. split; auto. cbn [length]. lia.
      + unfold r'; rc. unfold claims. rewrite count_snoc, Nat.add_0_r. apply R.
      + unfold r'; rc. rewrite tset_same. discriminate.
      + unfold r'; rc. rewrite backs_snoc, app_nil_r. apply R.
      + unfold r'; rc. rewrite lent_snoc. apply (U_same _ _ _ (hand r)) with (t := t); auto; [apply R|]. unfold hand; rc. now rewrite tset_same, Pc.
      + unfold ticket, r'; rc. now rewrite tset_same.
      + unfold r'; rc. apply served_plain; [apply R|discriminate].
      + intros u d. unfold r'; rc. destruct (Nat.eq_dec u t) as [->|X]; [rewrite tset_same; discriminate|rewrite tset_other by auto; apply R].
      + apply (marked_plain r r' [GetCalled t]); auto; [apply R|]. right. exists (GetCalled t). split; auto. discriminate.
      + unfold r'; rc. unfold got, given_back in *. rewrite !count_snoc, !Nat.add_0_r, lent_snoc. split; auto. split; auto.
        apply (set_same _ (fun u => r_pc r u = RLoan \/ exists c, r_pc r u = RPut c) _ t); auto; [intros u X; now rewrite tset_other|rewrite tset_same, Pc].
        split; intros [X|(d & X)]; discriminate.
      + unfold r'; rc. rewrite lent_snoc. apply R.
    - unfold rstep in E. rewrite (ri_bad _ _ _ _ _ R) in E. destruct (r_pc r t) eqn:Pc; try discriminate.
      destruct (existsb (N.eqb c) (lent_out (r_hist r))) eqn:Ex; [|discriminate]. injection E as <-.
      apply existsb_exists in Ex as (d & Ic & Ed). apply N.eqb_eq in Ed. subst d.
      pose proof (ri_fits _ _ _ _ _ R t) as Ft. rewrite Pc in Ft. cbn in Ft.
      set (r' := r_goto _ _ _ _).
      destruct (set_add giving (fun u => r_pc r u = RLoan \/ exists c, r_pc r u = RPut c) (fun u => r_pc r' u = RLoan \/ exists c, r_pc r' u = RPut c) t) as (B1 & B2); auto;
        [intros u X; unfold r'; rc; now rewrite tset_other|intros [X|(d & X)]; congruence|unfold r'; rc; rewrite tset_same; right; eauto|].
      exists F, gs, asking, (t :: giving).
      assert (Oh : forall u, u <> t -> hand r' u = hand r u) by (intros u X; unfold hand, r'; rc; now rewrite tset_other).
      apply (RI_move r r' t F gs asking giving F gs asking (t :: giving) [RetCalled t c] []); auto; try apply R.
      + intros u X. unfold r'; rc. now rewrite tset_other.
      + unfold r'; rc. now rewrite app_nil_r.
      + right. exists (RetCalled t c). auto.
      + lia.
      + unfold r'; rc. rewrite tset_same, Ft. exact I.
      + unfold r'; rc. unfold asked in *. rewrite ?count_snoc, ?Nat.add_0_r, ?app_nil_r. split; auto. split; auto.
        apply (set_same _ (fun u => r_pc r u = GCount) _ t); auto; [intros u X; now rewrite tset_other|rewrite tset_same, Pc; easy].
      + unfold r'; rc. unfold claims. rewrite ?count_snoc, ?Nat.add_0_r, ?app_nil_r. apply R.
      + unfold r'; rc. rewrite tset_same. discriminate.
      + unfold r'; rc. rewrite backs_snoc, app_nil_r. apply R.
      + unfold r' at 1; rc. rewrite lent_snoc. apply (U_back _ (lent_out (r_hist r)) _ (hand r)) with (t := t); auto; [apply R|unfold hand; now rewrite Pc|].
        unfold hand, r'; rc. now rewrite tset_same, Ft.
      + unfold ticket, r'; rc. now rewrite tset_same.
      + unfold r'; rc. apply served_plain; [apply R|discriminate].
      + intros u d. unfold r'; rc. destruct (Nat.eq_dec u t) as [->|X]; [rewrite tset_same; discriminate|rewrite tset_other by auto; apply R].
      + apply (marked_plain r r' [RetCalled t c]); auto; [apply R|]. right. exists (RetCalled t c). split; auto. discriminate.
      + split; auto. split; auto. unfold r'; rc. unfold got, given_back in *. rewrite !count_snoc, !Nat.add_0_r, lent_snoc. pose proof (take_out_length c (lent_out (r_hist r)) Ic) as TL. cbn [length]. lia.
      + unfold r'; rc. rewrite lent_snoc, (ri_loan _ _ _ _ _ R). pose proof (take_out_length c (lent_out (r_hist r)) Ic) as TL. f_equal. cbn [length]. lia.
    - assert (E0 := E). unfold rstep in E0. rewrite (ri_bad _ _ _ _ _ R) in E0. destruct (r_pc r t) as [| | |c|c|c|] eqn:Pc; try discriminate;
        [clear E| |clear E|clear E| |clear E].
      2:{ destruct (step_wait r t sp r' F gs asking giving R St Pc E) as (gs' & R'). eauto 10. }
      4:{ destruct (step_put r t sp r' F gs asking giving c R St Pc E) as (gs' & R'). eauto 10. }
      all: pose proof (ri_fits _ _ _ _ _ R t) as Ft; rewrite Pc in Ft; cbn in Ft.
      all: cbv zeta in E0.
      + (* actual_count++ *)
        assert (Ia : In t asking) by now apply A2.
        assert (La : (0 < length asking)%nat) by (destruct asking; [easy|cbn; lia]).
        assert (EF : r_count r = F) by (rewrite (ri_count _ _ _ _ _ R); apply N.mod_small; unfold w64; lia).
        rewrite (ri_size _ _ _ _ _ R), EF in E0.
        destruct (N.leb_spec n F) as [Ge|Lo]; injection E0 as <-; set (r' := r_goto _ _ _ _);
          (destruct (set_del asking (fun u => r_pc r u = GCount) (fun u => r_pc r' u = GCount) t) as (as' & B1 & B2 & B3); auto;
            [intros u X; unfold r'; rc; now rewrite tset_other|unfold r'; rc; rewrite tset_same; discriminate|]);
          exists (F + 1), gs, as', giving;
          assert (Oh : forall u, u <> t -> hand r' u = hand r u) by (intros u X; unfold hand, r'; rc; now rewrite tset_other).
        -- apply (RI_move r r' t F gs asking giving (F + 1) gs as' giving [] []); auto; try apply R.
           ++ intros u X. unfold r'; rc. now rewrite tset_other.
           ++ unfold r'; rc. now rewrite app_nil_r.
           ++ lia.
           ++ unfold r'; rc. rewrite tset_same, Ft. exact I.
           ++ split; auto. split; auto. unfold r'; rc. rewrite app_nil_r. lia.
           ++ unfold r'; rc. rewrite app_nil_r, (ri_claims _ _ _ _ _ R). lia.
           ++ intros _. lia.
           ++ intros _. lia.
           ++ unfold r'; rc. rewrite app_nil_r. apply R.
           ++ unfold r' at 1; rc. rewrite app_nil_r. replace (N.min (F + 1) n) with (N.min F n) by lia. apply (U_same _ _ _ (hand r)) with (t := t); auto; [apply R|].
          unfold hand, r'; rc. now rewrite tset_same, Pc, Ft.
           ++ unfold ticket, r'; rc. now rewrite tset_same, Ft.
           ++ unfold r'; rc. rewrite app_nil_r. apply R.
           ++ intros u d. unfold r'; rc. destruct (Nat.eq_dec u t) as [->|X]; [rewrite tset_same; discriminate|rewrite tset_other by auto; apply R].
           ++ apply (marked_plain r r' []); auto. apply R.
           ++ unfold r'; rc. unfold got, given_back in *. rewrite ?count_snoc, ?Nat.add_0_r, ?lent_snoc, ?app_nil_r. split; auto. split; auto.
          apply (set_same _ (fun u => r_pc r u = RLoan \/ exists c, r_pc r u = RPut c) _ t); auto; [intros u X; now rewrite tset_other|rewrite tset_same, Pc].
          split; intros [X|(d & X)]; discriminate.
           ++ unfold r'; rc. rewrite ?lent_snoc, ?app_nil_r. apply R.
        -- apply (RI_move r r' t F gs asking giving (F + 1) gs as' giving [Claimed t] []); auto; try apply R.
           ++ intros u X. unfold r'; rc. now rewrite tset_other.
           ++ unfold r'; rc. now rewrite app_nil_r.
           ++ right. exists (Claimed t). auto.
           ++ lia.
           ++ unfold r'; rc. now rewrite tset_same.
           ++ split; auto. split; auto. unfold r'; rc. unfold asked in *. rewrite count_snoc, Nat.add_0_r. lia.
           ++ unfold r'; rc. unfold claims. rewrite count_snoc. pose proof (ri_claims _ _ _ _ _ R) as X. unfold claims in X. lia.
           ++ unfold r'; rc. rewrite tset_same. discriminate.
           ++ unfold r'; rc. intros X. pose proof (ri_outs _ _ _ _ _ R X). lia.
           ++ unfold r'; rc. rewrite backs_snoc, app_nil_r. apply R.
           ++ unfold r' at 1; rc. rewrite lent_snoc. replace (N.min (F + 1) n) with (N.min F n + 1) by lia. apply (U_fresh _ _ _ (hand r)) with (t := t); auto; [apply R|unfold hand; now rewrite Pc|].
          unfold hand, r'; rc. rewrite tset_same. f_equal. lia.
           ++ unfold ticket, r'; rc. rewrite tset_same. exists (claims (r_hist r)). split; [exists (r_hist r), []; easy|].
          assert (X : N.of_nat (claims (r_hist r)) = F).
          { rewrite (ri_claims _ _ _ _ _ R). destruct (N.eq_dec (placed_out (r_q r)) 0) as [Z|Z]; [lia|]. pose proof (ri_outs _ _ _ _ _ R). lia. }
          unfold due. rewrite X. destruct (N.ltb_spec F n); [reflexivity|lia].
           ++ unfold r'; rc. apply served_plain; [apply R|discriminate].
           ++ intros u d. unfold r'; rc. destruct (Nat.eq_dec u t) as [->|X]; [rewrite tset_same; discriminate|rewrite tset_other by auto; apply R].
           ++ apply (marked_plain r r' [Claimed t]); auto; [apply R|]. right. exists (Claimed t). split; auto. discriminate.
           ++ unfold r'; rc. unfold got, given_back in *. rewrite ?count_snoc, ?Nat.add_0_r, ?lent_snoc, ?app_nil_r. split; auto. split; auto.
          apply (set_same _ (fun u => r_pc r u = RLoan \/ exists c, r_pc r u = RPut c) _ t); auto; [intros u X; now rewrite tset_other|rewrite tset_same, Pc].
          split; intros [X|(d & X)]; discriminate.
           ++ unfold r'; rc. rewrite ?lent_snoc, ?app_nil_r. apply R.
      + injection E0 as <-. set (r' := r_goto _ _ _ _). exists F, gs, asking, giving.
        assert (Hc : hand r t = Some c) by (unfold hand; now rewrite Pc).
        assert (Oh : forall u, u <> t -> hand r' u = hand r u) by (intros u X; unfold hand, r'; rc; now rewrite tset_other).
        apply (RI_move r r' t F gs asking giving F gs asking giving [] []); auto; try apply R.
        * intros u X. unfold r'; rc. now rewrite tset_other.
        * unfold r'; rc. now rewrite app_nil_r.
        * lia.
        * unfold r'; rc. now rewrite tset_same.
        * unfold r'; rc. unfold asked in *. rewrite ?count_snoc, ?Nat.add_0_r, ?app_nil_r. split; auto. split; auto.
          apply (set_same _ (fun u => r_pc r u = GCount) _ t); auto; [intros u X; now rewrite tset_other|rewrite tset_same, Pc; easy].
        * unfold r'; rc. unfold claims. rewrite ?count_snoc, ?Nat.add_0_r, ?app_nil_r. apply R.
        * unfold r'; rc. rewrite tset_same. discriminate.
        * unfold r'; rc. rewrite app_nil_r. apply R.
        * unfold r' at 1; rc. rewrite app_nil_r. apply (U_same _ _ _ (hand r)) with (t := t); auto; [apply R|]. rewrite Hc. unfold hand, r'; rc. now rewrite tset_same.
        * pose proof (ri_ticket _ _ _ _ _ R t) as Ti. unfold ticket in *. rewrite Pc in Ti. unfold r'; rc. now rewrite tset_same, app_nil_r.
        * unfold r'; rc. rewrite app_nil_r. apply R.
        * intros u d. unfold r'; rc. destruct (Nat.eq_dec u t) as [->|X]; [rewrite tset_same; intros [= <-]; apply upd_same|rewrite tset_other by auto].
          intros Hd. rewrite upd_other; [now apply (ri_mark _ _ _ _ _ R)|]. intros ->. apply X. apply (u_inj _ _ _ _ (ri_u _ _ _ _ _ R) u t c); auto. unfold hand. now rewrite Hd.
        * intros a u d b Eh Nb. unfold r' in *; revert Eh; rc; intros Eh. rewrite app_nil_r in Eh. rewrite upd_other; [now apply (ri_marked _ _ _ _ _ R a u d b)|].
          intros ->. destruct (u_hand _ _ _ _ (ri_u _ _ _ _ _ R) t c Hc) as (_ & NI). apply NI, in_or_app. left. rewrite Eh. now apply still_lent.
        * unfold r'; rc. unfold got, given_back in *. rewrite ?count_snoc, ?Nat.add_0_r, ?lent_snoc, ?app_nil_r. split; auto. split; auto.
          apply (set_same _ (fun u => r_pc r u = RLoan \/ exists c, r_pc r u = RPut c) _ t); auto; [intros u X; now rewrite tset_other|rewrite tset_same, Pc].
          split; intros [X|(d & X)]; discriminate.
        * unfold r'; rc. rewrite ?lent_snoc, ?app_nil_r. apply R.
      + injection E0 as <-. set (r' := r_goto _ _ _ _). exists F, gs, asking, giving.
        assert (Hc : hand r t = Some c) by (unfold hand; now rewrite Pc).
        assert (Oh : forall u, u <> t -> hand r' u = hand r u) by (intros u X; unfold hand, r'; rc; now rewrite tset_other).
        apply (RI_move r r' t F gs asking giving F gs asking giving [GetReturned t c] []); auto; try apply R.
        * intros u X. unfold r'; rc. now rewrite tset_other.
        * unfold r'; rc. now rewrite app_nil_r.
        * right. exists (GetReturned t c). auto.
        * lia.
        * unfold r'; rc. now rewrite tset_same.
        * unfold r'; rc. unfold asked in *. rewrite ?count_snoc, ?Nat.add_0_r, ?app_nil_r. split; auto. split; auto.
          apply (set_same _ (fun u => r_pc r u = GCount) _ t); auto; [intros u X; now rewrite tset_other|rewrite tset_same, Pc; easy].
        * unfold r'; rc. unfold claims. rewrite ?count_snoc, ?Nat.add_0_r, ?app_nil_r. apply R.
        * unfold r'; rc. rewrite tset_same. discriminate.
        * unfold r'; rc. rewrite backs_snoc, app_nil_r. apply R.
        * unfold r' at 1; rc. rewrite lent_snoc. apply (U_lend _ _ _ (hand r)) with (t := t); auto; [apply R|]. unfold hand, r'; rc. now rewrite tset_same.
        * unfold ticket, r'; rc. now rewrite tset_same.
        * pose proof (ri_ticket _ _ _ _ _ R t) as Ti. unfold ticket in Ti. rewrite Pc in Ti. destruct Ti as (i & (a & b & Eh & Ei & Nb) & D). subst i.
          unfold r'; rc. apply (served_more _ _ _ _ a b); auto. apply R.
        * intros u d. unfold r'; rc. destruct (Nat.eq_dec u t) as [->|X]; [rewrite tset_same; discriminate|rewrite tset_other by auto; apply R].
        * intros a u d b Eh Nb. unfold r' in *; revert Eh; rc; intros Eh. apply snoc_split in Eh as [(-> & -> & X)|(s & -> & X)].
          -- injection X as <- <-. now apply (ri_mark _ _ _ _ _ R).
          -- apply (ri_marked _ _ _ _ _ R a u d s X). intros v Hv. apply (Nb v), in_or_app. auto.
        * unfold r'; rc. unfold got, given_back in *. rewrite !count_snoc, Nat.add_0_r, lent_snoc. split; auto. split; [|cbn [length]; lia].
          apply (set_same _ (fun u => r_pc r u = RLoan \/ exists c, r_pc r u = RPut c) _ t); auto; [intros u X; now rewrite tset_other|rewrite tset_same, Pc].
          split; intros [X|(d & X)]; discriminate.
        * unfold r'; rc. rewrite lent_snoc, (ri_loan _ _ _ _ _ R). unfold w64. rewrite N.add_mod_idemp_l by lia. f_equal. cbn [length]. lia.
      + injection E0 as <-. set (r' := r_goto _ _ _ _).
        destruct (set_del giving (fun u => r_pc r u = RLoan \/ exists c, r_pc r u = RPut c) (fun u => r_pc r' u = RLoan \/ exists c, r_pc r' u = RPut c) t) as (gi' & B1 & B2 & B3); auto;
          [intros u X; unfold r'; rc; now rewrite tset_other|unfold r'; rc; rewrite tset_same; intros [X|(d & X)]; discriminate|].
        exists F, gs, asking, gi'.
        assert (Oh : forall u, u <> t -> hand r' u = hand r u) by (intros u X; unfold hand, r'; rc; now rewrite tset_other).
        apply (RI_move r r' t F gs asking giving F gs asking gi' [RetReturned t] []); auto; try apply R.
        * intros u X. unfold r'; rc. now rewrite tset_other.
        * unfold r'; rc. now rewrite app_nil_r.
        * right. exists (RetReturned t). auto.
        * lia.
        * unfold r'; rc. now rewrite tset_same.
        * unfold r'; rc. unfold asked in *. rewrite ?count_snoc, ?Nat.add_0_r, ?app_nil_r. split; auto. split; auto.
          apply (set_same _ (fun u => r_pc r u = GCount) _ t); auto; [intros u X; now rewrite tset_other|rewrite tset_same, Pc; easy].
        * unfold r'; rc. unfold claims. rewrite ?count_snoc, ?Nat.add_0_r, ?app_nil_r. apply R.
        * unfold r'; rc. rewrite tset_same. discriminate.
        * unfold r'; rc. rewrite backs_snoc, app_nil_r. apply R.
        * unfold r' at 1; rc. rewrite lent_snoc. apply (U_same _ _ _ (hand r)) with (t := t); auto; [apply R|]. unfold hand, r'; rc. now rewrite tset_same, Pc.
        * unfold ticket, r'; rc. now rewrite tset_same.
        * unfold r'; rc. apply served_plain; [apply R|discriminate].
        * intros u d. unfold r'; rc. destruct (Nat.eq_dec u t) as [->|X]; [rewrite tset_same; discriminate|rewrite tset_other by auto; apply R].
        * apply (marked_plain r r' [RetReturned t]); auto; [apply R|]. right. exists (RetReturned t). split; auto. discriminate.
        * split; auto. split; auto. unfold r'; rc. unfold got, given_back in *. rewrite !count_snoc, Nat.add_0_r, lent_snoc. lia.
        * unfold r'; rc. rewrite lent_snoc, (ri_loan _ _ _ _ _ R), B3. apply down_one.
  Qed.

  (** ** Runs *)

  Lemma RI_new : RI (cring_new n) 0 (fun i => i) [] [].
  Proof.
    destruct cap_facts as (j & Hc & H1 & H2 & _). destruct (qinv_new (T := N) _ j Hc H1 H2) as (Q & H).
    split; cbn; auto; try easy.
    - split; [constructor|]. split; [|reflexivity]. intros t. split; [easy|discriminate].
    - unfold placed_out. cbn. lia.
    - split; cbn; try easy; try (constructor; fail). intros c Hc'. lia.
    - intros pre t c post E. now destruct pre.
    - intros a t c b E. now destruct a.
    - split; [constructor|]. split; [|reflexivity]. intros t. split; [easy|]. intros [X|(c & X)]; discriminate.
  Qed.

  Lemma hist_grows r a r' : rstep r a = Some r' -> exists e, r_hist r' = r_hist r ++ e.
  Proof.
    clear. unfold rstep. destruct (r_bad r); [discriminate|]. intros E.
    assert (forall q l, exists e, r_hist (r_set_q r q) ++ l = r_hist r ++ e) as K by (intros q l; exists l; reflexivity).
    destruct a as [t|t c|t sp]; destruct (r_pc r t); try discriminate;
      repeat match type of E with context [match ?x with _ => _ end] => destruct x; try discriminate end;
      injection E as <-; cbn [r_hist r_goto r_set_q r_set_count r_set_loan r_set_user r_set_bad]; first [eexists; reflexivity|exists []; now rewrite app_nil_r].
  Qed.

  (** No thread uses a position of the queue that it read 2^62 placements ago. *)
  Definition timely (sched : list ract) : Prop :=
    forall pre post, sched = pre ++ post -> forall t, stale (r_q (rrun n pre)) t < 2 ^ 62.

  Lemma run_RI sched : timely sched -> N.of_nat (asked (r_hist (rrun n sched))) < 2 ^ 64 ->
    exists F gs asking giving, RI (rrun n sched) F gs asking giving.
  Proof.
    induction sched as [|a sched IH] using rev_ind; intros T L.
    - exists 0, (fun i => i), [], []. apply RI_new.
    - unfold rrun in *. rewrite run_snoc in *. unfold move in *.
      destruct (rstep (run rstep (cring_new n) sched) a) as [r'|] eqn:E.
      + destruct (hist_grows _ _ _ E) as (e & Eh).
        assert (N.of_nat (asked (r_hist (run rstep (cring_new n) sched))) < 2 ^ 64) as L'.
        { rewrite Eh in L. unfold asked, count in *. rewrite filter_app, app_length in L. lia. }
        destruct IH as (F & gs & asking & giving & R); auto.
        { intros pre post X. apply (T pre (post ++ [a])). now rewrite X, <- app_assoc. }
        apply (RI_step _ a _ F gs asking giving R); auto. intros u. apply (T sched [a] eq_refl).
      + apply IH; auto. intros pre post X. apply (T pre (post ++ [a])). now rewrite X, <- app_assoc.
  Qed.

  (** Short runs are timely, and ask less than 2^64 times. *)
  Lemma qstep_short (q : cqueue N) a q' : qstep q a = Some q' -> (length (cq_hist q') <= length (cq_hist q) + 1)%nat.
  Proof.
    clear. destruct a as [t x|t|t sp]; cbn [qstep]; destruct (cq_pc q t); try discriminate;
      repeat match goal with |- context [if ?b then _ else _] => destruct b end;
      intros [= <-]; cbn [cq_hist cq_goto cq_set_data cq_set_seq cq_set_enq cq_set_deq]; rewrite app_length; cbn; lia.
  Qed.

  Lemma run_short sched : (length (cq_hist (r_q (rrun n sched))) <= length sched)%nat /\ (length (r_hist (rrun n sched)) <= length sched)%nat.
  Proof.
    clear Hn. induction sched as [|a sched IH] using rev_ind; [cbn; lia|].
    unfold rrun in *. rewrite run_snoc, app_length. unfold move.
    destruct (rstep (run rstep (cring_new n) sched) a) as [r'|] eqn:E; [|cbn; lia].
    revert IH E. generalize (run rstep (cring_new n) sched). intros r IH E.
    assert ((length (cq_hist (r_q r')) <= length (cq_hist (r_q r)) + 1)%nat /\ (length (r_hist r') <= length (r_hist r) + 1)%nat); [|cbn; lia].
    clear IH. unfold rstep in E. destruct (r_bad r); [discriminate|].
    assert (forall q q' t, (length (placing q q' t) <= 1)%nat) as Pl by (intros q q' t; unfold placing; destruct (cq_pc q t), (cq_pc q' t); cbn; lia).
    destruct a as [t|t c|t sp]; destruct (r_pc r t); try discriminate;
      try (destruct (cq_pc (r_q r) t));
      repeat match type of E with context [match qstep ?q ?a with _ => _ end] => destruct (qstep q a) as [q'|] eqn:Q; [apply qstep_short in Q|]; try discriminate
             | context [match ?x with _ => _ end] => destruct x; try discriminate end;
      injection E as <-; cbn [r_q r_hist r_goto r_set_q r_set_count r_set_loan r_set_user r_set_bad]; rewrite ?app_length; try (specialize (Pl (r_q r) q' t)); cbn [length] in *; lia.
  Qed.

  Lemma short_timely sched : N.of_nat (length sched) < 2 ^ 62 -> timely sched /\ N.of_nat (asked (r_hist (rrun n sched))) < 2 ^ 64.
  Proof.
    clear Hn. intros L. split.
    - intros pre post E t. apply (f_equal (@length _)) in E. rewrite app_length in E. destruct (run_short pre) as (A & _).
      assert (forall q : cqueue N, placed_in q <= N.of_nat (length (cq_hist q)) /\ placed_out q <= N.of_nat (length (cq_hist q))) as K.
      { intros q. unfold placed_in, placed_out, outs, ins. induction (cq_hist q) as [|e h IH]; cbn; [lia|]. rewrite app_length. destruct e; cbn; lia. }
      destruct (K (r_q (rrun n pre))) as (B & C). unfold stale. destruct (cq_pc _ t); lia.
    - destruct (run_short sched) as (_ & A). assert (asked (r_hist (rrun n sched)) <= length (r_hist (rrun n sched)))%nat; [|lia].
      unfold asked, count. generalize (r_hist (rrun n sched)). clear. induction l as [|e h IH]; cbn; [lia|]. destruct e; cbn; lia.
  Qed.
End Ring.
