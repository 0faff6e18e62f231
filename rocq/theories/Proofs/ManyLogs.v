(** Logs whose threads register with one log each do not disturb each other:
    every log behaves as one that is alone. *)
From Verif Require Import Base Model.StringUtils Model.Event Model.Queue Model.Buffer Model.Config Spec.Categories Model.Registry
  Model.Interleave Spec.LogHistory Spec.LogFacts Spec.LogRecords Model.TraceLog Model.ManyLogs Spec.LogMemory Spec.ManyLogs Proofs.Interleave Proofs.Registry Proofs.LogFrame Proofs.LogView Proofs.LogViewInv
  Proofs.LogContract Proofs.LogBuffers Proofs.LogSafe Proofs.LogSafeInv Proofs.LogSafeAT Proofs.LogSafeOW Proofs.LogSafeAll Proofs.LogRaces Proofs.LogHolders.

(** Actions on the running thread's own tenant. *)
Definition own_tenant (a : act) : bool :=
  match a with
  | ATryTenant | AUnTenant | AChunkGet | AChunkSet _ | AInitGet | AReg _ | AFull _ _ | AStore _ _ _ | AReturn _ _ => true
  | _ => false
  end.

Section Disjoint.
  Variables cap csz : N.
  Variable site_cat : nat -> bytes.
  Variable own : tid -> lid.
  Notation pstep := (pstep cap csz site_cat).
  Notation reached := (reached cap csz site_cat).

  Section One.
    Variable x : lid.

    Definition okD (t : tid) (_ : unit) (a : act) : Prop :=
      (own_tenant a = true -> own t = x) /\
      match a with AMaster u | AEvict u | AUnMaster u => own u = x | _ => True end.
    Definition postD (t : tid) (_ : unit) (a : act) : ans a -> unit -> Prop :=
      match a return ans a -> unit -> Prop with
      | ASnap => fun r _ => forall u, In u r -> own u = x
      | APick l => fun r _ => In r l
      | _ => fun _ _ => True
      end.
    Definition good (t : tid) (c : cmd) : Prop := valid okD postD (fun _ => True) t c tt.

    Lemma good_ret t : good t Ret.
    Proof. exact I. Qed.
    Lemma good_act t a k : okD t tt a -> (forall r, postD t tt a r tt -> good t (k r)) -> good t (Act a k).
    Proof. intros O K. split; [exact O|]. intros r []. apply K. Qed.

    Ltac act := match goal with
      | |- good _ Ret => exact I
      | |- good _ (Act _ _) => apply good_act; [split; [cbn; try discriminate; auto|exact I]|intros ? _; cbv beta]
      | |- good _ (if ?b then _ else _) => destruct b
      | |- good _ (match ?b with _ => _ end) => destruct b
      | H : forall r, good _ (?k r) |- good _ (?k _) => apply H
      | H : good _ ?k |- good _ ?k => exact H
      end.
    Ltac walk := cbv beta zeta; repeat act.

    Lemma good_evict t n : forall l k, (forall u, In u l -> own u = x) -> good t k -> good t (evict n l k).
    Proof.
      induction n as [|n IH]; intros l k D K; [exact K|]. cbn [evict]. apply good_act; [now split|]. intros u Hu. cbn in Hu.
      assert (Du : own u = x) by auto.
      do 3 (apply good_act; [split; [discriminate|exact Du]|intros _ _]). apply IH; auto. intros v Hv. apply In_del in Hv. now apply D.
    Qed.

    Lemma good_stop t n w k : (forall r, good t (k r)) -> good t (stop_lh t n w k).
    Proof.
      intros K. unfold stop_lh. act. act; [|auto]. act. apply good_act; [now split|]. intros l D. apply good_evict; [exact D|]. walk.
    Qed.

    Lemma good_start t c k : (forall r, good t (k r)) -> good t (start_lh csz t c k).
    Proof.
      intros K. unfold start_lh. act. act; [auto|]. act. cbv zeta.
      assert (Go : good t (g <- AIncGen;; m <- AFactory c g (cf_size c / csz);;
         match m with
         | MadeThrow x => k (Some x)
         | _ => ABufSet (made_buffer m);;; AUpdate (cf_enabled c) (cf_disabled c);;; AClear;;; AStEnabled g m;;; k None
         end)) by (walk; auto).
      act; [|exact Go]. apply good_stop. intros [e|]; [auto|exact Go].
    Qed.

    Lemma good_getBuffer t k : (forall r, good t (k r)) -> good t (getBuffer_lh k).
    Proof. intros K. unfold getBuffer_lh. walk. Qed.
    Lemma good_getContext t k : (forall r, good t (k r)) -> good t (getTraceContext_lh k).
    Proof. intros K. unfold getTraceContext_lh. walk. Qed.

    Lemma good_getChunk t b k : (forall r, good t (k r)) -> good t (getChunk b k).
    Proof. intros K. unfold getChunk. walk. Qed.

    Lemma good_replace t k : own t = x -> (forall r, good t (k r)) -> good t (replaceChunk k).
    Proof.
      intros D K. unfold replaceChunk, returnChunk.
      assert (Rest : good t (on <- ALdEnabled;; if negb on then k false else b <- ABufGet;;
        match b with None => k false | Some _ => b <- ABufGet;;
          match b with None => ACrash;;; Ret | Some b => getChunk b (fun c => AChunkSet c;;; k (match c with Some _ => true | None => false end)) end end)).
      { walk. apply good_getChunk. intros ?. walk. }
      cbv zeta. act. act; [|exact Rest]. walk. apply good_getChunk. intros ?. walk.
    Qed.

    Lemma good_maybe t g k : (forall r, good t (k r)) -> good t (maybe_stop t g k).
    Proof. intros K. unfold maybe_stop. walk. apply good_stop. intros ?. walk. Qed.

    Lemma good_log t e k : own t = x -> (forall r, good t (k r)) -> good t (logEvent t e k).
    Proof.
      intros D K. unfold logEvent.
      assert (Store : good t (c <- AChunkGet;; match c with None => ACrash;;; Ret | Some (b, i) => x <- AStore b i e;; AUnTenant;;; k x end)) by walk.
      assert (Refill : good t (on <- ALdEnabled;; if negb on then AUnTenant;;; k None else
        replaceChunk (fun ok => if ok then c <- AChunkGet;; match c with None => ACrash;;; Ret | Some (b, i) => x <- AStore b i e;; AUnTenant;;; k x end
                                else g <- ALdGen;; AUnTenant;;; maybe_stop t g k))).
      { walk. apply good_replace; [exact D|]. intros [|]; [exact Store|]. walk. now apply good_maybe. }
      cbv zeta. act. act; [walk|]. act. act; [walk|]. act. act; [walk|]. act. act; [|exact Refill]. destruct p as [b i]. act. act; [exact Refill|exact Store].
    Qed.

    Lemma good_code t o : keeps_to own x (Invoke t o) -> good t (code_of csz site_cat t o).
    Proof.
      cbn. intros D. destruct o; cbn [code_of uses_registration] in *; unfold locked; try (specialize (D eq_refl)).
      all: try (walk; fail).
      all: try (act; apply good_start; intros ?; walk; fail).
      - destruct startup; [|walk]. act. apply good_start. intros ?. walk.
      - act. apply good_stop. intros ?. walk.
      - act. apply good_getBuffer. intros ?. walk.
      - act. apply good_getContext. intros ?. walk.
      - unfold returnChunk. walk.
      - apply good_log; [exact D|]. intros ?. walk.
      - unfold macro. walk; apply good_log; auto; intros ?; walk.
      - act. apply good_stop. intros ?. walk.
    Qed.

    Lemma good_hcode t h k : keeps_to own x (HookDo t h) -> good t k -> good t (hcode csz t h k).
    Proof.
      cbn. intros D K. destruct h; cbn [hcode]; cbv zeta.
      - apply good_start. intros ?. walk.
      - apply good_stop. intros ?. walk.
      - apply good_getBuffer. intros ?. walk.
      - apply good_getContext. intros ?. walk.
      - walk.
      - apply good_log; [exact D|]. intros ?. walk.
    Qed.

    (** Two copies of a log that differ in the tenants of other threads. *)
    Definition same_mine (te te' : tid -> tenant) : Prop := forall u, own u = x -> te u = te' u.
    Definition same_others (te te' : tid -> tenant) : Prop := forall u, own u <> x -> te u = te' u.

    Lemma mine_put te te' u v : same_mine te te' -> same_mine (tset te u v) (tset te' u v).
    Proof. intros E w Dw. unfold tset. destruct (Nat.eqb w u); auto. Qed.
    Lemma others_put te u v : own u = x -> same_others (tset te u v) te.
    Proof. intros Du w Dw. apply tset_other. congruence. Qed.

    Lemma put_buf_ten s te b v : put_buf (set_ten s te) b v = set_ten (put_buf s b v) te.
    Proof. reflexivity. Qed.

    Lemma exec_mine s te t ch a : same_mine te (ten s) -> okD t tt a ->
      match exec cap s t ch a with
      | Blocked => exec cap (set_ten s te) t ch a = Blocked
      | Crashed => exec cap (set_ten s te) t ch a = Crashed
      | Next s1 r => exists te1, exec cap (set_ten s te) t ch a = Next (set_ten s1 te1) r /\ same_mine te1 (ten s1) /\ same_others te1 te
      end.
    Proof.
      intros E [O1 O2].
      assert (Same : forall s1 (r : ans a), ten s1 = ten s -> exec cap (set_ten s te) t ch a = Next (set_ten s1 te) r ->
        exists te1, exec cap (set_ten s te) t ch a = Next (set_ten s1 te1) r /\ same_mine te1 (ten s1) /\ same_others te1 te).
      { intros s1 r Et X. exists te. split; [exact X|]. rewrite Et. split; [exact E|]. intros u _. reflexivity. }
      assert (Et : own_tenant a = true -> te t = ten s t) by (intros H; apply E; auto).
      assert (Put : forall u v s1 (r : ans a), own u = x -> ten s1 = tset (ten s) u v -> exec cap (set_ten s te) t ch a = Next (set_ten s1 (tset te u v)) r ->
        exists te1, exec cap (set_ten s te) t ch a = Next (set_ten s1 te1) r /\ same_mine te1 (ten s1) /\ same_others te1 te).
      { intros u v s1 r Du Et1 X. exists (tset te u v). split; [exact X|]. rewrite Et1. split; [now apply mine_put|now apply others_put]. }
      destruct a; cbn [exec own_tenant] in *; try (specialize (O1 eq_refl); specialize (Et eq_refl)).
      all: unfold exec_factory, with_buf, put_ten, owns in *.
      all: cbn [heap set_ten ten mtx enabled bufp gen reg sites cfg regd names dereg hist nbuf] in *.
      all: try (apply Same; reflexivity).
      all: rewrite ?Et in *.
      all: try (eapply Put; [exact O1|reflexivity|reflexivity]).
      all: try (eapply Put; [exact O2|reflexivity|cbn; rewrite (E _ O2); reflexivity]).
      all: try (rewrite (E _ O2) in *).
      all: repeat match goal with |- context [match ?z with _ => _ end] => lazymatch type of z with result _ => fail | _ => destruct z eqn:? end end.
      all: try (first [reflexivity | (apply Same; reflexivity) | (eapply Put; [exact O1|reflexivity|reflexivity]) | (eapply Put; [exact O2|reflexivity|reflexivity])]).
      all: destruct (bufp s); apply Same; reflexivity.
    Qed.

    Lemma step_mine s te a : same_mine te (ten s) -> (forall t, good t (code s t)) ->
      match pstep s a with
      | None => pstep (set_ten s te) a = None
      | Some s1 => exists te1, pstep (set_ten s te) a = Some (set_ten s1 te1) /\ same_mine te1 (ten s1) /\ same_others te1 te
      end.
    Proof.
      intros E V. unfold TraceLog.pstep. replace (polite (set_ten s te) a) with (polite s a) by (destruct a as [| |? []|]; reflexivity).
      destruct (polite s a); [|reflexivity]. unfold step. cbn [bad set_ten]. destruct (bad s); [reflexivity|].
      assert (Same : same_mine te (ten s) /\ same_others te te) by (split; [exact E|intros ? _; reflexivity]).
      destruct a as [t o|t ch|t h|t r]; cbn [code set_ten closing busy].
      - destruct (code s t); [|reflexivity]. destruct (closing s); [reflexivity|]. destruct (is_destroy o); [destruct (is_nil (busy s)); [|reflexivity]|]; exists te; auto.
      - specialize (V t). destruct (code s t) as [|y k] eqn:Ec; [reflexivity|]. destruct V as [O _]. pose proof (exec_mine s te t ch y E O) as X.
        destruct (exec cap s t ch y) as [| |s1 r]; [now rewrite X|rewrite X; exists te; auto|].
        destruct X as (te1 & X & X1 & X2). rewrite X. exists te1. auto.
      - destruct (hook_of (code s t)) as [[hk k]|]; [|reflexivity]. exists te. auto.
      - destruct (hook_of (code s t)) as [[hk k]|]; [|reflexivity]. exists te. auto.
    Qed.

    Definition home (s : st) : Prop := forall u, In u (regd s) -> own u = x.

    Lemma exec_home s t ch a s1 r : home s -> okD t tt a -> exec cap s t ch a = Next s1 r -> home s1 /\ postD t tt a r tt.
    Proof.
      intros Hm [O1 O2] Ex. destruct a; cbn [exec own_tenant] in *; unfold exec_factory, with_buf in Ex.
      all: repeat match type of Ex with context [match ?z with _ => _ end] => destruct z eqn:? end; inversion Ex; subst; clear Ex.
      all: try (split; [exact Hm|exact I]).
      all: repeat match goal with |- context [free_buf _ ?z] => destruct z; cbn | |- context [give_buf _ ?z] => destruct z; cbn end.
      all: try (split; [exact Hm|exact I]).
      - split; [|exact I]. intros u Hu. cbn in Hu. apply In_add in Hu as [->|Hu]; auto.
      - split; [|exact I]. intros u Hu. cbn in Hu. apply In_del in Hu. apply Hm. tauto.
      - split; [exact Hm|]. exact Hm.
      - split; [exact Hm|]. cbn. now apply mem_In.
    Qed.

    Lemma step_good s a s1 : keeps_to own x a -> home s -> (forall t, good t (code s t)) -> pstep s a = Some s1 ->
      home s1 /\ (forall t, good t (code s1 t)).
    Proof.
      intros D Hm V H. unfold TraceLog.pstep, step in H. destruct (polite s a); [|easy]. destruct (bad s); [easy|].
      assert (Put : forall t c, good t c -> forall u, good u (tset (code s) t c u)).
      { intros t c Vc u. destruct (Nat.eq_dec u t) as [->|N]; [now rewrite tset_same|now rewrite tset_other]. }
      destruct a as [t o|t ch|t h|t r].
      - destruct (code s t); [|easy]. destruct (closing s); [easy|].
        destruct (is_destroy o); [destruct (is_nil (busy s)); [|easy]|]; injection H as <-; (split; [exact Hm|]); cbn; apply Put; now apply good_code.
      - pose proof (V t) as Vt. destruct (code s t) as [|y k] eqn:Ec; [easy|]. destruct Vt as [O Vk]. destruct (exec cap s t ch y) as [| |s2 r] eqn:Ex; [easy| |].
        + injection H as <-. auto.
        + injection H as <-. destruct (exec_home _ _ _ _ _ _ Hm O Ex) as [H1 H2]. split; [exact H1|]. cbn.
          destruct (exec_frame _ _ _ _ _ _ _ Ex) as [-> _]. apply Put. now apply Vk.
      - destruct (hook_of (code s t)) as [[hk k]|] eqn:Eh; [|easy]. injection H as <-. split; [exact Hm|]. cbn. apply Put. now apply good_hcode.
      - pose proof (V t) as Vt. destruct (hook_of (code s t)) as [[hk k]|] eqn:Eh; [|easy]. injection H as <-. apply hook_of_some in Eh. rewrite Eh in Vt.
        split; [exact Hm|]. cbn. apply Put. apply Vt. exact I.
    Qed.

    (** Who gets a chunk. *)
    Lemma exec_chunk s t ch a s1 r u : exec cap s t ch a = Next s1 r -> t_chunk (ten s1 u) <> None ->
      t_chunk (ten s u) <> None \/ (u = t /\ exists c, a = AChunkSet (Some c)).
    Proof.
      intros Ex H. destruct a; cbn [exec] in *; unfold exec_factory, with_buf in Ex.
      all: repeat match type of Ex with context [match ?z with _ => _ end] => destruct z eqn:? end; inversion Ex; subst; clear Ex.
      all: try (left; exact H).
      all: repeat match goal with H : context [free_buf _ ?z] |- _ => destruct z; cbn in H | H : context [give_buf _ ?z] |- _ => destruct z; cbn in H end.
      all: try (left; exact H).
      all: cbn in H; match type of H with context [tset _ ?v _ ?z] => destruct (Nat.eq_dec z v) as [->|N]; [rewrite tset_same in H; cbn in H|rewrite tset_other in H by auto; now left] end.
      all: try (left; exact H); try easy.
      destruct o; [right; eauto|easy].
    Qed.
  End One.

  (** * Side by side *)

  Definition part_ok (w : world) (x : lid) (s : st) : Prop :=
    reached s /\ home x s /\ (forall t, good x t (code s t)) /\ set_ten (w_log w x) (ten s) = s /\ (forall t, own t = x -> w_ten w t = ten s t).

  Record sbs (w : world) (l : lid -> list sact) : Prop := {
    sb_log : forall x, part_ok w x (run pstep log_new (l x));
    sb_tag : forall t, t_chunk (w_ten w t) <> None -> w_tag w t = own t;
  }.

  Lemma pstep_chunk s a s1 u : pstep s a = Some s1 -> t_chunk (ten s1 u) <> None ->
    t_chunk (ten s u) <> None \/ (u = thread_of a /\ use_in s a = UseTake).
  Proof.
    intros H C. unfold TraceLog.pstep, step in H. destruct (polite s a); [|easy]. destruct (bad s); [easy|]. destruct a as [t o|t ch|t h|t r].
    - destruct (code s t); [|easy]. destruct (closing s); [easy|]. destruct (is_destroy o); [destruct (is_nil (busy s)); [|easy]|]; injection H as <-; now left.
    - cbn [use_in thread_of]. destruct (code s t) as [|y k] eqn:Ec; [easy|]. destruct (exec cap s t ch y) as [| |s2 r] eqn:Ex; [easy| |]; injection H as <-; [now left|].
      destruct (exec_chunk _ _ _ _ _ _ u Ex C) as [X|[-> [c ->]]]; [now left|right; now cbn].
    - destruct (hook_of (code s t)) as [[hk k]|]; [|easy]. injection H as <-. now left.
    - destruct (hook_of (code s t)) as [[hk k]|]; [|easy]. injection H as <-. now left.
  Qed.

  Lemma chunk_there s t a k : reached s -> code s t = Act a k ->
    match a with AFull _ _ | AStore _ _ _ => True | _ => False end -> t_chunk (ten s t) <> None.
  Proof.
    intros R Ec Ha. destruct (safe_at cap csz site_cat s R) as (f & [L A W I] & V). assert (O : okB t (f t) a) by (apply V; now exists k).
    destruct a; try easy; cbn in O; destruct O as [O _]; apply (at_ck _ _ A) in O as [O _]; congruence.
  Qed.

  Lemma same_log s s' te : set_ten s (ten s') = s' -> set_heap (set_ten s te) (heap s) = set_ten s' te.
  Proof. intros <-. destruct s. reflexivity. Qed.

  Lemma sbs_step w l x a w' : sbs w l -> keeps_to own x a -> wstep cap csz site_cat w (x, a) = Some w' ->
    sbs w' (fun y => if Nat.eqb y x then l x ++ [a] else l y).
  Proof.
    intros S D H. pose proof (sb_log _ _ S x) as (Rs & Hm & V & El & Et). set (s := run pstep log_new (l x)) in *.
    assert (Code : code (w_log w x) = code s) by (rewrite <- El; reflexivity).
    pose proof (same_log _ _ (w_ten w) El) as Lend.
    assert (Mine : same_mine x (w_ten w) (ten s)) by exact Et.
    (* the step is the log's own *)
    assert (Own : exists tag s1 te1, pstep s a = Some s1 /\ pstep (set_ten s (w_ten w)) a = Some (set_ten s1 te1) /\
      same_mine x te1 (ten s1) /\ same_others x te1 (w_ten w) /\ w' = settle w x x (thread_of a) tag (set_ten s1 te1) /\
      (tag = own (thread_of a) \/ (tag = w_tag w (thread_of a) /\ use_in s a <> UseTake))).
    { assert (Do : forall tag, match pstep (lend w x x) a with Some s2 => Some (settle w x x (thread_of a) tag s2) | None => None end = Some w' ->
        (tag = own (thread_of a) \/ (tag = w_tag w (thread_of a) /\ use_in s a <> UseTake)) -> exists tag s1 te1, pstep s a = Some s1 /\ pstep (set_ten s (w_ten w)) a = Some (set_ten s1 te1) /\
        same_mine x te1 (ten s1) /\ same_others x te1 (w_ten w) /\ w' = settle w x x (thread_of a) tag (set_ten s1 te1) /\
        (tag = own (thread_of a) \/ (tag = w_tag w (thread_of a) /\ use_in s a <> UseTake))).
      { intros tag E T. unfold lend in E. rewrite Lend in E. pose proof (step_mine x s (w_ten w) a Mine V) as X.
        destruct (pstep s a) as [s1|]; [|now rewrite X in E]. destruct X as (te1 & X & X1 & X2). rewrite X in E. injection E as <-.
        exists tag, s1, te1. repeat (split; [assumption||reflexivity|]). exact T. }
      cbn [wstep] in H. destruct (match w_in w (thread_of a) with None => true | Some y => Nat.eqb y x end); [|easy].
      replace (use_in (w_log w x) a) with (use_in s a) in H by (unfold use_in; now rewrite Code).
      assert (Own : use_in s a <> UseNone -> own (thread_of a) = x).
      { intros U. destruct a as [t o|t ch|t h|t r]; try easy. cbn in *. specialize (V t). destruct (code s t) as [|y k]; [easy|]. destruct V as [[O _] _].
        apply O. destruct y; easy. }
      destruct (use_in s a) eqn:U.
      - apply (Do (w_tag w (thread_of a))); auto. right. split; auto. easy.
      - assert (O : own (thread_of a) = x) by (apply Own; easy).
        assert (T : w_tag w (thread_of a) = x).
        { rewrite <- O. apply (sb_tag _ _ S). rewrite Et by exact O. destruct a as [t o|t ch|t h|t r]; try easy. cbn in *.
          destruct (code s t) as [|y k] eqn:Ec; [easy|]. apply (chunk_there s t y k Rs Ec). destruct y; try easy. destruct o; easy. }
        rewrite T in H. apply (Do x); [exact H|]. left. auto.
      - destruct (Nat.eqb_spec (w_tag w (thread_of a)) x); [|easy]. apply (Do x); [exact H|]. left. symmetry. apply Own. easy.
      - apply (Do x); [exact H|]. left. symmetry. apply Own. easy. }
    destruct Own as (tag & s1 & te1 & E1 & E2 & M1 & O1 & -> & T).
    assert (Run : run pstep log_new (l x ++ [a]) = s1) by (rewrite run_snoc; fold s; unfold move; now rewrite E1).
    destruct (step_good x s a s1 D Hm V E1) as [Hm1 V1]. split.
    - intros y. unfold part_ok. cbn [settle w_log w_ten]. rewrite Nat.eqb_refl. destruct (Nat.eqb_spec y x) as [->|N].
      + rewrite Run. split; [now apply (pstep_reached cap csz site_cat s a)|]. split; [exact Hm1|]. split; [exact V1|]. split.
        * cbn. rewrite tset_same. destruct s1. reflexivity.
        * intros u Du. cbn. now apply M1.
      + destruct (sb_log _ _ S y) as (R2 & H2 & V2 & L2 & T2). split; [exact R2|]. split; [exact H2|]. split; [exact V2|]. split.
        * cbn. now rewrite tset_other.
        * intros u Du. cbn. rewrite O1 by congruence. now apply T2.
    - intros u C. cbn [settle w_ten w_tag] in *. destruct (pstep_chunk _ _ _ u E2 C) as [X|[-> X]].
      + cbn in X. destruct (Nat.eq_dec u (thread_of a)) as [->|N]; [|rewrite tset_other by auto; now apply (sb_tag _ _ S)].
        rewrite tset_same. destruct T as [->|[-> _]]; [reflexivity|]. now apply (sb_tag _ _ S).
      + rewrite tset_same. destruct T as [->|[_ T]]; [reflexivity|]. destruct T. exact X.
  Qed.

  Lemma sbs_new : sbs world_new (fun _ => []).
  Proof.
    split; [|easy]. intros x. split; [now exists []|]. split; [easy|]. split; [intros t; exact I|]. split; reflexivity.
  Qed.

  Theorem side_by_side sched : (forall x a, In (x, a) sched -> keeps_to own x a) ->
    exists l, (forall x a, In a (l x) -> In (x, a) sched) /\ sbs (run (wstep cap csz site_cat) world_new sched) l.
  Proof.
    induction sched as [|[x a] sched IH] using rev_ind; intros D; [exists (fun _ => []); split; [easy|exact sbs_new]|].
    destruct IH as (l & Hl & S); [intros y b Hb; apply D, in_or_app; now left|]. rewrite run_snoc. unfold move.
    destruct (wstep cap csz site_cat (run (wstep cap csz site_cat) world_new sched) (x, a)) as [w'|] eqn:E.
    - exists (fun y => if Nat.eqb y x then l x ++ [a] else l y). split.
      + intros y b. destruct (Nat.eqb_spec y x) as [->|N]; intros Hb; apply in_or_app.
        * apply in_app_or in Hb as [Hb|[->|[]]]; [left; auto|right; now left].
        * left. auto.
      + eapply sbs_step; eauto. apply D, in_or_app. right. now left.
    - exists l. split; [|exact S]. intros y b Hb. apply in_or_app. left. auto.
  Qed.
End Disjoint.
