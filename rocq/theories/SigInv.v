(** How often a waiting coroutine is given a signal: an account of every occurrence. *)
From Coq Require Import List ZArith Bool Lia.
From Verif Require Import AATreeSpec AATreeHist Util Runtime SchedInv StepInv StackShape RuntimeSpec TraceInv Immediate Prims StaticInv Footprint QueueInv OwnInv WaitInv DeadlineInv CallInv TraceStep Wake Awake AllInv PausedInv.
Import ListNotations.
Local Open Scope Z_scope.

Definition isSw (o : op) : bool := match o with OpSigWait _ => true | _ => false end.
(** a waits for signals of coroutines in [L] that returned [n] *)
Definition gotb (L : list Z) (n : Z) (z : obs) : bool :=
  match z with TRet _ c (OpSigWait _) v _ _ => mem c L && (v =? n) | _ => false end.
Definition gotL (L : list Z) (n : Z) (t : list obs) : Z := Z.of_nat (length (filter (gotb L n) t)).
(** [x] was given [n] and has not noticed yet *)
Definition asgb (n : Z) (s : state) (x : Z) : bool :=
  match top (stk (sc s) x) with
  | FSigWait :: _ => negb (mem x (paused (sc s))) && negb (canceled (cof (dt s) x)) && negb (deadlined (cof (dt s) x)) && (sigmask (cof (dt s) x) =? n)
  | _ => false
  end.
(** the running coroutine is about to return [n] from its wait *)
Definition pendb (L : list Z) (n : Z) (s : state) : bool :=
  match mode s, cur (sc s) with
  | MRet v, Some c => match stk (sc s) c with FApi _ (OpSigWait _) :: _ => mem c L && (v =? n) | _ => false end
  | _, _ => false
  end.
Definition b2z (b : bool) : Z := if b then 1 else 0.
Lemma b2z_range : forall b, 0 <= b2z b <= 1.
Proof. intros []; cbn; lia. Qed.
Definition cnt (p : Z -> bool) (L : list Z) : Z := Z.of_nat (length (filter p L)).
Definition acct (L : list Z) (n : Z) (s : state) : Z :=
  gotL L n (tr s) + b2z (pendb L n s) + cnt (asgb n s) L + sigq (dt s) n.

Lemma cnt_le : forall p p' L, (forall x, In x L -> p' x = true -> p x = true) -> cnt p' L <= cnt p L.
Proof.
  intros p p' L. unfold cnt. induction L as [|y L IH]; intros H; cbn; [lia|].
  assert (IH' := IH (fun x I => H x (or_intror I))). destruct (p' y) eqn:P'; [rewrite (H y (or_introl eq_refl) P'); cbn; lia|].
  destruct (p y); cbn; lia.
Qed.
Lemma cnt_one : forall p p' L c, NoDup L -> (forall x, x <> c -> p' x = true -> p x = true) ->
  cnt p' L + b2z (mem c L && p c) <= cnt p L + b2z (mem c L && p' c).
Proof.
  intros p p' L c ND H. induction L as [|y L IH]; [cbn; lia|]. apply NoDup_cons_iff in ND. destruct ND as [NI ND]. specialize (IH ND).
  unfold cnt in *. cbn [filter]. destruct (Z.eq_dec y c) as [->|NE].
  - assert (M : mem c L = false). { destruct (mem c L) eqn:M; [|reflexivity]. apply mem_In in M. contradiction. }
    assert (MC : mem c (c :: L) = true) by (apply mem_In; left; reflexivity). rewrite MC. cbn [andb].
    assert (K : cnt p' L <= cnt p L). { apply cnt_le. intros x I. apply H. intros ->. contradiction. }
    unfold cnt in K. destruct (p c), (p' c); cbn [b2z length]; lia.
  - assert (MC : mem c (y :: L) = mem c L).
    { destruct (mem c L) eqn:M; [apply mem_In; right; apply mem_In, M|]. destruct (mem c (y :: L)) eqn:M2; [|reflexivity].
      apply mem_In in M2. destruct M2 as [?|M2]; [contradiction|]. apply mem_In in M2. congruence. }
    rewrite MC. assert (Y := H y NE). destruct (p' y); [rewrite (Y eq_refl); cbn [length]; lia|]. destruct (p y); cbn [length]; lia.
Qed.

Lemma hcall_sigq : forall c o nw d d' fs k, hcall c o nw d = (d', fs, k) -> sigq d' = sigq d.
Proof. intros c o nw d d' fs k E. eapply (prims_const c _ sigq); [|eapply hcall_prims; exact E]. intros a b PP; destruct PP; reflexivity. Qed.
Lemma hret_sigq : forall c f v b nw d d' fs k, hret c f v b nw d = (d', fs, k) -> sigq d' = sigq d.
Proof. intros c f v b nw d d' fs k E. eapply (prims_const c _ sigq); [|eapply hret_prims; exact E]. intros x y PP; destruct PP; reflexivity. Qed.
Lemma ctl_sigq : forall c n k d, sigq (ctl_dat c n k d) = sigq d.
Proof. intros c n k d. destruct k; cbn [ctl_dat]; auto. unfold spawn_dat, popq. destruct (q d QPool); destruct isgen; reflexivity. Qed.
Lemma ctl_sigmask : forall c n k d x, x <> n -> sigmask (cof (ctl_dat c n k d) x) = sigmask (cof d x).
Proof. intros c n k d x N. destruct k; cbn [ctl_dat]; auto. rewrite spawn_cof by exact N. destruct (_ =? _); destruct isgen; reflexivity. Qed.

Lemma asgb_true : forall n s x, asgb n s x = true <->
  (exists rest, top (stk (sc s) x) = FSigWait :: rest) /\ ~ In x (paused (sc s)) /\
  canceled (cof (dt s) x) = false /\ deadlined (cof (dt s) x) = false /\ sigmask (cof (dt s) x) = n.
Proof.
  intros n s x. unfold asgb. destruct (top (stk (sc s) x)) as [|f rest]; [split; [discriminate | intros ((? & ?) & _); discriminate]|].
  assert (HF : f = FSigWait \/ f <> FSigWait) by (destruct f; auto; right; discriminate). destruct HF as [->|HF].
  - rewrite !andb_true_iff, !negb_true_iff, Z.eqb_eq. split.
    + intros [[[A B] C] D]. split; [eauto|]. split; [|auto]. intros I. apply mem_In in I. congruence.
    + intros (_ & A & B & C & D). repeat split; auto. destruct (mem x _) eqn:M; [|reflexivity]. apply mem_In in M. contradiction.
  - split; [destruct f; try discriminate; contradiction|]. intros ((r & ?) & _). congruence.
Qed.

(** one step of [c], seen by another coroutine *)
Lemma asg_other : forall s c d0 d KP (KW : qid -> node -> Prop) R P k st' sch md n nw nc T (XP : Z -> Prop) m,
  reach s -> cur (sc s) = Some c -> fps c KP KW d0 R P d -> uniq d0 ->
  exec c k (set_stk (zupd (stk (sc s)) c st') (sc s)) = (sch, md) -> n = nextid (sc s) + 1 ->
  (forall m kk, In m (q d0 kk) -> In m (q (dt s) kk)) -> (forall x, x <> c -> cof d0 x = cof (dt s) x) ->
  (forall id, k = CResume id -> In id R \/ XP id) ->
  (forall x, x <> c -> XP x -> canceled (cof d x) = true \/ suspended (cof (dt s) x) = true) ->
  forall x, x <> c -> asgb m (mkst sch (ctl_dat c n k d) md nw nc T) x = true -> asgb m s x = true.
Proof.
  intros s c d0 d KP KW R P k st' sch md n nw nc T XP m RE CU FP U0 X -> D0 C0 HK HX x NE AS.
  pose proof (reach_full _ RE) as F. pose proof (cur_notfresh _ _ F CU) as NFR.
  apply asgb_true in AS. cbn [sc dt] in AS. destruct AS as ((rest & TP) & NP & CN & DN & SM).
  destruct (exec_stk_cases _ _ _ _ _ X NFR x) as [[? _]|[(_ & _ & _ & Q)|(_ & Q & _)]]; [contradiction| |].
  { rewrite Q in TP. discriminate. }
  rewrite Q in TP. cbn in TP. rewrite zupd_neq in TP by exact NE.
  assert (NX : x <> nextid (sc s) + 1). { intros ->. rewrite stk_fresh in TP by exact F. discriminate. }
  destruct (ctl_flags c _ k d x NX) as [CF1 CF2]. rewrite CF1 in CN. rewrite CF2 in DN. rewrite ctl_sigmask in SM by exact NX.
  destruct (fps_still _ _ _ _ _ _ _ FP x NE) as [ST1 ST2]. rewrite C0 in ST1, ST2 by exact NE.
  apply asgb_true. split; [eauto|].
  assert (CS : canceled (cof (dt s) x) = false). { destruct (canceled (cof (dt s) x)); [specialize (ST2 eq_refl); congruence | reflexivity]. }
  assert (DS : deadlined (cof (dt s) x) = false). { rewrite <- DN, ST1. destruct (cof (dt s) x); reflexivity. }
  assert (SS : sigmask (cof (dt s) x) = m). { rewrite <- SM, ST1. destruct (cof (dt s) x); reflexivity. }
  split; [|auto]. intros IP.
  assert (DR : k = CResume x \/ k <> CResume x).
  { destruct k; try (right; discriminate). destruct (Z.eq_dec id x) as [->|]; [left; reflexivity | right; congruence]. }
  destruct DR as [KR|KR]; [|apply NP; eapply exec_paused_in; [exact X | exact IP | exact KR]].
  destruct (HK x KR) as [IR|XR].
  - destruct (fps_taken _ _ _ _ _ _ _ FP U0 x IR) as (kk & y & _ & PO & NC & [IM|[? _]] & GO); [|contradiction].
    pose proof (reach_qloc _ RE y kk (popq_waitq _ PO) (D0 _ _ IM)) as MA. rewrite NC in MA.
    destruct (matched_cases _ _ _ MA PO) as [(f0 & rest0 & A & B & CN0)|(N & j & chs & dl & st2 & A)]; rewrite TP in A; [|discriminate].
    injection A as <- <-. discriminate.
  - destruct (HX x NE XR) as [H|H]; [congruence|].
    destruct (reach_bk _ RE x) as [_ _ BS _]. apply BS in H.
    pose proof (reach_wsh _ RE x) as W. destruct (stk (sc s) x) as [|g st]; [discriminate TP|].
    inversion W as [s0 N|g0 s0 A N|g0 s0 A N|g0 s0 A N]; subst.
    + specialize (N _ H). discriminate N.
    + destruct H as [H|H]; [subst; discriminate TP | specialize (N _ H); discriminate N].
    + destruct H as [H|[H|H]]; [discriminate H | subst; discriminate TP | specialize (N _ H); discriminate N].
    + destruct H as [H|H]; [destruct A as [A|A]; subst; discriminate | specialize (N _ H); discriminate N].
Qed.

Lemma exec_ret : forall c k s s' v, exec c k s = (s', MRet v) -> v <> 0 -> k = CRet v /\ s' = s.
Proof.
  assert (SW : forall fm p q v, sco_switch fm p = (q, MRet v) -> v = 0).
  { intros fm p q v E. unfold sco_switch in E. destruct (_ && _); [discriminate|].
    destruct (nrun p =? 0); cbn in E; [destruct (yielders p) | destruct (runners p)]; inversion E; reflexivity. }
  intros c k s s' v E N. destruct k; cbn [exec] in E; try discriminate; try (exfalso; apply N; eapply SW; exact E).
  - inj E. auto.
  - destruct (mem id (paused s)); [exfalso; apply N; eapply SW; exact E | inj E; contradiction].
Qed.
Lemma got_app : forall L n N t, (forall z, In z N -> gotb L n z = false) -> gotL L n (N ++ t) = gotL L n t.
Proof.
  intros L n N t H. unfold gotL. rewrite filter_app. assert (Q : filter (gotb L n) N = []).
  { induction N as [|y N IH]; [reflexivity|]. cbn. rewrite (H y (or_introl eq_refl)). apply IH. intros z I. apply H. right. exact I. }
  rewrite Q. reflexivity.
Qed.
Lemma got_ctl : forall L n c m k z, In z (ctl_obs c m k) -> gotb L n z = false.
Proof. intros L n c m k z I. destruct k; cbn in I; try contradiction; destruct I as [<-|[]]; reflexivity. Qed.
Lemma got_handler : forall L n c fs k d z, In z (handler_obs c fs k d) -> gotb L n z = false.
Proof.
  intros L n c fs k d z I. unfold handler_obs in I. destruct k; try contradiction. destruct fs as [|[] ?]; try contradiction;
  destruct (cleanups (cof d c)); try contradiction; destruct I as [<-|[]]; reflexivity.
Qed.
Lemma got_call : forall L n c k o s z, In z (call_obs c k o s) -> gotb L n z = false.
Proof. intros L n c k o s z I. destruct o; cbn in I; try (destruct I as [<-|[]]; reflexivity). destruct I as [<-|[<-|[]]]; reflexivity. Qed.
Lemma ustack_noapi : forall k o st, ustack (FApi k o :: st) -> False.
Proof. intros k o st U. inversion U. Qed.
Lemma lstack_api : forall k o st, lstack (FApi k o :: st) -> ustack st.
Proof.
  intros k o st L. inversion L as [st0 U|k0 o0 w st0 U SH EQ|w st0 ES EQ]; subst.
  - inversion U.
  - inversion SH; subst; cbn in EQ;
      try (match goal with H : pz _ _ |- _ => inversion H; subst end);
      try (match goal with H : yf _ _ |- _ => inversion H; subst end);
      injection EQ as E1 E2; subst; try discriminate; auto; try congruence.
  - exfalso. inversion ES; subst; try discriminate;
      match goal with H : yf _ _ |- _ => inversion H; subst; discriminate end.
Qed.
Definition exitf (f : frame) : Prop := match f with FExitLoop | FExitGen _ _ | FExitFin _ => True | _ => False end.
Lemma lstack_sw : forall f k dl st, lstack (f :: FApi k (OpSigWait dl) :: st) -> f = FSigWait \/ exitf f.
Proof.
  intros f k dl st L. inversion L as [st0 U|k0 o0 w st0 U SH EQ|w st0 ES EQ]; subst.
  - inversion U; subst. right. exact I.
  - left. inversion SH; subst; cbn in EQ;
      try (match goal with H : pz _ _ |- _ => inversion H; subst end);
      try (match goal with H : yf _ _ |- _ => inversion H; subst end);
      injection EQ as E1 E2; subst; try discriminate; auto; try congruence; exfalso; eapply ustack_noapi; exact U.
  - right. inversion ES; subst;
      try (match goal with H : yf _ _ |- _ => inversion H; subst end); try discriminate EQ; try (injection EQ as E1 E2; subst); try exact I; try discriminate.
Qed.
Lemma exit_noret : forall c f v b nw d d' n, exitf f -> hret c f v b nw d = (d', [], CRet n) -> False.
Proof.
  assert (R : forall c a d d' n, coexit_rest c a d = (d', [], CRet n) -> False).
  { intros c a d d' n E. unfold coexit_rest in E. cbv zeta in E. destruct (gen _).
    - destruct (do_close _ _) as [[d1 fs] k]. inj E. destruct fs; discriminate.
    - destruct (negb _); [|discriminate]. unfold yfsr, coyield in E. destruct (_ <? _); discriminate. }
  intros c f v b nw d d' n X E. destruct f; try destruct X; cbn [hret] in E.
  - unfold coexit_async in E. destruct (cleanups _); [eapply R; exact E | discriminate].
  - unfold exit_gen in E. cbv zeta in E. match type of E with (if ?x then _ else _) = _ => destruct x end; [|discriminate]. unfold yfsr, coyield in E. destruct (_ <? _); discriminate.
  - discriminate.
Qed.
(** a wait for a signal that fails at once does not return a signal *)
Lemma sigwait_neg : forall c dl d d' n, do_sigwait c dl d = (d', [], CRet n) -> n < 0.
Proof.
  intros c dl d d' n E. unfold do_sigwait in E. destruct (negb _); [inj E; reflexivity|]. destruct (_ =? 0); [inj E; reflexivity|].
  destruct (canceled _); [inj E; reflexivity|]. unfold copause in E. destruct (_ || _); discriminate.
Qed.

Lemma acct_call : forall L n s c o d fs k sch md, 1 <= n -> NoDup L -> reach s -> mode s = MUser -> cur (sc s) = Some c -> ustack (stk (sc s) c) -> o <> OpReturn ->
  hcall c o (now s) (dt s) = (d, fs, k) ->
  exec c k (set_stk (zupd (stk (sc s)) c (fs ++ FApi (ncalls s) o :: stk (sc s) c)) (sc s)) = (sch, md) ->
  acct L n (mkst sch (ctl_dat c (nextid (sc s) + 1) k d) md (now s) (S (ncalls s)) (call_tr s c o fs k)) <= acct L n s.
Proof.
  intros L n s c o d fs k sch md N1 ND RE M CU U NR E X. pose proof (reach_full _ RE) as F. pose proof (cur_notfresh _ _ F CU) as NFR.
  set (s' := mkst _ _ _ _ _ _).
  assert (A : gotL L n (tr s') = gotL L n (tr s)).
  { cbn [tr s']. unfold call_tr. rewrite !got_app; [reflexivity|..]; intros z I; [eapply got_call | eapply got_handler | eapply got_ctl]; exact I. }
  assert (B : pendb L n s' = false).
  { destruct (pendb L n s') eqn:B; [|reflexivity]. exfalso. unfold pendb in B. cbn [mode s' sc] in B. destruct md as [|v| | | |]; try discriminate.
    destruct (cur sch) as [x|] eqn:CX; [|discriminate]. destruct (stk sch x) as [|[] st] eqn:SX; try discriminate. destruct o0; try discriminate.
    apply andb_true_iff in B. destruct B as [_ B]. apply Z.eqb_eq in B. subst v.
    destruct (exec_ret _ _ _ _ _ X) as [-> ->]; [lia|]. cbn in CX, SX. assert (x = c) by congruence. subst x. rewrite zupd_eq in SX.
    destruct fs as [|g fs].
    - cbn in SX. injection SX as _ -> _. cbn [hcall] in E. apply sigwait_neg in E. lia.
    - cbn in SX. injection SX as -> _. eapply (hcall_noapi _ _ _ _ _ _ _ E). left. reflexivity. }
  assert (C : sigq (dt s') n = sigq (dt s) n). { cbn [dt s']. rewrite ctl_sigq, (hcall_sigq _ _ _ _ _ _ _ E). reflexivity. }
  assert (OWN : asgb n s' c = false).
  { destruct (asgb n s' c) eqn:AS; [|reflexivity]. exfalso. apply asgb_true in AS. cbn [sc dt s'] in AS. destruct AS as ((rest & TP) & NP & CN & DN & _).
    assert (H : In c (paused sch) \/ canceled (cof (ctl_dat c (nextid (sc s) + 1) k d) c) = true \/ deadlined (cof (ctl_dat c (nextid (sc s) + 1) k d) c) = true).
    { eapply awake_own; [eapply hcall_out; exact E | | |exact X|reflexivity|exact TP|reflexivity].
      - apply nowait_cons; [reflexivity|]. apply ustack_nowait; [apply reach_wsh, RE | exact U].
      - auto. }
    destruct H as [H|[H|H]]; [contradiction | congruence | congruence]. }
  assert (OTH : forall x, x <> c -> asgb n s' x = true -> asgb n s x = true).
  { destruct (hcall_fp _ _ _ _ _ _ _ (ncalls s) (stk (sc s) c) E) as (R & P & FP & HR & _).
    eapply (asg_other s c (dt s) d _ _ R P k); try eassumption; try reflexivity; auto.
    - apply reach_uniq, RE.
    - intros y NY XC. destruct o; cbn in XC; try contradiction; destruct XC as [-> XC]; [left; exact XC | right; exact XC]. }
  pose proof (cnt_one (asgb n s) (asgb n s') L c ND OTH) as K. rewrite OWN, andb_false_r in K. unfold acct. rewrite A, B, C.
  assert (0 <= b2z (mem c L && asgb n s c)) by (destruct (_ && _); cbn; lia). assert (0 <= b2z (pendb L n s)) by (destruct (pendb L n s); cbn; lia).
  cbn [b2z] in *. lia.
Qed.

Lemma acct_tick : forall L n s c v f rest b d fs k sch md, 1 <= n -> NoDup L -> reach s -> mode s = MRet v -> cur (sc s) = Some c -> stk (sc s) c = f :: rest -> lstack (f :: rest) ->
  hret c f v b (now s) (dt s) = (d, fs, k) ->
  exec c k (set_stk (zupd (stk (sc s)) c (fs ++ rest)) (sc s)) = (sch, md) ->
  acct L n (mkst sch (ctl_dat c (nextid (sc s) + 1) k d) md (now s) (ncalls s) (tick_tr s c v f d fs k)) <= acct L n s.
Proof.
  intros L n s c v f rest b d fs k sch md N1 ND RE M CU SK LS E X. pose proof (reach_full _ RE) as F. pose proof (cur_notfresh _ _ F CU) as NFR.
  set (s' := mkst _ _ _ _ _ _).
  assert (C : sigq (dt s') n = sigq (dt s) n). { cbn [dt s']. rewrite ctl_sigq, (hret_sigq _ _ _ _ _ _ _ _ _ E). reflexivity. }
  assert (OTH : forall x, x <> c -> asgb n s' x = true -> asgb n s x = true).
  { destruct (hret_fp _ _ _ _ _ _ _ _ _ rest E) as (R & P & FP & HR & _).
    eapply (asg_other s c (leave f c (dt s)) d _ _ R P k); try eassumption; try reflexivity; auto.
    - apply leave_uniq, reach_uniq, RE.
    - intros m kk. apply leave_in.
    - intros y _. rewrite leave_cof. reflexivity.
    - intros y NY XC. destruct f; cbn in XC; try contradiction; destruct XC as [-> XC]; left; exact XC. }
  pose proof (cnt_one (asgb n s) (asgb n s') L c ND OTH) as K.
  (* returning from the wait *)
  assert (PB : pendb L n s' = true -> f = FSigWait /\ mem c L = true /\ fs = [] /\ k = CRet n).
  { intros B. unfold pendb in B. cbn [mode s' sc] in B. destruct md as [|w| | | |]; try discriminate.
    destruct (cur sch) as [x|] eqn:CX; [|discriminate]. destruct (stk sch x) as [|[] st] eqn:SX; try discriminate. destruct o; try discriminate.
    apply andb_true_iff in B. destruct B as [ML B]. apply Z.eqb_eq in B. subst w.
    destruct (exec_ret _ _ _ _ _ X) as [-> ->]; [lia|]. cbn in CX, SX. assert (x = c) by congruence. subst x. rewrite zupd_eq in SX.
    destruct fs as [|g fs].
    - cbn in SX. subst rest. destruct (lstack_sw _ _ _ _ LS) as [H|H]; [auto|]. exfalso. eapply exit_noret; eassumption.
    - exfalso. cbn in SX. injection SX as -> _. eapply (tick_noapi _ _ _ _ _ _ _ _ _ _ LS E). left. reflexivity. }
  assert (OWN : f <> FPause -> asgb n s' c = false).
  { intros NPA. destruct (asgb n s' c) eqn:AS; [|reflexivity]. exfalso. apply asgb_true in AS. cbn [sc dt s'] in AS. destruct AS as ((r & TP) & NP & CN & DN & _).
    destruct (hret_out _ _ _ _ _ _ _ _ _ E) as (d1 & Q1 & O).
    assert (H : In c (paused sch) \/ canceled (cof (ctl_dat c (nextid (sc s) + 1) k d) c) = true \/ deadlined (cof (ctl_dat c (nextid (sc s) + 1) k d) c) = true).
    { eapply awake_own; [exact O | | |exact X|reflexivity|exact TP|reflexivity].
      - eapply wsh_tl; [|exact NPA]. rewrite <- SK. apply reach_wsh, RE.
      - auto. }
    destruct H as [H|[H|H]]; [contradiction | congruence | congruence]. }
  assert (GOT : (forall z, In z (ret_obs c f v (d, fs, k) s) -> gotb L n z = false) -> gotL L n (tr s') = gotL L n (tr s)).
  { intros H. cbn [tr s']. unfold tick_tr. rewrite !got_app; [reflexivity|exact H|..]; intros z I; [eapply got_handler | eapply got_ctl]; exact I. }
  assert (P0 : 0 <= b2z (pendb L n s)) by (destruct (pendb L n s); cbn; lia).
  assert (P1 : 0 <= b2z (mem c L && asgb n s c)) by (destruct (_ && _); cbn; lia).
  unfold acct. rewrite C.
  assert (D3 : (exists j o, f = FApi j o) \/ f = FSigWait \/ f = FPause \/ ((forall j o, f <> FApi j o) /\ f <> FSigWait /\ f <> FPause)).
  { destruct f; auto; try (right; right; right; repeat split; intros; discriminate). left. eauto. }
  destruct D3 as [(j & o & ->)|[->|[->|(NA & NS & NP)]]].
  - assert (B : pendb L n s' = false). { destruct (pendb L n s') eqn:B; [|reflexivity]. destruct (PB eq_refl) as [Q _]. discriminate Q. }
    rewrite B. rewrite (OWN ltac:(discriminate)), andb_false_r in K. cbn [b2z] in K |- *.
    assert (G : gotL L n (tr s') <= gotL L n (tr s) + b2z (pendb L n s)).
    { assert (D : (exists z, ret_obs c (FApi j o) v (d, fs, k) s = [z] /\ gotb L n z = true) \/ (forall z, In z (ret_obs c (FApi j o) v (d, fs, k) s) -> gotb L n z = false)).
      { unfold ret_obs. destruct fs; [|right; intros z []]. destruct k; try (right; intros z []; fail).
        match goal with |- context [TRet ?a1 ?a2 ?a3 ?a4 ?a5 ?a6] => destruct (gotb L n (TRet a1 a2 a3 a4 a5 a6)) eqn:G end; [left; eauto|].
        right. intros z [<-|[]]. exact G. }
      destruct D as [(z & Q & G)|D]; [|rewrite (GOT D); lia].
      unfold ret_obs in Q. destruct fs; [|discriminate]. destruct k; try discriminate. injection Q as <-. cbn [gotb] in G. destruct o; try discriminate.
      assert (PE : pendb L n s = true). { unfold pendb. rewrite M, CU, SK. exact G. }
      rewrite PE. cbn [b2z tr s']. unfold tick_tr. cbn [ctl_obs handler_obs ret_obs app].
      unfold gotL. cbn [filter gotb]. rewrite G. cbn [length]. lia. }
    lia.
  - rewrite (GOT ltac:(intros z [])). rewrite (OWN ltac:(discriminate)), andb_false_r in K. cbn [b2z] in K.
    destruct (pendb L n s') eqn:B; cbn [b2z]; [|lia]. destruct (PB eq_refl) as (_ & ML & -> & ->). rewrite ML in K. cbn [andb] in K.
    assert (AS : asgb n s c = true).
    { apply asgb_true. rewrite SK. split; [exists rest; reflexivity|]. split; [apply cur_notpaused; assumption|].
      cbn [hret] in E. unfold sigwait_end in E. cbv zeta in E. destruct (checkdl _ _ _ _) as [w d2] eqn:CD. injection E as E1 E2. clear E1. apply (f_equal (fun z => z - n)) in E2. cbv beta in E2. rewrite Z.sub_diag in E2.
      unfold checkdl in CD. cbn in CD. rewrite zupd_eq in CD. cbn in CD.
      destruct (canceled (cof (dt s) c)), (deadlined (cof (dt s) c)); cbn in CD; inj CD; unfold OK, ECANCELED, ETIMEDOUT in E2; cbn [Z.eqb Pos.eqb] in E2;
        try (exfalso; lia).
      split; [reflexivity|]. split; [reflexivity | lia]. }
    rewrite AS in K. cbn [b2z] in K. lia.
  - assert (B : pendb L n s' = false). { destruct (pendb L n s') eqn:B; [|reflexivity]. destruct (PB eq_refl) as [Q _]. discriminate Q. }
    rewrite (GOT ltac:(intros z [])), B. cbn [b2z].
    assert (IMP : asgb n s' c = true -> asgb n s c = true).
    { cbn in E. inj E. cbn [exec] in X. inj X. intros AS. apply asgb_true in AS. cbn [sc dt s' paused set_stk stk app ctl_dat] in AS.
      destruct AS as ((r & TP) & NP & CN & DN & SM). rewrite zupd_eq in TP. apply asgb_true. rewrite SK.
      destruct (wsh_pause rest) as (g & st' & -> & Wg & _); [rewrite <- SK; apply reach_wsh, RE|].
      assert (TG : top (g :: st') = g :: st') by (destruct g; try reflexivity; discriminate Wg). rewrite TG in TP. cbn [top].
      split; [eauto|]. split; [exact NP|]. clear -CN DN SM. revert CN DN SM. unfold pause_end. cbv zeta. destruct (_ <? _); cbn; rewrite zupd_eq; auto. }
    destruct (asgb n s' c); [rewrite IMP in K by reflexivity; lia|]. rewrite andb_false_r in K. cbn [b2z] in K. lia.
  - assert (B : pendb L n s' = false). { destruct (pendb L n s') eqn:B; [|reflexivity]. destruct (PB eq_refl) as [Q _]. contradiction. }
    rewrite B. rewrite (OWN NP), andb_false_r in K. cbn [b2z] in K |- *. rewrite GOT; [lia|].
    intros z I. unfold ret_obs in I. destruct f; try destruct I. destruct (NA _ _ eq_refl).
Qed.

(** ** One turn of the loop *)
Lemma dl_step_sig : forall l nw d d' w, dl_step l nw d = (d', w) -> sigq d' = sigq d /\ forall x, sigmask (cof d' x) = sigmask (cof d x).
Proof.
  induction l as [|[dl c] l IH]; intros nw d d' w E; cbn in E; [inj E; auto|]. destruct (dl <? nw); [|inj E; auto].
  destruct (dl_step l nw _) as [d1 w1] eqn:Q. inj E. destruct (IH _ _ _ _ Q) as [A B]. split; [rewrite A; reflexivity|].
  intros x. rewrite B. cbn. unfold zupd. destruct (Z.eqb_spec x c) as [->|]; reflexivity.
Qed.
Lemma event_step1_sig : forall io d d' w, event_step1 d io = (d', w) -> sigq d' = sigq d /\ cof d' = cof d /\ q d' = q d.
Proof. intros [[fd r] w0] d d' w E. unfold event_step1 in E. destruct (armed d fd). destruct (_ || _); inj E; auto. Qed.
Lemma event_step_sig : forall ios d d' w, event_step d ios = (d', w) -> sigq d' = sigq d /\ cof d' = cof d /\ q d' = q d.
Proof.
  induction ios as [|io ios IH]; intros d d' w E; cbn in E; [inj E; auto|].
  destruct (event_step1 d io) as [d1 w1] eqn:E1. destruct (event_step d1 ios) as [d2 w2] eqn:E2. inj E.
  destruct (event_step1_sig _ _ _ _ E1) as (A & B & C). destruct (IH _ _ _ E2) as (A2 & B2 & C2). repeat split; congruence.
Qed.
Lemma dec_sigq_at : forall n d m, sigq (dec_sigq n d) m = if m =? n then sigq d m - 1 else sigq d m.
Proof. intros n d m. unfold dec_sigq. cbv zeta. match goal with |- context [if ?b then set_sigm _ _ else _] => destruct b end; cbn; unfold zupd; destruct (Z.eqb_spec m n) as [->|]; reflexivity. Qed.
(** the outcome of signal handling in one turn *)
Inductive sstep (d d' : dat) : list Z -> Prop :=
| ss_none : (forall m, sigq d' m = sigq d m \/ (sigq d m <> 0 /\ sigq d' m = sigq d m - 1)) -> (forall x, sigmask (cof d' x) = sigmask (cof d x)) -> sstep d d' []
| ss_one n x : sigq d n <> 0 -> (forall m, sigq d' m = if m =? n then sigq d m - 1 else sigq d m) ->
    (forall y, sigmask (cof d' y) = if y =? x then n else sigmask (cof d y)) ->
    In x (map node_co (q d QSig)) -> Z.testbit (sigmask (cof d x)) n = true -> sstep d d' [x].
Lemma signal_step_ss : forall d d' w k, signal_step d = (d', w, k) -> sstep d d' w.
Proof.
  intros d d' w k E. unfold signal_step in E. destruct (find _ signos) as [n|] eqn:FN; [|inj E; apply ss_none; auto].
  apply find_some in FN. destruct FN as [_ FN]. apply negb_true_iff, Z.eqb_neq in FN.
  destruct (sigw d n =? 0).
  - inj E. apply ss_none; [|intros x; rewrite dec_sigq_cof; reflexivity]. intros m. rewrite dec_sigq_at. destruct (Z.eqb_spec m n) as [->|]; auto.
  - destruct (find _ (q d QSig)) as [y|] eqn:FY; inj E; [|apply ss_none; auto]. apply find_some in FY. destruct FY as [IY TB]. apply (ss_one _ _ n); auto.
    + intros m. rewrite dec_sigq_at. cbn. reflexivity.
    + intros z. rewrite dec_sigq_cof. cbn. unfold zupd. destruct (_ =? _); reflexivity.
    + apply in_map, IY.
Qed.
Lemma paused_step_ss : forall nw ios d d' ws k, paused_step nw ios d = (d', ws, k) ->
  exists w4, sstep d d' w4 /\ forall x, In x ws ->
    (exists n, In n (q d QRes) /\ node_co n = x) \/ (exists n, In n (q d QIo) /\ node_co n = x) \/
    (exists fd kd, In (fd, kd, x) (evs d)) \/ In x w4 \/ deadlined (cof d' x) = true.
Proof.
  intros nw ios d d' ws k E. unfold paused_step in E.
  set (d1 := set_nresumers _ _) in E.
  set (d2 := if 0 <? niow d1 then set_q _ d1 else d1) in E.
  assert (V2 : evs d2 = evs d /\ q d2 QSig = q d QSig /\ sigq d2 = sigq d /\ cof d2 = cof d).
  { unfold d2. destruct (0 <? niow d1); cbn; repeat split; auto; rewrite ?qupd_neq by discriminate; reflexivity. }
  destruct V2 as (V2a & V2c & V2d & V2e).
  destruct (if 0 <? nevs d2 then _ else _) as [d3 w3] eqn:E3.
  assert (V3 : sigq d3 = sigq d2 /\ cof d3 = cof d2 /\ q d3 = q d2). { destruct (0 <? nevs d2); [eapply event_step_sig; exact E3 | inj E3; auto]. }
  destruct V3 as (V3a & V3b & V3c).
  destruct (if negb (sigm d3 =? 0) then _ else _) as [[d4 w4] kill] eqn:E4.
  assert (P4 : sstep d3 d4 w4). { destruct (negb _); [eapply signal_step_ss; exact E4 | inj E4; apply ss_none; auto]. }
  destruct (dl_step (dls d4) nw d4) as [d5 w5] eqn:E5. inj E. exists w4. split.
  - destruct (dl_step_sig _ _ _ _ _ E5) as [A B]. inversion P4 as [H1 H2|n x H0 H1 H2 H3 H4]; subst.
    + apply ss_none; [|intros y; rewrite B, H2; congruence]. intros m. rewrite A. destruct (H1 m) as [H|H]; [left|right]; rewrite V3a, V2d in H; exact H.
    + apply (ss_one _ _ n); rewrite ?V3a, ?V2d, ?V3b, ?V2e, ?V3c, ?V2c in *; auto.
      * intros m. rewrite A. apply H1.
      * intros y. rewrite B. apply H2.
  - intros x I.
    apply in_app_or in I. destruct I as [I|I].
    { left. apply in_map_iff in I. destruct I as (n & A & B). exists n. auto. }
    apply in_app_or in I. destruct I as [I|I].
    { right; left. destruct (0 <? niow d); [|destruct I]. apply in_map_iff in I. destruct I as (n & A & B). exists n. split; [|exact A].
      cbn in B. try rewrite qupd_neq in B by discriminate. exact B. }
    apply in_app_or in I. destruct I as [I|I].
    { right; right; left. destruct (0 <? nevs d2); [|inj E3; destruct I]. rewrite <- V2a. eapply event_step_ws; eassumption. }
    apply in_app_or in I. destruct I as [I|I]; [auto|].
    right; right; right; right. apply (dl_step_ws _ _ _ _ _ _ E5 I).
Qed.
Lemma stamp_sig : forall l nw d, sigq (stamp l nw d) = sigq d /\ forall x, sigmask (cof (stamp l nw d) x) = sigmask (cof d x).
Proof.
  induction l as [|n l IH]; intros nw d; cbn; [auto|]. destruct (_ =? 0); [|auto]. destruct (IH nw (upco (node_co n) (set_pool_ts nw) d)) as [A B].
  split; [rewrite A; reflexivity|]. intros x. rewrite B. cbn. unfold zupd. destruct (Z.eqb_spec x (node_co n)) as [->|]; reflexivity.
Qed.
Lemma rc_sig : forall nw d, sigq (rc_step nw d) = sigq d /\ forall x, sigmask (cof (rc_step nw d) x) = sigmask (cof d x).
Proof. intros nw d. unfold rc_step. destruct (0 <? npool d); [|auto]. cbn. apply stamp_sig. Qed.
Lemma main_ss : forall s d ws ios, (if 0 <? npsd (sc s) then paused_step (now s) ios (dt s) else (dt s, [], None)) = (d, ws, None) ->
  exists w4, sstep (dt s) (rc_step (now s) d) w4 /\ forall x, In x ws ->
    (exists n, In n (q (dt s) QRes) /\ node_co n = x) \/ (exists n, In n (q (dt s) QIo) /\ node_co n = x) \/
    (exists fd kd, In (fd, kd, x) (evs (dt s))) \/ In x w4 \/ deadlined (cof (rc_step (now s) d) x) = true.
Proof.
  intros s d ws ios E. destruct (rc_sig (now s) d) as [A B].
  assert (ST : forall w4, sstep (dt s) d w4 -> sstep (dt s) (rc_step (now s) d) w4).
  { intros w4 [H1 H2|n x H0 H1 H2 H3 H4]; [apply ss_none | apply (ss_one _ _ n)]; auto.
    - intros m. rewrite A. apply H1.
    - intros x. rewrite B. apply H2.
    - intros m. rewrite A. apply H1.
    - intros y. rewrite B. apply H2. }
  destruct (0 <? npsd (sc s)).
  - destruct (paused_step_ss _ _ _ _ _ _ E) as (w4 & P & R). exists w4. split; [apply ST, P|]. intros x I. rewrite rc_deadlined. apply R, I.
  - inj E. exists []. split; [apply ST, ss_none; auto|]. intros x [].
Qed.
Lemma sigq_nonneg : forall s, reach s -> forall n, 0 <= sigq (dt s) n.
Proof.
  apply (rrun_preserves (fun s => forall n, 0 <= sigq (dt s) n)).
  - intros s c o d fs k sch md RE I M CU U NR E X n. cbn [dt]. rewrite ctl_sigq, (hcall_sigq _ _ _ _ _ _ _ E). apply I.
  - intros s c v f rest b d fs k sch md RE I M CU SK L E X n. cbn [dt]. rewrite ctl_sigq, (hret_sigq _ _ _ _ _ _ _ _ _ E). apply I.
  - intros s d ws sch md ios RE I M A K X n. cbn [dt]. destruct (main_ss _ _ _ _ K) as (w4 & SS & _). pose proof (I n).
    destruct SS as [H1 H2|m y H0 H1 H2 H3 H4]; [destruct (H1 n) as [->|[? ->]]; lia|]. rewrite H1. destruct (Z.eqb_spec n m) as [->|]; lia.
  - intros s m RE I _. exact I.
  - intros s e RE I H M n. specialize (I n). destruct e; try contradiction; cbn; repeat (match goal with |- context [if ?b then _ else _] => destruct b
      | |- context [match mode ?z with _ => _ end] => destruct (mode z) | |- context [match stk (sc ?z) ?c with _ => _ end] => destruct (stk (sc z) c) as [|[] ?] end; cbn); try exact I;
      unfold zupd; destruct (_ =? _) eqn:Q; try exact I; apply Z.eqb_eq in Q; subst; lia.
  - intros g O n. cbn. unfold spawn_dat, popq. cbn. lia.
Qed.

