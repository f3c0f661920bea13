(** C24: what neco_getstats reports. *)
From Coq Require Import List ZArith Bool Lia.
From Verif Require Import Util Runtime SchedInv StepInv StackShape RuntimeSpec TraceInv Immediate Prims StaticInv Footprint QueueInv OwnInv WaitInv CallInv CountInv SpecInv TraceStep Wake Awake AllInv PausedInv CancelOrd BlockSpec OneStep Count Scripts.
Import ListNotations.
Local Open Scope Z_scope.

(** The nine kinds of blocking operation neco_getstats distinguishes, in the order of
    the structure (neco.h): sleepers, evwaiters, sigwaiters, senders, receivers, locked,
    waitgroupers, condwaiters, suspended. *)
Definition kinds : list cls := [KSleep; KEv; KSig; KSend; KRecv; KLock; KWg; KCv; KSusp].
(** the operations of each kind; cond_wait counts as [KLock] while it takes back its mutex *)
Definition of_kind (i : cls) (o : op) : Prop :=
  match i, o with
  | KSleep, OpSleep _ | KEv, OpWait _ _ _ _ | KSig, OpSigWait _ | KSend, OpSend _ _ _ | KSend, OpGenYield _ _
  | KRecv, OpRecv _ _ | KRecv, OpSelect _ _ | KLock, OpLock _ _ | KLock, OpRdLock _ _ | KLock, OpCvWait _ _ _
  | KWg, OpWgWait _ _ | KCv, OpCvWait _ _ _ | KSusp, OpSuspend _ | KWork, OpWork _ => True
  | _, _ => False
  end.
(** [x] has put itself to wait in kind [i] and has not run since *)
Definition waits_in (s : state) (i : cls) (x : Z) : Prop := blk i (stk (sc s) x) = true.

Lemma covers_started : forall s, reach s -> covers (started (tr s)) (sc s).
Proof.
  intros s RE. pose proof (reach_tinv _ RE) as TI. split; [apply (ti_started _ TI)|].
  intros x H. apply (ti_alive _ TI) in H. apply H.
Qed.
Lemma cnt_len : forall i p l, cnt i p l = Z.of_nat (length (filter (fun x => blk i (stk p x)) l)).
Proof.
  intros i p l. unfold cnt. induction l as [|x l IH]; [reflexivity|]. rewrite zsum_cons, IH. cbn [filter].
  destruct (blk i (stk p x)); cbn [b2z]; [|lia]. change (length (x :: ?l)) with (S (length l)). cbn [length]. lia.
Qed.

(** Who waits: each has a pending call of that kind, and is not the caller; each
    coroutine the scheduler holds blocked in a call is in the count of its kind. *)
Theorem C24_waits_in_means : forall s i x, reach s -> waits_in s i x ->
  exists k o t, of_kind i o /\ In (TCall k x o t) (tr s) /\ ~ returned k (tr s).
Proof.
  intros s i x RE W. unfold waits_in in W.
  assert (NE : stk (sc s) x <> []) by (intros Z; rewrite Z in W; destruct i; discriminate W).
  pose proof (lstack_top _ (live_lstack _ _ (reach_full _ RE) NE)) as L.
  assert (TP : exists f rest, top (stk (sc s) x) = f :: rest /\ infr i f = true).
  { destruct (stk (sc s) x) as [|f st]; [congruence|]. cbn [blk] in W. destruct f; cbn [top]; eauto.
    destruct st as [|g st]; [destruct i; discriminate W | eauto]. }
  destruct TP as (f & rest & TP & IF). rewrite TP in L.
  assert (PF : parkf f = true) by (destruct i, f; try discriminate IF; reflexivity).
  assert (IN : forall k o, In (FApi k o) rest -> In (FApi k o) (stk (sc s) x)) by (intros k o H; apply top_sub; rewrite TP; right; exact H).
  destruct (lstack_host _ _ L PF) as [(k & o & st & -> & _ & HO)|(m & ret & k & v & dl & st & -> & -> & _)].
  - destruct (ci_open _ (reach_cinv _ RE) x k o) as (t & I & _); [apply IN; left; reflexivity|].
    exists k, o, t. split; [|split; [exact I | eapply ci_pend; [apply reach_cinv, RE | apply IN; left; reflexivity]]].
    destruct i, f; try discriminate IF; destruct o; try contradiction; exact Logic.I.
  - destruct (ci_open _ (reach_cinv _ RE) x k (OpCvWait v m dl)) as (t & I & _); [apply IN; right; left; reflexivity|].
    exists k, (OpCvWait v m dl), t. split; [|split; [exact I | eapply ci_pend; [apply reach_cinv, RE | apply IN; right; left; reflexivity]]].
    destruct i; try discriminate IF; exact Logic.I.
Qed.
Theorem C24_blocked_counted : forall s x k o, reach s -> blocked s x k o ->
  (exists i, In i kinds /\ of_kind i o /\ waits_in s i x) \/
  (exists id dl, o = OpJoin id dl) \/ (exists id dl, o = OpCancel id dl) \/ (exists b, o = OpWork b).
Proof.
  intros s x k o RE B. destruct (blocked_frames _ _ _ _ RE B) as (w & st & SK & BF). unfold waits_in. rewrite SK.
  destruct BF as [f o WF HO|v m d2 ret|b].
  - destruct f; try discriminate WF; destruct o; try contradiction; cbn [app blk];
      try (left; match goal with |- exists i, _ /\ _ /\ infr i ?f = true =>
        first [exists KSleep; cbn; tauto | exists KEv; cbn; tauto | exists KSig; cbn; tauto | exists KSend; cbn; tauto | exists KRecv; cbn; tauto
              | exists KLock; cbn; tauto | exists KWg; cbn; tauto | exists KCv; cbn; tauto | exists KSusp; cbn; tauto] end); eauto 6.
  - left. exists KLock. cbn. tauto.
  - right; right; right. eauto.
Qed.

(** The statistics: [coroutines] followed by one entry per kind, each the number of
    coroutines waiting in that kind. *)
Definition counts_in (s : state) (i : cls) (n : Z) : Prop :=
  exists l, NoDup l /\ n = Z.of_nat (length l) /\ forall x, In x l <-> waits_in s i x.
Theorem C24_blocked_exact : forall s c b, reach s -> mode s = MUser -> cur (sc s) = Some c ->
  let s' := step (step s (ECall OpStats)) (ETick b) in
  exists m n l, tr s' = TRet (ncalls s) c OpStats OK m (now s) :: TStats (ncalls s) (n :: l) :: TCall (ncalls s) c OpStats (now s) :: tr s /\
    Forall2 (counts_in s) kinds l.
Proof.
  intros s c b RE M CU s'.
  assert (E : hcall c OpStats (now s) (dt s) = (dt s, [], CRet OK)) by reflexivity.
  assert (T : tr s' = TRet (ncalls s) c OpStats OK (rbuf (cof (dt s) c)) (now s) :: TStats (ncalls s) (stats_of (dt s)) :: TCall (ncalls s) c OpStats (now s) :: tr s).
  { unfold s'. clear s'. pose proof (step_call_eq s c OpStats _ _ _ _ _ M CU ltac:(discriminate) E eq_refl) as S1. rewrite S1. clear S1.
    set (z := mkst _ _ _ _ _ _).
    assert (E2 : hret c (FApi (ncalls s) OpStats) OK b (now z) (dt z) = (dt z, [], CUser)) by reflexivity.
    assert (SK : stk (sc z) c = FApi (ncalls s) OpStats :: stk (sc s) c) by (cbn; apply zupd_eq).
    rewrite (step_tick_eq z c OK (FApi (ncalls s) OpStats) _ b _ _ _ _ _ eq_refl CU SK E2 eq_refl). reflexivity. }
  exists (rbuf (cof (dt s) c)), (allcount (dt s)), [nsleepers (dt s); nevs (dt s); nsigs (dt s); nsenders (dt s); nreceivers (dt s); nlocked (dt s); nwgs (dt s); ncvs (dt s); nsusp (dt s)].
  split; [exact T|].
  assert (K : forall i, counts_in s i (ctr i (dt s))).
  { intros i. exists (filter (fun x => blk i (stk (sc s) x)) (started (tr s))). pose proof (covers_started _ RE) as CV.
    split; [apply NoDup_filter, CV|]. split; [rewrite (reach_cnt i _ RE _ CV); apply cnt_len|].
    intros x. rewrite filter_In. split; [intros [_ H]; exact H|]. intros H. split; [|exact H]. apply CV.
    intros Z. unfold waits_in in H. rewrite Z in H. destruct i; discriminate H. }
  repeat (constructor; [match goal with |- counts_in s ?i _ => exact (K i) end|]). constructor.
Qed.
(** [coroutines] is the number of coroutines that were started and have not begun to
    terminate. Proved for runtimes that use no asynchronous cancellation, and for those
    in which every coroutine that somebody cancels is one that nobody joins, that is not
    a generator and that never disabled cancellation ([calm] in Count.v); false
    otherwise. *)
Theorem C24_coroutines_partial : forall s c, reach s -> calm s -> mode s = MUser -> cur (sc s) = Some c ->
  exists n l, tr (step s (ECall OpStats)) = TStats (ncalls s) (n :: l) :: TCall (ncalls s) c OpStats (now s) :: tr s /\
  exists a, NoDup a /\ n = Z.of_nat (length a) /\ forall x, In x a <-> alive (tr s) x /\ noexit (stk (sc s) x).
Proof.
  intros s c RE DF M CU. assert (E : hcall c OpStats (now s) (dt s) = (dt s, [], CRet OK)) by reflexivity.
  rewrite (step_call_eq s c OpStats _ _ _ _ _ M CU ltac:(discriminate) E eq_refl).
  do 2 eexists. split; [reflexivity|]. pose proof (reach_ali2 _ RE DF) as AL. exists (all (dt s)).
  split; [apply (a2_nd _ _ AL)|]. split; [apply (a2_cnt _ _ AL)|]. intros x. rewrite (a2_in _ _ AL). rewrite (ti_alive _ (reach_tinv _ RE)). reflexivity.
Qed.
(** With asynchronous cancellation, the default: a coroutine canceled in neco_yield
    while another one joins it terminates twice, and is subtracted twice. Two coroutines
    are alive, neco_getstats reports one. *)
Theorem C24_coroutines_refuted : exists s k l, reach s /\ In (TStats k (1 :: l)) (tr s) /\
  alive (tr s) 1 /\ alive (tr s) 3 /\ noexit (stk (sc s) 1) /\ noexit (stk (sc s) 3).
Proof.
  exists (script1 [ECall OpStart; ECall OpYield; ECall OpStart; ECall (OpJoin 2 MAXI); ECall (OpCancel 2 MAXI); ECall OpYield; ECall OpYield; ECall OpYield; ECall OpYield; ECall OpStats]).
  exists 9%nat, [0; 0; 0; 0; 0; 0; 0; 0; 0]. split; [apply script1_reach|]. split; [vm_compute; tauto|].
  split; [split; vm_compute; intuition discriminate|]. split; [split; vm_compute; intuition discriminate|].
  split; intros f H; vm_compute in H; intuition (subst; reflexivity).
Qed.

(** One coroutine sleeps, two wait for a lock, one has been woken and waits to run. *)
Definition ex_stats : state := script [ECall (OpLock 0 MAXI); ECall OpStart; ECall (OpSleep 5000); ECall OpStart; ECall (OpLock 0 MAXI); ECall OpStart; ECall (OpRdLock 0 MAXI)].
Example C24_example : reach ex_stats /\ calm ex_stats /\ mode ex_stats = MUser /\ cur (sc ex_stats) = Some 1 /\
  exists l, tr (step ex_stats (ECall OpStats)) = TStats 7 [4; 1; 0; 0; 0; 0; 2; 0; 0; 0] :: l.
Proof.
  split; [apply script_reach|]. split; [left; split; [reflexivity|]|].
  - intros k c t H. pose proof (proj1 (forallb_forall (fun z => match z with TCall _ _ (OpSetType _) _ => false | _ => true end) (tr ex_stats))) as F.
    specialize (F ltac:(vm_compute; reflexivity) _ H). discriminate F.
  - split; [vm_compute; reflexivity|]. split; [vm_compute; reflexivity|]. eexists. vm_compute. reflexivity.
Qed.

(** Cancellation is asynchronous, as by default. Coroutine 2 is canceled in neco_yield and
    is gone; coroutine 3 sleeps and coroutine 4 joins it. *)
Definition lonerb (s : state) (x : Z) : bool :=
  env_enabled (dt s) && forallb (fun z => match z with TCall _ _ (OpJoin y _) _ => negb (y =? x) | TCall _ _ OpGenStart _ => false | TCall _ y (OpSetState false) _ => negb (y =? x) | _ => true end) (tr s).
Lemma lonerb_ok : forall s x, lonerb s x = true -> loner s x.
Proof.
  intros s x H. unfold lonerb in H. apply andb_true_iff in H. destruct H as [A B]. rewrite forallb_forall in B. split; [|split; [|split]].
  - intros k c dl t IN. specialize (B _ IN). cbn in B. rewrite Z.eqb_refl in B. discriminate B.
  - intros k c (l1 & l2 & tm & E). assert (IN : In (TCall k c OpGenStart tm) (tr s)) by (rewrite E; apply in_or_app; right; right; left; reflexivity). specialize (B _ IN). discriminate B.
  - exact A.
  - intros k t IN. specialize (B _ IN). cbn in B. rewrite Z.eqb_refl in B. discriminate B.
Qed.
Definition ex_async : state := script1 [ECall OpStart; ECall OpYield; ECall OpStart; ECall (OpSleep 5000); ECall OpStart; ECall (OpJoin 3 MAXI); ECall (OpCancel 2 MAXI)].
Lemma ex_async_tr : tr ex_async = [TRet 6 1 (OpCancel 2 MAXI) 0 0 1000; TExit 2; TCall 6 1 (OpCancel 2 MAXI) 1000; TRet 4 1 OpStart 0 0 1000;
  TCall 5 4 (OpJoin 3 MAXI) 1000; TStart 1 4; TCall 4 1 OpStart 1000; TRet 2 1 OpStart 0 0 1000; TCall 3 3 (OpSleep 5000) 1000; TStart 1 3;
  TCall 2 1 OpStart 1000; TRet 0 1 OpStart 0 0 1000; TCall 1 2 OpYield 1000; TStart 1 2; TCall 0 1 OpStart 1000; TStart 0 1].
Proof. vm_compute. reflexivity. Qed.
Example C24_async_example : reach ex_async /\ calm ex_async /\ env_async (dt ex_async) = true /\ mode ex_async = MUser /\ cur (sc ex_async) = Some 1 /\
  In (TExit 2) (tr ex_async) /\ exists l, tr (step ex_async (ECall OpStats)) = TStats 7 [3; 1; 0; 0; 0; 0; 0; 0; 0; 0] :: l.
Proof.
  split; [apply script1_reach|]. split; [right; intros x; destruct (Z.eq_dec x 2) as [->|N]; [right; apply lonerb_ok; vm_compute; reflexivity | left]|].
  - intros k c id dl tm IN. rewrite ex_async_tr in *. cbn [In] in IN. assert (ID : id = 2) by (repeat (destruct IN as [IN|IN]; [first [discriminate IN | injection IN; intros; subst; reflexivity]|]); destruct IN). subst id. clear IN. split; [congruence|].
    intros EB. apply endedb_ok in EB. cbn [endedb existsb] in EB. rewrite ?andb_false_r in EB. discriminate EB.
  - split; [vm_compute; reflexivity|]. split; [vm_compute; reflexivity|]. split; [vm_compute; reflexivity|]. split; [rewrite ex_async_tr; cbn; auto|]. eexists. vm_compute. reflexivity.
Qed.

Print Assumptions C24_waits_in_means.
Print Assumptions C24_blocked_counted.
Print Assumptions C24_blocked_exact.
Print Assumptions C24_coroutines_partial.
Print Assumptions C24_coroutines_refuted.
