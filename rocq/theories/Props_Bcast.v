(** C05: broadcasts. *)
From Coq Require Import List ZArith Bool Lia.
From Verif Require Import AATreeSpec AATreeHist Util Runtime SchedInv StepInv StackShape RuntimeSpec TraceInv Immediate Prims StaticInv Footprint QueueInv OwnInv WaitInv CallInv SpecInv TraceStep Wake Awake DeadlineInv AllInv PausedInv ResultInv JoinInv WaiterInv DldInv CancelInv CancelSt MutexEff MutexTok MutexRt MutexOrd AtCall WgInv ChanShape ChanSpec ChanLists ChanEff ChanQuiet ChanFifo ChanStatic GenInv ChanOrder BlockSpec CancelFate OneStep Promise Handed RecvQ BcastEff SelInv SelWait SelSlot Stuck Scripts Props_Mutex Props_Chan.
Import ListNotations.
Local Open Scope Z_scope.

Lemma chan_sorted : forall s ch, reach s -> sorted_out (q (dt s) (QChan ch)).
Proof.
  intros s ch RE. split; intros x i IN.
  - intros IC. pose proof (reach_qloc _ RE _ (QChan ch) Logic.I IN) as M1. pose proof (reach_qloc _ RE _ (QChan ch) Logic.I IC) as M2. cbn [node_co] in *. unfold matched in *.
    destruct (top (stk (sc s) x)) as [|f r]; [destruct M1|]. destruct f; try contradiction; try (destruct M2 as [D _]; discriminate D). destruct r as [|g r]; [destruct M1|]. destruct g; try contradiction. destruct o; try contradiction. destruct M1 as (j & g & D & _). discriminate D.
  - pose proof (reach_qloc _ RE _ (QChan ch) Logic.I IN) as M2. cbn [node_co] in *. unfold matched in *.
    destruct (top (stk (sc s) x)) as [|f r]; [destruct M2|]. destruct f; try contradiction; try (destruct M2 as [D _]; discriminate D). destruct r as [|g r]; [destruct M2|]. destruct g; try contradiction. destruct o; try contradiction. destruct M2 as (j & g & D & _). injection D as ->. lia.
Qed.
(** the last word on call [k]: whenever it returns, it returns message [m] with
    NECO_OK, or reports a cancellation or a passed deadline *)
Definition gets (s : state) (k : nat) (m : Z) : Prop :=
  forall es c o r v t, In (TRet k c o r v t) (tr (run s es)) -> (r = OK /\ v = m) \/ r = ECANCELED \/ r = ETIMEDOUT.
(** what was delivered to [x]: a pending receive call on [ch] now has [m]; or a
    pending select has its position for [ch] chosen, and unless another select on
    [ch] is in progress, neco_chan_case on [ch] will give [m] *)
Definition delivered (s s' : state) (ch : nat) (m x : Z) : Prop :=
  (exists k dl t, In (TCall k x (OpRecv ch dl) t) (tr s) /\ (forall c o r v u, ~ In (TRet k c o r v u) (tr s)) /\ gets s' k m) \/
  (exists k chs dl t i, In (TCall k x (OpSelect chs dl) t) (tr s) /\ (forall c o r v u, ~ In (TRet k c o r v u) (tr s)) /\ nth_error chs i = Some ch /\ picks s' k (Z.of_nat i) /\
     (alone s x ch -> case_gets s' x ch true m)).
Theorem C05_broadcast : forall s ch n c m, reach s -> chan_made s ch n -> mode s = MUser -> cur (sc s) = Some c ->
  let s' := step s (ECall (OpBcast ch m)) in
  (goes_ahead s' c (ncalls s) ECLOSED /\ dt s' = dt s) \/
  exists W, NoDup W /\ goes_ahead s' c (ncalls s) (Z.of_nat (length W)) /\
    (forall x, In x W -> to_resume s' x /\ delivered s s' ch m x) /\
    (forall x k dl, blocked s x k (OpRecv ch dl) -> ~ to_resume s x -> In x W) /\
    (forall x k chs dl, blocked s x k (OpSelect chs dl) -> In ch chs -> ~ to_resume s x -> In x W) /\
    (forall x, ~ In x W -> cof (dt s') x = cof (dt s) x) /\ buf (chn (dt s') ch) = buf (chn (dt s) ch).
Proof.
  intros s ch n c m RE MK MU CU s'. assert (NO : ~ over (mode s)) by (rewrite MU; exact (fun z => z)). pose proof (reach_full _ RE) as FU.
  destruct (made_isch _ _ _ RE NO MK) as [IC _]. pose proof (isch_chk _ _ (proj1 (reach_chinv _ RE)) IC) as CK.
  destruct (sclosed (chn (dt s) ch)) eqn:SC.
  { left. assert (E : hcall c (OpBcast ch m) (now s) (dt s) = (dt s, [], CRet ECLOSED)) by (cbn [hcall]; unfold do_bcast; rewrite CK, SC; reflexivity). split.
    - apply (promise_goes ECLOSED s c (OpBcast ch m) (dt s) [] (CRet ECLOSED)); auto; discriminate.
    - unfold s'. destruct (exec c (CRet ECLOSED) (set_stk (zupd (stk (sc s)) c ([] ++ FApi (ncalls s) (OpBcast ch m) :: stk (sc s) c)) (sc s))) as [sch md] eqn:X.
      rewrite (step_call_eq s c (OpBcast ch m) _ _ _ _ _ MU CU ltac:(discriminate) E X). reflexivity. }
  right. destruct (hcall c (OpBcast ch m) (now s) (dt s)) as [[d fs] kk] eqn:E.
  destruct (exec c kk (set_stk (zupd (stk (sc s)) c (fs ++ FApi (ncalls s) (OpBcast ch m) :: stk (sc s) c)) (sc s))) as [sch md] eqn:X.
  pose proof (step_call_eq s c (OpBcast ch m) _ _ _ _ _ MU CU ltac:(discriminate) E X) as SE. fold s' in SE.
  assert (RE' : reach s') by (apply reach_step, RE). assert (U : ustack (stk (sc s) c)) by (apply (proj2 FU); assumption).
  pose proof E as E0. cbn [hcall] in E0. unfold do_bcast in E0. rewrite CK, SC in E0. cbn [negb] in E0.
  destruct (bcast_loop ch m (recvn ch (dt s)) 0 (dt s)) as [r d1] eqn:BL. pose proof (yfsr_cases _ _ _ _ _ E0) as (D1 & -> & FS). subst d1.
  assert (HW : exists W, r = Z.of_nat (length W) /\ NoDup W /\ (forall x, In x W -> to_resume s' x /\ delivered s s' ch m x) /\
    (forall x, qrecv (chn (dt s) ch) = true -> In (NCo x) (q (dt s) (QChan ch)) -> In x W) /\ (forall x i, ccase x i ch (dt s) -> retidx (cof (dt s) x) = -1 -> In x W) /\ (forall x, ~ In x W -> cof d x = cof (dt s) x) /\ buf (chn d ch) = buf (chn (dt s) ch)).
  { unfold recvn in BL. destruct (qrecv (chn (dt s) ch)) eqn:QR.
    - destruct (bcast_loop_eff ch m _ 0 (dt s) r d eq_refl (proj1 (reach_uniq _ RE) (QChan ch)) (chan_sorted _ ch RE) BL) as (W & RW & BD).
      exists W. split; [exact RW|]. split; [apply BD|]. split; [|split; [intros x _; apply BD | split; [intros x i; apply BD | split; [apply BD | apply BD]]]].
      intros x IW. split; [unfold to_resume; rewrite SE; cbn [dt ctl_dat]; apply (bd_res _ _ _ _ _ BD), IW|].
      assert (ST : forall nd, In nd (q (dt s) (QChan ch)) -> node_co nd = x -> x <> c /\ stk (sc s') x = stk (sc s) x).
      { intros nd IQ NX. pose proof (reach_qloc _ RE _ (QChan ch) Logic.I IQ) as MM. rewrite NX in MM.
        assert (NE : x <> c) by (intros EX; rewrite EX in MM; destruct U; destruct MM). split; [exact NE|].
        rewrite SE. cbn [sc]. destruct (exec_stk_cases _ _ _ _ _ X (cur_notfresh _ _ FU CU) x) as [(D & _)|[(_ & _ & (g & D) & _)|(_ & Q & _)]]; [contradiction | discriminate D|]. rewrite Q. cbn [stk set_stk]. apply zupd_neq, NE. }
      assert (TS : forall z, In z (tr s) -> In z (tr s')) by (intros z IZ; rewrite SE; apply call_tr_old, IZ).
      destruct (bd_who _ _ _ _ _ BD _ IW) as [[H CX]|(j & H & _ & CX)]; destruct (ST _ H eq_refl) as [NE SX].
      + left. destruct (queued_at _ _ _ RE H QR) as [(k & dl & w & _ & AC & IF)|(k & i & chs & dl & w & D & _)]; [|discriminate D]. cbn [node_co] in AC. destruct (at_called _ _ _ _ _ RE AC) as (t & IT).
        exists k, dl, t. split; [exact IT|]. split; [intros; eapply pending_noret; eassumption|].
        assert (HD : handed x ch k m s').
        { constructor.
          - eauto.
          - intros _ w' o' AC'. left. assert (A0 : at_call s x w' k o') by (destruct AC' as (st & Q & SH); exists st; split; [rewrite <- SX; exact Q | exact SH]).
            destruct (at_fun _ _ _ _ _ _ _ _ RE A0 AC) as (-> & _). split; [exact IF|]. unfold inq. rewrite SE. cbn [dt ctl_dat]. rewrite (bd_q _ _ _ _ _ BD), CX. split; [intros []|]. split; [|reflexivity].
            cbn. eapply (reach_rqi _ RE NO); [exact AC | exact IF | exact H].
          - intros c' o' r' v t' IN. exfalso. rewrite SE in IN. cbn [tr] in IN. apply call_tr_rets in IN. exact (pending_noret _ _ _ _ _ _ _ _ _ _ RE AC IN). }
        intros es c' o' r' v t' IN. eapply hd_ret; [apply handed_run; [exact RE' | exact HD] | exact IN].
      + right. destruct (queued_at _ _ _ RE H QR) as [(k & dl & w & D & _)|(k & i & chs & dl & w & D & AC & IF & NI)]; [discriminate D|]. cbn [node_co] in *. injection D as ->. destruct (at_called _ _ _ _ _ RE AC) as (t & IT).
        exists k, chs, dl, t, i. split; [exact IT|]. split; [intros; eapply pending_noret; eassumption|]. split; [exact NI|].
        assert (AC' : at_call s' x w k (OpSelect chs dl)) by (destruct AC as (st & Q & SH); exists st; split; [rewrite SX; exact Q | exact SH]).
        assert (RX : retidx (cof (dt s') x) = Z.of_nat i) by (rewrite SE; cbn [dt ctl_dat]; rewrite CX; reflexivity). split; [eapply select_picks; eassumption|].
        intros AL. destruct (bd_case _ _ _ _ _ BD _ _ IW H) as [LO SL].
        replace m with (slot (chn (dt s') ch)) by (rewrite SE; exact SL). eapply select_case; [exact RE' | | exact AC' | exact IF | lia | rewrite SE; exact LO |].
        * destruct MK as (k0 & c0 & t0 & IM). exists n, k0, c0, t0. apply TS, IM.
        * rewrite SE. eapply alone_call; [exact RE | exact CU | exact U | | exact E | exact X | exact AL]. exact (fun z => z).
    - cbn in BL. injection BL as <- <-. exists []. split; [reflexivity|]. split; [constructor|]. split; [intros x []|]. split; [discriminate|]. split; [|split; [reflexivity | reflexivity]]. intros x i H. destruct (reach_selq _ RE _ _ _ H). congruence. }
  destruct HW as (W & -> & ND & W1 & W2 & W5 & W3 & W4). exists W. split; [exact ND|]. split; [|split; [exact W1|]].
  - apply (promise_goes _ s c (OpBcast ch m) d fs CYield); auto; try discriminate. right. split; [|auto]. apply qk_bcast. destruct FS as [-> | ->]; constructor.
  - split; [|split; [|split; [intros x NW; rewrite SE; apply W3, NW | rewrite SE; exact W4]]].
    2:{ intros x k chs dl B IC' NT. destruct (blocked_undecided _ _ _ _ _ RE NO B NT) as [R1 R2]. apply In_nth_error in IC'. destruct IC' as (i & NI). eapply W5; [apply R2, NI | exact R1]. }
    intros x k dl B NT. destruct (chan_blocked _ _ _ _ ch RE B eq_refl) as [D|[IN QR]]; [contradiction | apply W2; assumption].
Qed.
(** ** Non-vacuity: 2 and 3 are blocked receiving, 1 broadcasts to both *)
Definition ex05 : state := script [ECall (OpChMake 2); ECall OpStart; ECall (OpRecv 0 MAXI); ECall OpStart; ECall (OpRecv 0 5000)].
Example C05_example : reach ex05 /\ chan_made ex05 0 2 /\ mode ex05 = MUser /\ cur (sc ex05) = Some 1 /\
  blocked ex05 2 2 (OpRecv 0 MAXI) /\ ~ to_resume ex05 2 /\ blocked ex05 3 4 (OpRecv 0 5000) /\ ~ to_resume ex05 3.
Proof.
  split; [apply script_reach|]. split; [exists 0%nat, 1, 1000; vm_compute; tauto|]. split; [vm_compute; reflexivity|]. split; [vm_compute; reflexivity|].
  split; [apply blockedb_ok; split; [vm_compute; auto|]; exists 2%nat; eexists; split; vm_compute; reflexivity|]. split; [vm_compute; tauto|].
  split; [apply blockedb_ok; split; [vm_compute; auto|]; exists 2%nat; eexists; split; vm_compute; reflexivity|]. vm_compute; tauto.
Qed.
(** ... and the broadcast returns 2 *)
Example C05_example_count : In (TRet 5 1 (OpBcast 0 7) 2 0 1000) (tr (script [ECall (OpChMake 2); ECall OpStart; ECall (OpRecv 0 MAXI); ECall OpStart; ECall (OpRecv 0 5000);
  ECall (OpBcast 0 7); ECall OpYield; ECall OpYield])).
Proof. vm_compute. tauto. Qed.

(** ** The count includes receivers that report a cancellation
    [neco_chan_broadcast] counts every queue entry it pops (neco.c:5989-6019),
    also that of a receiver that was canceled and has not run since. Here the
    broadcast returns 1, the only receive call ends with NECO_CANCELED. *)
Definition ex05r : state := script [ECall (OpChMake 0); ECall OpStart; ECall (OpRecv 0 MAXI); ECall OpStart; ECall OpYield; ECall (OpCancel 2 MAXI);
  ECall (OpBcast 0 7); ECall OpYield; ECall OpYield; ECall OpYield].
Theorem C05_count_refuted : exists s, reach s /\
  (exists k c t, In (TRet k c (OpBcast 0 7) 1 0 t) (tr s)) /\
  (exists k c ch dl t, In (TCall k c (OpRecv ch dl) t) (tr s)) /\
  (forall k c ch dl t, In (TCall k c (OpRecv ch dl) t) (tr s) -> exists v t', In (TRet k c (OpRecv ch dl) ECANCELED v t') (tr s)).
Proof.
  exists ex05r. split; [apply script_reach|]. split; [exists 6%nat, 3, 1000; vm_compute; tauto|]. split; [exists 2%nat, 2, 0%nat, MAXI, 1000; vm_compute; tauto|].
  assert (B : forallb (fun z => match z with TCall k c (OpRecv ch dl) t => (k =? 2)%nat && (c =? 2) && (ch =? 0)%nat && (dl =? MAXI) | _ => true end) (tr ex05r) = true) by (vm_compute; reflexivity).
  intros k c ch dl t H. rewrite forallb_forall in B. apply B in H. cbn in H. rewrite !andb_true_iff, !Nat.eqb_eq, !Z.eqb_eq in H. destruct H as (((-> & ->) & ->) & ->).
  exists 7, 1000. vm_compute. tauto.
Qed.

Print Assumptions C05_broadcast.
Print Assumptions C05_count_refuted.
