(** C06: select. *)
From Coq Require Import List ZArith Bool Lia.
From Verif Require Import AATreeSpec AATreeHist Util Runtime SchedInv StepInv StackShape RuntimeSpec TraceInv Immediate Prims StaticInv Footprint QueueInv OwnInv WaitInv CallInv SpecInv TraceStep Wake Awake DeadlineInv AllInv PausedInv ResultInv JoinInv WaiterInv DldInv CancelInv CancelSt MutexEff MutexTok MutexRt MutexOrd AtCall WgInv ChanShape ChanSpec ChanLists ChanEff ChanQuiet ChanFifo ChanStatic GenInv ChanOrder BlockSpec CancelFate OneStep Promise Handed RecvQ BcastEff SelInv SelWait SelSlot Stuck Scripts Props_Mutex Props_Chan Props_Bcast.
Import ListNotations.
Local Open Scope Z_scope.

(** the channels of a select call *)
Definition selects (o : op) (chs : list nat) : Prop := match o with OpSelect l _ | OpTrySelect l => l = chs | _ => False end.

(** ** The value returned: the position of one of the given channels, or an error *)
Theorem C06_index : forall s k c o chs r v t, reach s -> In (TRet k c o r v t) (tr s) -> selects o chs ->
  (exists n, (n < length chs)%nat /\ r = Z.of_nat n) \/ In r [EINVAL; EPERM; ECANCELED; ETIMEDOUT; EEMPTY; EERROR].
Proof. intros s k c o chs r v t RE IN SL. eapply se_ret; [apply reach_seli, RE | exact IN|]. destruct o; try destruct SL; cbn in *; congruence. Qed.

(** ** A send while someone waits goes to exactly one waiter *)
Definition takes (ch : nat) (o : op) : Prop := match o with OpRecv g _ => g = ch | OpSelect chs _ => In ch chs | _ => False end.
Lemma waiting_node : forall s x k o ch, reach s -> ~ over (mode s) -> blocked s x k o -> takes ch o -> ~ to_resume s x ->
  qrecv (chn (dt s) ch) = true /\ exists nd, In nd (q (dt s) (QChan ch)) /\ ((nd = NCo x) \/ (exists i chs dl, o = OpSelect chs dl /\ nd = NCase x (Z.of_nat i) /\ nth_error chs i = Some ch /\ retidx (cof (dt s) x) = -1)).
Proof.
  intros s x k o ch RE NO B TK NT. destruct o; try destruct TK; cbn in *.
  - destruct (chan_blocked _ _ _ _ ch0 RE B eq_refl) as [D|[IN QR]]; [contradiction|]. split; [exact QR|]. exists (NCo x). auto.
  - destruct (blocked_undecided _ _ _ _ _ RE NO B NT) as [R1 R2]. apply In_nth_error in TK. destruct TK as (i & NI). pose proof (R2 _ _ NI) as H. split; [apply (reach_selq _ RE _ _ _ H)|]. exists (NCase x (Z.of_nat i)). split; [exact H|]. right. eauto 8.
Qed.
Theorem C06_send : forall s ch n c m dl x k o, reach s -> chan_made s ch n -> mode s = MUser -> cur (sc s) = Some c ->
  blocked s x k o -> takes ch o -> ~ to_resume s x ->
  let s' := step s (ECall (OpSend ch m dl)) in
  (goes_ahead s' c (ncalls s) ECLOSED /\ dt s' = dt s) \/
  (goes_ahead s' c (ncalls s) ECANCELED /\ q (dt s') = q (dt s) /\ chn (dt s') = chn (dt s) /\ forall z, z <> c -> cof (dt s') z = cof (dt s) z) \/
  (goes_ahead s' c (ncalls s) OK /\ exists y, runnable s' y /\ delivered s s' ch m y /\
    (forall z, z <> y -> cof (dt s') z = cof (dt s) z) /\ (forall z j p, z <> y -> blocked s z j p -> blocked s' z j p) /\ buf (chn (dt s') ch) = buf (chn (dt s) ch)).
Proof.
  intros s ch n c m dl x k o RE MK MU CU B TK NT s'. assert (NO : ~ over (mode s)) by (rewrite MU; exact (fun z => z)). pose proof (reach_full _ RE) as FU.
  destruct (made_isch _ _ _ RE NO MK) as [IC _]. pose proof (isch_chk _ _ (proj1 (reach_chinv _ RE)) IC) as CK.
  destruct (hcall c (OpSend ch m dl) (now s) (dt s)) as [[d fs] kk] eqn:E.
  destruct (exec c kk (set_stk (zupd (stk (sc s)) c (fs ++ FApi (ncalls s) (OpSend ch m dl) :: stk (sc s) c)) (sc s))) as [sch md] eqn:X.
  pose proof (step_call_eq s c (OpSend ch m dl) _ _ _ _ _ MU CU ltac:(discriminate) E X) as SE. fold s' in SE.
  assert (RE' : reach s') by (apply reach_step, RE). assert (U : ustack (stk (sc s) c)) by (apply (proj2 FU); assumption).
  pose proof E as E0. cbn [hcall] in E0. unfold do_send in E0. rewrite CK in E0. change (negb (OK =? OK)) with false in E0. cbv iota in E0.
  destruct (sclosed (chn (dt s) ch)) eqn:SC.
  { left. injection E0 as <- <- <-. split; [|rewrite SE; reflexivity]. apply (promise_goes ECLOSED s c (OpSend ch m dl) (dt s) [] (CRet ECLOSED)); auto; discriminate. }
  destruct (canceled (cof (dt s) c)) eqn:CA.
  { right; left. injection E0 as <- <- <-. split; [apply (promise_goes ECANCELED s c (OpSend ch m dl) _ [] (CRet ECANCELED)) in E; auto; discriminate|]. rewrite SE. split; [reflexivity|]. split; [reflexivity|]. intros z NZ. cbn. apply zupd_neq, NZ. }
  right; right. destruct (waiting_node _ _ _ _ ch RE NO B TK NT) as (QR & nd & IN & WN).
  destruct (send_loop ch m (recvn ch (dt s)) (dt s)) as [r d1] eqn:SLE. unfold recvn in SLE. rewrite QR in SLE.
  pose proof (send_loop_eff _ _ _ _ _ _ eq_refl (proj1 (reach_uniq _ RE) (QChan ch)) SLE) as SD.
  destruct r as [y|].
  2:{ exfalso. destruct (SD _ IN) as (z & j & -> & R). destruct WN as [D|(i & chs & dl' & _ & D & _ & R')]; [discriminate D|]. injection D as -> _. contradiction. }
  injection E0 as <- <- <-.
  split; [apply (promise_goes OK s c (OpSend ch m dl) _ [FSendResumed] (CResume y)) in E; auto; try discriminate; try exact (fun z => z); right; split; [apply qk_send; reflexivity | eauto]|].
  exists y.
  assert (WY : exists nd', In nd' (q (dt s) (QChan ch)) /\ node_co nd' = y) by (destruct (sd_who _ _ _ _ _ SD) as [(H & _)|(j & H & _)]; eexists; split; try exact H; reflexivity).
  assert (ST : forall z, z <> c -> stk (sc s') z = stk (sc s) z).
  { intros z NE. rewrite SE. cbn [sc]. destruct (exec_stk_cases _ _ _ _ _ X (cur_notfresh _ _ FU CU) z) as [(D & _)|[(_ & _ & (g & D) & _)|(_ & Q & _)]]; [contradiction | discriminate D|]. rewrite Q. cbn [stk set_stk]. apply zupd_neq, NE. }
  assert (NE : y <> c).
  { destruct WY as (nd' & IQ & NX). pose proof (reach_qloc _ RE _ (QChan ch) Logic.I IQ) as MM. rewrite NX in MM. intros EX; rewrite EX in MM; destruct U; destruct MM. }
  pose proof (ST _ NE) as SX. assert (TS : forall z, In z (tr s) -> In z (tr s')) by (intros z IZ; rewrite SE; apply call_tr_old, IZ).
  assert (PE : paused (sc s') = if mem y (paused (sc s)) then remove1 y (paused (sc s)) else paused (sc s)) by (rewrite SE; exact (exec_paused _ _ _ _ _ X)).
  split; [|split; [|split; [|split]]].
  - apply notpaused_runnable; [exact RE' | |].
    + rewrite SX. destruct WY as (nd' & IQ & NX). pose proof (reach_qloc _ RE _ (QChan ch) Logic.I IQ) as MM. rewrite NX in MM. intros EX; rewrite EX in MM; destruct MM.
    + rewrite PE. destruct (mem y (paused (sc s))) eqn:ME; [intros H; apply remove1_In in H; destruct H; contradiction | apply mem_In_false, ME].
  - destruct (sd_who _ _ _ _ _ SD) as [(H & H2 & CX & HX)|(j & H & RI & CX & LO & SL)].
    + left. destruct (queued_at _ _ _ RE H QR) as [(k0 & dl0 & w & _ & AC & IF)|(k0 & i & chs & dl0 & w & D & _)]; [|discriminate D]. cbn [node_co] in AC. destruct (at_called _ _ _ _ _ RE AC) as (t & IT).
      exists k0, dl0, t. split; [exact IT|]. split; [intros; eapply pending_noret; eassumption|].
      assert (HD : handed y ch k0 m s').
      { constructor.
        - eauto.
        - intros _ w' o' AC'. left. assert (A0 : at_call s y w' k0 o') by (destruct AC' as (st & Q & SH); exists st; split; [rewrite <- SX; exact Q | exact SH]).
          destruct (at_fun _ _ _ _ _ _ _ _ RE A0 AC) as (-> & _). split; [exact IF|]. unfold inq. rewrite SE. cbn [dt ctl_dat]. rewrite CX. split; [exact H2|]. split; [|reflexivity].
          cbn. eapply (reach_rqi _ RE NO); [exact AC | exact IF | exact H].
        - intros c' o' r' v t' IN'. exfalso. rewrite SE in IN'. cbn [tr] in IN'. apply call_tr_rets in IN'. exact (pending_noret _ _ _ _ _ _ _ _ _ _ RE AC IN'). }
      intros es c' o' r' v t' IN'. eapply hd_ret; [apply handed_run; [exact RE' | exact HD] | exact IN'].
    + right. destruct (queued_at _ _ _ RE H QR) as [(k0 & dl0 & w & D & _)|(k0 & i & chs & dl0 & w & D & AC & IF & NI)]; [discriminate D|]. cbn [node_co] in *. injection D as ->. destruct (at_called _ _ _ _ _ RE AC) as (t & IT).
      exists k0, chs, dl0, t, i. split; [exact IT|]. split; [intros; eapply pending_noret; eassumption|]. split; [exact NI|].
      assert (AC' : at_call s' y w k0 (OpSelect chs dl0)) by (destruct AC as (st & Q & SH); exists st; split; [rewrite SX; exact Q | exact SH]).
      assert (RX : retidx (cof (dt s') y) = Z.of_nat i) by (rewrite SE; cbn [dt ctl_dat]; rewrite CX; reflexivity). split; [eapply select_picks; eassumption|].
      intros AL. replace m with (slot (chn (dt s') ch)) by (rewrite SE; exact SL). eapply select_case; [exact RE' | | exact AC' | exact IF | lia | rewrite SE; exact LO |].
      * destruct MK as (k1 & c1 & t1 & IM). exists n, k1, c1, t1. apply TS, IM.
      * rewrite SE. eapply alone_call; [exact RE | exact CU | exact U | | exact E | exact X | exact AL]. exact (fun z => z).
  - intros z NZ. rewrite SE. cbn [dt ctl_dat]. apply (sd_other _ _ _ _ _ SD), NZ.
  - intros z j p NZ (PZ & w & st & SZ & NA). assert (ZC : z <> c) by (intros ->; exact (cur_notpaused _ _ FU CU PZ)). split; [|exists w, st; split; [rewrite ST by exact ZC; exact SZ | exact NA]].
    rewrite PE. destruct (mem y (paused (sc s))); [apply remove1_In; auto | exact PZ].
  - rewrite SE. cbn [dt ctl_dat]. apply SD.
Qed.

(** ** Closing the channel also decides the selects that wait on it *)
Theorem C06_close : forall s ch n c x k chs dl, reach s -> chan_made s ch n -> mode s = MUser -> cur (sc s) = Some c ->
  blocked s x k (OpSelect chs dl) -> In ch chs -> ~ to_resume s x ->
  let s' := step s (ECall (OpClose ch)) in
  (goes_ahead s' c (ncalls s) ECLOSED /\ dt s' = dt s) \/
  (goes_ahead s' c (ncalls s) OK /\ to_resume s' x /\ exists i, nth_error chs i = Some ch /\ picks s' k (Z.of_nat i) /\ (alone s x ch -> forall m, case_gets s' x ch false m)).
Proof.
  intros s ch n c x k chs dl RE MK MU CU B TK NT s'. assert (NO : ~ over (mode s)) by (rewrite MU; exact (fun z => z)). pose proof (reach_full _ RE) as FU.
  destruct (made_isch _ _ _ RE NO MK) as [IC _]. pose proof (isch_chk _ _ (proj1 (reach_chinv _ RE)) IC) as CK.
  destruct (hcall c (OpClose ch) (now s) (dt s)) as [[d fs] kk] eqn:E.
  destruct (exec c kk (set_stk (zupd (stk (sc s)) c (fs ++ FApi (ncalls s) (OpClose ch) :: stk (sc s) c)) (sc s))) as [sch md] eqn:X.
  pose proof (step_call_eq s c (OpClose ch) _ _ _ _ _ MU CU ltac:(discriminate) E X) as SE. fold s' in SE.
  assert (RE' : reach s') by (apply reach_step, RE). assert (U : ustack (stk (sc s) c)) by (apply (proj2 FU); assumption).
  pose proof E as E0. cbn [hcall] in E0. unfold do_close in E0. rewrite CK in E0. change (negb (OK =? OK)) with false in E0. cbv iota in E0.
  destruct (sclosed (chn (dt s) ch)) eqn:SC.
  { left. injection E0 as <- <- <-. split; [|rewrite SE; reflexivity]. apply (promise_goes ECLOSED s c (OpClose ch) (dt s) [] (CRet ECLOSED)); auto; discriminate. }
  right. destruct (blocked_undecided _ _ _ _ _ RE NO B NT) as [R1 R2]. apply In_nth_error in TK. destruct TK as (i0 & NI0). pose proof (R2 _ _ NI0) as IN. destruct (reach_selq _ RE _ _ _ IN) as [QR _].
  assert (B0 : buf (chn (dt s) ch) = []) by (apply (ck_recv _ _ (proj1 (proj1 (reach_chinv _ RE)) ch)); [intros Q; unfold ccase in IN; rewrite Q in IN; destruct IN | exact QR]).
  set (d0 := upch ch (set_sclosed true) (dt s)) in E0. assert (Q0 : q d0 = q (dt s)) by reflexivity. assert (C0 : cof d0 = cof (dt s)) by reflexivity.
  assert (HB : buf (chn d0 ch) = [] /\ qrecv (chn d0 ch) = true) by (unfold d0; cbn; rewrite nupd_eq; cbn; rewrite B0, QR; auto). destruct HB as [HB HQ]. rewrite HB, HQ in E0. cbn [negb orb] in E0. rewrite andb_false_r in E0. cbv iota in E0.
  destruct (close_loop_did ch _ d0 eq_refl) as (W & CD); [rewrite Q0; apply (proj1 (reach_uniq _ RE)) | rewrite Q0; apply chan_sorted, RE|].
  pose proof (yfsr_cases _ _ _ _ _ E0) as (D1 & -> & FS). set (d2 := close_loop ch (length (q d0 (QChan ch))) d0) in *.
  assert (Qd : q d = q d2) by (rewrite D1; reflexivity). assert (Cd : cof d = cof d2) by (rewrite D1; reflexivity). assert (Ld : lok (chn d ch) = lok (chn d2 ch)) by (rewrite D1; cbn; rewrite nupd_eq; reflexivity).
  assert (IW : In x W) by (eapply (cd_sel _ _ _ _ CD); [rewrite Q0; exact IN | rewrite C0; exact R1]).
  split; [apply (promise_goes OK s c (OpClose ch) d fs CYield); auto; try discriminate; right; split; [|auto]; apply qk_close; [reflexivity|]; destruct FS as [-> | ->]; constructor|].
  split; [unfold to_resume; rewrite SE; cbn [dt ctl_dat]; rewrite Qd; apply (cd_res _ _ _ _ CD), IW|].
  destruct (blocked_at _ _ _ _ RE B) as (w & AC & BF). assert (NE : x <> c) by (intros ->; exact (cur_notpaused _ _ FU CU (proj1 B))).
  assert (SX : stk (sc s') x = stk (sc s) x).
  { rewrite SE. cbn [sc]. destruct (exec_stk_cases _ _ _ _ _ X (cur_notfresh _ _ FU CU) x) as [(D & _)|[(_ & _ & (g & D) & _)|(_ & Q & _)]]; [contradiction | discriminate D|]. rewrite Q. cbn [stk set_stk]. apply zupd_neq, NE. }
  assert (IF : In (FSelWait (Z.of_nat (length chs))) w).
  { destruct (queued_at _ _ _ RE IN QR) as [(k0 & dl0 & w0 & D & _)|(k0 & j & chs0 & dl0 & w0 & D & AC0 & IF0 & _)]; [discriminate D|]. cbn [node_co] in AC0. destruct AC as (st1 & E1 & S1). destruct AC0 as (st2 & E2 & S2). rewrite E1 in E2.
    destruct (app_api_inj _ _ _ _ _ _ _ _ E2 (shape_noapi2 _ _ S1) (shape_noapi2 _ _ S2)) as (-> & _ & EQ & _). injection EQ as -> _. exact IF0. }
  assert (AC' : at_call s' x w k (OpSelect chs dl)) by (destruct AC as (st & Q & SH); exists st; split; [rewrite SX; exact Q | exact SH]).
  destruct (cd_who _ _ _ _ CD _ IW) as [[H _]|(j & H & _ & RJ & LO)].
  { exfalso. rewrite Q0 in H. destruct (proj1 (chan_sorted _ ch RE) x (Z.of_nat i0)); assumption. }
  rewrite Q0 in H. destruct (case_pos _ _ _ _ _ _ _ _ RE AC IF H) as (i & -> & NI). exists i. split; [exact NI|].
  assert (RX : retidx (cof (dt s') x) = Z.of_nat i) by (rewrite SE; cbn [dt ctl_dat]; rewrite Cd; exact RJ). split; [eapply select_picks; eassumption|].
  intros AL m es NS j' r v t LE IR. exact (select_case s' x k chs dl w ch false RE' ltac:(destruct MK as (k1 & c1 & t1 & IM); exists n, k1, c1, t1; rewrite SE; apply call_tr_old, IM) AC' IF ltac:(lia) ltac:(rewrite SE; cbn [dt ctl_dat]; rewrite Ld; exact LO)
    ltac:(rewrite SE; eapply alone_call; [exact RE | exact CU | exact U | | exact E | exact X | exact AL]; exact (fun z => z)) es NS j' r v t LE IR).
Qed.

(** ** A select that need not wait takes the first channel that is not empty *)
(** a non-waiting receive of [c] on [ch] would return [r] at once *)
Definition answers (s : state) (c : Z) (ch : nat) (r : Z) : Prop :=
  exists v t, In (TRet (ncalls s) c (OpTryRecv ch) r v t) (tr (run s [ECall (OpTryRecv ch); ETick false])).
(** ... and would leave this value in its buffer *)
Definition would_get (s : state) (c : Z) (ch : nat) : Z := rbuf (cof (dt (step s (ECall (OpTryRecv ch)))) c).
Lemma answers_now : forall s c ch d v, reach s -> mode s = MUser -> cur (sc s) = Some c -> v <> ECANCELED -> hcall c (OpTryRecv ch) (now s) (dt s) = (d, [], CRet v) -> forall r, answers s c ch r <-> r = v.
Proof.
  intros s c ch d v RE MU CU NV E r. unfold answers, run. cbn [fold_left].
  destruct (call_returns s c (OpTryRecv ch) d v false RE MU CU ltac:(split; discriminate) NV E) as (_ & _ & _ & _ & _ & TR). rewrite TR. split.
  - intros (v0 & t & [IN|[IN|IN]]); [injection IN as ->; reflexivity | discriminate IN | destruct (no_ret_now _ _ _ _ _ _ RE IN)].
  - intros ->. eexists; eexists. left. reflexivity.
Qed.
(** the condition under which the scan of chan_select stops *)
Definition rdy (g : nat) (d : dat) : bool :=
  (negb (emptyq (QChan g) d) && negb (qrecv (chn d g))) || negb (match buf (chn d g) with [] => true | _ => false end) || rclosed (chn d g).
Lemma rdy_take : forall g d, rclosed (chn d g) = false -> (rdy g d = false <-> take g d = None).
Proof.
  intros g d RC. unfold rdy, take, emptyq, popq. rewrite RC, orb_false_r. destruct (buf (chn d g)); cbn [negb orb].
  - rewrite orb_false_r. destruct (qrecv (chn d g)); cbn; [rewrite andb_false_r; split; reflexivity|]. destruct (q d (QChan g)); cbn; split; congruence.
  - rewrite orb_true_r. cbn [q upch set_chn]. destruct (q d (QChan g)); split; discriminate.
Qed.
Lemma first_ready_spec : forall chs d i j ch, nth_error chs i = Some ch -> rdy ch d = true -> (forall n g, (n < i)%nat -> nth_error chs n = Some g -> rdy g d = false) ->
  first_ready chs j d = Some (ch, j + Z.of_nat i).
Proof.
  induction chs as [|g chs IH]; intros d i j ch NI RD BE; [destruct i; discriminate NI|]. cbn [first_ready]. fold (rdy g d). destruct i as [|i]; cbn in NI.
  - injection NI as ->. rewrite RD. f_equal. f_equal. lia.
  - rewrite (BE 0%nat g) by (lia || reflexivity). rewrite (IH d i (j + 1) ch NI RD); [f_equal; f_equal; lia|]. intros n g' LT NG. apply (BE (S n)); [lia | exact NG].
Qed.
Lemma first_ready_none : forall chs d j, (forall g, In g chs -> rdy g d = false) -> first_ready chs j d = None.
Proof. induction chs as [|g chs IH]; intros d j H; [reflexivity|]. cbn [first_ready]. fold (rdy g d). rewrite (H g (or_introl eq_refl)). apply IH. intros g' I. apply H. right. exact I. Qed.
Lemma chk_chans_ok : forall chs d, (forall g, In g chs -> chk_chan g d = OK) -> chk_chans chs d = OK.
Proof. induction chs as [|g chs IH]; intros d H; [reflexivity|]. cbn [chk_chans]. rewrite (H g (or_introl eq_refl)). apply IH. intros g' I. apply H. right. exact I. Qed.
Lemma try_recv : forall s c ch, chk_chan ch (dt s) = OK -> canceled (cof (dt s) c) = false -> hcall c (OpTryRecv ch) (now s) (dt s) =
  if rclosed (chn (dt s) ch) then (dt s, [], CRet ECLOSED) else
  match take ch (dt s) with Some (m, None, d) => (upco c (set_rbuf m) d, [], CRet OK) | Some (m, Some y, d) => (upco c (set_rbuf m) d, [FRecvResumed], CResume y) | None => (dt s, [], CRet EEMPTY) end.
Proof. intros s c ch CK CA. cbn [hcall]. unfold do_recv. rewrite CK, CA. change (negb (OK =? OK)) with false. cbv iota. reflexivity. Qed.
Lemma empty_rdy : forall s c ch, reach s -> mode s = MUser -> cur (sc s) = Some c -> chk_chan ch (dt s) = OK -> canceled (cof (dt s) c) = false ->
  (answers s c ch EEMPTY <-> rdy ch (dt s) = false) /\ (answers s c ch ECLOSED <-> rclosed (chn (dt s) ch) = true).
Proof.
  intros s c ch RE MU CU CK CA. pose proof (try_recv s c ch CK CA) as E. destruct (rclosed (chn (dt s) ch)) eqn:RC.
  - assert (R1 : rdy ch (dt s) = true) by (unfold rdy; rewrite RC; apply orb_true_r). rewrite R1. pose proof (fun NV => answers_now _ _ _ _ _ RE MU CU NV E) as A. specialize (A ltac:(discriminate)). rewrite !A. split; split; (discriminate || reflexivity).
  - pose proof (rdy_take _ _ RC) as RT. destruct (take ch (dt s)) as [[[m [y|]] d]|] eqn:T.
    + assert (G : goes_ahead (step s (ECall (OpTryRecv ch))) c (ncalls s) OK).
      { apply (promise_goes OK s c (OpTryRecv ch) _ [FRecvResumed] (CResume y)) in E; auto; try discriminate; try exact (fun z => z). right. split; [apply qk_recv; reflexivity | eauto]. }
      assert (H : forall r, answers s c ch r -> r = OK) by (intros r (v & t & IN); destruct G as [_ G]; destruct (G [ETick false]) as [G1 _]; exact (G1 _ _ _ _ _ IN)).
      split; (split; [intros A; discriminate (H _ A) | ]); [intros R; apply RT in R; discriminate R | discriminate].
    + pose proof (fun NV => answers_now _ _ _ _ _ RE MU CU NV E) as A. specialize (A ltac:(discriminate)). rewrite !A. split; split; try discriminate. intros R. apply RT in R. discriminate R.
    + pose proof (fun NV => answers_now _ _ _ _ _ RE MU CU NV E) as A. specialize (A ltac:(discriminate)). rewrite !A. split; split; try discriminate; intros; [apply RT; reflexivity | reflexivity].
Qed.
Definition valid (s : state) (chs : list nat) : Prop := forall g, In g chs -> exists n, chan_made s g n.
Lemma valid_chk : forall s chs, reach s -> ~ over (mode s) -> valid s chs -> forall g, In g chs -> chk_chan g (dt s) = OK.
Proof. intros s chs RE NO V g I. destruct (V g I) as (n & MK). destruct (made_isch _ _ _ RE NO MK) as [IC _]. exact (isch_chk _ _ (proj1 (reach_chinv _ RE)) IC). Qed.
Theorem C06_ready : forall s c o chs i ch, reach s -> mode s = MUser -> cur (sc s) = Some c -> canceled (cof (dt s) c) = false -> selects o chs -> valid s chs ->
  nth_error chs i = Some ch -> ~ answers s c ch EEMPTY -> (forall j g, (j < i)%nat -> nth_error chs j = Some g -> answers s c g EEMPTY) ->
  let s' := step s (ECall o) in let s2 := step s (ECall (OpTryRecv ch)) in
  goes_ahead s' c (ncalls s) (Z.of_nat i) /\
  (answers s c ch ECLOSED -> dt s' = dt s /\ (alone s c ch -> forall m, case_gets s' c ch false m)) /\
  (~ answers s c ch ECLOSED ->
    (alone s c ch -> case_gets s' c ch true (would_get s c ch)) /\
    q (dt s') = q (dt s2) /\ (forall g, buf (chn (dt s') g) = buf (chn (dt s2) g)) /\ forall z, z <> c -> cof (dt s') z = cof (dt s2) z).
Proof.
  intros s c o chs i ch RE MU CU CA SL V NI NE BE s' s2. assert (NO : ~ over (mode s)) by (rewrite MU; exact (fun z => z)). pose proof (reach_full _ RE) as FU.
  pose proof (valid_chk _ _ RE NO V) as CK. pose proof (CK ch (nth_error_In _ _ NI)) as CKH. destruct (empty_rdy s c ch RE MU CU CKH CA) as [ER EC].
  assert (RD : rdy ch (dt s) = true) by (destruct (rdy ch (dt s)); [reflexivity | destruct NE; apply ER; reflexivity]).
  assert (FR : first_ready chs 0 (dt s) = Some (ch, Z.of_nat i)).
  { apply (first_ready_spec chs (dt s) i 0 ch NI RD). intros n g LT NG. destruct (empty_rdy s c g RE MU CU (CK g (nth_error_In _ _ NG)) CA) as [EG _]. apply EG, (BE n g LT NG). }
  destruct (V ch (nth_error_In _ _ NI)) as (n & MK).
  assert (HC : hcall c o (now s) (dt s) = if rclosed (chn (dt s) ch) then (dt s, [FSelRecv ch (Z.of_nat i)], CRet ECLOSED) else
    match take ch (dt s) with Some (m, None, d) => (upch ch (set_slot m) d, [FSelRecv ch (Z.of_nat i)], CRet OK) | Some (m, Some y, d) => (upch ch (set_slot m) d, [FRecvResumed; FSelRecv ch (Z.of_nat i)], CResume y) | None => (dt s, [], CUB) end).
  { assert (D : exists b dl, hcall c o (now s) (dt s) = do_select c chs b dl (dt s)) by (destruct o; try destruct SL; cbn in *; subst; eexists; eexists; reflexivity).
    destruct D as (b & dl & ->). unfold do_select. rewrite (chk_chans_ok _ _ CK), CA, FR. change (negb (OK =? OK)) with false. cbv iota. reflexivity. }
  assert (NR : o <> OpReturn /\ o <> OpStats /\ o <> OpCleanupPop true /\ ~ handing o /\ (forall g, o <> OpCase g)) by (destruct o; try destruct SL; repeat split; try discriminate; exact (fun z => z)).
  destruct NR as (NR1 & NR2 & NR3 & NR4 & NR5). assert (U : ustack (stk (sc s) c)) by (apply (proj2 FU); assumption).
  assert (RE' : reach s') by (apply reach_step, RE).
  assert (GO : forall d fs k (b : bool) m, hcall c o (now s) (dt s) = (d, fs, k) -> (fs = [FSelRecv ch (Z.of_nat i)] /\ k = CRet (if b then OK else ECLOSED)) \/ (fs = [FRecvResumed; FSelRecv ch (Z.of_nat i)] /\ b = true /\ exists y, k = CResume y) ->
    slot (chn d ch) = m -> dt s' = d /\ goes_ahead s' c (ncalls s) (Z.of_nat i) /\ (alone s c ch -> case_gets s' c ch b m)).
  { intros d fs k b m E FK SM. destruct (exec c k (set_stk (zupd (stk (sc s)) c (fs ++ FApi (ncalls s) o :: stk (sc s) c)) (sc s))) as [sch md] eqn:X.
    pose proof (step_call_eq s c o _ _ _ _ _ MU CU NR1 E X) as SE. fold s' in SE.
    assert (DT : dt s' = d) by (rewrite SE; destruct FK as [(_ & ->)|(_ & _ & y & ->)]; reflexivity). split; [exact DT|]. split.
    - apply (promise_goes (Z.of_nat i) s c o d fs k); auto. right. destruct FK as [(-> & ->)|(-> & _ & y & ->)]; (split; [first [apply qk_sel | apply qk_selr] | eauto]).
    - intros AL es NS j r v t LE IN.
      assert (P : slotted c (ncalls s) ch b m (ncalls s') s').
      { assert (AL' : alone s' c ch).
        { intros y w j0 p AC SO. rewrite SE in AC. destruct (call_at _ _ _ _ _ _ _ _ _ _ _ _ FU CU U E X AC) as [(-> & _)|[_ A]]; [reflexivity | eapply AL; eassumption]. }
        assert (AT : forall w j0 p, at_call s' c w j0 p -> w = fs /\ j0 = ncalls s /\ p = o).
        { intros w j0 p AC. rewrite SE in AC. destruct (call_at _ _ _ _ _ _ _ _ _ _ _ _ FU CU U E X AC) as [(_ & -> & -> & -> & _)|[D _]]; [auto | destruct (D eq_refl)]. }
        constructor.
        - rewrite SE. cbn [ncalls]. lia.
        - destruct MK as (k1 & c1 & t1 & IM). exists n, k1, c1, t1. rewrite SE. apply call_tr_old, IM.
        - intros _. rewrite DT. split; [exact SM|]. right. exists fs, o, (Z.of_nat i). split.
          + rewrite SE. exists (stk (sc s) c). cbn [sc]. split.
            * destruct (exec_stk_cases _ _ _ _ _ X (cur_notfresh _ _ FU CU) c) as [(_ & Q)|[(D & _)|(D & _)]]; [|destruct (D eq_refl)|destruct (D eq_refl)]. rewrite Q. destruct FK as [(_ & ->)|(_ & _ & y & ->)]; cbn; rewrite zupd_eq; reflexivity.
            * destruct FK as [(-> & ->)|(-> & _ & y & ->)]; destruct o; try destruct SL; constructor.
          + destruct FK as [(-> & _)|(-> & _)]; cbn; auto.
        - intros _ y w j0 p AC SO. pose proof (AL' _ _ _ _ AC SO) as ->. destruct (AT _ _ _ AC) as (-> & -> & ->). right; right. split; [reflexivity|]. split; [reflexivity|]. exists (Z.of_nat i).
          destruct FK as [(-> & ->)|(-> & -> & _)]; [left | right; auto]. cbn in X. injection X as <- <-. rewrite SE. cbn. auto.
        - intros _ w j0 AC LT. destruct (AT _ _ _ AC) as (_ & _ & D). destruct (NR5 _ (eq_sym D)).
        - intros j0 r0 v0 t0 IN0 LT. rewrite SE in IN0. cbn [tr] in IN0. apply call_tr_rets in IN0. apply in_split in IN0. destruct IN0 as (l1 & l2 & EL). destruct (ci_ret _ (reach_cinv _ RE) _ _ _ _ _ _ _ _ EL) as ((t1 & IC & _) & _).
          assert (IC' : In (TCall j0 c (OpCase ch) t1) (tr s)) by (rewrite EL; apply in_or_app; right; right; exact IC). pose proof (ci_lt _ (reach_cinv _ RE) _ _ _ _ IC'). rewrite SE in LT. cbn [ncalls] in LT. lia. }
      eapply sl_ret; [eapply slotted_run; [exact RE' | exact P | exact NS] | exact IN | exact LE]. }
  pose proof (try_recv s c ch CKH CA) as TE. destruct (exec c (snd (hcall c (OpTryRecv ch) (now s) (dt s))) (set_stk (zupd (stk (sc s)) c (snd (fst (hcall c (OpTryRecv ch) (now s) (dt s))) ++ FApi (ncalls s) (OpTryRecv ch) :: stk (sc s) c)) (sc s))) as [sch2 md2] eqn:X2.
  destruct (rclosed (chn (dt s) ch)) eqn:RC.
  - destruct (GO _ _ _ false (slot (chn (dt s) ch)) HC ltac:(left; auto) eq_refl) as (G1 & G2 & G3). split; [exact G2|]. split; [|intros H; destruct H; apply EC; reflexivity].
    intros _. split; [exact G1|]. intros AL m es NS j r v t LE IN. exact (G3 AL es NS j r v t LE IN).
  - pose proof (rdy_take _ _ RC) as RT. destruct (take ch (dt s)) as [[[m y] d]|] eqn:T; [|pose proof (proj2 RT eq_refl) as RF; congruence].
    assert (S2 : dt s2 = upco c (set_rbuf m) d).
    { rewrite TE in X2. destruct y as [y|]; cbn [fst snd] in X2; unfold s2; rewrite (step_call_eq s c (OpTryRecv ch) _ _ _ _ _ MU CU ltac:(discriminate) TE X2); reflexivity. }
    assert (S1 : dt s' = upch ch (set_slot m) d /\ goes_ahead s' c (ncalls s) (Z.of_nat i) /\ (alone s c ch -> case_gets s' c ch true m)).
    { destruct y as [y|]; apply (GO _ _ _ true m HC); [right; eauto | cbn; rewrite nupd_eq; reflexivity | left; auto | cbn; rewrite nupd_eq; reflexivity]. }
    destruct S1 as (G1 & G2 & G3). split; [exact G2|]. split; [intros H; apply EC in H; discriminate H|]. intros _.
    split; [unfold would_get; fold s2; rewrite S2; cbn; rewrite zupd_eq; exact G3|]. rewrite G1, S2. split; [reflexivity|]. split; [|intros z NZ; cbn; symmetry; apply zupd_neq, NZ].
    intros g. cbn. unfold nupd. destruct (Nat.eqb_spec g ch) as [->|]; reflexivity.
Qed.
Theorem C06_try_empty : forall s c chs, reach s -> mode s = MUser -> cur (sc s) = Some c -> canceled (cof (dt s) c) = false -> valid s chs ->
  (forall g, In g chs -> answers s c g EEMPTY) -> let s' := step s (ECall (OpTrySelect chs)) in goes_ahead s' c (ncalls s) EEMPTY /\ dt s' = dt s.
Proof.
  intros s c chs RE MU CU CA V BE s'. assert (NO : ~ over (mode s)) by (rewrite MU; exact (fun z => z)). pose proof (valid_chk _ _ RE NO V) as CK.
  assert (E : hcall c (OpTrySelect chs) (now s) (dt s) = (dt s, [], CRet EEMPTY)).
  { cbn [hcall]. unfold do_select. rewrite (chk_chans_ok _ _ CK), CA, first_ready_none; [reflexivity|]. intros g I. destruct (empty_rdy s c g RE MU CU (CK g I) CA) as [EG _]. apply EG, BE, I. }
  split; [apply (promise_goes EEMPTY s c (OpTrySelect chs) (dt s) [] (CRet EEMPTY)); auto; discriminate|].
  destruct (exec c (CRet EEMPTY) (set_stk (zupd (stk (sc s)) c ([] ++ FApi (ncalls s) (OpTrySelect chs) :: stk (sc s) c)) (sc s))) as [sch md] eqn:X.
  unfold s'. rewrite (step_call_eq s c (OpTrySelect chs) _ _ _ _ _ MU CU ltac:(discriminate) E X). reflexivity.
Qed.

(** ** Non-vacuity: 2 is blocked selecting over two channels, nobody else is, 1 sends on the second *)
Definition ex06 : state := script [ECall (OpChMake 0); ECall (OpChMake 3); ECall OpStart; ECall (OpSelect [0%nat; 1%nat] MAXI)].
Lemma by_trace : forall s x ch, reach s -> forallb (fun z => match z with TCall _ y (OpSelect chs _) _ | TCall _ y (OpTrySelect chs) _ => (y =? x) || negb (existsb (Nat.eqb ch) chs) | _ => true end) (tr s) = true -> alone s x ch.
Proof.
  intros s x ch RE B y w j o AC SO. destruct (at_called _ _ _ _ _ RE AC) as (t & IT). rewrite forallb_forall in B. apply B in IT.
  assert (H : forall chs, In ch chs -> (y =? x) || negb (existsb (Nat.eqb ch) chs) = true -> y = x).
  { intros chs IN H. assert (E : existsb (Nat.eqb ch) chs = true) by (apply existsb_exists; exists ch; split; [exact IN | apply Nat.eqb_refl]). rewrite E, orb_false_r in H. apply Z.eqb_eq, H. }
  destruct o; try destruct SO; exact (H _ SO IT).
Qed.
Example C06_example : reach ex06 /\ chan_made ex06 1 3 /\ mode ex06 = MUser /\ cur (sc ex06) = Some 1 /\
  blocked ex06 2 3 (OpSelect [0%nat; 1%nat] MAXI) /\ takes 1 (OpSelect [0%nat; 1%nat] MAXI) /\ ~ to_resume ex06 2 /\ alone ex06 2 1.
Proof.
  split; [apply script_reach|]. split; [exists 1%nat, 1, 1000; vm_compute; tauto|]. split; [vm_compute; reflexivity|]. split; [vm_compute; reflexivity|].
  split; [apply blockedb_ok; split; [vm_compute; auto|]; exists 2%nat; eexists; split; vm_compute; reflexivity|]. split; [cbn; auto|]. split; [vm_compute; tauto|].
  apply by_trace; [apply script_reach | vm_compute; reflexivity].
Qed.
(** ... the select then returns 1 and the case 42 *)
Example C06_example_run : let s := script [ECall (OpChMake 0); ECall (OpChMake 3); ECall OpStart; ECall (OpSelect [0%nat; 1%nat] MAXI); ECall (OpSend 1 42 MAXI); ECall (OpCase 1)] in
  In (TRet 3 2 (OpSelect [0%nat; 1%nat] MAXI) 1 0 1000) (tr s) /\ In (TRet 5 2 (OpCase 1) OK 42 1000) (tr s).
Proof. vm_compute. tauto. Qed.
(** the hypotheses of [C06_ready]: channel 0 is empty, channel 1 has a message *)
Definition ex06b : state := script [ECall (OpChMake 0); ECall (OpChMake 3); ECall (OpSend 1 42 MAXI)].
Example C06_ready_example : reach ex06b /\ mode ex06b = MUser /\ cur (sc ex06b) = Some 1 /\ canceled (cof (dt ex06b) 1) = false /\ selects (OpSelect [0%nat; 1%nat] MAXI) [0%nat; 1%nat] /\ valid ex06b [0%nat; 1%nat] /\
  answers ex06b 1 0 EEMPTY /\ answers ex06b 1 1 OK /\ would_get ex06b 1 1 = 42 /\ alone ex06b 1 1.
Proof.
  split; [apply script_reach|]. split; [vm_compute; reflexivity|]. split; [vm_compute; reflexivity|]. split; [vm_compute; reflexivity|]. split; [reflexivity|].
  split; [intros g [<-|[<-|[]]]; [exists 0, 0%nat, 1, 1000 | exists 3, 1%nat, 1, 1000]; vm_compute; tauto|].
  split; [exists 1, 1000; vm_compute; tauto|]. split; [exists 42, 1000; vm_compute; tauto|]. split; [vm_compute; reflexivity|]. apply by_trace; [apply script_reach | vm_compute; reflexivity].
Qed.

(** ** Two selectors on one channel share one message slot
    [neco_chan_case] reads the spare slot behind the channel's ring buffer
    (neco.c:5750-5752, 6341), of which there is one per channel, not one per select.
    Coroutines 2 and 3 both wait in a select on the channel; 4 sends 7 and 1 sends 8
    before either runs. Both sends report NECO_OK; both selectors read 8 and the
    message 7 is gone. *)
Definition ex06r : state := script [ECall (OpChMake 0); ECall OpStart; ECall (OpSelect [0%nat] MAXI); ECall OpStart; ECall (OpSelect [0%nat] MAXI); ECall OpStart; ECall OpYield; ECall OpYield;
  ECall (OpSend 0 7 MAXI); ECall (OpSend 0 8 MAXI); ECall (OpCase 0); ECall OpYield; ECall OpYield; ECall (OpCase 0); ECall OpYield; ECall OpYield].
Theorem C06_shared_refuted : exists s, reach s /\
  (exists j y t, In (TRet j y (OpSend 0 7 MAXI) OK 0 t) (tr s)) /\ (exists j y t, In (TRet j y (OpSend 0 8 MAXI) OK 0 t) (tr s)) /\
  (exists j y t j' t', In (TRet j y (OpSelect [0%nat] MAXI) 0 0 t) (tr s) /\ In (TRet j' y (OpCase 0) OK 8 t') (tr s) /\
   exists k z u k' u', z <> y /\ In (TRet k z (OpSelect [0%nat] MAXI) 0 0 u) (tr s) /\ In (TRet k' z (OpCase 0) OK 8 u') (tr s)) /\
  (forall j y o r v t, In (TRet j y o r v t) (tr s) -> v <> 7) /\ buf (chn (dt s) 0) = [] /\ q (dt s) (QChan 0) = [].
Proof.
  exists ex06r. split; [apply script_reach|]. split; [exists 8%nat, 4, 1000; vm_compute; tauto|]. split; [exists 9%nat, 1, 1000; vm_compute; tauto|].
  split; [|split; [|split; vm_compute; reflexivity]].
  - exists 2%nat, 2, 1000, 10%nat, 1000. split; [vm_compute; tauto|]. split; [vm_compute; tauto|]. exists 4%nat, 3, 1000, 13%nat, 1000. split; [discriminate|]. split; vm_compute; tauto.
  - assert (B : forallb (fun z => match z with TRet _ _ _ _ v _ => negb (v =? 7) | _ => true end) (tr ex06r) = true) by (vm_compute; reflexivity).
    intros j y o r v t H. rewrite forallb_forall in B. apply B in H. cbn in H. destruct (Z.eqb_spec v 7); [discriminate H | assumption].
Qed.

(** ** A cancellation after the choice loses the message
    Coroutine 2 waits in a select, 3 sends 42 (NECO_OK), 1 cancels 2 before it runs.
    The select reports NECO_CANCELED, no call ever returned 42 and the channel is empty. *)
Definition ex06l : state := script [ECall (OpChMake 0); ECall OpStart; ECall (OpSelect [0%nat] MAXI); ECall OpStart; ECall OpYield; ECall OpYield; ECall (OpSend 0 42 MAXI); ECall (OpCancel 2 MAXI); ECall OpYield; ECall OpYield; ECall OpYield].
Theorem C06_lost_refuted : exists s, reach s /\ (exists j y t, In (TRet j y (OpSend 0 42 MAXI) OK 0 t) (tr s)) /\
  (exists j y t, In (TRet j y (OpSelect [0%nat] MAXI) ECANCELED 0 t) (tr s)) /\
  (forall j y o r v t, In (TRet j y o r v t) (tr s) -> v <> 42) /\ buf (chn (dt s) 0) = [] /\ q (dt s) (QChan 0) = [].
Proof.
  exists ex06l. split; [apply script_reach|]. split; [exists 6%nat, 3, 1000; vm_compute; tauto|]. split; [exists 2%nat, 2, 1000; vm_compute; tauto|].
  split; [|split; vm_compute; reflexivity].
  assert (B : forallb (fun z => match z with TRet _ _ _ _ v _ => negb (v =? 42) | _ => true end) (tr ex06l) = true) by (vm_compute; reflexivity).
  intros j y o r v t H. rewrite forallb_forall in B. apply B in H. cbn in H. destruct (Z.eqb_spec v 42); [discriminate H | assumption].
Qed.

(** ** A select can return -1
    Coroutine 2 is chosen by a broadcast and canceled before it runs; its entry in the
    list of coroutines to resume stays. Its next select, on another channel, is woken by
    that entry and returns the initial value of its index (neco.c:6329, 6301). *)
Definition ex06s : state := script [ECall (OpChMake 1); ECall (OpChMake 1); ECall OpStart; ECall (OpSelect [0%nat] MAXI); ECall OpStart; ECall OpYield; ECall OpYield; ECall (OpBcast 0 42); ECall (OpCancel 2 MAXI);
  ECall (OpSelect [1%nat] MAXI); ECall OpYield; ECall OpYield; ECall OpYield].
Theorem C06_stale_refuted : exists s, reach s /\ exists j y t, In (TRet j y (OpSelect [1%nat] MAXI) (-1) 0 t) (tr s).
Proof. exists ex06s. split; [apply script_reach|]. exists 9%nat, 2, 1000. vm_compute. tauto. Qed.

(** ** A broadcast to a select that has timed out loses the message
    Nobody is canceled here. Coroutine 2's select has timed out but 2 has not run yet; 1
    broadcasts 7. The broadcast reports one receiver, the select reports NECO_TIMEDOUT and
    no call ever returned 7. *)
Definition ex06t : state := script [ECall (OpChMake 0); ECall OpStart; ECall (OpSelect [0%nat] 1500); ECall OpStart; ECall OpYield; EAdv 5000; ECall OpYield; ECall OpYield; ECall (OpBcast 0 7); ECall OpYield; ECall OpYield; ECall OpYield; ECall OpYield].
Theorem C06_timeout_lost_refuted : exists s, reach s /\ (exists j y t, In (TRet j y (OpBcast 0 7) 1 0 t) (tr s)) /\
  (exists j y t, In (TRet j y (OpSelect [0%nat] 1500) ETIMEDOUT 0 t) (tr s)) /\
  (forall j y o r v t, In (TRet j y o r v t) (tr s) -> v <> 7) /\ (forall j y o t, In (TCall j y o t) (tr s) -> match o with OpCancel _ _ | OpRecv _ _ | OpTryRecv _ => False | _ => True end).
Proof.
  exists ex06t. split; [apply script_reach|]. split; [exists 7%nat, 1, 5000; vm_compute; tauto|]. split; [exists 2%nat, 2, 5000; vm_compute; tauto|]. split.
  - assert (B : forallb (fun z => match z with TRet _ _ _ _ v _ => negb (v =? 7) | _ => true end) (tr ex06t) = true) by (vm_compute; reflexivity).
    intros j y o r v t H. rewrite forallb_forall in B. apply B in H. cbn in H. destruct (Z.eqb_spec v 7); [discriminate H | assumption].
  - assert (B : forallb (fun z => match z with TCall _ _ (OpCancel _ _ | OpRecv _ _ | OpTryRecv _) _ => false | _ => true end) (tr ex06t) = true) by (vm_compute; reflexivity).
    intros j y o t H. rewrite forallb_forall in B. apply B in H. destruct o; try exact Logic.I; discriminate H.
Qed.

Print Assumptions C06_index.
Print Assumptions C06_send.
Print Assumptions C06_close.
Print Assumptions C06_ready.
Print Assumptions C06_try_empty.
Print Assumptions C06_shared_refuted.
Print Assumptions C06_lost_refuted.
Print Assumptions C06_stale_refuted.
Print Assumptions C06_timeout_lost_refuted.
