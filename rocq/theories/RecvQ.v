(** A receiver that is still queued has not been told that the channel was closed. *)
From Coq Require Import List ZArith Bool Lia.
From Verif Require Import AATreeSpec AATreeHist Util Runtime SchedInv StepInv StackShape RuntimeSpec TraceInv Immediate Prims StaticInv Footprint QueueInv OwnInv WaitInv CallInv SpecInv TraceStep Wake Awake DeadlineInv AllInv PausedInv ResultInv JoinInv WaiterInv DldInv CancelInv CancelSt MutexEff MutexTok MutexRt MutexOrd AtCall WgInv ChanShape ChanSpec ChanLists ChanEff ChanQuiet ChanFifo ChanStatic GenInv ChanOrder BlockSpec Handed.
Import ListNotations.
Local Open Scope Z_scope.

Definition rqi (s : state) : Prop := forall x ch w k o, at_call s x w k o -> In (FRecvWait ch) w -> inq s ch x -> cclosed (cof (dt s) x) = false.

Lemma recv_frames : forall o w ch, shape o w -> In (FRecvWait ch) w -> (exists dl, o = OpRecv ch dl) /\ (w = [FRecvWait ch] \/ w = [FPause; FRecvWait ch]).
Proof.
  intros o w ch SH IF. destruct (wait_op _ _ _ ch SH IF (or_intror eq_refl)) as [(a & b & D & _)|[(a & b & D & _)|(dl & _ & ->)]]; try discriminate D. split; [eauto|].
  inversion SH; subst; try (destruct IF as [D|[]]; discriminate D); [destruct IF|]. match goal with H : pz _ _ |- _ => inversion H; subst; auto end.
Qed.
Lemma rq_other : forall s c x ch w k o KP KW d0 R P d, reach s -> x <> c -> at_call s x w k o -> In (FRecvWait ch) w ->
  fps c KP KW d0 R P d -> uniq d0 -> (forall n kk, In n (q d0 kk) -> In n (q (dt s) kk)) -> cof d0 = cof (dt s) ->
  In (NCo x) (q d (QChan ch)) -> inq s ch x /\ cclosed (cof d x) = cclosed (cof (dt s) x).
Proof.
  intros s c x ch w k o KP KW d0 R P d RE NE (st & SX & SH) IF FP UQ SUB C0 IN. destruct (recv_frames _ _ _ SH IF) as [_ TW].
  assert (I0 : inq s ch x) by (destruct (fps_q_in _ _ _ _ _ _ _ FP (NCo x) (QChan ch) Logic.I IN) as [I0|[E _]]; [apply SUB, I0 | destruct (NE E)]). split; [exact I0|].
  assert (NR : ~ In x R).
  { intros IR. destruct (fps_taken _ _ _ _ _ _ _ FP UQ x IR) as (k' & n & _ & PK & NC & [IN'|[D _]] & NQ); [|contradiction].
    pose proof (reach_qloc _ RE n k' (popq_waitq _ PK) (SUB _ _ IN')) as M. rewrite NC in M. unfold matched in M.
    assert (n = NCo (node_co n) /\ k' = QChan ch) as [EN ->] by (destruct TW as [-> | ->]; rewrite SX in M; exact M).
    apply (NQ NE (QChan ch) Logic.I). rewrite EN, NC. exact IN. }
  destruct (fps_cof _ _ _ _ _ _ _ FP x NE NR) as [-> | ->]; rewrite C0; reflexivity.
Qed.
Theorem reach_rqi : forall s, reach s -> ~ over (mode s) -> rqi s.
Proof.
  apply (rrun_preserves (fun s => ~ over (mode s) -> rqi s)).
  - intros s c o d fs k sch md RE I M CU U NR E X _. specialize (I ltac:(rewrite M; exact (fun z => z))). intros x ch w kk p AC IF IN. set (s' := mkst _ _ _ _ _ _) in *.
    apply ctl_wq in IN; [|exact Logic.I].
    destruct (call_at _ _ _ _ _ _ _ _ _ _ _ _ (reach_full _ RE) CU U E X AC) as [(-> & -> & _ & -> & SH & NF)|(NE & A0)].
    + destruct (recv_frames _ _ _ SH IF) as [(dl & ->) TW]. unfold s'. cbn [dt]. cbn [hcall] in E. unfold do_recv in E.
      repeat match type of E with context [if ?a then _ else _] => destruct a; [inj E; destruct IF|] end.
      destruct (take ch (dt s)) as [[[m [y|]] d1]|]; [inj E; destruct TW; discriminate | inj E; destruct IF|].
      unfold copause in E. cbn [cof set_nreceivers upco set_cof] in E. destruct (_ || _); [injection E as <- <- <-; cbn; rewrite !zupd_eq; reflexivity|].
      destruct (dl <? MAXI); injection E as <- <- <-; cbn; rewrite !zupd_eq; reflexivity.
    + destruct (hcall_fp _ _ _ _ _ _ _ (ncalls s) (stk (sc s) c) E) as (R & P & FP & _).
      destruct (rq_other _ _ _ _ _ _ _ _ _ _ _ _ _ RE NE A0 IF FP (reach_uniq _ RE)) as [I0 CC]; auto.
      unfold s'. cbn [dt]. rewrite ctl_rb; [|apply (at_notfresh _ _ _ _ _ (reach_full _ RE) A0) | exact NE]. rewrite CC. eapply I; eassumption.
  - intros s c v f rest b d fs k sch md RE I M CU SK L E X _. specialize (I ltac:(rewrite M; exact (fun z => z))). intros x ch w kk p AC IF IN. set (s' := mkst _ _ _ _ _ _) in *.
    apply ctl_wq in IN; [|exact Logic.I].
    destruct (tick_at _ _ _ _ _ _ _ _ _ _ _ _ _ _ _ (reach_full _ RE) CU SK L E X AC) as [(-> & NF & w1 & -> & SH & A0)|[(-> & _ & _ & PE)|(NE & A0)]]; [| |].
    + destruct (recv_frames _ _ _ SH IF) as [(dl & ->) TW]. destruct A0 as (st & SX & SH0).
      assert (TF : (f = FPause /\ w1 = [FRecvWait ch]) \/ hret c f v b (now s) (dt s) = (d, fs, k) /\ w1 = [] /\ (f = FRecvResumed \/ f = FRecvWait ch)).
      { inversion SH0; subst; [right; auto|]. match goal with H : pz _ _ |- _ => inversion H; subst; auto end. }
      destruct TF as [[-> ->]|(_ & -> & [-> | ->])]; cbn [hret] in E.
      * injection E as <- <- <-. unfold s'. cbn [dt ctl_dat]. assert (CC : cclosed (cof (dt s) c) = false).
        { eapply (I c ch [FPause; FRecvWait ch]); [exists st; eauto | right; left; reflexivity|]. unfold inq. cbn in IN. unfold pause_end in IN. destruct (_ <? _) in IN; exact IN. }
        unfold pause_end. destruct (_ <? _); cbn; rewrite zupd_eq; exact CC.
      * injection E as <- <- <-. destruct TW; discriminate.
      * unfold recv_end in E. destruct (checkdl _ _ _ _) as [v1 d1]. destruct (negb _); [inj E; destruct TW; discriminate|]. destruct (cclosed _); inj E; destruct TW; discriminate.
    + destruct AC as (st & _ & SH). destruct (recv_frames _ _ _ SH IF) as [(dl & D) _]. congruence.
    + destruct (hret_fp _ _ _ _ _ _ _ _ _ rest E) as (R & P & FP & _).
      destruct (rq_other _ _ _ _ _ _ _ _ _ _ _ _ _ RE NE A0 IF FP) as [I0 CC]; [apply leave_uniq, reach_uniq, RE | intros n kk'; apply leave_in | apply leave_cof | exact IN|].
      unfold s'. cbn [dt]. rewrite ctl_rb; [|apply (at_notfresh _ _ _ _ _ (reach_full _ RE) A0) | exact NE]. rewrite CC. eapply I; eassumption.
  - intros s d ws sch md ios RE I M A K X _. specialize (I ltac:(rewrite M; exact (fun z => z))). pose proof (mp_main _ _ _ _ _ _ _ K) as MP. apply sco_switch_frame in X. destruct X as (X1 & _). destruct (wakes_frame ws (sc s)) as (W0 & _). set (s' := mkst _ _ _ _ _ _) in *.
    assert (SK : stk (sc s') = stk (sc s)) by (cbn; congruence). intros x ch w kk p AC IF IN. unfold at_call in AC. rewrite SK in AC.
    assert (CO : cclosed (cof (dt s') x) = cclosed (cof (dt s) x)).
    { cbn [dt s']. eapply (mprims_const _ (fun d0 => cclosed (cof d0 x))); [|exact MP]. intros a b H. inversion H; subst; cbn; try reflexivity; unfold upco; cbn; unfold zupd; destruct (_ =? _) eqn:EQ; try reflexivity; apply Z.eqb_eq in EQ; subst; reflexivity. }
    rewrite CO. eapply I; [exact AC | exact IF|]. unfold inq in *. cbn [dt s'] in IN. rewrite (mprims_wq _ _ _ MP) in IN by exact Logic.I. exact IN.
  - intros s m RE I HM NU. assert (NO : ~ over (mode s)) by (destruct HM as [[EM HM]|[(-> & _)|[(j & ->)| ->]]]; [rewrite HM; exact (fun z => z) | destruct (NU Logic.I)..]).
    specialize (I NO). intros x ch w kk p AC IF IN. eapply I; eassumption.
  - intros s e RE I H M NU. rewrite M in NU. specialize (I NU). destruct (env_frame s e H) as (E1 & _). intros x ch w kk p AC IF IN. unfold at_call in AC. rewrite E1 in AC. rewrite (env_cof s e H).
    eapply I; [exact AC | exact IF|]. unfold inq in *. destruct (env_q s e H) as [Q|(y & _ & _ & _ & Q)]; rewrite Q in IN; [exact IN|]. apply In_pushq in IN. destruct IN as [[IN _]|[D _]]; [exact IN | discriminate D].
  - intros g O _ x ch w kk p AC IF IN. destruct IN.
Qed.

(** who is queued on a channel as a receiver *)
Lemma sel_at : forall s x N k chs dl st', reach s -> top (stk (sc s) x) = FSelWait N :: FApi k (OpSelect chs dl) :: st' ->
  exists w, at_call s x w k (OpSelect chs dl) /\ In (FSelWait (Z.of_nat (length chs))) w.
Proof.
  intros s x N k chs dl st' RE TP. assert (NN : stk (sc s) x <> []) by (intros Q; rewrite Q in TP; discriminate).
  assert (SX : exists w, stk (sc s) x = w ++ FApi k (OpSelect chs dl) :: st' /\ (w = [FSelWait N] \/ w = [FPause; FSelWait N])).
  { destruct (stk (sc s) x) as [|f r]; [destruct (NN eq_refl)|]. destruct f; cbn in TP; try (injection TP as -> ->; exists [FSelWait N]; auto; fail); try discriminate TP. subst r. exists [FPause; FSelWait N]. auto. }
  destruct SX as (w & SX & WW). pose proof (stk_lstack _ _ RE NN) as L. rewrite SX in L.
  assert (NA : noapi w) by (destruct WW as [-> | ->]; intros a b IN; cbn in IN; intuition discriminate).
  assert (SH : shape (OpSelect chs dl) w).
  { inversion L as [st0 UU EQ|k0 o0 w0 st0 UU SH EQ|w0 st0 ES EQ].
    - exfalso. destruct WW as [-> | ->]; inversion UU.
    - destruct (app_api_inj _ _ _ _ _ _ _ _ EQ (shape_noapi2 _ _ SH) NA) as (-> & -> & -> & ->). exact SH.
    - exfalso. inversion ES as [a1 s1 w1 Y|a1 s1|a1 w1 Y]; subst; try (inversion Y; subst); destruct WW as [-> | ->]; discriminate EQ. }
  exists w. split; [exists st'; auto|]. destruct WW as [-> | ->]; inversion SH; subst; match goal with H : pz _ _ |- _ => inversion H; subst end; cbn; auto.
Qed.
Lemma queued_at : forall s ch nd, reach s -> In nd (q (dt s) (QChan ch)) -> qrecv (chn (dt s) ch) = true ->
  let x := node_co nd in
  (exists k dl w, nd = NCo x /\ at_call s x w k (OpRecv ch dl) /\ In (FRecvWait ch) w) \/
  (exists k i chs dl w, nd = NCase x (Z.of_nat i) /\ at_call s x w k (OpSelect chs dl) /\ In (FSelWait (Z.of_nat (length chs))) w /\ nth_error chs i = Some ch).
Proof.
  intros s ch nd RE IN QR x. pose proof (reach_qloc _ RE _ (QChan ch) Logic.I IN) as M. pose proof (proj2 (reach_chinv _ RE) ch _ IN) as SD. fold x in M, SD. rewrite QR in SD.
  unfold matched in M. unfold sdir in SD. destruct (top (stk (sc s) x)) as [|f rest] eqn:TP; [destruct M|]. destruct f; try contradiction; try discriminate SD; try (destruct M as [_ D]; discriminate D).
  - left. destruct M as [A B]. injection B as <-. fold x in A. destruct (chan_wait s ch x RE) as (f & w & k & o & r2 & TF & AC & FF & WW & _); [exists rest; right; exact TP|].
    rewrite TP in TF. injection TF as <- _. destruct AC as (st & SX & SH). assert (IF : In (FRecvWait ch) w) by (destruct WW as [-> | ->]; cbn; auto).
    destruct (recv_frames _ _ _ SH IF) as [(dl & ->) _]. exists k, dl, w. split; [exact A|]. split; [exists st; auto | exact IF].
  - right. destruct rest as [|g rest]; [destruct M|]. destruct g; try contradiction. destruct o; try contradiction. destruct M as (i & g & A & NE & B). injection B as <-. fold x in A.
    destruct (sel_at _ _ _ _ _ _ _ RE TP) as (w & AC & IF). exists k, i, chs, dl, w. auto.
Qed.
