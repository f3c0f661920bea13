(** A receiver that was handed a message returns that message, unless it is canceled
    or its deadline passes before it runs. *)
From Coq Require Import List ZArith Bool Lia.
From Verif Require Import AATreeSpec AATreeHist Util Runtime SchedInv StepInv StackShape RuntimeSpec TraceInv Immediate Prims StaticInv Footprint QueueInv OwnInv WaitInv CallInv SpecInv TraceStep Wake Awake DeadlineInv AllInv PausedInv ResultInv JoinInv WaiterInv DldInv CancelInv CancelSt MutexEff MutexTok MutexRt MutexOrd AtCall WgInv ChanShape ChanSpec ChanLists ChanEff ChanQuiet ChanFifo ChanStatic GenInv ChanOrder BlockSpec.
Import ListNotations.
Local Open Scope Z_scope.

Definition got (m r v : Z) : Prop := (r = OK /\ v = m) \/ r = ECANCELED \/ r = ETIMEDOUT.
Definition hdw (s : state) (x : Z) (ch : nat) (m : Z) (w : list frame) : Prop :=
  (In (FRecvWait ch) w /\ ~ inq s ch x /\ cclosed (cof (dt s) x) = false /\ rbuf (cof (dt s) x) = m) \/
  (w = [] /\ exists r, mode s = MRet r /\ got m r (rbuf (cof (dt s) x))).
Record handed (x : Z) (ch k : nat) (m : Z) (s : state) : Prop := {
  hd_call : exists dl tm, In (TCall k x (OpRecv ch dl) tm) (tr s);
  hd_at : ~ over (mode s) -> forall w o, at_call s x w k o -> hdw s x ch m w;
  hd_ret : forall c o r v t, In (TRet k c o r v t) (tr s) -> got m r v }.

Lemma other_same : forall s c x ch w k o KP KW d0 R P d, reach s -> x <> c -> at_call s x w k o -> In (FRecvWait ch) w -> ~ inq s ch x ->
  fps c KP KW d0 R P d -> (forall n kk, In n (q d0 kk) -> In n (q (dt s) kk)) -> cof d0 = cof (dt s) ->
  cclosed (cof d x) = cclosed (cof (dt s) x) /\ rbuf (cof d x) = rbuf (cof (dt s) x) /\ ~ In (NCo x) (q d (QChan ch)).
Proof.
  intros s c x ch w k o KP KW d0 R P d RE NE (st & SX & SH) IF NI FP SUB C0.
  assert (TW : w = [FRecvWait ch] \/ w = [FPause; FRecvWait ch]).
  { destruct (wait_op _ _ _ ch SH IF (or_intror eq_refl)) as [(a & b & D & _)|[(a & b & D & _)|(dl & _ & ->)]]; try discriminate D. inversion SH; subst; try (destruct IF as [D|[]]; discriminate D); [destruct IF|]. match goal with H : pz _ _ |- _ => inversion H; subst; auto end. }
  assert (NR : ~ In x R).
  { intros IR. destruct (fps_R _ _ _ _ _ _ _ FP x IR) as [?|(k' & n & K' & PK & NC & IN')]; [contradiction|].
    pose proof (reach_qloc _ RE n k' (popq_waitq _ PK) (SUB _ _ IN')) as M. rewrite NC in M. unfold matched in M.
    assert (n = NCo (node_co n) /\ k' = QChan ch) as [EN ->] by (destruct TW as [-> | ->]; rewrite SX in M; exact M). apply NI. unfold inq. rewrite <- NC, <- EN. apply SUB, IN'. }
  split; [|split].
  - destruct (fps_cof _ _ _ _ _ _ _ FP x NE NR) as [-> | ->]; rewrite C0; reflexivity.
  - destruct (fps_cof _ _ _ _ _ _ _ FP x NE NR) as [-> | ->]; rewrite C0; reflexivity.
  - intros IN. destruct (fps_q_in _ _ _ _ _ _ _ FP (NCo x) (QChan ch) Logic.I IN) as [I0|[E _]]; [apply NI, SUB, I0 | apply NE, E].
Qed.
Lemma ctl_rb : forall c n k d x, x <> n -> x <> c -> cof (ctl_dat c n k d) x = cof d x.
Proof. intros c n k d x N1 N2. destruct k; cbn [ctl_dat]; auto. rewrite spawn_cof by exact N1. destruct (Z.eqb_spec x c); [contradiction | reflexivity]. Qed.

Theorem handed_step : forall x ch k m s e, reach s -> handed x ch k m s -> handed x ch k m (step s e).
Proof.
  intros x ch kk m s0 e RE0 P0. destruct P0 as [(dl & tm0 & IC) PA PR].
  assert (OWN : forall s c w o, reach s -> (forall z, In z (tr s0) -> In z (tr s)) -> at_call s c w kk o -> c = x /\ o = OpRecv ch dl).
  { intros s c w o RE SUB AC. destruct (at_called _ _ _ _ _ RE AC) as (tm & I1). destruct (callnos_inj _ _ _ _ _ _ _ _ (ci_uc _ (reach_cinv _ RE)) I1 (SUB _ IC)) as (-> & -> & _). auto. }
  assert (R1 : reach (step s0 e)) by (apply reach_step, RE0). revert R1.
  apply (gstep_preserves (fun z => reach z /\ z = s0) (fun z => reach z -> handed x ch kk m z)); try (intros ? [? ?]; apply reach_full; assumption); auto.
  - intros s c o d fs k sch md [RE ->] _ M CU U NR E X RE'. set (s' := mkst _ _ _ _ _ _) in *. assert (NO : ~ over (mode s0)) by (rewrite M; exact (fun z => z)).
    assert (OLD : forall z, In z (tr s0) -> In z (tr s')) by (intros z; apply call_tr_old). constructor; [eauto 8| |].
    + intros _ w p AC. assert (LT : (kk < ncalls s0)%nat) by (eapply ci_lt; [apply (reach_cinv _ RE) | exact IC]).
      destruct (call_at _ _ _ _ _ _ _ _ _ _ _ _ (reach_full _ RE) CU U E X AC) as [(_ & _ & D & _)|(NE & A0)]; [lia|].
      destruct (PA NO _ _ A0) as [(IF & NI & CC & RB)|(-> & r & MR & _)]; [|congruence]. left. split; [exact IF|].
      destruct (hcall_fp _ _ _ _ _ _ _ (ncalls s0) (stk (sc s0) c) E) as (R & P & FP & _). destruct (other_same _ _ _ _ _ _ _ _ _ _ _ _ _ RE NE A0 IF NI FP) as (H1 & H2 & H3); auto.
      pose proof (at_notfresh _ _ _ _ _ (reach_full _ RE) A0) as NF. unfold inq, s'. cbn [dt]. rewrite ctl_rb by assumption. split; [intros IN; apply ctl_wq in IN; [exact (H3 IN) | exact Logic.I]|]. split; congruence.
    + intros c' p r v t IN. apply call_tr_rets in IN. eapply PR, IN.
  - intros s c v f rest b d fs k sch md [RE ->] _ M CU SK L E X RE'. set (s' := mkst _ _ _ _ _ _) in *. assert (NO : ~ over (mode s0)) by (rewrite M; exact (fun z => z)).
    assert (OLD : forall z, In z (tr s0) -> In z (tr s')) by (intros z; apply tick_tr_old). constructor; [eauto 8| |].
    + intros _ w p AC. destruct (OWN _ _ _ _ RE' OLD AC) as [_ ->].
      destruct (tick_at _ _ _ _ _ _ _ _ _ _ _ _ _ _ _ (reach_full _ RE) CU SK L E X AC) as [(<- & NF & w1 & -> & SH & A0)|[(_ & _ & _ & D)|(NE & A0)]]; [|discriminate D|].
      * destruct (PA NO _ _ A0) as [(IF & NI & CC & RB)|(D & _)]; [|discriminate D]. destruct A0 as (st & SX & SH0).
        assert (TW : (f = FRecvWait ch /\ w1 = []) \/ (f = FPause /\ w1 = [FRecvWait ch])).
        { inversion SH0; subst; [destruct IF as [D|[]]; discriminate D|]. match goal with H : pz _ _ |- _ => inversion H; subst; auto end. }
        destruct TW as [[-> ->]|[-> ->]]; cbn [hret] in E.
        -- right. unfold recv_end in E. destruct (checkdl x MAXI (now s0) _) as [v1 d1] eqn:CD. unfold checkdl in CD. cbn [cof rmq set_q set_nreceivers] in CD.
           assert (C1 : cclosed (cof d1 x) = false /\ rbuf (cof d1 x) = m /\ (v1 = OK \/ v1 = ECANCELED \/ v1 = ETIMEDOUT)).
           { destruct (negb _ && negb _ && _); injection CD as <- <-; [cbn; auto|]. cbn. rewrite zupd_eq. cbn. split; [exact CC|]. split; [exact RB|]. destruct (canceled _); [auto|]. destruct (if negb false && _ && _ && _ then _ else _); auto. }
           destruct C1 as (C1 & C2 & C3). destruct (negb (v1 =? OK)) eqn:VO; [|rewrite C1 in E]; injection E as <- <- <-; cbn in X; injection X as <- <-; (split; [reflexivity|]); (eexists; split; [reflexivity|]).
           ++ right. destruct C3 as [-> |C3]; [discriminate VO | exact C3].
           ++ left. split; [reflexivity | exact C2].
        -- injection E as <- <- <-. left. cbn in X. injection X as <- <-. split; [left; reflexivity|]. unfold inq, s'. cbn [dt ctl_dat]. unfold pause_end. destruct (_ <? _); cbn; rewrite zupd_eq; cbn; auto.
      * destruct (PA NO _ _ A0) as [(IF & NI & CC & RB)|(-> & r & MR & _)].
        -- left. split; [exact IF|]. destruct (hret_fp _ _ _ _ _ _ _ _ _ rest E) as (R & P & FP & _). destruct (other_same _ _ _ _ _ _ _ _ _ _ _ _ _ RE NE A0 IF NI FP) as (H1 & H2 & H3); [intros n kk'; apply leave_in | apply leave_cof|].
           pose proof (at_notfresh _ _ _ _ _ (reach_full _ RE) A0) as NF. unfold inq, s'. cbn [dt]. rewrite ctl_rb by assumption. split; [intros IN; apply ctl_wq in IN; [exact (H3 IN) | exact Logic.I]|]. split; congruence.
        -- destruct (at_ret _ _ _ _ RE A0 (fun z => z) NO) as (CX & _). congruence.
    + intros c' p r vv t IN. apply tick_tr_rets in IN. destruct IN as [IN|(EF & -> & <- & EV & _)]; [eapply PR, IN|].
      assert (A0 : at_call s0 c [] kk p) by (exists rest; split; [rewrite SK, EF; reflexivity | constructor]). destruct (OWN s0 c [] p RE (fun z I => I) A0) as [-> _].
      destruct (PA NO _ _ A0) as [([] & _)|(_ & r1 & MR & G)]. rewrite M in MR. injection MR as ->. rewrite EV. exact G.
  - intros s d ws sch md ios [RE ->] _ M A K X RE'. pose proof (mp_main _ _ _ _ _ _ _ K) as MP. apply sco_switch_frame in X. destruct X as (X1 & _). destruct (wakes_frame ws (sc s0)) as (W0 & _). set (s' := mkst _ _ _ _ _ _) in *.
    assert (SK : stk (sc s') = stk (sc s0)) by (cbn; congruence). constructor; [cbn; eauto 8 | | exact PR].
    intros _ w p AC. unfold at_call in AC. rewrite SK in AC. destruct (PA ltac:(rewrite M; exact (fun z => z)) _ _ AC) as [(IF & NI & CC & RB)|(-> & r & MR & _)]; [|congruence]. left. split; [exact IF|].
    assert (CO : (rbuf (cof (dt s') x), cclosed (cof (dt s') x)) = (rbuf (cof (dt s0) x), cclosed (cof (dt s0) x))).
    { cbn [dt s']. eapply (mprims_const _ (fun d0 => (rbuf (cof d0 x), cclosed (cof d0 x)))); [|exact MP]. intros a b H. inversion H; subst; cbn; try reflexivity; unfold upco; cbn; unfold zupd; destruct (_ =? _) eqn:EQ; try reflexivity; apply Z.eqb_eq in EQ; subst; reflexivity. }
    injection CO as C1 C2. unfold inq. cbn [dt s'] in *. rewrite (mprims_wq _ _ _ MP) by exact Logic.I. rewrite C1, C2. auto.
  - intros s m0 [RE ->] _ HM RE'. constructor; [cbn; eauto 8 | | exact PR]. intros NU w p AC. destruct HM as [[EM HM]|[(-> & _)|[(j & ->)| ->]]]; try (destruct (NU Logic.I)).
    destruct (PA ltac:(rewrite HM; exact (fun z => z)) _ _ AC) as [H|(-> & r & MR & _)]; [left; exact H | congruence].
  - intros s ev [RE ->] _ H M RE'. destruct (env_frame s0 ev H) as (E1 & _). constructor.
    + exists dl, tm0. apply env_tr_old; assumption.
    + rewrite M. intros NO w p AC. unfold at_call in AC. rewrite E1 in AC. destruct (PA NO _ _ AC) as [(IF & NI & CC & RB)|(-> & r & MR & G)].
      * left. split; [exact IF|]. rewrite (env_cof s0 ev H). split; [|auto]. unfold inq. destruct (env_q s0 ev H) as [-> |(y & _ & _ & _ & ->)]; [exact NI|]. intros IN. apply In_pushq in IN. destruct IN as [[IN _]|[D _]]; [exact (NI IN) | discriminate D].
      * right. split; [reflexivity|]. exists r. rewrite M, (env_cof s0 ev H). auto.
    + intros c p r v t IN. apply env_tr_in in IN; [|exact H]. destruct IN as [IN|(y & j & D)]; [eapply PR, IN | discriminate D].
  - intros _. constructor; eauto 8.
Qed.
Theorem handed_run : forall x ch k m es s, reach s -> handed x ch k m s -> handed x ch k m (run s es).
Proof. intros x ch k m es. induction es as [|e es IH]; intros s RE P; [exact P|]. cbn. apply IH; [apply reach_step, RE | apply handed_step; assumption]. Qed.
