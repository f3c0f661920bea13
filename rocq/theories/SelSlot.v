(** What was delivered to a selecting coroutine stays: the index in the coroutine,
    the message in the channel, as long as no other select uses the channel. *)
From Coq Require Import List ZArith Bool Lia.
From Verif Require Import AATreeSpec AATreeHist Util Runtime SchedInv StepInv StackShape RuntimeSpec TraceInv Immediate Prims StaticInv Footprint QueueInv OwnInv WaitInv CallInv SpecInv TraceStep Wake Awake DeadlineInv AllInv PausedInv ResultInv JoinInv WaiterInv DldInv CancelInv CancelSt MutexEff MutexTok MutexRt MutexOrd AtCall WgInv ChanShape ChanSpec ChanLists ChanEff ChanQuiet ChanFifo ChanStatic GenInv ChanOrder BlockSpec Handed RecvQ SelInv SelWait WorkInv Props_Chan.
Import ListNotations.
Local Open Scope Z_scope.

Lemma env_chn : forall s e ch, match e with ECall _ | ETick _ | EMain _ => False | _ => True end -> (ch < nchan (dt s))%nat -> chn (dt (step s e)) ch = chn (dt s) ch.
Proof.
  intros s e ch H LT. destruct e; try contradiction; cbn.
  - destruct (_ <? _); reflexivity.
  - destruct (mode s); auto; (destruct (_ || _); auto; destruct (_ =? _); auto; destruct (_ =? _); auto).
  - destruct (mode s); auto; (destruct (mem _ _); auto; destruct (stk (sc s) c) as [|[] ?]; auto).
  - reflexivity.
  - destruct (_ =? _); reflexivity.
  - rewrite nupd_neq by lia. reflexivity.
  - destruct (_ =? _); reflexivity.
  - destruct (_ =? _); reflexivity.
Qed.
Lemma ctl_chn : forall c n k d ch, (ch < nchan d)%nat -> chn (ctl_dat c n k d) ch = chn d ch.
Proof.
  intros c n k d ch LT. destruct k; cbn [ctl_dat]; try reflexivity. unfold spawn_dat, popq, new_chan. destruct (q d QPool), isgen; cbn; try reflexivity; rewrite nupd_neq by lia; reflexivity.
Qed.
Lemma stack_selrecv : forall s c ch i rest, reach s -> stk (sc s) c = FSelRecv ch i :: rest -> exists k o, at_call s c [FSelRecv ch i] k o /\ sel_chs o <> None.
Proof.
  intros s c ch i rest RE SK. assert (L : lstack (FSelRecv ch i :: rest)) by (rewrite <- SK; apply live_lstack; [apply reach_full, RE | rewrite SK; discriminate]).
  inversion L as [st U|k o w st U SH EQ|w st ES EQ]; subst.
  - inversion U.
  - destruct w as [|f w]; [discriminate EQ|]. injection EQ as -> EQ. subst rest. inversion SH; subst; try (match goal with H : pz _ _ |- _ => inversion H; subst; cbn in *; discriminate | H : yf _ _ |- _ => inversion H; subst; cbn in *; discriminate end);
      (eexists; eexists; split; [exists st; split; [exact SK | exact SH] | discriminate]).
  - exfalso. assert (H : forall u v, exit_shape u -> u ++ v <> FSelRecv ch i :: rest); [|exact (H w st ES EQ)]. intros u v H. inversion H; subst; try (match goal with H : yf _ _ |- _ => inversion H; subst end); cbn; discriminate.
Qed.
Lemma selrecv_on : forall s c w k o ch i, reach s -> ~ over (mode s) -> at_call s c w k o -> In (FSelRecv ch i) w -> selon o ch /\ (w = [FSelRecv ch i] \/ w = [FRecvResumed; FSelRecv ch i]).
Proof.
  intros s c w k o ch i RE NO AC IF.
  assert (SC : exists chs, sel_chs o = Some chs).
  { destruct AC as (st & _ & SH). inversion SH; subst; cbn; eauto; exfalso; try (match goal with H : pz _ _ |- _ => inversion H; subst end); try (match goal with H : yf _ _ |- _ => inversion H; subst end); cbn in IF; intuition discriminate. }
  destruct SC as (chs & SC). destruct (se_at _ (reach_seli _ RE) NO _ _ _ _ _ AC SC) as [(g & n & W & NT)|[[IW _]|(-> & _)]]; [| |destruct IF].
  - assert (E : g = ch /\ i = Z.of_nat n) by (destruct W as [-> | ->]; cbn in IF; intuition congruence). destruct E as [-> ->]. split; [|exact W]. apply nth_error_In in NT. destruct o; try discriminate SC; injection SC as ->; exact NT.
  - exfalso. destruct AC as (st & _ & SH). destruct (sel_frames _ _ _ SH IW) as [_ [-> | ->]]; cbn in IF; intuition discriminate.
Qed.
(** a select case queued at [ch] belongs to a waiting select on [ch] *)
Lemma case_sel : forall s y i ch, reach s -> ccase y i ch (dt s) -> exists w j chs dl, at_call s y w j (OpSelect chs dl) /\ In (FSelWait (Z.of_nat (length chs))) w /\ In ch chs.
Proof.
  intros s y i ch RE H. destruct (reach_selq _ RE _ _ _ H) as [QR _]. destruct (queued_at _ _ _ RE H QR) as [(k & dl & w & D & _)|(k & n & chs & dl & w & _ & AC & IF & NT)]; [discriminate D|].
  cbn [node_co] in *. exists w, k, chs, dl. split; [exact AC|]. split; [exact IF | eapply nth_error_In, NT].
Qed.

(** ** The index *)
Definition hit (i r : Z) : Prop := r = i \/ r = ECANCELED \/ r = ETIMEDOUT.
Record picked (x : Z) (k : nat) (chs : list nat) (i : Z) (s : state) : Prop := {
  pk_call : exists dl tm, In (TCall k x (OpSelect chs dl) tm) (tr s);
  pk_at : ~ over (mode s) -> forall w o, at_call s x w k o ->
    (In (FSelWait (Z.of_nat (length chs))) w /\ retidx (cof (dt s) x) = i) \/ (w = [] /\ exists r, mode s = MRet r /\ hit i r);
  pk_ret : forall c o r v t, In (TRet k c o r v t) (tr s) -> hit i r }.
Theorem picked_step : forall x k chs i s e, i <> -1 -> reach s -> picked x k chs i s -> picked x k chs i (step s e).
Proof.
  intros x kk chs i s0 e NI RE0 P0. destruct P0 as [(dl & tm0 & IC) PA PR].
  assert (OWN : forall s c w o, reach s -> (forall z, In z (tr s0) -> In z (tr s)) -> at_call s c w kk o -> c = x /\ o = OpSelect chs dl).
  { intros s c w o RE SUB AC. destruct (at_called _ _ _ _ _ RE AC) as (tm & I1). destruct (callnos_inj _ _ _ _ _ _ _ _ (ci_uc _ (reach_cinv _ RE)) I1 (SUB _ IC)) as (-> & -> & _). auto. }
  assert (R1 : reach (step s0 e)) by (apply reach_step, RE0). revert R1.
  apply (gstep_preserves (fun z => reach z /\ z = s0) (fun z => reach z -> picked x kk chs i z)); try (intros ? [? ?]; apply reach_full; assumption); auto.
  - intros s c o d fs k sch md [RE ->] _ M CU U NR E X RE'. set (s' := mkst _ _ _ _ _ _) in *. assert (NO : ~ over (mode s0)) by (rewrite M; exact (fun z => z)).
    assert (OLD : forall z, In z (tr s0) -> In z (tr s')) by (intros z; apply call_tr_old). constructor; [eauto 8| |].
    + intros _ w p AC. assert (LT : (kk < ncalls s0)%nat) by (eapply ci_lt; [apply (reach_cinv _ RE) | exact IC]).
      destruct (call_at _ _ _ _ _ _ _ _ _ _ _ _ (reach_full _ RE) CU U E X AC) as [(_ & _ & D & _)|(NE & A0)]; [lia|].
      destruct (PA NO _ _ A0) as [(IF & RX)|(-> & r & MR & _)]; [|congruence]. left. split; [exact IF|]. destruct (OWN s0 x w p RE (fun z H => H) A0) as [_ ->].
      assert (SX : selx s0 x) by (exists w, kk, chs, dl; auto). pose proof (at_notfresh _ _ _ _ _ (reach_full _ RE) A0) as NF. unfold s'. cbn [dt]. rewrite ctl_rb by assumption.
      destruct (sw_co _ _ _ _ _ (hcall_slw _ _ _ _ _ _ RE E) x NE SX) as [[A _]|[A _]]; congruence.
    + intros c' p r v t IN. apply call_tr_rets in IN. eapply PR, IN.
  - intros s c v f rest b d fs k sch md [RE ->] _ M CU SK L E X RE'. set (s' := mkst _ _ _ _ _ _) in *. assert (NO : ~ over (mode s0)) by (rewrite M; exact (fun z => z)).
    assert (OLD : forall z, In z (tr s0) -> In z (tr s')) by (intros z; apply tick_tr_old). constructor; [eauto 8| |].
    + intros _ w p AC. destruct (OWN _ _ _ _ RE' OLD AC) as [_ ->].
      destruct (tick_at _ _ _ _ _ _ _ _ _ _ _ _ _ _ _ (reach_full _ RE) CU SK L E X AC) as [(<- & NF & w1 & -> & SH & A0)|[(_ & _ & _ & D)|(NE & A0)]]; [|discriminate D|].
      * destruct (PA NO _ _ A0) as [(IF & RX)|(D & _)]; [|discriminate D]. destruct A0 as (st & SX & SH0).
        destruct (sel_frames _ _ _ SH0 IF) as [_ TW]. destruct TW as [H|H]; injection H as -> ->; cbn [hret] in E.
        -- right. unfold select_end in E. destruct (checkdl x MAXI (now s0) _) as [v1 d1] eqn:CD. injection E as <- <- <-. cbn in X. injection X as <- <-. split; [reflexivity|]. eexists. split; [reflexivity|].
           apply checkdl_idx in CD. destruct CD as [RY V1]. pose proof (leave_cof (FSelWait (Z.of_nat (length chs))) x (set_nreceivers (nreceivers (dt s0) - 1) (dt s0))) as LC. cbn [leave] in LC. rewrite LC in RY. cbn [cof set_nreceivers] in RY.
           destruct V1 as [-> |[-> | ->]]; [left | right; left; reflexivity | right; right; reflexivity]. change (OK =? OK) with true. cbv iota. congruence.
        -- injection E as <- <- <-. cbn in X. injection X as <- <-. left. split; [left; reflexivity|]. unfold s'. cbn [dt ctl_dat]. unfold pause_end. destruct (_ <? _); cbn; rewrite zupd_eq; exact RX.
      * destruct (PA NO _ _ A0) as [(IF & RX)|(-> & r & MR & _)].
        -- left. split; [exact IF|]. assert (SX : selx s0 x) by (exists w, kk, chs, dl; auto). pose proof (at_notfresh _ _ _ _ _ (reach_full _ RE) A0) as NF. unfold s'. cbn [dt]. rewrite ctl_rb by assumption.
           destruct (sw_co _ _ _ _ _ (hret_slw _ _ _ _ _ _ _ _ _ RE E SK) x NE SX) as [[A _]|[A _]]; congruence.
        -- destruct (at_ret _ _ _ _ RE A0 (fun z => z) NO) as (CX & _). congruence.
    + intros c' p r vv t IN. apply tick_tr_rets in IN. destruct IN as [IN|(EF & -> & <- & EV & _)]; [eapply PR, IN|].
      assert (A0 : at_call s0 c [] kk p) by (exists rest; split; [rewrite SK, EF; reflexivity | constructor]). destruct (OWN s0 c [] p RE (fun z I => I) A0) as [-> _].
      destruct (PA NO _ _ A0) as [([] & _)|(_ & r1 & MR & G)]. congruence.
  - intros s d ws sch md ios [RE ->] _ M A K X RE'. pose proof (mp_main _ _ _ _ _ _ _ K) as MP. apply sco_switch_frame in X. destruct X as (X1 & _). destruct (wakes_frame ws (sc s0)) as (W0 & _). set (s' := mkst _ _ _ _ _ _) in *.
    assert (SK : stk (sc s') = stk (sc s0)) by (cbn; congruence). constructor; [cbn; eauto 8 | | exact PR].
    intros _ w p AC. unfold at_call in AC. rewrite SK in AC. destruct (PA ltac:(rewrite M; exact (fun z => z)) _ _ AC) as [(IF & RX)|(-> & r & MR & _)]; [|congruence]. left. split; [exact IF|].
    assert (CO : retidx (cof (dt s') x) = retidx (cof (dt s0) x)).
    { cbn [dt s']. eapply (mprims_const _ (fun d0 => retidx (cof d0 x))); [|exact MP]. intros a b H. inversion H; subst; cbn; try reflexivity; unfold upco; cbn; unfold zupd; destruct (_ =? _) eqn:EQ; try reflexivity; apply Z.eqb_eq in EQ; subst; reflexivity. }
    congruence.
  - intros s m0 [RE ->] _ HM RE'. constructor; [cbn; eauto 8 | | exact PR]. intros NU w p AC. destruct HM as [[EM HM]|[(-> & _)|[(j & ->)| ->]]]; try (destruct (NU Logic.I)).
    destruct (PA ltac:(rewrite HM; exact (fun z => z)) _ _ AC) as [H|(-> & r & MR & _)]; [left; exact H | congruence].
  - intros s ev [RE ->] _ H M RE'. destruct (env_frame s0 ev H) as (E1 & _). constructor.
    + exists dl, tm0. apply env_tr_old; assumption.
    + rewrite M. intros NO w p AC. unfold at_call in AC. rewrite E1 in AC. rewrite (env_cof s0 ev H). destruct (PA NO _ _ AC) as [?|(-> & r & MR & G)]; [left; assumption|]. right. split; [reflexivity|]. exists r. auto.
    + intros c p r v t IN. apply env_tr_in in IN; [|exact H]. destruct IN as [IN|(y & j & D)]; [eapply PR, IN | discriminate D].
  - intros _. constructor; eauto 8.
Qed.
Theorem picked_run : forall x k chs i es s, i <> -1 -> reach s -> picked x k chs i s -> picked x k chs i (run s es).
Proof. intros x k chs i es. induction es as [|e es IH]; intros s NI RE P; [exact P|]. cbn. apply IH; [exact NI | apply reach_step, RE | apply picked_step; assumption]. Qed.

(** ** The message *)
(** the code and value neco_chan_case gives *)
Definition cased (b : bool) (m r v : Z) : Prop := if b then r = OK /\ v = m else r = ECLOSED.
Record slotted (x : Z) (k ch : nat) (b : bool) (m : Z) (K : nat) (s : state) : Prop := {
  sl_n : (k < K)%nat /\ (K <= ncalls s)%nat;
  sl_made : exists n j c t, In (TRet j c (OpChMake n) OK (Z.of_nat ch) t) (tr s);
  sl_val : ~ over (mode s) -> slot (chn (dt s) ch) = m /\ (lok (chn (dt s) ch) = b \/ exists w o i, at_call s x w k o /\ In (FSelRecv ch i) w);
  sl_only : ~ over (mode s) -> forall y w j o, at_call s y w j o -> selon o ch ->
    (In (FSelWait (Z.of_nat (length (match sel_chs o with Some l => l | None => [] end)))) w /\ retidx (cof (dt s) y) <> -1) \/ w = [] \/
    (y = x /\ j = k /\ exists i, (w = [FSelRecv ch i] /\ cur (sc s) = Some x /\ mode s = MRet (if b then OK else ECLOSED)) \/ (w = [FRecvResumed; FSelRecv ch i] /\ b = true));
  sl_case : ~ over (mode s) -> forall w j, at_call s x w j (OpCase ch) -> (K <= j)%nat -> w = [] /\ exists r, mode s = MRet r /\ cased b m r (rbuf (cof (dt s) x));
  sl_ret : forall j r v t, In (TRet j x (OpCase ch) r v t) (tr s) -> (K <= j)%nat -> cased b m r v }.
Definition nosel (K ch : nat) (t : list obs) : Prop := forall j c o u, In (TCall j c o u) t -> selon o ch -> (j < K)%nat.

Lemma sel_selon : forall o ch, selon o ch -> exists chs, sel_chs o = Some chs /\ In ch chs.
Proof. intros o ch H. destruct o; try destruct H; cbn; eauto. Qed.
Lemma made_is : forall s ch, reach s -> ~ over (mode s) -> (exists n j c t, In (TRet j c (OpChMake n) OK (Z.of_nat ch) t) (tr s)) -> isch (dt s) ch.
Proof. intros s ch RE NO (n & j & c & t & IN). destruct (st_mk _ (reach_cstat _ RE NO) _ _ _ _ _ IN) as (g & E & I & _). apply Nat2Z.inj in E. subst g. exact I. Qed.
Lemma isch_ok : forall d ch, chd d -> isch d ch -> chk_chan ch d = OK.
Proof. intros d ch (_ & _ & P) (_ & K). unfold chk_chan. rewrite K. destruct (Z.eqb_spec (rtid d) 0); [lia|]. rewrite Z.eqb_refl. reflexivity. Qed.
Lemma sel_ret : forall s y w j o ch, reach s -> at_call s y w j o -> selon o ch -> In (FSelWait (Z.of_nat (length (match sel_chs o with Some l => l | None => [] end)))) w -> selx s y.
Proof.
  intros s y w j o ch RE AC SO IF. destruct (sel_selon _ _ SO) as (chs & SC & IN). rewrite SC in IF. destruct AC as (st & SX & SH). destruct (sel_op _ _ _ _ SH SC IF) as (dl & ->). exists w, j, chs, dl. split; [exists st; auto | exact IF].
Qed.
Theorem slotted_step : forall x k ch b m K s e, reach s -> slotted x k ch b m K s -> nosel K ch (tr (step s e)) -> slotted x k ch b m K (step s e).
Proof.
  intros x kk ch bb m K s0 e RE0 P0 NS0. destruct P0 as [[KK KN] MK VA ON CA PR].
  assert (R1 : reach (step s0 e)) by (apply reach_step, RE0). revert R1 NS0.
  apply (gstep_preserves (fun z => reach z /\ z = s0) (fun z => reach z -> nosel K ch (tr z) -> slotted x kk ch bb m K z)); try (intros ? [? ?]; apply reach_full; assumption); auto.
  - intros s c o d fs k sch md [RE ->] _ M CU U NR E X RE' NS. set (s' := mkst _ _ _ _ _ _) in *. assert (NO : ~ over (mode s0)) by (rewrite M; exact (fun z => z)).
    assert (OLD : forall z, In z (tr s0) -> In z (tr s')) by (intros z; apply call_tr_old). pose proof (made_is _ _ RE NO MK) as IC.
    assert (NSO : ~ selon o ch) by (intros H; pose proof (NS (ncalls s0) c o (now s0) (call_tr_new _ _ _ _ _) H); lia).
    pose proof (hcall_slw _ _ _ _ _ _ RE E) as SW. destruct (VA NO) as [SV LV].
    assert (NP : forall y w j p, at_call s0 y w j p -> y <> c) by (intros y w j p (st & SX & SH) ->; exact (ustack_clash _ _ _ _ _ U SH SX)).
    assert (SS : same_slot ch (dt s0) d).
    { apply (sw_slot _ _ _ _ _ SW); [apply IC | exact NSO|]. intros y i H. destruct (case_sel _ _ _ _ RE H) as (w & j & chs & dl & AC & IF & IN). split; [|split; [exists w, j, chs, dl; auto|]].
      - intros ->. pose proof (reach_qloc _ RE _ (QChan ch) Logic.I H) as MM. cbn [node_co] in MM. destruct U; destruct MM.
      - destruct (ON NO _ _ _ _ AC IN) as [[_ R]|[-> |(_ & _ & i' & [(-> & _)|(-> & _)])]]; [exact R | destruct IF | destruct IF as [D|[]]; discriminate D | destruct IF as [D|[D|[]]]; discriminate D]. }
    assert (CH : chn (ctl_dat c (nextid (sc s0) + 1) k d) ch = chn d ch) by (apply ctl_chn; pose proof (sw_n _ _ _ _ _ SW); destruct IC; lia).
    assert (ONE : forall y w j p, at_call s' y w j p -> (y = c /\ w = fs /\ j = ncalls s0 /\ p = o) \/ (y <> c /\ at_call s0 y w j p)).
    { intros y w j p AC. destruct (call_at _ _ _ _ _ _ _ _ _ _ _ _ (reach_full _ RE) CU U E X AC) as [(A1 & A2 & A3 & A4 & _)|A1]; auto. }
    constructor.
    + unfold s'. cbn [ncalls]. lia.
    + destruct MK as (n & j & c0 & t & IN). exists n, j, c0, t. apply OLD, IN.
    + intros _. unfold s'. cbn [dt]. rewrite CH. destruct SS as [-> ->]. split; [exact SV|]. destruct LV as [LV|(w & p & i & AC & IF)]; [left; exact LV | right]. exists w, p, i. split; [|exact IF].
      eapply at_keep; [exact (reach_full _ RE) | exact CU | eapply NP, AC | exact X | exact AC].
    + intros _ y w j p AC SO. destruct (ONE _ _ _ _ AC) as [(_ & _ & _ & ->)|[NE A0]]; [contradiction|]. destruct (ON NO _ _ _ _ A0 SO) as [[IF RX]|[-> |(-> & -> & i & [(_ & CX & _)|W])]]; [left; split; [exact IF|] | auto | congruence | right; right; eauto].
      pose proof (sel_ret _ _ _ _ _ _ RE A0 SO IF) as SX. pose proof (at_notfresh _ _ _ _ _ (reach_full _ RE) A0) as NF. unfold s'. cbn [dt]. rewrite ctl_rb by assumption.
      destruct (sw_co _ _ _ _ _ SW y NE SX) as [[A _]|[A _]]; congruence.
    + intros _ w j AC LT. destruct (ONE _ _ _ _ AC) as [(-> & -> & -> & <-)|[NE A0]]; [|destruct (CA NO _ _ A0 LT) as (_ & r & MR & _); congruence].
      assert (LO : lok (chn (dt s0) ch) = bb) by (destruct LV as [LV|(w & p & i & AC0 & IF)]; [exact LV | destruct (NP _ _ _ _ AC0 eq_refl)]).
      cbn [hcall] in E. unfold do_case in E. rewrite (isch_ok _ _ (proj1 (reach_chinv _ RE)) IC), LO, SV in E. change (negb (OK =? OK)) with false in E. cbv iota in E.
      destruct bb; cbn [negb] in E; injection E as <- <- <-; cbn in X; injection X as <- <-; (split; [reflexivity|]); (eexists; split; [reflexivity|]); cbn; [|reflexivity]. rewrite zupd_eq. auto.
    + intros j r v t IN. apply call_tr_rets in IN. eapply PR, IN.
  - intros s c v f rest b d fs k sch md [RE ->] _ M CU SK L E X RE' NS. set (s' := mkst _ _ _ _ _ _) in *. assert (NO : ~ over (mode s0)) by (rewrite M; exact (fun z => z)).
    assert (OLD : forall z, In z (tr s0) -> In z (tr s')) by (intros z; apply tick_tr_old). pose proof (made_is _ _ RE NO MK) as IC.
    pose proof (hret_slw _ _ _ _ _ _ _ _ _ RE E SK) as SW. destruct (VA NO) as [SV LV].
    assert (TK : forall y w j p, at_call s' y w j p -> selon p ch \/ p = OpCase ch -> (y = c /\ exists w1, w = fs ++ w1 /\ at_call s0 c (f :: w1) j p) \/ (y <> c /\ at_call s0 y w j p)).
    { intros y w j p AC H. destruct (tick_at _ _ _ _ _ _ _ _ _ _ _ _ _ _ _ (reach_full _ RE) CU SK L E X AC) as [(-> & NF & w1 & -> & SH & A0)|[(_ & _ & _ & ->)|A0]]; [left; eauto | destruct H as [[]|D]; discriminate D | right; exact A0]. }
    assert (CH : chn (ctl_dat c (nextid (sc s0) + 1) k d) ch = chn d ch) by (apply ctl_chn; pose proof (sw_n _ _ _ _ _ SW); destruct IC; lia).
    assert (SS : slot (chn d ch) = slot (chn (dt s0) ch) /\ ((forall i, f <> FSelRecv ch i) -> lok (chn d ch) = lok (chn (dt s0) ch))).
    { destruct (isx f) eqn:IX.
      - destruct (sr_slot _ _ _ _ (hret_slrx _ _ _ _ _ _ _ _ RE IX E) ch (proj1 IC)) as [A B]; [|split; [exact A | intros _; exact B]].
        intros y i H. destruct (case_sel _ _ _ _ RE H) as (w & j & chs & dl & AC & IF & IN). split; [|split; [exists w, j, chs, dl; auto|]].
        + intros ->. pose proof (reach_qloc _ RE _ (QChan ch) Logic.I H) as MM. cbn [node_co] in MM. rewrite SK in MM. destruct f; try discriminate IX; destruct MM.
        + destruct (ON NO _ _ _ _ AC IN) as [[_ R]|[-> |(_ & _ & i' & [(-> & _)|(-> & _)])]]; [exact R | destruct IF | destruct IF as [D|[]]; discriminate D | destruct IF as [D|[D|[]]]; discriminate D].
      - assert (G : (forall g i, f <> FSelRecv g i) \/ exists g i, f = FSelRecv g i) by (destruct f; try (left; discriminate); right; eauto). destruct G as [G|(g & i & ->)].
        + destruct (hret_slr0 _ _ _ _ _ _ _ _ _ RE IX G E SK) as [_ H]. destruct (H ch (proj1 IC)) as [A B]. auto.
        + cbn [hret] in E. injection E as <- _ _. destruct (Nat.eq_dec ch g) as [->|N]; cbn; [rewrite nupd_eq; split; [reflexivity|]; intros H; destruct (H i eq_refl) | rewrite nupd_neq by exact N; auto]. }
    destruct SS as [SS1 SS2].
    assert (FR : forall i, f = FSelRecv ch i -> c = x /\ v = (if bb then OK else ECLOSED)).
    { intros i ->. destruct (stack_selrecv _ _ _ _ _ RE SK) as (j & p & AC & _). destruct (selrecv_on _ _ _ _ _ _ _ RE NO AC (or_introl eq_refl)) as [SO _].
      destruct (ON NO _ _ _ _ AC SO) as [[[D|[]] _]|[D|(-> & -> & i' & [(_ & _ & MR)|(D & _)])]]; try discriminate D. split; [reflexivity | congruence]. }
    constructor.
    + exact (conj KK KN).
    + destruct MK as (n & j & c0 & t & IN). exists n, j, c0, t. apply OLD, IN.
    + intros _. unfold s'. cbn [dt]. rewrite CH, SS1. split; [exact SV|].
      assert (D : (exists i, f = FSelRecv ch i) \/ forall i, f <> FSelRecv ch i).
      { destruct f; try (right; discriminate). destruct (Nat.eq_dec ch0 ch) as [->|N]; [left; eauto | right; intros i' Q; injection Q as Q _; contradiction]. }
      destruct D as [(i & ->)|NF].
      * left. destruct (FR i eq_refl) as [_ ->]. cbn [hret] in E. injection E as <- _ _. cbn. rewrite nupd_eq. destruct bb; reflexivity.
      * rewrite (SS2 NF). destruct LV as [LV|(w & p & i & AC & IF)]; [left; exact LV | right]. destruct (selrecv_on _ _ _ _ _ _ _ RE NO AC IF) as [SO W]. destruct (Z.eq_dec x c) as [->|NE].
        -- destruct AC as (st & SX & SH). rewrite SK in SX. destruct W as [-> | ->]; injection SX as -> ->; [destruct (NF i eq_refl)|]. cbn [hret] in E. injection E as <- <- <-. cbn in X. injection X as <- <-.
           exists [FSelRecv ch i], p, i. split; [|left; reflexivity]. exists st. split; [unfold s'; cbn; rewrite zupd_eq; reflexivity|]. inversion SH; subst; try (match goal with H : pz _ _ |- _ => inversion H; subst end); try (match goal with H : yf _ _ |- _ => inversion H; subst end); cbn in *; try discriminate; eauto with shp.
        -- exists w, p, i. split; [|exact IF]. eapply at_keep; [exact (reach_full _ RE) | exact CU | exact NE | exact X | exact AC].
    + intros _ y w j p AC SO. destruct (TK _ _ _ _ AC (or_introl SO)) as [(-> & w1 & -> & A0)|[NE A0]].
      * destruct (ON NO _ _ _ _ A0 SO) as [[IF RX]|[D|(-> & -> & i & [(H & CX & MR)|(H & HB)])]]; [|discriminate D| |].
        -- destruct (sel_selon _ _ SO) as (chs & SC & IN). rewrite SC in *. destruct A0 as (st & SX & SH0). destruct (sel_frames _ _ _ SH0 IF) as [_ TW]. destruct TW as [H|H]; injection H as -> ->; cbn [hret] in E.
           ++ right; left. unfold select_end in E. destruct (checkdl c MAXI (now s0) _) as [v1 d1]. injection E as _ <- _. reflexivity.
           ++ left. injection E as <- <- <-. split; [left; reflexivity|]. unfold s'. cbn [dt ctl_dat]. unfold pause_end. destruct (_ <? _); cbn; rewrite zupd_eq; exact RX.
        -- injection H as -> ->. cbn [hret] in E. injection E as _ <- _. right; left. reflexivity.
        -- injection H as -> ->. cbn [hret] in E. injection E as <- <- <-. cbn in X. injection X as <- <-. right; right. split; [reflexivity|]. split; [reflexivity|]. exists i. left. split; [reflexivity|]. split; [exact CU|]. rewrite HB. reflexivity.
      * destruct (ON NO _ _ _ _ A0 SO) as [[IF RX]|[-> |(-> & -> & i & [(_ & CX & _)|W])]]; [left; split; [exact IF|] | auto | congruence | right; right; eauto].
        pose proof (sel_ret _ _ _ _ _ _ RE A0 SO IF) as SX. pose proof (at_notfresh _ _ _ _ _ (reach_full _ RE) A0) as NF. unfold s'. cbn [dt]. rewrite ctl_rb by assumption.
        destruct (sw_co _ _ _ _ _ SW y NE SX) as [[A _]|[A _]]; congruence.
    + intros _ w j AC LT. destruct (TK _ _ _ _ AC (or_intror eq_refl)) as [(-> & w1 & -> & A0)|[NE A0]]; destruct (CA NO _ _ A0 LT) as (D & _); [discriminate D|]. rewrite D in A0.
      destruct (at_ret _ _ _ _ RE A0 (fun z => z) NO) as (CX & _). congruence.
    + intros j r vv t IN LT. apply tick_tr_rets in IN. destruct IN as [IN|(EF & -> & <- & EV & _)]; [eapply PR; eassumption|].
      assert (A0 : at_call s0 c [] j (OpCase ch)) by (exists rest; split; [rewrite SK, EF; reflexivity | constructor]). destruct (CA NO _ _ A0 LT) as (_ & r1 & MR & G). rewrite EV. congruence.
  - intros s d ws sch md ios [RE ->] _ M A K0 X RE' NS. pose proof (mp_main _ _ _ _ _ _ _ K0) as MP. apply sco_switch_frame in X. destruct X as (X1 & _). destruct (wakes_frame ws (sc s0)) as (W0 & _). set (s' := mkst _ _ _ _ _ _) in *.
    assert (SK : stk (sc s') = stk (sc s0)) by (cbn; congruence). assert (NO : ~ over (mode s0)) by (rewrite M; exact (fun z => z)). destruct (mprims_chn _ _ MP) as (E1 & _).
    assert (AT : forall y w j p, at_call s' y w j p <-> at_call s0 y w j p) by (intros; unfold at_call; rewrite SK; reflexivity). constructor; [exact (conj KK KN) | exact MK | | | | exact PR].
    + intros _. unfold s'. cbn [dt]. rewrite E1. destruct (VA NO) as [V1 V2]. split; [exact V1|]. destruct V2 as [V2|(w & p & i & AC & IF)]; [left; exact V2 | right; exists w, p, i; split; [apply AT, AC | exact IF]].
    + intros _ y w j p AC SO. apply AT in AC. destruct (ON NO _ _ _ _ AC SO) as [[IF RX]|[-> |(-> & -> & i & [(_ & _ & MR)|W])]]; [left; split; [exact IF|] | auto | congruence | right; right; eauto].
      assert (CO : retidx (cof (dt s') y) = retidx (cof (dt s0) y)).
      { cbn [dt s']. eapply (mprims_const _ (fun d0 => retidx (cof d0 y))); [|exact MP]. intros a b H. inversion H; subst; cbn; try reflexivity; unfold upco; cbn; unfold zupd; destruct (_ =? _) eqn:EQ; try reflexivity; apply Z.eqb_eq in EQ; subst; reflexivity. }
      congruence.
    + intros _ w j AC LT. apply AT in AC. destruct (CA NO _ _ AC LT) as (_ & r & MR & _). congruence.
  - intros s m0 [RE ->] _ HM RE' NS. constructor; [exact (conj KK KN) | exact MK | | | | exact PR]; intros NU; destruct HM as [[EM HM]|[(-> & _)|[(j0 & ->)| ->]]]; try (destruct (NU Logic.I)); (assert (NO : ~ over (mode s0)) by (rewrite HM; exact (fun z => z))).
    + exact (VA NO).
    + intros y w j p AC SO. destruct (ON NO _ _ _ _ AC SO) as [H|[-> |(-> & -> & i & [(_ & _ & MR)|W])]]; [left; exact H | auto | congruence | right; right; eauto].
    + intros w j AC LT. destruct (CA NO _ _ AC LT) as (_ & r & MR & _). congruence.
  - intros s ev [RE ->] _ H M RE' NS. destruct (env_frame s0 ev H) as (E1 & EC & _). 
    assert (AT : forall y w j p, at_call (step s0 ev) y w j p <-> at_call s0 y w j p) by (intros; unfold at_call; rewrite E1; reflexivity).
    constructor.
    + rewrite env_ncalls by exact H. exact (conj KK KN).
    + destruct MK as (n & j & c0 & t & IN). exists n, j, c0, t. apply env_tr_old; assumption.
    + rewrite M. intros NO. rewrite (env_chn _ _ _ H) by apply (made_is _ _ RE NO MK). destruct (VA NO) as [V1 V2]. split; [exact V1|]. destruct V2 as [V2|(w & p & i & AC & IF)]; [left; exact V2 | right; exists w, p, i; split; [apply AT, AC | exact IF]].
    + rewrite M. intros NO y w j p AC SO. apply AT in AC. rewrite (env_cof s0 ev H). destruct (ON NO _ _ _ _ AC SO) as [R|[-> |(-> & -> & i & [(W & CX & MR)|W])]]; [left; exact R | auto | | right; right; eauto].
      right; right. split; [reflexivity|]. split; [reflexivity|]. exists i. left. split; [exact W|]. split; congruence.
    + rewrite M. intros NO w j AC LT. apply AT in AC. rewrite (env_cof s0 ev H). destruct (CA NO _ _ AC LT) as (W & r & MR & G). split; [exact W|]. exists r. split; [congruence | exact G].
    + intros j r v t IN. apply env_tr_in in IN; [|exact H]. destruct IN as [IN|(y & j' & D)]; [eapply PR, IN | discriminate D].
  - intros _ _. constructor; auto.
Qed.
Lemma step_tr_old : forall s e z, reach s -> In z (tr s) -> In z (tr (step s e)).
Proof.
  intros s0 e z0 RE0 I0. apply (gstep_preserves (fun z => reach z /\ z = s0) (fun z => In z0 (tr z))); try (intros ? [? ?]; apply reach_full; assumption); auto.
  - intros s c o d fs k sch md [RE ->] _ M CU U NR E X. apply call_tr_old, I0.
  - intros s c v f rest b d fs k sch md [RE ->] _ M CU SK L E X. apply tick_tr_old, I0.
  - intros s d ws sch md ios [RE ->] _ M A K0 X. exact I0.
  - intros s m0 [RE ->] _ HM. exact I0.
  - intros s ev [RE ->] _ H M. apply env_tr_old; assumption.
Qed.
Lemma run_tr_old : forall es s z, reach s -> In z (tr s) -> In z (tr (run s es)).
Proof. induction es as [|e es IH]; intros s z RE IN; [exact IN|]. cbn. apply IH; [apply reach_step, RE | apply step_tr_old; assumption]. Qed.
Theorem slotted_run : forall x k ch b m K es s, reach s -> slotted x k ch b m K s -> nosel K ch (tr (run s es)) -> slotted x k ch b m K (run s es).
Proof.
  intros x k ch b m K es. induction es as [|e es IH]; intros s RE P NS; [exact P|]. cbn. cbn in NS. apply IH; [apply reach_step, RE | | exact NS].
  apply slotted_step; [exact RE | exact P|]. intros j c o u IN. apply (NS j c o u). apply run_tr_old; [apply reach_step, RE | exact IN].
Qed.

(** ** The state in which a select has been chosen *)
(** the last word on select call [k]: whenever it returns, it returns [i], or reports a
    cancellation or a passed deadline *)
Definition picks (s : state) (k : nat) (i : Z) : Prop :=
  forall es c o r v t, In (TRet k c o r v t) (tr (run s es)) -> r = i \/ r = ECANCELED \/ r = ETIMEDOUT.
(** no coroutine but [x] is inside a select call on [ch] *)
Definition alone (s : state) (x : Z) (ch : nat) : Prop := forall y w j o, at_call s y w j o -> selon o ch -> y = x.
(** until some coroutine begins a new select on [ch], every call of neco_chan_case on
    [ch] that [x] makes gives [m] (when [b]) or NECO_CLOSED *)
Definition case_gets (s : state) (x : Z) (ch : nat) (b : bool) (m : Z) : Prop :=
  forall es, nosel (ncalls s) ch (tr (run s es)) ->
  forall j r v t, (ncalls s <= j)%nat -> In (TRet j x (OpCase ch) r v t) (tr (run s es)) -> cased b m r v.
Lemma select_picks : forall s x k chs dl w i, reach s -> at_call s x w k (OpSelect chs dl) -> In (FSelWait (Z.of_nat (length chs))) w ->
  retidx (cof (dt s) x) = Z.of_nat i -> picks s k (Z.of_nat i).
Proof.
  intros s x k chs dl w i RE AC IF RI. assert (P : picked x k chs (Z.of_nat i) s).
  { destruct (at_called _ _ _ _ _ RE AC) as (t & IT). constructor; [eauto | |].
    - intros _ w' o' A'. destruct (at_fun _ _ _ _ _ _ _ _ RE A' AC) as (-> & _). left. auto.
    - intros c o r v t' IN. exfalso. exact (pending_noret _ _ _ _ _ _ _ _ _ _ RE AC IN). }
  intros es c o r v t IN. eapply pk_ret; [eapply (picked_run x k chs (Z.of_nat i) es s); [lia | exact RE | exact P] | exact IN].
Qed.
Lemma select_case : forall s x k chs dl w ch b, reach s -> (exists n j c t, In (TRet j c (OpChMake n) OK (Z.of_nat ch) t) (tr s)) ->
  at_call s x w k (OpSelect chs dl) -> In (FSelWait (Z.of_nat (length chs))) w -> retidx (cof (dt s) x) <> -1 -> lok (chn (dt s) ch) = b -> alone s x ch ->
  case_gets s x ch b (slot (chn (dt s) ch)).
Proof.
  intros s x k chs dl w ch b RE MK AC IF RI LO AL. destruct (at_called _ _ _ _ _ RE AC) as (t & IT).
  assert (P : slotted x k ch b (slot (chn (dt s) ch)) (ncalls s) s).
  { constructor.
    - pose proof (ci_lt _ (reach_cinv _ RE) _ _ _ _ IT). lia.
    - exact MK.
    - auto.
    - intros NO y w' j o A SO. left. pose proof (AL _ _ _ _ A SO) as ->. assert (H : w' = w /\ o = OpSelect chs dl).
      { destruct A as (st1 & E1 & S1). destruct AC as (st2 & E2 & S2). rewrite E1 in E2. destruct (app_api_inj _ _ _ _ _ _ _ _ E2 (shape_noapi2 _ _ S1) (shape_noapi2 _ _ S2)) as (-> & -> & -> & ->). auto. }
      destruct H as [-> ->]. cbn. auto.
    - intros _ w' j A LT. destruct (at_called _ _ _ _ _ RE A) as (t' & I'). pose proof (ci_lt _ (reach_cinv _ RE) _ _ _ _ I'). lia.
    - intros j r v t' IN LT. apply in_split in IN. destruct IN as (l1 & l2 & E). destruct (ci_ret _ (reach_cinv _ RE) _ _ _ _ _ _ _ _ E) as ((t0 & IC & _) & _).
      assert (IC' : In (TCall j x (OpCase ch) t0) (tr s)) by (rewrite E; apply in_or_app; right; right; exact IC). pose proof (ci_lt _ (reach_cinv _ RE) _ _ _ _ IC'). lia. }
  intros es NS j r v t' LE IN. eapply sl_ret; [eapply slotted_run; [exact RE | exact P | exact NS] | exact IN | exact LE].
Qed.
(** a blocked select is undecided, with all its cases queued *)
Lemma blocked_undecided : forall s x k chs dl, reach s -> ~ over (mode s) -> blocked s x k (OpSelect chs dl) -> ~ to_resume s x ->
  retidx (cof (dt s) x) = -1 /\ forall n ch, nth_error chs n = Some ch -> ccase x (Z.of_nat n) ch (dt s).
Proof.
  intros s x k chs dl RE NO B NT. destruct (blocked_at _ _ _ _ RE B) as (w & AC & BF). destruct (se_at _ (reach_seli _ RE) NO _ _ _ _ _ AC eq_refl) as [(ch & n & W & _)|[[_ [H|(n & _ & _ & H)]]|[-> _]]].
  - exfalso. inversion BF; subst; destruct W as [W|W]; try discriminate W; injection W as W1 W2; subst; discriminate.
  - exact H.
  - destruct (NT (H (proj1 B))).
  - inversion BF.
Qed.
Lemma alone_call : forall s c o d fs k sch md x ch nw nc t, reach s -> cur (sc s) = Some c -> ustack (stk (sc s) c) -> ~ selon o ch -> hcall c o (now s) (dt s) = (d, fs, k) ->
  exec c k (set_stk (zupd (stk (sc s)) c (fs ++ FApi (ncalls s) o :: stk (sc s) c)) (sc s)) = (sch, md) ->
  alone s x ch -> alone (mkst sch (ctl_dat c (nextid (sc s) + 1) k d) md nw nc t) x ch.
Proof.
  intros s c o d fs k sch md x ch nw nc t RE CU U NS E X AL y w j p AC SO.
  destruct (call_at _ _ _ _ _ _ _ _ _ _ _ _ (reach_full _ RE) CU U E X AC) as [(_ & _ & _ & -> & _)|[_ A]]; [contradiction | eapply AL; eassumption].
Qed.
