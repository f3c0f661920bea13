(** The state of every neco_chan_select call in progress. *)
From Coq Require Import List ZArith Bool Lia.
From Verif Require Import AATreeSpec AATreeHist Util Runtime SchedInv StepInv StackShape RuntimeSpec TraceInv Immediate Prims StaticInv Footprint QueueInv OwnInv WaitInv CallInv SpecInv TraceStep Wake Awake DeadlineInv AllInv PausedInv ResultInv JoinInv WaiterInv DldInv CancelInv CancelSt MutexEff MutexTok MutexRt MutexOrd AtCall WgInv ChanShape ChanSpec ChanLists ChanEff ChanQuiet ChanFifo ChanStatic GenInv ChanOrder BlockSpec Handed RecvQ SelInv.
Import ListNotations.
Local Open Scope Z_scope.

Definition sel_chs (o : op) : option (list nat) := match o with OpSelect chs _ | OpTrySelect chs => Some chs | _ => None end.
(** what a select over [chs] may return *)
Definition selres (chs : list nat) (r : Z) : Prop :=
  (exists n, (n < length chs)%nat /\ r = Z.of_nat n) \/ In r [EINVAL; EPERM; ECANCELED; ETIMEDOUT; EEMPTY; EERROR].
(** undecided, with all cases queued; or decided and about to run *)
Definition seln (s : state) (x : Z) (chs : list nat) : Prop :=
  (retidx (cof (dt s) x) = -1 /\ forall n ch, nth_error chs n = Some ch -> ccase x (Z.of_nat n) ch (dt s)) \/
  (exists n, (n < length chs)%nat /\ retidx (cof (dt s) x) = Z.of_nat n /\ (In x (paused (sc s)) -> In (NCo x) (q (dt s) QRes))).
Definition selw (s : state) (x : Z) (chs : list nat) (w : list frame) : Prop :=
  (exists ch n, (w = [FSelRecv ch (Z.of_nat n)] \/ w = [FRecvResumed; FSelRecv ch (Z.of_nat n)]) /\ nth_error chs n = Some ch) \/
  (In (FSelWait (Z.of_nat (length chs))) w /\ seln s x chs) \/ (w = [] /\ exists r, mode s = MRet r /\ selres chs r).
Record seli (s : state) : Prop := {
  se_at : ~ over (mode s) -> forall x w k o chs, at_call s x w k o -> sel_chs o = Some chs -> selw s x chs w;
  se_ret : forall k c o chs r v t, In (TRet k c o r v t) (tr s) -> sel_chs o = Some chs -> selres chs r }.

Lemma paused_other : forall s c k st' sch md x, exec c k (set_stk (zupd (stk (sc s)) c st') (sc s)) = (sch, md) -> x <> c -> In x (paused sch) -> In x (paused (sc s)) /\ k <> CResume x.
Proof.
  intros s c k st' sch md x EX NE PA. pose proof (exec_paused _ _ _ _ _ EX) as PE. cbn [paused set_stk] in PE. rewrite PE in PA.
  destruct k; try (split; [exact PA | discriminate]).
  - apply in_app_or in PA. destruct PA as [PA|[->|[]]]; [split; [exact PA | discriminate] | contradiction].
  - destruct (mem id (paused (sc s))) eqn:ME.
    + apply remove1_In in PA. destruct PA as [PA N]. split; [exact PA | congruence].
    + split; [exact PA|]. intros Q2. injection Q2 as ->. apply mem_In_false in ME. contradiction.
Qed.
Lemma ctl_case : forall c n k d y i g, ccase y i g (ctl_dat c n k d) <-> ccase y i g d.
Proof.
  intros c n k d y i g. unfold ccase. destruct k; cbn [ctl_dat]; try reflexivity; [rewrite spawn_q_eq by discriminate; reflexivity|]. unfold final_dat. cbn [q set_npool]. rewrite In_pushq. intuition (try discriminate).
Qed.
Lemma ctl_res : forall c n k d x, x <> c -> In (NCo x) (q d QRes) -> In (NCo x) (q (ctl_dat c n k d) QRes).
Proof.
  intros c n k d x N H. destruct k; cbn [ctl_dat]; try exact H; [rewrite spawn_q_eq by discriminate; exact H|]. unfold final_dat. cbn [q set_npool]. apply In_pushq. left. split; [exact H | congruence].
Qed.
Lemma case_pos : forall s x w k chs dl i g, reach s -> at_call s x w k (OpSelect chs dl) -> In (FSelWait (Z.of_nat (length chs))) w -> ccase x i g (dt s) ->
  exists n, i = Z.of_nat n /\ nth_error chs n = Some g.
Proof.
  intros s x w k chs dl i g RE (st & SX & SH) IF IN. pose proof (reach_qloc _ RE (NCase x i) (QChan g) Logic.I IN) as M. cbn [node_co] in M. unfold matched in M. destruct (sel_frames _ _ _ SH IF) as [_ TW].
  destruct TW as [-> | ->]; rewrite SX in M; cbn in M; destruct M as (j & g' & E & NT & EG); injection E as ->; injection EG as ->; eauto.
Qed.
Lemma seln_other : forall s c d k st' sch md x w kk chs dl T, reach s -> cur (sc s) = Some c -> x <> c -> at_call s x w kk (OpSelect chs dl) -> In (FSelWait (Z.of_nat (length chs))) w ->
  seln s x chs -> slw c (selx s) T (dt s) d -> ri x (dt s) d \/ k = CResume x -> (In (NCo x) (q (dt s) QRes) -> In (NCo x) (q d QRes) \/ k = CResume x) ->
  exec c k (set_stk (zupd (stk (sc s)) c st') (sc s)) = (sch, md) -> forall nw nc t, seln (mkst sch (ctl_dat c (nextid (sc s) + 1) k d) md nw nc t) x chs.
Proof.
  intros s c d k st' sch md x w kk chs dl T RE CU NX AC IF SN SW RI RK EX nw nc t. pose proof (at_notfresh _ _ _ _ _ (reach_full _ RE) AC) as NF.
  assert (SX : selx s x) by (exists w, kk, chs, dl; auto). unfold seln. cbn [dt sc]. rewrite ctl_rb by assumption.
  destruct (sw_co _ _ _ _ _ SW x NX SX) as [[A B]|(A & i & g & B & D)].
  - rewrite A. destruct SN as [[R C]|(n & LN & R & C)].
    + left. split; [exact R|]. intros n ch NT. apply ctl_case, B; [exact R | apply C, NT].
    + right. exists n. split; [exact LN|]. split; [exact R|]. intros PA. destruct (paused_other _ _ _ _ _ _ _ EX NX PA) as [P1 P2]. apply ctl_res; [exact NX|]. destruct (RK (C P1)); [assumption | contradiction].
  - right. destruct (case_pos _ _ _ _ _ _ _ _ RE AC IF B) as (n & -> & NT). exists n. split; [apply nth_error_Some; congruence|]. split; [exact D|].
    intros PA. destruct (paused_other _ _ _ _ _ _ _ EX NX PA) as [P1 P2]. apply ctl_res; [exact NX|]. destruct RI as [[RI|RI]|RI]; [exfalso; rewrite RI, A in D; lia | exact RI | contradiction].
Qed.
Lemma push_cases_keep : forall c chs i d y j g, ccase y j g d -> (y <> c \/ j < i) -> ccase y j g (push_cases c chs i d).
Proof.
  intros c chs. induction chs as [|h chs IH]; intros i d y j g H N; [exact H|]. cbn [push_cases]. apply IH; [|destruct N; [auto | right; lia]].
  unfold ccase. cbn -[pushq]. apply In_pushq. left. split; [exact H|]. intros Q. injection Q as -> ->. destruct N; [contradiction | lia].
Qed.
Lemma push_cases_all : forall c chs i d n ch, nth_error chs n = Some ch -> ccase c (i + Z.of_nat n) ch (push_cases c chs i d).
Proof.
  intros c chs. induction chs as [|h chs IH]; intros i d n ch E; [destruct n; discriminate E|]. cbn [push_cases]. destruct n as [|n]; cbn in E.
  - injection E as ->. replace (i + Z.of_nat 0) with i by lia. apply push_cases_keep; [|right; lia]. unfold ccase. cbn -[pushq]. apply In_pushq. right. auto.
  - replace (i + Z.of_nat (S n)) with ((i + 1) + Z.of_nat n) by lia. apply IH, E.
Qed.
Lemma chk_code : forall ch d, chk_chan ch d = OK \/ chk_chan ch d = EINVAL \/ chk_chan ch d = EPERM.
Proof. intros ch d. unfold chk_chan. destruct (_ =? 0); [auto|]. destruct (negb _); auto. Qed.
Lemma chks_code : forall chs d, chk_chans chs d = OK \/ chk_chans chs d = EINVAL \/ chk_chans chs d = EPERM.
Proof. induction chs as [|ch chs IH]; intros d; cbn [chk_chans]; [auto|]. destruct (_ =? OK); [apply IH | apply chk_code]. Qed.
(** what the call itself leaves behind *)
Lemma do_select_out : forall c chs t dl d d' fs k, do_select c chs t dl d = (d', fs, k) ->
  (exists r, fs = [] /\ k = CRet r /\ selres chs r) \/
  (exists ch n, nth_error chs n = Some ch /\ ((fs = [FSelRecv ch (Z.of_nat n)] /\ (k = CRet OK \/ k = CRet ECLOSED)) \/ (fs = [FRecvResumed; FSelRecv ch (Z.of_nat n)] /\ exists y, k = CResume y))) \/
  (t = false /\ (fs = [FSelWait (Z.of_nat (length chs))] /\ k = CRet 0 \/ fs = [FPause; FSelWait (Z.of_nat (length chs))] /\ k = CPause) /\
     retidx (cof d' c) = -1 /\ forall n ch, nth_error chs n = Some ch -> ccase c (Z.of_nat n) ch d') \/ k = CUB.
Proof.
  intros c chs t dl d d' fs k E. unfold do_select in E. destruct (Z.eqb_spec (chk_chans chs d) OK) as [CK|CK]; cbn [negb] in E.
  2:{ injection E as _ <- <-. left. exists (chk_chans chs d). split; [reflexivity|]. split; [reflexivity|]. right. destruct (chks_code chs d) as [H|[-> | ->]]; [contradiction | left; reflexivity | right; left; reflexivity]. }
  destruct (canceled _); [inj E; left; exists ECANCELED; split; [reflexivity|]; split; [reflexivity|]; right; cbn; tauto|].
  destruct (first_ready chs 0 d) as [[ch i]|] eqn:FR.
  - destruct (first_ready_in _ _ _ _ _ FR) as (n & NE & ->). cbn [Z.add] in *. destruct (rclosed _); [inj E; right; left; exists ch, n; split; [exact NE | left; auto]|].
    destruct (take ch d) as [[[m [y|]] d1]|]; inj E; [right; left; exists ch, n; split; [exact NE | right; eauto] | right; left; exists ch, n; split; [exact NE | left; auto] | auto].
  - destruct t; [inj E; left; exists EEMPTY; split; [reflexivity|]; split; [reflexivity|]; right; cbn; tauto|]. right; right; left. split; [reflexivity|].
    set (d1 := upco c (set_retidx (-1)) d) in E. pose proof (push_cases_eff c chs 0 d1) as (_ & _ & C & _). cbn zeta in C.
    unfold copause in E. set (d2 := push_cases c chs 0 d1) in *. assert (R : retidx (cof d2 c) = -1) by (rewrite C; unfold d1; rewrite upco_eq; reflexivity).
    assert (A : forall n ch, nth_error chs n = Some ch -> ccase c (Z.of_nat n) ch d2) by (intros n ch H; exact (push_cases_all c chs 0 d1 n ch H)).
    destruct (_ || _); [inj E; auto|]. destruct (_ <? _); inj E; (split; [auto|]); (split; [cbn; rewrite zupd_eq; exact R | exact A]).
Qed.
Lemma sel_shape : forall o w chs, shape o w -> sel_chs o = Some chs -> w = [] \/ (exists ch i, w = [FSelRecv ch i] \/ w = [FRecvResumed; FSelRecv ch i]) \/
  ((exists dl, o = OpSelect chs dl) /\ (w = [FSelWait (Z.of_nat (length chs))] \/ w = [FPause; FSelWait (Z.of_nat (length chs))])).
Proof.
  intros o w chs SH SC. destruct o; try discriminate SC; injection SC as ->; inversion SH; subst; auto; try (right; left; eauto; fail). match goal with H : pz _ _ |- _ => inversion H; subst end; right; right; eauto.
Qed.
Lemma sel_op : forall o w chs n, shape o w -> sel_chs o = Some chs -> In (FSelWait n) w -> exists dl, o = OpSelect chs dl.
Proof. intros o w chs n SH SC IF. destruct (sel_frames _ _ _ SH IF) as [(chs' & dl & -> & _) _]. injection SC as ->. eauto. Qed.
Lemma sel_nothanding : forall o chs, sel_chs o = Some chs -> ~ handing o.
Proof. intros o chs E H. destruct o; try discriminate E; destruct H. Qed.

Lemma checkdl_idx : forall c dl nw d v d', checkdl c dl nw d = (v, d') -> retidx (cof d' c) = retidx (cof d c) /\ (v = OK \/ v = ECANCELED \/ v = ETIMEDOUT).
Proof.
  intros c dl nw d v d' E. unfold checkdl in E. destruct (canceled (cof d c)), (deadlined (cof d c)), (dl =? MAXI), (dl <? nw), (dl <? MAXI); cbn in E; inj E; try rewrite upco_eq; cbn; auto.
Qed.

Theorem reach_seli : forall s, reach s -> seli s.
Proof.
  apply (rrun_preserves seli).
  - intros s c o d fs k sch md RE [I R] M CU U NR E X. assert (NO : ~ over (mode s)) by (rewrite M; exact (fun z => z)). constructor.
    + intros NU x w kk p chs AC SC. cbn [mode] in NU. destruct (call_at _ _ _ _ _ _ _ _ _ _ _ _ (reach_full _ RE) CU U E X AC) as [(-> & -> & -> & -> & SH & NF)|(NE & A0)].
      * assert (E' : exists t dl, do_select c chs t dl (dt s) = (d, fs, k)) by (destruct o; try discriminate SC; injection SC as ->; eauto). destruct E' as (t & dl & E').
        destruct (do_select_out _ _ _ _ _ _ _ _ E') as [(r & -> & -> & SR)|[(ch & n & NT & H)|[(_ & H & RX & CS)| ->]]].
        -- right; right. cbn in X. injection X as <- <-. split; [reflexivity|]. exists r. auto.
        -- left. exists ch, n. split; [destruct H as [[-> _]|[-> _]]; auto | exact NT].
        -- right; left. split; [destruct H as [[-> _]|[-> _]]; cbn; auto|]. left. cbn [dt]. assert (CD : ctl_dat c (nextid (sc s) + 1) k d = d) by (destruct H as [[_ ->]|[_ ->]]; reflexivity). rewrite CD. auto.
        -- exfalso. cbn in X. injection X as <- <-. exact (NU Logic.I).
      * destruct (I NO _ _ _ _ _ A0 SC) as [H|[[IF SN]|(-> & r & MR & _)]]; [left; exact H | right; left; split; [exact IF|] | congruence].
        assert (exists dl, p = OpSelect chs dl) as (dl & ->) by (destruct A0 as (st & _ & SH); eapply sel_op; eassumption).
        assert (SX : selx s x) by (exists w, kk, chs, dl; auto). destruct (hcall_fp _ _ _ _ _ _ _ (ncalls s) (stk (sc s) c) E) as (R0 & P & FP & _ & HP).
        eapply (seln_other s c d k _ sch md x w kk chs dl (selon o)); try eassumption; [eapply hcall_slw; eassumption | eapply hcall_ri; eassumption|].
        intros J. destruct (fps_keepq _ _ _ _ _ _ _ _ _ _ NE (kp_refl _ _) FP HP QRes (fun z => z) J) as [K|[K|K]]; auto.
    + intros kk c' p chs r v t IN. apply call_tr_rets in IN. eapply R, IN.
  - intros s c v f rest b d fs k sch md RE [I R] M CU SK L E X. assert (NO : ~ over (mode s)) by (rewrite M; exact (fun z => z)). constructor.
    + intros NU x w kk p chs AC SC.
      destruct (tick_at _ _ _ _ _ _ _ _ _ _ _ _ _ _ _ (reach_full _ RE) CU SK L E X AC) as [(-> & NF & w1 & -> & SH & A0)|[(_ & _ & _ & ->)|(NE & A0)]]; [|discriminate SC|].
      * destruct (I NO _ _ _ _ _ A0 SC) as [(ch & n & H & NT)|[[IF SN]|(D & _)]]; [| |discriminate D].
        -- destruct H as [H|H]; injection H as -> ->; cbn [hret] in E; injection E as <- <- <-; cbn in X; injection X as <- <-.
           ++ right; right. split; [reflexivity|]. exists (Z.of_nat n). split; [reflexivity|]. left. exists n. split; [apply nth_error_Some; congruence | reflexivity].
           ++ left. exists ch, n. auto.
        -- destruct A0 as (st & SX & SH0). destruct (sel_frames _ _ _ SH0 IF) as [_ TW]. destruct TW as [H|H]; injection H as -> ->; cbn [hret] in E.
           ++ right; right. unfold select_end in E. destruct (checkdl c MAXI (now s) _) as [v1 d1] eqn:CD. injection E as <- <- <-. cbn in X. injection X as <- <-. split; [reflexivity|]. eexists. split; [reflexivity|].
              apply checkdl_idx in CD. destruct CD as [RX V1]. pose proof (leave_cof (FSelWait (Z.of_nat (length chs))) c (set_nreceivers (nreceivers (dt s) - 1) (dt s))) as LC. cbn [leave] in LC. rewrite LC in RX. cbn [cof set_nreceivers] in RX.
              destruct V1 as [-> |[-> | ->]]; cbn [Z.eqb Pos.eqb]; [|right; cbn; tauto..]. change (OK =? OK) with true. cbv iota. rewrite RX.
              destruct SN as [[-> _]|(n & LN & -> & _)]; [right; cbn; tauto | left; eauto].
           ++ injection E as <- <- <-. cbn in X. injection X as <- <-. right; left. split; [left; reflexivity|]. unfold seln in *. cbn [dt sc ctl_dat].
              assert (PE : retidx (cof (pause_end c (dt s)) c) = retidx (cof (dt s) c) /\ q (pause_end c (dt s)) = q (dt s)) by (unfold pause_end; destruct (_ <? _); cbn; rewrite zupd_eq; auto).
              destruct PE as [-> P2]. unfold ccase in *. rewrite P2. exact SN.
      * destruct (I NO _ _ _ _ _ A0 SC) as [H|[[IF SN]|(-> & r & MR & _)]]; [left; exact H | right; left; split; [exact IF|] |].
        -- assert (exists dl, p = OpSelect chs dl) as (dl & ->) by (destruct A0 as (st & _ & SH); eapply sel_op; eassumption).
           assert (SX : selx s x) by (exists w, kk, chs, dl; auto). destruct (hret_fp _ _ _ _ _ _ _ _ _ rest E) as (R0 & P & FP & _ & HP).
           eapply (seln_other s c d k _ sch md x w kk chs dl (selret f)); try eassumption; [eapply hret_slw; eassumption | left; eapply hret_ri; eassumption|].
           intros J. destruct (fps_keepq _ _ _ _ _ _ _ _ _ _ NE (kp_leave f _ _ _ NE) FP HP QRes (fun z => z) J) as [K|[K|K]]; auto.
        -- destruct (at_ret _ _ _ _ RE A0 (sel_nothanding _ _ SC) NO) as (CX & _). congruence.
    + intros kk c' p chs r vv t IN SC. apply tick_tr_rets in IN. destruct IN as [IN|(EF & -> & <- & EV & _)]; [eapply R; eassumption|].
      assert (A0 : at_call s c [] kk p) by (exists rest; split; [rewrite SK, EF; reflexivity | constructor]).
      destruct (I NO _ _ _ _ _ A0 SC) as [(ch & n & [D|D] & _)|[[[] _]|(_ & r1 & MR & SR)]]; [discriminate D | discriminate D|]. congruence.
  - intros s d ws sch md ios RE [I R] M A K X. pose proof (mp_main _ _ _ _ _ _ _ K) as MP. pose proof X as X0. apply sco_switch_frame in X. destruct X as (X1 & _). destruct (wakes_frame ws (sc s)) as (W0 & _). set (s' := mkst _ _ _ _ _ _) in *.
    assert (SK : stk (sc s') = stk (sc s)) by (cbn; congruence). constructor; [|exact R].
    intros _ x w kk p chs AC SC. unfold at_call in AC. rewrite SK in AC. destruct (I ltac:(rewrite M; exact (fun z => z)) _ _ _ _ _ AC SC) as [H|[[IF SN]|(-> & r & MR & _)]]; [left; exact H | right; left; split; [exact IF|] | congruence].
    assert (CO : retidx (cof (dt s') x) = retidx (cof (dt s) x)).
    { cbn [dt s']. eapply (mprims_const _ (fun d0 => retidx (cof d0 x))); [|exact MP]. intros a b H. inversion H; subst; cbn; try reflexivity; unfold upco; cbn; unfold zupd; destruct (_ =? _) eqn:EQ; try reflexivity; apply Z.eqb_eq in EQ; subst; reflexivity. }
    unfold seln in *. rewrite CO. destruct SN as [[R1 C]|(n & LN & R1 & C)].
    + left. split; [exact R1|]. intros n ch NT. unfold ccase. cbn [dt s']. rewrite (mprims_wq _ _ _ MP) by exact Logic.I. apply C, NT.
    + right. exists n. split; [exact LN|]. split; [exact R1|]. intros PA. exfalso. cbn [sc s'] in PA. rewrite (switch_paused _ _ _ _ X0) in PA. destruct (wakes_in _ _ _ PA) as [PB NW]. apply NW.
      destruct (0 <? npsd (sc s)) eqn:NP; [eapply paused_step_res; [exact K | apply C, PB]|].
      exfalso. destruct (reach_full _ RE) as [[SI _] _]. pose proof (ct_psd _ (si_counts _ SI)) as Q. apply Z.ltb_ge in NP. destruct (paused (sc s)); [destruct PB|]. cbn in Q. lia.
  - intros s m0 RE [I R] HM. constructor; [|exact R]. intros NU x w kk p chs AC SC. destruct HM as [[EM HM]|[(-> & _)|[(j & ->)| ->]]]; try (destruct (NU Logic.I)).
    destruct (I ltac:(rewrite HM; exact (fun z => z)) _ _ _ _ _ AC SC) as [H|[H|(-> & r & MR & _)]]; [left; exact H | right; left; exact H | congruence].
  - intros s ev RE [I R] H M. destruct (env_frame s ev H) as (E1 & _ & _ & _ & E5). constructor.
    + rewrite M. intros NO x w kk p chs AC SC. unfold at_call in AC. rewrite E1 in AC. destruct (I NO _ _ _ _ _ AC SC) as [J|[[IF SN]|(-> & r & MR & SR)]]; [left; exact J | right; left; split; [exact IF|] | right; right; split; [reflexivity|]; exists r; rewrite M; auto].
      assert (QQ : forall nd kk', node_co nd = x -> kk' <> QIo -> In nd (q (dt s) kk') -> In nd (q (dt (step s ev)) kk')).
      { intros nd kk' NC _ IN. destruct (env_q s ev H) as [Q|(y & _ & _ & (w' & SW) & Q)]; rewrite Q; [exact IN|]. apply In_pushq. left. split; [exact IN|]. intros ->. cbn in NC. subst y.
        destruct AC as (st & SX & SH). destruct (sel_frames _ _ _ SH IF) as [_ TW]. rewrite SX in SW. destruct TW as [-> | ->]; discriminate SW. }
      unfold seln in *. rewrite (env_cof s ev H), E5. destruct SN as [[R1 C]|(n & LN & R1 & C)].
      * left. split; [exact R1|]. intros n ch NT. apply QQ; [reflexivity | discriminate | apply C, NT].
      * right. exists n. split; [exact LN|]. split; [exact R1|]. intros PA. apply QQ; [reflexivity | discriminate | apply C, PA].
    + intros kk c p chs r v t IN. apply env_tr_in in IN; [|exact H]. destruct IN as [IN|(y & j & D)]; [eapply R, IN | discriminate D].
  - intros g O. constructor; [|intros kk c p chs r v t [D|[]]; discriminate D]. intros _ x w kk p chs (st & SX & _). cbn in SX. unfold zupd in SX. destruct (_ =? _); [|destruct w; discriminate SX].
    destruct w as [|h w]; [discriminate SX|]. injection SX as _ SX. destruct w; discriminate SX.
Qed.
