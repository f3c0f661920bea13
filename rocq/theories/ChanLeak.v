(** What can go wrong on a channel when the coroutines that use it may be canceled and
    may give deadlines: a send or receive ends with NECO_CANCELED or NECO_TIMEDOUT, or
    its coroutine leaves it without returning from it. Unless that happens, [good], the
    messages keep their order. *)
From Coq Require Import List ZArith Bool Lia.
From Verif Require Import AATreeSpec AATreeHist Util Runtime SchedInv StepInv StackShape RuntimeSpec TraceInv Immediate Prims StaticInv Footprint QueueInv OwnInv WaitInv CallInv SpecInv TraceStep Wake Awake DeadlineInv AllInv PausedInv ResultInv JoinInv WaiterInv DldInv CancelInv CancelOrd MutexEff MutexTok MutexRt MutexOrd MutexLeak AtCall WgInv ChanShape ChanSpec ChanLists ChanEff ChanQuiet ChanFifo.
Import ListNotations.
Local Open Scope Z_scope.

Definition gone (r : Z) : Prop := r = ECANCELED \/ r = ETIMEDOUT.
Inductive hurt (G : Z -> option nat) (ch : nat) (s : state) : Prop :=
| hu_failed k x o r v t : In (TRet k x o r v t) (tr s) -> uses G ch x o -> gone r -> hurt G ch s
| hu_left k x o tm : In (TCall k x o tm) (tr s) -> uses G ch x o -> ~ returned k (tr s) -> (forall y w, ~ at_call s y w k o) -> hurt G ch s
| hu_failing c k o v st : mode s = MRet v -> cur (sc s) = Some c -> stk (sc s) c = FApi k o :: st -> uses G ch c o -> gone v -> hurt G ch s
| hu_doomed c f rest : mode s <> MMain -> cur (sc s) = Some c -> top (stk (sc s) c) = f :: rest -> f = FSendWait ch \/ f = FRecvWait ch ->
    canceled (cof (dt s) c) = true \/ deadlined (cof (dt s) c) = true -> hurt G ch s.
Definition sound (G : Z -> option nat) (ch : nat) (s : state) : Prop := ~ over (mode s) /\ plain_on ch (tr s) /\ ~ hurt G ch s.
Definition good (G : Z -> option nat) (ch : nat) (s : state) : Prop := simple_on G ch (tr s) \/ sound G ch s.

Lemma uses_nopop : forall G ch x o, uses G ch x o -> o <> OpCleanupPop true.
Proof. intros G ch x o U ->. exact U. Qed.
Lemma good_plain : forall G ch s, good G ch s -> plain_on ch (tr s).
Proof. intros G ch s [H|H]; [eapply simple_plain; exact H | apply H]. Qed.
Lemma good_unhurt : forall G ch s, reach s -> gyw G s -> mode s <> MMain -> good G ch s -> unhurt ch s.
Proof.
  intros G ch s RE GY NM [SI|(NO & PL & NH)]; [eapply simple_unhurt; eassumption|]. split; [exact PL|]. intros x CX (rest & W).
  destruct (deadlined (cof (dt s) x)) eqn:DE; [exfalso|destruct (canceled (cof (dt s) x)) eqn:CA; [exfalso | auto]];
    (destruct W as [W|W]; apply NH; [eapply (hu_doomed _ _ _ x (FSendWait ch)) | eapply (hu_doomed _ _ _ x (FRecvWait ch))]; eauto).
Qed.
Lemma hurt_ext : forall G G' ch s, reach s -> (forall k c o tm, In (TCall k c o tm) (tr s) -> G c = G' c) -> hurt G ch s -> hurt G' ch s.
Proof.
  intros G G' ch s RE H HU.
  assert (UX : forall k c o tm, In (TCall k c o tm) (tr s) -> uses G ch c o -> uses G' ch c o).
  { intros k c o tm IN U. destruct o; try exact U. cbn in *. rewrite <- (H _ _ _ _ IN). exact U. }
  destruct HU as [k x o r v t IN U B|k x o tm IN U NR NA|c k o v st M CU SK U B|c f rest NM CU TP FF FL].
  - eapply hu_failed; [exact IN | | exact B]. pose proof IN as IR. apply in_split in IR. destruct IR as (l1 & l2 & E1).
    destruct (ci_ret _ (reach_cinv _ RE) _ _ _ _ _ _ _ _ E1) as ((t0 & IC & _) & _). eapply (UX k x o t0); [rewrite E1; apply in_or_app; right; right; exact IC | exact U].
  - eapply hu_left; eauto.
  - destruct (ci_open _ (reach_cinv _ RE) c k o) as (tm & IT & _); [rewrite SK; left; reflexivity|]. eapply hu_failing; eauto.
  - eapply hu_doomed; eauto.
Qed.

Section Call.
Variables (G : Z -> option nat) (s : state) (c : Z) (o : op) (d : dat) (fs : list frame) (k : ctl) (sch : sched) (md : emode) (ch : nat).
Hypothesis RE : reach s.
Hypothesis MU : mode s = MUser.
Hypothesis CU : cur (sc s) = Some c.
Hypothesis US : ustack (stk (sc s) c).
Hypothesis E : hcall c o (now s) (dt s) = (d, fs, k).
Hypothesis X : exec c k (set_stk (zupd (stk (sc s)) c (fs ++ FApi (ncalls s) o :: stk (sc s) c)) (sc s)) = (sch, md).
Let s' := callst s c o d fs k sch md.
Lemma hurt_call : hurt G ch s -> hurt G ch s'.
Proof.
  intros [j x p r v t IN U B|j x p tm IN U NR NA|y j p v st M CY SK U B|y f rest NM CY TP FF FL].
  - eapply hu_failed; [apply call_tr_old, IN | exact U | exact B].
  - eapply hu_left; [apply call_tr_old, IN | exact U | intros R; apply NR; eapply ret_call; exact R|].
    intros y w A. destruct (call_at _ _ _ _ _ _ _ _ _ _ _ _ (reach_full _ RE) CU US E X A) as [(-> & -> & -> & _)|[_ A0]]; [|exact (NA _ _ A0)].
    destruct (ci_lt _ (reach_cinv _ RE) _ _ _ _ IN) as [LT _]. lia.
  - congruence.
  - exfalso. assert (y = c) by congruence. subst y. inversion US as [EQ|k0 st U0 EQ|st EQ]; rewrite <- EQ in TP; cbn in TP; injection TP as <- _; destruct FF; discriminate.
Qed.
Lemma sound_entry : ~ hurt G ch s' -> uses G ch c o -> ~ (fs = [] /\ k = CRet ECANCELED).
Proof.
  intros NH U [Ef Ek]. apply NH. pose proof X as X0. rewrite Ef, Ek in X0. cbn [exec app] in X0. injection X0 as X1 X2.
  eapply (hu_failing G ch s' c (ncalls s) o ECANCELED); [exact (eq_sym X2) | unfold s', callst; cbn [sc]; rewrite <- X1; exact CU | unfold s', callst; cbn [sc]; rewrite <- X1; cbn [set_stk stk]; apply zupd_eq | exact U | left; reflexivity].
Qed.
Lemma sound_cut : ~ hurt G ch s' -> forall f, f = FSendWait ch \/ f = FRecvWait ch -> ~ cut c f (dt s) d fs k.
Proof.
  intros NH f FF (_ & Ef & Ek & DE). apply NH. pose proof X as X0. rewrite Ef, Ek in X0. cbn [exec app] in X0. injection X0 as X1 X2.
  eapply (hu_doomed G ch s' c f); [unfold s', callst; cbn [mode]; rewrite <- X2; discriminate | unfold s', callst; cbn [sc]; rewrite <- X1; exact CU | unfold s', callst; cbn [sc]; rewrite <- X1; cbn [set_stk stk]; rewrite zupd_eq; destruct FF as [-> | ->]; reflexivity | exact FF|].
  right. unfold s', callst. cbn [dt]. rewrite Ek. exact DE.
Qed.
End Call.

Section Tick.
Variables (G : Z -> option nat) (s : state) (c v : Z) (f : frame) (rest : list frame) (b : bool) (d : dat) (fs : list frame) (k : ctl) (sch : sched) (md : emode) (ch : nat).
Hypothesis RE : reach s.
Hypothesis GY : gyw G s.
Hypothesis MU : mode s = MRet v.
Hypothesis CU : cur (sc s) = Some c.
Hypothesis SK : stk (sc s) c = f :: rest.
Hypothesis LS : lstack (f :: rest).
Hypothesis E : hret c f v b (now s) (dt s) = (d, fs, k).
Hypothesis X : exec c k (set_stk (zupd (stk (sc s)) c (fs ++ rest)) (sc s)) = (sch, md).
Let s' := tickst s c v f d fs k sch md.
Lemma left_tick : forall j x p tm, In (TCall j x p tm) (tr s) -> uses G ch x p -> ~ returned j (tr s) -> (forall y w, ~ at_call s y w j p) -> hurt G ch s'.
Proof.
  intros j y p tm IN U NR NA. eapply hu_left; [apply tick_tr_old, IN | exact U | |].
  - intros R. destruct (ret_tick _ _ _ _ _ _ _ _ R) as [R0|(p' & ->)]; [exact (NR R0)|]. pose proof (api_at _ _ _ _ _ RE SK) as A.
    destruct (at_tcall _ _ _ _ _ RE A) as [(t & IT) _]. destruct (callnos_inj _ _ _ _ _ _ _ _ (ci_uc _ (reach_cinv _ RE)) IN IT) as (_ & <- & _). exact (NA _ _ A).
  - intros x w A. destruct (tick_at _ _ _ _ _ _ _ _ _ _ _ _ _ _ _ (reach_full _ RE) CU SK LS E X A) as [(-> & _ & w1 & _ & _ & A0)|[(_ & _ & _ & Q)|(_ & A0)]].
    + exact (NA _ _ A0).
    + exact (uses_nopop _ _ _ _ U Q).
    + exact (NA _ _ A0).
Qed.
Lemma failing_tick : forall j o, f = FApi j o -> uses G ch c o -> gone v -> hurt G ch s'.
Proof.
  intros j o QF U B. destruct (is_async o && (v =? ECANCELED) && casync (cof (dt s) c)) eqn:AS.
  - pose proof E as E0. rewrite QF in E0. cbn [hret] in E0. rewrite AS in E0. rewrite QF in SK. pose proof (api_at _ _ _ _ _ RE SK) as A0.
    destruct (at_tcall _ _ _ _ _ RE A0) as [(t & IT) NR].
    assert (RO : ret_obs c f v (d, fs, k) s = []).
    { rewrite QF. unfold ret_obs. destruct fs; [|reflexivity]. unfold coexit_async in E0. destruct (cleanups _); [|discriminate E0]. apply coexit_rest_nil in E0. destruct E0 as (z & ->). reflexivity. }
    eapply hu_left; [apply tick_tr_old, IT | exact U | |].
    + intros (c' & o' & v' & mm & tm & IN). unfold s', tickst, tick_tr in IN. cbn [tr] in IN. rewrite RO in IN. rewrite !in_app_iff in IN.
      destruct IN as [IN|[IN|[IN|IN]]]; [destruct k; cbn in IN; intuition discriminate | | destruct IN | apply NR; unfold returned; eauto 10].
      destruct (handler_obs_cases c fs k (dt s)) as [Q|(h & Q)]; rewrite Q in IN; cbn in IN; intuition discriminate.
    + intros x w' A. destruct (Z.eq_dec x c) as [->|NE].
      * destruct (at_own _ _ _ _ _ _ _ _ _ _ _ _ _ _ _ (reach_full _ RE) CU X A) as (NF & SH & st & EQ).
        pose proof (tick_noapi _ _ _ _ _ _ _ _ _ _ LS E) as NA. destruct (next_hasexf fs k) as (g & IN & EX); [intros r; eapply coexit_async_next; exact E0 | exact NA | exact NF|]. eapply exf_clash; eassumption.
      * pose proof (at_other _ _ _ _ _ _ _ _ _ _ _ _ _ _ _ _ (reach_full _ RE) CU NE X A) as A1. destruct (MutexLeak.at_fun _ _ _ _ _ _ _ _ RE A0 A1) as [-> _]. congruence.
  - pose proof E as E0. rewrite QF in E0. cbn [hret] in E0. rewrite AS in E0. injection E0 as E1 E2 E3.
    eapply (hu_failed _ _ _ j c o v (rbuf (cof (dt s) c)) (now s)); [|exact U | exact B]. unfold s', tickst. cbn [tr]. unfold tick_tr. rewrite !in_app_iff. right. right. left. rewrite QF, <- E2, <- E3. left. reflexivity.
Qed.
Lemma doomed_tick : forall f0 rest0, top (stk (sc s) c) = f0 :: rest0 -> f0 = FSendWait ch \/ f0 = FRecvWait ch -> canceled (cof (dt s) c) = true \/ deadlined (cof (dt s) c) = true -> hurt G ch s'.
Proof.
  intros f0 rest0 TP FF FL.
  destruct (chan_wait s ch c RE) as (g & w & j & p & r1 & TF & AC & GG & WW & _); [exists rest0; destruct FF as [-> | ->]; auto|].
  rewrite TP in TF. injection TF as <- <-. pose proof AC as (st & SX & SH). rewrite SK in SX.
  assert (U : uses G ch c p).
  { destruct (wait_op _ _ f0 ch SH) as [(m & dl & _ & ->)|[(m & dl & -> & ->)|(dl & _ & ->)]]; [destruct WW as [-> | ->]; cbn; auto | exact FF | reflexivity | | reflexivity].
    eapply GY; [exact AC | destruct WW as [-> | ->]; cbn; auto]. }
  destruct WW as [-> | ->]; cbn [app] in SX; injection SX as QF QR.
  - (* the wait itself ends *)
    assert (EE : exists w, fs = [] /\ k = CRet w /\ gone w).
    { pose proof E as E0. rewrite QF in E0. destruct FF as [-> | ->]; cbn [hret] in E0.
      - unfold send_end in E0. destruct (checkdl c MAXI (now s) _) as [w d1] eqn:CK. injection E0 as _ <- <-. exists w. split; [reflexivity|]. split; [reflexivity|].
        destruct (checkdl_eff _ _ _ _ _ _ CK) as (_ & _ & _ & _ & WV & _). destruct WV as [->|WV]; [|exact WV]. exfalso. apply checkdl_ok in CK. destruct CK as [K1 K2]. cbn in K1, K2. destruct FL; congruence.
      - unfold recv_end in E0. destruct (checkdl c MAXI (now s) _) as [w d1] eqn:CK. 
        destruct (checkdl_eff _ _ _ _ _ _ CK) as (_ & _ & _ & _ & WV & _). assert (WV' : gone w). { destruct WV as [->|WV]; [|exact WV]. exfalso. apply checkdl_ok in CK. destruct CK as [K1 K2]. cbn in K1, K2. destruct FL; congruence. }
        assert (NW : negb (w =? OK) = true) by (destruct WV' as [-> | ->]; reflexivity). rewrite NW in E0. injection E0 as _ <- <-. eauto. }
    destruct EE as (w & Ef & Ek & BW). pose proof X as X0. rewrite Ef, Ek in X0. cbn [exec app] in X0. injection X0 as X1 X2.
    eapply (hu_failing G ch s' c j p w st); [exact (eq_sym X2) | unfold s', tickst; cbn [sc]; rewrite <- X1; exact CU | unfold s', tickst; cbn [sc]; rewrite <- X1; cbn [set_stk stk]; rewrite zupd_eq; exact QR | exact U | exact BW].
  - pose proof E as E0. rewrite QF in E0. cbn [hret] in E0. injection E0 as E1 Ef Ek. pose proof X as X0. rewrite <- Ef, <- Ek in X0. cbn [exec app] in X0. injection X0 as X1 X2.
    eapply (hu_doomed G ch s' c f0); [unfold s', tickst; cbn [mode]; rewrite <- X2; discriminate | unfold s', tickst; cbn [sc]; rewrite <- X1; exact CU | unfold s', tickst; cbn [sc]; rewrite <- X1; cbn [set_stk stk]; rewrite zupd_eq, QR; destruct FF as [-> | ->]; reflexivity | exact FF|].
    unfold s', tickst. cbn [dt]. rewrite <- Ek. cbn [ctl_dat]. rewrite <- E1. unfold pause_end. rewrite upco_eq. destruct (_ <? _); exact FL.
Qed.
Lemma hurt_tick : hurt G ch s -> hurt G ch s'.
Proof.
  intros [j x p r w t IN U B|j x p tm IN U NR NA|y j p w st M CY SY U B|y g r1 NM CY TP FF FL].
  - eapply hu_failed; [apply tick_tr_old, IN | exact U | exact B].
  - eapply left_tick; eassumption.
  - assert (y = c) by congruence. subst y. assert (w = v) by congruence. subst w. rewrite SK in SY. injection SY as QF _. eapply failing_tick; eassumption.
  - assert (y = c) by congruence. subst y. eapply doomed_tick; eassumption.
Qed.
End Tick.

Lemma left_sc : forall s s' k o, stk (sc s') = stk (sc s) -> (forall y w, ~ at_call s y w k o) -> forall y w, ~ at_call s' y w k o.
Proof. intros s s' k o SK NA y w (st & SX & SH). apply (NA y w). exists st. rewrite <- SK. auto. Qed.
Lemma hurt_main : forall G ch s s', mode s = MMain -> stk (sc s') = stk (sc s) -> tr s' = tr s -> hurt G ch s -> hurt G ch s'.
Proof.
  intros G ch s s' M SK TR [j x p r w t IN U B|j x p tm IN U NR NA|y j p w st MR CY SY U B|y g r1 NM CY TP FF FL]; try congruence.
  - eapply hu_failed; [rewrite TR; exact IN | exact U | exact B].
  - eapply hu_left; [rewrite TR; exact IN | exact U | rewrite TR; exact NR | eapply left_sc; eassumption].
Qed.
Lemma hurt_mode : forall G ch s m, mode s = MUser -> m <> MMain -> hurt G ch s -> hurt G ch (set_mode m s).
Proof.
  intros G ch s m M NM [j x p r w t IN U B|j x p tm IN U NR NA|y j p w st MR CY SY U B|y g r1 _ CY TP FF FL]; try congruence.
  - eapply hu_failed; [exact IN | exact U | exact B].
  - eapply hu_left; [exact IN | exact U | exact NR | exact NA].
  - eapply hu_doomed; [exact NM | exact CY | exact TP | exact FF | exact FL].
Qed.
Lemma hurt_env : forall G ch s e, match e with ECall _ | ETick _ | EMain _ => False | _ => True end -> mode (step s e) = mode s -> hurt G ch s -> hurt G ch (step s e).
Proof.
  intros G ch s e H M HU. destruct (env_frame s e H) as (E1 & E2 & _).
  destruct HU as [j x p r w t IN U B|j x p tm IN U NR NA|y j p w st MR CY SY U B|y g r1 NM CY TP FF FL].
  - eapply hu_failed; [apply env_tr_old; [exact H | exact IN] | exact U | exact B].
  - eapply hu_left; [apply env_tr_old; [exact H | exact IN] | exact U | | eapply left_sc; eassumption].
    intros (y & q0 & v & mm & t0 & I0). apply NR. destruct (env_tr s e H) as [Q|(z & Q)]; rewrite Q in I0; [|destruct I0 as [I0|I0]; [discriminate I0|]]; unfold returned; eauto 10.
  - eapply hu_failing; rewrite ?M, ?E1, ?E2; eassumption.
  - eapply hu_doomed; rewrite ?M, ?E1, ?E2; try eassumption. rewrite (env_cof s e H). exact FL.
Qed.
