(** How a mutex can come to be locked with nobody holding it: only by a lock or rdlock
    call that ends with NECO_CANCELED or NECO_TIMEDOUT after it has been handed the
    mutex, or by a call that never returns. *)
From Coq Require Import List ZArith Bool Lia.
From Verif Require Import AATreeSpec AATreeHist Util Runtime SchedInv StepInv StackShape RuntimeSpec TraceInv Immediate Prims StaticInv Footprint QueueInv OwnInv WaitInv DeadlineInv CallInv SpecInv TraceStep Wake Awake AllInv PausedInv DldInv ResultInv JoinInv PairedInv TimeoutInv WaiterInv AtCall CancelInv CancelOrd CancelRes MutexSpec MutexW MutexEff MutexTok MutexRt MutexStep MutexInv.
Import ListNotations.
Local Open Scope Z_scope.

(** such a call is about to end so *)
Definition failing (s : state) (m : nat) : Prop :=
  exists c k o v st, mode s = MRet v /\ cur (sc s) = Some c /\ stk (sc s) c = FApi k o :: st /\ locking o m /\ (v = ECANCELED \/ v = ETIMEDOUT).
(** a call of [m] whose coroutine has left it without returning from it *)
Definition never (s : state) (m : nat) : Prop :=
  exists k c o tm, In (TCall k c o tm) (tr s) /\ uses o (QMu m) /\ ~ returned k (tr s) /\ forall x w, ~ at_call s x w k o.
(** a cond_wait that tries for ever to take [m] again *)
Definition stuck (s : state) (m : nat) : Prop :=
  (mlocked (mux (dt s) m) = true /\ mrl (mux (dt s) m) = 0 /\ forall x, tot (fun y => hold m y (tr s)) (ptok s m) x = 0) /\
  exists x w k cv dl ret, at_call s x w k (OpCvWait cv m dl) /\ In (FCvRelock m ret) w.
Definition spoiled (s : state) (m : nat) : Prop := failed m (tr s) \/ failing s m \/ never s m \/ stuck s m.

Lemma ret_call : forall s c o fs k j, returned j (call_tr s c o fs k) -> returned j (tr s).
Proof.
  intros s c o fs k j (c' & o' & v & mm & tm & IN). unfold call_tr in IN. rewrite !in_app_iff in IN.
  destruct IN as [IN|[IN|[IN|IN]]]; [destruct k; cbn in IN; intuition discriminate | | | unfold returned; eauto 10].
  - destruct (handler_obs_cases c fs k (dt s)) as [Q|(h & Q)]; rewrite Q in IN; cbn in IN; intuition discriminate.
  - destruct o; cbn in IN; intuition discriminate.
Qed.
Lemma ret_tick : forall s c v f d fs k j, returned j (tick_tr s c v f d fs k) -> returned j (tr s) \/ exists o, f = FApi j o.
Proof.
  intros s c v f d fs k j (c' & o' & v' & mm & tm & IN). unfold tick_tr in IN. rewrite !in_app_iff in IN.
  destruct IN as [IN|[IN|[IN|IN]]]; [destruct k; cbn in IN; intuition discriminate | | | left; unfold returned; eauto 10].
  - destruct (handler_obs_cases c fs k (dt s)) as [Q|(h & Q)]; rewrite Q in IN; cbn in IN; intuition discriminate.
  - destruct (ret_obs_cases c f v (d, fs, k) s) as [Q|(kk & oo & dd & QF & _ & Q)]; rewrite Q in IN; [destruct IN|]. destruct IN as [IN|[]]. injection IN as <- _ _ _ _ _. right. eauto.
Qed.
Lemma api_at : forall s c k o st, reach s -> stk (sc s) c = FApi k o :: st -> at_call s c [] k o.
Proof.
  intros s c k o st RE SK. assert (L : lstack (FApi k o :: st)) by (rewrite <- SK; apply live_lstack; [apply reach_full, RE | rewrite SK; discriminate]).
  exists st. split; [exact SK|]. inversion L as [s0 U EQ|k0 o0 w s0 U SH EQ|w s0 ES EQ].
  - inversion U.
  - destruct w as [|g w]; cbn in EQ; [injection EQ as -> -> _; exact SH|]. injection EQ as EQ1 EQ2. exfalso. eapply shape_noapi2; [exact SH | left; exact EQ1].
  - exfalso. destruct (exit_shape_hd _ ES) as (g & t & -> & H). cbn in EQ. injection EQ as -> _. exact H.
Qed.
Lemma at_tcall : forall s x w k o, reach s -> at_call s x w k o -> (exists tm, In (TCall k x o tm) (tr s)) /\ ~ returned k (tr s).
Proof.
  intros s x w k o RE (st & SK & _). assert (IN : In (FApi k o) (stk (sc s) x)) by (rewrite SK; apply in_or_app; right; left; reflexivity).
  split; [|eapply (ci_pend _ (reach_cinv _ RE)); exact IN]. destruct (ci_open _ (reach_cinv _ RE) _ _ _ IN) as (t & IT & _). eauto.
Qed.
Lemma at_fun : forall s x w k o x' w' o', reach s -> at_call s x w k o -> at_call s x' w' k o' -> x' = x /\ o' = o.
Proof.
  intros s x w k o x' w' o' RE A B. destruct (at_tcall _ _ _ _ _ RE A) as [(t & I1) _]. destruct (at_tcall _ _ _ _ _ RE B) as [(t' & I2) _].
  destruct (callnos_inj _ _ _ _ _ _ _ _ (ci_uc _ (reach_cinv _ RE)) I1 I2) as (-> & -> & _). auto.
Qed.
Lemma uses_nopop : forall o m, uses o (QMu m) -> o <> OpCleanupPop true.
Proof. intros o m U ->. exact U. Qed.

Lemma at_stay : forall s c k fs st' sch md d n nc T nw x w j p, full s -> cur (sc s) = Some c -> x <> c ->
  exec c k (set_stk (zupd (stk (sc s)) c (fs ++ st')) (sc s)) = (sch, md) ->
  at_call s x w j p -> at_call (mkst sch (ctl_dat c n k d) md nw nc T) x w j p.
Proof.
  intros s c k fs st' sch md d n nc T nw x w j p F CU NE X (st & SX & SH). exists st. split; [|exact SH]. cbn [sc].
  destruct (exec_stk_cases _ _ _ _ _ X (cur_notfresh _ _ F CU) x) as [[-> _]|[(_ & -> & (g & ->) & QQ)|(_ & QQ & NS)]]; [congruence | |].
  - exfalso. cbn [set_stk nextid] in SX. rewrite (stk_fresh _ F) in SX. destruct w; discriminate SX.
  - rewrite QQ. cbn [set_stk stk]. rewrite zupd_neq by exact NE. exact SX.
Qed.

Lemma at_move : forall s c k fs w kk o st sch md d n nc T nw, full s -> cur (sc s) = Some c -> (forall e, k <> CFinal e) ->
  exec c k (set_stk (zupd (stk (sc s)) c (fs ++ w ++ FApi kk o :: st)) (sc s)) = (sch, md) -> shape o (fs ++ w) ->
  at_call (mkst sch (ctl_dat c n k d) md nw nc T) c (fs ++ w) kk o.
Proof.
  intros s c k fs w kk o st sch md d n nc T nw F CU NF X SH. pose proof (cur_notfresh _ _ F CU) as NFR.
  destruct (exec_stk_cases _ _ _ _ _ X NFR c) as [[_ QQ]|[(N & _)|(N & _)]]; try congruence.
  exists st. split; [|exact SH]. cbn [sc]. rewrite QQ. cbn [set_stk stk]. rewrite zupd_eq, <- app_assoc. destruct k; try reflexivity. destruct (NF _ eq_refl).
Qed.

(** ** A mutex that is locked with nobody holding it stays so *)
Section Step.
Variables (dr rs : Prop) (c : Z) (M : murec) (h : Z -> held) (p : Z -> option bool).
Variables (M' : murec) (Q' : list node) (h' : Z -> held) (p' : Z -> option bool).
Definition orphan (M : murec) (h : Z -> held) (p : Z -> option bool) : Prop := mlocked M = true /\ mrl M = 0 /\ forall x, tot h p x = 0.
Lemma mstep_orphan : ~ rs -> orphan M h p -> mstep dr rs c M h p M' Q' h' p' -> orphan M' h' p'.
Proof.
  intros NR (L0 & R0 & Z0) ST.
  destruct ST as [L R QE OT W1 W2 EQ|rd OT L D W1 W2|L R L1 R1 OT W1 W2|R L1 R1 QE OT W2|rd P R L1 ND NP NC OH OP GP SG R1 W2|RS0 L1 R1 QE Z1].
  - split; [congruence|]. split; [congruence|]. intros x. destruct (Z.eq_dec x c) as [->|N].
    + pose proof (tot_pos h' p' c). specialize (Z0 c). unfold tot in *. lia.
    + unfold tot. destruct (OT x N) as [-> ->]. apply Z0.
  - exfalso. destruct rd; destruct D as [D1 _]; [destruct D1; congruence | congruence].
  - lia.
  - exfalso. pose proof (tot_pos h' p' c). specialize (Z0 c). lia.
  - exfalso. pose proof (tot_pos h' p' c). specialize (Z0 c). lia.
  - contradiction.
Qed.
(** a step that gives nothing away, or one that does *)
Lemma mstep_cases : mstep dr rs c M h p M' Q' h' p' ->
  mstep False rs c M h p M' Q' h' p' \/
  (dr /\ mlocked M' = mlocked M /\ mrl M' = mrl M /\ (forall x, x <> c -> h' x = h x /\ p' x = p x) /\ tot h' p' c < tot h p c /\ wW (h' c) (p' c) <= wW (h c) (p c)).
Proof.
  intros ST. destruct ST as [L R QE OT W1 W2 EQ|rd OT L D W1 W2|L R L1 R1 OT W1 W2|R L1 R1 QE OT W2|rd P R L1 ND NP NC OH OP GP SG R1 W2|RS0 L1 R1 QE Z1].
  - destruct (Z.eq_dec (wW (h' c) (p' c)) (wW (h c) (p c))) as [A|A]; [destruct (Z.eq_dec (wR (h' c) (p' c)) (wR (h c) (p c))) as [B|B]|].
    + left. apply ms_keep; auto.
    + right. destruct EQ as [EQ|EQ]; [|lia]. unfold tot. repeat split; try assumption; try (apply OT; assumption). lia.
    + right. destruct EQ as [EQ|EQ]; [|lia]. unfold tot. repeat split; try assumption; try (apply OT; assumption). lia.
  - left. eapply ms_take; eassumption.
  - left. apply ms_dec; assumption.
  - left. apply ms_free; assumption.
  - left. eapply ms_grant; eassumption.
  - left. apply ms_reset; assumption.
Qed.
End Step.

(** ** The steps *)
Section Call.
Variables (s : state) (c : Z) (o : op) (d : dat) (fs : list frame) (k : ctl) (sch : sched) (md : emode) (m : nat).
Hypothesis RE : reach s.
Hypothesis MU : mode s = MUser.
Hypothesis CU : cur (sc s) = Some c.
Hypothesis US : ustack (stk (sc s) c).
Hypothesis E : hcall c o (now s) (dt s) = (d, fs, k).
Hypothesis X : exec c k (set_stk (zupd (stk (sc s)) c (fs ++ FApi (ncalls s) o :: stk (sc s) c)) (sc s)) = (sch, md).
Let s' := mkst sch (ctl_dat c (nextid (sc s) + 1) k d) md (now s) (S (ncalls s)) (call_tr s c o fs k).
Lemma never_call : never s m -> never s' m.
Proof.
  intros (j & y & p & tm & IN & U & NR & NA). exists j, y, p, tm. split; [apply call_tr_old, IN|]. split; [exact U|]. split; [intros R; apply NR; eapply ret_call; exact R|].
  intros x w A. destruct (call_at _ _ _ _ _ _ _ _ _ _ _ _ (reach_full _ RE) CU US E X A) as [(-> & -> & -> & _)|[_ A0]]; [|exact (NA _ _ A0)].
  destruct (ci_lt _ (reach_cinv _ RE) _ _ _ _ IN) as [LT _]. lia.
Qed.
Lemma spoiled_call : tidy (call_tr s c o fs k) ->
  mstep False (resets o (QMu m)) c (mux (dt s) m) (fun x => hold m x (tr s)) (ptok s m) (mux (dt s') m) (q (dt s') (QMu m)) (fun x => hold m x (tr s')) (ptok s' m) ->
  spoiled s m -> spoiled s' m.
Proof.
  intros TI ST [(j & y & p & v & mm & tm & IN & H)|[(y & j & p & v & st & MR & _)|[N|(OR & x & w & j & cv & dl & ret & A & IW)]]].
  - left. exists j, y, p, v, mm, tm. split; [apply call_tr_old, IN | exact H].
  - congruence.
  - right. right. left. apply never_call, N.
  - right. right. right. assert (IN : In (FApi j (OpCvWait cv m dl)) (stk (sc s) x)) by (destruct A as (st & -> & _); apply in_or_app; right; left; reflexivity).
    split.
    + eapply mstep_orphan; [|exact OR | exact ST]. intros RS. eapply (tidy_now _ _ _ _ _ _ RE TI RS); [exact IN | right; reflexivity].
    + exists x, w, j, cv, dl, ret. split; [|exact IW]. eapply at_stay; [apply reach_full, RE | exact CU | | exact X | exact A].
      intros ->. destruct A as (st & SX & SH). eapply ustack_clash; eassumption.
Qed.
End Call.

Section Tick.
Variables (s : state) (c v : Z) (f : frame) (rest : list frame) (b : bool) (d : dat) (fs : list frame) (k : ctl) (sch : sched) (md : emode) (m : nat).
Hypothesis RE : reach s.
Hypothesis MU : mode s = MRet v.
Hypothesis CU : cur (sc s) = Some c.
Hypothesis SK : stk (sc s) c = f :: rest.
Hypothesis LS : lstack (f :: rest).
Hypothesis E : hret c f v b (now s) (dt s) = (d, fs, k).
Hypothesis X : exec c k (set_stk (zupd (stk (sc s)) c (fs ++ rest)) (sc s)) = (sch, md).
Let s' := mkst sch (ctl_dat c (nextid (sc s) + 1) k d) md (now s) (ncalls s) (tick_tr s c v f d fs k).
Lemma never_tick : never s m -> never s' m.
Proof.
  intros (j & y & p & tm & IN & U & NR & NA). exists j, y, p, tm. split; [apply tick_tr_old, IN|]. split; [exact U|]. split.
  - intros R. destruct (ret_tick _ _ _ _ _ _ _ _ R) as [R0|(p' & ->)]; [exact (NR R0)|]. pose proof (api_at _ _ _ _ _ RE SK) as A.
    destruct (at_tcall _ _ _ _ _ RE A) as [(t & IT) _]. destruct (callnos_inj _ _ _ _ _ _ _ _ (ci_uc _ (reach_cinv _ RE)) IN IT) as (_ & <- & _). exact (NA _ _ A).
  - intros x w A. destruct (tick_at _ _ _ _ _ _ _ _ _ _ _ _ _ _ _ (reach_full _ RE) CU SK LS E X A) as [(-> & _ & w1 & _ & _ & A0)|[(_ & _ & _ & Q)|(_ & A0)]].
    + exact (NA _ _ A0).
    + exact (uses_nopop _ _ U Q).
    + exact (NA _ _ A0).
Qed.
(** a coroutine that leaves the call it is in by exiting never returns from it *)
Lemma exit_never : forall w j o, at_call s c (f :: w) j o \/ (f = FApi j o) -> uses o (QMu m) -> (forall rest, next_ok rest fs k) -> ret_obs c f v (d, fs, k) s = [] -> never s' m.
Proof.
  intros w j o AT U NX RO.
  assert (A0 : exists w0, at_call s c w0 j o) by (destruct AT as [A|QF]; [eauto | exists []; rewrite QF in SK; eapply api_at; [exact RE | exact SK]]). destruct A0 as (w0 & A0).
  destruct (at_tcall _ _ _ _ _ RE A0) as [(t & IT) NR]. exists j, c, o, t. split; [apply tick_tr_old, IT|]. split; [exact U|]. split.
  - intros (c' & o' & v' & mm & tm & IN). unfold s', tick_tr in IN. cbn [tr] in IN. rewrite RO in IN. rewrite !in_app_iff in IN.
    destruct IN as [IN|[IN|[IN|IN]]]; [destruct k; cbn in IN; intuition discriminate | | destruct IN | apply NR; unfold returned; eauto 10].
    destruct (handler_obs_cases c fs k (dt s)) as [Q|(h & Q)]; rewrite Q in IN; cbn in IN; intuition discriminate.
  - intros x w' A. destruct (Z.eq_dec x c) as [->|NE].
    + destruct (at_own _ _ _ _ _ _ _ _ _ _ _ _ _ _ _ (reach_full _ RE) CU X A) as (NF & SH & st & EQ).
      pose proof (tick_noapi _ _ _ _ _ _ _ _ _ _ LS E) as NA. destruct (next_hasexf _ _ NX NA NF) as (g & IN & EX). eapply exf_clash; eassumption.
    + pose proof (at_other _ _ _ _ _ _ _ _ _ _ _ _ _ _ _ _ (reach_full _ RE) CU NE X A) as A1. destruct (at_fun _ _ _ _ _ _ _ _ RE A0 A1) as [-> _]. congruence.
Qed.
Lemma async_never : forall j o, f = FApi j o -> uses o (QMu m) -> is_async o && (v =? ECANCELED) && casync (cof (dt s) c) = true -> never s' m.
Proof.
  intros j o QF U AS. pose proof E as E0. rewrite QF in E0. cbn [hret] in E0. rewrite AS in E0.
  eapply (exit_never [] j o); [right; exact QF | exact U | intros r; eapply coexit_async_next; exact E0|].
  rewrite QF. unfold ret_obs. destruct fs; [|reflexivity]. unfold coexit_async in E0. destruct (cleanups _); [|discriminate E0]. apply coexit_rest_nil in E0. destruct E0 as (z & ->). reflexivity.
Qed.
Lemma failing_tick : failing s m -> spoiled s' m.
Proof.
  intros (y & j & o & w & st & MR & CY & SY & LO & BAD). assert (y = c) by congruence. subst y. assert (w = v) by congruence. subst w. rewrite SK in SY. injection SY as QF QR.
  destruct (is_async o && (v =? ECANCELED) && casync (cof (dt s) c)) eqn:AS.
  - right. right. left. eapply (async_never j o); [exact QF | | exact AS]. destruct o; try destruct LO; reflexivity.
  - left. pose proof E as E0. rewrite QF in E0. cbn [hret] in E0. rewrite AS in E0. injection E0 as E1 E2 E3.
    exists j, c, o, v, (rbuf (cof (dt s) c)), (now s). split; [|auto]. unfold s'. cbn [tr]. unfold tick_tr. rewrite !in_app_iff. right. right. left. rewrite QF, <- E2, <- E3. left. reflexivity.
Qed.
Variables (dr : Prop).
Hypothesis ST : mstep dr False c (mux (dt s) m) (fun x => hold m x (tr s)) (ptok s m) (mux (dt s') m) (q (dt s') (QMu m)) (fun x => hold m x (tr s')) (ptok s' m).
Lemma stuck_tick : stuck s m -> spoiled s' m.
Proof.
  intros (OR & x & w & j & cv & dl & ret & A & IW).
  assert (OR' : orphan (mux (dt s') m) (fun x => hold m x (tr s')) (ptok s' m)) by (eapply mstep_orphan; [exact (fun z => z) | exact OR | exact ST]).
  destruct (Z.eq_dec x c) as [->|NE].
  2:{ right. right. right. split; [exact OR'|]. exists x, w, j, cv, dl, ret. split; [|exact IW]. eapply at_stay; [apply reach_full, RE | exact CU | exact NE | exact X | exact A]. }
  assert (W : exists w1, w = f :: w1 /\ exists st, rest = w1 ++ FApi j (OpCvWait cv m dl) :: st).
  { destruct A as (st & SX & SH). rewrite SK in SX. destruct w as [|g w1]; [destruct IW|]. cbn in SX. injection SX as <- SX. eauto. }
  destruct W as (w1 & -> & st & QR). assert (SH : shape (OpCvWait cv m dl) (f :: w1)) by (destruct A as (? & _ & SH); exact SH).
  assert (NA : forall kk o, f <> FApi kk o) by (intros kk o ->; eapply shape_noapi2; [exact SH | left; reflexivity]).
  assert (RO : ret_obs c f v (d, fs, k) s = []) by (destruct f; try reflexivity; destruct (NA _ _ eq_refl)).
  destruct (shape_next _ _ _ _ _ _ _ _ _ _ _ SH E) as [CN|CN].
  2:{ right. right. left. eapply (exit_never w1 j (OpCvWait cv m dl)); [left; exact A | right; reflexivity | exact CN | exact RO]. }
  assert (NF : forall e, k <> CFinal e) by (intros e ->; exact CN). assert (SN : shape (OpCvWait cv m dl) (fs ++ w1)) by (destruct k; try exact CN; destruct CN).
  right. right. right. split; [exact OR'|]. rewrite QR in X. unfold s'. clear s' ST OR'.
  assert (IN : exists ret', In (FCvRelock m ret') (fs ++ w1)).
  { destruct IW as [QF|IW]; [|exists ret; apply in_or_app; right; exact IW]. pose proof E as E0. rewrite QF in E0. cbn [hret] in E0. destruct OR as (L0 & R0 & Z0).
    destruct (v =? OK) eqn:VO.
    - exfalso. specialize (Z0 c). unfold tot in Z0. pose proof (tick_before s c v f rest m MU CU SK) as PB. rewrite QF in PB. unfold tk in PB. cbn [top] in PB. rewrite Nat.eqb_refl, VO in PB. cbn [andb] in PB. rewrite PB in Z0.
      pose proof (wR_pos (hold m c (tr s)) (Some false)). unfold wW in Z0. destruct (hold m c (tr s)); lia.
    - destruct ((v =? ECANCELED) && casync (cof (dt s) c)).
      + exfalso. pose proof (tick_noapi _ _ _ _ _ _ _ _ _ _ LS E) as NAP. destruct (next_hasexf fs k) as (g & IG & EX); [intros r; eapply coexit_async_next; exact E0 | exact NAP | exact NF|].
        eapply shape_noexf; [exact SN | apply in_or_app; left; exact IG | exact EX].
      + assert (NI : ~ In (NCo c) (q (dt s) (QMu m))).
        { intros IQ. apply (reach_qloc _ RE) in IQ; [|exact Logic.I]. unfold matched in IQ. cbn [node_co] in IQ. rewrite SK, QF in IQ. exact IQ. }
        destruct (cv_relock_eff _ _ _ _ _ _ _ _ NI E0) as (RF & _).
        destruct RF as [L1 L2 R1 Q2 F1 K1|w L1 M2 Q2 F1 K1 NW|L1 M2 Q2 RL2 FK]; [congruence | rewrite F1; exists ret; left; reflexivity|].
        destruct FK as [[_ ->]|[_ ->]]; exists ret; cbn; auto. }
  destruct IN as (ret' & IN). exists c, (fs ++ w1), j, cv, dl, ret'. split; [|exact IN].
  eapply at_move; [apply reach_full, RE | exact CU | exact NF | exact X | exact SN].
Qed.
Lemma spoiled_tick : spoiled s m -> spoiled s' m.
Proof.
  intros [(j & y & p & w & mm & tm & IN & H)|[F|[N|S0]]].
  - left. exists j, y, p, w, mm, tm. split; [apply tick_tr_old, IN | exact H].
  - apply failing_tick, F.
  - right. right. left. apply never_tick, N.
  - apply stuck_tick, S0.
Qed.
Hypothesis OKM : ok (mux (dt s) m) (q (dt s) (QMu m)) (fun x => hold m x (tr s)) (ptok s m).
(** a hand-over thrown away *)
Lemma drop_tick : f = FLock m -> canceled (cof (dt s) c) = true \/ deadlined (cof (dt s) c) = true ->
  mlocked (mux (dt s') m) = mlocked (mux (dt s) m) -> mrl (mux (dt s') m) = mrl (mux (dt s) m) ->
  (forall x, x <> c -> hold m x (tr s') = hold m x (tr s) /\ ptok s' m x = ptok s m x) ->
  tot (fun x => hold m x (tr s')) (ptok s' m) c < tot (fun x => hold m x (tr s)) (ptok s m) c -> wW (hold m c (tr s')) (ptok s' m c) <= wW (hold m c (tr s)) (ptok s m c) -> spoiled s' m.
Proof.
  intros QF FL ML MR OT LT WW. pose proof E as E0. rewrite QF in E0. cbn [hret] in E0. unfold lock_end in E0.
  destruct (checkdl c MAXI (now s) _) as [w d1] eqn:CK. injection E0 as E1 E2 E3.
  destruct (checkdl_eff _ _ _ _ _ _ CK) as (_ & _ & _ & _ & WV & _).
  assert (BAD : w = ECANCELED \/ w = ETIMEDOUT).
  { destruct WV as [->|[WV|WV]]; auto. exfalso. apply checkdl_ok in CK. destruct CK as [K1 K2]. rewrite upco_eq in K1, K2. cbn in K1, K2. destruct FL; congruence. }
  assert (SS : cur sch = Some c /\ md = MRet w /\ stk sch c = rest).
  { pose proof X as X0. rewrite <- E3, <- E2 in X0. cbn [exec] in X0. injection X0 as <- <-. cbn. rewrite zupd_eq. auto. }
  destruct SS as (CU' & MD & SK').
  pose proof LS as L0. rewrite QF in L0. destruct (lock_rest _ _ L0) as (kk & st & [(dl & QR)|[(dl & QR)|(cv & dl & ret & QR)]]).
  - right. left. exists c, kk, (OpLock m dl), w, st. unfold s'. cbn [mode sc]. rewrite SK', QR. repeat split; auto.
  - right. left. exists c, kk, (OpRdLock m dl), w, st. unfold s'. cbn [mode sc]. rewrite SK', QR. repeat split; auto.
  - assert (NA : forall j p, f <> FApi j p) by (rewrite QF; discriminate).
    assert (HC : hold m c (tr s') = hold m c (tr s)).
    { unfold s'. cbn [tr]. rewrite hold_tick. destruct (ret_obs_cases c f v (d, fs, k) s) as [->|(j & p & e & QQ & _)]; [reflexivity | destruct (NA j p QQ)]. }
    assert (PB : ptok s m c = None \/ ptok s m c = Some false).
    { rewrite (tick_before s c v f rest m MU CU SK), QF. unfold tk. cbn [top]. rewrite Nat.eqb_refl. destruct (memn _ _); cbn; auto. right. f_equal.
      rewrite (reach_rlinv _ RE c m rest) by (rewrite SK, QF; reflexivity). rewrite QR. reflexivity. }
    destruct PB as [PB|PB].
    { exfalso. unfold tot in LT. rewrite HC, PB in LT. pose proof (wW_pos (hold m c (tr s)) None). unfold wW, wR in LT. destruct (ptok s' m c) as [[]|]; lia. }
    assert (W1 : 1 <= wW (hold m c (tr s)) (ptok s m c)) by (rewrite PB; unfold wW; destruct (hold m c (tr s)); lia).
    assert (R0 : mrl (mux (dt s) m) = 0) by (destruct (Z.eq_dec (mrl (mux (dt s) m)) 0) as [R|R]; [exact R|]; pose proof (ok_w _ _ _ _ OKM R c) as H; cbn beta in H; lia).
    assert (LK : mlocked (mux (dt s) m) = true) by (destruct (mlocked (mux (dt s) m)) eqn:L; [reflexivity|]; pose proof (ok_zero _ _ _ _ OKM L c) as H; unfold tot in H; pose proof (wR_pos (hold m c (tr s)) (ptok s m c)); lia).
    assert (C1 : cap (mux (dt s) m) = 1) by (unfold cap; rewrite LK, R0; reflexivity).
    pose proof (ok_b _ _ _ _ OKM) as B. rewrite C1 in B.
    right. right. right. split.
    + split; [congruence|]. split; [congruence|]. intros x. destruct (Z.eq_dec x c) as [->|N].
      * pose proof (tot_pos (fun y => hold m y (tr s')) (ptok s' m) c). pose proof (bnd_one _ _ c B). lia.
      * unfold tot. destruct (OT x N) as [-> ->]. specialize (B [c; x] ltac:(constructor; [intros [?|[]]; congruence | constructor; [intros [] | constructor]])). cbn [sumf] in B.
        pose proof (tot_pos (fun y => hold m y (tr s)) (ptok s m) x) as P0. assert (1 <= tot (fun y => hold m y (tr s)) (ptok s m) c) by (unfold tot; pose proof (wR_pos (hold m c (tr s)) (ptok s m c)); lia).
        unfold tot in B, P0, H at 1. cbn beta in B, P0. unfold tot in H. lia.
    + exists c, [FCvRelock m ret], kk, cv, dl, ret. split; [|left; reflexivity]. exists st. unfold s'. cbn [sc]. rewrite SK', QR. split; [reflexivity|].
      eauto with shp.
Qed.
End Tick.

(** ** All steps *)
Lemma never_sc : forall s s' m, stk (sc s') = stk (sc s) -> (forall z, In z (tr s) -> In z (tr s')) -> (forall j, returned j (tr s') -> returned j (tr s)) -> never s m -> never s' m.
Proof.
  intros s s' m SK TR RT (j & y & p & tm & IN & U & NR & NA). exists j, y, p, tm. split; [apply TR, IN|]. split; [exact U|]. split; [intros R; apply NR, RT, R|].
  intros x w (st & SX & SH). apply (NA x w). exists st. rewrite <- SK. auto.
Qed.
Theorem reach_spoiled : forall s m, reach s -> tidy (tr s) -> proper (tr s) -> ~ over (mode s) -> mlow s m \/ spoiled s m.
Proof.
  intros s m RE. revert s RE. apply (rrun_preserves (fun s => tidy (tr s) -> proper (tr s) -> ~ over (mode s) -> mlow s m \/ spoiled s m)).
  - intros s c o d fs k sch md RE I M CU U NR E X T P NO. cbn [tr] in T, P. pose proof (tidy_call _ _ _ _ _ T) as T1. pose proof (proj1 (proper_call _ _ _ _ _ P)) as P1.
    pose proof (reach_mok _ RE T1 P1 m) as K. assert (NO1 : ~ over (mode s)) by (rewrite M; exact (fun H => H)).
    assert (ST : mstep False (resets o (QMu m)) c (mux (dt s) m) (fun x => hold m x (tr s)) (ptok s m)
      (mux (ctl_dat c (nextid (sc s) + 1) k d) m) (q (ctl_dat c (nextid (sc s) + 1) k d) (QMu m)) (fun x => hold m x (call_tr s c o fs k))
      (ptok (mkst sch (ctl_dat c (nextid (sc s) + 1) k d) md (now s) (S (ncalls s)) (call_tr s c o fs k)) m)) by (eapply call_mstep; eassumption).
    destruct (I T1 P1 NO1) as [L|B]; [left | right].
    + eapply (mstep_lows False); [exact (fun H => H) | exact K | exact L | exact ST].
    + eapply spoiled_call; eassumption.
  - intros s c v f rest b d fs k sch md RE I M CU SK L E X T P NO. cbn [tr] in T, P. pose proof (tidy_tick _ _ _ _ _ _ _ T) as T1. pose proof (proper_tick _ _ _ _ _ _ _ P) as P1.
    pose proof (reach_mok _ RE T1 P1 m) as K. assert (NO1 : ~ over (mode s)) by (rewrite M; exact (fun H => H)).
    pose proof (tick_mstep s c v f rest b d fs k sch md m RE M CU SK L E X K) as ST. 
    destruct (I T1 P1 NO1) as [LW|B]; [|right; eapply spoiled_tick; eassumption].
    destruct (mstep_cases _ _ _ _ _ _ _ _ _ _ ST) as [ST2|(DR & ML & MR & OT & LT & WW)]; [left; eapply mstep_lows; [|exact K | exact LW | exact ST2]; exact (fun H => H)|].
    right. destruct DR as [(kk & cv & dl & QF & QV & AS)|[QF FL]].
    + right. right. left. eapply async_never; try eassumption; [right; reflexivity|]. rewrite QV, AS. reflexivity.
    + eapply drop_tick; eassumption.
  - intros s d ws sch md ios RE I M A K X T P NO. cbn [tr] in *.
    assert (NO1 : ~ over (mode s)) by (rewrite M; exact (fun H => H)).
    destruct (main_same _ _ _ _ _ _ RE M K X) as [MX QP]. destruct (QP m) as [QQ PP].
    apply sco_switch_frame in X. destruct X as (X1 & _). destruct (wakes_frame ws (sc s)) as (W1 & _).
    destruct (I T P NO1) as [L|[F|[(y & j & p & v & st & MR & _)|[N|(OR & x & w & j & cv & dl & ret & AT & IW)]]]].
    + left. unfold mlow in *. cbn [tr]. rewrite MX. intros L0. eapply low_ext; [apply L; exact L0|]. intros x. unfold tot. rewrite PP. reflexivity.
    + right. left. exact F.
    + congruence.
    + right. right. right. left. eapply (never_sc s); [cbn [sc]; congruence | auto | auto | exact N].
    + right. right. right. right. split.
      * rewrite MX. destruct OR as (O1 & O2 & O3). split; [exact O1|]. split; [exact O2|]. intros y. specialize (O3 y). unfold tot in *. rewrite PP. exact O3.
      * exists x, w, j, cv, dl, ret. split; [|exact IW]. destruct AT as (st & SX & SH). exists st. cbn [sc]. rewrite X1, W1. auto.
  - intros s md RE I HM T P NO. cbn [tr mode set_mode] in *.
    assert (HM2 : md = MRet 0 /\ mode s = MUser).
    { destruct HM as [H|[(-> & _)|[(n & ->)| ->]]]; [exact H | destruct (NO Logic.I)..]. }
    assert (NO1 : ~ over (mode s)) by (destruct HM2 as [_ ->]; exact (fun H => H)).
    assert (PP : forall x, ptok (set_mode md s) m x = ptok s m x) by (intros x; destruct (mode_ptok s md RE HM m x) as [->|[O _]]; [reflexivity | contradiction]).
    destruct (I T P NO1) as [L|[F|[(y & j & p & v & st & MR & _)|[N|(OR & x & w & j & cv & dl & ret & AT & IW)]]]].
    + left. unfold mlow in *. cbn [tr dt set_mode] in *. intros L0. eapply low_ext; [apply L; exact L0|]. intros x. unfold tot. rewrite PP. reflexivity.
    + right. left. exact F.
    + destruct HM2. congruence.
    + right. right. right. left. exact N.
    + right. right. right. right. split; [|exists x, w, j, cv, dl, ret; auto].
      destruct OR as (O1 & O2 & O3). split; [exact O1|]. split; [exact O2|]. intros y. specialize (O3 y). unfold tot in *. rewrite PP. exact O3.
  - intros s e RE I H M T P NO. apply tidy_env in T; [|exact H]. apply proper_env in P; [|exact H]. rewrite M in NO.
    destruct (env_same s e RE H M m) as (A & B & C & D). destruct (env_frame s e H) as (E1 & E2 & _).
    destruct (I T P NO) as [L|[F|[(y & j & p & v & st & MR & CY & SY & Z)|[N|(OR & x & w & j & cv & dl & ret & AT & IW)]]]].
    + left. unfold mlow, lows, cap in *. rewrite A, B. intros L0. eapply low_ext; [apply L; exact L0|]. intros x. unfold tot. destruct (D x) as [-> ->]. reflexivity.
    + right. left. destruct F as (j & y & p & v & mm & tm & IN & Z). exists j, y, p, v, mm, tm. split; [apply env_tr_old; assumption | exact Z].
    + right. right. left. exists y, j, p, v, st. rewrite M, E1, E2. auto.
    + right. right. right. left. eapply (never_sc s); [exact E1 | intros z; apply env_tr_old, H | | exact N].
      intros j (y & p & v & mm & tm & IN). destruct (env_tr s e H) as [Q|(z & Q)]; rewrite Q in IN; [|destruct IN as [IN|IN]; [discriminate IN|]]; unfold returned; eauto 10.
    + right. right. right. right. split.
      * destruct OR as (O1 & O2 & O3). split; [congruence|]. split; [congruence|]. intros y. specialize (O3 y). unfold tot in *. destruct (D y) as [-> ->]. exact O3.
      * exists x, w, j, cv, dl, ret. split; [|exact IW]. destruct AT as (st & SX & SH). exists st. rewrite E1. auto.
  - intros g O T P NO. left. intros L0. cbn in L0. discriminate L0.
Qed.
