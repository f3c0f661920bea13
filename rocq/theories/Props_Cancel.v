(** C17 - C19: cancellation and cleanup handlers.
    [reach s]: [s] is the state after some history of a freshly started runtime.
    [preach s]: the same, for histories in which coroutine functions have popped the
    cleanup handlers they pushed by the time they return.
    [cancel_state x dflt t], [handlers x t] (CancelSpec.v): the cancel state that
    coroutine [x] has chosen, and its handlers that are pushed and neither popped nor
    run, read off the trace [t] (newest entry first). *)
From Coq Require Import List ZArith Bool Lia.
From Verif Require Import Util Runtime SchedInv StepInv StackShape RuntimeSpec TraceInv Immediate Prims StaticInv Footprint QueueInv OwnInv WaitInv DeadlineInv CallInv SpecInv TraceStep Wake Awake AllInv PausedInv DldInv ResultInv JoinInv PairedInv TimeoutInv WaiterInv BlockSpec JoinWake OneStep WorkInv CancelInv CancelRes CancelFate CancelWake CancelSpec CancelSt CancelKeep HandlerInv Stuck Scripts ScriptsP.
Import ListNotations.
Local Open Scope Z_scope.

(** the default cancel state of the runtime *)
Definition enabled (s : state) (x : Z) : Prop := cancel_state x (env_enabled (dt s)) (tr s) = true.
Definition disabled (s : state) (x : Z) : Prop := cancel_state x (env_enabled (dt s)) (tr s) = false.
Lemma en_rec : forall s x, reach s -> In x (started (tr s)) -> cenabled (cof (dt s) x) = cancel_state x (env_enabled (dt s)) (tr s).
Proof. intros s x RE XS. pose proof (reach_cst _ RE x XS) as H. unfold ac in H. congruence. Qed.
Lemma stk_started : forall s x, reach s -> stk (sc s) x <> [] -> In x (started (tr s)).
Proof. intros s x RE N. apply (ti_alive _ (reach_tinv _ RE)) in N. apply N. Qed.
Lemma paused_stk : forall s x, reach s -> In x (paused (sc s)) -> stk (sc s) x <> [].
Proof. intros s x RE I. destruct (reach_full _ RE) as [[SI _] _]. apply (si_alive _ SI). unfold everyone, parked. rewrite !in_app_iff. auto. Qed.

(* ------------------------------------------------------------------------ *)
(** * C17 *)
Lemma fated_run : forall es s x k o, reach s -> fated x k o s -> fated x k o (run s es).
Proof.
  induction es as [|e es IH]; intros s x k o RE F; [exact F|]. cbn [run fold_left]. apply (IH (step s e)); [apply reach_step, RE | apply fated_step; assumption].
Qed.
(** A coroutine that is blocked in a call (other than neco_cancel and neco_work, and not
    merely re-acquiring the mutex at the end of a condition wait) and has cancellation
    enabled. When neco_cancel of it is called, either that neco_cancel reports a failure
    of its own, or the coroutine is made runnable and its call can only report
    NECO_CANCELED, whatever happens from then on (or never returns, as when the
    coroutine is terminated). *)
Theorem C17_cancel_blocked : forall s c x k o dl, reach s -> mode s = MUser -> cur (sc s) = Some c -> blocked s x k o -> enabled s x ->
  (forall id dl, o <> OpCancel id dl) -> (forall b, o <> OpWork b) -> ~ relocking s x ->
  let s' := step s (ECall (OpCancel x dl)) in
  (exists v, mode s' = MRet v /\ cur (sc s') = Some c /\ (v = ECANCELED \/ v = ETIMEDOUT \/ v = ENOTFOUND /\ ~ In x (all (dt s)))) \/
  (runnable s' x /\ forall es v m t, In (TRet k x o v m t) (tr (run s' es)) -> v = ECANCELED).
Proof.
  intros s c x k o dl RE M CU B EN NC NW NR s'. pose proof (reach_full _ RE) as FU.
  pose proof (paused_stk _ _ RE (proj1 B)) as SX. pose proof (stk_started _ _ RE SX) as XS. pose proof (en_rec _ _ RE XS) as CE. rewrite EN in CE.
  assert (NE : x <> c). { intros ->. apply (cur_notpaused _ _ FU CU). apply B. }
  destruct (hcall c (OpCancel x dl) (now s) (dt s)) as [[d fs] kk] eqn:E.
  destruct (exec c kk (set_stk (zupd (stk (sc s)) c (fs ++ FApi (ncalls s) (OpCancel x dl) :: stk (sc s) c)) (sc s))) as [sch md] eqn:X.
  assert (SQ : s' = mkst sch (ctl_dat c (nextid (sc s) + 1) kk d) md (now s) (S (ncalls s)) (call_tr s c (OpCancel x dl) fs kk)) by (apply step_call_eq; auto; discriminate).
  assert (RE' : reach s') by (apply reach_step, RE). pose proof E as E0. cbn [hcall] in E0. unfold do_cancel in E0.
  destruct (mem x (all (dt s))) eqn:ME; cbn [negb] in E0.
  2:{ inj E0. cbn [exec] in X. inj X. left. exists ENOTFOUND. rewrite SQ. cbn. split; [reflexivity|]. split; [exact CU|]. right; right. split; [reflexivity|].
      intros H. apply mem_In in H. congruence. }
  destruct (checkdl c dl (now s) (dt s)) as [v d1] eqn:CD.
  assert (V : v = OK \/ v = ECANCELED \/ v = ETIMEDOUT).
  { unfold checkdl in CD. destruct (_ && _ && _); [inj CD; auto|]. destruct (canceled (cof (dt s) c)); [inj CD; auto|].
    match type of CD with ((if ?b then _ else _), _) = _ => destruct b end; inj CD; auto. }
  destruct (Z.eqb_spec v OK) as [->|VN]; cbn [negb] in E0.
  2:{ inj E0. cbn [exec] in X. inj X. left. exists v. rewrite SQ. cbn. split; [reflexivity|]. split; [exact CU|]. destruct V as [V|[V|V]]; [contradiction | auto | auto]. }
  assert (CE1 : cenabled (cof d1 x) = true).
  { unfold checkdl in CD. destruct (_ && _ && _); inj CD; [exact CE | rewrite upco_neq by exact NE; exact CE]. }
  rewrite CE1 in E0. inj E0. right.
  assert (PX : mem x (paused (sc s)) = true) by (apply mem_In; apply B).
  assert (SX' : stk (sc s') x = stk (sc s) x).
  { destruct (exec_stk_cases _ _ _ _ _ X (cur_notfresh _ _ FU CU) x) as [[? _]|[(_ & _ & (g & Q) & _)|(_ & Q & _)]]; [contradiction | discriminate Q|].
    rewrite SQ. cbn [sc]. rewrite Q. cbn. apply zupd_neq, NE. }
  assert (NP : ~ In x (paused (sc s'))).
  { rewrite SQ. cbn [sc]. cbn [exec] in X. cbn [paused set_stk] in X. rewrite PX in X. apply sco_switch_frame in X. destruct X as (_ & _ & XP & _).
    rewrite XP. cbn. unfold wake. cbn [paused set_stk]. rewrite PX. cbn. intros H. apply remove1_In in H. destruct H as [_ H]. congruence. }
  split; [apply notpaused_runnable; [exact RE' | rewrite SX'; exact SX | exact NP]|].
  intros es v m t IN. assert (F : fated x k o s').
  { split.
    - intros v0 m0 t0 IN0. exfalso. rewrite SQ in IN0. cbn [tr] in IN0. apply call_tr_rets in IN0. destruct (blocked_call _ _ _ _ RE B) as [_ N]. apply N. do 5 eexists. exact IN0.
    - left. destruct (blocked_frames _ _ _ _ RE B) as (w & st & SK & BF). destruct BF as [f o WF HO|v0 m0 d2 ret|b].
      + eapply (ft_wait x k o s' f st).
        * rewrite SX', SK. reflexivity.
        * unfold final_wait. destruct f; try exact WF. exfalso. cbn in HO. destruct o; try contradiction. eapply NC; reflexivity.
        * rewrite SQ. cbn [dt ctl_dat]. rewrite upco_eq. reflexivity.
      + exfalso. apply NR. do 3 eexists. exact SK.
      + exfalso. eapply NW; reflexivity. }
  apply (fated_run es) in F; [|exact RE']. eapply (proj1 F). exact IN.
Qed.
(** When all coroutine functions pop the handlers they push, that neco_cancel never
    answers NECO_NOTFOUND. *)
Theorem C17_blocked_found : forall s c x k o dl, preach s -> mode s = MUser -> cur (sc s) = Some c -> blocked s x k o ->
  mode (step s (ECall (OpCancel x dl))) <> MRet ENOTFOUND.
Proof.
  intros s c x k o dl PR M CU B. pose proof (preach_reach _ PR) as RE. pose proof (preach_dy _ PR) as DY.
  destruct (blocked_frames _ _ _ _ RE B) as (w & st & SK & BF).
  assert (IA : In x (all (dt s))).
  { apply (dy_in _ DY). split; [apply paused_stk; [exact RE | apply B]|].
    destruct (dy_ex _ DY x) as [N|(w2 & base & Q & ES)]; [exact N|]. exfalso. destruct (exit_shape_hd _ ES) as (g & r & -> & H). rewrite SK in Q.
    destruct BF; cbn in Q; injection Q as <- _; exact H. }
  destruct (hcall c (OpCancel x dl) (now s) (dt s)) as [[d fs] kk] eqn:E.
  destruct (exec c kk (set_stk (zupd (stk (sc s)) c (fs ++ FApi (ncalls s) (OpCancel x dl) :: stk (sc s) c)) (sc s))) as [sch md] eqn:X.
  assert (NR : OpCancel x dl <> OpReturn) by discriminate.
  rewrite (step_call_eq _ _ _ _ _ _ _ _ M CU NR E X). pose proof E as E0. cbn [hcall] in E0. unfold do_cancel in E0. rewrite (proj2 (mem_In _ _) IA) in E0. cbn [negb] in E0.
  destruct (checkdl c dl (now s) (dt s)) as [v d1] eqn:CD.
  assert (V : v <> ENOTFOUND).
  { unfold checkdl in CD. destruct (_ && _ && _); [inj CD; discriminate|]. destruct (canceled (cof (dt s) c)); [inj CD; discriminate|].
    match type of CD with ((if ?b then _ else _), _) = _ => destruct b end; inj CD; discriminate. }
  cbn [mode]. intros ->. destruct (exec_mode _ _ _ _ _ ENOTFOUND X CU eq_refl) as [[Q _]|Q]; [|discriminate Q]. subst kk.
  destruct (negb (v =? OK)); [inj E0; congruence|]. destruct (cenabled (cof d1 x)); [discriminate E0|]. apply copause_cases in E0.
  destruct E0 as [(Q & _)|(Q & _)]; discriminate Q.
Qed.
(** A coroutine with a pending cancellation is never blocked, except in neco_work: its
    next blocking operation does not wait. *)
Theorem C17_pending_never_waits : forall s x k o, reach s -> canceled (cof (dt s) x) = true -> blocked s x k o -> exists b, o = OpWork b.
Proof.
  intros s x k o RE C B. destruct (blocked_frames _ _ _ _ RE B) as (w & st & SK & BF).
  destruct (reach_blocked _ RE x (proj1 B)) as [(f & r & _ & _ & H & _)|(r & Q)]; [congruence|]. rewrite SK in Q. destruct BF as [f o WF HO|v m dl ret|b]; [discriminate Q | discriminate Q | eauto].
Qed.
(** It stays pending in every step, until the library reports NECO_CANCELED to that
    coroutine - except while a condition wait re-acquires its mutex. *)
Theorem C17_pending_kept_partial : forall s e x, reach s -> In x (started (tr s)) -> canceled (cof (dt s) x) = true ->
  canceled (cof (dt (step s e)) x) = true \/ (cur (sc (step s e)) = Some x /\ mode (step s e) = MRet ECANCELED) \/
  (exists w m r st, stk (sc (step s e)) x = w ++ FCvRelock m r :: st).
Proof. exact cancel_kept. Qed.
(** A cancellation becomes pending for a coroutine that has been started only by a
    neco_cancel of that very coroutine, by a running coroutine, and only if it has
    cancellation enabled. *)
Theorem C17_only_target : forall s e x, reach s -> In x (started (tr s)) -> canceled (cof (dt s) x) = false -> canceled (cof (dt (step s e)) x) = true ->
  enabled s x /\ exists c dl k t, cur (sc s) = Some c /\ In (TCall k c (OpCancel x dl) t) (tr (step s e)).
Proof.
  intros s e x RE XS C0 C1. pose proof (en_rec _ _ RE XS) as CE. unfold enabled.
  assert (XN : x <> nextid (sc s) + 1) by (apply (ti_ids _ (reach_tinv _ RE)) in XS; lia).
  revert C1. apply (gstep_preserves (fun z => full z /\ z = s) (fun z => canceled (cof (dt z) x) = true -> cancel_state x (env_enabled (dt s)) (tr s) = true /\
    exists c dl k t, cur (sc s) = Some c /\ In (TCall k c (OpCancel x dl) t) (tr z))); try (intros z [F _]; exact F); [| | | | |split; [apply reach_full, RE | reflexivity] | intros; congruence].
  - intros z c o d fs k sch md [_ ->] _ M CU U NR E X C1. cbn [dt tr] in *. rewrite ctl_canceled in C1 by exact XN.
    destruct (hcall_cn _ _ _ _ _ _ _ _ E C1) as [H|((dl & ->) & H)]; [congruence|]. split; [congruence|]. exists c, dl, (ncalls s), (now s). split; [exact CU|].
    apply in_or_app. right. apply in_or_app. right. left. reflexivity.
  - intros z c v f rest b d fs k sch md [_ ->] _ M CU SK L E X C1. cbn [dt tr] in *. rewrite ctl_canceled in C1 by exact XN.
    destruct (hret_cn _ _ _ _ _ _ _ _ _ _ E C1) as [H|((dl & ->) & H)]; [congruence|]. split; [congruence|].
    destruct (cancel_open _ _ _ _ _ RE SK) as (k0 & t & IN). exists c, dl, k0, t. split; [exact CU|].
    apply in_or_app. right. apply in_or_app. right. apply in_or_app. right. exact IN.
  - intros z d ws sch md ios [_ ->] _ M A K X C1. cbn [dt set_sc set_dt] in C1. pose proof (mprims_flags _ _ x (mp_main _ _ _ _ _ _ _ K)) as H. exfalso. intuition congruence.
  - intros z m [_ ->] _ _ C1. cbn [dt set_mode] in C1. congruence.
  - intros z e0 [_ ->] _ H _ C1. rewrite (env_cof s e0 H) in C1. congruence.
Qed.
(** NECO_CANCELED is reported to a coroutine only after somebody has called neco_cancel
    for it - or for a coroutine that has already exited, whose record it may have been
    given. *)
Theorem C17_needs_cancel_partial : forall s, reach s -> forall l1 l2 k c o m t, tr s = l1 ++ TRet k c o ECANCELED m t :: l2 -> cancelable o = true ->
  exists k' c' id dl tm, In (TCall k' c' (OpCancel id dl) tm) l2 /\ (id = c \/ In id (exited l2)).
Proof. exact canceled_result. Qed.
(** The exception is real: coroutine 2 is canceled and returns without blocking again;
    coroutine 3, which nobody cancels, is told NECO_CANCELED by its first sleep. *)
Definition ex17i : state := script [ECall OpStart; ECall OpYield; ECall (OpCancel 2 MAXI); ECall OpReturn; ECall OpStart; ECall (OpSleep 5000)].
Theorem C17_uncanceled_refuted : exists s c k dl m t, reach s /\ In (TRet k c (OpSleep dl) ECANCELED m t) (tr s) /\
  forall k' c' dl' tm, ~ In (TCall k' c' (OpCancel c dl') tm) (tr s).
Proof.
  exists ex17i, 3, 4%nat, 5000, 0, 1000. split; [apply script_reach|]. split; [vm_compute; tauto|]. intros k' c' dl' tm I.
  assert (F : forallb (fun z => match z with TCall _ _ (OpCancel id _) _ => negb (id =? 3) | _ => true end) (tr ex17i) = true) by (vm_compute; reflexivity).
  rewrite forallb_forall in F. apply F in I. discriminate I.
Qed.
(** A cancellation that arrives while a condition wait re-acquires its mutex is lost:
    neco_cancel of coroutine 2 has returned NECO_OK, coroutine 2 is never told, and it
    blocks in its next operation. *)
Definition ex17s : state := script [ECall OpStart; ECall (OpMuInit 0); ECall (OpLock 0 MAXI); ECall (OpCvWait 0 0 MAXI); ECall (OpLock 0 MAXI); ECall OpStart; ECall (OpCvSignal 0); ECall OpYield;
  ECall (OpCancel 2 MAXI); ECall OpYield; ECall OpYield; ECall (OpUnlock 0); ECall OpYield; ECall OpYield; ECall (OpSuspend MAXI)].
Theorem C17_relock_swallows_refuted : exists s k c x m t, reach s /\ In (TRet k c (OpCancel x MAXI) OK m t) (tr s) /\ cancel_type x (env_async (dt s)) (tr s) = false /\
  (forall j o v m' t', In (TRet j x o v m' t') (tr s) -> v <> ECANCELED) /\ exists j, blocked s x j (OpSuspend MAXI) /\ (k < j)%nat.
Proof.
  exists ex17s, 8%nat, 3, 2, 0, 1000. split; [apply script_reach|]. split; [vm_compute; tauto|]. split; [vm_compute; reflexivity|]. split.
  - intros j o v m' t' I ->. assert (F : forallb (fun z => match z with TRet _ c _ v _ _ => negb ((c =? 2) && (v =? ECANCELED)) | _ => true end) (tr ex17s) = true) by (vm_compute; reflexivity).
    rewrite forallb_forall in F. apply F in I. discriminate I.
  - exists 14%nat. split; [|lia]. apply blockedb_ok. split; [vm_compute; auto|]. exists 2%nat. eexists. split; vm_compute; reflexivity.
Qed.

(** Non-vacuity: coroutine 2 is blocked in a receive, coroutine 1 cancels it. *)
Definition ex17 : state := script [ECall (OpChMake 0); ECall OpStart; ECall (OpRecv 0 MAXI)].
Example C17_blocked_example : preach ex17 /\ mode ex17 = MUser /\ cur (sc ex17) = Some 1 /\ blocked ex17 2 2 (OpRecv 0 MAXI) /\ enabled ex17 2 /\ ~ relocking ex17 2.
Proof.
  split; [apply script_preach; vm_compute; reflexivity|]. split; [vm_compute; reflexivity|]. split; [vm_compute; reflexivity|]. split.
  - apply blockedb_ok. split; [vm_compute; auto|]. exists 2%nat. eexists. split; vm_compute; reflexivity.
  - split; [vm_compute; reflexivity|]. intros (m & r & st & Q). vm_compute in Q. discriminate Q.
Qed.
(** ... and the receive reports NECO_CANCELED. *)
Example C17_delivered_example : In (TRet 2 2 (OpRecv 0 MAXI) ECANCELED 0 1000) (tr (run ex17 (scr [ECall (OpCancel 2 MAXI)]))).
Proof. vm_compute. tauto. Qed.
(** A coroutine that is running when it is canceled: pending, still so after a yield,
    reported by its next sleep. *)
Definition ex17p : state := script [ECall OpStart; ECall OpYield; ECall (OpCancel 2 MAXI)].
Example C17_pending_example : reach ex17p /\ In 2 (started (tr ex17p)) /\ cur (sc ex17p) = Some 2 /\ canceled (cof (dt ex17p) 2) = true /\
  In (TRet 3 2 (OpSleep 9000) ECANCELED 0 1000) (tr (run ex17p (scr [ECall (OpSleep 9000)]))).
Proof. split; [apply script_reach|]. vm_compute. tauto. Qed.

(* ------------------------------------------------------------------------ *)
(** * C18 *)
(** No step makes a cancellation pending for a coroutine that has it disabled. *)
Theorem C18_disabled_never_pending : forall s e x, reach s -> In x (started (tr s)) -> disabled s x -> canceled (cof (dt s) x) = false ->
  canceled (cof (dt (step s e)) x) = false.
Proof.
  intros s e x RE XS D C. destruct (canceled (cof (dt (step s e)) x)) eqn:C1; [|reflexivity].
  destruct (C17_only_target s e x RE XS C C1) as [EN _]. unfold enabled, disabled in *. congruence.
Qed.
(** neco_cancel of a coroutine that has it disabled reports a failure of its own, or
    waits; nothing about the other coroutine changes: its record, what it is doing,
    and whether it is blocked. *)
Theorem C18_cancel_disabled : forall s c x dl, reach s -> mode s = MUser -> cur (sc s) = Some c -> x <> c -> In x (started (tr s)) -> disabled s x ->
  let s' := step s (ECall (OpCancel x dl)) in
  cof (dt s') x = cof (dt s) x /\ stk (sc s') x = stk (sc s) x /\ (In x (paused (sc s')) <-> In x (paused (sc s))) /\
  ((exists v, mode s' = MRet v /\ cur (sc s') = Some c /\ (v = ECANCELED \/ v = ETIMEDOUT \/ v = ENOTFOUND /\ ~ In x (all (dt s)))) \/
   (blocked s' c (ncalls s) (OpCancel x dl) /\ In x (all (dt s)))).
Proof.
  intros s c x dl RE M CU NE XS D s'. pose proof (reach_full _ RE) as FU. pose proof (en_rec _ _ RE XS) as CE. rewrite D in CE.
  destruct (hcall c (OpCancel x dl) (now s) (dt s)) as [[d fs] kk] eqn:E.
  destruct (exec c kk (set_stk (zupd (stk (sc s)) c (fs ++ FApi (ncalls s) (OpCancel x dl) :: stk (sc s) c)) (sc s))) as [sch md] eqn:X.
  assert (SQ : s' = mkst sch (ctl_dat c (nextid (sc s) + 1) kk d) md (now s) (S (ncalls s)) (call_tr s c (OpCancel x dl) fs kk)) by (apply step_call_eq; auto; discriminate).
  rewrite SQ. clear SQ s'. pose proof E as E0. cbn [hcall] in E0. unfold do_cancel in E0.
  destruct (mem x (all (dt s))) eqn:ME; cbn [negb] in E0.
  2:{ inj E0. cbn [exec] in X. inj X. cbn. split; [reflexivity|]. split; [apply zupd_neq, NE|]. split; [reflexivity|]. left. exists ENOTFOUND. split; [reflexivity|]. split; [exact CU|]. right; right. split; [reflexivity|].
      intros H. apply mem_In in H. congruence. }
  destruct (checkdl c dl (now s) (dt s)) as [v d1] eqn:CD.
  assert (V : (v = OK \/ v = ECANCELED \/ v = ETIMEDOUT) /\ cof d1 x = cof (dt s) x).
  { unfold checkdl in CD. destruct (_ && _ && _); [inj CD; auto|]. destruct (canceled (cof (dt s) c)); [inj CD; split; [auto | apply upco_neq, NE]|].
    match type of CD with ((if ?b then _ else _), _) = _ => destruct b end; inj CD; (split; [auto | apply upco_neq, NE]). }
  assert (FL : v = OK -> canceled (cof d1 c) = false /\ deadlined (cof d1 c) = false).
  { intros ->. unfold checkdl in CD. destruct (canceled (cof (dt s) c)) eqn:Q1, (deadlined (cof (dt s) c)) eqn:Q2; cbn in CD; try (inj CD; fail); try discriminate CD.
    destruct (dl =? MAXI); [inj CD; auto|]. injection CD as CD <-. rewrite upco_eq. auto. }
  destruct V as [V CX]. destruct (Z.eqb_spec v OK) as [->|VN]; cbn [negb] in E0.
  2:{ inj E0. cbn [exec] in X. inj X. cbn. split; [exact CX|]. split; [apply zupd_neq, NE|]. split; [reflexivity|]. left. exists v. split; [reflexivity|]. split; [exact CU|]. destruct V as [V|[V|V]]; [contradiction | auto | auto]. }
  rewrite CX, CE in E0. destruct (FL eq_refl) as [F1 F2]. unfold copause in E0. change (cof (pushq (QCancel x) (NCo c) d1)) with (cof d1) in E0. rewrite F1, F2 in E0. cbn [orb] in E0.
  assert (QC : fs = [FPause; FCancelWait x dl] /\ kk = CPause /\ cof d x = cof d1 x).
  { destruct (dl <? MAXI); injection E0 as <- <- <-; (split; [reflexivity|]); (split; [reflexivity|]); cbn; apply zupd_neq, NE. }
  destruct QC as (-> & -> & CX2). cbn [exec] in X. pose proof X as X0. apply sco_switch_frame in X. destruct X as (XS1 & _ & XP & _). cbn [dt ctl_dat sc mode].
  split; [congruence|]. split; [rewrite XS1; cbn; apply zupd_neq, NE|]. split.
  - rewrite XP. cbn. rewrite in_app_iff. cbn. split; [intros [H|[H|[]]]; [exact H | congruence] | auto].
  - right. split; [|apply mem_In, ME]. split; [cbn [sc]; rewrite XP; cbn; apply in_or_app; right; left; reflexivity|].
    exists [FPause; FCancelWait x dl], (stk (sc s) c). split; [cbn [sc]; rewrite XS1; cbn; rewrite zupd_eq; reflexivity|]. intros j p [H|[H|[]]]; discriminate H.
Qed.
(** When a coroutine terminates or has terminated, whoever waits in neco_cancel of it is
    resumed at the next scheduler pass. *)
Theorem C18_cancelers_released : forall s ios x k id dl, preach s -> In id (exited (tr s)) \/ ~ noexit (stk (sc s) id) -> blocked s x k (OpCancel id dl) ->
  mode s = MMain -> (exists n, mode (step s (EMain ios)) = MKilled n) \/ runnable (step s (EMain ios)) x.
Proof.
  intros s ios x k id dl PR EX B M. pose proof (preach_dy _ PR) as AL. pose proof (preach_reach _ PR) as RE.
  apply resumed_at_pass; [exact RE | exact M | apply B|].
  destruct (blocked_frames _ _ _ _ RE B) as (w & st & SK & BF).
  assert (TP : exists dl2, top (stk (sc s) x) = FCancelWait id dl2 :: FApi k (OpCancel id dl) :: st).
  { rewrite SK. remember (OpCancel id dl) as o eqn:EO. destruct BF as [f o WF HO|v m d2 ret|b]; try discriminate EO. subst o.
    destruct f; cbn in HO; try contradiction; try discriminate; intuition (subst; eexists; reflexivity). }
  destruct TP as (dl2 & TP).
  destruct (reach_wlc _ RE x (FCancelWait id dl2) _ (QCancel id) TP eq_refl (fun H => H) (proj1 B)) as [H|H]; [|exact H].
  exfalso. apply (reach_cz _ RE) in H. apply (dy_in _ AL) in H. destruct H as [H N]. destruct EX as [EX|EX]; [|contradiction].
  apply (ti_alive _ (reach_tinv _ RE)) in H. destruct H as [_ H]. contradiction.
Qed.
(** Enabling cancellation does not release the cancelers: coroutine 2 has enabled it
    again, coroutine 1 stays blocked in neco_cancel of 2, for ever. *)
Definition ex18 : state := script [ECall OpStart; ECall (OpSetState false); ECall OpYield; ECall (OpCancel 2 MAXI); ECall (OpSetState true); ECall (OpSuspend MAXI)].
Theorem C18_enable_releases_refuted : exists s x c k, reach s /\ enabled s x /\ In x (all (dt s)) /\ forall es, blocked (run s es) c k (OpCancel x MAXI).
Proof.
  exists ex18, 2, 1, 3%nat. split; [apply script_reach|]. split; [vm_compute; reflexivity|]. split; [vm_compute; auto|]. intros es.
  apply stuck_forever; [apply stuckb_ok; vm_compute; reflexivity|]. apply blockedb_ok. split; [vm_compute; auto|]. exists 2%nat. eexists. split; vm_compute; reflexivity.
Qed.
(** Non-vacuity. *)
Definition ex18d : state := script [ECall OpStart; ECall (OpSetState false); ECall OpYield].
Example C18_disabled_example : reach ex18d /\ mode ex18d = MUser /\ cur (sc ex18d) = Some 1 /\ In 2 (started (tr ex18d)) /\ disabled ex18d 2 /\ canceled (cof (dt ex18d) 2) = false.
Proof. split; [apply script_reach|]. vm_compute. tauto. Qed.
(** 2 has cancellation disabled, 1 waits in neco_cancel of 2, and 2 returns *)
Definition ex18r : state := run ex18d [ECall (OpCancel 2 MAXI); EMain []; ETick true; ETick true; ECall OpReturn; ETick true].
Example C18_released_example : preach ex18r /\ ~ noexit (stk (sc ex18r) 2) /\ blocked ex18r 1 3 (OpCancel 2 MAXI) /\ mode ex18r = MMain.
Proof.
  split; [apply prunb_ok; [apply script_preach; vm_compute; reflexivity | vm_compute; reflexivity]|].
  split; [intros N; specialize (N (FExitFin false)); vm_compute in N; discriminate N; tauto|].
  split; [|vm_compute; reflexivity]. apply blockedb_ok. split; [vm_compute; auto|]. exists 2%nat. eexists. split; vm_compute; reflexivity.
Qed.

(* ------------------------------------------------------------------------ *)
(** * C19 *)
Lemma split_new : forall (N T l1 l2 : list obs) z, N ++ T = l1 ++ z :: l2 -> (exists n1, T = n1 ++ z :: l2) \/ exists n2, N = l1 ++ z :: n2 /\ l2 = n2 ++ T.
Proof.
  induction N as [|a N IH]; intros T l1 l2 z E; [left; exists l1; exact E|]. destruct l1 as [|b l1]; cbn in E; injection E as -> E.
  - right. exists N. auto.
  - destruct (IH _ _ _ _ E) as [H|(n2 & -> & ->)]; [left; exact H | right; exists n2; auto].
Qed.
(** Whenever a handler runs, it is the one pushed last among those pushed and not yet
    popped or run; running it removes it from that list. *)
Definition lifo (s : state) : Prop := forall l1 l2 x h, tr s = l1 ++ THandler x h :: l2 -> exists r, handlers x l2 = h :: r.
Lemma handler_last : forall s c fs k T N l1 l2 x h, hs s -> In c (started (tr s)) -> (forall z, In z N -> forall y g, z <> THandler y g) -> handlers c (N ++ tr s) = handlers c (tr s) \/ handler_obs c fs k (dt s) = [] ->
  lifo s -> T = ctl_obs c (nextid (sc s) + 1) k ++ handler_obs c fs k (dt s) ++ N ++ tr s -> T = l1 ++ THandler x h :: l2 -> exists r, handlers x l2 = h :: r.
Proof.
  intros s c fs k T N l1 l2 x h HS CS NN HN LI -> E. apply split_new in E. destruct E as [(n1 & E)|(n2 & E & _)].
  2:{ exfalso. assert (IN : In (THandler x h) (ctl_obs c (nextid (sc s) + 1) k)) by (rewrite E; apply in_or_app; right; left; reflexivity). destruct k; cbn in IN; intuition discriminate. }
  apply split_new in E. destruct E as [(n3 & E)|(n2 & E & ->)].
  - apply split_new in E. destruct E as [(n4 & E)|(n2 & E & _)]; [eapply LI; exact E|]. exfalso. eapply NN; [rewrite E; apply in_or_app; right; left; reflexivity | reflexivity].
  - assert (Q : exists g l, cleanups (cof (dt s) c) = g :: l /\ n1 ++ THandler x h :: n2 = [THandler c g]).
    { rewrite <- E. unfold handler_obs in *. destruct k; try (destruct n1; discriminate E). destruct fs as [|[] fs]; try (destruct n1; discriminate E); destruct (cleanups (cof (dt s) c)); try (destruct n1; discriminate E); eauto. }
    destruct Q as (g & l & CL & Q). destruct n1 as [|a n1]; [|destruct n1; discriminate Q]. cbn in Q. injection Q as -> -> ->.
    destruct HN as [HN|HN]; [|rewrite HN in E; discriminate E]. cbn [app]. rewrite HN, <- (hs_eq _ HS c CS), CL. eauto.
Qed.
Theorem C19_last_pushed_first : forall s, preach s -> forall l1 l2 x h, tr s = l1 ++ THandler x h :: l2 -> exists r, handlers x l2 = h :: r.
Proof.
  apply (prun_preserves lifo).
  - intros s c o d fs k sch md RE I M CU U NR E X l1 l2 x h Q. pose proof (pj_reach _ RE) as R0. cbn [tr] in Q.
    eapply (handler_last s c fs k _ (call_obs c (ncalls s) o s)); try eassumption; try reflexivity.
    + apply preach_hs, RE.
    + apply cur_in_started; assumption.
    + intros z IZ y g ->. destruct o; cbn in IZ; intuition discriminate.
    + destruct o; try (left; reflexivity); try (right; cbn [hcall] in E; injection E as <- <- <-; reflexivity).
      destruct exec; [left; reflexivity|]. right. cbn [hcall] in E. unfold do_cleanup_pop in E. destruct (cleanups _); injection E as <- <- <-; reflexivity.
  - intros s c v f rest b d fs k sch md RE I M CU SK L E X l1 l2 x h Q. pose proof (pj_reach _ RE) as R0. cbn [tr] in Q.
    eapply (handler_last s c fs k _ (ret_obs c f v (d, fs, k) s)); try eassumption; try reflexivity.
    + apply preach_hs, RE.
    + apply cur_in_started; assumption.
    + intros z IZ y g ->. apply ret_quiet in IZ. destruct IZ as (? & ? & ? & ? & ?). discriminate.
    + left. destruct (ret_obs_cases c f v (d, fs, k) s) as [->|(k0 & o & d0 & _ & _ & ->)]; reflexivity.
  - intros s d ws sch md ios RE I _ _ _ _. exact I.
  - intros s m RE I _. exact I.
  - intros s e RE I H _ l1 l2 x h Q. destruct (env_tr s e H) as [T|(w & T)]; rewrite T in Q; [eapply I; exact Q|].
    destruct l1 as [|a l1]; [discriminate Q|]. injection Q as _ Q. eapply I; exact Q.
  - intros g O l1 l2 x h Q. destruct l1 as [|a [|a2 l1]]; discriminate Q.
Qed.
(** When a coroutine has ended - canceled asynchronously, by neco_exit or by returning -
    no handler is left: every handler that it pushed has been popped or run. *)
Definition noleft (s : state) : Prop := forall l1 l2 x, tr s = l1 ++ TExit x :: l2 -> handlers x l2 = [].
Lemma exit_last : forall s c n k N l1 l2 x, noleft s -> (forall z, In z N -> forall y, z <> TExit y) ->
  let T := ctl_obs c n k ++ N ++ tr s in T = l1 ++ TExit x :: l2 -> (In x (exited T) -> handlers x T = []) -> handlers x l2 = [].
Proof.
  intros s c n k N l1 l2 x NL NN T E HX. unfold T in *. clear T. pose proof E as E0. apply split_new in E. destruct E as [(n1 & E)|(n2 & E & ->)].
  - apply split_new in E. destruct E as [(n4 & E)|(n2 & E & _)]; [eapply NL; exact E|]. exfalso. eapply NN; [rewrite E; apply in_or_app; right; left; reflexivity | reflexivity].
  - assert (Q : l1 = [] /\ n2 = []) by (destruct k; cbn in E; destruct l1 as [|a [|? ?]]; try discriminate E; injection E; intros; subst; auto; try discriminate).
    destruct Q as [-> ->]. cbn [app] in *. rewrite E0 in HX. apply HX. cbn. auto.
Qed.
Theorem C19_all_run_by_exit : forall s, preach s -> forall l1 l2 x, tr s = l1 ++ TExit x :: l2 -> handlers x l2 = [].
Proof.
  assert (G : forall z, preach z -> forall x, In x (exited (tr z)) -> handlers x (tr z) = []).
  { intros z PZ x IX. pose proof (preach_hs _ PZ) as HS. rewrite <- (hs_eq _ HS x); [apply (hs_ex _ HS), IX|]. apply (ti_sub _ (reach_tinv _ (preach_reach _ PZ))), IX. }
  intros s PR. pose proof PR as P0. induction PR as [g O|s e PR IH PO].
  { intros l1 l2 x E. destruct l1 as [|a [|? ?]]; discriminate E. }
  specialize (IH PR). pose proof (preach_reach _ PR) as RE. pose proof (G _ P0) as GX. clear G P0. revert GX.
  apply (gstep_preserves (fun z => full z /\ z = s) (fun z => (forall x, In x (exited (tr z)) -> handlers x (tr z) = []) -> noleft z)); try (intros z [F _]; exact F);
    [| | | | |split; [apply reach_full, RE | reflexivity] | auto].
  - intros z c o d fs k sch md [_ ->] _ M CU U NR E X GX l1 l2 x Q. cbn [tr] in *. rewrite (app_assoc (handler_obs _ _ _ _)) in *.
    eapply exit_last; [exact IH| |exact Q|]; [|rewrite <- app_assoc in *; apply GX].
    intros w IW y ->. apply in_app_or in IW. destruct IW as [IW|IW]; [apply handler_quiet in IW; destruct IW as (? & IW); discriminate IW|]. destruct o; cbn in IW; intuition discriminate.
  - intros z c v f rest b d fs k sch md [_ ->] _ M CU SK L E X GX l1 l2 x Q. cbn [tr] in *. rewrite (app_assoc (handler_obs _ _ _ _)) in *.
    eapply exit_last; [exact IH| |exact Q|]; [|rewrite <- app_assoc in *; apply GX].
    intros w IW y ->. apply in_app_or in IW. destruct IW as [IW|IW]; [apply handler_quiet in IW; destruct IW as (? & IW); discriminate IW|].
    apply ret_quiet in IW. destruct IW as (? & ? & ? & ? & ?). discriminate.
  - intros z d ws sch md ios [_ ->] _ _ _ _ _ _. exact IH.
  - intros z m [_ ->] _ _ _. exact IH.
  - intros z e0 [_ ->] _ H _ _ l1 l2 x Q. destruct (env_tr s e0 H) as [T|(w & T)]; rewrite T in Q; [eapply IH; exact Q|].
    destruct l1 as [|a l1]; [discriminate Q|]. injection Q as _ Q. eapply IH; exact Q.
Qed.
(** Once somebody's neco_join of a coroutine has returned NECO_OK, none of its handlers
    runs any more. *)
Theorem C19_before_join : forall s, preach s -> forall l1 l2 k x id dl m t, tr s = l1 ++ TRet k x (OpJoin id dl) OK m t :: l2 -> In id (started l2) ->
  forall h, ~ In (THandler id h) l1.
Proof. intros s PR l1 l2 k x id dl m t Q IS h IN. exact (proj2 (preach_jpast _ PR _ _ _ _ _ _ _ _ Q IS) _ IN eq_refl). Qed.
(** Without the discipline: coroutine 2 returns with a handler pushed; coroutine 3, which
    pushed none, runs it when it exits. *)
Definition ex19r : state := script [ECall OpStart; ECall (OpCleanupPush 7); ECall OpReturn; ECall OpStart; ECall OpExit].
Theorem C19_inherited_refuted : exists s l1 l2 x h, reach s /\ tr s = l1 ++ THandler x h :: l2 /\ handlers x l2 = [].
Proof.
  exists ex19r, []. eexists. exists 3, 7. split; [apply script_reach|]. split; [vm_compute; reflexivity|]. vm_compute. reflexivity.
Qed.
(** Non-vacuity: a coroutine blocked with two handlers pushed is canceled asynchronously
    while another one joins it; the handlers run in reverse order before the join returns. *)
Definition ex19 : state := script1 [ECall OpStart; ECall (OpCleanupPush 7); ECall (OpCleanupPush 8); ECall (OpSuspend MAXI); ECall OpStart; ECall (OpJoin 2 MAXI); ECall (OpCancel 2 MAXI); ECall OpReturn; ECall OpReturn;
  ECall OpYield; ECall OpYield].
Example C19_example : preach ex19 /\ exists l1 l2 l3 l4, tr ex19 = l1 ++ TExit 2 :: l2 ++ TRet 5 3 (OpJoin 2 MAXI) OK 0 1000 :: l3 ++ THandler 2 7 :: THandler 2 8 :: l4 /\ handlers 2 l4 = [8; 7].
Proof.
  split; [apply script1_preach; vm_compute; reflexivity|].
  exists [TRet 7 1 OpYield 0 0 1000], [TCall 8 3 OpYield 1000], [TCall 7 1 OpYield 1000; TRet 6 1 (OpCancel 2 MAXI) 0 0 1000]. eexists.
  split; [vm_compute; reflexivity|]. vm_compute. reflexivity.
Qed.

Print Assumptions C17_cancel_blocked.
Print Assumptions C17_blocked_found.
Print Assumptions C17_pending_never_waits.
Print Assumptions C17_pending_kept_partial.
Print Assumptions C17_only_target.
Print Assumptions C17_needs_cancel_partial.
Print Assumptions C17_uncanceled_refuted.
Print Assumptions C17_relock_swallows_refuted.
Print Assumptions C18_disabled_never_pending.
Print Assumptions C18_cancel_disabled.
Print Assumptions C18_cancelers_released.
Print Assumptions C18_enable_releases_refuted.
Print Assumptions C19_last_pushed_first.
Print Assumptions C19_all_run_by_exit.
Print Assumptions C19_before_join.
Print Assumptions C19_inherited_refuted.
