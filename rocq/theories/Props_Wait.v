(** C13 - C16: join, suspend and resume, sleep and deadlines.
    [reach s]: [s] is the state after some history of a freshly started runtime.
    [preach s]: the same, for histories in which coroutine functions have popped the
    cleanup handlers they pushed by the time they return. *)
From Coq Require Import List ZArith Bool Lia Sorted.
From Verif Require Import AATreeSpec AATreeHist Util Runtime SchedInv StepInv StackShape RuntimeSpec TraceInv Immediate Prims StaticInv Footprint QueueInv OwnInv WaitInv DeadlineInv CallInv SpecInv TraceStep Wake Awake AllInv PausedInv DldInv ResultInv JoinInv PairedInv TimeoutInv SelTimeout WaiterInv BlockSpec JoinWake OneStep Scripts ScriptsP.
Import ListNotations.
Local Open Scope Z_scope.

(** deciding properties of concrete traces *)
Lemma tr_forall : forall (t : list obs) (p : obs -> bool), forallb p t = true -> forall z, In z t -> p z = true.
Proof. intros t p H. apply forallb_forall. exact H. Qed.
Lemma nofin_ok : forall t, forallb (fun z => match z with TCall _ _ (OpCancel _ dl) _ => dl =? MAXI | _ => true end) t = true -> nofincancel t.
Proof. intros t H k c id dl tm IN. apply (tr_forall _ _ H) in IN. apply Z.eqb_eq in IN. exact IN. Qed.

(* ------------------------------------------------------------------------ *)
(** * C13 join *)

(** When neco_join returns NECO_OK for a coroutine that had been started, that
    coroutine makes no call and runs no cleanup handler from then on. *)
Theorem C13_join_ok_ended : forall s, preach s -> forall l1 l2 k x id dl m t,
  tr s = l1 ++ TRet k x (OpJoin id dl) OK m t :: l2 -> In id (started l2) ->
  forall z, In z l1 -> ~ acts id z.
Proof. intros s PR l1 l2 k x id dl m t Q IS. apply (preach_jpast _ PR _ _ _ _ _ _ _ _ Q IS). Qed.

(** Joining oneself never succeeds ... *)
Theorem C13_self_join_not_ok : forall s, preach s -> forall k c dl m t, ~ In (TRet k c (OpJoin c dl) OK m t) (tr s).
Proof.
  apply (prun_preserves (fun s => forall k c dl m t, ~ In (TRet k c (OpJoin c dl) OK m t) (tr s))).
  - intros s c o d fs k sch md RE I M CU U NR E X k0 x dl m t IN. cbn [tr] in IN.
    apply (I k0 x dl m t). eapply call_tr_rets. exact IN.
  - intros s c v f rest b d fs k sch md RE I M CU SK L E X k0 x dl m t IN. cbn [tr] in IN.
    pose proof (preach_dy _ (proj1 RE)) as AL. apply pj_reach in RE.
    apply (tick_tr_rets s c v f d fs k) in IN. destruct IN as [IN|(-> & -> & Q & _)]; [eapply I; exact IN|]. subst v.
    apply (reach_jdone _ RE c k0 c dl rest OK CU M eq_refl SK). apply (dy_in _ AL). rewrite SK. split; [discriminate|].
    pose proof (dy_ex _ AL c) as EX. rewrite SK in EX. destruct EX as [N|(w & base & Q & ES)]; [exact N|].
    exfalso. destruct (exit_shape_hd _ ES) as (g & r & -> & H). cbn in Q. injection Q as <- _. exact H.
  - intros s d ws sch md ios RE I _ _ _ _. exact I.
  - intros s m RE I _. exact I.
  - intros s e RE I H _ k c dl m t IN. destruct (env_tr s e H) as [T|(w & T)]; rewrite T in IN; [eapply I; exact IN|].
    destruct IN as [IN|IN]; [discriminate IN | eapply I; exact IN].
  - intros g O k c dl m t IN. cbn in IN. destruct IN as [IN|[]]. discriminate IN.
Qed.
(** ... and, unless a cancel or a timeout is already pending for the caller, the
    answer is NECO_PERM, at once, and nothing else changes. *)
Theorem C13_self_join_perm_partial : forall s c dl b, preach s -> mode s = MUser -> cur (sc s) = Some c ->
  canceled (cof (dt s) c) = false -> deadlined (cof (dt s) c) = false -> dl = MAXI \/ now s <= dl ->
  let s' := step (step s (ECall (OpJoin c dl))) (ETick b) in
  mode s' = MUser /\ ready s' = ready s /\ paused (sc s') = paused (sc s) /\
  exists m, tr s' = TRet (ncalls s) c (OpJoin c dl) EPERM m (now s) :: TCall (ncalls s) c (OpJoin c dl) (now s) :: tr s.
Proof.
  intros s c dl b PR M CU CN DD HD s'. pose proof (preach_dy _ PR) as AL. pose proof (preach_reach _ PR) as RE.
  assert (U : ustack (stk (sc s) c)) by (apply (proj2 (reach_full _ RE)); assumption).
  assert (IA : mem c (all (dt s)) = true).
  { apply mem_In, (dy_in _ AL). split; [inversion U; discriminate | apply ustack_noexit2; [exact U | apply (dy_ex _ AL)]]. }
  assert (E : exists d, hcall c (OpJoin c dl) (now s) (dt s) = (d, [], CRet EPERM)).
  { cbn [hcall]. unfold do_join. rewrite IA. cbn [negb]. unfold checkdl. rewrite CN, DD. cbn [negb andb].
    destruct (Z.eqb_spec dl MAXI); cbn; rewrite ?Z.eqb_refl; [eauto|].
    destruct (dl <? MAXI), (Z.ltb_spec dl (now s)); cbn; rewrite ?Z.eqb_refl; eauto; lia. }
  destruct E as (d & E).
  pose proof (call_returns s c (OpJoin c dl) d EPERM b RE M CU) as CR. cbv zeta in CR. unfold s'. clear s'.
  set (z := step (step s (ECall (OpJoin c dl))) (ETick b)) in *. clearbody z.
  destruct CR as (A & _ & _ & B & C & D); [split; discriminate | discriminate | exact E|].
  split; [exact A|]. split; [exact B|]. split; [exact C|]. eexists. exact D.
Qed.

(** [x] has begun to terminate: its coroutine function has returned or it is exiting *)
Definition terminating (s : state) (x : Z) : Prop := ~ noexit (stk (sc s) x).
(** When a coroutine terminates or has terminated, whoever is blocked in neco_join on it
    is resumed at the next scheduler pass. *)
Theorem C13_joiners_woken : forall s ios x k id dl, preach s -> In id (exited (tr s)) \/ terminating s id -> blocked s x k (OpJoin id dl) ->
  mode s = MMain -> (exists n, mode (step s (EMain ios)) = MKilled n) \/ runnable (step s (EMain ios)) x.
Proof.
  intros s ios x k id dl PR EX B M. pose proof (preach_dy _ PR) as AL. pose proof (preach_reach _ PR) as RE.
  apply resumed_at_pass; [exact RE | exact M | apply B|].
  destruct (blocked_frames _ _ _ _ RE B) as (w & st & SK & BF).
  assert (TP : top (stk (sc s) x) = FJoin id :: FApi k (OpJoin id dl) :: st).
  { rewrite SK. remember (OpJoin id dl) as o eqn:EO. destruct BF as [f o WF HO|v m d2 ret|b]; try discriminate EO. subst o.
    destruct f; cbn in HO; try contradiction; try discriminate; subst; reflexivity. }
  destruct (reach_wlc _ RE x (FJoin id) _ (QJoin id) TP eq_refl (fun H => H) (proj1 B)) as [H|H]; [|exact H].
  exfalso. apply (reach_jz _ RE) in H. apply (dy_in _ AL) in H. destruct H as [H N]. destruct EX as [EX|EX]; [|contradiction].
  apply (ti_alive _ (reach_tinv _ RE)) in H. destruct H as [_ H]. contradiction.
Qed.

(** A coroutine waits for another one; both pop the handlers they push. *)
Definition ex_join : state := script [ECall OpStart; ECall OpYield; ECall (OpJoin 2 MAXI); ECall OpReturn].
Example C13_join_example : preach ex_join /\
  exists l1 l2, tr ex_join = l1 ++ TRet 2 1 (OpJoin 2 MAXI) OK 0 1000 :: l2 /\ In 2 (started l2).
Proof.
  split; [apply script_preach; vm_compute; reflexivity|]. exists []. eexists. split; [vm_compute; reflexivity|]. vm_compute. auto.
Qed.
Example C13_self_join_example : exists s, preach s /\ mode s = MUser /\ cur (sc s) = Some 2 /\
  canceled (cof (dt s) 2) = false /\ deadlined (cof (dt s) 2) = false.
Proof.
  exists (script [ECall OpStart]). split; [apply script_preach; vm_compute; reflexivity|]. vm_compute. auto.
Qed.
(** The first coroutine is blocked in a join of the second, whose function returns. *)
Definition ex_woken : state := run (init g0) [ECall OpStart; ECall OpYield; ETick true; ECall (OpJoin 2 MAXI); EMain []; ETick true; ETick true; ECall OpReturn; ETick true].
Example C13_woken_example : preach ex_woken /\ terminating ex_woken 2 /\ blocked ex_woken 1 2 (OpJoin 2 MAXI) /\ mode ex_woken = MMain.
Proof.
  split; [apply prunb_ok; [apply pr_init, g0_ok | vm_compute; reflexivity]|].
  split; [intros N; specialize (N (FExitFin false)); vm_compute in N; discriminate N; tauto|].
  split; [|vm_compute; reflexivity]. split; [vm_compute; auto|]. exists [FPause; FJoin 2], [FEntry].
  split; [vm_compute; reflexivity|]. intros j p [H|[H|[]]]; discriminate H.
Qed.

(** What fails of C13. (1) A coroutine function that returns with a handler pushed, in
    the default asynchronous mode, and a cancel pending: the handler runs after
    somebody's neco_join of it has returned NECO_OK. *)
Theorem C13_handler_after_join_refuted : exists s l1 l2 k x id dl m t, reach s /\
  tr s = l1 ++ TRet k x (OpJoin id dl) OK m t :: l2 /\ In id (started l2) /\ exists z, In z l1 /\ acts id z.
Proof.
  exists (script1 [ECall OpStart; ECall (OpCleanupPush 7); ECall OpYield; ECall OpStart; ECall (OpJoin 2 MAXI); ECall OpYield;
    ECall OpStart; ECall (OpCancel 2 MAXI); ECall OpYield; ECall OpReturn; ECall OpYield; ECall (OpJoin 2 MAXI); ECall OpYield]).
  exists [THandler 2 7; TCall 11 1 OpYield 1000]. eexists. exists 10%nat, 1, 2, MAXI, 0, 1000.
  split; [apply script1_reach|]. split; [vm_compute; reflexivity|]. split; [vm_compute; tauto|].
  exists (THandler 2 7). split; [left; reflexivity | reflexivity].
Qed.
(** (2) Joining oneself with a deadline in the past reports a timeout, not NECO_PERM. *)
Theorem C13_self_join_refuted : exists s k c dl m t, preach s /\ In (TRet k c (OpJoin c dl) ETIMEDOUT m t) (tr s).
Proof.
  exists (script [ECall (OpJoin 1 500)]), 0%nat, 1, 500, 0, 1000. split; [apply script_preach; vm_compute; reflexivity|].
  vm_compute. tauto.
Qed.

(* ------------------------------------------------------------------------ *)
(** * C14 suspend and resume *)

(** neco_suspend returns NECO_OK only after a neco_resume of that coroutine was called
    after the suspend began (calls are numbered in the order they are made). Proved for
    coroutines that have not used neco_chan_select or neco_work before; false otherwise. *)
Theorem C14_suspend_ok_partial : forall s, reach s -> forall l1 l2 k c dl m t,
  tr s = l1 ++ TRet k c (OpSuspend dl) OK m t :: l2 ->
  (forall j o tm, In (TCall j c o tm) l2 -> match o with OpSelect _ _ | OpWork _ => False | _ => True end) ->
  exists k' c' tm, (k < k')%nat /\ In (TCall k' c' (OpResume c) tm) l2.
Proof.
  intros s RE l1 l2 k c dl m t Q N. destruct (suspend_result _ RE _ _ _ _ _ _ _ Q) as [H|[(j & o & tm & H & B)|(j & o & tm & H & B)]]; [exact H| |];
  apply N in H; destruct o; try discriminate B; destruct H.
Qed.
Theorem C14_suspend_ok_refuted : exists s l1 l2 k c dl m t, reach s /\
  tr s = l1 ++ TRet k c (OpSuspend dl) OK m t :: l2 /\ forall k' c' id tm, ~ In (TCall k' c' (OpResume id) tm) l2.
Proof.
  exists (script [ECall (OpChMake 1); ECall OpStart; ECall (OpSelect [0%nat] MAXI); ECall OpStart; ECall OpYield; ECall OpYield;
     ECall (OpBcast 0%nat 42); ECall (OpCancel 2 MAXI); ECall (OpSuspend MAXI); ECall OpYield; ECall OpYield]).
  eexists [], _, 8%nat, 2, MAXI, 0, 1000. split; [apply script_reach|]. split; [vm_compute; reflexivity|].
  intros k' c' id tm H. apply (tr_forall _ (fun z => match z with TCall _ _ (OpResume _) _ => false | _ => true end)) in H; [discriminate H | vm_compute; reflexivity].
Qed.

(** Both exclusions are needed. Select, without any cancellation: a select times out and,
    before its coroutine runs, a broadcast picks it; the wakeup stays behind. *)
Definition ex_stale_sel : list event := [ECall (OpChMake 0); ECall OpStart; ECall (OpSelect [0%nat] 1500); ECall OpStart; ECall OpYield; EAdv 5000; ECall OpYield; ECall OpYield; ECall (OpBcast 0 7)].
Theorem C14_suspend_select_refuted : exists s l1 l2 k c dl m t, reach s /\
  tr s = l1 ++ TRet k c (OpSuspend dl) OK m t :: l2 /\ (forall k' c' id tm, ~ In (TCall k' c' (OpResume id) tm) l2) /\
  forall k' c' id d' tm, ~ In (TCall k' c' (OpCancel id d') tm) (tr s).
Proof.
  exists (script (ex_stale_sel ++ [ECall (OpSuspend MAXI); ECall OpYield])).
  eexists [], _, 8%nat, 2, MAXI, 0, 5000. split; [apply script_reach|]. split; [vm_compute; reflexivity|]. split.
  - intros k' c' id tm H. apply (tr_forall _ (fun z => match z with TCall _ _ (OpResume _) _ => false | _ => true end)) in H; [discriminate H | vm_compute; reflexivity].
  - intros k' c' id d' tm H. apply (tr_forall _ (fun z => match z with TCall _ _ (OpCancel _ _) _ => false | _ => true end)) in H; [discriminate H | vm_compute; reflexivity].
Qed.
(** neco_work, without any select: its caller is canceled, the worker finishes before the
    caller runs, and the entry in the list of finished jobs stays behind. *)
Definition ex_stale_work : list event := [ECall (OpChMake 0); ECall OpStart; ECall (OpWork true); ECall OpStart; ECall (OpWork true); ECall OpStart; ECall OpYield; ECall (OpCancel 2 MAXI); EWorkDone 2; ECall OpYield; ECall (OpRecv 0 MAXI)].
Theorem C14_suspend_work_refuted : exists s l1 l2 k c dl m t, reach s /\
  tr s = l1 ++ TRet k c (OpSuspend dl) OK m t :: l2 /\ (forall k' c' id tm, ~ In (TCall k' c' (OpResume id) tm) l2) /\
  forall k' c' chs d' tm, ~ In (TCall k' c' (OpSelect chs d') tm) (tr s).
Proof.
  exists (script (ex_stale_work ++ [ECall (OpSuspend MAXI); ECall OpYield; ECall OpYield])).
  eexists [], _, 10%nat, 2, MAXI, 0, 1000. split; [apply script_reach|]. split; [vm_compute; reflexivity|]. split.
  - intros k' c' id tm H. apply (tr_forall _ (fun z => match z with TCall _ _ (OpResume _) _ => false | _ => true end)) in H; [discriminate H | vm_compute; reflexivity].
  - intros k' c' chs d' tm H. apply (tr_forall _ (fun z => match z with TCall _ _ (OpSelect _ _) _ => false | _ => true end)) in H; [discriminate H | vm_compute; reflexivity].
Qed.

(** a neco_suspend of [x] is pending *)
Definition suspending (t : list obs) (x : Z) : Prop := exists k dl tm, In (TCall k x (OpSuspend dl) tm) t /\ ~ returned k t.

Lemma suspended_pending : forall s x, reach s -> suspended (cof (dt s) x) = true -> suspending (tr s) x.
Proof.
  intros s x RE H. apply (bk_su _ _ _ (reach_bk _ RE x)) in H.
  assert (NE : stk (sc s) x <> []) by (intros Z; rewrite Z in H; destruct H).
  pose proof (live_lstack _ _ (reach_full _ RE) NE) as L.
  assert (TP : exists rest, top (stk (sc s) x) = FSuspend :: rest).
  { pose proof (reach_wsh _ RE x) as W. destruct (stk (sc s) x) as [|g st]; [destruct H|].
    inversion W as [s0 N|g0 s0 A N|g0 s0 A N|g0 s0 A N]; subst.
    - exfalso. specialize (N _ H). discriminate N.
    - destruct H as [H|H]; [subst; eexists; reflexivity | specialize (N _ H); discriminate N].
    - destruct H as [H|[H|H]]; [discriminate H | subst; eexists; reflexivity | specialize (N _ H); discriminate N].
    - destruct H as [H|H]; [destruct A; subst; discriminate | specialize (N _ H); discriminate N]. }
  destruct TP as (rest & TP). apply lstack_top in L. rewrite TP in L.
  destruct (lstack_host _ _ L eq_refl) as [(k & o & st & -> & _ & HO)|(? & ? & ? & ? & ? & ? & ? & _)]; [|discriminate].
  destruct o; try contradiction. assert (IN : In (FApi k (OpSuspend dl)) (stk (sc s) x)) by (apply top_sub; rewrite TP; right; left; reflexivity).
  destruct (ci_open _ (reach_cinv _ RE) _ _ _ IN) as (tm & I & _). exists k, dl, tm. split; [exact I|].
  eapply ci_pend; [apply reach_cinv, RE | exact IN].
Qed.

(** Resuming an id that was never started, or whose coroutine has ended or begun to
    end, returns NECO_NOTFOUND at once; nothing changes for any coroutine. *)
Theorem C14_resume_unknown : forall s c id b, preach s -> mode s = MUser -> cur (sc s) = Some c ->
  ~ alive (tr s) id \/ terminating s id ->
  let s' := step (step s (ECall (OpResume id))) (ETick b) in
  mode s' = MUser /\ dt s' = dt s /\ ready s' = ready s /\ paused (sc s') = paused (sc s) /\
  exists m, tr s' = TRet (ncalls s) c (OpResume id) ENOTFOUND m (now s) :: TCall (ncalls s) c (OpResume id) (now s) :: tr s.
Proof.
  intros s c id b PR M CU H s'. pose proof (preach_dy _ PR) as AL. pose proof (preach_reach _ PR) as RE.
  assert (IA : mem id (all (dt s)) = false).
  { apply mem_In_false. intros I. apply (dy_in _ AL) in I. destruct I as [A B]. destruct H as [H|H]; [|contradiction].
    apply H. apply (ti_alive _ (reach_tinv _ RE)). exact A. }
  assert (E : hcall c (OpResume id) (now s) (dt s) = (dt s, [], CRet ENOTFOUND)) by (cbn [hcall]; unfold do_resume; rewrite IA; reflexivity).
  pose proof (call_returns s c (OpResume id) (dt s) ENOTFOUND b RE M CU) as CR. cbv zeta in CR. unfold s'. clear s'.
  set (z := step (step s (ECall (OpResume id))) (ETick b)) in *. clearbody z.
  destruct CR as (A & A2 & _ & B & C & D); [split; discriminate | discriminate | exact E|].
  split; [exact A|]. split; [exact A2|]. split; [exact B|]. split; [exact C|]. eexists. exact D.
Qed.
(** Resuming a live coroutine with no pending neco_suspend returns NECO_NOTSUSPENDED at
    once; nothing changes for any coroutine. *)
Theorem C14_resume_notsuspended : forall s c id b, preach s -> mode s = MUser -> cur (sc s) = Some c ->
  alive (tr s) id -> ~ terminating s id -> ~ suspending (tr s) id ->
  let s' := step (step s (ECall (OpResume id))) (ETick b) in
  mode s' = MUser /\ dt s' = dt s /\ ready s' = ready s /\ paused (sc s') = paused (sc s) /\
  exists m, tr s' = TRet (ncalls s) c (OpResume id) ENOTSUSPENDED m (now s) :: TCall (ncalls s) c (OpResume id) (now s) :: tr s.
Proof.
  intros s c id b PR M CU LV NT NS s'. pose proof (preach_dy _ PR) as AL. pose proof (preach_reach _ PR) as RE.
  assert (IA : mem id (all (dt s)) = true).
  { apply mem_In, (dy_in _ AL). split; [apply (ti_alive _ (reach_tinv _ RE)), LV|].
    destruct (noexit_dec (stk (sc s) id)) as [N|N]; [exact N | destruct (NT N)]. }
  assert (SU : suspended (cof (dt s) id) = false).
  { destruct (suspended (cof (dt s) id)) eqn:Q; [|reflexivity]. destruct (NS (suspended_pending _ _ RE Q)). }
  assert (E : hcall c (OpResume id) (now s) (dt s) = (dt s, [], CRet ENOTSUSPENDED)) by (cbn [hcall]; unfold do_resume; rewrite IA, SU; reflexivity).
  pose proof (call_returns s c (OpResume id) (dt s) ENOTSUSPENDED b RE M CU) as CR. cbv zeta in CR. unfold s'. clear s'.
  set (z := step (step s (ECall (OpResume id))) (ETick b)) in *. clearbody z.
  destruct CR as (A & A2 & _ & B & C & D); [split; discriminate | discriminate | exact E|].
  split; [exact A|]. split; [exact A2|]. split; [exact B|]. split; [exact C|]. eexists. exact D.
Qed.
(** Resuming a coroutine blocked in neco_suspend makes it runnable. *)
Theorem C14_resume_wakes : forall s c id k dl, preach s -> mode s = MUser -> cur (sc s) = Some c -> ~ terminating s id ->
  blocked s id k (OpSuspend dl) -> runnable (step s (ECall (OpResume id))) id.
Proof.
  intros s c id k dl PR M CU NT B. pose proof (preach_dy _ PR) as AL. pose proof (preach_reach _ PR) as RE.
  destruct (blocked_frames _ _ _ _ RE B) as (w & st & SK & BF).
  assert (IN : In FSuspend (stk (sc s) id)).
  { rewrite SK. remember (OpSuspend dl) as o eqn:EO. destruct BF as [f o WF HO|v m d2 ret|b]; try discriminate EO. subst o.
    destruct f; cbn in HO; try contradiction; try discriminate; cbn; auto. }
  assert (SU : suspended (cof (dt s) id) = true) by (apply (bk_su _ _ _ (reach_bk _ RE id)), IN).
  assert (IA : mem id (all (dt s)) = true).
  { apply mem_In, (dy_in _ AL). split; [intros Z; rewrite Z in IN; destruct IN|].
    destruct (noexit_dec (stk (sc s) id)) as [N|N]; [exact N | destruct (NT N)]. }
  assert (E : hcall c (OpResume id) (now s) (dt s) = (dt s, [], CResume id)) by (cbn [hcall]; unfold do_resume; rewrite IA, SU; reflexivity).
  assert (NE : id <> c). { intros ->. eapply cur_notpaused; [apply reach_full, RE | exact CU | apply B]. }
  pose proof (reach_full _ RE) as F. pose proof (cur_notfresh _ _ F CU) as NFR.
  apply notpaused_runnable; [apply reach_step, RE | |]; destruct (exec c (CResume id) (set_stk (zupd (stk (sc s)) c (FApi (ncalls s) (OpResume id) :: stk (sc s) c)) (sc s))) as [sch md] eqn:X;
    rewrite (step_call_eq s c (OpResume id) _ _ _ _ _ M CU ltac:(discriminate) E X); cbn [sc].
  - destruct (exec_stk_cases _ _ _ _ _ X NFR id) as [[? _]|[(_ & _ & (? & K) & _)|(_ & Q & _)]]; [contradiction | discriminate K|].
    rewrite Q. cbn. rewrite zupd_neq by exact NE. intros Z. rewrite Z in IN. destruct IN.
  - apply exec_paused in X. rewrite X. cbn [paused set_stk]. rewrite (proj2 (mem_In _ _) (proj1 B)). intros J. apply remove1_In in J. tauto.
Qed.

(** Coroutine 2 suspends itself, 1 resumes it, it tries to resume 2 (itself), 1 (running
    too) and 9 (no such coroutine). *)
Definition ex_susp : state := script [ECall OpStart; ECall (OpSuspend MAXI); ECall (OpResume 2); ECall (OpResume 2); ECall (OpResume 9)].
Example C14_suspend_example : reach ex_susp /\ exists l1 l2 m t, tr ex_susp = l1 ++ TRet 1 2 (OpSuspend MAXI) OK m t :: l2 /\
  forall j o tm, In (TCall j 2 o tm) l2 -> match o with OpSelect _ _ | OpWork _ => False | _ => True end.
Proof.
  split; [apply script_reach|]. eexists [_; _; _; _], _, _, _. split; [vm_compute; reflexivity|].
  intros j o tm H. apply (tr_forall _ (fun z => match z with TCall _ _ (OpSelect _ _) _ | TCall _ _ (OpWork _) _ => false | _ => true end)) in H; [|vm_compute; reflexivity].
  destruct o; try exact I; discriminate H.
Qed.
Example C14_resume_example : preach (script [ECall OpStart]) /\ mode (script [ECall OpStart]) = MUser /\ cur (sc (script [ECall OpStart])) = Some 2 /\
  ~ alive (tr (script [ECall OpStart])) 9 /\ alive (tr (script [ECall OpStart])) 1 /\ ~ suspending (tr (script [ECall OpStart])) 1.
Proof.
  split; [apply script_preach; vm_compute; reflexivity|]. split; [vm_compute; reflexivity|]. split; [vm_compute; reflexivity|].
  split; [intros [H _]; vm_compute in H; intuition discriminate|]. split.
  - split; vm_compute; intuition discriminate.
  - intros (k & dl & tm & H & _). apply (tr_forall _ (fun z => match z with TCall _ _ (OpSuspend _) _ => false | _ => true end)) in H; [discriminate H | vm_compute; reflexivity].
Qed.
Definition ex_susp2 : state := script [ECall OpStart; ECall (OpSuspend MAXI)].
Example C14_wakes_example : preach ex_susp2 /\ mode ex_susp2 = MUser /\ cur (sc ex_susp2) = Some 1 /\ ~ terminating ex_susp2 2 /\
  blocked ex_susp2 2 1 (OpSuspend MAXI).
Proof.
  split; [apply script_preach; vm_compute; reflexivity|]. split; [vm_compute; reflexivity|]. split; [vm_compute; reflexivity|].
  split.
  - intros N. apply N. intros f H. vm_compute in H. intuition (subst; reflexivity).
  - split; [vm_compute; auto|]. exists [FPause; FSuspend], [FEntry]. split; [vm_compute; reflexivity|]. intros j p [H|[H|[]]]; discriminate H.
Qed.

(* ------------------------------------------------------------------------ *)
(** * C15 never early *)

(** neco_sleep returns NECO_OK only when its time has passed. Proved when nobody calls
    neco_cancel_dl with a deadline and the sleeper has not used neco_chan_select or
    neco_work before; false otherwise. *)
Theorem C15_sleep_partial : forall s, reach s -> nofincancel (tr s) -> forall l1 l2 k c dl m t,
  tr s = l1 ++ TRet k c (OpSleep dl) OK m t :: l2 ->
  (forall j o tm, In (TCall j c o tm) l2 -> match o with OpSelect _ _ | OpWork _ => False | _ => True end) -> dl < t.
Proof.
  intros s RE G l1 l2 k c dl m t Q N. destruct (sleep_result _ RE G _ _ _ _ _ _ _ Q) as [H|[(j & o & tm & H & B)|(j & o & tm & H & B)]]; [exact H| |];
  apply N in H; destruct o; try discriminate B; destruct H.
Qed.
(** The operations that take a deadline. *)
Definition takes_deadline (o : op) : Prop :=
  match o with
  | OpSleep _ | OpCancel _ _ | OpWait _ _ _ _ | OpSend _ _ _ | OpRecv _ _ | OpSelect _ _ | OpGenYield _ _ | OpLock _ _ | OpRdLock _ _
  | OpWgWait _ _ | OpCvWait _ _ _ | OpJoin _ _ | OpSuspend _ | OpSigWait _ => True
  | _ => False
  end.
(** An operation returns NECO_TIMEDOUT only when its deadline has passed. Proved when
    nobody calls neco_cancel_dl with a deadline; false otherwise. *)
Theorem C15_timeout_partial : forall s, reach s -> nofincancel (tr s) ->
  forall k c o m t, In (TRet k c o ETIMEDOUT m t) (tr s) -> takes_deadline o -> op_dl o < t.
Proof.
  intros s RE G k c o m t H T. destruct (timed o) eqn:B; [eapply timeout_result; eassumption|]. eapply timeout_result2; [exact RE | exact G | exact H|].
  destruct o; try destruct T; try discriminate B; reflexivity.
Qed.
(** A select that loses the race between a broadcast and a cancel leaves a wakeup behind
    that ends a later sleep early. *)
Theorem C15_sleep_refuted : exists s k c dl m t, reach s /\ nofincancel (tr s) /\ In (TRet k c (OpSleep dl) OK m t) (tr s) /\ t < dl.
Proof.
  exists (script [ECall (OpChMake 1); ECall OpStart; ECall (OpSelect [0%nat] MAXI); ECall OpStart; ECall OpYield; ECall OpYield;
     ECall (OpBcast 0%nat 42); ECall (OpCancel 2 MAXI); ECall (OpSleep 5000); ECall OpYield; ECall OpYield]).
  exists 8%nat, 2, 5000, 0, 1000. split; [apply script_reach|]. split; [|split; [vm_compute; tauto | reflexivity]].
  apply nofin_ok. vm_compute. reflexivity.
Qed.
(** The same two ways without any neco_cancel, and without any select. *)
Theorem C15_sleep_select_refuted : exists s k c dl m t, reach s /\ (forall k' c' id d' tm, ~ In (TCall k' c' (OpCancel id d') tm) (tr s)) /\
  In (TRet k c (OpSleep dl) OK m t) (tr s) /\ t < dl.
Proof.
  exists (script (ex_stale_sel ++ [ECall (OpSleep 9000); ECall OpYield])), 8%nat, 2, 9000, 0, 5000.
  split; [apply script_reach|]. split; [|split; [vm_compute; tauto | reflexivity]].
  intros k' c' id d' tm H. apply (tr_forall _ (fun z => match z with TCall _ _ (OpCancel _ _) _ => false | _ => true end)) in H; [discriminate H | vm_compute; reflexivity].
Qed.
Theorem C15_sleep_work_refuted : exists s k c dl m t, reach s /\ nofincancel (tr s) /\ (forall k' c' chs d' tm, ~ In (TCall k' c' (OpSelect chs d') tm) (tr s)) /\
  In (TRet k c (OpSleep dl) OK m t) (tr s) /\ t < dl.
Proof.
  exists (script (ex_stale_work ++ [ECall (OpSleep 9000); ECall OpYield; ECall OpYield])), 10%nat, 2, 9000, 0, 1000.
  split; [apply script_reach|]. split; [apply nofin_ok; vm_compute; reflexivity|]. split; [|split; [vm_compute; tauto | reflexivity]].
  intros k' c' chs d' tm H. apply (tr_forall _ (fun z => match z with TCall _ _ (OpSelect _ _) _ => false | _ => true end)) in H; [discriminate H | vm_compute; reflexivity].
Qed.
(** A neco_cancel_dl that times out just as its target ends leaves a timeout pending,
    which a later call with a distant deadline reports. *)
Theorem C15_timeout_refuted : exists s k c dl m t, reach s /\ In (TRet k c (OpSuspend dl) ETIMEDOUT m t) (tr s) /\ t < dl.
Proof.
  exists (script [ECall OpStart; ECall (OpSetState false); ECall OpYield; ECall OpStart; ECall (OpCancel 2 2000); ECall OpYield;
     EAdv 3000; ECall OpYield; ECall OpYield; ECall OpReturn; ECall OpYield; ECall (OpSuspend 99000)]).
  exists 9%nat, 3, 99000, 0, 3000. split; [apply script_reach|]. split; [vm_compute; tauto | reflexivity].
Qed.
(** One coroutine sleeps for 500 ns, the other waits 200 ns for a lock held by the first. *)
Definition ex_sleep : state := script [ECall (OpLock 0 MAXI); ECall OpStart; ECall (OpLock 0 1200); ECall (OpSleep 1500); EAdv 1300; EAdv 1600].
Example C15_example : reach ex_sleep /\ nofincancel (tr ex_sleep) /\ In (TRet 2 2 (OpLock 0 1200) ETIMEDOUT 0 1300) (tr ex_sleep).
Proof.
  split; [apply script_reach|]. split; [|vm_compute; tauto].
  apply nofin_ok. vm_compute. reflexivity.
Qed.
(** A select and a signal wait that time out. *)
Definition ex_sel : state := script [ECall (OpChMake 1); ECall OpStart; ECall (OpSigWatch 2); ECall (OpSigWait 1100); ECall (OpSelect [0%nat] 1200); EAdv 1300; ECall OpYield].
Example C15_select_example : reach ex_sel /\ nofincancel (tr ex_sel) /\ (exists k m t, In (TRet k 1 (OpSelect [0%nat] 1200) ETIMEDOUT m t) (tr ex_sel)) /\
  exists k m t, In (TRet k 2 (OpSigWait 1100) ETIMEDOUT m t) (tr ex_sel).
Proof.
  split; [apply script_reach|]. split; [apply nofin_ok; vm_compute; reflexivity|]. split; [exists 4%nat | exists 3%nat]; exists 0, 1300; vm_compute; tauto.
Qed.
Definition ex_sleep2 : state := script [ECall (OpSleep 1500); EAdv 1300; EAdv 1600].
Example C15_sleep_example : reach ex_sleep2 /\ nofincancel (tr ex_sleep2) /\ exists l1 l2 k m t, tr ex_sleep2 = l1 ++ TRet k 1 (OpSleep 1500) OK m t :: l2.
Proof.
  split; [apply script_reach|]. split; [|eexists [], _, _, _, _; vm_compute; reflexivity].
  apply nofin_ok. vm_compute. reflexivity.
Qed.

(* ------------------------------------------------------------------------ *)
(** * C16 expired deadlines *)

(** What one scheduler pass does to the ready list: it appends the coroutines [a]
    that have another reason to wake and then the coroutines of [e], which are exactly
    blocked calls whose deadline is before the clock, in order of deadline, marked as
    timed out; and every expired waiter is among the two. *)
Theorem C16_pass : forall s ios, reach s -> mode s = MMain -> active (sc s) = true ->
  (exists n, mode (step s (EMain ios)) = MKilled n) \/
  exists a e, ready (step s (EMain ios)) = ready s ++ a ++ map snd e /\
    (forall x, In x a -> In x (paused (sc s)) /\ other_reason s x) /\
    (forall dl x, In (dl, x) e -> waits_until s x dl /\ dl < now s /\ deadlined (cof (dt (step s (EMain ios))) x) = true) /\
    StronglySorted (fun p r => fst p < fst r \/ (fst p = fst r /\ snd p < snd r)) e /\
    (forall x dl, waits_until s x dl -> dl < now s -> In x a \/ In (dl, x) e).
Proof.
  intros s ios RE M A. destruct (deadline_pass s ios RE M A) as [K|(a & e & H1 & H2 & H3 & H4 & H5)]; [left; exact K|].
  right. exists a, e. split; [exact H1|]. split; [exact H2|]. split; [exact H3|]. split; [|intros x dl; apply H5].
  clear -H4. induction H4 as [|p e SS IH FA]; constructor; [exact IH|]. eapply Forall_impl; [|exact FA].
  intros r H. unfold lt, dl_compare in H. cbv zeta in H.
  repeat match type of H with context [if ?x <? ?y then _ else _] => destruct (Z.ltb_spec x y) end; try discriminate H; lia.
Qed.
Theorem C16_expired_woken : forall s ios x dl, reach s -> mode s = MMain -> waits_until s x dl -> dl < now s ->
  (exists n, mode (step s (EMain ios)) = MKilled n) \/ runnable (step s (EMain ios)) x.
Proof.
  intros s ios x dl RE M W LT. assert (PA : In x (paused (sc s))) by (destruct W as (k & o & [B _] & _); exact B).
  destruct (C16_pass s ios RE M (paused_active _ _ RE PA)) as [K|(a & e & H1 & _ & _ & _ & H5)]; [auto|]. right.
  apply ready_runnable. rewrite H1, !in_app_iff. destruct (H5 x dl W LT) as [H|H]; [auto|]. right; right.
  apply (in_map snd) in H. exact H.
Qed.
(** A pass times out nobody else: whoever gets marked has a pending call whose deadline
    is before the clock. *)
Theorem C16_none_else : forall s ios x, reach s -> mode s = MMain ->
  deadlined (cof (dt (step s (EMain ios))) x) = true -> deadlined (cof (dt s) x) = false ->
  exists k o t, In (TCall k x o t) (tr s) /\ ~ returned k (tr s) /\ op_dl o < now s.
Proof. exact timeout_mark. Qed.

(** Two expired sleepers, started in the wrong order. *)
Definition ex_pass : state := run (init g0) [ECall OpStart; ECall (OpSleep 1800); ECall OpStart; ETick true; ECall OpStart; ECall (OpSleep 1700); ETick true; ECall (OpSleep 1900); EAdv 1850].
Example C16_example : reach ex_pass /\ mode ex_pass = MMain /\ waits_until ex_pass 2 1800 /\ 1800 < now ex_pass /\
  ready (step ex_pass (EMain [])) = [3; 2].
Proof.
  split; [exists g0; eexists; split; [exact g0_ok | reflexivity]|]. split; [vm_compute; reflexivity|]. split.
  - exists 1%nat, (OpSleep 1800). split; [split; [vm_compute; auto|]|].
    + exists [FPause; FSleep], [FEntry]. split; [vm_compute; reflexivity|]. intros j p [H|[H|[]]]; discriminate H.
    + split; [reflexivity|]. split; [reflexivity|]. intros (? & ? & ? & H). vm_compute in H. discriminate H.
  - split; vm_compute; reflexivity.
Qed.

Print Assumptions C13_join_ok_ended.
Print Assumptions C13_self_join_not_ok.
Print Assumptions C13_self_join_perm_partial.
Print Assumptions C13_joiners_woken.
Print Assumptions C13_handler_after_join_refuted.
Print Assumptions C13_self_join_refuted.
Print Assumptions C14_suspend_ok_partial.
Print Assumptions C14_suspend_ok_refuted.
Print Assumptions C14_resume_unknown.
Print Assumptions C14_resume_notsuspended.
Print Assumptions C14_resume_wakes.
Print Assumptions C15_sleep_partial.
Print Assumptions C15_timeout_partial.
Print Assumptions C15_sleep_refuted.
Print Assumptions C15_timeout_refuted.
Print Assumptions C16_pass.
Print Assumptions C16_expired_woken.
Print Assumptions C16_none_else.
Print Assumptions C14_suspend_select_refuted.
Print Assumptions C14_suspend_work_refuted.
Print Assumptions C15_sleep_select_refuted.
Print Assumptions C15_sleep_work_refuted.
