(** C38: neco_work.
    [TWorkDone c k] in a trace: a worker thread has finished the work function that
    coroutine [c] handed over in its API call number [k]. *)
From Coq Require Import List ZArith Bool Lia.
From Verif Require Import AATreeSpec AATreeHist Util Runtime SchedInv StepInv StackShape RuntimeSpec TraceInv Immediate Prims StaticInv Footprint QueueInv OwnInv WaitInv CallInv CountInv SpecInv TraceStep Wake Awake AllInv ResultInv JoinInv WaiterInv BlockSpec WorkInv Scripts.
Import ListNotations.
Local Open Scope Z_scope.

(** no neco_cancel aimed at [c], and no neco_chan_select by [c] *)
Definition undisturbed (c : Z) (t : list obs) : Prop := forall k x o tm, In (TCall k x o tm) t ->
  match o with OpCancel id _ => id <> c | OpSelect _ _ => x <> c | _ => True end.
Lemma undisturbed_wsafe : forall c t, undisturbed c t -> wsafe c t.
Proof.
  intros c t U. split.
  - intros k x dl tm H. apply U in H. congruence.
  - intros (k & o & tm & H & B). apply U in H. destruct o; try discriminate. congruence.
Qed.

(** neco_work returns only after its work function has finished. The code allows
    neco_cancel to wake the caller early, see the refutation below. *)
Theorem C38_after_done_partial : forall s, reach s -> forall c, undisturbed c (tr s) -> forall l1 l2 k b v m t,
  tr s = l1 ++ TRet k c (OpWork b) v m t :: l2 -> In (TWorkDone c k) l2.
Proof.
  intros s RE c0 UD l1 l2 k b v m t EQ.
  pose (Q := fun (k : nat) (c : Z) (o : op) (v m t : Z) (T : list obs) => c = c0 -> forall b, o = OpWork b -> In (TWorkDone c k) T).
  assert (P : Q k c0 (OpWork b) v m t l2); [|eapply P; reflexivity].
  eapply (result_before (wsafe c0) Q); try eassumption; try exact (fun H => H); [| | | |apply undisturbed_wsafe, UD]; unfold Q; clear.
  - intros t t' S. apply wsafe_mono, S.
  - intros k c o v m n n' t t' S LE H E1 b E2. eapply S, H; eassumption.
  - intros s c o d v RE M CU U NR E G _ b ->. cbn [hcall] in E. unfold do_work, work_submit in E. destruct b; discriminate E.
  - intros s c f w b d v k o st RE M CU SK L NH E G -> b0 ->.
    destruct (api_frame _ _ _ _ _ _ _ _ _ _ _ L E) as [[SH _]|[[-> H]|(b1 & H)]]; [|discriminate H|discriminate H].
    apply tick_tr_old. assert (G0 : wsafe c0 (tr s)) by (eapply wsafe_mono; [|exact G]; intros z; apply tick_tr_old).
    destruct (reach_wk _ RE c0 G0) as [I1 _ _ I4 _].
    inversion SH; subst; try match goal with H : pz _ [_] |- _ => inversion H; fail end.
    + destruct (I4 _ SK) as [J|J]; [|exact J]. exfalso. eapply cur_notpaused; [apply reach_full, RE | exact CU | apply I1, J].
    + cbn [hret] in E. unfold work_submit in E. destruct b; discriminate E.
Qed.
(** It never fails and never reports a cancellation or a time-out ... *)
Theorem C38_result_ok : forall s, reach s -> forall l1 l2 k c b v m t, tr s = l1 ++ TRet k c (OpWork b) v m t :: l2 -> v = OK.
Proof.
  intros s RE l1 l2 k c b v m t EQ.
  pose (Q := fun (k : nat) (c : Z) (o : op) (v m t : Z) (T : list obs) => forall b, o = OpWork b -> v = OK).
  assert (P : Q k c (OpWork b) v m t l2); [|eapply P; reflexivity].
  eapply (result_before (fun _ => True) Q); try eassumption; try exact (fun H => H); try exact Logic.I; unfold Q; clear.
  - auto.
  - intros k c o v m n n' t t' S LE H b E. eapply H, E.
  - intros s c o d v RE M CU U NR E _ b ->. cbn [hcall] in E. unfold do_work, work_submit in E. destruct b; discriminate E.
  - intros s c f w b d v k o st RE M CU SK L NH E _ b0 ->.
    destruct (api_frame _ _ _ _ _ _ _ _ _ _ _ L E) as [[SH _]|[[-> H]|(b1 & H)]]; [|discriminate H|discriminate H].
    inversion SH; subst; try match goal with H : pz _ [_] |- _ => inversion H; fail end; cbn [hret] in E.
    + injection E as _ <-. reflexivity.
    + unfold work_submit in E. destruct b; discriminate E.
Qed.
(** ... and each call returns at most once. *)
Theorem C38_returns_once : forall s, reach s -> forall l1 l2 k c b v m t c' o' v' m' t',
  tr s = l1 ++ TRet k c (OpWork b) v m t :: l2 -> ~ In (TRet k c' o' v' m' t') l1 /\ ~ In (TRet k c' o' v' m' t') l2.
Proof.
  intros s RE l1 l2 k c b v m t c' o' v' m' t' EQ. pose proof (reach_cinv _ RE) as CI. split; intros H.
  - apply in_split in H. destruct H as (a & b0 & ->). rewrite <- app_assoc in EQ. cbn in EQ.
    destruct (ci_ret _ CI _ _ _ _ _ _ _ _ EQ) as (_ & N & _). apply N. do 5 eexists. apply in_or_app. right. left. reflexivity.
  - destruct (ci_ret _ CI _ _ _ _ _ _ _ _ EQ) as (_ & N & _). apply N. do 5 eexists. exact H.
Qed.
(** While the work function has not finished, its caller stays blocked whatever the
    other coroutines, the scheduler and the worker threads do; once it has finished, the next
    scheduler pass makes the caller runnable. *)
Theorem C38_continues_partial : forall s ios c k b, reach s -> undisturbed c (tr s) -> blocked s c k (OpWork b) -> mode s = MMain ->
  In (TWorkDone c k) (tr s) -> (exists n, mode (step s (EMain ios)) = MKilled n) \/ runnable (step s (EMain ios)) c.
Proof.
  intros s ios c k b RE UD B M TD. apply undisturbed_wsafe in UD. destruct (reach_wk _ RE c UD) as [I1 I2 I3 I4 I5 I6 I7].
  destruct (blocked_frames _ _ _ _ RE B) as (w & st & SK & BF). pose proof (proj1 B) as PA.
  assert (SW : stk (sc s) c = FWork :: FApi k (OpWork b) :: st).
  { rewrite SK. remember (OpWork b) as o eqn:EO. destruct BF as [f o WF HO|v m d2 ret|b0]; try discriminate EO.
    - subst o. destruct f; cbn in HO; try contradiction; discriminate.
    - reflexivity. }
  destruct (I5 _ SW PA) as [J|[J|J]].
  - exfalso. eapply I7; [exact SW | right; auto | exact TD].
  - destruct (pass_inv s ios RE M (paused_active _ _ RE PA)) as [K|(d & ws & sch & md & PS & X & ST)]; [auto|]. right.
    apply notpaused_runnable; [apply reach_step, RE | |]; rewrite ST; cbn [set_sc set_dt set_mode sc].
    + apply sco_switch_frame in X. destruct X as (X1 & _). destruct (wakes_frame ws (sc s)) as (W1 & _). rewrite X1, W1, SW. discriminate.
    + rewrite (switch_paused _ _ _ _ X). intros H. apply wakes_in in H. destruct H as [_ H]. apply H.
      destruct (0 <? npsd (sc s)) eqn:NP; [eapply (proj2 (paused_step_io _ _ _ _ _ _ PS (work_counted _ _ _ RE SW))), J|]. exfalso.
      destruct (reach_full _ RE) as [[SI _] _]. pose proof (ct_psd _ (si_counts _ SI)) as Q. apply Z.ltb_ge in NP.
      destruct (paused (sc s)); [destruct PA|]. cbn in Q. lia.
  - apply resumed_at_pass; assumption.
Qed.
Lemma stk_paused : forall s e x, full s -> In x (paused (sc s)) -> stk (sc (step s e)) x = stk (sc s) x.
Proof.
  intros s e x F PA.
  assert (EQ : forall c k st' sch md, cur (sc s) = Some c -> exec c k (set_stk (zupd (stk (sc s)) c st') (sc s)) = (sch, md) -> stk sch x = stk (sc s) x).
  { intros c k st' sch md CU X. pose proof (cur_notfresh _ _ F CU) as NFR. pose proof (cur_notpaused _ _ F CU) as NP.
    assert (NE : x <> c) by congruence.
    destruct (exec_stk_cases _ _ _ _ _ X NFR x) as [[? _]|[(_ & Q & _)|(_ & E & _)]]; [contradiction| |].
    - exfalso. destruct F as [[SI _] _]. assert (A : stk (sc s) x <> []) by (apply (si_alive _ SI); unfold everyone, parked; rewrite !in_app_iff; auto).
      apply (si_ids _ SI) in A. cbn in Q. lia.
    - rewrite E. cbn. apply zupd_neq, NE. }
  apply (gstep_preserves (fun z => full z /\ z = s) (fun z => stk (sc z) x = stk (sc s) x)); try (intros z H; apply H); auto.
  - intros z c o d fs k sch md [_ ->] _ M CU U NR E X. cbn [sc]. eapply EQ; eassumption.
  - intros z c v f rest b d fs k sch md [_ ->] _ M CU SK L E X. cbn [sc]. eapply EQ; eassumption.
  - intros z d ws sch md ios [_ ->] _ M A K X. apply sco_switch_frame in X. destruct X as (X1 & _). destruct (wakes_frame ws (sc s)) as (W1 & _).
    cbn [set_sc set_dt set_mode sc]. rewrite X1, W1. reflexivity.
  - intros z m [_ ->] _ _. reflexivity.
  - intros z e0 [_ ->] _ H _. destruct (env_frame s e0 H) as (-> & _). reflexivity.
Qed.
Theorem C38_stays_blocked_partial : forall s e c k b, reach s -> undisturbed c (tr (step s e)) -> blocked s c k (OpWork b) ->
  ~ In (TWorkDone c k) (tr (step s e)) -> blocked (step s e) c k (OpWork b).
Proof.
  intros s e c k b RE UD B N. apply undisturbed_wsafe in UD. destruct (reach_wk _ (reach_step _ e RE) c UD) as [I1 _ _ I4 _ _ _].
  destruct (blocked_frames _ _ _ _ RE B) as (w & st & SK & BF).
  pose proof (stk_paused s e c (reach_full _ RE) (proj1 B)) as SE. rewrite SK in SE.
  assert (SW : w = [FWork]).
  { remember (OpWork b) as o eqn:EO. destruct BF as [f o WF HO|v m d2 ret|b0]; try discriminate EO.
    - subst o. destruct f; cbn in HO; try contradiction; discriminate.
    - reflexivity. }
  subst w. destruct (I4 _ SE) as [J|J]; [|contradiction]. split; [apply I1, J|]. exists [FWork], st. split; [exact SE|].
  intros j p [J2|[]]. discriminate.
Qed.

(** The caller is canceled while its work function runs: neco_work returns NECO_OK
    although the function has not finished. *)
Theorem C38_after_done_refuted : exists s k c b m t, reach s /\ In (TRet k c (OpWork b) OK m t) (tr s) /\
  forall c' k', ~ In (TWorkDone c' k') (tr s).
Proof.
  exists (script [ECall OpStart; ECall OpStart; ECall (OpWork true); ECall OpYield; ECall (OpCancel 3 MAXI); ECall OpYield; ECall OpYield]).
  exists 2%nat, 3, true, 0, 1000. split; [apply script_reach|]. split; [vm_compute; tauto|].
  intros c' k' H. assert (F : forallb (fun z => match z with TWorkDone _ _ => false | _ => true end) (tr (script [ECall OpStart; ECall OpStart; ECall (OpWork true); ECall OpYield; ECall (OpCancel 3 MAXI); ECall OpYield; ECall OpYield])) = true) by (vm_compute; reflexivity).
  rewrite forallb_forall in F. apply F in H. discriminate H.
Qed.

(** The same without any neco_cancel in the history. A select times out; before its
    coroutine (2) runs, another one broadcasts on the channel. The broadcast counts 2
    as a receiver and leaves it in the list of coroutines to resume (neco.c:5974-5999),
    where the end of the select (neco.c:6296-6301) does not look. The next neco_work of 2
    is ended by that entry. This is why [undisturbed] excludes select. *)
Definition ex_stale : list event := [ECall (OpChMake 0); ECall OpStart; ECall (OpSelect [0%nat] 1500); ECall OpStart; ECall OpYield; EAdv 5000; ECall OpYield; ECall OpYield; ECall (OpBcast 0 7)].
Theorem C38_select_refuted : exists s k c b m t, reach s /\ In (TRet k c (OpWork b) OK m t) (tr s) /\
  (forall c' k', ~ In (TWorkDone c' k') (tr s)) /\ (forall k' c' id dl tm, ~ In (TCall k' c' (OpCancel id dl) tm) (tr s)).
Proof.
  exists (script (ex_stale ++ [ECall (OpWork true); ECall OpYield; ECall OpYield])), 8%nat, 2, true, 0, 5000.
  split; [apply script_reach|]. split; [vm_compute; tauto|].
  assert (F : forallb (fun z => match z with TWorkDone _ _ | TCall _ _ (OpCancel _ _) _ => false | _ => true end) (tr (script (ex_stale ++ [ECall (OpWork true); ECall OpYield; ECall OpYield]))) = true) by (vm_compute; reflexivity).
  rewrite forallb_forall in F. split; intros; intros H; apply F in H; discriminate H.
Qed.

(** Non-vacuity: coroutine 2 hands over work, the worker finishes, the call returns. *)
Lemma undist_ok : forall c t, forallb (fun z => match z with TCall _ x (OpCancel id _) _ => negb (id =? c) | TCall _ x (OpSelect _ _) _ => negb (x =? c) | _ => true end) t = true -> undisturbed c t.
Proof.
  intros c t H k x o tm J. rewrite forallb_forall in H. apply H in J. destruct o; auto; apply negb_true_iff, Z.eqb_neq in J; exact J.
Qed.
Definition ex_work : state := script [ECall OpStart; ECall (OpWork true); EWorkDone 2; ECall OpYield; ECall OpYield; ECall OpYield].
Example C38_example : reach ex_work /\ undisturbed 2 (tr ex_work) /\
  exists l1 m t l2, tr ex_work = l1 ++ TRet 1 2 (OpWork true) OK m t :: l2.
Proof.
  split; [apply script_reach|]. split; [apply undist_ok; vm_compute; reflexivity|].
  eexists [_; _], 0, 1000, _. vm_compute. reflexivity.
Qed.
(** The same run just before the worker finishes, and just after it. *)
Definition ex_busy : state := run (init g0) [ECall OpStart; ECall (OpWork true); ETick true; ECall OpYield].
Example C38_example_blocked : reach ex_busy /\ undisturbed 2 (tr ex_busy) /\ blocked ex_busy 2 1 (OpWork true) /\ mode ex_busy = MMain /\
  reach (step ex_busy (EWorkDone 2)) /\ undisturbed 2 (tr (step ex_busy (EWorkDone 2))) /\ blocked (step ex_busy (EWorkDone 2)) 2 1 (OpWork true) /\
  In (TWorkDone 2 1) (tr (step ex_busy (EWorkDone 2))) /\ mode (step ex_busy (EWorkDone 2)) = MMain /\
  cur (sc (step (step ex_busy (EWorkDone 2)) (EMain []))) = Some 1.
Proof.
  assert (R : reach ex_busy) by (exists g0; eexists; split; [exact g0_ok | reflexivity]).
  assert (B : forall s, stk (sc s) 2 = [FWork; FApi 1 (OpWork true); FEntry] -> In 2 (paused (sc s)) -> blocked s 2 1 (OpWork true)).
  { intros s A P. split; [exact P|]. exists [FWork], [FEntry]. split; [exact A|]. intros j p [J|[]]. discriminate. }
  split; [exact R|]. split; [apply undist_ok; vm_compute; reflexivity|]. split; [apply B; vm_compute; [reflexivity | tauto]|].
  split; [vm_compute; reflexivity|]. split; [apply reach_step, R|]. split; [apply undist_ok; vm_compute; reflexivity|].
  split; [apply B; vm_compute; [reflexivity | tauto]|]. split; [vm_compute; tauto|]. split; vm_compute; reflexivity.
Qed.
Print Assumptions C38_after_done_partial.
Print Assumptions C38_result_ok.
Print Assumptions C38_returns_once.
Print Assumptions C38_continues_partial.
Print Assumptions C38_stays_blocked_partial.
Print Assumptions C38_after_done_refuted.
Print Assumptions C38_select_refuted.
