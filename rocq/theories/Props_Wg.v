(** C11: wait groups.
    [reach s]: [s] is the state after some history of a freshly started runtime.
    [wg_count w t] (WgSpec): the counter of wait group [w] after the history [t], computed
    from the calls made. [zero_during w k t] (WgSpec): it was zero at a moment of [t]
    after call [k] was made. [tidy t]: no object is initialised or destroyed while a
    call is using it. *)
From Coq Require Import List ZArith Bool Lia.
From Verif Require Import AATreeSpec AATreeHist Util Runtime SchedInv StepInv StackShape RuntimeSpec TraceInv Immediate Prims StaticInv Footprint QueueInv OwnInv WaitInv CallInv SpecInv TraceStep Wake Awake DeadlineInv AllInv PausedInv ResultInv JoinInv WaiterInv BlockSpec OneStep MutexSpec MutexEff MutexRt MutexInv MutexOrd AtCall WgSpec WgInv Stuck Scripts Props_Mutex.
Import ListNotations.
Local Open Scope Z_scope.

(** the wait group belongs to this runtime, or to none yet *)
Definition wg_own (s : state) (w : nat) : Prop := wrt (wgx (dt s) w) = 0 \/ wrt (wgx (dt s) w) = rtid (dt s).
(** [x] can run, or the scheduler is to resume it at its next pass *)
Definition woken (s : state) (x : Z) : Prop := runnable s x \/ to_resume s x.

(** The counter is never negative. *)
Theorem C11_count_nonneg : forall w t, 0 <= wg_count w t.
Proof.
  intros w t. induction t as [|z t IH]; [cbn; lia|]. destruct z; try exact IH. destruct o; cbn [wg_count]; try exact IH;
    (destruct (Nat.eqb _ w); [|exact IH]); try lia.
  - destruct (Z.ltb_spec (wg_count w t + d) 0); lia.
  - destruct (Z.eqb_spec (wg_count w t) 0); lia.
Qed.

Lemma own_check : forall s w, reach s -> ~ over (mode s) -> wg_own s w -> exists d1, check_wg w (dt s) = (OK, d1) /\ wcount (wgx d1 w) = wg_count w (tr s) /\
  q d1 (QWg w) = q (dt s) (QWg w) /\ q d1 QRes = q (dt s) QRes.
Proof.
  intros s w RE NO OW. destruct (reach_wgi _ RE) as [WI _]. pose proof (wi_ok _ (WI NO) w) as W. destruct (check_wg w (dt s)) as [v d1] eqn:CK.
  destruct (check_wg_eff _ _ _ _ _ (reach_rt _ RE) W CK) as [(_ & _ & A & B)|(-> & _ & _ & C & D & _)]; [destruct OW; contradiction|].
  exists d1. split; [reflexivity|]. split; [exact C|]. split; [exact D|]. clear - CK. unfold check_wg in CK.
  destruct (_ =? 0); [injection CK as CK; subst d1; reflexivity|]. destruct (negb _); [discriminate CK|]. injection CK as CK; subst d1; reflexivity.
Qed.

(** neco_waitgroup_add returns at once; it reports NECO_NEGWAITGRP and changes nothing
    when the counter would become negative (by definition of [wg_count]), and adds
    otherwise. No coroutine moves. *)
Theorem C11_add : forall s c w n b, reach s -> mode s = MUser -> cur (sc s) = Some c -> wg_own s w ->
  -2147483648 <= wg_count w (tr s) + n <= 2147483647 ->
  let s' := step (step s (ECall (OpWgAdd w n))) (ETick b) in
  let r := if wg_count w (tr s) + n <? 0 then ENEGWAITGRP else OK in
  mode s' = MUser /\ cur (sc s') = Some c /\ ready s' = ready s /\ paused (sc s') = paused (sc s) /\
  (exists m, tr s' = TRet (ncalls s) c (OpWgAdd w n) r m (now s) :: TCall (ncalls s) c (OpWgAdd w n) (now s) :: tr s) /\
  wg_count w (tr s') = (if wg_count w (tr s) + n <? 0 then wg_count w (tr s) else wg_count w (tr s) + n).
Proof.
  intros s c w n b RE MU CU OW RG s' r. destruct (own_check s w RE ltac:(rewrite MU; exact (fun z => z)) OW) as (d1 & CK & WC & _).
  assert (H : exists d, hcall c (OpWgAdd w n) (now s) (dt s) = (d, [], CRet r)).
  { cbn [hcall]. unfold do_wgadd. rewrite CK. change (negb (OK =? OK)) with false. cbv iota zeta. rewrite WC.
    destruct (Z.ltb_spec (wg_count w (tr s) + n) (-2147483648)); [lia|]. destruct (Z.ltb_spec 2147483647 (wg_count w (tr s) + n)); [lia|]. cbn [orb]. unfold r.
    destruct (_ <? 0); eexists; reflexivity. }
  destruct H as (d & H).
  pose proof (call_returns s c (OpWgAdd w n) d r b RE MU CU ltac:(split; discriminate) ltac:(unfold r; destruct (_ <? 0); discriminate) H) as K. cbv zeta in K. fold s' in K. clearbody s'.
  destruct K as (K1 & K2 & K3 & K4 & K5 & K6). split; [exact K1|]. split; [exact K3|]. split; [exact K4|]. split; [exact K5|]. split; [eexists; exact K6|].
  rewrite K6. cbn [wg_count]. rewrite Nat.eqb_refl. reflexivity.
Qed.
(** Outside the range of int the addition is undefined behaviour. *)
Theorem C11_add_overflow : forall s c w n, reach s -> mode s = MUser -> cur (sc s) = Some c -> wg_own s w ->
  ~ (-2147483648 <= wg_count w (tr s) + n <= 2147483647) -> mode (step s (ECall (OpWgAdd w n))) = MUB.
Proof.
  intros s c w n RE MU CU OW RG. destruct (own_check s w RE ltac:(rewrite MU; exact (fun z => z)) OW) as (d1 & CK & WC & _).
  assert (H : hcall c (OpWgAdd w n) (now s) (dt s) = (d1, [], CUB)).
  { cbn [hcall]. unfold do_wgadd. rewrite CK. change (negb (OK =? OK)) with false. cbv iota zeta. rewrite WC.
    destruct (Z.ltb_spec (wg_count w (tr s) + n) (-2147483648)); [reflexivity|]. destruct (Z.ltb_spec 2147483647 (wg_count w (tr s) + n)); [reflexivity|]. lia. }
  destruct (exec c CUB (set_stk (zupd (stk (sc s)) c ([] ++ FApi (ncalls s) (OpWgAdd w n) :: stk (sc s) c)) (sc s))) as [sch md] eqn:X.
  rewrite (step_call_eq s c (OpWgAdd w n) _ _ _ _ _ MU CU ltac:(discriminate) H X). cbn in X. injection X as _ <-. reflexivity.
Qed.
(** neco_waitgroup_done at zero reports NECO_NEGWAITGRP; above one it just counts down. *)
Theorem C11_done : forall s c w b, reach s -> mode s = MUser -> cur (sc s) = Some c -> wg_own s w -> wg_count w (tr s) <> 1 ->
  let s' := step (step s (ECall (OpWgDone w))) (ETick b) in
  let r := if wg_count w (tr s) =? 0 then ENEGWAITGRP else OK in
  mode s' = MUser /\ cur (sc s') = Some c /\ ready s' = ready s /\ paused (sc s') = paused (sc s) /\
  (exists m, tr s' = TRet (ncalls s) c (OpWgDone w) r m (now s) :: TCall (ncalls s) c (OpWgDone w) (now s) :: tr s) /\
  wg_count w (tr s') = (if wg_count w (tr s) =? 0 then 0 else wg_count w (tr s) - 1).
Proof.
  intros s c w b RE MU CU OW N1 s' r. destruct (own_check s w RE ltac:(rewrite MU; exact (fun z => z)) OW) as (d1 & CK & WC & _).
  assert (H : exists d, hcall c (OpWgDone w) (now s) (dt s) = (d, [], CRet r)).
  { cbn [hcall]. unfold do_wgdone. rewrite CK. change (negb (OK =? OK)) with false. cbv iota zeta. rewrite WC. unfold r.
    destruct (Z.eqb_spec (wg_count w (tr s)) 0); [eexists; reflexivity|]. unfold upwg. cbn [wgx set_wgx]. unfold nupd. rewrite Nat.eqb_refl. cbn [wcount set_wcount].
    destruct (Z.eqb_spec (wg_count w (tr s) - 1) 0); [lia|]. cbn [negb]. eexists; reflexivity. }
  destruct H as (d & H).
  pose proof (call_returns s c (OpWgDone w) d r b RE MU CU ltac:(split; discriminate) ltac:(unfold r; destruct (_ =? 0); discriminate) H) as K. cbv zeta in K. fold s' in K. clearbody s'.
  destruct K as (K1 & K2 & K3 & K4 & K5 & K6). split; [exact K1|]. split; [exact K3|]. split; [exact K4|]. split; [exact K5|]. split; [eexists; exact K6|].
  rewrite K6. cbn [wg_count]. rewrite Nat.eqb_refl. reflexivity.
Qed.
(** What neco_waitgroup_wait answering NECO_OK means: the counter was zero at some moment
    during the call. *)
Theorem C11_wait_ok : forall s l1 l2 k c w dl m t, reach s -> tr s = l1 ++ TRet k c (OpWgWait w dl) OK m t :: l2 -> zero_during w k l2.
Proof. intros s l1 l2 k c w dl m t RE EQ. exact (proj2 (reach_wgi _ RE) l1 l2 k c w dl m t EQ). Qed.

(** ** Waking *)
Lemma resume_all_res : forall k n d, k <> QRes -> length (q d k) = n -> NoDup (q d k) -> (forall y, In y (q d k) -> y = NCo (node_co y)) ->
  forall x, In (NCo x) (q d k) \/ In (NCo x) (q d QRes) -> In (NCo x) (q (resume_all k n d) QRes).
Proof.
  intros k n. induction n as [|n IH]; intros d NK LE ND NN x H; cbn [resume_all].
  - destruct (q d k); [|discriminate LE]. destruct H as [[]|H]; exact H.
  - unfold popq. destruct (q d k) as [|y r] eqn:Q; [discriminate LE|]. injection LE as LE. apply NoDup_cons_iff in ND. destruct ND as [N1 N2].
    assert (NY : y = NCo (node_co y)) by (apply NN; left; reflexivity).
    set (d1 := set_q (qupd (q d) k r) d). assert (Q1 : q (sched_resume (node_co y) d1) k = r).
    { rewrite sched_resume_other; [|exact NK|]; unfold d1; cbn; rewrite qupd_eq; [reflexivity|]. rewrite <- NY. exact N1. }
    assert (NR : QRes <> k) by congruence. apply IH; rewrite ?Q1; auto; [intros z IZ; apply NN; right; exact IZ|]. rewrite In_sched_resume. unfold d1. cbn [q set_q]. rewrite qupd_neq by congruence.
    destruct (Z.eq_dec x (node_co y)) as [->|N]; [auto|]. destruct H as [[H|H]|H]; [rewrite H in N; cbn in N; congruence | auto |]. right. left. split; [exact H | congruence].
Qed.
(** a coroutine blocked in a wait is queued, or the scheduler is to resume it *)
Lemma waiting : forall s x k w dl, reach s -> tidy (tr s) -> blocked s x k (OpWgWait w dl) -> In (NCo x) (q (dt s) (QWg w)) \/ to_resume s x.
Proof.
  intros s x k w dl RE T B. destruct (reach_wl _ RE T) as [_ WL]. assert (PA : In x (paused (sc s))) by apply B.
  destruct (blocked_frames _ _ _ _ RE B) as (l & st & SK & BF). inversion BF as [f o WF H|v m0 dl0 ret|b]; subst.
  assert (QF : f = FWgWait w) by (destruct f; try destruct H; try discriminate WF; reflexivity). subst f.
  apply (WL x (FWgWait w) (FApi k (OpWgWait w dl) :: st) (QWg w)); [rewrite SK; reflexivity | reflexivity | exact PA].
Qed.
(** When neco_waitgroup_done brings the counter to zero, every coroutine blocked in
    neco_waitgroup_wait on the group is woken. *)
Theorem C11_done_wakes : forall s c w x k dl, reach s -> tidy (tr s) -> mode s = MUser -> cur (sc s) = Some c -> wg_own s w -> wg_count w (tr s) = 1 ->
  blocked s x k (OpWgWait w dl) -> let s' := step s (ECall (OpWgDone w)) in wg_count w (tr s') = 0 /\ woken s' x.
Proof.
  intros s c w x k dl RE T MU CU OW C1 B s'. pose proof (waiting _ _ _ _ _ RE T B) as WT. assert (PA : In x (paused (sc s))) by apply B.
  destruct (own_check s w RE ltac:(rewrite MU; exact (fun z => z)) OW) as (d1 & CK & WC & Q1 & Q2).
  destruct (hcall c (OpWgDone w) (now s) (dt s)) as [[d fs] kk] eqn:E.
  destruct (exec c kk (set_stk (zupd (stk (sc s)) c (fs ++ FApi (ncalls s) (OpWgDone w) :: stk (sc s) c)) (sc s))) as [sch md] eqn:X.
  assert (RS : reach s') by (apply reach_step, RE).
  assert (SE : s' = mkst sch (ctl_dat c (nextid (sc s) + 1) kk d) md (now s) (S (ncalls s)) (call_tr s c (OpWgDone w) fs kk)) by (apply step_call_eq; try assumption; discriminate).
  split; [rewrite SE; cbn [tr]; rewrite count_call; cbn [eff]; rewrite Nat.eqb_refl, C1; reflexivity|].
  cbn [hcall] in E. unfold do_wgdone in E. rewrite CK in E. change (negb (OK =? OK)) with false in E. cbv iota zeta in E. rewrite WC, C1 in E. change (1 =? 0) with false in E. cbv iota in E.
  set (d2 := upwg w (set_wcount (1 - 1)) d1) in *. assert (W2 : wcount (wgx d2 w) = 0 /\ q d2 = q d1) by (unfold d2, upwg; cbn; unfold nupd; rewrite Nat.eqb_refl; auto).
  destruct W2 as (W2 & W3). clearbody d2. rewrite W2 in E. change (negb (0 =? 0)) with false in E. cbv iota in E.
  pose proof (exec_paused _ _ _ _ _ X) as XP. cbn [set_stk paused] in XP.
  assert (NX : x <> c) by (intros ->; exact (cur_notpaused _ _ (reach_full _ RE) CU PA)).
  destruct (q d2 (QWg w)) as [|n [|n2 l]] eqn:QQ.
  - injection E as <- <- <-. rewrite W3, Q1 in QQ. rewrite QQ in WT. destruct WT as [[]|WT]. right. unfold to_resume. rewrite SE. cbn [dt ctl_dat]. rewrite W3, Q2. exact WT.
  - injection E as <- <- <-. rewrite W3, Q1 in QQ. destruct WT as [WT|WT].
    + rewrite QQ in WT. destruct WT as [WT|[]]. subst n. cbn [node_co] in *. left. apply notpaused_runnable; [exact RS | |]; rewrite SE; cbn [sc].
      * destruct (exec_stk_cases _ _ _ _ _ X (cur_notfresh _ _ (reach_full _ RE) CU) x) as [(D & _)|[(_ & _ & (g & D) & _)|(_ & SS & _)]]; [contradiction | discriminate D |]. rewrite SS. cbn. rewrite zupd_neq by exact NX. destruct B as (_ & l & st & SK & _). rewrite SK. destruct l; discriminate.
      * rewrite XP. destruct (mem x (paused (sc s))) eqn:ME; [|apply mem_In_false in ME; exact ME]. intros IN. apply remove1_In in IN. destruct IN as [_ N]. congruence.
    + right. unfold to_resume. rewrite SE. cbn [dt ctl_dat q set_q]. rewrite qupd_neq by discriminate. rewrite W3, Q2. exact WT.
  - apply yfsr_cases in E. destruct E as (-> & -> & _). right. unfold to_resume. rewrite SE. cbn [dt ctl_dat]. apply resume_all_res.
    + discriminate.
    + rewrite QQ. reflexivity.
    + rewrite W3, Q1. apply (proj1 (reach_uniq _ RE)).
    + intros y IY. rewrite W3, Q1 in IY. apply (objq_node s (QWg w) y RE Logic.I IY).
    + rewrite W3, Q1, Q2. exact WT.
Qed.

(** ** Nobody sleeps on a group that is at zero *)
(** no neco_waitgroup_add with a negative argument brought the counter to zero *)
Definition nodrop (w : nat) (t : list obs) : Prop :=
  forall l1 k c n tm l2, t = l1 ++ TCall k c (OpWgAdd w n) tm :: l2 -> n < 0 -> wg_count w l2 + n <> 0.
Lemma nodrop_app : forall w N T, nodrop w (N ++ T) -> nodrop w T.
Proof. intros w N T H l1 k c n tm l2 EQ. apply (H (N ++ l1) k c n tm l2). rewrite EQ. apply app_assoc. Qed.
Lemma nodrop_call : forall w s c o fs k, nodrop w (call_tr s c o fs k) -> nodrop w (tr s) /\ forall n, o = OpWgAdd w n -> n < 0 -> wg_count w (tr s) + n <> 0.
Proof.
  intros w s c o fs k H. unfold call_tr in H. split.
  - rewrite !app_assoc in H. apply nodrop_app in H. exact H.
  - intros n ->. rewrite app_assoc in H. cbn [call_obs app] in H. intros NN. eapply H; [reflexivity | exact NN].
Qed.
Lemma drop_call : forall w c o nw d d' fs k T T' n, 0 < rtid d -> wok d T w -> hcall c o nw d = (d', fs, k) -> k <> CUB ->
  wg_count w T' = eff w o (wg_count w T) -> kcall c d o (QWg w) -> (forall a, o = OpWgAdd w a -> a < 0 -> wg_count w T + a <> 0) ->
  (forall y, In y (q d (QWg w)) -> 0 < wg_count w T) -> In n (q d' (QWg w)) -> NoDup (q d (QWg w)) -> (forall y, In y (q d (QWg w)) -> y = NCo (node_co y)) -> 0 < wg_count w T'.
Proof.
  intros w c o nw d d' fs k T T' n RT W E NU EF K NDR H IN ND NN. apply kcall_wg in K.
  destruct o; try contradiction; subst; cbn [hcall eff] in *; try rewrite Nat.eqb_refl in EF.
  - injection E as <- <- <-. unfold wg_init in IN. cbn in IN. rewrite qupd_eq in IN. destruct IN.
  - unfold do_wgadd in E. destruct (check_wg w d) as [v d1] eqn:CK. destruct (check_wg_eff _ _ _ _ _ RT W CK) as [(-> & -> & NZ & NR)|(-> & A & B & C & D & _)].
    + cbn in E. injection E as <- <- <-. destruct W as (_ & _ & W3). rewrite (W3 NR) in IN. destruct IN.
    + change (negb (OK =? OK)) with false in E. cbv iota in E. rewrite C in E. destruct (_ || _) in E; [injection E as <- <- <-; congruence|].
      assert (I0 : In n (q d (QWg w))) by (destruct (wg_count w T + d0 <? 0); injection E as <- <- <-; cbn in IN; rewrite D in IN; exact IN).
      specialize (H _ I0). specialize (NDR d0 eq_refl). rewrite EF. destruct (Z.ltb_spec (wg_count w T + d0) 0); lia.
  - unfold do_wgdone in E. destruct (check_wg w d) as [v d1] eqn:CK. destruct (check_wg_eff _ _ _ _ _ RT W CK) as [(-> & -> & NZ & NR)|(-> & A & B & C & D & _)].
    + cbn in E. injection E as <- <- <-. destruct W as (_ & _ & W3). rewrite (W3 NR) in IN. destruct IN.
    + change (negb (OK =? OK)) with false in E. cbv iota in E. rewrite C in E. destruct (Z.eqb_spec (wg_count w T) 0) as [Z|NZ].
      * injection E as <- <- <-. rewrite D in IN. specialize (H _ IN). lia.
      * set (d2 := upwg w (set_wcount (wg_count w T - 1)) d1) in *.
        assert (W2 : wcount (wgx d2 w) = wg_count w T - 1 /\ q d2 = q d1) by (unfold d2, upwg; cbn; unfold nupd; rewrite Nat.eqb_refl; cbn; auto).
        destruct W2 as (W3 & W5). clearbody d2. rewrite W3 in E. pose proof (C11_count_nonneg w T).
        destruct (Z.eqb_spec (wg_count w T - 1) 0) as [Z1|NZ1]; cbn [negb] in E; [|rewrite EF; lia]. exfalso.
        assert (QE : q d2 (QWg w) = q d (QWg w)) by (rewrite W5; exact D).
        destruct (q d2 (QWg w)) as [|n1 [|n2 l]] eqn:QQ.
        -- injection E as <- <- <-. rewrite QQ in IN. destruct IN.
        -- injection E as <- <- <-. cbn in IN. rewrite qupd_eq in IN. destruct IN.
        -- apply yfsr_d in E. subst d'. rewrite <- QQ in IN. rewrite <- QE, <- QQ in ND, NN. clear - IN ND NN.
           assert (G : forall m e, length (q e (QWg w)) = m -> NoDup (q e (QWg w)) -> (forall y, In y (q e (QWg w)) -> y = NCo (node_co y)) -> q (resume_all (QWg w) m e) (QWg w) = []).
           { intros m. induction m as [|m IH]; intros e LE NDe NNe; cbn [resume_all]; [destruct (q e (QWg w)); [reflexivity | discriminate LE]|].
             unfold popq. destruct (q e (QWg w)) as [|y r] eqn:Q; [discriminate LE|]. injection LE as LE. apply NoDup_cons_iff in NDe. destruct NDe as [N1 N2].
             assert (NY : y = NCo (node_co y)) by (apply NNe; left; reflexivity).
             set (e1 := set_q (qupd (q e) (QWg w) r) e). assert (Q1 : q (sched_resume (node_co y) e1) (QWg w) = r).
             { rewrite sched_resume_other; [|discriminate|]; unfold e1; cbn; rewrite qupd_eq; [reflexivity|]. rewrite <- NY. exact N1. }
             apply IH; rewrite Q1; auto. intros z IZ; apply NNe; right; exact IZ. }
           rewrite (G _ d2 eq_refl ND NN) in IN. destruct IN.
  - unfold do_wgwait in E. destruct (check_wg w d) as [v d1] eqn:CK. destruct (check_wg_eff _ _ _ _ _ RT W CK) as [(-> & -> & NZ & NR)|(-> & A & B & C & D & _)].
    + cbn in E. injection E as <- <- <-. destruct W as (_ & _ & W3). rewrite (W3 NR) in IN. destruct IN.
    + change (negb (OK =? OK)) with false in E. cbv iota in E.
      destruct (checkdl c dl nw d1) as [v2 d2] eqn:CD. 
      assert (Q2 : wgx d2 = wgx d1 /\ q d2 = q d1).
      { unfold checkdl in CD. repeat (match type of CD with context [if ?b then _ else _] => destruct b end); injection CD as <- <-; auto. }
      destruct Q2 as (Q2 & Q4). rewrite EF.
      destruct (negb _); [injection E as <- <- <-; rewrite Q4, D in IN; exact (H _ IN)|].
      rewrite Q2, C in E. destruct (Z.eqb_spec (wg_count w T) 0) as [Z0|NZ]; [unfold coyield in E; injection E as <- <- <-; rewrite Q4, D in IN; exact (H _ IN)|].
      pose proof (C11_count_nonneg w T). lia.
  - destruct (check_wg w d) as [v d1] eqn:CK. destruct (check_wg_eff _ _ _ _ _ RT W CK) as [(-> & -> & NZ & NR)|(-> & A & B & C & D & _)].
    + cbn in E. injection E as <- <- <-. destruct W as (_ & _ & W3). rewrite (W3 NR) in IN. destruct IN.
    + change (negb (OK =? OK)) with false in E. cbv iota in E. injection E as <- <- <-. cbn in IN. rewrite qupd_eq in IN. destruct IN.
Qed.
Definition zfree (s : state) : Prop := forall w n, nodrop w (tr s) -> In n (q (dt s) (QWg w)) -> 0 < wg_count w (tr s).
Lemma ctl_qwg_sub : forall c n k d w y, In y (q (ctl_dat c n k d) (QWg w)) -> In y (q d (QWg w)).
Proof. intros c n k d w y IN. exact (ctl_qin _ _ _ _ (QWg w) _ Logic.I IN). Qed.
Theorem reach_zfree : forall s, reach s -> ~ over (mode s) -> zfree s.
Proof.
  apply (rrun_preserves (fun s => ~ over (mode s) -> zfree s)).
  - intros s c o d fs k sch md RE I M CU U NR E X NU w n ND IN. cbn [tr dt] in *. apply ctl_qwg_sub in IN. destruct (nodrop_call _ _ _ _ _ _ ND) as [N1 N2].
    assert (NO : ~ over (mode s)) by (rewrite M; exact (fun z => z)). specialize (I NO). destruct (reach_wgi _ RE) as [WI _]. pose proof (wi_ok _ (WI NO) w) as W.
    assert (NK : k <> CUB) by (intros ->; cbn in X; injection X as _ <-; apply NU; exact Logic.I).
    assert (KD : kcall c (dt s) o (QWg w) \/ ~ kcall c (dt s) o (QWg w)).
    { destruct (match o with OpWgInit w' | OpWgAdd w' _ | OpWgDone w' | OpWgWait w' _ | OpWgDestroy w' => Nat.eqb w' w | _ => false end) eqn:B.
      - left. destruct o; try discriminate B; apply Nat.eqb_eq in B; subst; reflexivity.
      - right. intros K. apply kcall_wg in K. destruct o; try contradiction; subst; rewrite Nat.eqb_refl in B; discriminate B. }
    fold (call_tr s c o fs k) in *. destruct KD as [K|K].
    + eapply drop_call; try eassumption; [apply (reach_rt _ RE) | apply count_call | intros y IY; exact (I w y N1 IY) | apply (proj1 (reach_uniq _ RE)) | intros y IY; eapply objq_node; try eassumption; exact Logic.I].
    + rewrite count_call, (eff_other _ _ _ _ _ K). destruct (call_queue _ _ _ _ _ _ (QWg w) RE E Logic.I K) as [_ QI]. exact (I w n N1 (QI n IN)).
  - intros s c v f rest b d fs k sch md RE I M CU SK L E X _ w n ND IN. cbn [tr dt] in *. apply ctl_qwg_sub in IN. fold (tick_tr s c v f d fs k) in *. rewrite count_tick.
    assert (NO : ~ over (mode s)) by (rewrite M; exact (fun z => z)). apply (I NO w n).
    + unfold tick_tr in ND. rewrite !app_assoc in ND. apply nodrop_app in ND. exact ND.
    + eapply tick_queue; try eassumption; [exact Logic.I | apply kret_wg|]. intros W. destruct f; cbn in W; try discriminate W; exact W.
  - intros s d ws sch md ios RE I M A K X _ w n ND IN. cbn [tr dt] in *. pose proof (mp_main _ _ _ _ _ _ _ K) as MP. destruct (mprims_wg _ _ MP) as (_ & _ & E3). rewrite E3 in IN.
    apply (I ltac:(rewrite M; exact (fun z => z)) w n ND IN).
  - intros s m RE I HM NU. apply I. destruct HM as [[_ HM]|[(-> & _)|[(n & ->)| ->]]]; [rewrite HM; exact (fun z => z) | destruct (NU Logic.I) ..].
  - intros s e RE I H M NU w n ND IN. rewrite M in NU. rewrite (count_env w s e H). apply (I NU w n).
    + destruct (env_tr s e H) as [Q|(y & Q)]; rewrite Q in ND; [exact ND | apply (nodrop_app w [_] _ ND)].
    + destruct (env_q s e H) as [Q|(c & _ & _ & _ & Q)]; rewrite Q in IN; [exact IN|]. apply In_pushq in IN. destruct IN as [[IN _]|[D _]]; [exact IN | discriminate D].
  - intros g O _ w n _ IN. cbn in IN. destruct IN.
Qed.
(** In histories where no negative add brings the counter to zero, a coroutine blocked
    in neco_waitgroup_wait on a group whose counter is zero is about to be resumed
    (by [resumed_at_pass], at the scheduler's next pass). Missing for the full
    statement: negative adds, for which it is false (next theorem). *)
Theorem C11_zero_wakes_partial : forall s w x k dl, reach s -> tidy (tr s) -> ~ over (mode s) -> nodrop w (tr s) ->
  blocked s x k (OpWgWait w dl) -> wg_count w (tr s) = 0 -> to_resume s x.
Proof.
  intros s w x k dl RE T NO ND B Z0. destruct (waiting _ _ _ _ _ RE T B) as [IN|H]; [|exact H]. pose proof (reach_zfree _ RE NO w _ ND IN). lia.
Qed.
(** neco_waitgroup_add of -1 brings the counter to zero and wakes nobody: the waiter
    stays blocked whatever happens next. *)
Definition ex11r : state := script [ECall (OpWgAdd 0 1); ECall OpStart; ECall (OpWgWait 0 MAXI); ECall (OpWgAdd 0 (-1)); ECall (OpSuspend MAXI)].
Theorem C11_zero_wakes_refuted : exists s w x k, reach s /\ tidy (tr s) /\ wg_count w (tr s) = 0 /\ forall es, blocked (run s es) x k (OpWgWait w MAXI).
Proof.
  exists ex11r, 0%nat, 2, 2%nat. split; [apply script_reach|]. split; [apply noreset_tidy; vm_compute; reflexivity|]. split; [vm_compute; reflexivity|]. intros es.
  apply stuck_forever; [apply stuckb_ok; vm_compute; reflexivity|]. apply blockedb_ok. split; [vm_compute; auto|]. exists 2%nat. eexists. split; vm_compute; reflexivity.
Qed.

(** ** Non-vacuity *)
(** two coroutines (2 and 3) wait for the group, whose counter is one *)
Definition ex11 : state := script [ECall (OpWgAdd 0 2); ECall OpStart; ECall (OpWgWait 0 MAXI); ECall OpStart; ECall (OpWgWait 0 MAXI); ECall (OpWgDone 0)].
Example C11_done_wakes_example : reach ex11 /\ tidy (tr ex11) /\ mode ex11 = MUser /\ cur (sc ex11) = Some 1 /\ wg_own ex11 0 /\ wg_count 0 (tr ex11) = 1 /\
  blocked ex11 2 2 (OpWgWait 0 MAXI) /\ blocked ex11 3 4 (OpWgWait 0 MAXI).
Proof.
  split; [apply script_reach|]. split; [apply noreset_tidy; vm_compute; reflexivity|]. split; [vm_compute; reflexivity|]. split; [vm_compute; reflexivity|]. split; [right; vm_compute; reflexivity|].
  split; [vm_compute; reflexivity|]. split; apply blockedb_ok; (split; [vm_compute; auto|]); exists 2%nat; eexists; split; vm_compute; reflexivity.
Qed.
(** after the last done, the first waiter returns NECO_OK *)
Definition ex11d : state := script [ECall (OpWgAdd 0 2); ECall OpStart; ECall (OpWgWait 0 MAXI); ECall OpStart; ECall (OpWgWait 0 MAXI); ECall (OpWgDone 0); ECall (OpWgDone 0)].
Example C11_wait_ok_example : exists l1 l2, tr ex11d = l1 ++ TRet 2 2 (OpWgWait 0 MAXI) OK 0 1000 :: l2.
Proof. vm_compute. apply (in_split (TRet 2 2 (OpWgWait 0 MAXI) OK 0 1000)). cbn. tauto. Qed.
Example C11_zero_wakes_example : let s := step ex11 (ECall (OpWgDone 0)) in reach s /\ mode s <> MUB /\ blocked s 2 2 (OpWgWait 0 MAXI) /\ wg_count 0 (tr s) = 0.
Proof.
  cbv zeta. split; [apply reach_step, script_reach|]. split; [vm_compute; discriminate|]. split; [|vm_compute; reflexivity].
  apply blockedb_ok; (split; [vm_compute; auto|]); exists 2%nat; eexists; split; vm_compute; reflexivity.
Qed.

Print Assumptions C11_count_nonneg.
Print Assumptions C11_add.
Print Assumptions C11_add_overflow.
Print Assumptions C11_done.
Print Assumptions C11_wait_ok.
Print Assumptions C11_done_wakes.
Print Assumptions C11_zero_wakes_partial.
Print Assumptions C11_zero_wakes_refuted.
