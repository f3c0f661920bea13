(** C57: the scheduler loop cannot be kept from running, and whoever it is due to wake
    gets a turn soon. *)
From Coq Require Import List ZArith Bool Lia.
From Verif Require Import AATreeSpec AATreeHist Util Runtime SchedInv StepInv StackShape RuntimeSpec TraceInv Immediate Prims StaticInv Footprint QueueInv OwnInv WaitInv CallInv CountInv SpecInv TraceStep Wake Awake AllInv ResultInv JoinInv WaiterInv BlockSpec WorkInv Scripts ReadyQueue Pace Stuck Props_Work Props_Sched Props_Wait.
Import ListNotations.
Local Open Scope Z_scope.

(** ** Specification.
    [turns s s' new]: the coroutines switched in between [s] and [s'], oldest first;
    [starts s s' n]: [n] coroutines were started; [live s l]: [l] lists the coroutines
    that have been started and have not ended. *)
Definition turns (s s' : state) (new : list Z) : Prop := disp (sc s') = rev new ++ disp (sc s).
Definition starts (s s' : state) (n : nat) : Prop := exists l, started (tr s') = l ++ started (tr s) /\ length l = n.
Definition live (s : state) (l : list Z) : Prop := forall c, alive (tr s) c -> In c l.

Lemma live_everyone : forall s l, reach s -> live s l -> (length (everyone (sc s)) <= length l)%nat.
Proof.
  intros s l RE L. destruct (reach_full _ RE) as [[SI _] _]. apply NoDup_incl_length; [apply SI|]. intros c I. apply L.
  destruct (C21_exactly_one_place s c RE) as [_ B].
  assert (D : alive (tr s) c \/ ~ alive (tr s) c) by (unfold alive; destruct (in_dec Z.eq_dec c (started (tr s))), (in_dec Z.eq_dec c (exited (tr s))); tauto).
  destruct D as [A|NA]; [exact A|]. exfalso. apply B in NA. apply (count_occ_not_In Z.eq_dec) in NA. apply NA, I.
Qed.
Lemma runners_everyone : forall s, (length (runners (sc s)) <= length (everyone (sc s)))%nat.
Proof. intros s. unfold everyone, parked. rewrite !app_length. lia. Qed.

(** As long as some coroutine is blocked, the scheduler loop (which looks after timers,
    descriptors, signals and finished background work) runs again after at most as many
    turns as there are live coroutines, plus one per start: no yielding or mutual waking
    keeps it away. *)
Theorem C57_loop_runs : forall es s x l, reach s -> live s l ->
  (forall n, (n <= length es)%nat -> In x (paused (sc (run s (firstn n es)))) /\ mode (run s (firstn n es)) <> MMain) ->
  exists new n, turns s (run s es) new /\ starts s (run s es) n /\ (length new <= length l + n)%nat.
Proof.
  intros es s x l RE L H.
  assert (G : exists new n, turns s (run s es) new /\ starts s (run s es) n /\ (length new + length (runners (sc (run s es))) <= length (runners (sc s)) + n)%nat).
  { clear L. revert s RE H. induction es as [|e es IH]; intros s RE H; [exists [], 0%nat; split; [reflexivity|]; split; [exists []; auto | cbn; lia]|].
    destruct (H 0%nat (Nat.le_0_l _)) as [PA NM]. cbn [firstn run fold_left] in PA, NM.
    destruct (step_pace x e s (reach_full _ RE) PA) as (nst & ST & new & D & _ & _ & _ & RU).
    assert (PA' : In x (paused (sc (step s e)))) by (apply (H 1%nat); cbn; lia).
    destruct (IH (step s e) (reach_step _ e RE)) as (new2 & n2 & D2 & (l2 & S2 & <-) & B2).
    { intros n LN. apply (H (S n)). cbn. lia. }
    exists (new ++ new2), (length l2 + length nst)%nat. unfold turns, starts in *. cbn [run fold_left] in *. fold (run (step s e) es) in *.
    split; [rewrite D2, D, rev_app_distr, app_assoc; reflexivity|]. split; [exists (l2 ++ nst); rewrite S2, ST, app_assoc, app_length; auto|].
    rewrite app_length. assert (length new + length (runners (sc (step s e))) <= length (runners (sc s)) + length nst)%nat by (apply RU; [destruct (mode s); congruence | exact PA']). lia. }
  destruct G as (new & n & A & B & C). exists new, n. split; [exact A|]. split; [exact B|].
  pose proof (live_everyone _ _ RE L). pose proof (runners_everyone s). lia.
Qed.

(** the shape of the answers below *)
Definition soon (s : state) (x : Z) : Prop := forall es l, live s l ->
  exists new n, turns s (run s es) new /\ starts s (run s es) n /\ (In x new \/ (length new <= 2 * (length l + n))%nat).
Lemma due_soon : forall x (W : state -> Prop), (forall s, W s -> In x (paused (sc s))) ->
  (forall s e, reach s -> W s -> In x (paused (sc (step s e))) -> W (step s e)) ->
  (forall s ios, reach s -> W s -> mode s = MMain -> (exists n, mode (step s (EMain ios)) = MKilled n) \/ ~ In x (paused (sc (step s (EMain ios))))) ->
  forall s, reach s -> W s -> soon s x.
Proof.
  intros x W W1 W2 W3 s RE HW es l L. destruct (due_wait x W W1 W2 W3 es s RE HW) as (new & nst & D & ST & B).
  exists new, (length nst). split; [exact D|]. split; [exists nst; auto|]. destruct (in_dec Z.eq_dec x new) as [I|N]; [auto|]. right. specialize (B N).
  pose proof (live_everyone _ _ RE L). pose proof (runners_everyone s). unfold dues in B. lia.
Qed.
Lemma runnable_notpaused : forall s x, reach s -> runnable s x -> ~ In x (paused (sc s)).
Proof.
  intros s x RE R I. destruct (reach_full _ RE) as [[SI _] _]. pose proof (si_nodup _ SI) as ND. unfold everyone, parked, curl in ND.
  rewrite app_assoc in ND. rewrite app_assoc in ND. apply (NoDup_app_disj _ _ _ x) in ND; [exact (ND I)|].
  rewrite !in_app_iff. destruct R as [R|[R|R]]; auto. rewrite R. left. left. left. reflexivity.
Qed.
Lemma step_now : forall s e, reach s -> now s <= now (step s e).
Proof.
  intros s e RE. apply (gstep_preserves (fun z => reach z /\ z = s) (fun z => now s <= now z)); try (intros z [H _]; apply reach_full, H); auto; try lia.
  - intros z c o d fs k sch md [_ ->] _ M CU U NR E X. cbn. lia.
  - intros z c v f rest b d fs k sch md [_ ->] _ M CU SK L E X. cbn. lia.
  - intros z d ws sch md ios [_ ->] _ M A K X. cbn. lia.
  - intros z m [_ ->] _ _. cbn. lia.
  - intros z e0 [_ ->] _ H _. apply env_now, H.
Qed.

(** A blocked coroutine whose deadline has passed (an expired sleep, or a timed-out
    operation) runs within twice as many turns as there are coroutines. *)
Theorem C57_expired_soon : forall s x dl, reach s -> waits_until s x dl -> dl < now s -> soon s x.
Proof.
  intros s x dl RE WU LT. apply (due_soon x (fun z => waits_until z x dl /\ dl < now z)); auto.
  - intros z [(k & o & [B _] & _) _]. exact B.
  - intros z e RZ [(k & o & [PA (w & st & SK & NA)] & E1 & E2 & NR) LT2] PA'.
    pose proof (stk_paused z e x (reach_full _ RZ) PA) as SE. split.
    + exists k, o. split; [split; [exact PA'|]; exists w, st; rewrite SE; auto|]. split; [exact E1|]. split; [exact E2|].
      intros (m & r & st2 & Q). apply NR. exists m, r, st2. rewrite <- SE. exact Q.
    + apply Z.lt_le_trans with (now z); [exact LT2|]. apply step_now, RZ.
  - intros z ios RZ [W L] M. destruct (C16_expired_woken z ios x dl RZ M W L) as [K|K]; [auto|]. right. apply runnable_notpaused; [apply reach_step, RZ | exact K].
Qed.

(** what the other coroutines cannot undo: being on the list of coroutines to resume,
    or having its background work finished *)
Definition due (s : state) (x : Z) : Prop := In x (paused (sc s)) /\
  (In (NCo x) (q (dt s) QRes) \/ (In (NCo x) (q (dt s) QIo) /\ exists st, stk (sc s) x = FWork :: st)).
Lemma due_stays : forall s e x, reach s -> due s x -> In x (paused (sc (step s e))) -> due (step s e) x.
Proof.
  intros s e x RE [PA DU]. pose proof (reach_full _ RE) as F.
  assert (SE : forall st, stk (sc s) x = FWork :: st -> exists st', stk (sc (step s e)) x = FWork :: st') by (intros st Q; exists st; rewrite (stk_paused s e x F PA); exact Q).
  assert (G : In x (paused (sc (step s e))) -> In (NCo x) (q (dt (step s e)) QRes) \/ (In (NCo x) (q (dt (step s e)) QIo) /\ exists st, stk (sc s) x = FWork :: st)).
  { assert (EX : forall c k st' sch md d d0 KP KW R P, cur (sc s) = Some c -> exec c k (set_stk (zupd (stk (sc s)) c st') (sc s)) = (sch, md) ->
      kp x (dt s) d0 -> fps c KP KW d0 R P d -> (forall y, In y P -> k = CResume y) -> In x (paused sch) ->
      In (NCo x) (q (ctl_dat c (nextid (sc s) + 1) k d) QRes) \/ (In (NCo x) (q (ctl_dat c (nextid (sc s) + 1) k d) QIo) /\ exists st, stk (sc s) x = FWork :: st)).
    { intros c k st' sch md d d0 KP KW R P CU X K0 FP HP PB. pose proof (cur_notpaused _ _ F CU) as NP.
      assert (NE : x <> c) by congruence.
      assert (NR : k <> CResume x).
      { intros ->. pose proof (exec_paused _ _ _ _ _ X) as PE. cbn [paused set_stk] in PE. rewrite PE in PB. apply mem_In in PA. rewrite PA in PB. apply remove1_In in PB. destruct PB as [_ PB]. congruence. }
      assert (QK : forall kk, kk = QIo \/ kk = QRes -> In (NCo x) (q d kk) -> In (NCo x) (q (ctl_dat c (nextid (sc s) + 1) k d) kk)).
      { intros kk HH IN. destruct k; cbn [ctl_dat]; auto.
        - rewrite spawn_q_eq; [exact IN | destruct HH; subst; discriminate].
        - unfold final_dat. cbn [q set_npool]. apply In_pushq. left. split; [exact IN | congruence]. }
      destruct DU as [J|[J SW]].
      - destruct (fps_keepq _ _ _ _ _ _ _ _ _ _ NE K0 FP HP QRes (fun z => z) J) as [C|[C|C]]; [left; auto | left; auto | contradiction].
      - destruct (fps_keepq _ _ _ _ _ _ _ _ _ _ NE K0 FP HP QIo (fun z => z) J) as [C|[C|C]]; [right; auto | left; auto | contradiction]. }
    apply (gstep_preserves (fun z => reach z /\ z = s) (fun z => In x (paused (sc z)) -> In (NCo x) (q (dt z) QRes) \/ (In (NCo x) (q (dt z) QIo) /\ exists st, stk (sc s) x = FWork :: st)));
      try (intros z [H _]; apply reach_full, H); auto.
    - intros z c o d fs k sch md [_ ->] _ M CU U NR E X PB. cbn [sc dt] in *.
      destruct (hcall_fp _ _ _ _ _ _ _ (ncalls s) (stk (sc s) c) E) as (R & P & FP & _ & HP). eapply EX; [exact CU | exact X | apply kp_refl | exact FP | exact HP | exact PB].
    - intros z c v f rest b d fs k sch md [_ ->] _ M CU SK L E X PB. cbn [sc dt] in *.
      destruct (hret_fp _ _ _ _ _ _ _ _ _ rest E) as (R & P & FP & _ & HP). eapply EX; [exact CU | exact X | apply kp_leave; intros Q; rewrite <- Q in CU; exact (cur_notpaused _ _ F CU PA) | exact FP | exact HP | exact PB].
    - intros z d ws sch md ios [_ ->] _ M A K X PB. cbn [sc dt] in *. exfalso. rewrite (switch_paused _ _ _ _ X) in PB. apply wakes_in in PB. destruct PB as [_ PB]. apply PB.
      destruct (0 <? npsd (sc s)) eqn:NP.
      + destruct DU as [J|[J (st & SW)]]; [eapply paused_step_res; eassumption | eapply (proj2 (paused_step_io _ _ _ _ _ _ K (work_counted _ _ _ RE SW))), J].
      + exfalso. destruct F as [[SI _] _]. pose proof (ct_psd _ (si_counts _ SI)) as Q. apply Z.ltb_ge in NP. destruct (paused (sc s)); [destruct PA|]. cbn in Q. lia.
    - intros z m [_ ->] _ _ _. exact DU.
    - intros z e0 [_ ->] _ H _ _. destruct (env_q s e0 H) as [Q|(c & _ & _ & (w & SW) & Q)]; rewrite Q; [exact DU|].
      destruct (Z.eq_dec x c) as [->|NE]; [right; split; [apply push_in | eauto]|].
      destruct DU as [J|[J SW2]]; [left; apply In_pushq; left; split; congruence | right; split; [apply In_pushq; left; split; congruence | exact SW2]]. }
  intros PB. split; [exact PB|]. destruct (G PB) as [J|[J (st & SW)]]; [auto|]. right. split; [exact J | eapply SE, SW].
Qed.
Lemma due_pass : forall s ios x, reach s -> due s x -> mode s = MMain -> (exists n, mode (step s (EMain ios)) = MKilled n) \/ ~ In x (paused (sc (step s (EMain ios)))).
Proof.
  intros s ios x RE [PA DU] M. destruct (pass_inv s ios RE M (paused_active _ _ RE PA)) as [K|(d & ws & sch & md & PS & X & ST)]; [auto|]. right.
  rewrite ST. cbn [set_sc set_dt set_mode sc]. rewrite (switch_paused _ _ _ _ X). intros H. apply wakes_in in H. destruct H as [_ H]. apply H.
  destruct (0 <? npsd (sc s)) eqn:NP.
  - destruct DU as [J|[J (st & SW)]]; [eapply paused_step_res; eassumption | eapply (proj2 (paused_step_io _ _ _ _ _ _ PS (work_counted _ _ _ RE SW))), J].
  - exfalso. destruct (reach_full _ RE) as [[SI _] _]. pose proof (ct_psd _ (si_counts _ SI)) as Q. apply Z.ltb_ge in NP. destruct (paused (sc s)); [destruct PA|]. cbn in Q. lia.
Qed.

(** The same for a coroutine that an operation of another coroutine (unlocking, waking a
    waiter, closing a channel, ...) has put on the list of those to be resumed ... *)
Theorem C57_resumed_soon : forall s x k o, reach s -> blocked s x k o -> to_resume s x -> soon s x.
Proof.
  intros s x k o RE B TR. apply (due_soon x (fun z => due z x)); [intros z [H _]; exact H | intros z e RZ; apply due_stays, RZ | intros z ios RZ; apply due_pass, RZ | exact RE|].
  split; [apply B | left; exact TR].
Qed.
(** ... and for a caller of neco_work whose work function has finished. *)
Theorem C57_work_soon_partial : forall s x k b, reach s -> undisturbed x (tr s) -> blocked s x k (OpWork b) -> In (TWorkDone x k) (tr s) -> soon s x.
Proof.
  intros s x k b RE UD B TD. apply (due_soon x (fun z => due z x)); [intros z [H _]; exact H | intros z e RZ; apply due_stays, RZ | intros z ios RZ; apply due_pass, RZ | exact RE|].
  apply undisturbed_wsafe in UD. destruct (reach_wk _ RE x UD) as [I1 I2 I3 I4 I5 I6 I7].
  destruct (blocked_frames _ _ _ _ RE B) as (w & st & SK & BF). pose proof (proj1 B) as PA.
  assert (SW : stk (sc s) x = FWork :: FApi k (OpWork b) :: st).
  { rewrite SK. remember (OpWork b) as o eqn:EO. destruct BF as [f o WF HO|v m d2 ret|b0]; try discriminate EO.
    - subst o. destruct f; cbn in HO; try contradiction; discriminate.
    - reflexivity. }
  split; [exact PA|]. destruct (I5 _ SW PA) as [J|[J|J]].
  - exfalso. eapply I7; [exact SW | right; auto | exact TD].
  - right. split; [exact J | eauto].
  - left. exact J.
Qed.

(** Starts are counted for a reason: a coroutine that does nothing but start coroutines
    that return at once keeps everybody who is blocked from running for ever, however
    late it is. For every [n], 1 gets [n] turns while the sleep of 2, long over, does not
    end and the scheduler loop does not run once. *)
Definition hog0 : state := script [ECall OpStart; ECall (OpSleep 1500); EAdv 9000].
Definition hogged (s : state) : Prop :=
  (exists nid st dsp, sc s = mksched [] [] [2] 0 0 1 (Some 1) false nid st dsp /\ 2 <= nid /\ st 1 = [FEntry] /\ st 2 = stk (sc hog0) 2) /\
  mode s = MUser /\
  (forall x, q (dt s) (QCancel x) = [] /\ q (dt s) (QJoin x) = []) /\
  (forall x, In x (q (dt s) QPool) -> gen (cof (dt s) (node_co x)) = None).
Lemma hog_step : forall s, hogged s ->
  hogged (run s starve_round) /\ disp (sc (run s starve_round)) = 1 :: disp (sc s).
Proof.
  intros [sc0 d md nw nc t] ((nid & st & dsp & E & NI & S1 & S2) & M & Q & G). cbn in E, M, Q, G. subst sc0 md.
  set (s0 := mkst _ _ _ _ _ _). set (n := nid + 1) in *.
  set (d1 := spawn_dat (Some 1) n false d).
  set (d2 := set_allcount (allcount d1 - 1) (set_all (remove1 n (all d1)) d1)).
  set (st1 := zupd (zupd st 1 (FApi nc OpStart :: st 1)) n [FEntry]).
  Transparent do_call do_tick.
  assert (A1 : exists t1, step s0 (ECall OpStart) = mkst (mksched [1] [] [2] 1 0 1 (Some n) false n st1 dsp) d1 MUser nw (S nc) t1).
  { eexists. reflexivity. }
  destruct A1 as (t1 & A1).
  set (s1 := mkst (mksched [1] [] [2] 1 0 1 (Some n) false n st1 dsp) d1 MUser nw (S nc) t1) in *.
  assert (A2 : step s1 (ECall OpReturn) = set_mode (MRet 0) s1) by reflexivity.
  assert (Q1 : forall x, q d1 (QCancel x) = [] /\ q d1 (QJoin x) = []).
  { intros x. unfold d1. rewrite !spawn_q by discriminate. apply Q. }
  assert (G1 : gen (cof d1 n) = None).
  { unfold d1, spawn_dat, popq. destruct (q d QPool) as [|p l] eqn:P; cbn; rewrite zupd_eq; cbn; [reflexivity|].
    apply G. left. reflexivity. }
  assert (G2 : forall x, In x (q d1 QPool) -> node_co x <> n -> gen (cof d1 (node_co x)) = None).
  { intros x I NE. unfold d1. rewrite spawn_cof by exact NE.
    assert (I' : In x (q d QPool)).
    { revert I. unfold d1, spawn_dat, popq. destruct (q d QPool) as [|p l] eqn:P; cbn; auto. rewrite P. auto. }
    specialize (G x I'). destruct (_ =? _); cbn; exact G. }
  assert (CE : coexit_rest n false d1 = (d2, [], CFinal false)).
  { unfold coexit_rest. fold d2.
    assert (emptyq (QCancel n) d2 = true /\ emptyq (QJoin n) d2 = true) as [-> ->].
    { unfold emptyq, d2. cbn. destruct (Q1 n) as [-> ->]. auto. }
    cbn [andb negb]. destruct (Q1 n) as [E1 E2].
    assert (q d2 (QCancel n) = []) as -> by exact E1. cbn [length resume_all].
    assert (q d2 (QJoin n) = []) as -> by exact E2. cbn [length resume_all].
    assert (gen (cof d2 n) = None) as -> by exact G1. reflexivity. }
  assert (N1 : st1 n = [FEntry]) by (apply zupd_eq).
  assert (A3 : exists t2, step (set_mode (MRet 0) s1) (ETick true) =
     mkst (mksched [] [] [2] 0 0 1 (Some 1) false n (zupd (zupd st1 n []) n []) (1 :: dsp)) (final_dat n d2) (MRet 0) nw (S nc) t2).
  { rewrite step_tick. cbn [mode set_mode sc cur stk s1]. rewrite N1. unfold do_tick.
    cbn [hret dt s1 set_mode]. rewrite CE. eexists. reflexivity. }
  destruct A3 as (t2 & A3).
  set (st2 := zupd (zupd st1 n []) n []) in *.
  set (s2 := mkst (mksched [] [] [2] 0 0 1 (Some 1) false n st2 (1 :: dsp)) (final_dat n d2) (MRet 0) nw (S nc) t2) in *.
  assert (N2 : st2 1 = [FApi nc OpStart; FEntry]).
  { unfold st2, st1. rewrite !zupd_neq by lia. rewrite zupd_eq, S1. reflexivity. }
  assert (A4 : exists t3, step s2 (ETick true) =
     mkst (mksched [] [] [2] 0 0 1 (Some 1) false n (zupd st2 1 [FEntry]) (1 :: dsp)) (final_dat n d2) MUser nw (S nc) t3).
  { rewrite step_tick. cbn [mode sc cur stk s2]. rewrite N2. unfold do_tick. eexists. reflexivity. }
  destruct A4 as (t3 & A4). Opaque do_call do_tick.
  assert (RR : run s0 starve_round = step (step (step (step s0 (ECall OpStart)) (ECall OpReturn)) (ETick true)) (ETick true)) by reflexivity.
  rewrite RR, A1, A2, A3, A4. split; [|reflexivity].
  split; [|split; [reflexivity|]].
  - exists n, (zupd st2 1 [FEntry]), (1 :: dsp). split; [reflexivity|]. split; [lia|]. split; [apply zupd_eq|]. unfold st2, st1. rewrite !zupd_neq by lia. exact S2.
  - split.
    + intros x. destruct (Q1 x) as [E1 E2]. cbn [dt]. unfold final_dat, pushq, rmq. cbn. rewrite E1, E2. auto.
    + intros x. cbn [dt]. unfold final_dat, pushq, rmq. cbn. rewrite in_app_iff, filter_In.
      intros [[I NE]|[<-|[]]]; [|exact G1].
      destruct (Z.eq_dec (node_co x) n) as [EQ|NQ]; [rewrite EQ; exact G1 | apply G2; assumption].
Qed.


Theorem C57_starts_refuted : forall n, exists es, reach hog0 /\ waits_until hog0 2 1500 /\ 1500 < now hog0 /\
  exists new, length new = n /\ turns hog0 (run hog0 es) new /\ ~ In 2 new /\ In 2 (paused (sc (run hog0 es))).
Proof.
  assert (G : forall n s, hogged s -> hogged (run s (starve n)) /\ disp (sc (run s (starve n))) = repeat 1 n ++ disp (sc s)).
  { induction n as [|n IH]; intros s H; [split; [exact H | reflexivity]|].
    cbn [starve]. unfold run. rewrite fold_left_app. fold (run s starve_round). fold (run (run s starve_round) (starve n)).
    destruct (hog_step s H) as [H1 D1]. destruct (IH _ H1) as [H2 D2]. split; [exact H2|].
    rewrite D2, D1. change (1 :: disp (sc s)) with ([1] ++ disp (sc s)). rewrite app_assoc.
    rewrite <- (repeat_cons n 1). reflexivity. }
  intros n. exists (starve n).
  assert (S0 : hogged hog0).
  { split; [|split; [vm_compute; reflexivity|]].
    - exists 2, (stk (sc hog0)), (disp (sc hog0)). split; [vm_compute; reflexivity | split; [lia | split; [vm_compute; reflexivity | reflexivity]]].
    - split; [|vm_compute; contradiction]. intros x. vm_compute. auto. }
  destruct (G n _ S0) as [((nid & st & dsp & E & _) & _) D].
  split; [apply script_reach|]. split.
  { exists 1%nat, (OpSleep 1500). split; [apply blockedb_ok; split; [vm_compute; auto|]; exists 2%nat; eexists; vm_compute; auto|]. split; [reflexivity|]. split; [reflexivity|]. intros (m & r & st2 & Q). vm_compute in Q. discriminate Q. }
  split; [vm_compute; reflexivity|]. exists (rev (repeat 1 n)). split; [rewrite rev_length; apply repeat_length|]. split; [unfold turns; rewrite rev_involutive; exact D|]. split; [intros I; apply in_rev in I; apply repeat_spec in I; discriminate|].
  rewrite E. cbn. auto.
Qed.

(** Two coroutines that only yield to each other, and a sleeper: its sleep ends, and it
    runs after three turns. *)
Definition ex57 : state := script [ECall OpStart; ECall (OpSleep 1500); ECall OpStart; EAdv 2000].
Example C57_case : reach ex57 /\ live ex57 [1; 2; 3] /\ waits_until ex57 2 1500 /\ 1500 < now ex57 /\
  turns ex57 (run ex57 (scr [ECall OpYield; ECall OpYield; ECall OpYield; ECall OpYield])) [1; 3; 1; 2].
Proof.
  split; [apply script_reach|]. split; [intros c [A _]; revert A; vm_compute; intuition|]. split.
  { exists 1%nat, (OpSleep 1500). split; [apply blockedb_ok; split; [vm_compute; auto|]; exists 2%nat; eexists; vm_compute; auto|]. split; [reflexivity|]. split; [reflexivity|]. intros (m & r & st2 & Q). vm_compute in Q. discriminate Q. }
  split; [vm_compute; reflexivity|]. vm_compute. reflexivity.
Qed.
(** in the same state the loop is reached after one turn; with one event it is not yet *)
Example C57_loop_case : forall n, (n <= length [ECall OpYield])%nat -> In 2 (paused (sc (run ex57 (firstn n [ECall OpYield])))) /\ mode (run ex57 (firstn n [ECall OpYield])) <> MMain.
Proof. intros n H. destruct n as [|[|n]]; [| |cbn in H; lia]; (split; [vm_compute; auto|]; intros Q; vm_compute in Q; discriminate Q). Qed.
(** 2 waits for the lock that 1 has just released; a caller of neco_work whose work is
    finished is in C38_example_blocked *)
Definition ex57b : state := step (script [ECall (OpLock 0 MAXI); ECall OpStart; ECall (OpLock 0 MAXI)]) (ECall (OpUnlock 0)).
Example C57_resumed_case : reach ex57b /\ blocked ex57b 2 2 (OpLock 0 MAXI) /\ to_resume ex57b 2.
Proof.
  split; [apply reach_step, script_reach|]. split; [apply blockedb_ok; split; [vm_compute; auto|]; exists 2%nat; eexists; vm_compute; auto | vm_compute; auto].
Qed.

Print Assumptions C57_loop_runs.
Print Assumptions C57_expired_soon.
Print Assumptions C57_resumed_soon.
Print Assumptions C57_work_soon_partial.
Print Assumptions C57_starts_refuted.
