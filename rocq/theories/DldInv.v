(** Expiry marks, results in transit, and why a call may report a timeout. *)
From Coq Require Import List ZArith Bool Lia.
From Verif Require Import AATreeSpec AATreeHist Util Runtime SchedInv StepInv StackShape RuntimeSpec TraceInv Immediate Prims StaticInv Footprint QueueInv OwnInv WaitInv DeadlineInv CallInv SpecInv TraceStep Wake Awake PausedInv.
Import ListNotations.
Local Open Scope Z_scope.

(** nobody calls neco_cancel_dl with a deadline *)
Definition nofincancel (t : list obs) : Prop := forall k c id dl tm, In (TCall k c (OpCancel id dl) tm) t -> dl = MAXI.

Lemma checkdl_clear : forall c dl nw d v d', checkdl c dl nw d = (v, d') -> deadlined (cof d' c) = false.
Proof.
  intros c dl nw d v d' E. unfold checkdl in E. destruct (canceled (cof d c)) eqn:A, (deadlined (cof d c)) eqn:B; cbn in E;
    try (inj E; rewrite ?upco_eq; cbn; try assumption; reflexivity).
  destruct (dl =? MAXI); inj E; rewrite ?upco_eq; cbn; auto.
Qed.
Lemma hret_clear : forall c f v b nw d d' fs k, hret c f v b nw d = (d', fs, k) -> waitf f = true -> (forall id dl, f <> FCancelWait id dl) ->
  deadlined (cof d' c) = false.
Proof.
  intros c f v b nw d d' fs k E W NC. destruct f; try discriminate W; cbn [hret] in E; try (destruct (NC id dl eq_refl); fail).
  - unfold sleep_end in E. inj E. cbn. rewrite zupd_eq. reflexivity.
  - unfold sigwait_end in E. destruct (checkdl _ _ _ _) as [v1 d1] eqn:C. inj E. eapply checkdl_clear; exact C.
  - unfold wait_end in E. destruct (checkdl _ _ _ _) as [v1 d1] eqn:C. inj E. eapply checkdl_clear; exact C.
  - unfold send_end in E. destruct (checkdl _ _ _ _) as [v1 d1] eqn:C. inj E. eapply checkdl_clear; exact C.
  - unfold recv_end in E. destruct (checkdl _ _ _ _) as [v1 d1] eqn:C. apply checkdl_clear in C.
    destruct (negb _); [inj E; exact C|]. destruct (cclosed _); inj E; [|exact C]. rewrite upco_eq. exact C.
  - unfold select_end in E. destruct (checkdl _ _ _ _) as [v1 d1] eqn:C. inj E. eapply checkdl_clear; exact C.
  - unfold lock_end in E. destruct (checkdl _ _ _ _) as [v1 d1] eqn:C. inj E. eapply checkdl_clear; exact C.
  - unfold wgwait_end in E. destruct (checkdl _ _ _ _) as [v1 d1] eqn:C. inj E. eapply checkdl_clear; exact C.
  - unfold cvwait_end in E. destruct (checkdl _ _ _ _) as [v1 d1] eqn:C. apply checkdl_clear in C.
    apply pr_cv_relock in E. destruct (deadlined (cof d' c)) eqn:D; [|reflexivity]. eapply prims_deadlined in D; [|exact E]. congruence.
  - unfold join_end in E. destruct (checkdl _ _ _ _) as [v1 d1] eqn:C. inj E. eapply checkdl_clear; exact C.
  - unfold suspend_end in E. destruct (checkdl _ _ _ _) as [v1 d1] eqn:C. inj E. eapply checkdl_clear; exact C.
Qed.

(** an expiry mark means: still inside the wait, and the wait's deadline has passed *)
Definition dld (s : state) : Prop := forall x, deadlined (cof (dt s) x) = true ->
  exists f rest, top (stk (sc s) x) = f :: rest /\ waitf f = true /\ sdl (f :: rest) < now s /\ sdl (f :: rest) < MAXI.

Lemma dld_exec : forall s c d k fs st' sch md nc T, reach s -> cur (sc s) = Some c -> dld s -> prims c (dt s) d ->
  exec c k (set_stk (zupd (stk (sc s)) c (fs ++ st')) (sc s)) = (sch, md) ->
  (deadlined (cof d c) = true -> (forall b, k <> CFinal b) /\ exists f rest, top (fs ++ st') = f :: rest /\ waitf f = true /\ sdl (f :: rest) < now s /\ sdl (f :: rest) < MAXI) ->
  dld (mkst sch (ctl_dat c (nextid (sc s) + 1) k d) md (now s) nc T).
Proof.
  intros s c d k fs st' sch md nc T RE CU I P X OWN x D. cbn [sc dt now] in *. pose proof (reach_full _ RE) as F.
  pose proof (cur_notfresh _ _ F CU) as NFR.
  assert (DEAD : forall z, stk (sc s) z = [] -> deadlined (cof (dt s) z) = false).
  { intros z SZ. destruct (deadlined (cof (dt s) z)) eqn:Q; [|reflexivity]. destruct (I z Q) as (f & r & H & _). rewrite SZ in H. discriminate. }
  destruct (exec_stk_cases _ _ _ _ _ X NFR x) as [[-> Q]|[(NE & -> & (g & ->) & Q)|(NE & Q & G)]].
  - cbn [set_stk stk] in Q. rewrite zupd_eq in Q. destruct (ctl_flags c (nextid (sc s) + 1) k d c) as [_ F2]; [cbn in NFR; congruence|]. rewrite F2 in D.
    destruct (OWN D) as (NF & H). rewrite Q. destruct k; try exact H. destruct (NF tomain eq_refl).
  - exfalso. cbn [set_stk nextid ctl_dat] in D. destruct (spawn_new (Some c) (nextid (sc s) + 1) g d) as [(_ & _ & H & _)|(y & l & QP & _ & H & _)]; [congruence|].
    rewrite H in D. assert (IN : In y (q d QPool)) by (rewrite QP; left; reflexivity).
    eapply prims_sysq in IN; [|exact P|exact Logic.I]. destruct IN as [IN|(EE & _)]; [|discriminate].
    pose proof (reach_sysok _ RE) as SO. destruct (so_nco _ _ SO _ QPool Logic.I IN) as (z & ->). destruct (so_pool _ _ SO _ IN) as [SZ _].
    eapply prims_deadlined in D; [|exact P]. cbn in D. rewrite DEAD in D by exact SZ. discriminate.
  - cbn [set_stk stk nextid] in Q, G. rewrite zupd_neq in Q by exact NE.
    assert (NX : x <> nextid (sc s) + 1 \/ x = nextid (sc s) + 1) by lia. destruct NX as [NX|NX].
    + destruct (ctl_flags c (nextid (sc s) + 1) k d x NX) as [_ F2]. rewrite F2 in D. rewrite Q. apply I. eapply prims_deadlined; eassumption.
    + assert (SX : stk (sc s) x = []) by (rewrite NX; apply stk_fresh, F).
      assert (D2 : deadlined (cof d x) = true). { destruct k; try exact D. exfalso. eapply G; [reflexivity | exact NX]. }
      eapply prims_deadlined in D2; [|exact P]. rewrite DEAD in D2 by exact SX. discriminate.
Qed.
Lemma ustack_nodl : forall s c, (forall x, wsh (stk (sc s) x)) -> dld s -> ustack (stk (sc s) c) -> deadlined (cof (dt s) c) = false.
Proof.
  intros s c WS I U. destruct (deadlined (cof (dt s) c)) eqn:Q; [|reflexivity]. destruct (I c Q) as (f & r & H & W & _).
  pose proof (ustack_nowait _ (WS c) U) as N. exfalso.
  assert (IN : In f (stk (sc s) c)) by (apply top_sub; rewrite H; left; reflexivity). apply N in IN. unfold plain in IN. rewrite W in IN. discriminate.
Qed.
Theorem reach_dld : forall s, reach s -> nofincancel (tr s) -> dld s.
Proof.
  apply (rrun_preserves (fun s => nofincancel (tr s) -> dld s)).
  - intros s c o d fs k sch md RE I M CU U NR E X NF.
    assert (NF0 : nofincancel (tr s)) by (intros kk cc id dl tm H; eapply NF; apply call_tr_old; exact H). specialize (I NF0).
    eapply dld_exec; try eassumption; [eapply hcall_prims; exact E|].
    intros D. eapply prims_deadlined in D; [|eapply hcall_prims; exact E]. rewrite ustack_nodl in D by (try assumption; apply reach_wsh; exact RE). discriminate.
  - intros s c v f rest b d fs k sch md RE I M CU SK L E X NF.
    assert (NF0 : nofincancel (tr s)) by (intros kk cc id dl tm H; eapply NF; apply (tick_tr_old s c v f d fs k); exact H). specialize (I NF0).
    eapply dld_exec; try eassumption; [eapply hret_prims; exact E|].
    intros D. pose proof D as D0. eapply prims_deadlined in D; [|eapply hret_prims; exact E].
    destruct (I c D) as (g & r & TP & W & LT & LM). rewrite SK in TP.
    assert (DP : f = FPause \/ f <> FPause) by (destruct f; auto; right; discriminate).
    destruct DP as [->|NP].
    + cbn [hret] in E. inj E. split; [discriminate|]. exists g, r. cbn [top] in TP. subst rest. cbn [app]. repeat split; auto.
      destruct g; try discriminate W; reflexivity.
    + assert (Q : top (f :: rest) = f :: rest) by (destruct f; try reflexivity; congruence). rewrite Q in TP. inj TP.
      exfalso. assert (NC : forall id dl, g <> FCancelWait id dl).
      { intros id dl ->. destruct (lstack_host _ _ L eq_refl) as [(kk & o & st & -> & _ & HO)|(? & ? & ? & ? & ? & ? & H & _)]; [|discriminate].
        destruct o; try contradiction. destruct HO as [-> ->]. cbn in LM.
        destruct (ci_open _ (reach_cinv _ RE) c kk (OpCancel id dl)) as (tm & H & _); [rewrite SK; right; left; reflexivity|]. apply NF0 in H. lia. }
      rewrite (hret_clear _ _ _ _ _ _ _ _ _ E W NC) in D0. discriminate.
  - intros s d ws sch md ios RE I M A K X NF. specialize (I NF). intros x D. cbn [sc dt set_sc set_dt set_mode now] in *.
    apply sco_switch_frame in X. destruct X as (X1 & _). destruct (wakes_frame ws (sc s)) as (W1 & _). rewrite X1, W1.
    destruct (deadlined (cof (dt s) x)) eqn:D0; [apply I; exact D0|].
    destruct (main_dl _ _ _ _ _ K D) as [Q|Q]; [congruence|].
    assert (H : exists dl, In (dl, x) (dls (dt s)) /\ dl < now s).
    { rewrite rc_deadlined in D. destruct (0 <? npsd (sc s)); [|inj K; destruct Q]. unfold paused_step in K.
      set (d1 := set_nresumers _ _) in K. set (d2 := if 0 <? niow d1 then set_q _ d1 else d1) in K.
      assert (V2 : dls d2 = dls (dt s) /\ cof d2 = cof (dt s)) by (unfold d2; destruct (0 <? niow d1); cbn; auto).
      destruct V2 as (V2 & C2).
      destruct (if 0 <? nevs d2 then _ else _) as [d3 w3] eqn:E3.
      assert (P3 : mprims d2 d3). { destruct (0 <? nevs d2); [eapply mp_event_step; exact E3 | inj E3; apply ms_nil]. }
      assert (C3 : cof d3 = cof d2) by (destruct (0 <? nevs d2); [eapply event_step_cof; exact E3 | inj E3; reflexivity]).
      destruct (if negb (sigm d3 =? 0) then _ else _) as [[d4 w4] kill] eqn:E4.
      assert (P4 : mprims d3 d4). { destruct (negb _); [eapply mp_signal_step; exact E4 | inj E4; apply ms_nil]. }
      assert (C4 : deadlined (cof d4 x) = deadlined (cof d3 x)) by (destruct (negb _); [eapply signal_step_dl; exact E4 | inj E4; reflexivity]).
      destruct (dl_step (dls d4) (now s) d4) as [d5 w5] eqn:E5. inj K.
      destruct (dl_step_marks _ _ _ _ _ _ E5 D) as [H|H]; [congruence|].
      destruct (dl_step_ws _ _ _ _ _ _ E5 H) as (_ & dl & B & C). exists dl. split; [|exact C].
      destruct (mprims_evs _ _ P3) as (_ & Q3 & _). destruct (mprims_evs _ _ P4) as (_ & Q4 & _). rewrite <- V2, <- Q3, <- Q4. exact B. }
    destruct H as (dl & IN & LT). apply (bk_dl _ _ _ (reach_bk _ RE x)) in IN. destruct IN as (IP & DL & LM).
    pose proof (reach_wsh _ RE x) as WS. inversion WS as [st N Q0|f st W N Q0|f st W N Q0|f st W N Q0].
    + exfalso. apply N in IP. discriminate.
    + exfalso. rewrite <- Q0 in IP. destruct IP as [->|IP]; [discriminate | apply N in IP; discriminate].
    + exists f, st. symmetry in Q0. rewrite (reach_sdl _ RE _ _ _ Q0) in DL. rewrite <- DL in LT, LM. cbn [top]. auto.
    + exfalso. rewrite <- Q0 in IP. destruct IP as [->|IP]; [destruct W; discriminate | apply N in IP; discriminate].
  - intros s m RE I _ NF. exact (I NF).
  - intros s e RE I H M NF.
    assert (NF0 : nofincancel (tr s)) by (intros kk cc id dl tm HH; eapply NF; apply env_tr_old; [exact H | exact HH]). specialize (I NF0).
    intros x D. rewrite (env_cof s e H) in D. destruct (env_frame s e H) as (E1 & _). rewrite E1. destruct (I x D) as (f & r & A & B & C & G).
    exists f, r. repeat split; auto. enough (now s <= now (step s e)) by lia.
    clear - H. destruct e; try contradiction; cbn; 
      repeat match goal with |- context [if ?b then _ else _] => destruct b eqn:? | |- context [match mode ?z with _ => _ end] => destruct (mode z)
        | |- context [match stk (sc ?z) ?c with _ => _ end] => destruct (stk (sc z) c) as [|[] ?] end; cbn; lia.
  - intros g O NF x D. exfalso. cbn [init dt] in D. destruct (Z.eq_dec x (cfg_lastid g + 1)) as [->|N].
    + cbn in D. rewrite zupd_eq in D. discriminate.
    + rewrite spawn_cof in D by exact N. cbn in D. discriminate.
Qed.
