(** What a blocked coroutine looks like, and where the result of a finished call is. *)
From Coq Require Import List ZArith Bool Lia.
From Verif Require Import AATreeSpec AATreeHist Util Runtime SchedInv StepInv StackShape RuntimeSpec TraceInv Immediate Prims StaticInv Footprint QueueInv OwnInv WaitInv DeadlineInv CallInv SpecInv TraceStep Wake Awake.
Import ListNotations.
Local Open Scope Z_scope.

Lemma prims_deadlined : forall c d d' x, prims c d d' -> deadlined (cof d' x) = true -> deadlined (cof d x) = true.
Proof.
  intros c d d' x P. induction P; [auto|]. intros D. apply IHP. clear IHP P.
  assert (G : forall y f, (forall r, deadlined (f r) = true -> deadlined r = true) -> deadlined (cof (upco y f d1) x) = true -> deadlined (cof d1 x) = true).
  { intros y f HF HD. destruct (Z.eq_dec x y) as [->|N]; [rewrite upco_eq in HD; auto | rewrite upco_neq in HD by exact N; exact HD]. }
  destruct H; try exact D; try (eapply G; [|exact D]; intros []; cbn; auto; discriminate).
Qed.
Lemma prims_canceled : forall c d d' x, prims c d d' -> canceled (cof d x) = true -> canceled (cof d' x) = false -> x = c.
Proof.
  intros c d d' x P A B. destruct (Z.eq_dec x c) as [|N]; [assumption|exfalso].
  assert (G : canceled (cof d' x) = true); [|congruence]. clear B. revert A. induction P; [auto|]. intros A. specialize (IHP A). clear P A.
  assert (G : forall y f, (y <> c -> forall r, canceled r = true -> canceled (f r) = true) -> canceled (cof (upco y f d1) x) = true).
  { intros y f HF. destruct (Z.eq_dec x y) as [->|NN]; [rewrite upco_eq; auto | rewrite upco_neq by exact NN; exact IHP]. }
  destruct H; try exact IHP; try (apply G; intros NY []; cbn; auto; congruence).
Qed.

(** modes after control goes elsewhere *)
Lemma switch_mode : forall b s s' m, sco_switch b s = (s', m) -> (m = MMain /\ cur s' = None) \/ m = MUB \/ (m = MRet 0 /\ exists x, cur s' = Some x).
Proof.
  intros b s s' m E. unfold sco_switch in E. destruct (_ && _); [inj E; left; auto|].
  match type of E with match runners ?z with _ => _ end = _ => destruct (runners z) end; inj E; [right; left; reflexivity|].
  right; right. split; [reflexivity|]. cbn. eauto.
Qed.
Lemma exec_mode : forall c k s sch md v, exec c k s = (sch, md) -> cur s = Some c -> md = MRet v -> (k = CRet v /\ cur sch = Some c) \/ v = 0.
Proof.
  intros c k s sch md v E CU ->. destruct k; cbn [exec] in E; try (inj E; auto; fail);
    try (right; apply switch_mode in E; destruct E as [[E _]|[E|[E _]]]; congruence).
  destruct (mem id (paused s)); [apply switch_mode in E; destruct E as [[E _]|[E|[E _]]]; right; congruence | inj E; auto].
Qed.

(** ** Blocked coroutines *)
Definition blocked_ok (d : dat) (p : sched) (x : Z) : Prop :=
  (exists f r, stk p x = FPause :: f :: r /\ waitf f = true /\ canceled (cof d x) = false /\ deadlined (cof d x) = false) \/
  (exists r, stk p x = FWork :: r).
Lemma outc_pause : forall c W d d' fs, outc c W d d' fs CPause ->
  (exists f r, fs = FPause :: f :: r /\ waitf f = true /\ canceled (cof d' c) = false /\ deadlined (cof d' c) = false) \/ fs = [FWork].
Proof.
  intros c W d d' fs O. inversion O as [Q1 N K|g r dl d1 Q1 WG N WD E|E1 E2 E3|E1 E2 E3]; subst; try congruence; auto.
  left. exists g, r. unfold copause in E. destruct (canceled (cof (enter c g d1) c)) eqn:A; [cbn in E; inj E|].
  destruct (deadlined (cof (enter c g d1) c)) eqn:B; cbn [orb] in E; [inj E|]. inj E. repeat split; auto;
    destruct (_ <? _); cbn; rewrite zupd_eq; cbn; assumption.
Qed.
Lemma wakes_notin : forall ws s x, In x (paused (fold_left (fun a id => wake id a) ws s)) -> In x (paused s) /\ ~ In x ws.
Proof.
  induction ws as [|w ws IH]; intros s x I; cbn in I; [auto|]. apply IH in I. destruct I as [I N].
  unfold wake in I. destruct (mem w (paused s)) eqn:M.
  - cbn in I. apply remove1_In in I. destruct I as [I NE]. split; [exact I|]. intros [->|H]; auto.
  - split; [exact I|]. intros [->|H]; [|auto]. apply mem_In in I. congruence.
Qed.
Lemma event_step_cof : forall ios d d' w, event_step d ios = (d', w) -> cof d' = cof d.
Proof.
  induction ios as [|[[fd r] w0] ios IH]; intros d d' w E; cbn in E; [inj E; reflexivity|].
  destruct (armed d fd) as [ar aw]. destruct (if ar || aw then _ else _) as [d1 w1] eqn:E1.
  destruct (event_step d1 ios) as [d2 w2] eqn:E2. inj E. rewrite (IH _ _ _ E2). destruct (ar || aw); inj E1; reflexivity.
Qed.
Lemma dec_sigq_cof : forall n d, cof (dec_sigq n d) = cof d.
Proof. intros n d. unfold dec_sigq. cbv zeta. destruct (_ =? 0); reflexivity. Qed.
Lemma signal_step_dl : forall d d' w k x, signal_step d = (d', w, k) -> deadlined (cof d' x) = deadlined (cof d x).
Proof.
  intros d d' w k x E. unfold signal_step in E. destruct (find _ signos) as [n|]; [|inj E; reflexivity].
  destruct (_ =? 0); [inj E; rewrite dec_sigq_cof; reflexivity|]. destruct (find _ (q d QSig)) as [y|]; inj E; [|reflexivity].
  rewrite dec_sigq_cof. cbn; unfold zupd; destruct (Z.eqb_spec x (node_co y)) as [->|]; reflexivity.
Qed.
Lemma paused_step_dl : forall nw ios d d' ws k x, paused_step nw ios d = (d', ws, k) -> deadlined (cof d' x) = true -> deadlined (cof d x) = true \/ In x ws.
Proof.
  intros nw ios d d' ws k x E D. unfold paused_step in E.
  set (d1 := set_nresumers _ _) in E.
  set (d2 := if 0 <? niow d1 then set_q _ d1 else d1) in E.
  assert (P2 : cof d2 = cof d) by (unfold d2; destruct (0 <? niow d1); reflexivity).
  destruct (if 0 <? nevs d2 then _ else _) as [d3 w3] eqn:E3.
  assert (P3 : cof d3 = cof d2) by (destruct (0 <? nevs d2); [eapply event_step_cof; exact E3 | inj E3; reflexivity]).
  destruct (if negb (sigm d3 =? 0) then _ else _) as [[d4 w4] kill] eqn:E4.
  assert (P4 : deadlined (cof d4 x) = deadlined (cof d3 x)) by (destruct (negb _); [eapply signal_step_dl; exact E4 | inj E4; reflexivity]).
  destruct (dl_step (dls d4) nw d4) as [d5 w5] eqn:E5. inj E.
  destruct (dl_step_marks _ _ _ _ _ _ E5 D) as [H|H]; [left; rewrite P4, P3, P2 in H; exact H | right; repeat (apply in_or_app; right); exact H].
Qed.
Lemma main_dl : forall s d ws ios x, (if 0 <? npsd (sc s) then paused_step (now s) ios (dt s) else (dt s, [], None)) = (d, ws, None) ->
  deadlined (cof (rc_step (now s) d) x) = true -> deadlined (cof (dt s) x) = true \/ In x ws.
Proof.
  intros s d ws ios x E D. rewrite rc_deadlined in D. destruct (0 <? npsd (sc s)); [|inj E; auto]. eapply paused_step_dl; eassumption.
Qed.
Lemma hcall_canceled : forall c o nw d d' fs k x, hcall c o nw d = (d', fs, k) -> x <> c -> canceled (cof d' x) = true ->
  canceled (cof d x) = true \/ k = CResume x.
Proof.
  intros c o nw d d' fs k x E N C.
  assert (SP : sp c d d' -> canceled (cof d x) = true \/ k = CResume x) by (intros [_ _ S3 _]; left; rewrite <- S3; auto).
  assert (EX : exits c d d' fs k -> canceled (cof d x) = true \/ k = CResume x).
  { intros [h l CL -> -> ->|a ER]; [left; rewrite upco_neq in C by exact N; exact C|].
    destruct (coexit_rest_sp _ _ _ _ _ _ ER) as [_ _ S3 _]. left. rewrite S3 in C by exact N. exact C. }
  destruct (special o) eqn:SO; [|apply SP; eapply hcall_sp; eassumption].
  pose proof (hcall_special _ _ _ _ _ _ _ E SO) as H. destruct o; try discriminate SO; auto;
    try (destruct H as (-> & _); left; rewrite upco_neq in C by exact N; exact C).
  - destruct (do_cancel_sp _ _ _ _ _ _ _ _ H) as [[S _]|(_ & d1 & [_ _ S3 _] & _ & -> & _ & ->)]; [auto|].
    destruct (Z.eq_dec x id) as [->|NN]; [auto|]. rewrite upco_neq, S3 in C by assumption. auto.
  - left. unfold do_sigwatch in H. repeat match type of H with context [if ?b then _ else _] => destruct b end; inj H; auto; cbn in C; rewrite zupd_neq in C by exact N; exact C.
  - left. unfold do_sigunwatch in H. repeat match type of H with context [if ?b then _ else _] => destruct b end; inj H; auto; cbn in C; rewrite zupd_neq in C by exact N; exact C.
  - left. unfold do_cleanup_pop in H. destruct (cleanups (cof d c)); [inj H; auto|]. destruct exec; inj H; auto; rewrite upco_neq in C by exact N; exact C.
Qed.
Lemma hret_canceled : forall c f v b nw d d' fs k x, hret c f v b nw d = (d', fs, k) -> x <> c -> canceled (cof d' x) = true ->
  canceled (cof d x) = true \/ k = CResume x.
Proof.
  intros c f v b nw d d' fs k x E N C.
  assert (SP : sp c d d' -> canceled (cof d x) = true \/ k = CResume x) by (intros [_ _ S3 _]; left; rewrite <- S3; auto).
  assert (EX : exits c d d' fs k -> canceled (cof d x) = true \/ k = CResume x).
  { intros [h l CL -> -> ->|a ER]; [left; rewrite upco_neq in C by exact N; exact C|].
    destruct (coexit_rest_sp _ _ _ _ _ _ ER) as [_ _ S3 _]. left. rewrite S3 in C by exact N. exact C. }
  pose proof (hret_sp _ _ _ _ _ _ _ _ _ E) as H. destruct f; auto; try (destruct H as [H|(_ & _ & H)]; auto; fail); try (destruct H as [H|(_ & H)]; auto; fail).
  - destruct (coexit_rest_sp _ _ _ _ _ _ H) as [_ _ S3 _]. left. rewrite S3 in C by exact N. exact C.
  - destruct (do_cancel_sp _ _ _ _ _ _ _ _ H) as [[[_ _ S3 _] _]|(_ & d1 & [_ _ S3 _] & _ & -> & _ & ->)]; [left; rewrite S3 in C by exact N; exact C|].
    destruct (Z.eq_dec x id) as [->|NN]; [auto|]. rewrite upco_neq, S3 in C by assumption. auto.
  - destruct H as (-> & _). left. rewrite upco_neq in C by exact N; exact C.
  - destruct H as (-> & _). auto.
Qed.
Lemma blocked_exec : forall s c d k fs st' sch md nw nc T, reach s -> cur (sc s) = Some c ->
  (forall x, In x (paused (sc s)) -> blocked_ok (dt s) (sc s) x) ->
  exec c k (set_stk (zupd (stk (sc s)) c (fs ++ st')) (sc s)) = (sch, md) ->
  (k = CPause -> (exists f r, fs = FPause :: f :: r /\ waitf f = true /\ canceled (cof d c) = false /\ deadlined (cof d c) = false) \/ fs = [FWork]) ->
  (forall x, x <> c -> canceled (cof d x) = true -> canceled (cof (dt s) x) = true \/ k = CResume x) ->
  (forall x, deadlined (cof d x) = true -> deadlined (cof (dt s) x) = true) ->
  let s' := mkst sch (ctl_dat c (nextid (sc s) + 1) k d) md nw nc T in
  forall x, In x (paused (sc s')) -> blocked_ok (dt s') (sc s') x.
Proof.
  intros s c d k fs st' sch md nw nc T RE CU I X KP CN DL s' x IN. cbn [s' sc dt] in *. pose proof (reach_full _ RE) as F.
  pose proof (cur_notfresh _ _ F CU) as NFR. pose proof (exec_paused _ _ _ _ _ X) as PS. cbn [set_stk paused] in PS.
  assert (CNP : ~ In c (paused (sc s))) by (apply cur_notpaused; assumption).
  destruct (exec_stk_cases _ _ _ _ _ X NFR x) as [[-> Q]|[(NE & -> & _ & _)|(NE & Q & G)]].
  - cbn [set_stk stk] in Q. rewrite zupd_eq in Q. rewrite PS in IN. destruct k; try contradiction.
    + destruct (KP eq_refl) as [(f & r & -> & W & A & B)| ->]; [left; exists f, (r ++ st') | right; exists st']; rewrite Q; cbn; auto.
    + destruct (mem id _); [apply remove1_In in IN; tauto | contradiction].
  - exfalso. cbn [set_stk nextid] in IN.
    assert (IN2 : In (nextid (sc s) + 1) (paused (sc s))).
    { rewrite PS in IN. cbn [set_stk nextid] in *. destruct k; auto; [apply in_app_or in IN; destruct IN as [IN|[IN|[]]]; [exact IN | cbn in NE; congruence]|].
      destruct (mem id _); [apply remove1_In in IN; tauto | exact IN]. }
    apply (I _) in IN2. pose proof (stk_fresh _ F) as SF. destruct IN2 as [(f & r & H & _)|(r & H)]; rewrite SF in H; discriminate.
  - cbn [set_stk stk nextid] in Q, G. rewrite zupd_neq in Q by exact NE.
    assert (IN2 : In x (paused (sc s)) /\ k <> CResume x).
    { rewrite PS in IN. destruct k; try (split; [exact IN | discriminate]).
      - apply in_app_or in IN. destruct IN as [IN|[IN|[]]]; [split; [exact IN | discriminate] | congruence].
      - destruct (mem id (paused (sc s))) eqn:ME; [apply remove1_In in IN; destruct IN as [IN N2]; split; [exact IN | congruence]|].
        split; [exact IN|]. intros H. injection H as ->. apply mem_In in IN. congruence. }
    destruct IN2 as [IN2 NR]. assert (NX : x <> nextid (sc s) + 1).
    { intros ->. apply I in IN2. pose proof (stk_fresh _ F) as SF. destruct IN2 as [(f & r & H & _)|(r & H)]; rewrite SF in H; discriminate. }
    destruct (ctl_flags c (nextid (sc s) + 1) k d x NX) as [F1 F2].
    unfold blocked_ok. rewrite Q, F1, F2. destruct (I _ IN2) as [(f & r & H1 & H2 & H3 & H4)|(r & H)]; [left | right; eauto].
    exists f, r. repeat split; auto.
    + destruct (canceled (cof d x)) eqn:C; [|reflexivity]. destruct (CN x NE C) as [H|H]; congruence.
    + destruct (deadlined (cof d x)) eqn:C; [|reflexivity]. apply DL in C. congruence.
Qed.
Theorem reach_blocked : forall s, reach s -> forall x, In x (paused (sc s)) -> blocked_ok (dt s) (sc s) x.
Proof.
  apply (rrun_preserves (fun s => forall x, In x (paused (sc s)) -> blocked_ok (dt s) (sc s) x)).
  - intros s c o d fs k sch md RE I M CU U NR E X. eapply blocked_exec; try eassumption.
    + intros ->. eapply outc_pause. eapply hcall_out. exact E.
    + intros x NE. eapply hcall_canceled; eassumption.
    + intros x. eapply prims_deadlined. eapply hcall_prims. exact E.
  - intros s c v f rest b d fs k sch md RE I M CU SK L E X. eapply blocked_exec; try eassumption.
    + intros ->. destruct (hret_out _ _ _ _ _ _ _ _ _ E) as (d0 & _ & O). eapply outc_pause. exact O.
    + intros x NE. eapply hret_canceled; eassumption.
    + intros x. eapply prims_deadlined. eapply hret_prims. exact E.
  - intros s d ws sch md ios RE I M A K X x IN. cbn [sc dt set_sc set_dt set_mode] in *. apply switch_paused in X as X2. rewrite X2 in IN.
    apply wakes_notin in IN. destruct IN as [IN NW]. pose proof (mp_main _ _ _ _ _ _ _ K) as MP.
    apply sco_switch_frame in X. destruct X as (X1 & _). destruct (wakes_frame ws (sc s)) as (W1 & _).
    unfold blocked_ok. rewrite X1, W1. destruct (I _ IN) as [(f & r & H1 & H2 & H3 & H4)|(r & H)]; [left | right; eauto].
    exists f, r. repeat split; auto; [destruct (mprims_flags _ _ x MP) as [Q _]; congruence|].
    match goal with |- ?g = false => destruct g eqn:C; [|reflexivity] end. destruct (main_dl _ _ _ _ _ K C) as [Q|Q]; [congruence | contradiction].
  - intros s m RE I _. exact I.
  - intros s e RE I H M x IN. destruct (env_frame s e H) as (E1 & E2 & E3 & E4 & E5). unfold blocked_ok. rewrite (env_cof s e H), E1.
    apply I. rewrite <- E5; exact IN.
  - intros g O x []. 
Qed.
