(** Who gets woken, and why: a coroutine inside a waiting call is paused unless it
    was canceled, its deadline was marked, or the thing it waits for happened. *)
From Coq Require Import List ZArith Bool Lia.
From Verif Require Import AATreeSpec AATreeHist Util Runtime SchedInv StepInv StackShape RuntimeSpec TraceInv Prims StaticInv Footprint QueueInv OwnInv WaitInv DeadlineInv CallInv.
Import ListNotations.
Local Open Scope Z_scope.

(** ** The paused set *)
Lemma switch_paused : forall b s s' m, sco_switch b s = (s', m) -> paused s' = paused s.
Proof. intros b s s' m E. apply sco_switch_frame in E. destruct E as (_ & _ & E & _). exact E. Qed.
Lemma exec_paused : forall c k s s' m, exec c k s = (s', m) ->
  paused s' = match k with
              | CPause => paused s ++ [c]
              | CResume id => if mem id (paused s) then remove1 id (paused s) else paused s
              | _ => paused s
              end.
Proof.
  intros c k s s' m E. destruct k; cbn [exec] in E; try (inj E; reflexivity);
    try (apply switch_paused in E; rewrite E; reflexivity).
  - destruct (mem id (paused s)) eqn:ME; [|inj E; reflexivity]. apply switch_paused in E. rewrite E.
    unfold wake. rewrite ME. reflexivity.
  - apply switch_paused in E. rewrite E. destruct tomain; reflexivity.
Qed.
Lemma exec_paused_in : forall c k s s' m x, exec c k s = (s', m) -> In x (paused s) -> k <> CResume x -> In x (paused s').
Proof.
  intros c k s s' m x E I N. apply exec_paused in E. rewrite E. destruct k; try exact I.
  - apply in_or_app. left. exact I.
  - destruct (mem id (paused s)); [|exact I]. apply remove1_In. split; [exact I|congruence].
Qed.
Lemma wakes_paused : forall ws s x, In x (paused s) -> ~ In x ws -> In x (paused (fold_left (fun a id => wake id a) ws s)).
Proof.
  induction ws as [|w ws IH]; intros s x I N; cbn; [exact I|]. apply IH; [|intros H; apply N; right; exact H].
  unfold wake. destruct (mem w (paused s)); [|exact I]. cbn. apply remove1_In. split; [exact I|].
  intros ->. apply N. left. reflexivity.
Qed.

(** ** The scheduler loop's reasons *)
Definition ws_reason (nw : Z) (d d' : dat) (x : Z) : Prop :=
  (exists n, In n (q d QRes) /\ node_co n = x) \/ (exists n, In n (q d QIo) /\ node_co n = x) \/
  (exists fd kd, In (fd, kd, x) (evs d)) \/ (exists n, In n (q d QSig) /\ node_co n = x) \/
  (deadlined (cof d' x) = true /\ exists dl, In (dl, x) (dls d) /\ dl < nw).

Lemma ev_waiters_in : forall fd kd d x, In x (ev_waiters fd kd d) -> In (fd, kd, x) (evs d).
Proof.
  intros fd kd d x I. unfold ev_waiters in I. apply in_map_iff in I. destruct I as ([[f k] y] & E & I).
  cbn in E. subst. apply filter_In in I. destruct I as [I B]. apply andb_true_iff in B. destruct B as [B1 B2].
  apply Z.eqb_eq in B1. apply Z.eqb_eq in B2. subst. exact I.
Qed.
Lemma event_step1_ws : forall io d d' w x, event_step1 d io = (d', w) -> In x w -> exists fd kd, In (fd, kd, x) (evs d).
Proof.
  intros [[fd r] w0] d d' w x E I. unfold event_step1 in E. destruct (armed d fd) as [ar aw].
  destruct (ar || aw); inj E; [|destruct I]. apply in_app_or in I. destruct I as [I|I];
    match type of I with In _ (if ?b then _ else _) => destruct b end; try (destruct I; fail); apply ev_waiters_in in I; eauto.
Qed.
Lemma event_step1_evs : forall io d d' w, event_step1 d io = (d', w) -> evs d' = evs d.
Proof. intros [[fd r] w0] d d' w E. unfold event_step1 in E. destruct (armed d fd) as [ar aw]. destruct (ar || aw); inj E; reflexivity. Qed.
Lemma event_step_ws : forall ios d d' w x, event_step d ios = (d', w) -> In x w -> exists fd kd, In (fd, kd, x) (evs d).
Proof.
  induction ios as [|io ios IH]; intros d d' w x E I; cbn in E; [inj E; destruct I|].
  destruct (event_step1 d io) as [d1 w1] eqn:E1. destruct (event_step d1 ios) as [d2 w2] eqn:E2. inj E.
  apply in_app_or in I. destruct I as [I|I]; [eapply event_step1_ws; eassumption|].
  destruct (IH _ _ _ _ E2 I) as (fd & kd & H). rewrite (event_step1_evs _ _ _ _ E1) in H. eauto.
Qed.
Lemma signal_step_ws : forall d d' w k x, signal_step d = (d', w, k) -> In x w -> exists n, In n (q d QSig) /\ node_co n = x.
Proof.
  intros d d' w k x E I. unfold signal_step in E. destruct (find _ signos) as [n|]; [|inj E; destruct I].
  destruct (sigw d n =? 0); [inj E; destruct I|]. destruct (find _ (q d QSig)) as [y|] eqn:F; [|inj E; destruct I].
  inj E. apply find_some in F. destruct I as [<-|[]]. exists y. split; [apply F | reflexivity].
Qed.
Lemma dl_step_keeps : forall l nw d d' w x, dl_step l nw d = (d', w) -> deadlined (cof d x) = true -> deadlined (cof d' x) = true.
Proof.
  induction l as [|[dl c] l IH]; intros nw d d' w x E D; cbn in E; [inj E; exact D|].
  destruct (dl <? nw); [|inj E; exact D]. destruct (dl_step l nw _) as [d1 w1] eqn:Q. inj E.
  eapply IH; [exact Q|]. destruct (Z.eq_dec x c) as [->|N]; [rewrite upco_eq; destruct (cof d c); reflexivity | rewrite upco_neq by exact N; exact D].
Qed.
Lemma dl_step_ws : forall l nw d d' w x, dl_step l nw d = (d', w) -> In x w ->
  deadlined (cof d' x) = true /\ exists dl, In (dl, x) l /\ dl < nw.
Proof.
  induction l as [|[dl c] l IH]; intros nw d d' w x E I; cbn in E; [inj E; destruct I|].
  destruct (dl <? nw) eqn:L; [|inj E; destruct I]. destruct (dl_step l nw _) as [d1 w1] eqn:Q. inj E.
  destruct I as [<-|I].
  - split; [|exists dl; split; [left; reflexivity | lia]]. eapply dl_step_keeps; [exact Q|]. rewrite upco_eq. destruct (cof d c); reflexivity.
  - destruct (IH _ _ _ _ _ Q I) as (A & dl0 & B & C). split; [exact A|]. exists dl0. split; [right; exact B | exact C].
Qed.
(** a completed expiry pass: every marked coroutine had an expired entry *)
Lemma dl_step_marks : forall l nw d d' w x, dl_step l nw d = (d', w) -> deadlined (cof d' x) = true ->
  deadlined (cof d x) = true \/ In x w.
Proof.
  induction l as [|[dl c] l IH]; intros nw d d' w x E D; cbn in E; [inj E; auto|].
  destruct (dl <? nw); [|inj E; auto]. destruct (dl_step l nw _) as [d1 w1] eqn:Q. inj E.
  destruct (IH _ _ _ _ _ Q D) as [H|H]; [|right; right; exact H].
  destruct (Z.eq_dec x c) as [->|N]; [right; left; reflexivity | rewrite upco_neq in H by exact N; auto].
Qed.
Lemma mprims_evs : forall d d', mprims d d' -> evs d' = evs d /\ dls d' = dls d /\ inflight d' = inflight d.
Proof.
  intros d d' P. induction P; [auto|]. destruct IHP as (A & B & C). inversion H; subst; cbn; auto.
Qed.
Lemma mprims_flags : forall d d' x, mprims d d' ->
  canceled (cof d' x) = canceled (cof d x) /\ (deadlined (cof d x) = true -> deadlined (cof d' x) = true).
Proof.
  intros d d' x P. induction P; [auto|]. destruct IHP as [A B].
  assert (G : forall c f, (forall r, canceled (f r) = canceled r /\ (deadlined r = true -> deadlined (f r) = true)) ->
    canceled (cof (upco c f d1) x) = canceled (cof d x) /\ (deadlined (cof d x) = true -> deadlined (cof (upco c f d1) x) = true)).
  { intros c f HF. destruct (Z.eq_dec x c) as [->|N]; [rewrite upco_eq; destruct (HF (cof d1 c)) as [F1 F2]; split; [congruence|auto] | rewrite upco_neq by exact N; auto]. }
  inversion H; subst; auto; apply G; intros []; cbn; auto.
Qed.
Lemma paused_step_ws : forall nw ios d d' ws k x, paused_step nw ios d = (d', ws, k) -> In x ws -> ws_reason nw d d' x.
Proof.
  intros nw ios d d' ws k x E I. unfold paused_step in E.
  set (d1 := set_nresumers _ _) in E.
  set (d2 := if 0 <? niow d1 then set_q _ d1 else d1) in E.
  assert (V2 : evs d2 = evs d /\ dls d2 = dls d /\ q d2 QSig = q d QSig).
  { unfold d2. destruct (0 <? niow d1); cbn; repeat split; auto; rewrite ?qupd_neq by discriminate; reflexivity. }
  destruct V2 as (V2a & V2b & V2c).
  destruct (if 0 <? nevs d2 then _ else _) as [d3 w3] eqn:E3.
  assert (P3 : mprims d2 d3). { destruct (0 <? nevs d2); [eapply mp_event_step; exact E3 | inj E3; apply ms_nil]. }
  destruct (if negb (sigm d3 =? 0) then _ else _) as [[d4 w4] kill] eqn:E4.
  assert (P4 : mprims d3 d4). { destruct (negb _); [eapply mp_signal_step; exact E4 | inj E4; apply ms_nil]. }
  destruct (dl_step (dls d4) nw d4) as [d5 w5] eqn:E5. inj E.
  apply in_app_or in I. destruct I as [I|I].
  { left. apply in_map_iff in I. destruct I as (n & A & B). exists n. auto. }
  apply in_app_or in I. destruct I as [I|I].
  { right; left. destruct (0 <? niow d); [|destruct I]. apply in_map_iff in I. destruct I as (n & A & B). exists n. split; [|exact A].
    cbn in B. try rewrite qupd_neq in B by discriminate. exact B. }
  apply in_app_or in I. destruct I as [I|I].
  { right; right; left. destruct (0 <? nevs d2); [|inj E3; destruct I]. rewrite <- V2a. eapply event_step_ws; eassumption. }
  apply in_app_or in I. destruct I as [I|I].
  { right; right; right; left. destruct (negb _); [|inj E4; destruct I]. rewrite <- V2c, <- (mprims_wq _ _ QSig P3) by exact Logic.I.
    eapply signal_step_ws; eassumption. }
  right; right; right; right. destruct (dl_step_ws _ _ _ _ _ _ E5 I) as (A & dl & B & C). split; [exact A|].
  exists dl. split; [|exact C]. destruct (mprims_evs _ _ P3) as (_ & Q3 & _). destruct (mprims_evs _ _ P4) as (_ & Q4 & _).
  rewrite <- V2b, <- Q3, <- Q4. exact B.
Qed.
Lemma stamp_deadlined : forall l nw d x, deadlined (cof (stamp l nw d) x) = deadlined (cof d x).
Proof.
  induction l as [|n l IH]; intros nw d x; cbn; [reflexivity|]. destruct (_ =? 0); [|reflexivity]. rewrite IH.
  destruct (Z.eq_dec x (node_co n)) as [->|N]; [rewrite upco_eq; destruct (cof d (node_co n)); reflexivity | rewrite upco_neq by exact N; reflexivity].
Qed.
Lemma rc_deadlined : forall nw d x, deadlined (cof (rc_step nw d) x) = deadlined (cof d x).
Proof. intros nw d x. unfold rc_step. destruct (0 <? npool d); [|reflexivity]. cbn. apply stamp_deadlined. Qed.
(** one turn of the loop *)
Lemma main_ws : forall s d ws ios x, (if 0 <? npsd (sc s) then paused_step (now s) ios (dt s) else (dt s, [], None)) = (d, ws, None) ->
  In x ws -> ws_reason (now s) (dt s) (rc_step (now s) d) x.
Proof.
  intros s d ws ios x E I. destruct (0 <? npsd (sc s)); [|inj E; destruct I].
  destruct (paused_step_ws _ _ _ _ _ _ _ E I) as [H|[H|[H|[H|[H1 H2]]]]]; unfold ws_reason; auto.
  right; right; right; right. rewrite rc_deadlined. auto.
Qed.

(** ** Whom a handler takes off a queue *)
Lemma fps_uniq : forall c KP KW d R P d', fps c KP KW d R P d' -> uniq d -> uniq d'.
Proof.
  intros c KP KW d R P d' F U. induction F; auto.
  - apply fps_core_q in H. destruct H as (H & _). unfold uniq. rewrite H. exact IHF.
  - apply uniq_rmq, IHF.
  - apply uniq_pushq, IHF.
  - eapply uniq_qupd_tl; eassumption.
  - apply uniq_sched_resume, IHF.
  - apply uniq_qupd_nil; assumption.
Qed.
(** one step of a footprint adds to a wait queue only nodes of [c] *)
Lemma fps_taken : forall c KP KW d R P d', fps c KP KW d R P d' -> uniq d ->
  forall r, In r R -> exists k n, KP k /\ popq_ok k /\ node_co n = r /\
    (In n (q d k) \/ (r = c /\ KW k n)) /\ (r <> c -> forall k', waitq k' -> ~ In n (q d' k')).
Proof.
  intros c KP KW d R P d' F U. induction F; intros r0 I0.
  - destruct I0.
  - exact (IHF r0 I0).
  - destruct (IHF r0 I0) as (k & n & A & B & C & D & G). exists k, n. repeat (split; [assumption|]). intros N k' W'.
    apply fps_core_q in H. destruct H as (H & _). rewrite H. exact (G N k' W').
  - destruct (IHF r0 I0) as (k & n' & A & B & C & D & G). exists k, n'. repeat (split; [assumption|]). intros N k' W' IN.
    apply In_rmq in IN. eapply G; [exact N | exact W' | apply IN].
  - destruct (IHF r0 I0) as (k' & n' & A & B & C & D & G). exists k', n'. repeat (split; [assumption|]). intros N k2 W' IN.
    apply In_pushq in IN. destruct IN as [[IN _]|[_ ->]]; [eapply G; eassumption | congruence].
  - assert (W : waitq k) by (destruct k; try exact I; destruct H0).
    destruct I0 as [<-|I0].
    + exists k, n. split; [exact H|]. split; [exact H0|]. split; [reflexivity|]. split.
      * destruct (fps_q_in _ _ _ _ _ _ _ F n k W) as [J|[J1 J2]]; [rewrite H1; left; reflexivity | auto | right; auto].
      * intros N k' W' IN. pose proof (fps_uniq _ _ _ _ _ _ _ F U) as [UN UL].
        assert (K : k' = k).
        { apply (UL n); [eapply In_qupd_tl; eassumption | rewrite H1; left; reflexivity]. }
        subst. cbn in IN. rewrite qupd_eq in IN. specialize (UN k). rewrite H1 in UN. apply NoDup_cons_iff in UN. tauto.
    + destruct (IHF r0 I0) as (k' & n' & A & B & C & D & G). exists k', n'. repeat (split; [assumption|]). intros N k2 W' IN.
      eapply G; [exact N | exact W' | eapply In_qupd_tl; eassumption].
  - exact (IHF r0 I0).
  - destruct (IHF r0 I0) as (k' & n' & A & B & C & D & G). exists k', n'. repeat (split; [assumption|]). intros N k2 W' IN.
    apply In_sched_resume in IN. destruct IN as [[IN _]|[-> _]]; [eapply G; eassumption | destruct W'].
  - exact (IHF r0 I0).
  - exact (IHF r0 I0).
  - exact (IHF r0 I0).
  - exact (IHF r0 I0).
  - exact (IHF r0 I0).
  - exact (IHF r0 I0).
  - destruct (IHF r0 I0) as (k' & n' & A & B & C & D & G). exists k', n'. repeat (split; [assumption|]). intros N k2 W' IN.
    eapply G; [exact N | exact W' | eapply In_qupd_nil; eassumption].
  - exact (IHF r0 I0).
Qed.
(** the resumption queue only receives coroutines that were taken off a queue *)
Lemma fps_res_in : forall c KP KW d R P d', fps c KP KW d R P d' ->
  forall n k, sysq k -> In n (q d' k) -> In n (q d k) \/ (k = QRes /\ exists r, n = NCo r /\ In r R).
Proof.
  intros c KP KW d R P d' F. induction F; intros x k0 W I0; auto.
  - apply fps_core_q in H. destruct H as (H & _). rewrite H in I0. auto.
  - apply In_rmq in I0. apply IHF; [exact W | apply I0].
  - apply In_pushq in I0. destruct I0 as [[I0 _]|[-> ->]]; [apply IHF; assumption | destruct k; destruct W; destruct H0].
  - apply In_qupd_tl with (n := n) in I0; [|assumption]. destruct (IHF x k0 W I0) as [J|(J1 & r & J2 & J3)]; [auto|].
    right. split; [exact J1|]. exists r. split; [exact J2 | right; exact J3].
  - apply In_sched_resume in I0. destruct I0 as [[I0 _]|[-> ->]]; [apply IHF; assumption | right; eauto].
  - apply IHF; [exact W|]. eapply In_qupd_nil; eassumption.
Qed.

(** ** The call a waiting frame belongs to *)
Definition hostop (f : frame) (o : op) : Prop :=
  match f, o with
  | FSleep, OpSleep _ | FSuspend, OpSuspend _ | FWork, OpWork _ | FWorkRetry, OpWork _
  | FSigWait, OpSigWait _ | FSendWait _, OpGenYield _ _ => True
  | FEvWait fd k, OpWait fd' k' _ _ => fd' = fd /\ k' = k
  | FSendWait ch, OpSend ch' _ _ | FRecvWait ch, OpRecv ch' _ => ch' = ch
  | FSelWait n, OpSelect chs _ => n = Z.of_nat (length chs)
  | FLock m, OpLock m' _ | FLock m, OpRdLock m' _ => m' = m
  | FWgWait w, OpWgWait w' _ => w' = w
  | FCvWait v m, OpCvWait v' m' _ => v' = v /\ m' = m
  | FJoin id, OpJoin id' _ => id' = id
  | FCancelWait id dl, OpCancel id' dl' => id' = id /\ dl' = dl
  | _, _ => False
  end.
Definition parkf (f : frame) : bool := match f with FWork | FWorkRetry => true | _ => waitf f end.
Lemma lstack_host : forall f rest, lstack (f :: rest) -> parkf f = true ->
  (exists k o st, rest = FApi k o :: st /\ ustack st /\ hostop f o) \/
  (exists m ret k v dl st, f = FLock m /\ rest = FCvRelock m ret :: FApi k (OpCvWait v m dl) :: st /\ ustack st).
Proof.
  intros f rest L PF. inversion L as [st U|k o w st U SH EQ|w st ES EQ]; subst.
  - exfalso. inversion U; subst; discriminate.
  - inversion SH; subst; cbn in EQ;
      try (match goal with H : pz _ _ |- _ => inversion H; subst end);
      try (match goal with H : yf _ _ |- _ => inversion H; subst end);
      injection EQ as E1 E2; subst; try discriminate PF;
      try (left; do 3 eexists; split; [reflexivity|]; split; [exact U | cbn; auto; fail]).
    right. do 6 eexists. split; [reflexivity|]. split; [reflexivity | exact U].
  - exfalso. inversion ES; subst; try (injection EQ as E1 E2; subst; discriminate);
      match goal with H : yf _ _ |- _ => inversion H; subst; injection EQ as E1 E2; subst; discriminate end.
Qed.
(** stacks after a call or a continuation *)
Lemma call_lstack : forall c o nw d d' fs k j st, hcall c o nw d = (d', fs, k) -> ustack st ->
  (forall b, k <> CFinal b) -> lstack (fs ++ FApi j o :: st).
Proof.
  intros c o nw d d' fs k j st E U NF.
  assert (N : next_ok (FApi j o :: st) fs k).
  { apply hcall_next in E. destruct E as [E|[(h & -> & -> & -> & _)|(-> & E)]].
    - apply call_next_next; assumption.
    - cbn. apply us_handler. assumption.
    - apply E. }
  destruct k; try exact N; [apply ls_user; exact N | destruct (NF tomain eq_refl)].
Qed.
Lemma tick_lstack : forall c f v b nw d d' fs k rest, hret c f v b nw d = (d', fs, k) -> lstack (f :: rest) ->
  (forall b, k <> CFinal b) -> lstack (fs ++ rest).
Proof.
  intros c f v b nw d d' fs k rest E L NF. pose proof (hret_next _ _ _ _ _ _ _ _ _ _ L E) as N.
  destruct k; try exact N; [apply ls_user; exact N | destruct (NF tomain eq_refl)].
Qed.
(** every live stack is one of the two kinds *)
Lemma live_lstack : forall s x, full s -> stk (sc s) x <> [] -> lstack (stk (sc s) x).
Proof. intros s x [_ [B _]] H. apply B, H. Qed.
Lemma lstack_pause : forall st, lstack (FPause :: st) -> lstack st.
Proof.
  intros st L. inversion L as [st0 U|k o w st0 U SH EQ|w st0 ES EQ]; subst.
  - inversion U.
  - inversion SH; subst; cbn in EQ;
      try (match goal with H : pz _ _ |- _ => inversion H; subst end);
      try (match goal with H : yf _ _ |- _ => inversion H; subst end);
      cbn in EQ; try discriminate EQ; injection EQ as E2; subst;
      (match goal with |- lstack (?f :: FApi ?j ?oo :: ?s) => apply (ls_call j oo [f] s); auto with shp
       | |- lstack (?f :: ?g :: FApi ?j ?oo :: ?s) => apply (ls_call j oo [f; g] s); auto with shp end).
    all: first [eapply sh_gy_w; constructor | apply (sh_cv_l _ _ _ _ [FLock _]); constructor].
  - exfalso. inversion ES; subst; try discriminate EQ; match goal with H : yf _ _ |- _ => inversion H; subst; discriminate EQ end.
Qed.
Lemma lstack_top : forall st, lstack st -> lstack (top st).
Proof. intros st L. destruct st as [|f st]; [exact L|]. destruct f; try exact L. apply lstack_pause, L. Qed.
