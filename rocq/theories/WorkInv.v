(** Background work: while a job of a coroutine is in the hands of a worker thread
    the coroutine stays blocked, and it becomes runnable again only after the
    worker has reported the job finished - provided nobody cancels that coroutine
    and it has not used select. *)
From Coq Require Import List ZArith Bool Lia.
From Verif Require Import AATreeSpec AATreeHist Util Runtime SchedInv StepInv StackShape RuntimeSpec TraceInv Immediate Prims StaticInv Footprint QueueInv OwnInv WaitInv CallInv CountInv SpecInv TraceStep Wake Awake AllInv ResultInv JoinInv WaiterInv.
Import ListNotations.
Local Open Scope Z_scope.

(** nobody asked to cancel [x], and [x] never called select *)
Definition wsafe (x : Z) (t : list obs) : Prop :=
  (forall k c dl tm, ~ In (TCall k c (OpCancel x dl) tm) t) /\ ~ did x isSel t.
Lemma wsafe_mono : forall x t t', (forall z, In z t -> In z t') -> wsafe x t' -> wsafe x t.
Proof. intros x t t' M [A B]. split; [intros k c dl tm H; eapply A, M, H | intros H; apply B; eapply did_mono; eassumption]. Qed.

Record wk (s : state) (x : Z) : Prop := {
  wk_fl : In x (inflight (dt s)) -> In x (paused (sc s)) /\ exists k o st, stk (sc s) x = FWork :: FApi k o :: st;
  wk_io : In (NCo x) (q (dt s) QIo) -> In x (paused (sc s)) /\ ~ In x (inflight (dt s)) /\ exists st, stk (sc s) x = FWork :: st;
  wk_one : (count_occ Z.eq_dec (inflight (dt s)) x <= 1)%nat;
  wk_done : forall w, stk (sc s) x = FWork :: w -> In x (inflight (dt s)) \/ In (TWorkDone x (callno w)) (tr s);
  wk_live : forall w, stk (sc s) x = FWork :: w -> In x (paused (sc s)) ->
     In x (inflight (dt s)) \/ In (NCo x) (q (dt s) QIo) \/ In (NCo x) (q (dt s) QRes);
  wk_lt : forall k, In (TWorkDone x k) (tr s) -> (k < ncalls s)%nat;
  wk_new : forall f k o st, stk (sc s) x = f :: FApi k o :: st -> f = FWorkRetry \/ (f = FWork /\ In x (inflight (dt s))) ->
     ~ In (TWorkDone x k) (tr s) }.

(** only the submission loop leaves a job record on the stack *)
Lemma hret_work : forall c f v b nw d d' fs k, hret c f v b nw d = (d', fs, k) -> (fs = [FWork] \/ fs = [FWorkRetry]) -> f = FWorkRetry.
Proof.
  intros c f v b nw d d' fs k E H.
  assert (CR : forall a e, coexit_rest c a e = (d', fs, k) -> False).
  { intros a e Q. apply coexit_rest_shape in Q. destruct Q as [[-> _]|[ES _]]; [destruct H; discriminate|].
    apply exit_shape_hd in ES. destruct ES as (g & r & -> & G). destruct H as [H|H]; injection H as -> _; destruct G. }
  assert (CA : forall e, coexit_async c e = (d', fs, k) -> False).
  { intros e Q. unfold coexit_async in Q. destruct (cleanups _); [eapply CR; exact Q | inversion Q; subst; destruct H; discriminate]. }
  destruct f; try reflexivity; exfalso; cbn [hret] in E; try (eapply CR; exact E); try (eapply CA; exact E);
  try (destruct (_ && _) in E; [eapply CA; exact E | inversion E; subst; destruct H; discriminate]);
  unfold sleep_end, do_cancel, sigwait_end, wait_end, send_end, recv_end, select_end, lock_end, wgwait_end, cvwait_unlocked, cvwait_end, cv_relock, join_end, suspend_end, exit_gen, finish_lock in E; unfold yfsr, coyield, copause in E; cbv zeta in E.
  all: try (repeat match type of E with context [match ?x with _ => _ end] => destruct x | context [if ?x then _ else _] => destruct x end; try (eapply CA; exact E); inversion E; subst; destruct H; discriminate).
Qed.
Lemma call_tr_done : forall s c o fs k y j, In (TWorkDone y j) (call_tr s c o fs k) -> In (TWorkDone y j) (tr s).
Proof.
  intros s c o fs k y j H. unfold call_tr in H. apply in_app_or in H. destruct H as [H|H]; [destruct k; cbn in H; intuition discriminate|].
  apply in_app_or in H. destruct H as [H|H].
  - destruct (handler_obs_cases c fs k (dt s)) as [Q|(h & Q)]; rewrite Q in H; cbn in H; intuition discriminate.
  - apply in_app_or in H. destruct H as [H|H]; [|exact H]. destruct o; cbn in H; intuition discriminate.
Qed.
Lemma tick_tr_done : forall s c v f d fs k y j, In (TWorkDone y j) (tick_tr s c v f d fs k) -> In (TWorkDone y j) (tr s).
Proof.
  intros s c v f d fs k y j H. unfold tick_tr in H. apply in_app_or in H. destruct H as [H|H]; [destruct k; cbn in H; intuition discriminate|].
  apply in_app_or in H. destruct H as [H|H].
  - destruct (handler_obs_cases c fs k (dt s)) as [Q|(h & Q)]; rewrite Q in H; cbn in H; intuition discriminate.
  - apply in_app_or in H. destruct H as [H|H]; [|exact H].
    destruct (ret_obs_cases c f v (d, fs, k) s) as [Q|(k0 & o0 & d0 & _ & _ & Q)]; rewrite Q in H; cbn in H; intuition discriminate.
Qed.
Lemma nowork : forall st, nowait st -> ~ In FWork st.
Proof. intros st N I. specialize (N _ I). discriminate. Qed.
Lemma nowork_wait : forall st f, wsh (FWork :: st) -> In f (FWork :: st) -> waitf f = false /\ f <> FPause.
Proof.
  intros st f W I. assert (N : nowait st) by (eapply wsh_tl; [exact W | discriminate]).
  destruct I as [<-|I]; [split; [reflexivity | discriminate]|]. specialize (N _ I). unfold plain in N.
  apply andb_true_iff in N. destruct N as [N1 N2]. apply negb_true_iff in N1. split; [exact N1|]. intros ->. discriminate.
Qed.

(** a step of another coroutine *)
Lemma wk_other : forall s c d0 d KP (KW : qid -> node -> Prop) R P k st' sch md n nw nc T (XP : Z -> Prop) x,
  reach s -> cur (sc s) = Some c -> wk s x -> ~ did x isSel (tr s) -> fps c KP KW d0 R P d -> uniq d0 -> kp x (dt s) d0 ->
  exec c k (set_stk (zupd (stk (sc s)) c st') (sc s)) = (sch, md) -> n = nextid (sc s) + 1 ->
  (forall m kk, In m (q d0 kk) -> In m (q (dt s) kk)) ->
  (forall id, k = CResume id -> In id R \/ XP id) -> (forall y, In y P -> k = CResume y) ->
  (forall z, In z (tr s) -> In z T) -> (forall j, In (TWorkDone x j) T -> In (TWorkDone x j) (tr s)) -> (ncalls s <= nc)%nat ->
  (XP x -> suspended (cof (dt s) x) = true) ->
  (inflight d = inflight (dt s) \/ inflight d = inflight (dt s) ++ [c]) ->
  x <> c -> wk (mkst sch (ctl_dat c n k d) md nw nc T) x.
Proof.
  intros s c d0 d KP KW R P k st' sch md n nw nc T XP x RE CU [I1 I2 I3 I4 I5 I6 I7] NS FP U0 KPX X -> D0 HK HP TM TW NC HX IFL NE.
  pose proof (reach_full _ RE) as F. pose proof (cur_notfresh _ _ F CU) as NFR.
  assert (FE : forall z, In x (inflight (ctl_dat c z k d)) <-> In x (inflight (dt s))).
  { intros z. rewrite ctl_inflight. destruct IFL as [->| ->]; [tauto|]. rewrite in_app_iff. cbn. intuition congruence. }
  assert (CE : forall z, count_occ Z.eq_dec (inflight (ctl_dat c z k d)) x = count_occ Z.eq_dec (inflight (dt s)) x).
  { intros z. rewrite ctl_inflight. destruct IFL as [->| ->]; [reflexivity|]. rewrite count_occ_app. cbn. destruct (Z.eq_dec c x); [congruence | lia]. }
  assert (ST : forall w, stk (sc s) x = FWork :: w -> stk sch x = FWork :: w).
  { intros w Q. destruct (exec_stk_cases _ _ _ _ _ X NFR x) as [[? _]|[(_ & -> & _)|(_ & E & _)]]; [contradiction| |].
    - cbn in Q. rewrite stk_fresh in Q by exact F. discriminate.
    - rewrite E. cbn. rewrite zupd_neq by exact NE. exact Q. }
  assert (TS : forall w, stk sch x = FWork :: w -> stk (sc s) x = FWork :: w).
  { intros w Q. destruct (exec_stk_cases _ _ _ _ _ X NFR x) as [[? _]|[(_ & _ & _ & E)|(_ & E & _)]]; [contradiction| |]; rewrite E in Q; [discriminate|].
    cbn in Q. rewrite zupd_neq in Q by exact NE. exact Q. }
  assert (KR : forall w, stk (sc s) x = FWork :: w -> k <> CResume x).
  { intros w Q ->. pose proof (reach_wsh _ RE x) as W. rewrite Q in W. destruct (HK x eq_refl) as [IR|XR].
    - destruct (fps_taken _ _ _ _ _ _ _ FP U0 x IR) as (kk & m & _ & PO & NCO & [IM|[? _]] & _); [|contradiction].
      pose proof (reach_qloc _ RE m kk (popq_waitq _ PO) (D0 _ _ IM)) as MA. rewrite NCO, Q in MA. exact MA.
    - apply HX in XR. apply (bk_su _ _ _ (reach_bk _ RE x)) in XR. rewrite Q in XR. destruct (nowork_wait _ _ W XR) as [V _]. discriminate. }
  assert (PA : forall w, stk (sc s) x = FWork :: w -> In x (paused (sc s)) -> In x (paused sch)).
  { intros w Q J. eapply exec_paused_in; [exact X | exact J | eapply KR; exact Q]. }
  split; cbn [sc dt tr].
  - intros J. apply FE in J. destruct (I1 J) as (A & kk & o & st & B). split; [eapply PA; eassumption | exists kk, o, st; apply ST, B].
  - intros J. apply ctl_sysq in J; [|exact I]. destruct J as [J|(? & _)]; [|discriminate].
    destruct (fps_res_in _ _ _ _ _ _ _ FP (NCo x) QIo I J) as [J0|(? & _)]; [|discriminate].
    destruct (I2 (D0 _ _ J0)) as (A & B & st & C). split; [eapply PA; eassumption|]. split; [intros Z; apply FE in Z; exact (B Z) | exists st; apply ST, C].
  - rewrite CE. exact I3.
  - intros w Q. apply TS in Q. destruct (I4 w Q) as [A|A]; [left; apply FE, A | right; apply TM, A].
  - intros w Q J. apply TS in Q. assert (J0 : In x (paused (sc s))).
    { pose proof (exec_paused _ _ _ _ _ X) as PE. cbn [paused set_stk] in PE. rewrite PE in J.
      destruct k; try exact J.
      - apply in_app_or in J. destruct J as [J|[->|[]]]; [exact J | contradiction].
      - destruct (mem id (paused (sc s))); [apply remove1_In in J; apply J | exact J]. }
    assert (QK : forall kk, kk = QIo \/ kk = QRes -> In (NCo x) (q d kk) -> In (NCo x) (q (ctl_dat c (nextid (sc s) + 1) k d) kk)).
    { intros kk HH IN. destruct k; cbn [ctl_dat]; auto.
      - rewrite spawn_q_eq; [exact IN | destruct HH; subst; discriminate].
      - unfold final_dat. cbn [q set_npool]. apply In_pushq. left. split; [exact IN | congruence]. }
    destruct (I5 w Q J0) as [A|A]; [left; apply FE, A|]. right.
    assert (B : exists kk, (kk = QIo \/ kk = QRes) /\ In (NCo x) (q (dt s) kk)) by (destruct A; eauto).
    destruct B as (kk & HH & B). destruct (fps_keepq _ _ _ _ _ _ _ _ _ _ NE KPX FP HP kk) as [C|[C|C]]; [destruct HH; subst; exact (fun z => z) | exact B | | |].
    + destruct HH; subst; [left | right]; apply QK; auto.
    + right. apply QK; auto.
    + exfalso. eapply KR; eassumption.
  - intros j J. apply TW, I6 in J. cbn; lia.
  - intros f j o st Q HF J. apply TW in J. eapply I7; [|destruct HF as [HF|[HF G]]; [left; exact HF | right; split; [exact HF | apply FE in G; exact G]] | exact J].
    destruct (exec_stk_cases _ _ _ _ _ X NFR x) as [[? _]|[(_ & _ & _ & E)|(_ & E & _)]]; [contradiction| |]; rewrite E in Q; [discriminate|].
    cbn in Q. rewrite zupd_neq in Q by exact NE. exact Q.
Qed.
(** a step of the coroutine itself *)
Lemma wk_own : forall s c W d0 d fs k base sch md n nw nc T KP (KW : qid -> node -> Prop) R P dF,
  reach s -> cur (sc s) = Some c -> wk s c -> outc c W d0 d fs k -> inflight d0 = inflight (dt s) ->
  fps c KP KW dF R P d -> (forall m kk, In m (q dF kk) -> In m (q (dt s) kk)) ->
  ~ In FWork base ->
  exec c k (set_stk (zupd (stk (sc s)) c (fs ++ base)) (sc s)) = (sch, md) -> n = nextid (sc s) + 1 ->
  (forall j, In (TWorkDone c j) T -> In (TWorkDone c j) (tr s)) -> (ncalls s <= nc)%nat ->
  (fs = [FWork] \/ fs = [FWorkRetry] -> exists j o st, base = FApi j o :: st /\ ~ In (TWorkDone c j) (tr s)) ->
  ~ In FWorkRetry base ->
  wk (mkst sch (ctl_dat c n k d) md nw nc T) c.
Proof.
  intros s c W d0 d fs k base sch md n nw nc T KP KW R P dF RE CU [I1 I2 I3 I4 I5 I6 I7] O D0 FP DF NB X -> TW NC HB NBR.
  pose proof (reach_full _ RE) as F. pose proof (cur_notfresh _ _ F CU) as NFR. pose proof (cur_notpaused _ _ F CU) as NP.
  assert (NI : ~ In c (inflight (dt s))) by (intros J; apply NP, I1, J).
  assert (NQ : forall z, ~ In (NCo c) (q (ctl_dat c z k d) QIo)).
  { intros z J. apply ctl_sysq in J; [|exact I]. destruct J as [J|(? & _)]; [|discriminate].
    destruct (fps_res_in _ _ _ _ _ _ _ FP (NCo c) QIo I J) as [J0|(? & _)]; [|discriminate]. apply NP, I2, DF, J0. }
  assert (SK : stk sch c = fs ++ base \/ stk sch c = []).
  { destruct (exec_stk_cases _ _ _ _ _ X NFR c) as [[_ Q]|[(? & _)|(? & _)]]; [|contradiction|contradiction].
    rewrite Q. cbn. rewrite zupd_eq. destruct k; auto. }
  assert (I6' : forall j, In (TWorkDone c j) T -> (j < nc)%nat) by (intros j J; apply TW, I6 in J; lia).
  assert (I7' : forall f j o st, stk sch c = f :: FApi j o :: st -> f = FWorkRetry \/ f = FWork -> ~ In (TWorkDone c j) T).
  { intros f j o st Z HF J. apply TW in J. destruct SK as [SK|SK]; rewrite SK in Z; [|discriminate]. destruct fs as [|g fs]; cbn in Z.
    - rewrite Z in NB, NBR. cbn in NB, NBR. destruct HF; subst; tauto.
    - injection Z as -> Z. assert (FS : fs = []).
      { destruct O as [Q1 N K|g r dl d1 Q1 WG N WD E|E1 Q2 Q3|E1 Q2 Q3].
        + specialize (N f (or_introl eq_refl)). destruct HF; subst; discriminate.
        + apply copause_fs in E. destruct E as [(E & _)|(E & _)]; injection E as -> _; destruct HF; subst; discriminate.
        + injection Q2 as _ Q2. exact Q2.
        + injection Q2 as _ Q2. exact Q2. }
      subst fs. destruct HB as (j1 & o1 & st1 & -> & NI1); [destruct HF; subst; auto|]. cbn in Z. injection Z as -> -> ->. contradiction. }
  destruct (outc_inflight _ _ _ _ _ _ O) as [Q|(Q & -> & ->)]; rewrite D0 in Q.
  - assert (NW : forall w, stk sch c <> FWork :: w).
    { intros w Z. destruct SK as [SK|SK]; rewrite SK in Z; [|discriminate]. destruct fs as [|f fs]; cbn in Z.
      - apply NB. rewrite Z. left. reflexivity.
      - injection Z as -> _. destruct O as [Q1 N K|g r dl d1 Q1 WG N WD E|E1 Q2 Q3|E1 Q2 Q3].
        + eapply nowork; [exact N | left; reflexivity].
        + apply copause_fs in E. destruct E as [(E & _)|(E & _)]; [injection E as <- _; discriminate | discriminate].
        + subst d. cbn in Q. rewrite D0 in Q. apply (f_equal (@length Z)) in Q. rewrite app_length in Q. cbn in Q. lia.
        + discriminate. }
    split; cbn [sc dt tr].
    + rewrite ctl_inflight, Q. intros J. contradiction.
    + intros J. destruct (NQ _ J).
    + rewrite ctl_inflight, Q. exact I3.
    + intros w Z. destruct (NW w Z).
    + intros w Z. destruct (NW w Z).
    + exact I6'.
    + intros f j o st Z HF. eapply I7'; [exact Z | tauto].
  - destruct (HB (or_introl eq_refl)) as (j & o & st & -> & NJ). assert (S1 : stk sch c = FWork :: FApi j o :: st).
    { destruct (exec_stk_cases _ _ _ _ _ X NFR c) as [[_ E]|[(? & _)|(? & _)]]; [|contradiction|contradiction]. rewrite E. cbn. apply zupd_eq. }
    assert (P1 : In c (paused sch)) by (apply exec_paused in X; rewrite X; apply in_or_app; right; left; reflexivity).
    assert (J1 : In c (inflight d)) by (rewrite Q; apply in_or_app; right; left; reflexivity).
    split; cbn [sc dt tr ctl_dat].
    + intros _. split; [exact P1 | eauto].
    + intros J. destruct (NQ 0 J).
    + rewrite Q, count_occ_app. apply (count_occ_not_In Z.eq_dec) in NI. rewrite NI. cbn. destruct (Z.eq_dec c c); lia.
    + auto.
    + auto.
    + exact I6'.
    + intros f j1 o1 st1 Z HF. eapply I7'; [exact Z | tauto].
Qed.

Lemma paused_step_io : forall nw ios d d' ws k, paused_step nw ios d = (d', ws, k) -> 0 < niow d ->
  (forall x, ~ In (NCo x) (q d' QIo)) /\ forall x, In (NCo x) (q d QIo) -> In x ws.
Proof.
  intros nw ios d d' ws k E NZ. unfold paused_step in E.
  set (d1 := set_nresumers _ _) in E.
  assert (H1 : (0 <? niow d1) = true) by (apply Z.ltb_lt; exact NZ). rewrite H1 in E.
  set (d2 := set_q _ d1) in E.
  destruct (if 0 <? nevs d2 then _ else _) as [d3 w3] eqn:E3.
  assert (P3 : mprims d2 d3). { destruct (0 <? nevs d2); [eapply mp_event_step; exact E3 | inj E3; apply ms_nil]. }
  destruct (if negb (sigm d3 =? 0) then _ else _) as [[d4 w4] kill] eqn:E4.
  assert (P4 : mprims d3 d4). { destruct (negb _); [eapply mp_signal_step; exact E4 | inj E4; apply ms_nil]. }
  destruct (dl_step (dls d4) nw d4) as [d5 w5] eqn:E5.
  assert (P5 : mprims d4 d5) by (eapply mp_dl_step; exact E5). inj E.
  split.
  - intros x J. apply (mprims_sysq _ _ _ QIo P5 I) in J. apply (mprims_sysq _ _ _ QIo P4 I) in J. apply (mprims_sysq _ _ _ QIo P3 I) in J.
    unfold d2 in J. cbn in J. exact J.
  - intros x J. apply in_or_app. right. apply in_or_app. left. apply in_map_iff. exists (NCo x). split; [reflexivity|]. exact J.
Qed.

Lemma covers_everyone : forall s, full s -> covers (everyone (sc s)) (sc s).
Proof. intros s [[SI _] _]. split; [apply (si_nodup _ SI)|]. intros x A. apply (si_alive _ SI), A. Qed.
Lemma work_counted : forall s x w, reach s -> stk (sc s) x = FWork :: w -> 0 < niow (dt s).
Proof.
  intros s x w RE Q. pose proof (covers_everyone _ (reach_full _ RE)) as CV.
  pose proof (reach_cnt KWork _ RE _ CV) as E. cbn [ctr] in E. rewrite E. unfold cnt.
  destruct CV as [_ CV]. assert (IN : In x (everyone (sc s))) by (apply CV; rewrite Q; discriminate).
  revert IN. generalize (everyone (sc s)). induction l as [|y l IH]; intros IN; [destruct IN|]. rewrite zsum_cons.
  assert (NN : 0 <= zsum (fun z => b2z (blk KWork (stk (sc s) z))) l).
  { clear. induction l as [|y l IH]; [cbn; lia|]. rewrite zsum_cons. destruct (blk KWork (stk (sc s) y)); cbn [b2z]; lia. }
  destruct IN as [->|IN]; [rewrite Q; cbn [blk infr b2z]; lia|]. specialize (IH IN). destruct (blk KWork (stk (sc s) y)); cbn [b2z]; lia.
Qed.
(** an environment event seen by [x] *)
Lemma env_work : forall s e, match e with ECall _ | ETick _ | EMain _ => False | _ => True end ->
  (inflight (dt (step s e)) = inflight (dt s) /\ q (dt (step s e)) = q (dt s) /\ tr (step s e) = tr s) \/
  exists c w, In c (inflight (dt s)) /\ stk (sc s) c = FWork :: w /\ inflight (dt (step s e)) = remove_first c (inflight (dt s)) /\
    q (dt (step s e)) = q (pushq QIo (NCo c) (dt s)) /\ tr (step s e) = TWorkDone c (callno w) :: tr s.
Proof.
  intros s e H. destruct e; try contradiction; cbn;
    repeat match goal with |- context [if mem ?a ?b then _ else _] => destruct (mem a b) eqn:ME | |- context [if ?b then _ else _] => destruct b | |- context [match mode ?z with _ => _ end] => destruct (mode z)
    | |- context [match stk (sc ?z) ?c with _ => _ end] => destruct (stk (sc z) c) as [|[] ?] eqn:SK end; try (left; repeat split; reflexivity);
    (right; exists c, l; split; [apply mem_In, ME | split; [exact SK | repeat split]]).
Qed.
Lemma env_ncalls : forall s e, match e with ECall _ | ETick _ | EMain _ => False | _ => True end -> ncalls (step s e) = ncalls s.
Proof.
  intros s e H. destruct e; try contradiction; cbn;
    repeat match goal with |- context [if ?b then _ else _] => destruct b | |- context [match mode ?z with _ => _ end] => destruct (mode z)
    | |- context [match stk (sc ?z) ?c with _ => _ end] => destruct (stk (sc z) c) as [|[] ?] end; reflexivity.
Qed.
Lemma remove_first_in : forall c l x, In x (remove_first c l) -> In x l.
Proof. intros c l x. induction l as [|y l IH]; cbn; auto. destruct (c =? y); cbn; intuition. Qed.
Lemma remove_first_other : forall c l x, x <> c -> In x l -> In x (remove_first c l).
Proof. intros c l x N. induction l as [|y l IH]; cbn; auto. destruct (Z.eqb_spec c y); cbn; intuition congruence. Qed.
Lemma remove_first_count : forall c l x, (count_occ Z.eq_dec (remove_first c l) x <= count_occ Z.eq_dec l x)%nat.
Proof.
  intros c l x. induction l as [|y l IH]; cbn; auto. destruct (c =? y); cbn; destruct (Z.eq_dec y x); lia.
Qed.
Lemma remove_first_self : forall c l, (count_occ Z.eq_dec l c <= 1)%nat -> ~ In c (remove_first c l).
Proof.
  intros c l H J. revert H J. induction l as [|y l IH]; cbn; auto. destruct (Z.eqb_spec c y) as [->|N]; cbn.
  - destruct (Z.eq_dec y y); [|contradiction]. intros H J. apply (count_occ_In Z.eq_dec) in J. lia.
  - destruct (Z.eq_dec y c); [congruence|]. intros H [J|J]; [congruence | auto].
Qed.

Theorem reach_wk : forall s, reach s -> forall x, wsafe x (tr s) -> wk s x.
Proof.
  apply (rrun_preserves (fun s => forall x, wsafe x (tr s) -> wk s x)).
  - intros s c o d fs k sch md RE I M CU U NR E X x WS. cbn [tr] in WS. change (wsafe x (call_tr s c o fs k)) in WS.
    assert (W0 : wsafe x (tr s)) by (eapply wsafe_mono; [|exact WS]; intros z; apply call_tr_old). specialize (I x W0).
    destruct (hcall_fp _ _ _ _ _ _ _ (ncalls s) (stk (sc s) c) E) as (R & P & FP & HK & HP).
    pose proof (hcall_out _ _ _ _ _ _ _ E) as O.
    assert (TW : forall y j, In (TWorkDone y j) (call_tr s c o fs k) -> In (TWorkDone y j) (tr s)) by (intros y j; apply call_tr_done).
    destruct (Z.eq_dec x c) as [->|NE].
    + assert (NWS : nowait (stk (sc s) c)).
      { pose proof (reach_wsh _ RE c) as W.
        inversion W as [s0 N Q|f0 s0 A N Q|f0 s0 A N Q|f0 s0 A N Q]; auto; exfalso; rewrite <- Q in U; inversion U; subst; try discriminate; destruct A; discriminate. }
      eapply (wk_own s c); try eassumption; try reflexivity; auto.
      * intros [J|J]; [discriminate|]. eapply nowork; eassumption.
      * intros _. exists (ncalls s), o, (stk (sc s) c). split; [reflexivity|]. intros J. apply (wk_lt _ _ I) in J. lia.
      * intros [J|J]; [discriminate|]. specialize (NWS _ J). discriminate.
    + eapply (wk_other s c (dt s) d); try eassumption; try reflexivity; auto.
      * apply W0.
      * apply reach_uniq, RE.
      * apply kp_refl.
      * intros z. apply (call_tr_old s c o fs k).
      * intros XC. destruct o; cbn in XC; try contradiction; destruct XC as [-> XC].
        -- exfalso. destruct WS as [WS _]. eapply WS. apply call_tr_new.
        -- exact XC.
      * destruct (outc_inflight _ _ _ _ _ _ O) as [Q|(Q & _)]; auto.
  - intros s c v f rest b d fs k sch md RE I M CU SK L E X x WS. cbn [tr] in WS. change (wsafe x (tick_tr s c v f d fs k)) in WS.
    assert (W0 : wsafe x (tr s)) by (eapply wsafe_mono; [|exact WS]; intros z; apply tick_tr_old). specialize (I x W0).
    destruct (hret_fp _ _ _ _ _ _ _ _ _ rest E) as (R & P & FP & HK & HP).
    destruct (hret_out _ _ _ _ _ _ _ _ _ E) as (d1 & Q1 & O).
    assert (TW : forall y j, In (TWorkDone y j) (tick_tr s c v f d fs k) -> In (TWorkDone y j) (tr s)) by (intros y j; apply tick_tr_done).
    assert (DI : inflight (lv c f d1) = inflight (dt s)) by (rewrite lv_inflight; eapply quiet_inflight; exact Q1).
    destruct (Z.eq_dec x c) as [->|NE].
    + assert (PL : forall g, In g rest -> g <> FWork /\ g <> FWorkRetry).
      { pose proof (reach_wsh _ RE c) as W. rewrite SK in W. intros g J.
        assert (PG : forall l, nowait l -> In g l -> g <> FWork /\ g <> FWorkRetry) by (intros l N G; specialize (N _ G); split; intros ->; discriminate).
        assert (NP : f = FPause \/ f <> FPause) by (destruct f; auto; right; discriminate).
        destruct NP as [->|NP]; [|eapply PG; [eapply wsh_tl; eassumption | exact J]].
        inversion W as [s0 N|f0 s0 A N|f0 s0 A N|f0 s0 A N]; subst.
        - specialize (N FPause (or_introl eq_refl)). discriminate.
        - discriminate.
        - destruct J as [->|J]; [split; intros ->; discriminate | eapply PG; eassumption].
        - destruct A; discriminate. }
      eapply (wk_own s c); try eassumption; try reflexivity.
      * intros m kk. apply leave_in.
      * intros J. apply PL in J. tauto.
      * apply TW.
      * intros H. pose proof (hret_work _ _ _ _ _ _ _ _ _ E H) as ->.
        assert (L0 : parkf FWorkRetry = true) by reflexivity.
        destruct (lstack_host _ _ L L0) as [(j & oo & st & Q4 & _ & _)|(? & ? & ? & ? & ? & ? & ? & _)]; [|discriminate].
        exists j, oo, st. split; [exact Q4|]. subst rest. eapply (wk_new _ _ I); [exact SK | auto].
      * intros J. apply PL in J. tauto.
    + eapply (wk_other s c (leave f c (dt s)) d); try eassumption; try reflexivity; auto.
      * apply W0.
      * apply leave_uniq, reach_uniq, RE.
      * apply kp_leave, NE.
      * intros m kk. apply leave_in.
      * intros z. apply (tick_tr_old s c v f d fs k).
      * intros XC. destruct f; cbn in XC; try contradiction. destruct XC as [-> XC]. exfalso.
        destruct (lstack_host _ _ L eq_refl) as [(j & oo & st & Q4 & _ & H)|(? & ? & ? & ? & ? & ? & ? & _)]; [|discriminate].
        destruct oo; cbn in H; try contradiction. destruct H as [-> ->].
        destruct (ci_open _ (reach_cinv _ RE) c j (OpCancel id dl)) as (tm & H1 & _); [rewrite SK, Q4; right; left; reflexivity|].
        destruct W0 as [W0 _]. eapply W0; exact H1.
      * destruct (outc_inflight _ _ _ _ _ _ O) as [Q|(Q & _)]; rewrite Q, DI; auto.
  - intros s d ws sch md ios RE I M A K X x WS. cbn [set_sc set_dt set_mode tr] in WS. specialize (I x WS). destruct I as [I1 I2 I3 I4 I5 I6 I7].
    pose proof (reach_full _ RE) as F. pose proof (mp_main _ _ _ _ _ _ _ K) as MP. pose proof X as X0.
    apply sco_switch_frame in X. destruct X as (X1 & _). destruct (wakes_frame ws (sc s)) as (W1 & _).
    destruct (mprims_evs _ _ MP) as (_ & _ & IF).
    assert (NPS : In x (paused (sc s)) -> (0 <? npsd (sc s)) = true).
    { intros PB. apply Z.ltb_lt. destruct (reach_full _ RE) as [[SI _] _]. pose proof (ct_psd _ (si_counts _ SI)) as Q.
      destruct (paused (sc s)); [destruct PB|]. cbn in Q. lia. }
    assert (NW : In x (inflight (dt s)) -> ~ In x ws).
    { intros J IW. destruct (I1 J) as (PA & kk & o & st & SK). pose proof (reach_wsh _ RE x) as W. rewrite SK in W.
      assert (NWF : forall f, In f (stk (sc s) x) -> waitf f = false /\ f <> FPause) by (intros f; rewrite SK; apply nowork_wait; exact W).
      destruct (main_ws _ _ _ _ _ K IW) as [(n & IN & NC)|[(n & IN & NC)|[(fd & kd & IN)|[(n & IN & NC)|(_ & dl & IN & _)]]]].
      - destruct (so_nco _ _ (reach_sysok _ RE) n QRes I IN) as (y & ->). cbn in NC. subst y. 
        destruct (qr_res _ (reach_qres _ RE) _ IN) as [(f & rest & kq & TP & WQ)|H]; [|apply WS, H].
        rewrite SK in TP. cbn in TP. injection TP as <- <-. discriminate.
      - destruct (so_nco _ _ (reach_sysok _ RE) n QIo I IN) as (y & ->). cbn in NC. subst y. destruct (I2 IN) as (_ & N & _). contradiction.
      - apply (bk_ev _ _ _ (reach_bk _ RE x)) in IN. apply NWF in IN. destruct IN. discriminate.
      - pose proof (reach_qloc _ RE n QSig I IN) as MA. rewrite NC, SK in MA. exact MA.
      - apply (bk_dl _ _ _ (reach_bk _ RE x)) in IN. destruct IN as [IN _]. apply NWF in IN. tauto. }
    assert (PK : In x (inflight (dt s)) -> In x (paused sch)).
    { intros J. rewrite (switch_paused _ _ _ _ X0). apply wakes_paused; [apply I1, J | apply NW, J]. }
    assert (IO : In (NCo x) (q (dt s) QIo) -> In x ws /\ ~ In (NCo x) (q (rc_step (now s) d) QIo)).
    { intros J. destruct (I2 J) as (PA & _ & st & SK). rewrite (NPS PA) in K.
      destruct (paused_step_io _ _ _ _ _ _ K (work_counted _ _ _ RE SK)) as [B C]. split; [apply C, J|].
      intros Z. apply (mprims_sysq _ _ _ QIo (mp_rc_step _ _) I) in Z. exact (B _ Z). }
    split; cbn [set_sc set_dt set_mode sc dt tr]; rewrite ?X1, ?W1, ?IF.
    + intros J. split; [apply PK, J | apply I1, J].
    + intros J. exfalso. pose proof (mprims_sysq _ _ _ QIo MP I J) as J0. apply IO in J0. tauto.
    + exact I3.
    + exact I4.
    + intros w Q PA. rewrite (switch_paused _ _ _ _ X0) in PA. destruct (wakes_in _ _ _ PA) as [PB NN].
      destruct (I5 w Q PB) as [J|[J|J]]; [auto | destruct NN; apply IO, J|].
      destruct NN. rewrite (NPS PB) in K. eapply paused_step_res; eassumption.
    + exact I6.
    + exact I7.
  - intros s m RE I _ x WS. destruct (I x WS) as [I1 I2 I3 I4 I5 I6 I7]. split; assumption.
  - intros s e RE I H M x WS. 
    assert (TM : forall z, In z (tr s) -> In z (tr (step s e))) by (intros z; apply env_tr_old, H).
    assert (W0 : wsafe x (tr s)) by (eapply wsafe_mono; eassumption).
    destruct (I x W0) as [I1 I2 I3 I4 I5 I6 I7]. destruct (env_frame s e H) as (E1 & _ & _ & _ & E5). pose proof (env_ncalls s e H) as EN.
    destruct (env_work s e H) as [(Q1 & Q2 & Q3)|(c & w & IC & SK & Q1 & Q2 & Q3)].
    + split; rewrite ?E1, ?E5, ?Q1, ?Q2, ?Q3, ?EN; auto.
    + split; rewrite ?E1, ?E5, ?Q1, ?Q2.
      * intros J. apply I1. eapply remove_first_in; exact J.
      * intros J. apply In_pushq in J. destruct J as [[J _]|[_ J]].
        -- destruct (I2 J) as (A & B & C). split; [exact A|]. split; [|exact C]. intros Z. apply B. eapply remove_first_in; exact Z.
        -- injection J as <-. destruct (I1 IC) as (A & kk & o & st & B). split; [exact A|]. split; [apply remove_first_self, I3 | eauto].
      * eapply Nat.le_trans; [apply remove_first_count | exact I3].
      * intros w0 Q. destruct (Z.eq_dec x c) as [->|N].
        -- right. rewrite Q3. left. congruence.
        -- destruct (I4 w0 Q) as [J|J]; [left; apply remove_first_other; assumption | right; apply TM, J].
      * intros w0 Q PA. destruct (Z.eq_dec x c) as [->|N].
        -- right; left. apply In_pushq. right. auto.
        -- destruct (I5 w0 Q PA) as [J|[J|J]]; [left; apply remove_first_other; assumption | right; left | right; right]; apply In_pushq; left; (split; [exact J | congruence]).
      * rewrite Q3, EN. intros j [J|J]; [|apply I6, J]. injection J as -> <-. destruct (I1 IC) as (_ & kk & o & st & B). rewrite B in SK. injection SK as <-. cbn [callno].
        destruct (ci_open _ (reach_cinv _ RE) x kk o) as (tm & J & _); [rewrite B; right; left; reflexivity|]. apply (ci_lt _ (reach_cinv _ RE) _ _ _ _ J).
      * rewrite Q3. intros f j o st Q HF [J|J].
        -- injection J as -> _. rewrite Q in SK. injection SK as -> _. destruct HF as [HF|[_ HF]]; [discriminate|]. eapply remove_first_self; [exact I3 | exact HF].
        -- eapply I7; [exact Q | | exact J]. destruct HF as [HF|[HF G]]; [left; exact HF | right; split; [exact HF | eapply remove_first_in; exact G]].
  - intros g O x WS. split; cbn; auto; try contradiction.
    + intros w Q. unfold zupd in Q. destruct (_ =? _); discriminate.
    + intros k [J|[]]. discriminate.
    + intros f k o st _ _ [J|[]]. discriminate.
Qed.
