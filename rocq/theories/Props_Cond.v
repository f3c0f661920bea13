(** C12: condition variables.
    [reach s]: [s] is the state after some history of a freshly started runtime.
    [tidy t]: no object is initialised or destroyed while a call is using it.
    [signalled v k t] (CvSpec): after call [k] was made, somebody called signal or
    broadcast on [v]. *)
From Coq Require Import List ZArith Bool Lia.
From Verif Require Import AATreeSpec AATreeHist Util Runtime SchedInv StepInv StackShape RuntimeSpec TraceInv Immediate Prims StaticInv Footprint QueueInv OwnInv WaitInv CallInv SpecInv TraceStep Wake Awake DeadlineInv AllInv PausedInv ResultInv JoinInv WaiterInv BlockSpec OneStep MutexSpec MutexEff MutexRt MutexInv MutexOrd AtCall WgInv CvSpec CondInv Stuck Scripts Props_Mutex Props_Wg.
Import ListNotations.
Local Open Scope Z_scope.

(** the condition variable belongs to this runtime, or to none yet *)
Definition cv_own (s : state) (v : nat) : Prop := cvx (dt s) v = 0 \/ cvx (dt s) v = rtid (dt s).
(** the coroutines waiting to be signalled *)
Definition cvwaiters (s : state) (v : nat) : list Z := map node_co (q (dt s) (QCv v)).
Lemma in_cvwaiters : forall s v x, reach s -> In x (cvwaiters s v) <-> In (NCo x) (q (dt s) (QCv v)).
Proof.
  intros s v x RE. unfold cvwaiters. rewrite in_map_iff. split.
  - intros (n & <- & IN). rewrite <- (objq_node s (QCv v) n RE I IN). exact IN.
  - intros IN. exists (NCo x). auto.
Qed.

(** Who is among the waiters: a coroutine inside neco_cond_wait on this variable. *)
Lemma cvwaiter_top : forall s v x, reach s -> In (NCo x) (q (dt s) (QCv v)) -> exists m rest, top (stk (sc s) x) = FCvWait v m :: rest /\ lstack (FCvWait v m :: rest).
Proof.
  intros s v x RE IN. apply (reach_qloc _ RE) in IN; [|exact I]. cbn [node_co] in IN. destruct (matched_cases _ _ _ IN I) as [(g & r & TP & W & _)|(N & j & chs & dl & st' & TP)].
  - destruct g; try discriminate W. injection W as ->. exists m, r. split; [exact TP|]. rewrite <- TP. apply lstack_top, live_lstack; [apply reach_full, RE|]. intros Q. rewrite Q in TP. discriminate TP.
  - unfold matched in IN. rewrite TP in IN. destruct IN as (i & ch & D & _). discriminate D.
Qed.
Theorem C12_waiter_call : forall s v x, reach s -> In x (cvwaiters s v) -> exists k m dl, incall s x k (OpCvWait v m dl).
Proof.
  intros s v x RE IN. apply in_cvwaiters in IN; [|exact RE]. destruct (cvwaiter_top _ _ _ RE IN) as (m & rest & TP & L).
  destruct (cvw_rest _ _ _ L) as (k & dl & st & ->). exists k, m, dl. apply (top_call _ [FCvWait v m] _ _ st TP). intros j p [D|[]]. discriminate D.
Qed.

(** The waiters form a queue: in every step, whatever happens, waiters may leave, and
    only the running coroutine may join, at the end. So the first of them is the one
    that has been waiting longest. *)
Inductive subseq {A : Type} : list A -> list A -> Prop :=
| ss_nil l : subseq [] l
| ss_keep a l l' : subseq l l' -> subseq (a :: l) (a :: l')
| ss_drop a l l' : subseq l l' -> subseq l (a :: l').
Lemma subseq_refl : forall A (l : list A), subseq l l.
Proof. intros A l. induction l; constructor; assumption. Qed.
Lemma subseq_filter : forall A f (l : list A), subseq (filter f l) l.
Proof. intros A f l. induction l as [|a l IH]; cbn; [constructor|]. destruct (f a); constructor; exact IH. Qed.
Lemma subseq_map : forall A B (f : A -> B) l l', subseq l l' -> subseq (map f l) (map f l').
Proof. intros A B f l l' H. induction H; cbn; constructor; assumption. Qed.
Lemma subseq_tl : forall A (l : list A), subseq (List.tl l) l.
Proof. intros A [|a l]; cbn; constructor. apply subseq_refl. Qed.
Definition fifo (s s' : state) (v : nat) : Prop :=
  exists l add, cvwaiters s' v = l ++ add /\ subseq l (cvwaiters s v) /\ (add = [] \/ exists c, cur (sc s) = Some c /\ add = [c] /\ ~ In c (cvwaiters s v)).
Lemma fifo_sub : forall s s' v, subseq (q (dt s') (QCv v)) (q (dt s) (QCv v)) -> fifo s s' v.
Proof. intros s s' v H. exists (cvwaiters s' v), []. split; [symmetry; apply app_nil_r|]. split; [apply subseq_map; exact H | auto]. Qed.
Theorem C12_fifo : forall s e v, reach s -> tidy (tr s) -> fifo s (step s e) v.
Proof.
  intros s0 e v RE0 T0. apply (gstep_preserves (fun z => reach z /\ z = s0) (fun z => fifo s0 z v)); try (intros ? [? ?]; apply reach_full; assumption); auto.
  - intros s c o d fs k sch md [RE ->] _ M CU U NR E X. apply fifo_sub. cbn [dt].
    assert (NI : ~ In (NCo c) (q (dt s0) (QCv v))). { intros IN. apply (reach_qloc _ RE) in IN; [|exact I]. cbn [node_co] in IN. exact (ustack_top _ _ _ U IN). }
    destruct (kcall_cv_dec c (dt s0) o v) as [K|K].
    + destruct (cv_call_q _ _ _ _ _ _ _ RE T0 E K) as [Q|[(-> & Q)|[(-> & Q)|RS]]].
      * rewrite ctl_objq; [rewrite Q; apply subseq_refl | exact I | rewrite Q; exact NI].
      * rewrite ctl_objq; [rewrite Q; apply subseq_tl | exact I |]. rewrite Q. intros IN. apply NI. destruct (q (dt s0) (QCv v)); [exact IN | right; exact IN].
      * rewrite ctl_objq; [rewrite Q; constructor | exact I | rewrite Q; exact (fun z => z)].
      * assert (Q : q d (QCv v) = [] \/ q d (QCv v) = q (dt s0) (QCv v)).
        { destruct o; cbn in RS; try contradiction; try discriminate RS; injection RS as ->; cbn [hcall] in E; [injection E as <- <- <-; left; unfold cv_init; cbn; apply qupd_eq|].
          unfold check_cv in E. destruct (_ =? 0); [injection E as <- <- <-; left; cbn; apply qupd_eq|]. destruct (negb _); cbn in E; injection E as <- <- <-; [right; reflexivity | left; cbn; apply qupd_eq]. }
        destruct Q as [Q|Q]; (rewrite ctl_objq; [rewrite Q | exact I | rewrite Q]); [constructor | exact (fun z => z) | apply subseq_refl | exact NI].
    + destruct (call_queue _ _ _ _ _ _ (QCv v) RE E I K) as [_ QI]. rewrite (quiet_gone s0); [apply subseq_filter | exact RE | exact I | exact (call_others _ _ _ _ _ _ (QCv v) RE E I K) | exact QI | intros IN; apply NI, QI, IN].
  - intros s c r f rest b d fs k sch md [RE ->] _ M CU SK L E X. set (s' := mkst _ _ _ _ _ _).
    pose proof (tick_others _ _ _ _ _ _ _ _ (QCv v) RE E I (kret_cv _ _ _ _)) as OT.
    assert (D : f = FPause \/ (exists m dl, f = FCvUnlocked v m dl) \/ (f <> FPause /\ ~ wret f (QCv v))).
    { destruct f; auto; try (do 2 right; split; [discriminate | intros W; cbn in W; try discriminate W; exact W]). destruct (Nat.eq_dec v0 v) as [->|NV]; [right; left; eauto|]. do 2 right. split; [discriminate | intros W; cbn in W; congruence]. }
    destruct D as [->|[(m & dl & ->)|(NP & NW)]].
    + cbn [hret] in E. injection E as <- <- <-. apply fifo_sub. cbn [dt s' ctl_dat]. unfold pause_end. destruct (_ <? _); apply subseq_refl.
    + assert (N0 : ~ In (NCo c) (q (dt s0) (QCv v))). { intros IN. destruct (cvwaiter_top _ _ _ RE IN) as (m' & r' & TP & _). rewrite SK in TP. discriminate TP. }
      cbn [hret] in E. unfold cvwait_unlocked in E. destruct (copause_eff _ _ _ _ _ _ _ E) as (P1 & _ & _ & _ & P3).
      assert (QE : q d (QCv v) = q (dt s0) (QCv v) ++ [NCo c]) by (rewrite P1; exact (pushq_fresh (QCv v) (NCo c) (dt s0) N0)).
      exists (cvwaiters s0 v), [c]. split.
      * unfold cvwaiters. cbn [dt s']. assert (CD : ctl_dat c (nextid (sc s0) + 1) k d = d) by (destruct P3 as [(-> & _)|(-> & _)]; reflexivity). rewrite CD, QE, map_app. reflexivity.
      * split; [apply subseq_refl|]. right. exists c. split; [exact CU|]. split; [reflexivity|]. intros H. apply N0. apply in_cvwaiters in H; assumption.
    + destruct (tick_queue _ _ _ _ _ _ _ _ (QCv v) RE E I (kret_cv _ _ _ _) NW) as [_ SUB].
      apply fifo_sub. cbn [dt s']. rewrite (quiet_gone s0); [apply subseq_filter | exact RE | exact I | exact OT | exact SUB|].
      intros IN. destruct (hret_fp _ _ _ _ _ _ _ _ _ [] E) as (R & P & FP & _). destruct (fps_q_in _ _ _ _ _ _ _ FP _ (QCv v) I IN) as [I1|[_ [_ W]]]; [|exact (NW W)].
      pose proof I1 as I2. apply leave_in in I2. destruct (cvwaiter_top _ _ _ RE I2) as (m' & r' & TP & _). rewrite SK in TP.
      assert (FE : f = FCvWait v m') by (destruct f; cbn [top] in TP; congruence). rewrite FE in I1. cbn [leave] in I1. apply In_rmq in I1. destruct I1 as [_ I1]. congruence.
  - intros s d ws sch md ios [RE ->] _ M A K X. apply fifo_sub. cbn [dt]. pose proof (mp_main _ _ _ _ _ _ _ K) as MP. rewrite (mprims_wq _ _ _ MP) by exact I. apply subseq_refl.
  - intros s m [RE ->] _ HM. apply fifo_sub. apply subseq_refl.
  - intros s ev [RE ->] _ H M. apply fifo_sub. destruct (env_q s0 ev H) as [->|(c & _ & _ & _ & ->)]; [apply subseq_refl|].
    unfold pushq. cbn [q set_q]. rewrite qupd_neq by discriminate. cbn. apply subseq_filter.
  - apply fifo_sub. apply subseq_refl.
Qed.

Lemma cv_check : forall s v, reach s -> tidy (tr s) -> cv_own s v -> exists d, check_cv v (dt s) = (OK, d) /\ (forall k, q d k = q (dt s) k) /\ (cvx (dt s) v <> 0 -> d = dt s) /\ cof d = cof (dt s) /\ mux d = mux (dt s) /\ rtid d = rtid (dt s).
Proof.
  intros s v RE T OW. destruct (check_cv v (dt s)) as [e d] eqn:CK. pose proof (reach_wl _ RE T) as [OZ _].
  destruct (check_cv_eff _ _ _ _ (objn_objz _ RE OZ) CK) as (EE & Q & EP & _).
  assert (e = OK). { destruct EE as [->|EE]; [reflexivity|]. destruct (EP EE) as (_ & N1 & N2). destruct OW; contradiction. }
  subst e. exists d. split; [reflexivity|]. split; [exact Q|]. unfold check_cv in CK. destruct (Z.eqb_spec (cvx (dt s) v) 0) as [Z0|NZ].
  - injection CK as <-. cbn. repeat split; auto. congruence.
  - destruct (negb _); [discriminate CK|]. injection CK as <-. auto.
Qed.

(** Signal: the coroutine at the head of the queue, the one that has been waiting
    longest, leaves the queue and is runnable again; the others go on waiting. *)
Theorem C12_signal : forall s c v x r, reach s -> tidy (tr s) -> mode s = MUser -> cur (sc s) = Some c -> cv_own s v -> cvwaiters s v = x :: r ->
  let s' := step s (ECall (OpCvSignal v)) in cvwaiters s' v = r /\ runnable s' x.
Proof.
  intros s c v x r RE T MU CU OW QW s'. destruct (cv_check s v RE T OW) as (d1 & CK & Q1 & _).
  destruct (q (dt s) (QCv v)) as [|n l] eqn:QQ; unfold cvwaiters in QW; rewrite QQ in QW; [discriminate QW|]. cbn [map] in QW. injection QW as NX LR.
  assert (IN : In n (q (dt s) (QCv v))) by (rewrite QQ; left; reflexivity). pose proof (objq_node s (QCv v) n RE Logic.I IN) as NN. rewrite NX in NN. subst n.
  assert (RS : reach s') by (apply reach_step, RE).
  assert (E : hcall c (OpCvSignal v) (now s) (dt s) = (set_q (qupd (q d1) (QCv v) l) d1, [FCvSignal], CResume x)).
  { cbn [hcall]. unfold do_cvsignal. rewrite CK. change (negb (OK =? OK)) with false. cbv iota. unfold popq. rewrite Q1, QQ. reflexivity. }
  destruct (exec c (CResume x) (set_stk (zupd (stk (sc s)) c ([FCvSignal] ++ FApi (ncalls s) (OpCvSignal v) :: stk (sc s) c)) (sc s))) as [sch md] eqn:X.
  pose proof (step_call_eq s c (OpCvSignal v) _ _ _ _ _ MU CU ltac:(discriminate) E X) as SE. fold s' in SE.
  destruct (cvwaiter_top _ _ _ RE IN) as (m & rest & TP & _).
  assert (NC : x <> c). { intros ->. assert (U : ustack (stk (sc s) c)) by (apply (proj2 (reach_full _ RE)); assumption). apply (reach_qloc _ RE) in IN; [|exact I]. exact (ustack_top _ _ _ U IN). }
  split; [unfold cvwaiters; rewrite SE; cbn [dt ctl_dat q set_q]; rewrite qupd_eq; exact LR|].
  apply notpaused_runnable; [exact RS | |]; rewrite SE; cbn [sc].
  - destruct (exec_stk_cases _ _ _ _ _ X (cur_notfresh _ _ (reach_full _ RE) CU) x) as [(D & _)|[(_ & _ & (g & D) & _)|(_ & SS & _)]]; [contradiction | discriminate D |]. rewrite SS. cbn. rewrite zupd_neq by exact NC. intros Q. rewrite Q in TP. discriminate TP.
  - rewrite (exec_paused _ _ _ _ _ X). cbn [set_stk paused]. destruct (mem x (paused (sc s))) eqn:ME; [|apply mem_In_false in ME; exact ME]. intros IP. apply remove1_In in IP. destruct IP as [_ N]. congruence.
Qed.
(** with nobody waiting, signal just succeeds *)
Theorem C12_signal_none : forall s c v b, reach s -> tidy (tr s) -> mode s = MUser -> cur (sc s) = Some c -> cv_own s v -> cvwaiters s v = [] ->
  let s' := step (step s (ECall (OpCvSignal v))) (ETick b) in
  mode s' = MUser /\ cur (sc s') = Some c /\ ready s' = ready s /\ paused (sc s') = paused (sc s) /\
  exists m, tr s' = TRet (ncalls s) c (OpCvSignal v) OK m (now s) :: TCall (ncalls s) c (OpCvSignal v) (now s) :: tr s.
Proof.
  intros s c v b RE T MU CU OW QW s'. destruct (cv_check s v RE T OW) as (d1 & CK & Q1 & _). apply map_eq_nil in QW.
  assert (E : hcall c (OpCvSignal v) (now s) (dt s) = (d1, [], CRet OK)).
  { cbn [hcall]. unfold do_cvsignal. rewrite CK. change (negb (OK =? OK)) with false. cbv iota. unfold popq. rewrite Q1, QW. reflexivity. }
  pose proof (call_returns s c (OpCvSignal v) d1 OK b RE MU CU ltac:(split; discriminate) ltac:(discriminate) E) as K. cbv zeta in K. fold s' in K. clearbody s'.
  destruct K as (K1 & K2 & K3 & K4 & K5 & K6). split; [exact K1|]. split; [exact K3|]. split; [exact K4|]. split; [exact K5|]. eexists; exact K6.
Qed.
(** Broadcast: all of them leave the queue and are to be resumed. *)
Theorem C12_broadcast : forall s c v, reach s -> tidy (tr s) -> mode s = MUser -> cur (sc s) = Some c -> cv_own s v ->
  let s' := step s (ECall (OpCvBcast v)) in cvwaiters s' v = [] /\ forall x, In x (cvwaiters s v) -> to_resume s' x.
Proof.
  intros s c v RE T MU CU OW s'. destruct (cv_check s v RE T OW) as (d1 & CK & Q1 & _).
  destruct (hcall c (OpCvBcast v) (now s) (dt s)) as [[d fs] kk] eqn:E.
  destruct (exec c kk (set_stk (zupd (stk (sc s)) c (fs ++ FApi (ncalls s) (OpCvBcast v) :: stk (sc s) c)) (sc s))) as [sch md] eqn:X.
  pose proof (step_call_eq s c (OpCvBcast v) _ _ _ _ _ MU CU ltac:(discriminate) E X) as SE. fold s' in SE.
  cbn [hcall] in E. unfold do_cvbcast in E. rewrite CK in E. change (negb (OK =? OK)) with false in E. cbv iota in E. apply yfsr_cases in E. destruct E as (-> & -> & _).
  assert (ND : NoDup (q d1 (QCv v))) by (rewrite Q1; apply (proj1 (reach_uniq _ RE))).
  assert (NN : forall y, In y (q d1 (QCv v)) -> y = NCo (node_co y)) by (intros y IY; rewrite Q1 in IY; apply (objq_node s (QCv v) y RE Logic.I IY)).
  split; [unfold cvwaiters; rewrite SE; cbn [dt ctl_dat]; rewrite resume_all_nil; [reflexivity | discriminate | reflexivity | exact ND | exact NN]|].
  intros x IX. apply in_cvwaiters in IX; [|exact RE]. unfold to_resume. rewrite SE. cbn [dt ctl_dat]. apply resume_all_res; [discriminate | reflexivity | exact ND | exact NN|]. left. rewrite Q1. exact IX.
Qed.
(** A coroutine blocked in neco_cond_wait is in the queue, or is to be resumed, or is
    already waiting for the mutex again. *)
Theorem C12_blocked_waits : forall s v m x k dl, reach s -> tidy (tr s) -> blocked s x k (OpCvWait v m dl) -> In x (cvwaiters s v) \/ to_resume s x \/ In x (waiters s m).
Proof.
  intros s v m x k dl RE T B. destruct (reach_wl _ RE T) as [_ WL]. assert (PA : In x (paused (sc s))) by apply B.
  destruct (blocked_frames _ _ _ _ RE B) as (l & st & SK & BF). inversion BF as [f o WF H|v0 m0 dl0 ret|b]; subst.
  - assert (QF : f = FCvWait v m) by (destruct f; try destruct H; try discriminate WF; subst; reflexivity). subst f.
    destruct (WL x (FCvWait v m) (FApi k (OpCvWait v m dl) :: st) (QCv v)) as [IN|IN]; [rewrite SK; reflexivity | reflexivity | exact PA | left; apply in_cvwaiters; assumption | right; left; exact IN].
  - destruct (WL x (FLock m) (FCvRelock m ret :: FApi k (OpCvWait v m dl) :: st) (QMu m)) as [IN|IN]; [rewrite SK; reflexivity | reflexivity | exact PA | right; right; unfold waiters; change x with (node_co (NCo x)); apply in_map, IN | right; left; exact IN].
Qed.

(** neco_cond_wait answers NECO_OK only if the variable was signalled during the call. *)
Theorem C12_wait_ok : forall s l1 l2 k c v m dl b t, reach s -> tidy (tr s) -> tr s = l1 ++ TRet k c (OpCvWait v m dl) OK b t :: l2 -> signalled v k l2.
Proof. intros s l1 l2 k c v m dl b t RE T EQ. exact (proj2 (reach_cvi _ RE T) l1 l2 k c v m dl b t EQ). Qed.

(** ** Releasing the mutex and starting to wait *)
Lemma fastunlock_free : forall m fs d, q d (QMu m) = [] -> exists d', fastunlock m fs d = (d', fs, CRet 0) /\ q d' = q d /\ cof d' = cof d.
Proof.
  intros m fs d Q. unfold fastunlock. destruct (negb _); [eauto|]. destruct (0 <? mrl (mux d m)); cbn [andb].
  - destruct (0 <? _); [eexists; split; [reflexivity | split; reflexivity]|]. unfold emptyq, upmu. cbn [q set_mux]. rewrite Q. eexists. split; [reflexivity | split; reflexivity].
  - unfold emptyq. rewrite Q. eexists. split; [reflexivity | split; reflexivity].
Qed.
(** Partial: provided nobody is waiting for the mutex, neco_cond_wait releases it and
    starts waiting without any other coroutine running in between: after the call and one
    internal step the caller is in the queue (so by [C12_fifo], [C12_signal] and
    [C12_broadcast] no later signal can miss it) and blocked.
    Missing: the case where somebody waits for the mutex; there it is false, see
    [C12_lost_wakeup_refuted]. The two flags say that no cancellation and no expired
    deadline is outstanding for the caller. *)
Theorem C12_atomic_partial : forall s c v m dl b, reach s -> tidy (tr s) -> mode s = MUser -> cur (sc s) = Some c -> cv_own s v -> own s m -> waiters s m = [] ->
  canceled (cof (dt s) c) = false -> deadlined (cof (dt s) c) = false ->
  let s' := step (step s (ECall (OpCvWait v m dl))) (ETick b) in
  cvwaiters s' v = cvwaiters s v ++ [c] /\ blocked s' c (ncalls s) (OpCvWait v m dl).
Proof.
  intros s c v m dl b RE T MU CU OC OM WM CN DL s'. destruct (cv_check s v RE T OC) as (d1 & CK & Q1 & _ & CF & MX & RT). unfold waiters in WM. apply map_eq_nil in WM.
  assert (CM : exists d2, check_mu m d1 = (OK, d2) /\ cof d2 = cof d1 /\ q d2 (QMu m) = [] /\ forall k, (forall j, k <> QMu j) -> q d2 k = q d1 k).
  { unfold check_mu. rewrite MX, RT. destruct (Z.eqb_spec (mrt (mux (dt s) m)) 0) as [Z0|NZ].
    - eexists. split; [reflexivity|]. cbn. split; [reflexivity|]. split; [apply qupd_eq|]. intros k NK. apply qupd_neq. apply NK.
    - destruct OM as [?|OM]; [contradiction|]. rewrite OM, Z.eqb_refl. cbn. eexists. split; [reflexivity|]. split; [reflexivity|]. rewrite Q1. auto. }
  destruct CM as (d2 & CM & C2 & Q2 & Q3). destruct (fastunlock_free m [FCvUnlocked v m dl] d2 Q2) as (d3 & FU & Q4 & C4).
  assert (E : hcall c (OpCvWait v m dl) (now s) (dt s) = (d3, [FCvUnlocked v m dl], CRet 0)).
  { cbn [hcall]. unfold do_cvwait. rewrite CK. change (negb (OK =? OK)) with false. cbv iota. rewrite CM. change (negb (OK =? OK)) with false. cbv iota. rewrite C2, CF, CN. exact FU. }
  set (st1 := zupd (stk (sc s)) c ([FCvUnlocked v m dl] ++ FApi (ncalls s) (OpCvWait v m dl) :: stk (sc s) c)).
  pose proof (step_call_eq s c (OpCvWait v m dl) _ _ _ _ _ MU CU ltac:(discriminate) E eq_refl) as SE.
  assert (NI : ~ In (NCo c) (q (dt s) (QCv v))).
  { intros IN. assert (U : ustack (stk (sc s) c)) by (apply (proj2 (reach_full _ RE)); assumption). apply (reach_qloc _ RE) in IN; [|exact I]. exact (ustack_top _ _ _ U IN). }
  assert (QV : q d3 (QCv v) = q (dt s) (QCv v)) by (rewrite Q4, Q3 by discriminate; apply Q1).
  destruct (cvwait_unlocked c v m dl d3) as [[d5 fs] kk] eqn:E2. unfold cvwait_unlocked in E2. destruct (copause_eff _ _ _ _ _ _ _ E2) as (P1 & _ & _ & _ & P3).
  assert (P4 : kk = CPause /\ fs = [FPause; FCvWait v m]).
  { destruct P3 as [(_ & _ & K)|(-> & ->)]; [exfalso | auto]. cbn in K. rewrite C4, C2, CF, CN, DL in K. destruct K; discriminate. }
  destruct P4 as [-> ->].
  pose proof (cur_notfresh _ _ (reach_full _ RE) CU) as NF.
  set (s1 := step s (ECall (OpCvWait v m dl))) in *. cbn [exec app] in SE.
  assert (E1 : hret c (FCvUnlocked v m dl) 0 b (now s1) (dt s1) = (d5, [FPause; FCvWait v m], CPause)) by (rewrite SE; exact E2).
  assert (SK1 : stk (sc s1) c = FCvUnlocked v m dl :: FApi (ncalls s) (OpCvWait v m dl) :: stk (sc s) c) by (rewrite SE; cbn; apply zupd_eq).
  destruct (exec c CPause (set_stk (zupd (stk (sc s1)) c ([FPause; FCvWait v m] ++ FApi (ncalls s) (OpCvWait v m dl) :: stk (sc s) c)) (sc s1))) as [sch md] eqn:X.
  assert (M1 : mode s1 = MRet 0) by (rewrite SE; reflexivity). assert (CU1 : cur (sc s1) = Some c) by (rewrite SE; exact CU).
  pose proof (step_tick_eq s1 c 0 _ _ b _ _ _ _ _ M1 CU1 SK1 E1 X) as SE2. fold s' in SE2. clearbody s'. subst s'. split.
  - unfold cvwaiters. cbn [dt ctl_dat]. rewrite P1. change (q (set_ncvs (ncvs (pushq (QCv v) (NCo c) d3) + 1) (pushq (QCv v) (NCo c) d3)) (QCv v)) with (q (pushq (QCv v) (NCo c) d3) (QCv v)).
    rewrite pushq_fresh by (rewrite QV; exact NI). rewrite QV, map_app. reflexivity.
  - split.
    + cbn [sc]. rewrite (exec_paused _ _ _ _ _ X). apply in_or_app. right. left. reflexivity.
    + exists [FPause; FCvWait v m], (stk (sc s) c). split; [|intros j p [D|[D|[]]]; discriminate D]. cbn [sc]. 
      assert (NF1 : nextid (sc s1) + 1 <> c) by (rewrite SE; exact NF).
      destruct (exec_stk_cases _ _ _ _ _ X NF1 c) as [(_ & SS)|[(D & _)|(D & _)]]; [|congruence..]. rewrite SS. cbn. apply zupd_eq.
Qed.
(** The lost wakeup: coroutine [y] is waiting for the mutex when [x] calls
    neco_cond_wait. It gets the mutex (so [x] has released it), signals, and the signal
    succeeds; yet [x] stays blocked in that neco_cond_wait whatever happens next. *)
Definition ex12l : state := script [ECall (OpLock 0 MAXI); ECall OpStart; ECall (OpLock 0 MAXI); ECall (OpCvWait 0 0 MAXI); ECall (OpCvSignal 0); ECall (OpUnlock 0); ECall (OpSuspend MAXI)].
Theorem C12_lost_wakeup_refuted : exists s v m x y k i j t1 t2 t3 t4 b1 b2 b3 b4 b5 b6, reach s /\ tidy (tr s) /\ proper (tr s) /\
  tr s = t1 ++ TRet j y (OpCvSignal v) OK b1 b2 :: TCall j y (OpCvSignal v) b3 :: t2 ++ TRet i y (OpLock m MAXI) OK b4 b5 :: t3 ++ TCall k x (OpCvWait v m MAXI) b6 :: t4 /\
  forall es, blocked (run s es) x k (OpCvWait v m MAXI).
Proof.
  exists ex12l, 0%nat, 0%nat, 1, 2, 3%nat, 2%nat, 4%nat. do 4 eexists. exists 0, 1000, 1000, 0, 1000, 1000.
  split; [apply script_reach|]. split; [apply noreset_tidy; vm_compute; reflexivity|]. split; [apply properb_ok; vm_compute; reflexivity|]. split.
  - instantiate (1 := [TRet 1 1 OpStart 0 0 1000; TCall 2 2 (OpLock 0 MAXI) 1000; TStart 1 2; TCall 1 1 OpStart 1000; TRet 0 1 (OpLock 0 MAXI) 0 0 1000; TCall 0 1 (OpLock 0 MAXI) 1000; TStart 0 1]).
    instantiate (1 := []). instantiate (1 := []).
    instantiate (1 := [TCall 6 2 (OpSuspend MAXI) 1000; TRet 5 2 (OpUnlock 0) 0 0 1000; TCall 5 2 (OpUnlock 0) 1000]). vm_compute. reflexivity.
  - intros es. apply stuck_forever; [apply stuckb_ok; vm_compute; reflexivity|]. apply blockedb_ok. split; [vm_compute; auto|]. exists 2%nat. eexists. split; vm_compute; reflexivity.
Qed.
(** A signal can also be used up by a waiter that has timed out but not run yet: it
    reports NECO_TIMEDOUT, and the other coroutine [x], which was waiting when the signal
    came, stays blocked whatever happens next. *)
Definition ex12t : state := script [ECall OpStart; ECall (OpLock 0 MAXI); ECall (OpCvWait 0 0 1500); ECall OpStart; ECall (OpLock 0 MAXI); ECall (OpCvWait 0 0 MAXI); ECall OpStart; ECall OpYield; EAdv 5000;
  ECall OpYield; ECall OpYield; ECall (OpCvSignal 0); ECall (OpSuspend MAXI); ECall (OpUnlock 0); ECall (OpSuspend MAXI); ECall (OpSuspend MAXI)].
Theorem C12_timeout_swallows_refuted : exists s v m x y z k i j t1 t2 t3 t4 t5 dl b1 b2 b3 b4 b5 b6 b7, reach s /\ tidy (tr s) /\ proper (tr s) /\ x <> y /\
  tr s = t1 ++ TRet i y (OpCvWait v m dl) ETIMEDOUT b1 b2 :: t2 ++ TRet j z (OpCvSignal v) OK b3 b4 :: TCall j z (OpCvSignal v) b5 :: t3 ++ TCall k x (OpCvWait v m MAXI) b6 :: t4 ++ TCall i y (OpCvWait v m dl) b7 :: t5 /\
  forall es, blocked (run s es) x k (OpCvWait v m MAXI).
Proof.
  exists ex12t, 0%nat, 0%nat, 3, 2, 1, 5%nat, 2%nat, 10%nat.
  exists [TCall 14 2 (OpSuspend MAXI) 5000; TRet 12 2 (OpUnlock 0) 0 0 5000; TCall 13 4 (OpSuspend MAXI) 5000; TRet 9 4 OpYield 0 0 5000; TCall 12 2 (OpUnlock 0) 5000].
  exists [TCall 11 1 (OpSuspend MAXI) 5000].
  exists [TRet 8 1 OpYield 0 0 5000; TCall 9 4 OpYield 5000; TRet 7 4 OpYield 0 0 5000; TCall 8 1 OpYield 5000; TRet 6 1 OpStart 0 0 1000; TCall 7 4 OpYield 1000; TStart 1 4; TCall 6 1 OpStart 1000; TRet 3 1 OpStart 0 0 1000].
  exists [TRet 4 3 (OpLock 0 MAXI) 0 0 1000; TCall 4 3 (OpLock 0 MAXI) 1000; TStart 1 3; TCall 3 1 OpStart 1000; TRet 0 1 OpStart 0 0 1000].
  eexists. exists 1500, 0, 5000, 0, 5000, 5000, 1000, 1000.
  split; [apply script_reach|]. split; [apply noreset_tidy; vm_compute; reflexivity|]. split; [apply properb_ok; vm_compute; reflexivity|]. split; [discriminate|]. split.
  - vm_compute. reflexivity.
  - intros es. apply stuck_forever; [apply stuckb_ok; vm_compute; reflexivity|]. apply blockedb_ok. split; [vm_compute; auto|]. exists 2%nat. eexists. split; vm_compute; reflexivity.
Qed.
(** For the same reason as in [C12_lost_wakeup_refuted] the queue is not in the order of the calls: 1 called
    neco_cond_wait before 2 (call 5 against call 7), both are waiting, and a signal wakes 2. *)
Definition ex12o : state := script [ECall (OpLock 0 MAXI); ECall OpStart; ECall (OpLock 0 MAXI); ECall OpStart; ECall OpYield; ECall (OpCvWait 0 0 MAXI); ECall OpYield; ECall (OpCvWait 0 0 MAXI); ECall OpYield; ECall OpYield; ECall OpYield].
Theorem C12_order_refuted : exists s c v m x y k j, reach s /\ tidy (tr s) /\ proper (tr s) /\ mode s = MUser /\ cur (sc s) = Some c /\
  blocked s x k (OpCvWait v m MAXI) /\ blocked s y j (OpCvWait v m MAXI) /\ (k < j)%nat /\
  let s' := step s (ECall (OpCvSignal v)) in blocked s' x k (OpCvWait v m MAXI) /\ ~ to_resume s' x /\ runnable s' y.
Proof.
  exists ex12o, 3, 0%nat, 0%nat, 1, 2, 5%nat, 7%nat. split; [apply script_reach|]. split; [apply noreset_tidy; vm_compute; reflexivity|]. split; [apply properb_ok; vm_compute; reflexivity|].
  split; [vm_compute; reflexivity|]. split; [vm_compute; reflexivity|].
  split; [apply blockedb_ok; split; [vm_compute; auto|]; exists 2%nat; eexists; split; vm_compute; reflexivity|].
  split; [apply blockedb_ok; split; [vm_compute; auto|]; exists 2%nat; eexists; split; vm_compute; reflexivity|]. split; [lia|]. cbv zeta.
  split; [apply blockedb_ok; split; [vm_compute; auto|]; exists 2%nat; eexists; split; vm_compute; reflexivity|].
  split; [vm_compute; intuition discriminate|].
  apply (C12_signal ex12o 3 0%nat 2 [1]); [apply script_reach | apply noreset_tidy; vm_compute; reflexivity | vm_compute; reflexivity | vm_compute; reflexivity | right; vm_compute; reflexivity | vm_compute; reflexivity].
Qed.

(** ** Non-vacuity *)
(** 2 and 3 wait for a signal, in that order; 1 runs *)
Definition ex12 : state := script [ECall OpStart; ECall (OpLock 0 MAXI); ECall (OpCvWait 0 0 MAXI); ECall OpStart; ECall (OpLock 0 MAXI); ECall (OpCvWait 0 0 MAXI)].
Example C12_example : reach ex12 /\ tidy (tr ex12) /\ mode ex12 = MUser /\ cur (sc ex12) = Some 1 /\ cv_own ex12 0 /\ cvwaiters ex12 0 = [2; 3] /\ blocked ex12 2 2 (OpCvWait 0 0 MAXI).
Proof.
  split; [apply script_reach|]. split; [apply noreset_tidy; vm_compute; reflexivity|]. split; [vm_compute; reflexivity|]. split; [vm_compute; reflexivity|]. split; [right; vm_compute; reflexivity|]. split; [vm_compute; reflexivity|].
  apply blockedb_ok; split; [vm_compute; auto|]; exists 2%nat; eexists; split; vm_compute; reflexivity.
Qed.
Definition ex12s : state := script [ECall OpStart; ECall (OpLock 0 MAXI); ECall (OpCvWait 0 0 MAXI); ECall OpStart; ECall (OpLock 0 MAXI); ECall (OpCvWait 0 0 MAXI); ECall (OpCvSignal 0); ECall (OpUnlock 0)].
Example C12_wait_ok_example : exists l1 l2, tr ex12s = l1 ++ TRet 2 2 (OpCvWait 0 0 MAXI) OK 0 1000 :: l2.
Proof. vm_compute. apply (in_split (TRet 2 2 (OpCvWait 0 0 (MAXI)) OK 0 1000)). cbn. tauto. Qed.
(** 2 holds the mutex, nobody waits for it, and 2 is about to wait for a signal *)
Definition ex12a : state := script [ECall OpStart; ECall (OpLock 0 MAXI)].
Example C12_atomic_example : reach ex12a /\ tidy (tr ex12a) /\ mode ex12a = MUser /\ cur (sc ex12a) = Some 2 /\ cv_own ex12a 0 /\ own ex12a 0 /\ waiters ex12a 0 = [] /\
  canceled (cof (dt ex12a) 2) = false /\ deadlined (cof (dt ex12a) 2) = false /\ hold 0 2 (tr ex12a) = HW.
Proof.
  split; [apply script_reach|]. split; [apply noreset_tidy; vm_compute; reflexivity|]. split; [vm_compute; reflexivity|]. split; [vm_compute; reflexivity|]. split; [left; vm_compute; reflexivity|]. split; [right; vm_compute; reflexivity|]. split; [vm_compute; reflexivity|].
  split; [vm_compute; reflexivity|]. split; vm_compute; reflexivity.
Qed.
(** a waiter joins at the end: the step of [C12_atomic_example] that enters the queue *)
Example C12_fifo_example : let s := step ex12a (ECall (OpCvWait 0 0 MAXI)) in cvwaiters s 0 = [] /\ cvwaiters (step s (ETick false)) 0 = [2].
Proof. vm_compute. auto. Qed.

Print Assumptions C12_waiter_call.
Print Assumptions C12_fifo.
Print Assumptions C12_signal.
Print Assumptions C12_signal_none.
Print Assumptions C12_broadcast.
Print Assumptions C12_blocked_waits.
Print Assumptions C12_wait_ok.
Print Assumptions C12_atomic_partial.
Print Assumptions C12_lost_wakeup_refuted.
Print Assumptions C12_order_refuted.
Print Assumptions C12_timeout_swallows_refuted.
