(** What becomes of a call that is waiting when its coroutine is canceled. *)
From Coq Require Import List ZArith Bool Lia.
From Verif Require Import AATreeSpec AATreeHist Util Runtime SchedInv StepInv StackShape RuntimeSpec TraceInv Immediate Prims StaticInv Footprint QueueInv OwnInv WaitInv DeadlineInv CallInv SpecInv TraceStep Wake Awake AllInv PausedInv DldInv ResultInv JoinInv TimeoutInv CancelInv CancelRes BlockSpec WorkInv.
Import ListNotations.
Local Open Scope Z_scope.

Definition final_wait (f : frame) : bool := match f with FCancelWait _ _ => false | _ => waitf f end.
Lemma checkdl_canceled : forall c dl nw d, canceled (cof d c) = true -> exists d', checkdl c dl nw d = (ECANCELED, d').
Proof. intros c dl nw d C. unfold checkdl. rewrite C. cbn. eauto. Qed.
Lemma rm_cases_cof2 : forall n c d, cof (rm_cases c n d) = cof d.
Proof. induction n as [|n IH]; intros c d; cbn [rm_cases]; [reflexivity|]. rewrite ?IH. reflexivity. Qed.
Lemma relock_frames : forall c m ret nw d d' fs k, cv_relock c m ret nw d = (d', fs, k) ->
  (fs = [] /\ k = CRet ret) \/ exists w, fs = w ++ [FCvRelock m ret] /\ (w = [] \/ pz (FLock m) w) /\ forall a, k <> CFinal a.
Proof.
  intros c m ret nw d d' fs k E. unfold cv_relock, finish_lock in E. destruct (negb _); [inj E; auto|]. right.
  destruct (mu_trylock _ _ _ _ _ _) as [v1 d1]. destruct (_ =? _).
  - apply copause_cases in E. destruct E as [(-> & -> & _)|(-> & -> & _)].
    + exists [FLock m]. split; [reflexivity|]. split; [right; constructor | discriminate].
    + exists [FPause; FLock m]. split; [reflexivity|]. split; [right; constructor | discriminate].
  - inj E. exists []. split; [reflexivity|]. split; [auto | discriminate].
Qed.
(** the code after the pause reports the cancellation *)
Lemma final_ret : forall c f v b nw d d' fs k, hret c f v b nw d = (d', fs, k) -> final_wait f = true -> canceled (cof d c) = true ->
  (fs = [] /\ k = CRet ECANCELED) \/
  exists m w cv, f = FCvWait cv m /\ fs = w ++ [FCvRelock m ECANCELED] /\ (w = [] \/ pz (FLock m) w) /\ forall a, k <> CFinal a.
Proof.
  intros c f v b nw d d' fs k E FW C.
  assert (G : forall dl nw e, canceled (cof e c) = true -> exists e', checkdl c dl nw e = (ECANCELED, e')) by (intros; apply checkdl_canceled; assumption).
  destruct f; try discriminate FW; cbn [hret] in E.
  - unfold sleep_end in E. cbn [cof set_nsleepers] in E. rewrite C in E. inj E. auto.
  - unfold sigwait_end in E. match type of E with context [checkdl ?a ?b ?g ?e] => destruct (G b g e) as (e' & Q); [cbn; rewrite zupd_eq; exact C | rewrite Q in E] end. inj E. auto.
  - unfold wait_end in E. match type of E with context [checkdl ?a ?b ?g ?e] => destruct (G b g e) as (e' & Q); [cbn; rewrite zupd_eq; exact C | rewrite Q in E] end. inj E. auto.
  - unfold send_end in E. match type of E with context [checkdl ?a ?b ?g ?e] => destruct (G b g e) as (e' & Q); [cbn; rewrite ?zupd_eq; exact C | rewrite Q in E] end. inj E. auto.
  - unfold recv_end in E. match type of E with context [checkdl ?a ?b ?g ?e] => destruct (G b g e) as (e' & Q); [cbn; rewrite ?zupd_eq; exact C | rewrite Q in E] end. inj E. auto.
  - unfold select_end in E. cbv zeta in E. match type of E with context [checkdl ?a ?b ?g ?e] => destruct (G b g e) as (e' & Q) end; [|rewrite Q in E; cbn in E; inj E; auto].
    rewrite rm_cases_cof2. exact C.
  - unfold lock_end in E. match type of E with context [checkdl ?a ?b ?g ?e] => destruct (G b g e) as (e' & Q); [cbn; rewrite ?zupd_eq; exact C | rewrite Q in E] end. inj E. auto.
  - unfold wgwait_end in E. match type of E with context [checkdl ?a ?b ?g ?e] => destruct (G b g e) as (e' & Q); [cbn; rewrite ?zupd_eq; exact C | rewrite Q in E] end. inj E. auto.
  - unfold cvwait_end in E. match type of E with context [checkdl ?a ?b ?g ?e] => destruct (G b g e) as (e' & Q); [cbn; rewrite ?zupd_eq; exact C | rewrite Q in E] end.
    apply relock_frames in E. destruct E as [(-> & ->)|(w & -> & N & NF)]; [auto|]. right. exists m, w, v0. auto.
  - unfold join_end in E. match type of E with context [checkdl ?a ?b ?g ?e] => destruct (G b g e) as (e' & Q); [cbn; rewrite ?zupd_eq; exact C | rewrite Q in E] end. inj E. auto.
  - unfold suspend_end in E. match type of E with context [checkdl ?a ?b ?g ?e] => destruct (G b g e) as (e' & Q); [cbn; rewrite ?zupd_eq; exact C | rewrite Q in E] end. inj E. auto.
Qed.

(** once a coroutine exits, its calls never return *)
Definition exitish (f : frame) : bool := match f with FExitLoop | FExitGen _ _ | FExitFin _ => true | _ => false end.
Definition leaving (fs : list frame) (k : ctl) : Prop := (exists a, k = CFinal a) \/ exists w e r, fs = w ++ e :: r /\ exitish e = true.
Lemma yfsr_leaving : forall a d d' fs k, yfsr [FExitFin a] d = (d', fs, k) -> leaving fs k.
Proof.
  intros a d d' fs k E. right. unfold yfsr, coyield in E. destruct (_ <? _); inj E; [exists [FCoyield; FYfsr] | exists [FCoyield]]; exists (FExitFin a), []; auto.
Qed.
Lemma coexit_rest_leaving : forall c a d d' fs k, coexit_rest c a d = (d', fs, k) -> leaving fs k.
Proof.
  intros c a d d' fs k E. unfold coexit_rest in E. cbv zeta in E. destruct (gen _).
  - destruct (do_close _ _) as [[d1 fs1] k1]. injection E as _ <- _. right. eauto.
  - destruct (negb _); [eapply yfsr_leaving; exact E | inj E; left; eauto].
Qed.
Lemma coexit_async_leaving : forall c d d' fs k, coexit_async c d = (d', fs, k) -> leaving fs k.
Proof.
  intros c d d' fs k E. unfold coexit_async in E. destruct (cleanups _); [eapply coexit_rest_leaving; exact E|]. inj E. right. exists [], FExitLoop, []. auto.
Qed.
Lemma hret_leaving : forall c f v b nw d d' fs k, hret c f v b nw d = (d', fs, k) -> exitish f = true -> leaving fs k.
Proof.
  intros c f v b nw d d' fs k E X. destruct f; try discriminate X; cbn [hret] in E.
  - eapply coexit_async_leaving; exact E.
  - unfold exit_gen in E. destruct sched; [eapply yfsr_leaving; exact E | inj E; left; eauto].
  - inj E. left; eauto.
Qed.

(** ** The fate of call [k], operation [o], of coroutine [x] *)
Section Fate.
Variables (x : Z) (k : nat) (o : op).
Definition on_stack (st : list frame) : Prop := exists p, In (FApi k p) st.
Inductive fate (z : state) : Prop :=
| ft_wait f st : top (stk (sc z) x) = f :: FApi k o :: st -> final_wait f = true -> canceled (cof (dt z) x) = true -> fate z
| ft_ret st : cur (sc z) = Some x -> mode z = MRet ECANCELED -> stk (sc z) x = FApi k o :: st -> fate z
| ft_cv w m st : stk (sc z) x = w ++ FCvRelock m ECANCELED :: FApi k o :: st -> w = [] \/ pz (FLock m) w -> fate z
| ft_exit w e st : stk (sc z) x = w ++ e :: st -> exitish e = true -> ~ on_stack w -> (k < ncalls z)%nat -> fate z
| ft_over : ~ on_stack (stk (sc z) x) -> (k < ncalls z)%nat -> fate z.
Definition answered (z : state) : Prop := forall v m t, In (TRet k x o v m t) (tr z) -> v = ECANCELED.
Definition fated (z : state) : Prop := answered z /\ (fate z \/ exists n, mode z = MUB \/ mode z = MKilled n).

Lemma fate_other : forall s sch d md nc T, fate s -> cur (sc s) <> Some x \/ (forall v, mode s <> MRet v) -> stk sch x = stk (sc s) x ->
  (canceled (cof (dt s) x) = true -> canceled (cof d x) = true) -> (ncalls s <= nc)%nat -> forall tm, fate (mkst sch d md tm nc T).
Proof.
  intros s sch d md nc T [f st TP FW C|st CU M SK|w m st SK W|w e st SK XE NW LT|NO LT] NX SX CC LE tm.
  - eapply ft_wait; cbn [sc dt]; [rewrite SX; exact TP | exact FW | auto].
  - destruct NX as [H|H]; [congruence | destruct (H _ M)].
  - eapply ft_cv; cbn [sc]; [rewrite SX; exact SK | exact W].
  - eapply ft_exit; cbn [sc ncalls]; [rewrite SX; exact SK | exact XE | exact NW | lia].
  - apply ft_over; cbn [sc ncalls]; [rewrite SX; exact NO | lia].
Qed.
Lemma fate_lt : forall s, reach s -> fate s -> (k < ncalls s)%nat.
Proof.
  intros s RE F. assert (G : forall p, In (FApi k p) (stk (sc s) x) -> (k < ncalls s)%nat).
  { intros p IN. pose proof (reach_cinv _ RE) as CI. destruct (ci_open _ CI _ _ _ IN) as (t & IT & _). eapply ci_lt; eassumption. }
  destruct F as [f st TP FW C|st CU M SK|w m st SK W|w e st SK XE NW LT|NO LT]; [| | |exact LT|exact LT]; apply (G o).
  - unfold top in TP. destruct (stk (sc s) x) as [|[] r]; try (rewrite TP; right; left; reflexivity); try discriminate TP. rewrite TP. right; right; left; reflexivity.
  - rewrite SK. left; reflexivity.
  - rewrite SK. apply in_or_app. right; right; left; reflexivity.
Qed.
Lemma top_api_in : forall st f r, top st = f :: r -> exists w, st = w ++ f :: r /\ (w = [] \/ w = [FPause]).
Proof.
  intros st f r T. unfold top in T. destruct st as [|a st]; [discriminate T|]. destruct a; try (exists []; split; [exact T | auto]); []. exists [FPause]. rewrite T. auto.
Qed.
(** the call number is on the stack once *)
Lemma below : forall s w st p, reach s -> stk (sc s) x = w ++ FApi k p :: st -> ~ on_stack st.
Proof.
  intros s w st p RE SK (p2 & IN). pose proof (ci_nd _ (reach_cinv _ RE) x) as ND. rewrite SK, apis_app in ND. cbn in ND.
  apply NoDup_app_r in ND. apply NoDup_cons_iff in ND. destruct ND as [NI _]. apply NI. apply In_apis. eauto.
Qed.
Lemma over_app : forall fs st, noapi fs -> ~ on_stack st -> ~ on_stack (fs ++ st).
Proof. intros fs st N O (p & IN). apply in_app_or in IN. destruct IN as [IN|IN]; [eapply N; exact IN | apply O; exists p; exact IN]. Qed.

Theorem fated_step : forall s e, reach s -> fated s -> fated (step s e).
Proof.
  intros s e RE FT. revert FT. generalize RE. revert RE. intros RE _. revert e s RE. apply (gstep_preserves reach fated reach_full).
  - (* a call *)
    intros s c o0 d fs kk sch md RE [AN F] M CU U NR E X. destruct F as [F|(n & [H|H])]; [|congruence|congruence]. pose proof (reach_full _ RE) as FU.
    pose proof (cur_notfresh _ _ FU CU) as NFR. split.
    { intros v m t IN. cbn [tr] in IN. eapply AN. eapply (call_tr_rets s c o0 fs kk). exact IN. }
    left. pose proof (fate_lt _ RE F) as LT.
    destruct (exec_stk_cases _ _ _ _ _ X NFR x) as [[XC Q]|[(NE & NX & _ & Q)|(NE & Q & SPN)]].
    + subst c. assert (NO : (exists w e st, stk (sc s) x = w ++ e :: st /\ exitish e = true /\ ~ on_stack w) \/ ~ on_stack (stk (sc s) x)).
      { destruct F as [f st TP FW C|st CU2 M2 SK|w m st SK W|w e st SK XE NW _|NO _]; [| | |left; eauto 8|right; exact NO]; exfalso.
        - inversion U as [HU|k0 st0 U0 HU|st0 HU]; rewrite <- HU in TP; cbn in TP; injection TP as <- TP; discriminate FW.
        - congruence.
        - rewrite SK in U. destruct W as [->|W]; [inversion U|]. inversion W; subst; inversion U. }
      destruct NO as [(w & e & st & SK & XE & NW)|NO].
      { destruct (match kk with CFinal _ => true | _ => false end) eqn:KF; [apply ft_over; cbn [sc ncalls]; [|lia]; rewrite Q; destruct kk; try discriminate KF; intros (p & [])|].
        eapply (ft_exit _ (fs ++ FApi (ncalls s) o0 :: w) e st); cbn [sc ncalls]; [| exact XE | | lia].
        - rewrite Q. destruct kk; try discriminate KF; cbn; rewrite zupd_eq, SK, <- app_assoc; reflexivity.
        - apply over_app; [eapply hcall_noapi; exact E|]. intros (p & [H|H]); [injection H as H _; lia | apply NW; exists p; exact H]. }
      apply ft_over; cbn [sc ncalls]; [|lia]. rewrite Q. cbn. rewrite zupd_eq.
      assert (G : ~ on_stack (fs ++ FApi (ncalls s) o0 :: stk (sc s) x)).
      { apply over_app; [eapply hcall_noapi; exact E|]. intros (p & [H|H]); [injection H as H _; lia | apply NO; exists p; exact H]. }
      destruct kk; try exact G. intros (p & []).
    + apply ft_over; cbn [sc ncalls]; [|lia]. rewrite Q. intros (p & [H|[]]); discriminate H.
    + eapply fate_other; [exact F | right; intros v; congruence | | | lia].
      * rewrite Q. cbn. rewrite zupd_neq by exact NE. reflexivity.
      * intros C. assert (CD : canceled (cof d x) = true).
        { destruct (canceled (cof d x)) eqn:CD; [reflexivity|]. exfalso. apply NE. eapply prims_canceled; [eapply hcall_prims; exact E | exact C | exact CD]. }
        destruct (Z.eq_dec x (nextid (sc s) + 1)) as [XN|XN]; [|destruct (ctl_flags x (nextid (sc s) + 1) kk d x XN) as [A _]; destruct (ctl_flags c (nextid (sc s) + 1) kk d x XN) as [B _]; rewrite B; exact CD].
        destruct kk; cbn [ctl_dat]; try exact CD. destruct (SPN _ eq_refl XN).
  - (* a return *)
    intros s c v f rest b d fs kk sch md RE [AN F] M CU SK L E X. destruct F as [F|(n & [H|H])]; [|congruence|congruence]. pose proof (reach_full _ RE) as FU.
    pose proof (cur_notfresh _ _ FU CU) as NFR. pose proof (fate_lt _ RE F) as LT. pose proof (tick_noapi _ _ _ _ _ _ _ _ _ _ L E) as NA.
    destruct (Z.eq_dec x c) as [XC|NE].
    + subst c.
      assert (SX : stk sch x = match kk with CFinal _ => [] | _ => fs ++ rest end).
      { destruct (exec_stk_cases _ _ _ _ _ X NFR x) as [[_ Q]|[(NE & _)|(NE & _)]]; [|congruence|congruence]. rewrite Q. cbn. rewrite zupd_eq. reflexivity. }
      assert (ANS : (f = FApi k o -> v = ECANCELED) -> answered (mkst sch (ctl_dat x (nextid (sc s) + 1) kk d) md (now s) (ncalls s)
         (ctl_obs x (nextid (sc s) + 1) kk ++ handler_obs x fs kk (dt s) ++ ret_obs x f v (d, fs, kk) s ++ tr s))).
      { intros H v0 m t IN. cbn [tr] in IN. apply (tick_tr_rets s x v f d fs kk) in IN. destruct IN as [IN|(-> & _ & -> & _)]; [eapply AN; exact IN | auto]. }
      assert (OVER : ~ on_stack rest -> forall T, fate (mkst sch (ctl_dat x (nextid (sc s) + 1) kk d) md (now s) (ncalls s) T)).
      { intros NO T. apply ft_over; cbn [sc ncalls]; [|exact LT]. rewrite SX. pose proof (over_app _ _ NA NO). destruct kk; auto. intros (p & []). }
      assert (EXI : leaving fs kk -> forall T, fate (mkst sch (ctl_dat x (nextid (sc s) + 1) kk d) md (now s) (ncalls s) T)).
      { intros LV T. destruct (match kk with CFinal _ => true | _ => false end) eqn:KF; [apply ft_over; cbn [sc ncalls]; [|exact LT]; rewrite SX; destruct kk; try discriminate KF; intros (p & [])|].
        destruct LV as [(a & ->)|(w & e & r & -> & XE)]; [discriminate KF|]. eapply (ft_exit _ w e (r ++ rest)); cbn [sc ncalls]; [|exact XE| |exact LT].
        - rewrite SX. destruct kk; try discriminate KF; rewrite <- app_assoc; reflexivity.
        - intros (p & IN). eapply NA. apply in_or_app. left. exact IN. }
      destruct F as [g st TP FW C|st CU2 M2 SK2|w m st SK2 W|w e0 st SK2 XE NW _|NO _].
      * rewrite SK in TP. assert (DF : (f = FPause /\ rest = g :: FApi k o :: st) \/ (f = g /\ rest = FApi k o :: st)).
        { destruct f; cbn in TP; auto; right; injection TP as -> ->; auto. }
        destruct DF as [[-> ->]|[-> ->]].
        -- cbn [hret] in E. inj E. split; [apply ANS; discriminate|]. left. eapply ft_wait; cbn [sc dt]; [rewrite SX; cbn [app]; destruct g; try reflexivity; discriminate FW | exact FW|].
           cbn [ctl_dat]. unfold pause_end. destruct (_ <? _); cbn; rewrite zupd_eq; exact C.
        -- split; [apply ANS; intros ->; discriminate FW|]. left. destruct (final_ret _ _ _ _ _ _ _ _ _ E FW C) as [(-> & ->)|(m9 & w9 & cv9 & -> & -> & NW & NF)].
           ++ eapply ft_ret; cbn [sc mode]; [| |rewrite SX; reflexivity]; cbn in X; inj X; [exact CU | reflexivity].
           ++ eapply (ft_cv _ w9 m9 st); cbn [sc]; [|exact NW]. rewrite SX. destruct kk; try (rewrite <- app_assoc; reflexivity). destruct (NF _ eq_refl).
      * rewrite SK in SK2. injection SK2 as -> ->. split; [apply ANS; intros _; congruence|]. left. apply OVER. eapply (below s []); [exact RE | exact SK].
      * destruct W as [->|W].
        -- cbn in SK2. rewrite SK in SK2. injection SK2 as -> ->. split; [apply ANS; discriminate|]. left.
           assert (NB : ~ on_stack st) by (eapply (below s [FCvRelock m ECANCELED]); [exact RE | exact SK]).
           cbn [hret] in E. destruct (v =? OK); [inj E; eapply ft_ret; cbn [sc mode]; [| |rewrite SX; reflexivity]; cbn in X; inj X; [exact CU | reflexivity]|].
           destruct (_ && _).
           ++ apply EXI. eapply coexit_async_leaving; exact E.
           ++ apply relock_frames in E. destruct E as [(-> & ->)|(w & -> & N & NF)].
              ** eapply ft_ret; cbn [sc mode]; [| |rewrite SX; reflexivity]; cbn in X; inj X; [exact CU | reflexivity].
              ** eapply (ft_cv _ w m st); cbn [sc]; [|exact N]. rewrite SX. destruct kk; try (rewrite <- app_assoc; reflexivity). destruct (NF _ eq_refl).
        -- inversion W as [HW|HW]; subst w; cbn in SK2; rewrite SK in SK2; injection SK2 as -> ->; cbn [hret] in E; (split; [apply ANS; discriminate|]); left.
           ++ unfold lock_end in E. destruct (checkdl _ _ _ _). inj E. eapply (ft_cv _ [] m st); cbn [sc]; [rewrite SX; reflexivity | auto].
           ++ inj E. eapply (ft_cv _ [FLock m] m st); cbn [sc]; [rewrite SX; reflexivity | right; constructor].
      * destruct w as [|y w]; cbn in SK2; rewrite SK in SK2; injection SK2 as -> ->.
        -- split; [apply ANS; intros ->; discriminate XE|]. left. apply EXI. eapply hret_leaving; eassumption.
        -- split; [apply ANS; intros ->; exfalso; apply NW; exists o; left; reflexivity|]. left.
           destruct (match kk with CFinal _ => true | _ => false end) eqn:KF; [apply ft_over; cbn [sc ncalls]; [|exact LT]; rewrite SX; destruct kk; try discriminate KF; intros (p & [])|].
           eapply (ft_exit _ (fs ++ w) e0 st); cbn [sc ncalls]; [|exact XE| |exact LT].
           ++ rewrite SX. destruct kk; try discriminate KF; rewrite <- app_assoc; reflexivity.
           ++ apply over_app; [exact NA|]. intros (p & IN). apply NW. exists p. right. exact IN.
      * split; [|left; apply OVER; intros (p & IN); apply NO; rewrite SK; exists p; right; exact IN].
        apply ANS. intros ->. exfalso. apply NO. rewrite SK. exists o. left; reflexivity.
    + split.
      { intros v0 m t IN. cbn [tr] in IN. apply (tick_tr_rets s c v f d fs kk) in IN. destruct IN as [IN|(-> & H & _)]; [eapply AN; exact IN | congruence]. }
      left. destruct (exec_stk_cases _ _ _ _ _ X NFR x) as [[XC Q]|[(_ & NX & _ & Q)|(_ & Q & SPN)]]; [congruence| |].
      * apply ft_over; cbn [sc ncalls]; [|lia]. rewrite Q. intros (p & [H|[]]); discriminate H.
      * eapply fate_other; [exact F | left; congruence | | | lia].
        -- rewrite Q. cbn. rewrite zupd_neq by exact NE. reflexivity.
        -- intros C. assert (CD : canceled (cof d x) = true).
           { destruct (canceled (cof d x)) eqn:CD; [reflexivity|]. exfalso. apply NE. eapply prims_canceled; [eapply hret_prims; exact E | exact C | exact CD]. }
           destruct (Z.eq_dec x (nextid (sc s) + 1)) as [XN|XN]; [|destruct (ctl_flags c (nextid (sc s) + 1) kk d x XN) as [B _]; rewrite B; exact CD].
           destruct kk; cbn [ctl_dat]; try exact CD. destruct (SPN _ eq_refl XN).
  - intros s d ws sch md ios RE [AN F] M A K X. destruct F as [F|(n & [H|H])]; [|congruence|congruence]. split; [exact AN|]. left.
    apply sco_switch_frame in X. destruct X as (X1 & _). destruct (wakes_frame ws (sc s)) as (W1 & _).
    eapply fate_other; [exact F | right; intros v; congruence | congruence | | lia].
    intros C. destruct (mprims_flags _ _ x (mp_main _ _ _ _ _ _ _ K)) as [CE _]. rewrite CE. exact C.
  - intros s m RE [AN F] HM. split; [exact AN|]. destruct F as [F|(n & H)].
    + destruct HM as [[-> MU]|[(-> & MM & _)|[(n & ->)| ->]]]; [| |right; exists n; right; reflexivity|right; exists 0; left; reflexivity]; left.
      * destruct s. eapply fate_other; [exact F | right; intros v; cbn in *; congruence | reflexivity | auto | auto].
      * destruct s. eapply fate_other; [exact F | right; intros v; cbn in *; congruence | reflexivity | auto | auto].
    + destruct HM as [[-> MU]|[(-> & MM & _)|[(n2 & ->)| ->]]]; [destruct H; congruence | destruct H; congruence | right; exists n2; right; reflexivity|right; exists 0; left; reflexivity].
  - intros s e RE [AN F] H M. destruct (env_frame s e H) as (E1 & E2). split.
    { intros v m t IN. apply env_tr_in in IN; [|exact H]. destruct IN as [IN|(? & ? & IN)]; [eapply AN; exact IN | discriminate IN]. }
    destruct F as [F|F]; [|right; destruct F as (n & F); exists n; rewrite M; exact F]. left.
    destruct F as [f st TP FW C|st CU2 M2 SK2|w m st SK2 W|w e0 st SK2 XE NW LT|NO LT].
    + eapply ft_wait; [rewrite E1; exact TP | exact FW | rewrite env_cof by exact H; exact C].
    + eapply ft_ret; [destruct E2 as (E2 & _); rewrite E2; exact CU2|rewrite M; exact M2 | rewrite E1; exact SK2].
    + eapply ft_cv; [rewrite E1; exact SK2 | exact W].
    + eapply ft_exit; [rewrite E1; exact SK2 | exact XE | exact NW | rewrite WorkInv.env_ncalls by exact H; exact LT].
    + apply ft_over; [rewrite E1; exact NO | rewrite WorkInv.env_ncalls by exact H; exact LT].
Qed.
End Fate.
