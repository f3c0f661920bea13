(** Steps that do not concern a channel leave it and its waiters alone; the other
    steps that are no call on it can only close it. *)
From Coq Require Import List ZArith Bool Lia.
From Verif Require Import AATreeSpec AATreeHist Util Runtime SchedInv StepInv StackShape RuntimeSpec TraceInv Immediate Prims StaticInv Footprint QueueInv OwnInv WaitInv CallInv SpecInv TraceStep Wake Awake DeadlineInv AllInv PausedInv ResultInv JoinInv WaiterInv DldInv CancelInv CancelOrd MutexEff MutexTok MutexRt MutexOrd AtCall WgInv ChanShape ChanSpec ChanLists ChanEff.
Import ListNotations.
Local Open Scope Z_scope.

Definition isr (ch : nat) (o : op) : bool := match o with OpRecv ch' _ | OpTryRecv ch' => Nat.eqb ch' ch | _ => false end.
Definition inq (s : state) (ch : nat) (x : Z) : Prop := In (NCo x) (q (dt s) (QChan ch)).
(** who counts: waiters on the channel and callers of receive *)
Definition pend (s : state) (ch : nat) (x : Z) : Prop := inq s ch x \/ exists w k o, at_call s x w k o /\ isr ch o = true.
(** which channel a yielding generator waits on *)
Definition gyw (G : Z -> option nat) (s : state) : Prop :=
  forall x w k m dl ch, at_call s x w k (OpGenYield m dl) -> In (FSendWait ch) w -> G x = Some ch.

Lemma matched_chan : forall st n ch, matched st n (QChan ch) ->
  (n = NCo (node_co n) /\ exists rest, top st = FSendWait ch :: rest \/ top st = FRecvWait ch :: rest) \/
  (exists N k chs dl st', top st = FSelWait N :: FApi k (OpSelect chs dl) :: st' /\ In ch chs).
Proof.
  intros st n ch M. unfold matched in M. destruct (top st) as [|f rest]; [destruct M|]. destruct f; try contradiction;
    try (destruct M as [A B]; discriminate B); try (destruct M as [A B]; injection B as ->; left; split; [exact A | eexists; eauto]).
  destruct rest as [|[] rest]; try contradiction. destruct o; try contradiction. destruct M as (i & ch' & _ & NE & E). injection E as <-.
  right. do 5 eexists. split; [reflexivity|]. eapply nth_error_In; exact NE.
Qed.
Lemma top_in : forall st f, In f (top st) -> In f st.
Proof. intros [|[] st] f IN; try exact IN. right. exact IN. Qed.
Lemma chan_nco : forall s ch, reach s -> plain_on ch (tr s) -> allnco (q (dt s) (QChan ch)).
Proof.
  intros s ch RE SI n IN. pose proof (reach_qloc _ RE n (QChan ch) Logic.I IN) as M. destruct (matched_chan _ _ _ M) as [[A _]|(N & k & chs & dl & st' & TP & IC)]; [exact A|].
  exfalso. assert (IF : In (FApi k (OpSelect chs dl)) (stk (sc s) (node_co n))) by (apply top_in; rewrite TP; right; left; reflexivity).
  destruct (ci_open _ (reach_cinv _ RE) _ _ _ IF) as (t & IT & _). exact (SI _ _ _ _ IT IC).
Qed.
(** the wait frame of a plain call *)
Lemma top_wait : forall st f rest, lstack st -> top st = f :: rest -> (exists ch, f = FSendWait ch \/ f = FRecvWait ch) ->
  exists w k o st', st = w ++ FApi k o :: st' /\ shape o w /\ (w = [f] \/ w = [FPause; f]) /\ rest = FApi k o :: st'.
Proof.
  intros st f rest L TP (ch & H). inversion L as [st0 U|k0 o0 w st0 U SH EQ|w st0 ES EQ]; subst st.
  - destruct H as [-> | ->]; inversion U; subst; discriminate TP.
  - exists w, k0, o0, st0. split; [reflexivity|]. split; [exact SH|].
    assert (TQ : exists w', top (w ++ FApi k0 o0 :: st0) = w' ++ FApi k0 o0 :: st0 /\ (w = w' \/ w = FPause :: w')).
    { destruct w as [|g w]; [exists []; auto|]. destruct g; try (eexists; split; [reflexivity | left; reflexivity]). exists w. auto. }
    destruct TQ as (w' & TQ & WW). rewrite TQ in TP. destruct w' as [|g w']; [destruct H as [-> | ->]; discriminate TP|]. injection TP as -> TP.
    assert (w' = []).
    { destruct WW as [-> | ->]; destruct H as [-> | ->]; inversion SH; subst; try reflexivity; try (match goal with H : pz _ _ |- _ => inversion H; subst end; reflexivity);
      try (match goal with H : yf _ _ |- _ => inversion H end);
      match goal with H : pz _ ?w, E : ?w ++ _ = _ |- _ => inversion H; subst; discriminate E end. }
    subst w'. split; [destruct WW as [-> | ->]; auto | symmetry; exact TP].
  - destruct H as [-> | ->]; inversion ES as [a0 s0 w0 Y|a0 s0|a0 w0 Y]; subst; try (inversion Y; subst; discriminate TP); discriminate TP.
Qed.
Lemma stk_lstack : forall s x, reach s -> stk (sc s) x <> [] -> lstack (stk (sc s) x).
Proof. intros s x RE. apply (proj1 (proj2 (reach_full _ RE)) x). Qed.
Lemma chan_wait : forall s ch x, reach s -> (exists rest, top (stk (sc s) x) = FSendWait ch :: rest \/ top (stk (sc s) x) = FRecvWait ch :: rest) ->
  exists f w k o rest, top (stk (sc s) x) = f :: rest /\ at_call s x w k o /\ (f = FSendWait ch \/ f = FRecvWait ch) /\ (w = [f] \/ w = [FPause; f]) /\
    sdl (f :: rest) = op_dl o.
Proof.
  intros s ch x RE (rest & TP).
  assert (exists f, top (stk (sc s) x) = f :: rest /\ (f = FSendWait ch \/ f = FRecvWait ch)) as (f & TF & FF) by (destruct TP as [TP|TP]; eauto).
  assert (NN : stk (sc s) x <> []) by (intros Q; rewrite Q in TF; discriminate).
  destruct (top_wait _ _ _ (stk_lstack _ _ RE NN) TF) as (w & k & o & st' & SX & SH & WW & ->); [exists ch; exact FF|].
  exists f, w, k, o. eexists. split; [exact TF|]. split; [exists st'; auto|]. split; [exact FF|]. split; [exact WW|]. apply sdl_api.
Qed.
Lemma wait_op : forall o w f ch, shape o w -> In f w -> (f = FSendWait ch \/ f = FRecvWait ch) ->
  (exists m dl, f = FSendWait ch /\ o = OpSend ch m dl) \/ (exists m dl, f = FSendWait ch /\ o = OpGenYield m dl) \/ (exists dl, f = FRecvWait ch /\ o = OpRecv ch dl).
Proof.
  intros o w f ch SH IN FF. assert (HH : exists c0, f = FSendWait c0 \/ f = FRecvWait c0) by eauto.
  inversion SH; subst; try (match goal with H : pz _ _ |- _ => inversion H; subst; clear H end);
    try (match goal with H : yf _ _ |- _ => inversion H; subst; clear H end); cbn in IN;
    repeat match goal with H : _ \/ _ |- _ => destruct H end; subst; try contradiction; try discriminate;
    repeat match goal with H : exists _, _ |- _ => destruct H end;
    repeat match goal with H : _ \/ _ |- _ => destruct H end; try discriminate;
    repeat match goal with H : FSendWait _ = FSendWait _ |- _ => injection H; intros; clear H; subst | H : FRecvWait _ = FRecvWait _ |- _ => injection H; intros; clear H; subst end; eauto 8.
Qed.
(** no wait on the channel can time out *)
Lemma wait_max : forall G s ch x w k o f, reach s -> simple_on G ch (tr s) -> gyw G s -> at_call s x w k o -> In f w -> (f = FSendWait ch \/ f = FRecvWait ch) -> op_dl o = MAXI.
Proof.
  intros G s ch x w k o f RE [_ SI] GY AC IN FF. destruct AC as (st & SX & SH). assert (IF : In (FApi k o) (stk (sc s) x)) by (rewrite SX; apply in_or_app; right; left; reflexivity).
  destruct (ci_open _ (reach_cinv _ RE) _ _ _ IF) as (t & IT & _). specialize (SI _ _ _ _ IT).
  destruct (wait_op _ _ _ _ SH IN FF) as [(m & dl & -> & ->)|[(m & dl & -> & ->)|(dl & -> & ->)]]; cbn; auto.
  apply SI. eapply GY; [exists st; split; [exact SX | exact SH] | exact IN].
Qed.
Lemma no_dl : forall G s ch x, reach s -> simple_on G ch (tr s) -> gyw G s -> (exists rest, top (stk (sc s) x) = FSendWait ch :: rest \/ top (stk (sc s) x) = FRecvWait ch :: rest) ->
  deadlined (cof (dt s) x) = false.
Proof.
  intros G s ch x RE SI GY W. destruct (chan_wait _ _ _ RE W) as (f & w & k & o & rest & TF & AC & FF & WW & SD).
  destruct (deadlined (cof (dt s) x)) eqn:DE; [|reflexivity]. destruct (reach_dld _ RE (proj1 (proj1 SI)) x DE) as (f' & rest' & TP & _ & _ & LT).
  rewrite TF in TP. injection TP as <- <-. rewrite SD, (wait_max _ _ _ _ _ _ _ f RE SI GY AC) in LT; [lia | destruct WW as [-> | ->]; cbn; auto | exact FF].
Qed.
Lemma no_cn : forall G s ch x, reach s -> simple_on G ch (tr s) -> gyw G s -> (exists rest, top (stk (sc s) x) = FSendWait ch :: rest \/ top (stk (sc s) x) = FRecvWait ch :: rest) ->
  canceled (cof (dt s) x) = false.
Proof.
  intros G s ch x RE SI GY W. destruct (chan_wait _ _ _ RE W) as (f & w & k & o & rest & TF & AC & FF & WW & SD).
  apply spared_flag; [exact RE|]. assert (IN : In f w) by (destruct WW as [-> | ->]; cbn; auto). pose proof AC as (st & SX & SH).
  destruct (ci_open _ (reach_cinv _ RE) x k o) as (tm & IT & _); [rewrite SX; apply in_or_app; right; left; reflexivity|].
  apply (proj2 (proj1 SI) _ _ _ _ IT). destruct (wait_op _ _ _ _ SH IN FF) as [(m & dl & -> & ->)|[(m & dl & -> & ->)|(dl & -> & ->)]]; cbn; auto.
  eapply GY; [exact AC | exact IN].
Qed.
(** nobody broadcasts or selects on [ch], and the running coroutine is not on its way
    out of a wait on it because of a cancel or a deadline *)
Definition unhurt (ch : nat) (s : state) : Prop :=
  plain_on ch (tr s) /\
  forall x, cur (sc s) = Some x -> (exists rest, top (stk (sc s) x) = FSendWait ch :: rest \/ top (stk (sc s) x) = FRecvWait ch :: rest) ->
    deadlined (cof (dt s) x) = false /\ canceled (cof (dt s) x) = false.
Lemma simple_unhurt : forall G s ch, reach s -> simple_on G ch (tr s) -> gyw G s -> unhurt ch s.
Proof.
  intros G s ch RE SI GY. split; [eapply simple_plain; exact SI|]. intros x _ W. split; [eapply no_dl; eassumption | eapply no_cn; eassumption].
Qed.
Lemma cur_notin : forall s ch c, reach s -> unhurt ch s -> cur (sc s) = Some c -> ~ inq s ch c.
Proof.
  intros s ch c RE SI CU IN. pose proof (reach_qloc _ RE _ (QChan ch) Logic.I IN) as M. cbn [node_co] in M.
  assert (W : exists rest, top (stk (sc s) c) = FSendWait ch :: rest \/ top (stk (sc s) c) = FRecvWait ch :: rest).
  { destruct (matched_chan _ _ _ M) as [[_ W]|(N & k & chs & dl & st' & TP & IC)]; [exact W|]. unfold matched in M. rewrite TP in M. destruct M as (i & ch' & D & _). discriminate D. }
  destruct (proj2 SI c CU W) as [DE CA]. destruct W as (rest & TP).
  pose proof (cur_notpaused _ _ (reach_full _ RE) CU) as NP. unfold inq in IN.
  destruct TP as [TP|TP]; destruct (reach_awake _ RE c _ _ TP eq_refl) as [A|[A|[A|A]]]; try congruence; try contradiction; exact (A IN).
Qed.

(** ** Steps not about the channel *)
Lemma fps_newch : forall c KP KW d R P d', fps c KP KW d R P d' -> forall ch, ~ KP (QChan ch) -> (nchan d <= ch)%nat ->
  buf (chn d ch) = [] /\ rclosed (chn d ch) = false -> buf (chn d' ch) = [] /\ rclosed (chn d' ch) = false.
Proof.
  intros c KP KW d R P d' F ch NK L B. induction F; auto.
  - apply fps_core_q in H. destruct H as (_ & _ & H & _). rewrite H. exact IHF.
  - unfold upch. cbn. rewrite nupd_neq by congruence. exact IHF.
  - cbn. unfold nupd. destruct (Nat.eqb_spec ch (nchan d1)) as [->|N]; [split; reflexivity | exact IHF].
Qed.
Lemma fps_newcl : forall c KP KW d R P d', fps c KP KW d R P d' -> forall ch, ~ KP (QChan ch) -> (nchan d <= ch)%nat -> chn d' ch = chn d ch \/ sclosed (chn d' ch) = false.
Proof.
  intros c KP KW d R P d' F ch NK L. induction F; auto.
  - apply fps_core_q in H. destruct H as (_ & _ & H & _). rewrite H. exact IHF.
  - unfold upch. cbn. rewrite nupd_neq by congruence. exact IHF.
  - cbn. unfold nupd. destruct (Nat.eqb_spec ch (nchan d1)) as [->|N]; [right; reflexivity | exact IHF].
Qed.
Definition newok (ch : nat) (d : dat) : Prop := (nchan d <= ch)%nat -> buf (chn d ch) = [] /\ rclosed (chn d ch) = false.
Definition still3 (s : state) (c : Z) (ch : nat) (d : dat) : Prop := forall x, x <> c -> pend s ch x -> same3 (cof (dt s) x) (cof d x).

Lemma pend_apart : forall s ch x k n, reach s -> pend s ch x -> waitq k -> In n (q (dt s) k) -> node_co n = x -> k = QChan ch.
Proof.
  intros s ch x k n RE PE W IN NC. pose proof (reach_qloc _ RE n k W IN) as M. rewrite NC in M. unfold matched in M. destruct PE as [IQ|(w & kk & o & (st & SX & SH) & IS)].
  - pose proof (reach_qloc _ RE _ (QChan ch) Logic.I IQ) as M2. cbn [node_co] in M2. destruct (matched_chan _ _ _ M2) as [[_ (rest & TP)]|(N & j & chs & dl & st' & TP & IC)].
    + destruct TP as [TP|TP]; rewrite TP in M; apply M.
    + unfold matched in M2. rewrite TP in M2. destruct M2 as (i & ch' & D & _). discriminate D.
  - assert (TW : w = [] \/ w = [FRecvResumed] \/ w = [FRecvWait ch] \/ w = [FPause; FRecvWait ch]).
    { destruct o; try discriminate IS; cbn in IS; apply Nat.eqb_eq in IS; subst; inversion SH; subst; auto. match goal with H : pz _ _ |- _ => inversion H; subst; auto end. }
    destruct TW as [-> |[-> |[-> | ->]]]; rewrite SX in M; cbn in M; try contradiction; apply M.
Qed.
Lemma quiet_fp : forall s c KP KW d0 R P d ch, reach s -> plain_on ch (tr s) -> newok ch (dt s) -> fps c KP KW d0 R P d -> ~ KP (QChan ch) ->
  ~ inq s ch c -> (forall n, ~ KW (QChan ch) n) ->
  (forall n kk, In n (q d0 kk) -> In n (q (dt s) kk)) -> others c (q d0 (QChan ch)) = others c (q (dt s) (QChan ch)) -> chn d0 = chn (dt s) -> cof d0 = cof (dt s) -> nchan d0 = nchan (dt s) ->
  quietc ch (dt s) d /\ still3 s c ch d.
Proof.
  intros s c KP KW d0 R P d ch RE SI NW FP NK NI NKW SUB OQ C0 F0 N0. pose proof (chan_nco _ _ RE SI) as AN.
  assert (RP : forall r, In r R -> r <> c -> ~ pend s ch r).
  { intros r IR NE PE. destruct (fps_R _ _ _ _ _ _ _ FP r IR) as [?|(k' & n & K' & PK & NC & IN')]; [contradiction|].
    apply NK. rewrite <- (pend_apart _ _ _ k' n RE PE (popq_waitq _ PK) (SUB _ _ IN') NC). exact K'. }
  assert (OO : others c (q d (QChan ch)) = others c (q (dt s) (QChan ch))).
  { rewrite <- OQ. apply (fps_others _ _ _ _ _ _ _ FP (QChan ch) Logic.I NK). intros r IR NE IN. apply (RP r IR NE). left. apply SUB, IN. }
  assert (ID : forall l, (forall n, In n l -> node_co n <> c) -> others c l = l).
  { intros l H. unfold others. apply filter_all. intros n IN. apply negb_true_iff, Z.eqb_neq, H, IN. }
  assert (N1 : forall n, In n (q (dt s) (QChan ch)) -> node_co n <> c).
  { intros n IN E. apply NI. unfold inq. rewrite <- E, <- (AN n IN). exact IN. }
  assert (N2 : forall n, In n (q d (QChan ch)) -> node_co n <> c).
  { intros n IN. destruct (fps_q_in _ _ _ _ _ _ _ FP n (QChan ch) Logic.I IN) as [I0|[_ I0]]; [apply N1, SUB, I0 | destruct (NKW _ I0)]. }
  rewrite (ID _ N1), (ID _ N2) in OO. pose proof (fps_nchan _ _ _ _ _ _ _ FP) as NM. rewrite N0 in NM.
  split; [|].
  - unfold quietc. destruct (Nat.lt_ge_cases ch (nchan (dt s))) as [L|L].
    + pose proof (fps_chn _ _ _ _ _ _ _ FP ch NK) as CE. rewrite N0, C0 in CE. unfold clo. rewrite (CE L), OO. auto 10.
    + pose proof (fps_newcl _ _ _ _ _ _ _ FP ch NK) as CL. rewrite N0, C0 in CL. specialize (CL L). destruct (NW L) as [B1 B2]. destruct (fps_newch _ _ _ _ _ _ _ FP ch NK) as [B3 B4]; [lia | rewrite C0; auto|]. rewrite B1, B2, B3, B4.
      split; [reflexivity|]. split; [exact OO|]. split; [|split; [reflexivity | split; [exact NM|]; unfold clo; rewrite OO; destruct CL as [->|CL]; [auto | congruence]]]. intros NE. exfalso. apply NE.
      destruct (reach_chinv _ RE) as [(D1 & D2 & D3) _]. apply (ck_nil _ _ (D1 ch)), D2, L.
  - intros x NE PE. assert (NR : ~ In x R) by (intros IR; exact (RP x IR NE PE)).
    destruct (fps_cof _ _ _ _ _ _ _ FP x NE NR) as [-> | ->]; rewrite F0; repeat split.
Qed.
Lemma leave_chn : forall f c d, chn (leave f c d) = chn d /\ cof (leave f c d) = cof d /\ nchan (leave f c d) = nchan d.
Proof.
  intros f c d. assert (H : forall n d, chn (rm_cases c n d) = chn d /\ cof (rm_cases c n d) = cof d /\ nchan (rm_cases c n d) = nchan d).
  { induction n as [|n IH]; intros d0; cbn [rm_cases]; [auto|]. destruct (IH (rmq (NCase c (Z.of_nat n)) d0)) as (-> & -> & ->). auto. }
  destruct f; cbn [leave]; auto.
Qed.
(** taking a new record and giving it back *)
Lemma quiet_ctl : forall s c ch k d, reach s -> cur (sc s) = Some c -> ~ In (NCo c) (q d (QChan ch)) -> q d (QChan ch) = [] \/ (ch < nchan d)%nat -> newok ch d ->
  quietc ch d (ctl_dat c (nextid (sc s) + 1) k d) /\ (forall x, x <> c -> pend s ch x -> cof (ctl_dat c (nextid (sc s) + 1) k d) x = cof d x).
Proof.
  intros s c ch k d RE CU NI QN NW.
  assert (FR : forall x, pend s ch x -> x <> nextid (sc s) + 1).
  { intros x PE ->. pose proof (stk_fresh _ (reach_full _ RE)) as SF. destruct PE as [IQ|(w & kk & o & (st & SX & _) & _)].
    - pose proof (reach_qloc _ RE _ (QChan ch) Logic.I IQ) as M. cbn [node_co] in M. rewrite SF in M. exact M.
    - rewrite SF in SX. destruct w; discriminate SX. }
  destruct k; cbn [ctl_dat]; try (split; [apply quietc_refl | auto]).
  - split.
    + unfold quietc. rewrite spawn_q_eq by discriminate.
      assert (CN : (chn (spawn_dat (Some c) (nextid (sc s) + 1) isgen d) ch = chn d ch \/ (nchan d <= ch)%nat /\ buf (chn (spawn_dat (Some c) (nextid (sc s) + 1) isgen d) ch) = [] /\ rclosed (chn (spawn_dat (Some c) (nextid (sc s) + 1) isgen d) ch) = false /\ sclosed (chn (spawn_dat (Some c) (nextid (sc s) + 1) isgen d) ch) = false) /\ (nchan d <= nchan (spawn_dat (Some c) (nextid (sc s) + 1) isgen d))%nat).
      { unfold spawn_dat, popq, new_chan. destruct (q d QPool); destruct isgen; cbn; (split; [|lia]); auto; unfold nupd; destruct (Nat.eqb_spec ch (nchan d)) as [->|]; auto 10. }
      unfold clo. rewrite spawn_q_eq by discriminate. destruct CN as [[->|(L & B & B0 & B9)] NM]; [auto 10|]. destruct (NW L) as [B1 B2]. rewrite B, B0, B1, B2. split; [reflexivity|]. split; [reflexivity|]. split; [|split; [reflexivity | split; [exact NM | congruence]]].
      intros NE. destruct QN as [QN|QN]; [contradiction | lia].
    + intros x NE PE. rewrite spawn_cof by (apply FR, PE). destruct (Z.eqb_spec x c); [contradiction | reflexivity].
  - split; [|reflexivity]. unfold final_dat, pushq. assert (QE : filter (fun x => negb (node_eqb (NCo c) x)) (q d (QChan ch)) = q d (QChan ch)); [|unfold quietc, clo; cbn [q set_npool set_q chn nchan]; rewrite qupd_neq by discriminate; cbn [rmq q set_q]; rewrite QE; auto 10].
    apply filter_all. intros n IN. destruct n as [y|]; [|reflexivity]. cbn. destruct (Z.eqb_spec c y) as [->|]; [contradiction | reflexivity].
Qed.

Inductive step_out (s : state) (c : Z) (ch : nat) (d : dat) : Prop :=
| st_quiet : quietc ch (dt s) d -> still3 s c ch d -> step_out s c ch d
| st_close : (ch < nchan (dt s))%nat -> buf (chn (dt s) ch) = [] -> (q (dt s) (QChan ch) = [] \/ qrecv (chn (dt s) ch) = true) ->
    q d (QChan ch) = [] -> buf (chn d ch) = [] -> rclosed (chn d ch) = true -> nchan d = nchan (dt s) ->
    (forall x, inq s ch x -> cof d x = set_cclosed true (cof (dt s) x)) ->
    (forall x, x <> c -> ~ inq s ch x -> cof d x = cof (dt s) x) -> step_out s c ch d.

Lemma wcall_chan : forall c d o ch, wcall c d o (QChan ch) -> kcall c d o (QChan ch).
Proof. intros c d o ch W. destruct o; cbn in *; try discriminate W; exact W. Qed.
Lemma wret_chan : forall f ch, ~ wret f (QChan ch).
Proof. intros f ch W. destruct f; cbn in W; try contradiction; discriminate W. Qed.
Lemma call_quiet : forall s c o d fs k ch, reach s -> unhurt ch s -> newok ch (dt s) -> cur (sc s) = Some c ->
  hcall c o (now s) (dt s) = (d, fs, k) -> ~ kcall c (dt s) o (QChan ch) -> quietc ch (dt s) d /\ still3 s c ch d.
Proof.
  intros s c o d fs k ch RE SI NW CU E NK. destruct (hcall_fp _ _ _ _ _ _ _ (ncalls s) (stk (sc s) c) E) as (R & P & FP & _).
  eapply quiet_fp; try eassumption; auto; [apply (proj1 SI) | eapply cur_notin; eassumption|]. intros n [_ W]. apply NK, wcall_chan, W.
Qed.
Lemma close_step : forall s c ch d0 d fs k, reach s -> plain_on ch (tr s) -> 
  cof d0 = cof (dt s) -> chn d0 = chn (dt s) -> nchan d0 = nchan (dt s) -> rtid d0 = rtid (dt s) -> q d0 (QChan ch) = q (dt s) (QChan ch) ->
  do_close ch d0 = (d, fs, k) -> step_out s c ch d.
Proof.
  intros s c ch d0 d fs k RE SI C0 H0 N0 R0 Q0 E.
  assert (CO : close_out ch d0 d).
  { destruct (reach_chinv _ RE) as [(D1 & D2 & D3) _]. apply (close_eff ch d0 d fs k); auto.
    - intros CK. destruct (Nat.lt_ge_cases ch (nchan d0)) as [L|L]; [exact L|]. rewrite N0 in L. apply D2 in L. apply chk_ok in CK; [|lia]. rewrite H0 in CK. lia.
    - rewrite Q0. apply (reach_uniq _ RE).
    - rewrite Q0. eapply chan_nco; eassumption. }
  unfold inq. destruct CO as [QC CE NE|L B QD Q' B' RC NC F1 F2].
  - apply st_quiet.
    + destruct QC as (A1 & A2 & A3 & A4 & A5 & A6). unfold quietc, clo in *. rewrite Q0, H0, N0 in *. repeat split; auto.
    + intros x NX PE. rewrite CE, C0. apply same3_refl.
  - rewrite Q0, H0, N0, C0 in *. apply st_close; auto.
Qed.
Lemma exit_step : forall s c ch a d fs k, reach s -> plain_on ch (tr s) -> gen (cof (dt s) c) = Some ch -> coexit_rest c a (dt s) = (d, fs, k) -> step_out s c ch d.
Proof.
  intros s c ch a d fs k RE SI GE E. unfold coexit_rest in E. set (d1 := set_allcount _ _) in E.
  assert (F1 : cof d1 = cof (dt s) /\ chn d1 = chn (dt s) /\ nchan d1 = nchan (dt s) /\ rtid d1 = rtid (dt s) /\ q d1 = q (dt s)) by (repeat split). destruct F1 as (F1 & F2 & F3 & F4 & F5). clearbody d1.
  assert (AP : forall k y, k = QCancel c \/ k = QJoin c -> In y (q (dt s) k) -> ~ In (NCo (node_co y)) (q (dt s) (QChan ch))).
  { intros kk y KK I1 I2. assert (W : waitq kk) by (destruct KK as [-> | ->]; exact Logic.I). pose proof (pend_apart _ _ (node_co y) kk y RE (or_introl I2) W I1 eq_refl) as D. destruct KK; congruence. }
  destruct (resume_all_keep (QCancel c) (length (q d1 (QCancel c))) d1 ch) as (A1 & A2 & A3 & A4 & A6 & A5); [discriminate | discriminate | rewrite F5; intros y; apply AP; auto|].
  set (d2 := resume_all (QCancel c) _ d1) in *. clearbody d2.
  destruct (resume_all_keep (QJoin c) (length (q d2 (QJoin c))) d2 ch) as (B1 & B2 & B3 & B4 & B6 & B5); [discriminate | discriminate | intros y IY; rewrite A1, F5; apply (AP (QJoin c)); [auto|]; rewrite <- F5; apply A5; [exact IY | discriminate]|].
  set (d3 := resume_all (QJoin c) _ d2) in *. clearbody d3.
  replace (gen (cof d3 c)) with (Some ch) in E by congruence. destruct (do_close ch d3) as [[d4 fs4] k4] eqn:DC. injection E as <- <- <-.
  eapply (close_step s c ch d3); try eassumption; congruence.
Qed.
Lemma async_step : forall s c ch d fs k, reach s -> plain_on ch (tr s) -> gen (cof (dt s) c) = Some ch -> coexit_async c (dt s) = (d, fs, k) -> step_out s c ch d.
Proof.
  intros s c ch d fs k RE SI GE E. unfold coexit_async in E. destruct (cleanups _); [eapply exit_step; eassumption|]. injection E as <- <- <-.
  apply st_quiet; [unfold quietc; cbn; repeat split; auto|]. intros x NE PE. rewrite upco_neq by exact NE. apply same3_refl.
Qed.
Lemma tick_out : forall s c v f b d fs k ch, reach s -> unhurt ch s -> newok ch (dt s) -> cur (sc s) = Some c ->
  hret c f v b (now s) (dt s) = (d, fs, k) -> step_out s c ch d.
Proof.
  intros s c v f b d fs k ch RE SU NW CU E. pose proof (cur_notin _ _ _ RE SU CU) as NI. pose proof (proj1 SU) as SI.
  assert (QU : ~ kret c (dt s) f (QChan ch) -> step_out s c ch d).
  { intros NK. destruct (hret_fp _ _ _ _ _ _ _ _ _ [] E) as (R & P & FP & _). destruct (leave_chn f c (dt s)) as (L1 & L2 & L3).
    destruct (quiet_fp s c _ _ _ _ _ _ ch RE SI NW FP NK NI) as [A B]; auto.
    - intros n [_ W]. exact (wret_chan _ _ W).
    - intros n kk. apply leave_in.
    - apply leave_others.
    - apply st_quiet; assumption. }
  assert (ID : d = dt s -> step_out s c ch d) by (intros ->; apply st_quiet; [apply quietc_refl | intros x _ _; apply same3_refl]).
  assert (GD : gen (cof (dt s) c) = Some ch \/ gen (cof (dt s) c) <> Some ch).
  { destruct (gen (cof (dt s) c)) as [g|]; [|right; discriminate]. destruct (Nat.eq_dec g ch) as [->|]; [auto | right; congruence]. }
  assert (EK : gen (cof (dt s) c) <> Some ch -> ~ exitk c (dt s) (QChan ch)).
  { intros NG [D|[D|(g & A & D)]]; try discriminate D. injection D as <-. contradiction. }
  destruct f; try (apply QU; cbn; intros D; try discriminate D; exact D); cbn [hret] in E.
  - destruct GD as [GD|GD]; [eapply exit_step; eassumption | apply QU; cbn; auto].
  - destruct (_ && _) in E; [|injection E as <- <- <-; auto]. destruct GD as [GD|GD]; [eapply async_step; eassumption | apply QU; cbn; auto].
  - destruct (_ && _) in E; [|injection E as <- <- <-; auto]. destruct GD as [GD|GD]; [eapply async_step; eassumption | apply QU; cbn; auto].
  - injection E as <- <- <-. apply st_quiet; [|intros x _ _; apply same3_refl]. unfold quietc, clo. cbn. unfold nupd. destruct (Nat.eqb_spec ch ch0) as [->|]; cbn; repeat split; auto.
  - destruct (_ =? _) in E; [injection E as <- <- <-; auto|]. destruct (_ && _) in E.
    + destruct GD as [GD|GD]; [eapply async_step; eassumption|]. apply QU. cbn. intros [D|D]; [discriminate D | exact (EK GD D)].
    + eapply (fh_cv_relock c (fun k => k = QMu m) (fun k _ => k = QMu m) _ _ _ _ _ _ _ (fun _ => False)) in E; [|reflexivity | reflexivity].
      destruct E as (R & P & FP & _). destruct (quiet_fp s c _ _ _ _ _ _ ch RE SI NW FP) as [A B]; auto; try discriminate. apply st_quiet; assumption.
  - destruct GD as [GD|GD]; [eapply async_step; eassumption | apply QU; cbn; auto].
Qed.
