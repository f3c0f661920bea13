(** Why a waiting coroutine is not paused any more. *)
From Coq Require Import List ZArith Bool Lia.
From Verif Require Import AATreeSpec AATreeHist Util Runtime SchedInv StepInv StackShape RuntimeSpec TraceInv Immediate Prims StaticInv Footprint QueueInv OwnInv WaitInv DeadlineInv CallInv TraceStep Wake.
Import ListNotations.
Local Open Scope Z_scope.

Definition did (x : Z) (p : op -> bool) (t : list obs) : Prop :=
  exists k o tm, In (TCall k x o tm) t /\ p o = true.
Definition isSel (o : op) : bool := match o with OpSelect _ _ => true | _ => false end.
Definition isWork (o : op) : bool := match o with OpWork _ => true | _ => false end.
Lemma did_mono : forall x p t t', did x p t -> (forall z, In z t -> In z t') -> did x p t'.
Proof. intros x p t t' (k & o & tm & I & B) S. exists k, o, tm. auto. Qed.

(** the wait queue in which a waiting frame's coroutine sits with its own node *)
Definition wqid (f : frame) : option qid :=
  match f with
  | FSendWait ch | FRecvWait ch => Some (QChan ch)
  | FLock m => Some (QMu m)
  | FWgWait w => Some (QWg w)
  | FCvWait v _ => Some (QCv v)
  | FJoin id => Some (QJoin id)
  | FCancelWait id _ => Some (QCancel id)
  | _ => None
  end.
Lemma wqid_popq : forall f k, wqid f = Some k -> popq_ok k.
Proof. intros f k E. destruct f; inversion E; subst; exact I. Qed.
Lemma wqid_waitf : forall f k, wqid f = Some k -> waitf f = true.
Proof. intros f k E. destruct f; inversion E; subst; reflexivity. Qed.
Lemma popq_waitq : forall k, popq_ok k -> waitq k.
Proof. intros k P. destruct k; try exact I; destruct P. Qed.

Lemma matched_cases : forall st n k, matched st n k -> popq_ok k ->
  (exists f rest, top st = f :: rest /\ wqid f = Some k /\ n = NCo (node_co n)) \/
  (exists N j chs dl st', top st = FSelWait N :: FApi j (OpSelect chs dl) :: st').
Proof.
  intros st n k M P. unfold matched in M. destruct (top st) as [|f rest]; [destruct M|].
  destruct f; try destruct M as [M1 ->]; try (destruct M; fail); try (left; do 2 eexists; split; [reflexivity|]; split; [reflexivity | exact M1]).
  - destruct P.
  - destruct rest as [|[] rest]; try (destruct M; fail). destruct o; try (destruct M; fail).
    right. eauto 10.
Qed.
Lemma top_sub : forall st f, In f (top st) -> In f st.
Proof. intros st f I. destruct st as [|g st]; [exact I|]. destruct g; try exact I. right. exact I. Qed.
Lemma ustack_topu : forall st f rest, ustack st -> top st = f :: rest -> parkf f = true -> False.
Proof. intros st f rest U T W. inversion U; subst; cbn in T; injection T as <- <-; discriminate. Qed.

(** where entries of the resumption queue and of finished jobs come from *)
Record qres (s : state) : Prop := {
  qr_res : forall x, In (NCo x) (q (dt s) QRes) ->
     (exists f rest k, top (stk (sc s) x) = f :: rest /\ wqid f = Some k) \/ did x isSel (tr s);
  qr_io : forall x, In (NCo x) (q (dt s) QIo) -> did x isWork (tr s);
  qr_fl : forall x, In x (inflight (dt s)) -> did x isWork (tr s)
}.

Lemma quiet_inflight : forall c d d', quiet c d d' -> inflight d' = inflight d.
Proof. intros c d d' [Q _ _]. unfold hard in Q. injection Q; auto. Qed.
Lemma enter_inflight : forall c f d, inflight (enter c f d) = inflight d.
Proof. intros c f d. destruct f; reflexivity. Qed.
Lemma lv_inflight : forall c f d, inflight (lv c f d) = inflight d.
Proof. intros c f d. destruct f; try reflexivity. cbn [lv]. unfold pause_end. cbv zeta. destruct (_ <? _); reflexivity. Qed.
Lemma outc_inflight : forall c W d d' fs k, outc c W d d' fs k ->
  inflight d' = inflight d \/ (inflight d' = inflight d ++ [c] /\ fs = [FWork] /\ k = CPause).
Proof.
  intros c W d d' fs k [Q N K|f rest dl d1 Q WF N WD E| -> -> -> | -> -> ->].
  - left. eapply quiet_inflight; exact Q.
  - left. apply copause_fs in E. rewrite <- (quiet_inflight _ _ _ Q), <- (enter_inflight c f d1).
    destruct E as [(_ & _ & -> & _)|(_ & _ & _ & _ & ->)]; [reflexivity|]. cbv zeta. destruct (_ <? _); reflexivity.
  - right. split; [|auto]. cbn. reflexivity.
  - left. rewrite enter_inflight. reflexivity.
Qed.
Lemma ctl_inflight : forall c n k d, inflight (ctl_dat c n k d) = inflight d.
Proof.
  intros c n k d. destruct k; try reflexivity. cbn [ctl_dat]. unfold spawn_dat, popq, new_chan.
  destruct (q d QPool), isgen; reflexivity.
Qed.

Lemma qres_exec : forall s c d0 d KP (KW : qid -> node -> Prop) R P k st' sch md n nw nc T,
  reach s -> cur (sc s) = Some c -> qres s -> fps c KP KW d0 R P d -> uniq d0 ->
  exec c k (set_stk (zupd (stk (sc s)) c st') (sc s)) = (sch, md) -> n = nextid (sc s) + 1 ->
  (forall n kk, In n (q d0 kk) -> In n (q (dt s) kk)) ->
  (forall kk n, KW kk n -> matched st' n kk /\ forall b, k <> CFinal b) ->
  (forall x, In x (tr s) -> In x T) ->
  (forall j o, In (FApi j o) st' -> exists tm, In (TCall j c o tm) T) ->
  (In (NCo c) (q d0 QRes) -> ((exists f rest k, top st' = f :: rest /\ wqid f = Some k) /\ forall b, k <> CFinal b) \/ did c isSel T) ->
  (forall m kk, waitq kk -> node_co m = c -> In m (q d0 kk) -> matched st' m kk /\ forall b, k <> CFinal b) ->
  (forall x, In x (inflight d) -> In x (inflight (dt s)) \/ (x = c /\ did c isWork T)) ->
  qres (mkst sch (ctl_dat c n k d) md nw nc T).
Proof.
  intros s c d0 d KP KW R P k st' sch md n nw nc T RE CU [I1 I2 I3] FP U0 X -> D0 HKW TM TA OWN OWQ IFL.
  pose proof (reach_full _ RE) as F. pose proof (cur_notfresh _ _ F CU) as NFR.
  assert (TOPN : (exists f rest k, top st' = f :: rest /\ wqid f = Some k) /\ (forall b, k <> CFinal b) ->
     exists f rest k, top (stk sch c) = f :: rest /\ wqid f = Some k).
  { intros [H NF]. destruct (exec_stk_cases _ _ _ _ _ X NFR c) as [[_ Q]|[(? & _)|(? & _)]]; [|contradiction|contradiction].
    rewrite Q. cbn. rewrite zupd_eq. destruct k; try exact H. destruct (NF tomain eq_refl). }
  assert (OTH : forall x, x <> c -> stk (sc s) x <> [] -> stk sch x = stk (sc s) x).
  { intros x NE AL. destruct (exec_stk_cases _ _ _ _ _ X NFR x) as [[? _]|[(_ & -> & _)|(_ & Q & _)]]; [contradiction| |].
    - cbn in AL. rewrite stk_fresh in AL by exact F. contradiction.
    - rewrite Q. cbn. apply zupd_neq. exact NE. }
  assert (MC : forall m kk, matched st' m kk -> popq_ok kk -> (forall b, k <> CFinal b) ->
     (exists f rest k, top (stk sch c) = f :: rest /\ wqid f = Some k) \/ did c isSel T).
  { intros m kk MA PO NF. destruct (matched_cases _ _ _ MA PO) as [(f & rest & A & B & _)|(N & j & chs & dl & st2 & A)].
    - left. apply TOPN. eauto 6.
    - right. destruct (TA j (OpSelect chs dl)) as (tm & B); [apply top_sub; rewrite A; right; left; reflexivity|].
      exists j, (OpSelect chs dl), tm. auto. }
  split; cbn [sc dt tr].
  - intros x IN. apply ctl_sysq in IN; [|exact I]. destruct IN as [IN|(? & _)]; [|discriminate].
    destruct (fps_res_in _ _ _ _ _ _ _ FP (NCo x) QRes I IN) as [IO|(_ & r & Q & IR)].
    + destruct (Z.eq_dec x c) as [->|NE]; [destruct (OWN IO) as [H|H]; [left; apply TOPN; exact H | right; exact H]|].
      destruct (I1 x (D0 _ _ IO)) as [(f & rest & kk & A & B)|H]; [|right; eapply did_mono; eassumption].
      left. exists f, rest, kk. split; [|exact B]. rewrite OTH; [exact A | exact NE|]. intros Z. rewrite Z in A. discriminate.
    + injection Q as <-. destruct (fps_taken _ _ _ _ _ _ _ FP U0 x IR) as (kk & m & _ & PO & NC & [IM|[-> W]] & _).
      * destruct (Z.eq_dec x c) as [->|NE]; [destruct (OWQ m kk (popq_waitq _ PO) NC IM); eapply MC; eassumption|].
        pose proof (reach_qloc _ RE m kk (popq_waitq _ PO) (D0 _ _ IM)) as MA. rewrite NC in MA.
        destruct (matched_cases _ _ _ MA PO) as [(f & rest & A & B & _)|(N & j & chs & dl & st2 & A)].
        -- left. exists f, rest, kk. split; [|exact B]. rewrite OTH; [exact A | exact NE|]. intros Z. rewrite Z in A. discriminate.
        -- right. destruct (ci_open _ (reach_cinv _ RE) x j (OpSelect chs dl)) as (tm & B & _); [apply top_sub; rewrite A; right; left; reflexivity|].
           exists j, (OpSelect chs dl), tm. auto.
      * destruct (HKW _ _ W). eapply MC; eassumption.
  - intros x IN. apply ctl_sysq in IN; [|exact I]. destruct IN as [IN|(? & _)]; [|discriminate].
    destruct (fps_res_in _ _ _ _ _ _ _ FP (NCo x) QIo I IN) as [IO|(? & _)]; [|discriminate].
    eapply did_mono; [apply I2, D0, IO | exact TM].
  - intros x IN. rewrite ctl_inflight in IN. destruct (IFL x IN) as [H|[-> H]]; [eapply did_mono; [apply I3, H | exact TM] | exact H].
Qed.

Lemma leave_uniq : forall f c d, uniq d -> uniq (leave f c d).
Proof.
  intros f c d U. assert (RC : forall n d, uniq d -> uniq (rm_cases c n d)) by (induction n as [|n IH]; intros e V; cbn [rm_cases]; auto using uniq_rmq).
  destruct f; cbn [leave]; auto using uniq_rmq.
Qed.
(** open calls after a call or a continuation of [c] *)
Lemma open_call : forall s c o d fs k nw, reach s -> hcall c o nw (dt s) = (d, fs, k) -> forall j oo,
  In (FApi j oo) (fs ++ FApi (ncalls s) o :: stk (sc s) c) -> exists tm, In (TCall j c oo tm) (call_tr s c o fs k).
Proof.
  intros s c o d fs k nw RE E j oo IN. apply in_app_or in IN. destruct IN as [IN|[IN|IN]].
  - exfalso. eapply hcall_noapi; eassumption.
  - inj IN. eexists. apply call_tr_new.
  - destruct (ci_open _ (reach_cinv _ RE) _ _ _ IN) as (tm & H & _). exists tm. apply call_tr_old, H.
Qed.
Lemma open_tick : forall s c f v b d fs k nw rest, reach s -> lstack (f :: rest) -> stk (sc s) c = f :: rest -> hret c f v b nw (dt s) = (d, fs, k) -> forall j oo,
  In (FApi j oo) (fs ++ rest) -> exists tm, In (TCall j c oo tm) (tick_tr s c v f d fs k).
Proof.
  intros s c f v b d fs k nw rest RE L SK E j oo IN. apply in_app_or in IN. destruct IN as [IN|IN].
  - exfalso. exact (tick_noapi _ _ _ _ _ _ _ _ _ _ L E j oo IN).
  - destruct (ci_open _ (reach_cinv _ RE) c j oo) as (tm & H & _); [rewrite SK; right; exact IN|]. exists tm. apply tick_tr_old, H.
Qed.
Lemma CPause_nf : forall b, CPause <> CFinal b. Proof. discriminate. Qed.
Theorem reach_qres : forall s, reach s -> qres s.
Proof.
  apply rrun_preserves.
  - intros s c o d fs k sch md RE I M CU U NR E X.
    destruct (hcall_fp _ _ _ _ _ _ _ (ncalls s) (stk (sc s) c) E) as (R & P & FP & _).
    eapply (qres_exec s c (dt s) d) with (T := call_tr s c o fs k); try eassumption; try reflexivity.
    + apply reach_uniq, RE.
    + auto.
    + intros kk n [[A B] _]. split; [exact B|]. intros b ->. apply A. eapply hcall_final; exact E.
    + intros x. apply call_tr_old.
    + eapply open_call; eassumption.
    + intros IN. right. destruct (qr_res _ I _ IN) as [(f & rest & kk & A & B)|H]; [|eapply did_mono; [exact H | intros z; apply call_tr_old]].
      exfalso. eapply ustack_topu; [exact U | exact A | destruct f; inversion B; reflexivity].
    + intros m kk W NC IN. exfalso. pose proof (reach_qloc _ RE m kk W IN) as MA. rewrite NC in MA. eapply ustack_top; eassumption.
    + intros x IN. destruct (outc_inflight _ _ _ _ _ _ (hcall_out _ _ _ _ _ _ _ E)) as [Q|(Q & -> & ->)]; rewrite Q in IN; [auto|].
      apply in_app_or in IN. destruct IN as [IN|[<-|[]]]; [auto|]. right. split; [reflexivity|].
      pose proof (call_lstack _ _ _ _ _ _ _ (ncalls s) _ E U CPause_nf) as L. destruct (lstack_host _ _ L eq_refl) as [(j & oo & st & Q1 & _ & H)|(? & ? & ? & ? & ? & ? & ? & _)]; [|discriminate].
      injection Q1 as <- <- _. exists (ncalls s), o, (now s). split; [apply call_tr_new | destruct o; destruct H; reflexivity].
  - intros s c v f rest b d fs k sch md RE I M CU SK L E X.
    destruct (hret_fp _ _ _ _ _ _ _ _ _ rest E) as (R & P & FP & _).
    assert (OQ : forall m kk, waitq kk -> node_co m = c -> In m (q (leave f c (dt s)) kk) -> matched (fs ++ rest) m kk /\ forall b, k <> CFinal b).
    { intros m kk W NC IN. pose proof (reach_qloc _ RE m kk W (leave_in _ _ _ _ _ IN)) as MA. rewrite NC, SK in MA.
      assert (NP : f = FPause \/ f <> FPause) by (destruct f; auto; right; discriminate).
      destruct NP as [->|NP]; [|exfalso; eapply leave_gone; eassumption].
      cbn in E. inj E. cbn [app]. split; [|discriminate]. destruct rest as [|[] rest]; try exact MA. destruct MA. }
    eapply (qres_exec s c (leave f c (dt s)) d) with (T := tick_tr s c v f d fs k); try eassumption; try reflexivity.
    + apply leave_uniq, reach_uniq, RE.
    + intros n kk. apply leave_in.
    + intros kk n [[A B] _]. split; [exact B|]. intros b0 ->. apply A. eapply hret_final; exact E.
    + intros x. apply tick_tr_old.
    + eapply open_tick; eassumption.
    + intros IN. pose proof (leave_in _ _ _ _ _ IN) as IN0.
      destruct (qr_res _ I _ IN0) as [(f0 & rest0 & kk & A & B)|H]; [|right; eapply did_mono; [exact H | intros z; apply tick_tr_old]].
      rewrite SK in A.
      assert (NP : f = FPause \/ f <> FPause) by (destruct f; auto; right; discriminate).
      destruct NP as [->|NP].
      * cbn in A. subst rest. cbn in E. inj E. left. split; [|discriminate]. cbn [app]. exists f0, rest0, kk. split; [|exact B].
        destruct f0; try reflexivity; discriminate B.
      * exfalso. assert (Q : f0 = f) by (destruct f; cbn in A; congruence). subst f0.
        destruct f; try discriminate B; cbn [leave] in IN; apply In_rmq in IN; tauto.
    + intros x IN. destruct (hret_out _ _ _ _ _ _ _ _ _ E) as (d1 & Q1 & O).
      destruct (outc_inflight _ _ _ _ _ _ O) as [Q|(Q & -> & ->)]; rewrite Q, lv_inflight, (quiet_inflight _ _ _ Q1) in IN; [auto|].
      apply in_app_or in IN. destruct IN as [IN|[<-|[]]]; [auto|]. right. split; [reflexivity|].
      pose proof (tick_lstack _ _ _ _ _ _ _ _ _ _ E L CPause_nf) as L2. destruct (lstack_host _ _ L2 eq_refl) as [(j & oo & st & Q2 & _ & H)|(? & ? & ? & ? & ? & ? & ? & _)]; [|discriminate].
      destruct (ci_open _ (reach_cinv _ RE) c j oo) as (tm & H1 & _); [rewrite SK; right; rewrite Q2; left; reflexivity|].
      exists j, oo, tm. split; [apply tick_tr_old, H1 | destruct oo; destruct H; reflexivity].
  - intros s d ws sch md ios RE [I1 I2 I3] M A K X.
    pose proof (mp_main _ _ _ _ _ _ _ K) as MP.
    apply sco_switch_frame in X. destruct X as (X1 & _). destruct (wakes_frame ws (sc s)) as (W1 & _).
    split; cbn [set_sc set_dt set_mode sc dt tr].
    + intros x IN. rewrite X1, W1. apply I1. eapply mprims_sysq; [exact MP | exact I | exact IN].
    + intros x IN. apply I2. eapply mprims_sysq; [exact MP | exact I | exact IN].
    + intros x IN. apply I3. destruct (mprims_evs _ _ MP) as (_ & _ & <-). exact IN.
  - intros s m RE [I1 I2 I3] _. split; assumption.
  - intros s e RE [I1 I2 I3] H M. destruct (env_frame s e H) as (E1 & _).
    assert (TM : forall z, In z (tr s) -> In z (tr (step s e))) by (intros z; apply env_tr_old, H).
    assert (IF : forall x, In x (inflight (dt (step s e))) -> In x (inflight (dt s))).
    { intros x IN. destruct e; try contradiction; cbn in IN;
      repeat match goal with H : context [if ?b then _ else _] |- _ => destruct b | H : context [match mode ?z with _ => _ end] |- _ => destruct (mode z)
        | H : context [match stk (sc ?z) ?c with _ => _ end] |- _ => destruct (stk (sc z) c) as [|[] ?] end; try exact IN;
      cbn in IN; clear -IN; revert IN; induction (inflight (dt s)) as [|y l IH]; cbn; auto; destruct (c =? y); cbn; intuition. }
    split.
    + intros x IN. rewrite E1. destruct (I1 x) as [G|G]; [|left; exact G|right; eapply did_mono; eassumption].
      destruct (env_q s e H) as [Q|(c & _ & _ & _ & Q)]; rewrite Q in IN; [exact IN|].
      apply In_pushq in IN. destruct IN as [[IN _]|[? _]]; [exact IN | discriminate].
    + intros x IN. destruct (env_q s e H) as [Q|(c & _ & ME & _ & Q)]; rewrite Q in IN; [eapply did_mono; [apply I2, IN | exact TM]|].
      apply In_pushq in IN. destruct IN as [[IN _]|[_ Q2]]; [eapply did_mono; [apply I2, IN | exact TM]|].
      injection Q2 as <-. eapply did_mono; [apply I3, mem_In, ME | exact TM].
    + intros x IN. eapply did_mono; [apply I3, IF, IN | exact TM].
  - intros g O. split; cbn; intros x [].
Qed.

(** ** Awake *)
Definition woken (s : state) (x : Z) (f : frame) (rest : list frame) : Prop :=
  match f with
  | FSleep => did x isSel (tr s) \/ did x isWork (tr s)
  | FSuspend => did x isSel (tr s) \/ did x isWork (tr s) \/
      exists k o st, rest = FApi k o :: st /\ exists k' c' tm, (k < k')%nat /\ In (TCall k' c' (OpResume x) tm) (tr s)
  | _ => match wqid f with Some k => ~ In (NCo x) (q (dt s) k) | None => True end
  end.
Definition awake (s : state) : Prop := forall x f rest, top (stk (sc s) x) = f :: rest -> waitf f = true ->
  In x (paused (sc s)) \/ canceled (cof (dt s) x) = true \/ deadlined (cof (dt s) x) = true \/ woken s x f rest.

Lemma woken_mono : forall s s' x f rest, woken s x f rest -> (forall z, In z (tr s) -> In z (tr s')) ->
  (forall k, popq_ok k -> In (NCo x) (q (dt s') k) -> In (NCo x) (q (dt s) k)) -> woken s' x f rest.
Proof.
  intros s s' x f rest W TM QM. unfold woken in *. destruct f; cbn [wqid] in *; auto;
    try (intros IN; apply W; apply QM; [exact I | exact IN]).
  - destruct W as [W|W]; [left|right]; eapply did_mono; eassumption.
  - destruct W as [W|[W|(k & o & st & E & k' & c' & tm & L & W)]]; [left; eapply did_mono; eassumption | right; left; eapply did_mono; eassumption|].
    right; right. exists k, o, st. split; [exact E|]. exists k', c', tm. auto.
Qed.
Lemma cur_notpaused : forall s c, full s -> cur (sc s) = Some c -> ~ In c (paused (sc s)).
Proof.
  intros s c [[SI _] _] CU IN. pose proof (si_nodup _ SI) as ND. unfold everyone, curl in ND. rewrite CU in ND. cbn in ND.
  apply NoDup_cons_iff in ND. destruct ND as [ND _]. apply ND. unfold parked. rewrite !in_app_iff. auto.
Qed.
Lemma ctl_flags : forall c n k d x, x <> n -> canceled (cof (ctl_dat c n k d) x) = canceled (cof d x) /\ deadlined (cof (ctl_dat c n k d) x) = deadlined (cof d x).
Proof.
  intros c n k d x N. destruct k; cbn [ctl_dat]; auto.
  rewrite spawn_cof by exact N. destruct (x =? c); destruct isgen; auto.
Qed.
Lemma ctl_wq : forall c n k d x kk, waitq kk -> In x (q (ctl_dat c n k d) kk) -> In x (q d kk).
Proof.
  intros c n k d x kk W IN. destruct k; cbn [ctl_dat] in IN; try exact IN.
  - eapply spawn_q; exact IN.
  - unfold final_dat in IN. cbn [q set_npool] in IN. apply In_pushq in IN. destruct IN as [[IN _]|[-> _]]; [exact IN | destruct W].
Qed.

(** one step of [c], seen by another coroutine *)
Lemma awake_other : forall s c d0 d KP (KW : qid -> node -> Prop) R P k st' sch md n nw nc T (XP : Z -> Prop),
  reach s -> cur (sc s) = Some c -> awake s -> fps c KP KW d0 R P d -> uniq d0 ->
  exec c k (set_stk (zupd (stk (sc s)) c st') (sc s)) = (sch, md) -> n = nextid (sc s) + 1 ->
  (forall m kk, In m (q d0 kk) -> In m (q (dt s) kk)) -> (forall x, x <> c -> cof d0 x = cof (dt s) x) ->
  (forall id, k = CResume id -> In id R \/ XP id) ->
  (forall x, In x (tr s) -> In x T) ->
  (forall x, x <> c -> XP x -> canceled (cof d x) = true \/
     (suspended (cof (dt s) x) = true /\ exists k' c' tm, In (TCall k' c' (OpResume x) tm) T /\ forall k0 o0, In (FApi k0 o0) (stk (sc s) x) -> (k0 < k')%nat)) ->
  let s' := mkst sch (ctl_dat c n k d) md nw nc T in
  forall x f rest, x <> c -> top (stk sch x) = f :: rest -> waitf f = true ->
  In x (paused sch) \/ canceled (cof (dt s') x) = true \/ deadlined (cof (dt s') x) = true \/ woken s' x f rest.
Proof.
  intros s c d0 d KP KW R P k st' sch md n nw nc T XP RE CU I FP U0 X -> D0 C0 HK TM HX s' x f rest NE TP WF.
  pose proof (reach_full _ RE) as F. pose proof (cur_notfresh _ _ F CU) as NFR.
  destruct (exec_stk_cases _ _ _ _ _ X NFR x) as [[? _]|[(_ & _ & _ & Q)|(_ & Q & _)]]; [contradiction| |].
  { rewrite Q in TP. injection TP as <- <-. discriminate. }
  rewrite Q in TP. cbn in TP. rewrite zupd_neq in TP by exact NE.
  assert (NX : x <> nextid (sc s) + 1). { intros ->. rewrite stk_fresh in TP by exact F. discriminate. }
  destruct (ctl_flags c _ k d x NX) as [CF1 CF2]. cbn [dt s'].
  rewrite CF1, CF2. destruct (fps_still _ _ _ _ _ _ _ FP x NE) as [ST1 ST2]. rewrite C0 in ST1, ST2 by exact NE.
  assert (DL : deadlined (cof d x) = deadlined (cof (dt s) x)) by (rewrite ST1; destruct (cof (dt s) x); reflexivity).
  rewrite DL.
  assert (QM : forall kk, popq_ok kk -> In (NCo x) (q (dt s') kk) -> In (NCo x) (q (dt s) kk)).
  { intros kk PO IN. cbn in IN. apply ctl_wq in IN; [|apply popq_waitq, PO].
    destruct (fps_q_in _ _ _ _ _ _ _ FP _ _ (popq_waitq _ PO) IN) as [J|[J _]]; [apply D0, J | cbn in J; contradiction]. }
  destruct (I x f rest TP WF) as [IP|[IC|[ID|IW]]]; [|auto|auto|right; right; right; eapply woken_mono; [exact IW | exact TM | exact QM]].
  assert (DR : k = CResume x \/ k <> CResume x).
  { destruct k; try (right; discriminate). destruct (Z.eq_dec id x) as [->|]; [left; reflexivity | right; congruence]. }
  destruct DR as [KR|KR]; [|left; eapply exec_paused_in; [exact X | exact IP | exact KR]].
  right. destruct (HK x KR) as [IR|XR].
  - destruct (fps_taken _ _ _ _ _ _ _ FP U0 x IR) as (kk & m & _ & PO & NC & [IM|[? _]] & GO); [|contradiction].
    right; right. pose proof (reach_qloc _ RE m kk (popq_waitq _ PO) (D0 _ _ IM)) as MA. rewrite NC in MA.
    destruct (matched_cases _ _ _ MA PO) as [(f0 & rest0 & A & B & CN)|(N & j & chs & dl & st2 & A)]; rewrite TP in A; injection A as A1 A2; subst f rest.
    + assert (GOAL : ~ In (NCo x) (q (dt s') kk)).
      { intros IN. cbn in IN. apply ctl_wq in IN; [|apply popq_waitq, PO]. rewrite NC in CN. rewrite <- CN in IN. exact (GO NE kk (popq_waitq _ PO) IN). }
      unfold woken. destruct f0; try discriminate B; rewrite B; exact GOAL.
    + exact Logic.I.
  - destruct (HX x NE XR) as [H|(H & k' & c' & tm & IT & LT)]; [auto|]. right; right.
    destruct (reach_bk _ RE x) as [_ _ BS _]. apply BS in H.
    assert (f = FSuspend).
    { pose proof (reach_wsh _ RE x) as W. destruct (stk (sc s) x) as [|g st]; [discriminate TP|].
      inversion W as [s0 N|g0 s0 A N|g0 s0 A N|g0 s0 A N]; subst.
      - exfalso. specialize (N _ H). discriminate N.
      - destruct H as [H|H]; [subst; cbn in TP; congruence | specialize (N _ H); discriminate N].
      - destruct H as [H|[H|H]]; [discriminate H | subst; cbn in TP; congruence | specialize (N _ H); discriminate N].
      - destruct H as [H|H]; [destruct A; congruence | specialize (N _ H); discriminate N]. }
    subst f. cbn. right; right.
    assert (L : lstack (FSuspend :: rest)).
    { rewrite <- TP. apply lstack_top, live_lstack; [exact F|]. intros Z. rewrite Z in TP. discriminate. }
    destruct (lstack_host _ _ L eq_refl) as [(j & oo & st & Q2 & _)|(? & ? & ? & ? & ? & ? & ? & _)]; [|discriminate].
    exists j, oo, st. split; [exact Q2|]. exists k', c', tm. split; [|exact IT]. eapply LT. apply top_sub. rewrite TP, Q2. right. left. reflexivity.
Qed.
(** and by itself *)
Lemma awake_own : forall c W d d' fs k base sch md s0 n, outc c W d d' fs k -> nowait base -> c <> n ->
  exec c k (set_stk (zupd (stk s0) c (fs ++ base)) s0) = (sch, md) -> n = nextid s0 + 1 ->
  forall f rest, top (stk sch c) = f :: rest -> waitf f = true ->
  In c (paused sch) \/ canceled (cof (ctl_dat c n k d') c) = true \/ deadlined (cof (ctl_dat c n k d') c) = true.
Proof.
  intros c W d d' fs k base sch md s0 n O NB NX X EN f rest TP WF.
  destruct (exec_stk_cases _ _ _ _ _ X) with (x := c) as [[_ Q]|[(? & _)|(? & _)]]; [cbn; congruence | | contradiction | contradiction].
  rewrite Q in TP. cbn in TP. rewrite zupd_eq in TP.
  destruct (ctl_flags c n k d' c NX) as [CF1 CF2]. rewrite CF1, CF2.
  assert (TP2 : top (fs ++ base) = f :: rest) by (destruct k; try exact TP; discriminate TP). clear TP.
  destruct O as [Q1 N K|g r dl d1 Q1 WG N WD E|E1 -> ->|E1 -> ->].
  - exfalso. assert (NW : nowait (fs ++ base)) by (apply nowait_app; assumption).
    assert (IN : In f (fs ++ base)) by (apply top_sub; rewrite TP2; left; reflexivity).
    specialize (NW f IN). destruct f; discriminate.
  - apply copause_fs in E. destruct E as [(-> & -> & -> & B)|(-> & -> & _)].
    + apply orb_true_iff in B. destruct B; auto.
    + left. apply exec_paused in X. rewrite X. apply in_or_app. right. left. reflexivity.
  - cbn in TP2. injection TP2 as <- <-. discriminate.
  - cbn in TP2. injection TP2 as <- <-. discriminate.
Qed.
Lemma leave_cof : forall f c d, cof (leave f c d) = cof d.
Proof.
  intros f c d. assert (RC : forall n d, cof (rm_cases c n d) = cof d) by (induction n as [|n IH]; intros e; cbn [rm_cases]; [reflexivity | rewrite IH; reflexivity]).
  destruct f; cbn [leave]; auto.
Qed.
Theorem reach_awake : forall s, reach s -> awake s.
Proof.
  apply rrun_preserves.
  - intros s c o d fs k sch md RE I M CU U NR E X x f rest TP WF. cbn [sc] in TP. pose proof (reach_full _ RE) as F.
    pose proof (cur_notfresh _ _ F CU) as NFR.
    destruct (Z.eq_dec x c) as [->|NE].
    + assert (H : In c (paused sch) \/ canceled (cof (ctl_dat c (nextid (sc s) + 1) k d) c) = true \/ deadlined (cof (ctl_dat c (nextid (sc s) + 1) k d) c) = true).
      { eapply awake_own; [eapply hcall_out; exact E | | |exact X|reflexivity|exact TP|exact WF].
        - apply nowait_cons; [reflexivity|]. apply ustack_nowait; [apply reach_wsh, RE | exact U].
        - auto. }
      cbn [sc dt]. tauto.
    + destruct (hcall_fp _ _ _ _ _ _ _ (ncalls s) (stk (sc s) c) E) as (R & P & FP & HR & _).
      eapply (awake_other s c (dt s) d _ _ R P k) with (T := call_tr s c o fs k); try eassumption; try reflexivity; auto.
      * apply reach_uniq, RE.
      * intros z. apply call_tr_old.
      * intros y NY XC. destruct o; cbn in XC; try contradiction; destruct XC as [-> XC]; [left; exact XC|].
        right. split; [exact XC|]. exists (ncalls s), c, (now s). split; [apply call_tr_new|].
        intros k0 o0 IN. destruct (ci_open _ (reach_cinv _ RE) _ _ _ IN) as (tm & IT & _). apply (ci_lt _ (reach_cinv _ RE)) in IT. lia.
  - intros s c v f0 rest0 b d fs k sch md RE I M CU SK L E X x f rest TP WF. cbn [sc] in TP. pose proof (reach_full _ RE) as F.
    pose proof (cur_notfresh _ _ F CU) as NFR.
    destruct (Z.eq_dec x c) as [->|NE].
    + assert (NP : f0 = FPause \/ f0 <> FPause) by (destruct f0; auto; right; discriminate).
      destruct NP as [->|NP].
      * cbn in E. inj E. cbn [exec] in X. inj X. cbn in TP. rewrite zupd_eq in TP. cbn [sc dt].
        destruct (wsh_pause rest0) as (g & st' & -> & Wg & _); [rewrite <- SK; apply reach_wsh, RE|].
        assert (TG : top (g :: st') = g :: st') by (destruct g; try reflexivity; discriminate Wg).
        rewrite TG in TP. injection TP as <- <-.
        destruct (I c g st') as [IP|[IC|[ID|IW]]].
        -- rewrite SK. reflexivity.
        -- exact Wg.
        -- exfalso. eapply cur_notpaused; eassumption.
        -- right; left. cbn [ctl_dat]. revert IC. unfold pause_end. cbv zeta. destruct (_ <? _); cbn; rewrite zupd_eq; auto.
        -- right; right; left. cbn [ctl_dat]. revert ID. unfold pause_end. cbv zeta. destruct (_ <? _); cbn; rewrite zupd_eq; auto.
        -- right; right; right. eapply woken_mono; [exact IW| |].
           ++ intros z. apply (tick_tr_old s c v FPause (pause_end c (dt s)) [] (CRet 0)).
           ++ intros kk PO. cbn [ctl_dat dt]. unfold pause_end. cbv zeta. destruct (_ <? _); auto.
      * destruct (hret_out _ _ _ _ _ _ _ _ _ E) as (d1 & Q1 & O).
        assert (H : In c (paused sch) \/ canceled (cof (ctl_dat c (nextid (sc s) + 1) k d) c) = true \/ deadlined (cof (ctl_dat c (nextid (sc s) + 1) k d) c) = true).
        { eapply awake_own; [exact O | | |exact X|reflexivity|exact TP|exact WF].
          - eapply wsh_tl; [|exact NP]. rewrite <- SK. apply reach_wsh, RE.
          - auto. }
        cbn [sc dt]. tauto.
    + destruct (hret_fp _ _ _ _ _ _ _ _ _ rest0 E) as (R & P & FP & HR & _).
      eapply (awake_other s c (leave f0 c (dt s)) d _ _ R P k) with (T := tick_tr s c v f0 d fs k); try eassumption; try reflexivity; auto.
      * apply leave_uniq, reach_uniq, RE.
      * intros m kk. apply leave_in.
      * intros y _. rewrite leave_cof. reflexivity.
      * intros z. apply tick_tr_old.
      * intros y NY XC. destruct f0; cbn in XC; try contradiction; destruct XC as [-> XC]; left; exact XC.
  - intros s d ws sch md ios RE I M A K X x f rest TP WF. cbn [set_sc set_dt set_mode sc dt] in *.
    pose proof (mp_main _ _ _ _ _ _ _ K) as MP. pose proof X as X0.
    apply sco_switch_frame in X. destruct X as (X1 & _). destruct (wakes_frame ws (sc s)) as (W1 & _). rewrite X1, W1 in TP.
    destruct (mprims_flags _ _ x MP) as [MF1 MF2]. rewrite MF1.
    destruct (I x f rest TP WF) as [IP|[IC|[ID|IW]]].
    + destruct (in_dec Z.eq_dec x ws) as [IN|NI]; [|left; rewrite (switch_paused _ _ _ _ X0); apply wakes_paused; assumption].
      right. pose proof (reach_uniq _ RE) as [_ UL]. pose proof (reach_sysok _ RE) as SO.
      assert (QW : forall kk, popq_ok kk -> q (rc_step (now s) d) kk = q (dt s) kk) by (intros kk PO; apply (mprims_wq _ _ _ MP); apply popq_waitq, PO).
      assert (NOQ : forall kk, sysq kk -> In (NCo x) (q (dt s) kk) -> forall k0, popq_ok k0 -> ~ In (NCo x) (q (rc_step (now s) d) k0)).
      { intros kk SQ J k0 PO J2. rewrite QW in J2 by exact PO. assert (kk = k0) by (eapply UL; eassumption). subst. destruct k0; first [exact SQ | exact PO]. }
      destruct (main_ws _ _ _ _ _ K IN) as [(n & J & NC)|[(n & J & NC)|[(fd & kd & J)|[(n & J & NC)|[J _]]]]].
      * right; right. destruct (so_nco _ _ SO n QRes Logic.I J) as (y & ->). cbn in NC. subst y.
        destruct (qr_res _ (reach_qres _ RE) x J) as [(f1 & rest1 & kk & A1 & B1)|H].
        -- rewrite TP in A1. injection A1 as <- <-. assert (G := NOQ QRes Logic.I J kk (wqid_popq _ _ B1)).
           unfold woken. destruct f; try discriminate B1; rewrite B1; exact G.
        -- unfold woken. destruct f; cbn [wqid]; auto; try (apply (NOQ QRes Logic.I J); exact Logic.I).
      * right; right. destruct (so_nco _ _ SO n QIo Logic.I J) as (y & ->). cbn in NC. subst y.
        pose proof (qr_io _ (reach_qres _ RE) x J) as H.
        unfold woken. destruct f; cbn [wqid]; auto; try (apply (NOQ QIo Logic.I J); exact Logic.I).
      * right; right. destruct (reach_bk _ RE x) as [BE _ _ _]. apply BE in J.
        assert (f = FEvWait fd kd).
        { pose proof (reach_wsh _ RE x) as W. destruct (stk (sc s) x) as [|g st]; [discriminate TP|].
          inversion W as [s0 N|g0 s0 A0 N|g0 s0 A0 N|g0 s0 A0 N]; subst.
          - exfalso. specialize (N _ J). discriminate N.
          - destruct J as [J|J]; [subst; cbn in TP; congruence | specialize (N _ J); discriminate N].
          - destruct J as [J|[J|J]]; [discriminate J | subst; cbn in TP; congruence | specialize (N _ J); discriminate N].
          - destruct J as [J|J]; [destruct A0; congruence | specialize (N _ J); discriminate N]. }
        subst f. exact Logic.I.
      * right; right. pose proof (reach_qloc _ RE n QSig Logic.I J) as MA. rewrite NC in MA. unfold matched in MA. rewrite TP in MA.
        destruct f; try (destruct MA as [_ ?]; discriminate); try (destruct MA; fail); try exact Logic.I.
      * auto.
    + auto.
    + auto.
    + right; right; right. eapply woken_mono; [exact IW | auto |]. cbn [dt set_sc set_dt set_mode]. intros kk PO.
      rewrite (mprims_wq _ _ _ MP (popq_waitq _ PO)). auto.
  - intros s m RE I _. exact I.
  - intros s e RE I H M x f rest TP WF. destruct (env_frame s e H) as (E1 & _ & _ & _ & E5). rewrite E1 in TP.
    rewrite E5, (env_cof s e H). destruct (I x f rest TP WF) as [IP|[IC|[ID|IW]]]; auto.
    right; right; right. eapply woken_mono; [exact IW | intros z; apply env_tr_old, H|].
    intros kk PO IN. destruct (env_q s e H) as [Q|(c & _ & _ & _ & Q)]; rewrite Q in IN; [exact IN|].
    apply In_pushq in IN. destruct IN as [[IN _]|[-> _]]; [exact IN | destruct PO].
  - intros g O x f rest TP WF. cbn in TP. unfold zupd in TP. destruct (_ =? _); [injection TP as <- <-; discriminate | discriminate].
Qed.
