(** A call that reports a cancellation was canceled by somebody. *)
From Coq Require Import List ZArith Bool Lia.
From Verif Require Import AATreeSpec AATreeHist Util Runtime SchedInv StepInv StackShape RuntimeSpec TraceInv Immediate Prims StaticInv Footprint QueueInv OwnInv WaitInv DeadlineInv CallInv SpecInv TraceStep Wake Awake AllInv PausedInv DldInv ResultInv JoinInv TimeoutInv CancelInv.
Import ListNotations.
Local Open Scope Z_scope.

Lemma checkdl_can : forall c dl nw d d', checkdl c dl nw d = (ECANCELED, d') -> canceled (cof d c) = true.
Proof.
  intros c dl nw d d' E. unfold checkdl in E. destruct (canceled (cof d c)); [reflexivity|]. cbn in E. exfalso.
  destruct (deadlined (cof d c)); cbn in E; [discriminate E|]. destruct (dl =? MAXI); [discriminate E|]. destruct (_ && _); discriminate E.
Qed.
Lemma call_asked : forall s c o fs k, reach s -> canceled (cof (dt s) c) = true -> asked (call_tr s c o fs k) c.
Proof. intros s c o fs k RE C. eapply asked_mono; [|apply (reach_cn _ RE), C]. intros z. apply (call_tr_old s c o fs k). Qed.
Lemma tick_asked : forall s c v f d fs k x, reach s -> asked (tr s) x -> asked (tick_tr s c v f d fs k) x.
Proof. intros s c v f d fs k x RE C. eapply asked_mono; [|exact C]. intros z. apply (tick_tr_old s c v f d fs k). Qed.

(** ** cond_wait remembers a cancellation while it re-acquires the mutex *)
Definition cvc (s : state) : Prop := forall x w m st, stk (sc s) x = w ++ FCvRelock m ECANCELED :: st -> asked (tr s) x.
Lemma cvc_exec : forall s c d k fs base sch md nc T, reach s -> cur (sc s) = Some c -> cvc s -> (forall z, In z (tr s) -> In z T) ->
  exec c k (set_stk (zupd (stk (sc s)) c (fs ++ base)) (sc s)) = (sch, md) ->
  (forall w m st, fs ++ base = w ++ FCvRelock m ECANCELED :: st -> asked T c) ->
  cvc (mkst sch d md (now s) nc T).
Proof.
  intros s c d k fs base sch md nc T RE CU I SUB X OWN x w m st SX. cbn [sc tr] in *. pose proof (reach_full _ RE) as F.
  pose proof (cur_notfresh _ _ F CU) as NFR.
  destruct (exec_stk_cases _ _ _ _ _ X NFR x) as [[-> Q]|[(_ & _ & _ & Q)|(NE & Q & _)]]; rewrite Q in SX.
  - cbn in SX. rewrite zupd_eq in SX. destruct k; try (eapply OWN; exact SX). destruct w; discriminate SX.
  - destruct w as [|? [|? ?]]; discriminate SX.
  - cbn in SX. rewrite zupd_neq in SX by exact NE. eapply asked_mono; [exact SUB|]. eapply I; exact SX.
Qed.
Theorem reach_cvc : forall s, reach s -> cvc s.
Proof.
  apply rrun_preserves.
  - intros s c o d fs k sch md RE I M CU U NR E X.
    eapply (cvc_exec s c); try eassumption; [intros z; apply (call_tr_old s c o fs k)|]. intros w m st Q. apply norl_split in Q; [|eapply hcall_norl; exact E].
    destruct Q as (w' & Q). destruct w' as [|z w']; [discriminate Q|]. injection Q as _ Q. eapply asked_mono; [|eapply I; exact Q]. intros z0; apply (call_tr_old s c o fs k).
  - intros s c v f rest b d fs k sch md RE I M CU SK L E X.
    eapply (cvc_exec s c); try eassumption; [intros z; apply (tick_tr_old s c v f d fs k)|]. intros w m st Q. apply tick_asked; [exact RE|].
    assert (REST : forall w' st', rest = w' ++ FCvRelock m ECANCELED :: st' -> asked (tr s) c).
    { intros w' st' H. eapply (I c (f :: w')). rewrite SK, H. reflexivity. }
    assert (RL : forall m0 ret e, cv_relock c m0 ret (now s) e = (d, fs, k) -> (ret = ECANCELED -> asked (tr s) c) -> asked (tr s) c).
    { intros m0 ret e Q2 H. apply cv_relock_frames in Q2. destruct Q2 as [(-> & _)|(w2 & -> & NW)]; [eapply REST; exact Q|].
      rewrite <- app_assoc in Q. apply norl_split in Q; [|exact NW]. destruct Q as (w' & Q). destruct w' as [|z w']; injection Q; intros; [|eapply REST; eassumption].
      subst. eapply H; reflexivity. }
    assert (D1 : (exists cv m0, f = FCvWait cv m0) \/ (exists m0 r, f = FCvRelock m0 r) \/ ((forall cv m0, f <> FCvWait cv m0) /\ forall m0 r, f <> FCvRelock m0 r)).
    { destruct f; eauto; right; right; split; discriminate. }
    destruct D1 as [(cv & m0 & ->)|[(m0 & r & ->)|(N1 & N2)]].
    + cbn [hret] in E. unfold cvwait_end in E. destruct (checkdl _ _ _ _) as [v1 d1] eqn:CK. eapply RL; [exact E|]. intros ->.
      apply checkdl_can in CK. apply (reach_cn _ RE). exact CK.
    + cbn [hret] in E. destruct (v =? OK); [inj E; eapply REST; exact Q|]. destruct (_ && _).
      * apply coexit_async_norl in E. apply norl_split in Q; [|exact E]. destruct Q as (w' & Q). eapply REST; exact Q.
      * eapply RL; [exact E|]. intros ->. eapply (I c []). exact SK.
    + apply norl_split in Q; [|eapply hret_norl; eassumption]. destruct Q as (w' & Q). eapply REST; exact Q.
  - intros s d ws sch md ios RE I M A K X x w m st SX. cbn [sc tr] in *.
    apply sco_switch_frame in X. destruct X as (X1 & _). destruct (wakes_frame ws (sc s)) as (W1 & _). rewrite X1, W1 in SX. eapply I; exact SX.
  - intros s m RE I _. exact I.
  - intros s e RE I H M x w m st SX. destruct (env_frame s e H) as (E1 & _). rewrite E1 in SX.
    eapply asked_mono; [|eapply I; exact SX]. intros z. apply env_tr_old, H.
  - intros g O x w m st SX. cbn in SX. unfold zupd in SX. destruct (_ =? _); destruct w as [|? [|? ?]]; discriminate SX.
Qed.

(** ** The results *)
(** the operations whose results are NECO_OK or an error code and that can be canceled *)
Definition cancelable (o : op) : bool :=
  match o with
  | OpSleep _ | OpCancel _ _ | OpWait _ _ _ _ | OpSend _ _ _ | OpRecv _ _ | OpTryRecv _ | OpGenYield _ _ | OpTryLock _ | OpTryRdLock _ | OpLock _ _ | OpRdLock _ _
  | OpWgWait _ _ | OpCvWait _ _ _ | OpJoin _ _ | OpSuspend _ => true
  | _ => false
  end.
Lemma do_send_can : forall c ch m dl d d', do_send c ch m dl d = (d', [], CRet ECANCELED) -> canceled (cof d c) = true.
Proof.
  intros c ch m dl d d' E. unfold do_send in E. destruct (negb _) eqn:B; [destruct (chk_chan_val ch d) as [H|[H|H]]; rewrite H in E; discriminate E|].
  destruct (sclosed _); [discriminate E|]. destruct (canceled _); [reflexivity|]. destruct (send_loop _ _ _ _) as [[r|] d1]; [discriminate E|].
  destruct (_ <? _); [discriminate E|]. apply copause_noret in E. destruct E.
Qed.
Lemma do_recv_can : forall c ch t dl d d', do_recv c ch t dl d = (d', [], CRet ECANCELED) -> canceled (cof d c) = true.
Proof.
  intros c ch t dl d d' E. unfold do_recv in E. destruct (negb _) eqn:B; [destruct (chk_chan_val ch d) as [H|[H|H]]; rewrite H in E; discriminate E|].
  destruct (rclosed _); [discriminate E|]. destruct (canceled _); [reflexivity|]. destruct (take _ _) as [[[? [?|]] ?]|]; try discriminate E.
  destruct t; [discriminate E|]. destruct (copause_noret _ _ _ _ _ _ _ E).
Qed.
Lemma do_trylock_can : forall c m rd nw d d', do_trylock c m rd nw d = (d', [], CRet ECANCELED) -> False.
Proof.
  intros c m rd nw d d' E. unfold do_trylock in E. destruct (check_mu _ _) as [v1 d1] eqn:C. destruct (negb _) eqn:B; [destruct (chk_val _ _ _ _ C); subst; discriminate E|].
  destruct rd; unfold mu_tryrdlock, mu_trylock in E; cbn [OK Z.eqb negb] in E.
  - destruct (_ || _); discriminate E.
  - destruct (mlocked _); discriminate E.
Qed.
Lemma do_lock_can : forall c m rd dl nw d d', do_lock c m rd dl nw d = (d', [], CRet ECANCELED) -> canceled (cof d c) = true.
Proof.
  intros c m rd dl nw d d' E. unfold do_lock in E. destruct (check_mu _ _) as [v1 d1] eqn:C. destruct (negb _) eqn:B; [destruct (chk_val _ _ _ _ C); subst; discriminate E|].
  apply check_mu_cof in C. rewrite <- C.
  destruct rd; unfold mu_tryrdlock, mu_trylock in E; destruct (checkdl _ _ _ _) as [v2 d2] eqn:CK; destruct (negb (v2 =? OK)) eqn:B2.
  + destruct (v2 =? EBUSY); [destruct (copause_noret _ _ _ _ _ _ _ E)|]. injection E as _ ->. eapply checkdl_can; exact CK.
  + destruct (_ || _); cbn in E; [destruct (copause_noret _ _ _ _ _ _ _ E) | discriminate E].
  + destruct (v2 =? EBUSY); [destruct (copause_noret _ _ _ _ _ _ _ E)|]. injection E as _ ->. eapply checkdl_can; exact CK.
  + destruct (mlocked _); cbn in E; [destruct (copause_noret _ _ _ _ _ _ _ E) | discriminate E].
Qed.
Lemma do_cancel_can : forall c id dl nw d d', do_cancel c id dl nw d = (d', [], CRet ECANCELED) -> canceled (cof d c) = true.
Proof.
  intros c id dl nw d d' E. unfold do_cancel in E. destruct (negb _); [discriminate E|]. destruct (checkdl _ _ _ _) as [v1 d1] eqn:CK. destruct (negb _) eqn:B.
  - injection E as _ ->. eapply checkdl_can; exact CK.
  - destruct (cenabled _); [discriminate E | destruct (copause_noret _ _ _ _ _ _ _ E)].
Qed.
Lemma hcall_can : forall c o nw d d', hcall c o nw d = (d', [], CRet ECANCELED) -> cancelable o = true -> canceled (cof d c) = true.
Proof.
  intros c o nw d d' E T. destruct o; try discriminate T; cbn [hcall] in *.
  - unfold do_sleep in E. destruct (dl <? nw) eqn:B; [discriminate E|]. destruct (copause_noret _ _ _ _ _ _ _ E).
  - eapply do_cancel_can; exact E.
  - unfold do_wait in E. destruct (_ && _); [discriminate E|]. destruct fail; [discriminate E|]. destruct (copause_noret _ _ _ _ _ _ _ E).
  - eapply do_send_can; exact E.
  - eapply do_recv_can; exact E.
  - eapply do_recv_can; exact E.
  - unfold do_genyield in E. destruct (gen _); [eapply do_send_can; exact E | discriminate E].
  - destruct (do_trylock_can _ _ _ _ _ _ E).
  - destruct (do_trylock_can _ _ _ _ _ _ E).
  - eapply do_lock_can; exact E.
  - eapply do_lock_can; exact E.
  - unfold do_wgwait in E. destruct (check_wg _ _) as [v1 d1] eqn:C. destruct (negb _) eqn:B; [destruct (chkw_val _ _ _ _ C); subst; discriminate E|].
    apply check_wg_cof in C. destruct (checkdl _ _ _ _) as [v2 d2] eqn:CK. destruct (negb (v2 =? OK)) eqn:B2.
    + injection E as _ ->. rewrite <- C. eapply checkdl_can; exact CK.
    + destruct (_ =? 0); [discriminate E | destruct (copause_noret _ _ _ _ _ _ _ E)].
  - unfold do_cvwait in E. destruct (check_cv _ _) as [v1 d1] eqn:C. destruct (negb _) eqn:B; [destruct (chkc_val _ _ _ _ C); subst; discriminate E|].
    destruct (check_mu _ _) as [v2 d2] eqn:C2. destruct (negb (v2 =? OK)) eqn:B2; [destruct (chk_val _ _ _ _ C2); subst; discriminate E|].
    apply check_mu_cof in C2. unfold check_cv in C. assert (C1 : cof d1 = cof d) by (destruct (_ =? 0); [|destruct (negb _)]; inversion C; reflexivity).
    destruct (canceled (cof d2 c)) eqn:CC; [rewrite C2, C1 in CC; exact CC|]. destruct (fastunlock_nil _ _ _ _ _ _ E).
  - unfold do_join in E. destruct (negb _); [discriminate E|]. destruct (checkdl _ _ _ _) as [v1 d1] eqn:CK. destruct (negb (v1 =? OK)) eqn:B.
    + injection E as _ ->. eapply checkdl_can; eassumption.
    + destruct (_ =? c); [discriminate E | destruct (copause_noret _ _ _ _ _ _ _ E)].
  - unfold do_suspend in E. destruct (copause_noret _ _ _ _ _ _ _ E).
Qed.
Ltac cend E := match type of E with context [checkdl ?a ?b ?c ?d] =>
    let CK := fresh "CK" in destruct (checkdl a b c d) as [? ?] eqn:CK; injection E as _ ->; apply checkdl_can in CK; rewrite ?upco_eq in CK; exact CK end.
Lemma hret_can : forall s c f w b d k o st, reach s -> stk (sc s) c = f :: FApi k o :: st -> lstack (f :: FApi k o :: st) ->
  hret c f w b (now s) (dt s) = (d, [], CRet ECANCELED) -> cancelable o = true -> canceled (cof (dt s) c) = true \/ exists m0, f = FCvRelock m0 ECANCELED.
Proof.
  intros s c f w b d k o st RE SK L E T.
      destruct (api_frame _ _ _ _ _ _ _ _ _ _ _ L E) as [[SH _]|[[-> ->]|(b0 & H)]]; [|discriminate T|discriminate H].
      inversion SH; subst; try discriminate T; cbn [hret] in E; try discriminate E;
        try (match goal with H : pz _ [_] |- _ => inversion H; subst; clear H end); try (match goal with H : yf _ [_] |- _ => inversion H; subst; clear H end); cbn [hret] in E; try discriminate E;
        try (left; cend E).
      + left. unfold sleep_end in E. cbn [cof set_nsleepers] in E. destruct (canceled (cof (dt s) c)); [reflexivity | discriminate E].
      + left. apply do_cancel_can in E. exact E.
      + destruct (_ && _) in E; [destruct (coexit_async_nil _ _ _ _ E) | discriminate E].
      + left. unfold wait_end in E. cend E.
      + left. unfold send_end in E. cend E.
      + left. unfold send_end in E. cend E.
      + left. unfold recv_end in E. destruct (checkdl _ _ _ _) as [v1 d1] eqn:CK. destruct (negb (v1 =? OK)).
        * injection E as _ ->. eapply checkdl_can in CK. exact CK.
        * destruct (cclosed _); discriminate E.
      + left. unfold lock_end in E. cend E.
      + left. unfold lock_end in E. cend E.
      + destruct (_ && _) in E; [destruct (coexit_async_nil _ _ _ _ E) | discriminate E].
      + left. unfold wgwait_end in E. cend E.
      + unfold cvwait_unlocked in E. destruct (copause_noret _ _ _ _ _ _ _ E).
      + left. unfold cvwait_end in E. destruct (checkdl _ _ _ _) as [v1 d1] eqn:CK. apply cv_relock_frames in E. destruct E as [(_ & E)|(w1 & E & _)]; [|destruct w1; discriminate E].
        injection E as <-. apply checkdl_can in CK; exact CK.
      + right. destruct (_ =? OK); [injection E as _ ->; eauto|]. destruct (_ && _) in E; [destruct (coexit_async_nil _ _ _ _ E)|].
        apply cv_relock_frames in E. destruct E as [(_ & E)|(w1 & E & _)]; [|destruct w1; discriminate E]. injection E as <-. eauto.
      + exfalso. match goal with H : pz _ _, Q : _ ++ [_] = [_] |- _ => inversion H; subst; discriminate Q end.
      + left. unfold join_end in E. cend E.
      + left. unfold suspend_end in E. cend E.
Qed.
(** in transit: the canceled result on its way to the caller *)
Lemma canceled_all : forall s, reach s ->
  transit (fun _ => True) (fun _ c o v _ _ T => cancelable o = true -> v = ECANCELED -> asked T c) s /\
  landed (fun _ => True) (fun _ c o v _ _ T => cancelable o = true -> v = ECANCELED -> asked T c) s.
Proof.
  apply result_principle.
  - auto.
  - intros k c o v m n n' t t' S LE Q T V. eapply asked_mono; [exact S | auto].
  - intros s c o d v RE M CU U NR E G T ->. apply call_asked; [exact RE|]. eapply hcall_can; eassumption.
  - intros s c f w b d v k o st RE M CU SK L NH E G T ->. apply tick_asked; [exact RE|].
    destruct (hret_can _ _ _ _ _ _ _ _ _ RE SK L E T) as [C|(m0 & ->)]; [apply (reach_cn _ RE), C|]. eapply (reach_cvc _ RE c []). exact SK.
Qed.
Theorem canceled_result : forall s, reach s ->
  forall l1 l2 k c o m t, tr s = l1 ++ TRet k c o ECANCELED m t :: l2 -> cancelable o = true -> asked l2 c.
Proof.
  intros s RE l1 l2 k c o m t EQ T.
  pose (Q := fun (k : nat) (c : Z) (o : op) (v m t : Z) (T : list obs) => cancelable o = true -> v = ECANCELED -> asked T c).
  assert (P : Q k c o ECANCELED m t l2); [|apply P; auto].
  assert (NH : ~ handing o) by (destruct o; try discriminate T; exact (fun H => H)).
  eapply (result_before (fun _ => True) Q); try eassumption; try exact Logic.I; unfold Q; clear.
  - auto.
  - intros k c o v m n n' t t' S LE Q T V. eapply asked_mono; [exact S | auto].
  - intros s c o d v RE M CU U NR E G T ->. apply call_asked; [exact RE|]. eapply hcall_can; eassumption.
  - intros s c f w b d v k o st RE M CU SK L NH E G T ->. apply tick_asked; [exact RE|].
    destruct (hret_can _ _ _ _ _ _ _ _ _ RE SK L E T) as [C|(m0 & ->)]; [apply (reach_cn _ RE), C|]. eapply (reach_cvc _ RE c []). exact SK.
Qed.
