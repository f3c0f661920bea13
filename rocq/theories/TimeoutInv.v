(** When a call reports a timeout, its deadline has passed. *)
From Coq Require Import List ZArith Bool Lia.
From Verif Require Import AATreeSpec AATreeHist Util Runtime SchedInv StepInv StackShape RuntimeSpec TraceInv Immediate Prims StaticInv Footprint QueueInv OwnInv WaitInv DeadlineInv CallInv SpecInv TraceStep Wake Awake AllInv PausedInv DldInv ResultInv JoinInv.
Import ListNotations.
Local Open Scope Z_scope.

(** ** cond_wait keeps its result while it re-acquires the mutex *)
Definition norl (fs : list frame) : Prop := forall m r, ~ In (FCvRelock m r) fs.
Ltac nr := intros ? ? ?; cbn in *; intuition discriminate.
Ltac hl E :=
  match type of E with
  | copause _ _ _ _ = _ => let Q := fresh in apply copause_cases in E; destruct E as [(_ & Q & _)|(_ & Q & _)]; subst; nr
  | yfsr _ _ = _ => apply yfsr_cases in E; destruct E as (_ & _ & [E|E]); subst; nr
  | (_, _, _) = _ => inversion E; subst; nr
  | coyield _ _ = _ => unfold coyield in E; inversion E; subst; nr
  | context [checkdl ?a ?b ?c ?d] => destruct (checkdl a b c d); hl E
  | context [if ?x then _ else _] => destruct x; hl E
  | context [match ?x with Some _ => _ | None => _ end] => destruct x; hl E
  | context [let '(_, _) := ?x in _] => destruct x; hl E
  end.
Lemma coexit_rest_norl : forall c a d d' fs k, coexit_rest c a d = (d', fs, k) -> norl fs.
Proof.
  intros c a d d' fs k E. destruct (coexit_rest_shape _ _ _ _ _ _ E) as [(-> & _)|(ES & _)]; [nr|].
  inversion ES as [a0 s0 w0 Y| |a0 w0 Y]; subst; try (inversion Y; subst); nr.
Qed.
Lemma coexit_async_norl : forall c d d' fs k, coexit_async c d = (d', fs, k) -> norl fs.
Proof. intros c d d' fs k E. unfold coexit_async in E. destruct (cleanups _); [eapply coexit_rest_norl; exact E | inversion E; nr]. Qed.
Lemma fastunlock_norl : forall m f d d' fs k, (forall m r, f <> FCvRelock m r) -> fastunlock m [f] d = (d', fs, k) -> norl fs.
Proof.
  intros m f d d' fs k NF E. unfold fastunlock in E. cbv zeta in E.
  assert (B : norl [f]) by (intros m0 r [H|[]]; eapply NF; exact H).
  repeat match type of E with context [if ?b then _ else _] => destruct b end; try (injection E as _ <- _; exact B);
  apply yfsr_cases in E; destruct E as (_ & _ & [->| ->]); intros m0 r H; cbn in H; intuition (try discriminate); eapply NF; eassumption.
Qed.
Lemma hcall_norl : forall c o nw d d' fs k, hcall c o nw d = (d', fs, k) -> norl fs.
Proof.
  intros c o nw d d' fs k E. destruct (hcall_next _ _ _ _ _ _ _ E) as [N|[(h & -> & -> & -> & _)|(-> & N)]]; [|nr|cbn [hcall] in E; eapply coexit_async_norl; exact E].
  assert (SH : shape o fs) by (destruct k; cbn in N; try contradiction; exact N). clear N.
  inversion SH; subst; try (match goal with H : pz _ _ |- _ => inversion H; subst end); try (match goal with H : yf _ _ |- _ => inversion H; subst end); try nr;
    (cbn [hcall] in E; unfold do_cvwait in E; destruct (check_cv _ _) as [v1 d1]; destruct (negb _); [inversion E; nr|]; destruct (check_mu _ _) as [v2 d2]; destruct (negb _); [inversion E; nr|];
    destruct (canceled _); [inversion E; nr|]; eapply fastunlock_norl; [|exact E]; discriminate).
Qed.
Lemma cv_relock_frames : forall c m ret nw d d' fs k, cv_relock c m ret nw d = (d', fs, k) ->
  (fs = [] /\ k = CRet ret) \/ exists w, fs = w ++ [FCvRelock m ret] /\ norl w.
Proof.
  intros c m ret nw d d' fs k E. unfold cv_relock, finish_lock in E. destruct (negb _); [inversion E; auto|].
  destruct (mu_trylock _ _ _ _ _ _) as [v1 d1]. destruct (_ =? _).
  - right. apply copause_fs in E. destruct E as [(-> & _)|(-> & _)]; [exists [FLock m] | exists [FPause; FLock m]]; split; try reflexivity; nr.
  - inversion E; subst. right. exists []. split; [reflexivity | nr].
Qed.
Lemma hret_norl : forall c f v b nw d d' fs k, hret c f v b nw d = (d', fs, k) ->
  (forall cv m, f <> FCvWait cv m) -> (forall m r, f <> FCvRelock m r) -> norl fs.
Proof.
  intros c f v b nw d d' fs k E N1 N2. destruct f; cbn [hret] in E; try (hl E; fail); try (destruct (_ && _); [eapply coexit_async_norl; exact E | hl E]; fail).
  - eapply coexit_rest_norl; exact E.
  - unfold sleep_end in E. hl E.
  - unfold do_cancel in E. hl E.
  - unfold sigwait_end in E. hl E.
  - unfold wait_end in E. hl E.
  - unfold send_end in E. hl E.
  - unfold recv_end in E. hl E.
  - unfold select_end in E. hl E.
  - unfold lock_end in E. hl E.
  - unfold wgwait_end in E. hl E.
  - unfold cvwait_unlocked in E. hl E.
  - exfalso. eapply N1. reflexivity.
  - exfalso. eapply N2. reflexivity.
  - unfold join_end in E. hl E.
  - unfold suspend_end in E. hl E.
  - unfold work_submit in E. hl E.
  - eapply coexit_async_norl; exact E.
  - unfold exit_gen in E. hl E.
Qed.

Definition cvt (s : state) : Prop := forall x w m k o st,
  stk (sc s) x = w ++ FCvRelock m ETIMEDOUT :: FApi k o :: st -> op_dl o < now s.

Lemma checkdl_max : forall c nw d v d', checkdl c MAXI nw d = (v, d') -> v = ETIMEDOUT -> deadlined (cof d c) = true.
Proof.
  intros c nw d v d' E ->. unfold checkdl in E. destruct (canceled (cof d c)), (deadlined (cof d c)); cbn in E; try discriminate; auto.
Qed.

Lemma cvt_exec : forall s c d k fs base sch md nc T, reach s -> cur (sc s) = Some c -> cvt s ->
  exec c k (set_stk (zupd (stk (sc s)) c (fs ++ base)) (sc s)) = (sch, md) ->
  (forall w m kk o st, fs ++ base = w ++ FCvRelock m ETIMEDOUT :: FApi kk o :: st -> op_dl o < now s) ->
  cvt (mkst sch d md (now s) nc T).
Proof.
  intros s c d k fs base sch md nc T RE CU I X OWN x w m kk o st SX. cbn [sc now] in *. pose proof (reach_full _ RE) as F.
  pose proof (cur_notfresh _ _ F CU) as NFR.
  destruct (exec_stk_cases _ _ _ _ _ X NFR x) as [[-> Q]|[(_ & _ & _ & Q)|(NE & Q & _)]]; rewrite Q in SX.
  - cbn in SX. rewrite zupd_eq in SX. destruct k; try (eapply OWN; exact SX). destruct w; discriminate SX.
  - destruct w as [|? [|? ?]]; discriminate SX.
  - cbn in SX. rewrite zupd_neq in SX by exact NE. eapply I; exact SX.
Qed.
Lemma norl_split : forall fs base w m r st, norl fs -> fs ++ base = w ++ FCvRelock m r :: st -> exists w', base = w' ++ FCvRelock m r :: st.
Proof.
  intros fs base w m r st N Q. destruct (app_eq_app _ _ _ _ Q) as (l & [[EN EL]|[EN EL]]).
  - destruct l as [|z l]; [exists []; symmetry; exact EL|]. injection EL as <- _. exfalso. eapply (N m r). rewrite EN. apply in_or_app. right; left; reflexivity.
  - exists l. exact EL.
Qed.

Theorem reach_cvt : forall s, reach s -> nofincancel (tr s) -> cvt s.
Proof.
  apply (rrun_preserves (fun s => nofincancel (tr s) -> cvt s)).
  - intros s c o d fs k sch md RE I M CU U NR E X G.
    assert (G0 : nofincancel (tr s)) by (intros kk cc id dl tm H; eapply G; apply call_tr_old; exact H). specialize (I G0).
    eapply (cvt_exec s c); try eassumption. intros w m kk oo st Q. apply norl_split in Q; [|eapply hcall_norl; exact E].
    destruct Q as (w' & Q). destruct w' as [|z w']; [discriminate Q|]. injection Q as _ Q. eapply I. exact Q.
  - intros s c v f rest b d fs k sch md RE I M CU SK L E X G.
    assert (G0 : nofincancel (tr s)) by (intros kk cc id dl tm H; eapply G; apply (tick_tr_old s c v f d fs k); exact H). specialize (I G0).
    eapply (cvt_exec s c); try eassumption. intros w m kk oo st Q.
    assert (REST : forall w', rest = w' ++ FCvRelock m ETIMEDOUT :: FApi kk oo :: st -> op_dl oo < now s).
    { intros w' H. eapply (I c (f :: w')). rewrite SK, H. reflexivity. }
    assert (RL : forall m0 ret e, cv_relock c m0 ret (now s) e = (d, fs, k) -> (ret = ETIMEDOUT -> forall k0 o0 st0, rest = FApi k0 o0 :: st0 -> op_dl o0 < now s) -> op_dl oo < now s).
    { intros m0 ret e Q2 H. apply cv_relock_frames in Q2. destruct Q2 as [(-> & _)|(w2 & -> & NW)]; [eapply REST; exact Q|].
      rewrite <- app_assoc in Q. apply norl_split in Q; [|exact NW]. destruct Q as (w' & Q). destruct w' as [|z w']; injection Q; intros; [|eapply REST; eassumption].
      subst. eapply H; reflexivity. }
    assert (D1 : (exists cv m0, f = FCvWait cv m0) \/ (exists m0 r, f = FCvRelock m0 r) \/ ((forall cv m0, f <> FCvWait cv m0) /\ forall m0 r, f <> FCvRelock m0 r)).
    { destruct f; eauto; right; right; split; discriminate. }
    destruct D1 as [(cv & m0 & ->)|[(m0 & r & ->)|(N1 & N2)]].
    + cbn [hret] in E. unfold cvwait_end in E. destruct (checkdl _ _ _ _) as [v1 d1] eqn:CK. eapply RL; [exact E|]. intros -> k0 o0 st0 ->.
      apply checkdl_max in CK; [|reflexivity]. cbn in CK. destruct (reach_dld _ RE G0 c CK) as (g & r & TP & _ & LT & _). rewrite SK in TP. cbn in TP.
      injection TP as <- <-. cbn in LT. exact LT.
    + cbn [hret] in E. destruct (v =? OK); [inj E; eapply REST; exact Q|]. destruct (_ && _).
      * apply coexit_async_norl in E. apply norl_split in Q; [|exact E]. destruct Q as (w' & Q). eapply REST; exact Q.
      * eapply RL; [exact E|]. intros -> k0 o0 st0 ->. eapply (I c []). exact SK.
    + apply norl_split in Q; [|eapply hret_norl; eassumption]. destruct Q as (w' & Q). eapply REST; exact Q.
  - intros s d ws sch md ios RE I M A K X G x w m k o st SX. specialize (I G). cbn [set_sc set_dt set_mode sc now] in *.
    apply sco_switch_frame in X. destruct X as (X1 & _). destruct (wakes_frame ws (sc s)) as (W1 & _). rewrite X1, W1 in SX. eapply I; exact SX.
  - intros s m RE I _ G. exact (I G).
  - intros s e RE I H M G x w m k o st SX. destruct (env_frame s e H) as (E1 & _). rewrite E1 in SX.
    assert (G0 : nofincancel (tr s)) by (intros kk cc id dl tm HH; eapply G; apply env_tr_old; [exact H | exact HH]).
    specialize (I G0 _ _ _ _ _ _ SX). pose proof (env_now s e H). lia.
  - intros g O G x w m k o st SX. cbn in SX. unfold zupd in SX. destruct (_ =? _); destruct w as [|? [|? ?]]; discriminate SX.
Qed.

(** ** The results *)
(** the operations that take a deadline and whose results are error codes *)
Definition timed (o : op) : bool :=
  match o with
  | OpSleep _ | OpCancel _ _ | OpWait _ _ _ _ | OpSend _ _ _ | OpRecv _ _ | OpGenYield _ _ | OpLock _ _ | OpRdLock _ _
  | OpWgWait _ _ | OpCvWait _ _ _ | OpJoin _ _ | OpSuspend _ => true
  | _ => false
  end.
Lemma checkdl_tmo : forall c dl nw d d', checkdl c dl nw d = (ETIMEDOUT, d') -> deadlined (cof d c) = false -> dl < nw.
Proof.
  intros c dl nw d d' E DD. unfold checkdl in E. rewrite DD in E. destruct (canceled (cof d c)); cbn in E; [discriminate|].
  destruct (dl =? MAXI); [discriminate|]. destruct ((dl <? MAXI) && (dl <? nw)) eqn:B; [lia | discriminate].
Qed.
Lemma check_mu_cof : forall m d v d', check_mu m d = (v, d') -> cof d' = cof d.
Proof. intros m d v d' E. unfold check_mu in E. destruct (_ =? _); [|destruct (negb _)]; inversion E; reflexivity. Qed.
Lemma check_wg_cof : forall m d v d', check_wg m d = (v, d') -> cof d' = cof d.
Proof. intros m d v d' E. unfold check_wg in E. destruct (_ =? _); [|destruct (negb _)]; inversion E; reflexivity. Qed.
Lemma chk_val : forall m d v d', check_mu m d = (v, d') -> v = OK \/ v = EPERM.
Proof. intros m d v d' E. unfold check_mu in E. destruct (_ =? _); [|destruct (negb _)]; inversion E; auto. Qed.
Lemma chkw_val : forall m d v d', check_wg m d = (v, d') -> v = OK \/ v = EPERM.
Proof. intros m d v d' E. unfold check_wg in E. destruct (_ =? _); [|destruct (negb _)]; inversion E; auto. Qed.
Lemma chkc_val : forall m d v d', check_cv m d = (v, d') -> v = OK \/ v = EPERM.
Proof. intros m d v d' E. unfold check_cv in E. destruct (_ =? _); [|destruct (negb _)]; inversion E; auto. Qed.
Lemma copause_noret : forall c dl f fs d d' v, copause c dl (f :: fs) d = (d', [], CRet v) -> False.
Proof. intros c dl f fs d d' v E. apply copause_fs in E. destruct E as [(E & _)|(E & _)]; discriminate E. Qed.
Lemma chk_chan_val : forall ch d, chk_chan ch d = OK \/ chk_chan ch d = EINVAL \/ chk_chan ch d = EPERM.
Proof. intros. unfold chk_chan. destruct (_ =? _); [|destruct (negb _)]; auto. Qed.

Lemma do_send_tmo : forall c ch m dl d d', do_send c ch m dl d <> (d', [], CRet ETIMEDOUT).
Proof.
  intros c ch m dl d d' E. unfold do_send in E. destruct (negb _) eqn:B; [destruct (chk_chan_val ch d) as [H|[H|H]]; rewrite H in E; discriminate E|].
  destruct (sclosed _); [discriminate E|]. destruct (canceled _); [discriminate E|]. destruct (send_loop _ _ _ _) as [[r|] d1]; [discriminate E|].
  destruct (_ <? _); [discriminate E|]. apply copause_noret in E. exact E.
Qed.
Lemma hcall_tmo : forall c o nw d d', hcall c o nw d = (d', [], CRet ETIMEDOUT) -> timed o = true -> deadlined (cof d c) = false -> op_dl o < nw.
Proof.
  intros c o nw d d' E T DD. destruct o; try discriminate T; cbn [hcall op_dl] in *.
  - unfold do_sleep in E. destruct (dl <? nw) eqn:B; [lia|]. destruct (copause_noret _ _ _ _ _ _ _ E).
  - unfold do_cancel in E. destruct (negb _); [discriminate E|]. destruct (checkdl _ _ _ _) as [v1 d1] eqn:CK. destruct (negb _) eqn:B.
    + injection E as _ ->. eapply checkdl_tmo; eassumption.
    + destruct (cenabled _); [discriminate E | destruct (copause_noret _ _ _ _ _ _ _ E)].
  - unfold do_wait in E. destruct (_ && _); [discriminate E|]. destruct fail; [discriminate E|]. destruct (copause_noret _ _ _ _ _ _ _ E).
  - destruct (do_send_tmo _ _ _ _ _ _ E).
  - unfold do_recv in E. destruct (negb _) eqn:B; [destruct (chk_chan_val ch d) as [H|[H|H]]; rewrite H in E; discriminate E|].
    destruct (rclosed _); [discriminate E|]. destruct (canceled _); [discriminate E|]. destruct (take _ _) as [[[? [?|]] ?]|]; try discriminate E.
    destruct (copause_noret _ _ _ _ _ _ _ E).
  - unfold do_genyield in E. destruct (gen _); [destruct (do_send_tmo _ _ _ _ _ _ E) | discriminate E].
  - unfold do_lock in E. destruct (check_mu _ _) as [v1 d1] eqn:C. destruct (negb _) eqn:B; [destruct (chk_val _ _ _ _ C); subst; discriminate E|].
    apply check_mu_cof in C. unfold mu_trylock in E. destruct (checkdl _ _ _ _) as [v2 d2] eqn:CK. destruct (negb (v2 =? OK)) eqn:B2.
    + destruct (v2 =? EBUSY); [destruct (copause_noret _ _ _ _ _ _ _ E)|]. injection E as _ ->. eapply checkdl_tmo; [exact CK | rewrite C; exact DD].
    + destruct (mlocked _); cbn in E; [destruct (copause_noret _ _ _ _ _ _ _ E) | discriminate E].
  - unfold do_lock in E. destruct (check_mu _ _) as [v1 d1] eqn:C. destruct (negb _) eqn:B; [destruct (chk_val _ _ _ _ C); subst; discriminate E|].
    apply check_mu_cof in C. unfold mu_tryrdlock in E. destruct (checkdl _ _ _ _) as [v2 d2] eqn:CK. destruct (negb (v2 =? OK)) eqn:B2.
    + destruct (v2 =? EBUSY); [destruct (copause_noret _ _ _ _ _ _ _ E)|]. injection E as _ ->. eapply checkdl_tmo; [exact CK | rewrite C; exact DD].
    + destruct (_ || _); cbn in E; [destruct (copause_noret _ _ _ _ _ _ _ E) | discriminate E].
  - unfold do_wgwait in E. destruct (check_wg _ _) as [v1 d1] eqn:C. destruct (negb _) eqn:B; [destruct (chkw_val _ _ _ _ C); subst; discriminate E|].
    apply check_wg_cof in C. destruct (checkdl _ _ _ _) as [v2 d2] eqn:CK. destruct (negb (v2 =? OK)) eqn:B2.
    + injection E as _ ->. eapply checkdl_tmo; [exact CK | rewrite C; exact DD].
    + destruct (_ =? 0); [discriminate E | destruct (copause_noret _ _ _ _ _ _ _ E)].
  - unfold do_cvwait in E. destruct (check_cv _ _) as [v1 d1] eqn:C. destruct (negb _) eqn:B; [destruct (chkc_val _ _ _ _ C); subst; discriminate E|].
    destruct (check_mu _ _) as [v2 d2] eqn:C2. destruct (negb (v2 =? OK)) eqn:B2; [destruct (chk_val _ _ _ _ C2); subst; discriminate E|].
    destruct (canceled _); [discriminate E|]. destruct (fastunlock_nil _ _ _ _ _ _ E).
  - unfold do_join in E. destruct (negb _); [discriminate E|]. destruct (checkdl _ _ _ _) as [v1 d1] eqn:CK. destruct (negb (v1 =? OK)) eqn:B.
    + injection E as _ ->. eapply checkdl_tmo; eassumption.
    + destruct (_ =? c); [discriminate E | destruct (copause_noret _ _ _ _ _ _ _ E)].
  - unfold do_suspend in E. destruct (copause_noret _ _ _ _ _ _ _ E).
Qed.

Lemma coexit_async_nil : forall c d d' v, coexit_async c d <> (d', [], CRet v).
Proof.
  intros c d d' v Q. unfold coexit_async in Q. destruct (cleanups _); [|discriminate Q]. apply coexit_rest_nil in Q. destruct Q; discriminate.
Qed.
Ltac dend E DD := match type of E with context [checkdl ?a ?b ?c ?d] =>
    let CK := fresh "CK" in destruct (checkdl a b c d) as [? ?] eqn:CK; injection E as _ ->; apply DD; [reflexivity | apply checkdl_max in CK; [rewrite ?upco_eq in CK; exact CK | reflexivity]] end.
(** any coroutine's result; the second part is the reason for a timeout *)
Theorem timeout_result : forall s, reach s -> nofincancel (tr s) ->
  forall k c o m t, In (TRet k c o ETIMEDOUT m t) (tr s) -> timed o = true -> op_dl o < t.
Proof.
  intros s RE G k c o m t H T.
  assert (P : transit nofincancel (fun _ _ o v _ t _ => timed o = true -> v = ETIMEDOUT -> op_dl o < t) s /\
              landed nofincancel (fun _ _ o v _ t _ => timed o = true -> v = ETIMEDOUT -> op_dl o < t) s).
  { clear H T k c o m t G. revert s RE. apply result_principle.
    - intros t t' S G kk cc id dl tm H. eapply G, S, H.
    - intros k c o v m n n' t t' _ LE Q T V. specialize (Q T V). lia.
    - intros s c o d v RE M CU U NR E G T ->. eapply hcall_tmo; [exact E | exact T|].
      assert (G0 : nofincancel (tr s)) by (intros kk cc id dl tm H; eapply G; apply call_tr_old; exact H).
      destruct (deadlined (cof (dt s) c)) eqn:D; [|reflexivity]. exfalso. destruct (reach_dld _ RE G0 c D) as (f & r & TP & W & _).
      destruct U; cbn in TP; try (injection TP as <- _; discriminate W).
    - intros s c f w b d v k o st RE M CU SK L NH E G T ->.
      assert (G0 : nofincancel (tr s)) by (intros kk cc id dl tm H; eapply G; apply (tick_tr_old s c w f d [] (CRet ETIMEDOUT)); exact H).
      assert (DD : waitf f = true -> deadlined (cof (dt s) c) = true -> op_dl o < now s).
      { intros W D. destruct (reach_dld _ RE G0 c D) as (g & r & TP & _ & LT & _). rewrite SK in TP.
        replace (top (f :: FApi k o :: st)) with (f :: FApi k o :: st) in TP by (destruct f; try reflexivity; discriminate W).
        injection TP as <- <-. rewrite sdl_api in LT. exact LT. }
      assert (CV : forall m0, f = FCvRelock m0 ETIMEDOUT -> op_dl o < now s).
      { intros m0 ->. eapply (reach_cvt _ RE G0 c []). exact SK. }
      destruct (api_frame _ _ _ _ _ _ _ _ _ _ _ L E) as [[SH _]|[[-> ->]|(b0 & H)]]; [|discriminate T|discriminate H].
      inversion SH; subst; try discriminate T; cbn [hret] in E; try discriminate E;
        try (match goal with H : pz _ [_] |- _ => inversion H; subst; clear H end); try (match goal with H : yf _ [_] |- _ => inversion H; subst; clear H end); cbn [hret] in E; try discriminate E.
      + unfold sleep_end in E. destruct (canceled _); discriminate E.
      + unfold do_cancel in E. destruct (negb _); [discriminate E|]. destruct (checkdl _ _ _ _) as [v1 d1] eqn:CK. destruct (negb _) eqn:B.
        * injection E as _ ->. destruct (deadlined (cof (dt s) c)) eqn:D; [apply DD; auto|]. eapply checkdl_tmo; eassumption.
        * destruct (cenabled _); [discriminate E | destruct (copause_noret _ _ _ _ _ _ _ E)].
      + destruct (_ && _) in E; [destruct (coexit_async_nil _ _ _ _ E) | discriminate E].
      + unfold wait_end in E. dend E DD.
      + unfold send_end in E. dend E DD.
      + unfold send_end in E. dend E DD.
      + unfold recv_end in E. destruct (checkdl _ _ _ _) as [v1 d1] eqn:CK. destruct (negb (v1 =? OK)).
        * injection E as _ ->. apply DD; [reflexivity|]. apply checkdl_max in CK; [exact CK | reflexivity].
        * destruct (cclosed _); discriminate E.
      + unfold lock_end in E. dend E DD.
      + unfold lock_end in E. dend E DD.
      + destruct (_ && _) in E; [destruct (coexit_async_nil _ _ _ _ E) | discriminate E].
      + unfold wgwait_end in E. dend E DD.
      + unfold cvwait_unlocked in E. destruct (copause_noret _ _ _ _ _ _ _ E).
      + unfold cvwait_end in E. destruct (checkdl _ _ _ _) as [v1 d1] eqn:CK. apply cv_relock_frames in E. destruct E as [(_ & E)|(w1 & E & _)]; [|destruct w1; discriminate E].
        injection E as <-. apply DD; [reflexivity|]. apply checkdl_max in CK; [exact CK | reflexivity].
      + destruct (_ =? OK); [injection E as _ ->; eapply CV; reflexivity|]. destruct (_ && _) in E; [destruct (coexit_async_nil _ _ _ _ E)|].
        apply cv_relock_frames in E. destruct E as [(_ & E)|(w1 & E & _)]; [|destruct w1; discriminate E]. injection E as <-. eapply CV; reflexivity.
      + exfalso. match goal with H : pz _ _, Q : _ ++ [_] = [_] |- _ => inversion H; subst; discriminate Q end.
      + unfold join_end in E. dend E DD.
      + unfold suspend_end in E. dend E DD. }
  destruct P as [_ P]. eapply P; eauto. destruct o; try discriminate T; exact (fun H => H).
Qed.

(** ** Successful sleeps and suspensions *)
Definition slept (c dl t : Z) (T : list obs) : Prop := dl < t \/ did c isSel T \/ did c isWork T.
Theorem sleep_result : forall s, reach s -> nofincancel (tr s) ->
  forall l1 l2 k c dl m t, tr s = l1 ++ TRet k c (OpSleep dl) OK m t :: l2 -> slept c dl t l2.
Proof.
  intros s RE G l1 l2 k c dl m t EQ.
  pose (Q := fun (k : nat) (c : Z) (o : op) (v m t : Z) (T : list obs) => forall dl, o = OpSleep dl -> v = OK -> slept c dl t T).
  assert (P : Q k c (OpSleep dl) OK m t l2); [|eapply P; reflexivity].
  eapply (result_before nofincancel Q); try eassumption; try exact (fun H => H); unfold Q; clear.
  - intros t t' S G kk cc id dl tm H. eapply G, S, H.
  - intros k c o v m n n' t t' S LE H dl E1 E2. destruct (H dl E1 E2) as [A|[A|A]]; [left; lia | right; left | right; right]; eapply did_mono; eauto.
  - intros s c o d v RE M CU U NR E G dl -> ->. cbn [hcall] in E. unfold do_sleep in E. destruct (_ <? _); [discriminate E|].
    destruct (copause_noret _ _ _ _ _ _ _ E).
  - intros s c f w b d v k o st RE M CU SK L NH E G dl -> ->.
    assert (G0 : nofincancel (tr s)) by (intros kk cc id dl0 tm H; eapply G; apply (tick_tr_old s c w f d [] (CRet OK)); exact H).
    assert (TM : forall x, In x (tr s) -> In x (tick_tr s c w f d [] (CRet OK))) by (intros x; apply tick_tr_old).
    destruct (api_frame _ _ _ _ _ _ _ _ _ _ _ L E) as [[SH _]|[[-> H]|(b0 & H)]]; [|discriminate H|discriminate H].
    inversion SH; subst; match goal with H : pz _ [_] |- _ => inversion H; subst; clear H end. cbn [hret] in E. unfold sleep_end in E.
    cbn [cof set_nsleepers] in E. destruct (canceled (cof (dt s) c)) eqn:C; [discriminate E|].
    assert (TP : top (stk (sc s) c) = FSleep :: FApi k (OpSleep dl) :: st) by (rewrite SK; reflexivity).
    destruct (reach_awake _ RE _ _ _ TP eq_refl) as [H|[H|[H|H]]].
    + destruct (cur_notpaused _ _ (reach_full _ RE) CU H).
    + congruence.
    + left. destruct (reach_dld _ RE G0 c H) as (g & r & TP2 & _ & LT & _). rewrite TP in TP2. injection TP2 as <- <-. exact LT.
    + right. destruct H as [H|H]; [left | right]; eapply did_mono; eauto.
Qed.

Definition resumed (k : nat) (c : Z) (T : list obs) : Prop :=
  (exists k' c' tm, (k < k')%nat /\ In (TCall k' c' (OpResume c) tm) T) \/ did c isSel T \/ did c isWork T.
Theorem suspend_result : forall s, reach s ->
  forall l1 l2 k c dl m t, tr s = l1 ++ TRet k c (OpSuspend dl) OK m t :: l2 -> resumed k c l2.
Proof.
  intros s RE l1 l2 k c dl m t EQ.
  pose (Q := fun (k : nat) (c : Z) (o : op) (v m t : Z) (T : list obs) => forall dl, o = OpSuspend dl -> v = OK -> resumed k c T).
  assert (P : Q k c (OpSuspend dl) OK m t l2); [|eapply P; reflexivity].
  eapply (result_before (fun _ => True) Q); try eassumption; try exact (fun H => H); try exact Logic.I; unfold Q; clear.
  - auto.
  - intros k c o v m n n' t t' S LE H dl E1 E2. destruct (H dl E1 E2) as [(k' & c' & tm & A & B)|[A|A]];
      [left; exists k', c', tm; auto | right; left | right; right]; eapply did_mono; eauto.
  - intros s c o d v RE M CU U NR E _ dl -> ->. cbn [hcall] in E. unfold do_suspend in E. destruct (copause_noret _ _ _ _ _ _ _ E).
  - intros s c f w b d v k o st RE M CU SK L NH E _ dl -> ->.
    assert (TM : forall x, In x (tr s) -> In x (tick_tr s c w f d [] (CRet OK))) by (intros x; apply tick_tr_old).
    destruct (api_frame _ _ _ _ _ _ _ _ _ _ _ L E) as [[SH _]|[[-> H]|(b0 & H)]]; [|discriminate H|discriminate H].
    inversion SH; subst; match goal with H : pz _ [_] |- _ => inversion H; subst; clear H end. cbn [hret] in E. unfold suspend_end in E.
    destruct (checkdl _ _ _ _) as [v1 d1] eqn:CK. injection E as -> ->. apply checkdl_ok in CK. rewrite upco_eq in CK. cbn in CK. destruct CK as [CK1 CK2].
    assert (TP : top (stk (sc s) c) = FSuspend :: FApi k (OpSuspend dl) :: st) by (rewrite SK; reflexivity).
    destruct (reach_awake _ RE _ _ _ TP eq_refl) as [H|[H|[H|H]]]; [destruct (cur_notpaused _ _ (reach_full _ RE) CU H) | congruence | congruence|].
    destruct H as [H|[H|(k0 & o0 & st0 & Q0 & k' & c' & tm & LT & H)]]; [right; left | right; right | left]; try (eapply did_mono; eauto).
    injection Q0 as <- <- <-. exists k', c', tm. auto.
Qed.
