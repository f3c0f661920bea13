(** Where a coroutine is inside an API call: the frames between the client's
    code and the point reached. Every proof about a particular API function goes
    through [call_at] and [tick_at], which say how that point moves. *)
From Coq Require Import List ZArith Bool Lia.
From Verif Require Import AATreeSpec AATreeHist Util Runtime SchedInv StepInv StackShape RuntimeSpec TraceInv Immediate Prims StaticInv Footprint QueueInv OwnInv WaitInv CallInv SpecInv TraceStep Wake.
Import ListNotations.
Local Open Scope Z_scope.

(** coroutine [x] is inside call [kk], which is [o], with [w] still to be done *)
Definition at_call (s : state) (x : Z) (w : list frame) (kk : nat) (o : op) : Prop :=
  exists st, stk (sc s) x = w ++ FApi kk o :: st /\ shape o w.

(** frames that occur only outside of calls *)
Definition exf (f : frame) : Prop := match f with FEntry | FHandler | FExitLoop | FExitGen _ _ | FExitFin _ => True | _ => False end.
Lemma shape_noexf : forall o w f, shape o w -> In f w -> ~ exf f.
Proof.
  intros o w f SH IN EX. inversion SH; subst; try (match goal with H : pz _ _ |- _ => inversion H; subst end);
    try (match goal with H : yf _ _ |- _ => inversion H; subst end); cbn in IN; intuition (subst; auto).
Qed.
Lemma shape_noapi2 : forall o w, shape o w -> noapi w.
Proof.
  intros o w SH k p IN. inversion SH; subst; try (match goal with H : pz _ _ |- _ => inversion H; subst end);
    try (match goal with H : yf _ _ |- _ => inversion H; subst end); cbn in IN; intuition discriminate.
Qed.
Lemma api_split : forall fs rest w kk o st, noapi fs -> fs ++ rest = w ++ FApi kk o :: st -> exists w1, w = fs ++ w1 /\ rest = w1 ++ FApi kk o :: st.
Proof.
  induction fs as [|f fs IH]; intros rest w kk o st NA E; cbn in E; [exists w; auto|].
  destruct w as [|g w]; cbn in E; injection E as -> E; [exfalso; eapply NA; left; reflexivity|].
  destruct (IH rest w kk o st) as (w1 & -> & ->); [intros j p IN; eapply NA; right; exact IN | exact E | exists w1; auto].
Qed.
Lemma exit_hasexf : forall w, exit_shape w -> exists f, In f w /\ exf f.
Proof.
  intros w H. inversion H as [a sb w0 Y|a sb|a w0 Y]; subst.
  - exists (FExitGen a sb). split; [apply in_or_app; right; left; reflexivity | exact I].
  - exists (FExitGen a sb). split; [left; reflexivity | exact I].
  - exists (FExitFin a). split; [|exact I]. inversion Y; subst; cbn; auto.
Qed.
Lemma next_hasexf : forall fs k, (forall rest, next_ok rest fs k) -> noapi fs -> (forall e, k <> CFinal e) -> exists f, In f fs /\ exf f.
Proof.
  intros fs k N NA NF. specialize (N []).
  assert (H : lstack (fs ++ [])) by (destruct k; try exact N; [constructor; exact N | destruct (NF _ eq_refl)]). clear N NF.
  rewrite app_nil_r in H. inversion H as [s0 U EQ|k0 o w s0 U SH EQ|w s0 ES EQ]; subst.
  - inversion U; subst; eexists; (split; [left; reflexivity | exact I]).
  - exfalso. eapply NA. apply in_or_app. right. left. reflexivity.
  - destruct (exit_hasexf _ ES) as (f & A & B). exists f. split; [apply in_or_app; auto | exact B].
Qed.
Lemma exf_clash : forall fs rest w kk o st f, noapi fs -> In f fs -> exf f -> shape o w -> fs ++ rest <> w ++ FApi kk o :: st.
Proof.
  intros fs rest w kk o st f NA IN EX SH E. apply api_split in E; [|exact NA]. destruct E as (w1 & -> & _).
  eapply shape_noexf; [exact SH | apply in_or_app; left; exact IN | exact EX].
Qed.
Lemma ustack_clash : forall st w kk o r, ustack st -> shape o w -> st <> w ++ FApi kk o :: r.
Proof.
  intros st w kk o r U SH E. inversion U; subst.
  - destruct w as [|? [|? ?]]; discriminate.
  - destruct w as [|g w]; cbn in *; [discriminate|]. match goal with H : _ :: _ = _ :: _ |- _ => injection H as <- _ end. eapply shape_noexf; [exact SH | left; reflexivity | exact Logic.I].
  - destruct w as [|g w]; cbn in *; [discriminate|]. match goal with H : _ :: _ = _ :: _ |- _ => injection H as <- _ end. eapply shape_noexf; [exact SH | left; reflexivity | exact Logic.I].
Qed.

Lemma at_other : forall s c k fs st' sch md d n nc T nw x w kk o, full s -> cur (sc s) = Some c -> x <> c ->
  exec c k (set_stk (zupd (stk (sc s)) c (fs ++ st')) (sc s)) = (sch, md) ->
  at_call (mkst sch (ctl_dat c n k d) md nw nc T) x w kk o -> at_call s x w kk o.
Proof.
  intros s c k fs st' sch md d n nc T nw x w kk o F CU NE X (st & SX & SH). pose proof (cur_notfresh _ _ F CU) as NFR. cbn [sc] in SX.
  destruct (exec_stk_cases _ _ _ _ _ X NFR x) as [[-> _]|[(_ & -> & (g & ->) & QQ)|(_ & QQ & NS)]]; [congruence | |]; rewrite QQ in SX.
  - destruct w as [|? [|? ?]]; discriminate SX.
  - cbn [set_stk stk] in SX. rewrite zupd_neq in SX by exact NE. exists st. auto.
Qed.
Lemma at_own : forall s c k fs st' sch md d n nc T nw w kk o, full s -> cur (sc s) = Some c ->
  exec c k (set_stk (zupd (stk (sc s)) c (fs ++ st')) (sc s)) = (sch, md) ->
  at_call (mkst sch (ctl_dat c n k d) md nw nc T) c w kk o -> (forall e, k <> CFinal e) /\ shape o w /\ exists st, fs ++ st' = w ++ FApi kk o :: st.
Proof.
  intros s c k fs st' sch md d n nc T nw w kk o F CU X (st & SX & SH). pose proof (cur_notfresh _ _ F CU) as NFR. cbn [sc] in SX.
  destruct (exec_stk_cases _ _ _ _ _ X NFR c) as [[_ QQ]|[(N & _)|(N & _)]]; try congruence. rewrite QQ in SX. cbn [set_stk stk] in SX. rewrite zupd_eq in SX.
  destruct k; try (split; [discriminate|]; split; [exact SH | exists st; exact SX]). destruct w; discriminate SX.
Qed.
Lemma call_at : forall s c o d fs k sch md x w kk p, full s -> cur (sc s) = Some c -> ustack (stk (sc s) c) ->
  hcall c o (now s) (dt s) = (d, fs, k) ->
  exec c k (set_stk (zupd (stk (sc s)) c (fs ++ FApi (ncalls s) o :: stk (sc s) c)) (sc s)) = (sch, md) ->
  at_call (mkst sch (ctl_dat c (nextid (sc s) + 1) k d) md (now s) (S (ncalls s)) (call_tr s c o fs k)) x w kk p ->
  (x = c /\ w = fs /\ kk = ncalls s /\ p = o /\ shape o fs /\ (forall e, k <> CFinal e)) \/ (x <> c /\ at_call s x w kk p).
Proof.
  intros s c o d fs k sch md x w kk p F CU U E X A. destruct (Z.eq_dec x c) as [->|NE]; [left | right; split; [exact NE | eapply at_other; eassumption]].
  destruct (at_own _ _ _ _ _ _ _ _ _ _ _ _ _ _ _ F CU X A) as (NF & SH & st & EQ).
  pose proof (hcall_noapi _ _ _ _ _ _ _ E) as NA. pose proof EQ as EQ2. apply api_split in EQ2; [|exact NA]. destruct EQ2 as (w1 & -> & EQ2).
  destruct w1 as [|g w1]; [|cbn in EQ2; injection EQ2 as _ EQ2; exfalso; eapply ustack_clash; [exact U | | exact EQ2]].
  - cbn in EQ2. injection EQ2 as <- <- _. rewrite app_nil_r in *. auto 10.
  - assert (IN : In (FApi (ncalls s) o) (fs ++ g :: w1)).
    { clear -EQ NA. assert (H : In (FApi (ncalls s) o) ((fs ++ g :: w1) ++ FApi kk p :: st)) by (rewrite <- EQ; apply in_or_app; right; left; reflexivity).
      apply api_split in EQ; [|exact NA]. destruct EQ as (w2 & EQ1 & EQ2). apply app_inv_head in EQ1. subst w2. cbn in EQ2. injection EQ2 as <- _. apply in_or_app. right. left. reflexivity. }
    exfalso. eapply shape_noapi2; eassumption.
Qed.
Lemma tick_at : forall s c v f rest b d fs k sch md x w kk o, full s -> cur (sc s) = Some c -> stk (sc s) c = f :: rest -> lstack (f :: rest) ->
  hret c f v b (now s) (dt s) = (d, fs, k) ->
  exec c k (set_stk (zupd (stk (sc s)) c (fs ++ rest)) (sc s)) = (sch, md) ->
  at_call (mkst sch (ctl_dat c (nextid (sc s) + 1) k d) md (now s) (ncalls s) (tick_tr s c v f d fs k)) x w kk o ->
  (x = c /\ (forall e, k <> CFinal e) /\ exists w1, w = fs ++ w1 /\ shape o w /\ at_call s c (f :: w1) kk o) \/
  (x = c /\ f = FHandler /\ w = [] /\ o = OpCleanupPop true) \/ (x <> c /\ at_call s x w kk o).
Proof.
  intros s c v f rest b d fs k sch md x w kk o F CU SK L E X A. destruct (Z.eq_dec x c) as [->|NE]; [|right; right; split; [exact NE | eapply at_other; eassumption]].
  destruct (at_own _ _ _ _ _ _ _ _ _ _ _ _ _ _ _ F CU X A) as (NF & SH & st & EQ). pose proof (tick_noapi _ _ _ _ _ _ _ _ _ _ L E) as NA.
  assert (EXI : (forall rest, next_ok rest fs k) -> False).
  { intros NX. destruct (next_hasexf _ _ NX NA NF) as (g & IN & EX). eapply exf_clash; eassumption. }
  inversion L as [s0 U EL|k0 o0 w0 s0 U SH0 EL|w0 s0 ES EL].
  - subst. inversion U; subst; cbn [hret] in E.
    + exfalso. apply EXI. intros. eapply coexit_rest_next; exact E.
    + right; left. inj E. cbn in EQ. destruct w as [|g w]; cbn in EQ; injection EQ; intros; subst; [auto|]. exfalso. eapply shape_noapi2; [exact SH | left; reflexivity].
    + exfalso. apply EXI. intros. eapply coexit_async_next; exact E.
  - destruct w0 as [|g w0]; cbn in EL; injection EL as EL1 EL2; subst.
    + exfalso. cbn [hret] in E. destruct (_ && _) in E; [apply EXI; intros; eapply coexit_async_next; exact E|]. injection E as <- <- <-. cbn in EQ. eapply ustack_clash; [exact U | exact SH | exact EQ].
    + left. destruct (shape_next _ _ _ _ _ _ _ _ _ _ _ SH0 E) as [CN|CN]; [|destruct (EXI CN)]. split; [reflexivity|]. split; [exact NF|].
      rewrite app_assoc in EQ. assert (SN : shape o0 (fs ++ w0)) by (destruct k; try exact CN; destruct CN).
      assert (Q : fs ++ w0 = w /\ k0 = kk /\ o0 = o /\ s0 = st).
      { pose proof (shape_noapi2 _ _ SN) as N1. pose proof (shape_noapi2 _ _ SH) as N2. pose proof EQ as EQ1. apply api_split in EQ1; [|exact N1].
        destruct EQ1 as (w1 & -> & EQ1). destruct w1 as [|h w1]; [|cbn in EQ1; injection EQ1 as <- _; exfalso; eapply N2; apply in_or_app; right; left; reflexivity].
        cbn in EQ1. injection EQ1 as -> -> ->. rewrite app_nil_r. auto. }
      destruct Q as (<- & -> & -> & ->). exists w0. split; [reflexivity|]. split; [exact SN|]. exists st. split; [rewrite SK; reflexivity | exact SH0].
  - exfalso. inversion ES as [a0 sb w1 Y|a0 sb|a0 w1 Y]; subst w0; [inversion Y; subst w1 | |inversion Y; subst w1]; cbn in EL; injection EL as <- <-; cbn [hret] in E.
    all: try (destruct (_ && _) in E; [apply EXI; intros; eapply coexit_async_next; exact E | inj E]).
    all: try (unfold coyield in E; inj E).
    all: try (inj E).
    all: try (destruct (NF _ eq_refl)).
    all: try match goal with H : exit_gen _ _ _ _ = _ |- _ => exfalso; apply EXI; intros; eapply exit_gen_next; exact H end.
    all: cbn [app] in EQ; match type of EQ with
      | FExitGen ?e1 ?e2 :: ?r = _ => eapply (exf_clash [FExitGen e1 e2] r); [|left; reflexivity | | exact SH | exact EQ]
      | ?y :: FExitGen ?e1 ?e2 :: ?r = _ => eapply (exf_clash [y; FExitGen e1 e2] r); [|right; left; reflexivity | | exact SH | exact EQ]
      | ?z :: ?y :: FExitGen ?e1 ?e2 :: ?r = _ => eapply (exf_clash [z; y; FExitGen e1 e2] r); [|right; right; left; reflexivity | | exact SH | exact EQ]
      | FExitFin ?e1 :: ?r = _ => eapply (exf_clash [FExitFin e1] r); [|left; reflexivity | | exact SH | exact EQ]
      | ?y :: FExitFin ?e1 :: ?r = _ => eapply (exf_clash [y; FExitFin e1] r); [|right; left; reflexivity | | exact SH | exact EQ]
      | ?z :: ?y :: FExitFin ?e1 :: ?r = _ => eapply (exf_clash [z; y; FExitFin e1] r); [|right; right; left; reflexivity | | exact SH | exact EQ]
      end; try exact Logic.I; intros ? ? IN; cbn in IN; intuition discriminate.
Qed.
