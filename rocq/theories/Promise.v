(** A call that has got its result [v] (or [v] is NECO_OK and it was handed what it
    wants) returns [v] whatever happens next. *)
From Coq Require Import List ZArith Bool Lia.
From Verif Require Import AATreeSpec AATreeHist Util Runtime SchedInv StepInv StackShape RuntimeSpec TraceInv Immediate Prims StaticInv Footprint QueueInv OwnInv WaitInv CallInv SpecInv TraceStep Wake Awake DeadlineInv AllInv PausedInv ResultInv JoinInv WaiterInv DldInv CancelInv CancelSt MutexEff MutexTok MutexRt MutexOrd AtCall WgInv ChanShape ChanSpec ChanLists ChanEff ChanQuiet ChanFifo ChanStatic GenInv ChanOrder BlockSpec CancelFate.
Import ListNotations.
Local Open Scope Z_scope.

(** the frames of a call that will return [v] *)
Inductive quick (v : Z) : list frame -> Prop :=
| qk_recv : v = OK -> quick v [FRecvResumed]
| qk_send : v = OK -> quick v [FSendResumed]
| qk_bcast w : yf [FBcast v] w -> quick v w
| qk_close w : v = OK -> yf [FClose] w -> quick v w
| qk_sel g : quick v [FSelRecv g v]
| qk_selr g : quick v [FRecvResumed; FSelRecv g v].
Record promised (ok : Z) (k : nat) (s : state) : Prop := {
  pr_call : exists c o tm, In (TCall k c o tm) (tr s) /\ ~ handing o /\ o <> OpCleanupPop true;
  pr_at : ~ over (mode s) -> forall c w o, at_call s c w k o -> quick ok w \/ (w = [] /\ mode s = MRet ok);
  pr_ret : forall c o r v t, In (TRet k c o r v t) (tr s) -> r = ok }.
Lemma async_noshape : forall c d d' fs k w o, coexit_async c d = (d', fs, k) -> (forall e, k <> CFinal e) -> ~ shape o (fs ++ w).
Proof.
  intros c d d' fs k w o E NF SH. destruct (coexit_async_leaving _ _ _ _ _ E) as [(a & ->)|(u & e & r & -> & EX)]; [destruct (NF _ eq_refl)|].
  apply (shape_noexf _ _ e SH); [apply in_or_app; left; apply in_or_app; right; left; reflexivity | destruct e; try discriminate EX; exact Logic.I].
Qed.
Theorem promised_step : forall ok k s e, reach s -> promised ok k s -> promised ok k (step s e).
Proof.
  intros ok kk s0 e RE0 P0. destruct P0 as [(c0 & o0 & tm0 & IC & NH & NP) PA PR].
  assert (OWN : forall s c w o, reach s -> (forall z, In z (tr s0) -> In z (tr s)) -> at_call s c w kk o -> ~ handing o /\ o <> OpCleanupPop true).
  { intros s c w o RE SUB AC. destruct (at_called _ _ _ _ _ RE AC) as (tm & I1). destruct (callnos_inj _ _ _ _ _ _ _ _ (ci_uc _ (reach_cinv _ RE)) I1 (SUB _ IC)) as (_ & -> & _). auto. }
  assert (R1 : reach (step s0 e)) by (apply reach_step, RE0). revert R1.
  apply (gstep_preserves (fun z => reach z /\ z = s0) (fun z => reach z -> promised ok kk z)); try (intros ? [? ?]; apply reach_full; assumption); auto.
  - intros s c o d fs k sch md [RE ->] _ M CU U NR E X RE'. set (s' := mkst _ _ _ _ _ _) in *. assert (NO : ~ over (mode s0)) by (rewrite M; exact (fun z => z)).
    assert (OLD : forall z, In z (tr s0) -> In z (tr s')) by (intros z; apply call_tr_old). constructor; [eauto 8| |].
    + intros _ x w p AC. assert (LT : (kk < ncalls s0)%nat) by (eapply ci_lt; [apply (reach_cinv _ RE) | exact IC]).
      destruct (call_at _ _ _ _ _ _ _ _ _ _ _ _ (reach_full _ RE) CU U E X AC) as [(_ & _ & D & _)|(NE & A0)]; [lia|]. destruct (PA NO _ _ _ A0) as [H|[-> H]]; [auto | congruence].
    + intros x p r v t IN. apply call_tr_rets in IN. eapply PR, IN.
  - intros s c v f rest b d fs k sch md [RE ->] _ M CU SK L E X RE'. set (s' := mkst _ _ _ _ _ _) in *. assert (NO : ~ over (mode s0)) by (rewrite M; exact (fun z => z)).
    assert (OLD : forall z, In z (tr s0) -> In z (tr s')) by (intros z; apply tick_tr_old). constructor; [eauto 8| |].
    + intros _ x w p AC. destruct (OWN _ _ _ _ RE' OLD AC) as [NHp NPp].
      destruct (tick_at _ _ _ _ _ _ _ _ _ _ _ _ _ _ _ (reach_full _ RE) CU SK L E X AC) as [(-> & NF & w1 & -> & SH & A0)|[(-> & _ & _ & ->)|(NE & A0)]].
      * destruct (PA NO _ _ _ A0) as [QK|[D _]]; [|discriminate D]. inversion QK as [OE EQ|OE EQ|w0 Y EQ|w0 OE Y EQ|g EQ|g EQ]; subst; try (inversion Y; subst);
          cbn [hret coyield] in E; try (match type of E with context [if ?a then _ else _] => destruct a; [exfalso; exact (async_noshape _ _ _ _ _ _ _ E NF SH)|] end); injection E as <- <- <-; try (right; cbn in X; injection X as <- <-; auto; fail); left; first [apply qk_bcast; constructor | apply qk_close; [reflexivity | constructor] | apply qk_sel].
      * destruct (NPp eq_refl).
      * destruct (PA NO _ _ _ A0) as [H|[-> H]]; [auto|]. destruct (at_ret _ _ _ _ RE A0 NHp NO) as (CX & _). congruence.
    + intros x p r vv t IN. apply tick_tr_rets in IN. destruct IN as [IN|(EF & -> & <- & _)]; [eapply PR, IN|].
      assert (A0 : at_call s0 c [] kk p) by (exists rest; split; [rewrite SK, EF; reflexivity | constructor]). destruct (PA NO _ _ _ A0) as [QK|[_ H]]; [inversion QK as [| |w0 Y|w0 OE Y| |]; inversion Y | congruence].
  - intros s d ws sch md ios [RE ->] _ M A K X RE'. apply sco_switch_frame in X. destruct X as (X1 & _). destruct (wakes_frame ws (sc s0)) as (W0 & _). set (s' := mkst _ _ _ _ _ _) in *.
    assert (SK : stk (sc s') = stk (sc s0)) by (cbn; congruence). constructor; [cbn; eauto 8 | | exact PR].
    intros _ x w p AC. unfold at_call in AC. rewrite SK in AC. destruct (PA ltac:(rewrite M; exact (fun z => z)) _ _ _ AC) as [H|[-> H]]; [auto | congruence].
  - intros s m [RE ->] _ HM RE'. constructor; [cbn; eauto 8 | | exact PR]. intros NU x w p AC. destruct HM as [[EM HM]|[(-> & _)|[(j & ->)| ->]]]; try (destruct (NU Logic.I)).
    destruct (PA ltac:(rewrite HM; exact (fun z => z)) _ _ _ AC) as [H|[-> H]]; [auto | congruence].
  - intros s ev [RE ->] _ H M RE'. destruct (env_frame s0 ev H) as (E1 & _). constructor.
    + exists c0, o0, tm0. split; [apply env_tr_old; assumption | auto].
    + rewrite M. intros NO x w p AC. unfold at_call in AC. rewrite E1 in AC. apply (PA NO _ _ _ AC).
    + intros x p r v t IN. apply env_tr_in in IN; [|exact H]. destruct IN as [IN|(y & j & D)]; [eapply PR, IN | discriminate D].
  - intros _. constructor; eauto 8.
Qed.
Theorem promised_run : forall ok k es s, reach s -> promised ok k s -> promised ok k (run s es).
Proof. intros ok k es. induction es as [|e es IH]; intros s RE P; [exact P|]. cbn. apply IH; [apply reach_step, RE | apply promised_step; assumption]. Qed.
(** such a call does not block *)
Lemma promised_unblocked : forall ok k s x o, reach s -> ~ over (mode s) -> promised ok k s -> ~ blocked s x k o.
Proof.
  intros ok k s x o RE NO P B. destruct (blocked_frames _ _ _ _ RE B) as (w & st & SK & BF).
  assert (NN : stk (sc s) x <> []) by (rewrite SK; destruct w; discriminate).
  assert (AC : at_call s x w k o).
  { exists st. split; [exact SK|]. pose proof (stk_lstack _ _ RE NN) as L. rewrite SK in L. inversion L as [st0 U EQ|k0 o0 w0 st0 U SH EQ|w0 st0 ES EQ].
    - exfalso. inversion BF; subst; inversion U.
    - destruct (app_api_inj _ _ _ _ _ _ _ _ EQ (shape_noapi2 _ _ SH) (blk_noapi _ _ BF)) as (-> & -> & -> & ->). exact SH.
    - exfalso. inversion ES as [a1 s1 w1 Y|a1 s1|a1 w1 Y]; subst; try (inversion Y; subst); inversion BF; subst; discriminate EQ. }
  destruct (pr_at _ _ _ P NO _ _ _ AC) as [QK|[-> _]]; [|inversion BF]. inversion QK as [| |w0 Y|w0 OE Y| |]; subst; try (inversion Y; subst); inversion BF; subst; discriminate.
Qed.
