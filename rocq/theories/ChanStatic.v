(** What about a channel never changes: its capacity and its owner; and once closed
    it stays closed. *)
From Coq Require Import List ZArith Bool Lia.
From Verif Require Import AATreeSpec AATreeHist Util Runtime SchedInv StepInv StackShape RuntimeSpec TraceInv Immediate Prims StaticInv Footprint QueueInv OwnInv WaitInv CallInv SpecInv TraceStep AtCall ResultInv WgInv ChanShape.
Import ListNotations.
Local Open Scope Z_scope.

Definition kept (a b : chrec) : Prop :=
  bufcap b = bufcap a /\ crt b = crt a /\ (sclosed a = true -> sclosed b = true) /\ (rclosed a = true -> rclosed b = true).
Definition keepch (d d' : dat) : Prop := (nchan d <= nchan d')%nat /\ rtid d' = rtid d /\ forall ch, (ch < nchan d)%nat -> kept (chn d ch) (chn d' ch).
Lemma kept_refl : forall a, kept a a.
Proof. intros a. repeat split; auto. Qed.
Lemma keepch_refl : forall d, keepch d d.
Proof. intros d. split; [lia|]. split; [reflexivity|]. intros. apply kept_refl. Qed.
Lemma keepch_trans : forall a b d, keepch a b -> keepch b d -> keepch a d.
Proof.
  intros a b d (A1 & A2 & A3) (B1 & B2 & B3). split; [lia|]. split; [congruence|]. intros ch L. destruct (A3 ch L) as (C1 & C2 & C3 & C4). destruct (B3 ch) as (D1 & D2 & D3 & D4); [lia|].
  unfold kept. repeat split; try congruence; auto.
Qed.
Lemma keepch_eq : forall d d', chn d' = chn d -> nchan d' = nchan d -> rtid d' = rtid d -> keepch d d'.
Proof. intros d d' A B C. unfold keepch. rewrite A, B, C. split; [lia|]. split; [reflexivity|]. intros. apply kept_refl. Qed.
Lemma keepch_up : forall ch f d, (forall x, kept x (f x)) -> keepch d (upch ch f d).
Proof.
  intros ch f d H. split; [cbn; lia|]. split; [reflexivity|]. intros c L. unfold upch. cbn. unfold nupd. destruct (Nat.eqb_spec c ch) as [->|]; [apply H | apply kept_refl].
Qed.
Lemma prims_keepch : forall c d d', prims c d d' -> keepch d d'.
Proof.
  intros c d d' P. induction P as [|d1 d2 P IH H]; [apply keepch_refl|]. eapply keepch_trans; [exact IH|]. clear IH P.
  inversion H; subst; try (apply keepch_eq; reflexivity); try (apply keepch_up; intros x; repeat split; auto).
  split; [cbn; lia|]. split; [reflexivity|]. intros ch L. cbn. rewrite nupd_neq by lia. apply kept_refl.
Qed.
Lemma mprims_keepch : forall d d', mprims d d' -> keepch d d'.
Proof.
  intros d d' P. induction P as [|d1 d2 P IH H]; [apply keepch_refl|]. eapply keepch_trans; [exact IH|]. inversion H; subst; apply keepch_eq; reflexivity.
Qed.
Lemma ctl_keepch : forall c n k d, keepch d (ctl_dat c n k d).
Proof.
  intros c n k d. destruct k; cbn [ctl_dat]; try apply keepch_refl; [|apply keepch_eq; reflexivity].
  unfold spawn_dat, popq, new_chan. destruct (q d QPool), isgen; cbn; try (apply keepch_eq; reflexivity);
    (split; [cbn; lia|]; split; [reflexivity|]; intros ch L; cbn; rewrite nupd_neq by lia; apply kept_refl).
Qed.
Lemma env_keepch : forall s e, match e with ECall _ | ETick _ | EMain _ => False | _ => True end -> keepch (dt s) (dt (step s e)).
Proof.
  intros s e H. destruct e; try contradiction; cbn [step]; unfold set_now, set_dt;
    repeat match goal with |- context [if ?b then _ else _] => destruct b eqn:? | |- context [match mode ?z with _ => _ end] => destruct (mode z) | |- context [match stk (sc ?z) ?c with _ => _ end] => destruct (stk (sc z) c) as [|[] ?] end;
    try (apply keepch_eq; reflexivity).
  split; [cbn; lia|]. split; [reflexivity|]. intros c L. cbn. rewrite nupd_neq by lia. apply kept_refl.
Qed.
Theorem step_keepch : forall s e, reach s -> keepch (dt s) (dt (step s e)).
Proof.
  intros s0 e RE0. apply (gstep_preserves (fun z => reach z /\ z = s0) (fun z => keepch (dt s0) (dt z))); try (intros ? [? ?]; apply reach_full; assumption); auto.
  - intros s c o d fs k sch md [RE ->] _ M CU U NR E X. cbn [dt]. eapply keepch_trans; [eapply prims_keepch, hcall_prims, E | apply ctl_keepch].
  - intros s c v f rest b d fs k sch md [RE ->] _ M CU SK L E X. cbn [dt]. eapply keepch_trans; [eapply prims_keepch, hret_prims, E | apply ctl_keepch].
  - intros s d ws sch md ios [RE ->] _ M A K X. cbn [dt]. apply mprims_keepch. eapply mp_main, K.
  - intros s m [RE ->] _ HM. apply keepch_refl.
  - intros s ev [RE ->] _ H M. apply env_keepch, H.
  - apply keepch_refl.
Qed.

(** a channel of this runtime with capacity [n]; a channel closed for senders *)
Definition isch (d : dat) (ch : nat) : Prop := (ch < nchan d)%nat /\ crt (chn d ch) = rtid d.
Definition mk (d : dat) (n v : Z) : Prop := exists ch, v = Z.of_nat ch /\ isch d ch /\ bufcap (chn d ch) = n.
Definition shut (d : dat) (ch : nat) : Prop := isch d ch /\ sclosed (chn d ch) = true.
Lemma keep_isch : forall d d' ch, keepch d d' -> isch d ch -> isch d' ch.
Proof. intros d d' ch (A & B & C) (L & K). destruct (C ch L) as (_ & C2 & _). split; [lia | congruence]. Qed.
Lemma keep_mk : forall d d' n v, keepch d d' -> mk d n v -> mk d' n v.
Proof. intros d d' n v K (ch & -> & I & B). exists ch. split; [reflexivity|]. split; [eapply keep_isch; eassumption|]. destruct K as (_ & _ & C). destruct (C ch (proj1 I)) as (C1 & _). congruence. Qed.
Lemma keep_shut : forall d d' ch, keepch d d' -> shut d ch -> shut d' ch.
Proof. intros d d' ch K (I & B). split; [eapply keep_isch; eassumption|]. destruct K as (_ & _ & C). destruct (C ch (proj1 I)) as (_ & _ & C3 & _). auto. Qed.

Record cstat (s : state) : Prop := {
  st_mk : forall k c n v t, In (TRet k c (OpChMake n) OK v t) (tr s) -> mk (dt s) n v;
  st_mkp : forall c k n, at_call s c [] k (OpChMake n) -> mode s = MRet OK -> mk (dt s) n (rbuf (cof (dt s) c));
  st_cl : forall k c ch v t, In (TRet k c (OpClose ch) OK v t) (tr s) -> shut (dt s) ch;
  st_clp : forall c w k ch, at_call s c w k (OpClose ch) -> w <> [] \/ mode s = MRet OK -> shut (dt s) ch }.

Lemma close_shut : forall (c : Z) ch d d' fs k, chd d -> do_close ch d = (d', fs, k) -> fs <> [] \/ k = CRet OK \/ k = CRet ECLOSED -> shut d' ch.
Proof.
  intros c ch d d' fs k D E H. unfold do_close in E. destruct (negb (chk_chan ch d =? OK)) eqn:CK.
  { injection E as <- <- <-. exfalso. destruct H as [H|[H|H]]; [congruence | |]; injection H as H; rewrite H in CK; [discriminate CK|]. clear CK. revert H. unfold chk_chan. destruct (crt (chn d ch) =? 0); [discriminate|]. destruct (negb _); discriminate. }
  pose proof (chk_ok _ _ (proj2 (proj2 D)) CK) as CR.
  assert (I : isch d ch). { split; [|exact CR]. destruct (Nat.lt_ge_cases ch (nchan d)) as [L|L]; [exact L|]. pose proof (proj1 (proj2 D) ch L). pose proof (proj2 (proj2 D)). lia. }
  destruct (sclosed (chn d ch)) eqn:SC; [injection E as <- <- <-; split; assumption|].
  assert (SH : shut (upch ch (set_sclosed true) d) ch) by (split; [eapply keep_isch; [apply keepch_up; intros x; repeat split; auto | exact I] | cbn; rewrite nupd_eq; reflexivity]).
  destruct (_ || _); [injection E as <- <- <-; exact SH|]. apply yfsr_cases in E. destruct E as (-> & _).
  eapply keep_shut; [|exact SH]. eapply keepch_trans; [apply (prims_keepch c), pr_close_loop|]. apply keepch_up. intros x. repeat split; auto.
Qed.
Theorem reach_cstat : forall s, reach s -> ~ over (mode s) -> cstat s.
Proof.
  apply (rrun_preserves (fun s => ~ over (mode s) -> cstat s)).
  - intros s c o d fs k sch md RE I M CU U NR E X _. destruct I as [I1 I2 I3 I4]; [rewrite M; exact (fun z => z)|]. pose proof (reach_full _ RE) as F. assert (NO : ~ over (mode s)) by (rewrite M; exact (fun z => z)).
    set (s' := mkst _ _ _ _ _ _). pose proof (prims_keepch _ _ _ (hcall_prims _ _ _ _ _ _ _ E)) as K1. pose proof (ctl_keepch c (nextid (sc s) + 1) k d) as K2.
    assert (K : keepch (dt s) (dt s')) by (eapply keepch_trans; eassumption). constructor.
    + intros kk cc n v t IN. eapply keep_mk; [exact K|]. eapply I1. eapply call_tr_rets, IN.
    + intros x kk n AC MD. destruct (call_at _ _ _ _ _ _ _ _ _ _ _ _ F CU U E X AC) as [(-> & EF & -> & <- & SH & NF)|(NE & A0)].
      * cbn [hcall] in E. unfold do_chmake in E. destruct (_ || _); injection E as <- <- <-; [cbn in X; injection X as <- <-; discriminate MD|]. exists (nchan (dt s)). cbn. unfold upco. cbn. rewrite zupd_eq. split; [reflexivity|]. split; [|rewrite nupd_eq; reflexivity].
        split; [cbn; lia|]. cbn. rewrite nupd_eq. reflexivity.
      * destruct (at_ret _ _ _ _ RE A0 (fun z => z) NO) as (_ & v & MV). congruence.
    + intros kk cc ch v t IN. eapply keep_shut; [exact K|]. eapply I3. eapply call_tr_rets, IN.
    + intros x w kk ch AC MD. destruct (call_at _ _ _ _ _ _ _ _ _ _ _ _ F CU U E X AC) as [(-> & -> & -> & <- & SH & NF)|(NE & A0)].
      * cbn [hcall] in E. eapply keep_shut; [exact K2|]. eapply (close_shut c); [apply (reach_chinv _ RE) | exact E|]. destruct MD as [MD|MD]; [auto|]. destruct fs as [|f0 fs]; [|left; discriminate].
        apply do_close_cases in E. destruct E as [(_ & v & ->)|(_ & [D|D])]; [|discriminate D..]. cbn in X. injection X as <- <-. cbn in MD. right. left. congruence.
      * destruct w as [|f0 w]; [destruct (at_ret _ _ _ _ RE A0 (fun z => z) NO) as (_ & v & MV); congruence|]. eapply keep_shut; [exact K|]. eapply I4; [exact A0 | left; discriminate].
  - intros s c v f rest b d fs k sch md RE I M CU SK L E X _. destruct I as [I1 I2 I3 I4]; [rewrite M; exact (fun z => z)|]. pose proof (reach_full _ RE) as F. assert (NO : ~ over (mode s)) by (rewrite M; exact (fun z => z)).
    set (s' := mkst _ _ _ _ _ _). assert (K : keepch (dt s) (dt s')) by (eapply keepch_trans; [eapply prims_keepch, hret_prims, E | apply ctl_keepch]).
    assert (API : forall kk p, f = FApi kk p -> at_call s c [] kk p) by (intros kk p ->; exists rest; split; [exact SK | constructor]). constructor.
    + intros kk cc n w t IN. eapply keep_mk; [exact K|]. apply tick_tr_rets in IN. destruct IN as [IN|(EF & -> & <- & -> & _)]; [eapply I1, IN|]. eapply I2; [apply API, EF | exact M].
    + intros x kk n AC MD. destruct (tick_at _ _ _ _ _ _ _ _ _ _ _ _ _ _ _ F CU SK L E X AC) as [(-> & NF & w1 & EF & SH & A0)|[(-> & _ & _ & D)|(NE & A0)]]; [|discriminate D|].
      * destruct A0 as (st & _ & SH0). inversion SH0.
      * destruct (at_ret _ _ _ _ RE A0 (fun z => z) NO) as (CX & _). congruence.
    + intros kk cc ch w t IN. eapply keep_shut; [exact K|]. apply tick_tr_rets in IN. destruct IN as [IN|(EF & -> & <- & -> & _)]; [eapply I3, IN|]. eapply I4; [apply API, EF | right; exact M].
    + intros x w kk ch AC MD. eapply keep_shut; [exact K|]. destruct (tick_at _ _ _ _ _ _ _ _ _ _ _ _ _ _ _ F CU SK L E X AC) as [(-> & NF & w1 & EF & SH & A0)|[(-> & _ & _ & D)|(NE & A0)]]; [|discriminate D|].
      * eapply I4; [exact A0 | left; discriminate].
      * destruct w as [|f0 w]; [destruct (at_ret _ _ _ _ RE A0 (fun z => z) NO) as (CX & _); congruence|]. eapply I4; [exact A0 | left; discriminate].
  - intros s d ws sch md ios RE I M A KM X _. destruct I as [I1 I2 I3 I4]; [rewrite M; exact (fun z => z)|]. assert (NO : ~ over (mode s)) by (rewrite M; exact (fun z => z)).
    apply sco_switch_frame in X. destruct X as (X1 & _). destruct (wakes_frame ws (sc s)) as (W0 & _). set (s' := mkst _ _ _ _ _ _).
    assert (K : keepch (dt s) (dt s')) by (apply mprims_keepch; eapply mp_main, KM).
    assert (AT : forall x w k o, at_call s' x w k o -> at_call s x w k o) by (intros x w k o AC; unfold at_call in *; cbn [sc s'] in AC; rewrite X1, W0 in AC; exact AC). constructor.
    + intros. eapply keep_mk; [exact K | eapply I1; eassumption].
    + intros x kk n AC MD. apply AT in AC. destruct (at_ret _ _ _ _ RE AC (fun z => z) NO) as (_ & v & MV). congruence.
    + intros. eapply keep_shut; [exact K | eapply I3; eassumption].
    + intros x w kk ch AC MD. apply AT in AC. destruct w as [|f0 w]; [destruct (at_ret _ _ _ _ RE AC (fun z => z) NO) as (_ & v & MV); congruence|]. eapply keep_shut; [exact K|]. eapply I4; [exact AC | left; discriminate].
  - intros s m RE I HM NU. destruct HM as [[EM HM]|[(-> & _)|[(j & ->)| ->]]]; try (destruct (NU Logic.I)). destruct I as [I1 I2 I3 I4]; [rewrite HM; exact (fun z => z)|]. assert (NO : ~ over (mode s)) by (rewrite HM; exact (fun z => z)). constructor; auto.
    + intros x kk n AC _. destruct (at_ret s _ _ _ RE AC (fun z => z) NO) as (_ & v & MV). congruence.
    + intros x w kk ch AC MD. destruct w as [|f0 w]; [destruct (at_ret s _ _ _ RE AC (fun z => z) NO) as (_ & v & MV); congruence|]. eapply I4; [exact AC | left; discriminate].
  - intros s e RE I H M NU. rewrite M in NU. destruct (I NU) as [I1 I2 I3 I4]. destruct (env_frame s e H) as (E1 & _). pose proof (env_keepch s e H) as K.
    assert (AT : forall x w k o, at_call (step s e) x w k o -> at_call s x w k o) by (intros x w k o AC; unfold at_call in *; rewrite E1 in AC; exact AC).
    assert (TR : forall k c o r v t, In (TRet k c o r v t) (tr (step s e)) -> In (TRet k c o r v t) (tr s)) by (intros k c o r v t IN; apply env_tr_in in IN; [|exact H]; destruct IN as [IN|(y & j & D)]; [exact IN | discriminate D]). constructor.
    + intros k c n v t IN. eapply keep_mk; [exact K | eapply I1, TR, IN].
    + intros x kk n AC MD. rewrite (env_cof s e H). eapply keep_mk; [exact K | eapply I2; [apply AT, AC | congruence]].
    + intros k c ch v t IN. eapply keep_shut; [exact K | eapply I3, TR, IN].
    + intros x w kk ch AC MD. eapply keep_shut; [exact K | eapply I4; [apply AT, AC | rewrite <- M; exact MD]].
  - intros g O _. constructor.
    + intros k c n v t [D|[]]. discriminate D.
    + intros c k n (st & SX & _). cbn in SX. unfold zupd in SX. destruct (_ =? _); discriminate SX.
    + intros k c n v t [D|[]]. discriminate D.
    + intros c w k ch (st & SX & _). cbn in SX. unfold zupd in SX. destruct (_ =? _); destruct w as [|? [|? ?]]; discriminate SX.
Qed.
