(** Deadlines: what the deadline of a waiting coroutine is, and when the mark
    "deadline passed" can be set. *)
From Coq Require Import List ZArith Bool Lia Sorted.
From Verif Require Import AATreeSpec AATreeHist AATreeProofs Util Runtime SchedInv StepInv StackShape RuntimeSpec TraceInv Prims StaticInv Footprint QueueInv OwnInv WaitInv.
Import ListNotations.
Local Open Scope Z_scope.

(** the deadline of the wait whose frames (without copause) are [st] *)
Definition sdl (st : list frame) : Z :=
  match st with
  | FLock _ :: FCvRelock _ _ :: _ => MAXI
  | _ :: FApi _ o :: _ => op_dl o
  | _ => MAXI
  end.

Lemma sdl_api : forall f k o st, sdl (f :: FApi k o :: st) = op_dl o.
Proof. intros []; reflexivity. Qed.

Lemma lstack_cvun : forall v m dl rest, lstack (FCvUnlocked v m dl :: rest) -> exists k st, rest = FApi k (OpCvWait v m dl) :: st.
Proof.
  intros v m dl rest L. inversion L as [st U|k o w st U SH EQ|w st ES EQ]; subst.
  - inversion U.
  - inversion SH; subst; cbn in EQ; try discriminate EQ;
      try (match goal with H : pz _ _ |- _ => inversion H; subst; discriminate EQ end);
      try (match goal with H : yf _ _ |- _ => inversion H; subst; try discriminate EQ end);
      try (match goal with H : pz _ _ |- _ => inversion H; subst; discriminate EQ end).
    injection EQ as -> -> -> <-. eauto.
  - inversion ES; subst; try discriminate EQ; match goal with H : yf _ _ |- _ => inversion H; subst; discriminate EQ end.
Qed.
Lemma lstack_cwait : forall id dl rest, lstack (FCancelWait id dl :: rest) -> exists k st, rest = FApi k (OpCancel id dl) :: st.
Proof.
  intros id dl rest L. inversion L as [st U|k o w st U SH EQ|w st ES EQ]; subst.
  - inversion U.
  - inversion SH; subst; cbn in EQ; try discriminate EQ;
      try (match goal with H : yf _ _ |- _ => inversion H; subst; discriminate EQ end);
      try (match goal with H : pz _ _ |- _ => inversion H; subst; try discriminate EQ end).
    injection EQ as -> -> <-. eauto.
  - inversion ES; subst; try discriminate EQ; match goal with H : yf _ _ |- _ => inversion H; subst; discriminate EQ end.
Qed.

Lemma quiet_deadline : forall c d d' x, quiet c d d' -> deadline (cof d' x) = deadline (cof d x).
Proof. intros c d d' x [_ Q _]. specialize (Q x). unfold hardc in Q. injection Q; auto. Qed.
Lemma enter_deadline : forall c f d x, deadline (cof (enter c f d) x) = deadline (cof d x).
Proof. intros c f d x. destruct f; try reflexivity; cbn; unfold zupd; destruct (Z.eqb_spec x c); subst; reflexivity. Qed.
Lemma enter_deadlined : forall c f d x, deadlined (cof (enter c f d) x) = deadlined (cof d x).
Proof. intros c f d x. destruct f; try reflexivity; cbn; unfold zupd; destruct (Z.eqb_spec x c); subst; reflexivity. Qed.
Lemma enter_canceled : forall c f d x, canceled (cof (enter c f d) x) = canceled (cof d x).
Proof. intros c f d x. destruct f; try reflexivity; cbn; unfold zupd; destruct (Z.eqb_spec x c); subst; reflexivity. Qed.
Lemma lv_deadline : forall c f d x, x <> c -> deadline (cof (lv c f d) x) = deadline (cof d x).
Proof.
  intros c f d x N. destruct f; try reflexivity; cbn; unfold pause_end; cbn; try destruct (_ <? _); cbn; rewrite ?zupd_neq by exact N; reflexivity.
Qed.
Lemma lv_deadlined : forall c f d x, deadlined (cof (lv c f d) x) = deadlined (cof d x).
Proof.
  intros c f d x. destruct f; try reflexivity; cbn; unfold pause_end; cbn; try destruct (_ <? _); cbn; unfold zupd; destruct (Z.eqb_spec x c); subst; reflexivity.
Qed.
Lemma outc_deadline : forall V c d d' fs k x, outc c V d d' fs k -> x <> c -> deadline (cof d' x) = deadline (cof d x).
Proof.
  intros V c d d' fs k x [Q N K|f rest dl d1 Q W N WD E| -> E2 E3| -> E2 E3] NE.
  - eapply quiet_deadline; exact Q.
  - transitivity (deadline (cof d1 x)); [|eapply quiet_deadline; exact Q].
    transitivity (deadline (cof (enter c f d1) x)); [|apply enter_deadline].
    apply copause_fs in E. destruct E as [(_ & _ & -> & _)|(_ & _ & _ & _ & ->)]; [reflexivity|].
    cbv zeta. destruct (_ <? _); cbn; rewrite zupd_neq by exact NE; reflexivity.
  - reflexivity.
  - reflexivity.
Qed.
(** the frames of a wait under copause *)
Lemma outc_pause : forall V c d d' fs k g r, outc c V d d' fs k -> fs = FPause :: g :: r ->
  exists dl, V g r dl /\ deadline (cof d' c) = dl.
Proof.
  intros V c d d' fs k g r [Q N K|f rest dl d1 Q W N WD E|_ -> E3|_ -> E3] EQ; try discriminate.
  - subst fs. specialize (N FPause (or_introl eq_refl)). discriminate.
  - apply copause_fs in E. destruct E as [(-> & _)|(-> & _ & _ & _ & ->)].
    + injection EQ as -> _. discriminate.
    + injection EQ as -> ->. exists dl. split; [exact WD|]. cbv zeta. destruct (_ <? _); cbn; rewrite zupd_eq; reflexivity.
Qed.
Lemma outc_fs_pause : forall V c d d' fs k st g r, outc c V d d' fs k -> fs ++ st = FPause :: g :: r -> nowait st ->
  exists r', fs = FPause :: g :: r' /\ r = r' ++ st.
Proof.
  intros V c d d' fs k st g r O EQ NS.
  destruct fs as [|f0 fs].
  - cbn in EQ. subst st. specialize (NS FPause (or_introl eq_refl)). discriminate.
  - cbn in EQ. injection EQ as -> EQ. destruct O as [Q N K|f rest dl d1 Q W N WD E|_ E2 E3|_ E2 E3]; try discriminate.
    + specialize (N FPause (or_introl eq_refl)). discriminate.
    + apply copause_fs in E. destruct E as [(E & _)|(E & _)].
      * injection E as E _. subst f. discriminate.
      * injection E as ->. cbn in EQ. injection EQ as -> <-. eauto.
Qed.

Lemma spawn_deadline : forall p n g d x, x <> n -> deadline (cof (spawn_dat p n g d) x) = deadline (cof d x).
Proof. intros p n g d x N. destruct (spawn_hardc p n g d x N) as [H _]. unfold hardc in H. injection H; auto. Qed.

Theorem reach_sdl : forall s, reach s -> forall x f rest, stk (sc s) x = FPause :: f :: rest ->
  deadline (cof (dt s) x) = sdl (f :: rest).
Proof.
  apply (rrun_preserves (fun s => forall x f rest, stk (sc s) x = FPause :: f :: rest ->
    deadline (cof (dt s) x) = sdl (f :: rest))).
  - intros s c o d fs k sch md RE I M CU U NR E X x f rest. cbn [sc dt].
    pose proof (reach_full _ RE) as F. pose proof (cur_notfresh _ _ F CU) as NF. pose proof (hcall_out _ _ _ _ _ _ _ E) as OC.
    assert (NW : nowait (stk (sc s) c)) by (apply ustack_nowait; [apply reach_wsh; exact RE|exact U]).
    assert (NW2 : nowait (FApi (ncalls s) o :: stk (sc s) c)) by (apply nowait_cons; [reflexivity|exact NW]).
    destruct (exec_stk_cases _ _ _ _ _ X NF x) as [[-> ->]|[(NE & -> & (g & ->) & ->)|(NE & -> & SP)]]; [|discriminate|].
    + cbn [stk set_stk]. rewrite zupd_eq. destruct k; try discriminate; intros EQ;
        (destruct (outc_fs_pause _ _ _ _ _ _ _ _ _ OC EQ NW2) as (r & -> & ->);
         destruct (outc_pause _ _ _ _ _ _ _ _ OC eq_refl) as (dl & [-> ->] & DL)); cbn [app]; rewrite sdl_api; try exact DL.
      cbn [ctl_dat]. rewrite spawn_deadline by (cbn in NF; lia). exact DL.
    + cbn [stk set_stk]. rewrite zupd_neq by exact NE. intros EQ. rewrite <- (I _ _ _ EQ).
      transitivity (deadline (cof d x)); [|eapply outc_deadline; [exact OC|exact NE]].
      destruct k; try reflexivity. cbn [ctl_dat]. apply spawn_deadline. eapply SP. reflexivity.
  - intros s c v f0 rest0 b d fs k sch md RE I M CU SK L E X x f rest. cbn [sc dt].
    pose proof (reach_full _ RE) as F. pose proof (cur_notfresh _ _ F CU) as NF.
    destruct (hret_out _ _ _ _ _ _ _ _ _ E) as (d0 & Q & OC).
    pose proof (reach_wsh _ RE c) as W. rewrite SK in W.
    assert (NP : f0 = FPause \/ f0 <> FPause) by (destruct f0; auto; right; discriminate).
    destruct (exec_stk_cases _ _ _ _ _ X NF x) as [[-> ->]|[(NE & -> & (g & ->) & ->)|(NE & -> & SP)]]; [|discriminate|].
    + cbn [stk set_stk]. rewrite zupd_eq. destruct NP as [->|NP].
      * cbn in E. inj E. cbn [app]. intros ->. exfalso. destruct (wsh_pause _ W) as (g & st & EQ & WG & _).
        injection EQ as <- _. discriminate.
      * pose proof (wsh_tl _ _ W NP) as NW.
        assert (GO : fs ++ rest0 = FPause :: f :: rest -> deadline (cof d c) = sdl (f :: rest)).
        { intros EQ. destruct (outc_fs_pause _ _ _ _ _ _ _ _ _ OC EQ NW) as (r & -> & ->).
          destruct (outc_pause _ _ _ _ _ _ _ _ OC eq_refl) as (dl & V & ->).
          assert (DEF : (exists m, f = FLock m) /\ (exists m ret, r = [FCvRelock m ret]) /\ dl = MAXI -> dl = sdl (f :: r ++ rest0)).
          { intros ((m & ->) & (m' & ret & ->) & ->). reflexivity. }
          destruct f0; try (apply DEF; exact V).
          - destruct V as (-> & -> & ->). destruct (lstack_cwait _ _ _ L) as (kk & st & ->). reflexivity.
          - destruct V as (-> & -> & ->). destruct (lstack_cvun _ _ _ _ L) as (kk & st & ->). reflexivity. }
        destruct k; try discriminate; try exact GO.
        cbn [ctl_dat]. rewrite spawn_deadline by (cbn in NF; lia). exact GO.
    + cbn [stk set_stk]. rewrite zupd_neq by exact NE. intros EQ. rewrite <- (I _ _ _ EQ).
      transitivity (deadline (cof d x)).
      * destruct k; try reflexivity. cbn [ctl_dat]. apply spawn_deadline. eapply SP. reflexivity.
      * rewrite (outc_deadline _ _ _ _ _ _ _ OC NE), lv_deadline by exact NE. eapply quiet_deadline; exact Q.
  - intros s d ws sch md ios RE I M A K X x f rest. cbn [sc dt].
    pose proof (mp_main _ _ _ _ _ _ _ K) as P. apply mprims_hard in P. destruct P as [P1 P2].
    apply sco_switch_frame in X. destruct X as (X1 & X2 & _). destruct (wakes_frame ws (sc s)) as (W1 & W2 & _).
    rewrite X1, W1. intros EQ. specialize (P2 x). unfold hardc in P2. injection P2; intros. rewrite <- (I _ _ _ EQ). assumption.
  - intros s m RE I _. exact I.
  - intros s e RE I H M x. destruct (env_frame s e H) as (E1 & _). destruct (env_hard s e H) as (E2 & E3 & E4).
    rewrite E1, E4. apply I.
  - intros g O x f rest. cbn. unfold zupd. destruct (_ =? _); discriminate.
Qed.

(** the deadline set is in order *)
Lemma outc_dls : forall V c d d' fs k, outc c V d d' fs k -> StronglySorted (lt dl_compare) (dls d) ->
  StronglySorted (lt dl_compare) (dls d').
Proof.
  intros V c d d' fs k [Q N K|f rest dl d1 Q W N WD E| -> E2 E3| -> E2 E3] SS; try exact SS.
  - destruct Q as [Q _ _]. unfold hard in Q. injection Q; intros. congruence.
  - assert (Q1 : dls (enter c f d1) = dls d).
    { transitivity (dls d1); [destruct f; reflexivity|]. destruct Q as [Q _ _]. unfold hard in Q. injection Q; intros. congruence. }
    apply copause_fs in E. destruct E as [(_ & _ & -> & _)|(_ & _ & _ & _ & ->)]; [congruence|].
    cbv zeta. destruct (_ <? _); cbn; [|congruence]. apply set_add_sorted; [apply dl_compare_good|congruence].
Qed.
Lemma lv_dls : forall c f d, StronglySorted (lt dl_compare) (dls d) -> StronglySorted (lt dl_compare) (dls (lv c f d)).
Proof.
  intros c f d SS. destruct f; try exact SS. cbn. unfold pause_end. cbv zeta. destruct (_ <? _); cbn; [|exact SS].
  apply set_del_sorted. exact SS.
Qed.
Lemma ctl_dls : forall c n k d, dls (ctl_dat c n k d) = dls d.
Proof.
  intros c n k d. destruct k; try reflexivity. cbn [ctl_dat]. pose proof (spawn_hard (Some c) n isgen d) as H. unfold hard in H. injection H; intros; assumption.
Qed.
Theorem reach_dls_sorted : forall s, reach s -> StronglySorted (lt dl_compare) (dls (dt s)).
Proof.
  apply (rrun_preserves (fun s => StronglySorted (lt dl_compare) (dls (dt s)))).
  - intros s c o d fs k sch md RE I M CU U NR E X. cbn [dt]. rewrite ctl_dls. eapply outc_dls; [eapply hcall_out; exact E|exact I].
  - intros s c v f rest b d fs k sch md RE I M CU SK L E X. cbn [dt]. rewrite ctl_dls.
    destruct (hret_out _ _ _ _ _ _ _ _ _ E) as (d0 & [Q _ _] & OC). eapply outc_dls; [exact OC|]. apply lv_dls.
    unfold hard in Q. injection Q; intros. congruence.
  - intros s d ws sch md ios RE I M A K X. cbn [dt].
    pose proof (mp_main _ _ _ _ _ _ _ K) as P. apply mprims_hard in P. destruct P as [P1 _]. unfold hard in P1. injection P1; intros. congruence.
  - intros s m RE I _. exact I.
  - intros s e RE I H M. destruct (env_hard s e H) as (_ & E3 & _). rewrite E3. exact I.
  - intros g O. constructor.
Qed.
