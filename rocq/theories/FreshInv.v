(** A coroutine does nothing before it is started; only signals 1..31 are watched. *)
From Coq Require Import List ZArith Bool Lia.
From Verif Require Import AATreeSpec AATreeHist Util Runtime SchedInv StepInv StackShape RuntimeSpec TraceInv Immediate Prims StaticInv Footprint QueueInv OwnInv WaitInv CallInv SpecInv TraceStep Wake Awake AllInv PausedInv ResultInv JoinInv PairedInv CancelInv CancelRes CancelSpec CancelSt WatchInv.
Import ListNotations.
Local Open Scope Z_scope.

Definition isstart (z : obs) : Prop := match z with TStart _ _ => True | _ => False end.
Lemma split_nostart : forall N T l1 p x l2, (forall z, In z N -> ~ isstart z) -> N ++ T = l1 ++ TStart p x :: l2 -> exists l, T = l ++ TStart p x :: l2.
Proof.
  induction N as [|z N IH]; intros T l1 p x l2 H Q; [eauto|]. destruct l1 as [|y l1]; cbn [app] in Q; injection Q as -> Q.
  - exfalso. apply (H (TStart p x)); [left; reflexivity | exact Logic.I].
  - eapply IH; [|exact Q]. intros w I. apply H. right. exact I.
Qed.
Definition late (s : state) : Prop := forall l1 l2 p x, tr s = l1 ++ TStart p x :: l2 -> forall z, In z l2 -> ~ acts x z.
Lemma late_step : forall s c k N, reach s -> cur (sc s) = Some c -> late s -> (forall z, In z N -> ~ isstart z) -> (forall z y, In z N -> acts y z -> y = c) ->
  forall l1 l2 p x, ctl_obs c (nextid (sc s) + 1) k ++ N ++ tr s = l1 ++ TStart p x :: l2 -> forall z, In z l2 -> ~ acts x z.
Proof.
  intros s c k N RE CU I NS AC l1 l2 p x Q z IZ A.
  assert (OLD : N ++ tr s = l1 ++ TStart p x :: l2 -> False).
  { intros Q2. apply split_nostart in Q2; [|exact NS]. destruct Q2 as (l & Q2). exact (I _ _ _ _ Q2 _ IZ A). }
  assert (OLD1 : forall w l, w :: N ++ tr s = w :: l -> l = l1 ++ TStart p x :: l2 -> False) by (intros w l QQ ->; injection QQ; exact OLD).
  destruct k; cbn [ctl_obs app] in Q; try (exact (OLD Q)).
  - destruct l1 as [|w l1]; cbn [app] in Q; injection Q as Q1 Q2.
    + subst. apply in_app_or in IZ. destruct IZ as [IZ|IZ].
      * rewrite <- (AC _ _ IZ A) in CU. exact (cur_notfresh _ _ (reach_full _ RE) CU eq_refl).
      * pose proof (reach_acted _ RE _ _ IZ A) as I2. apply (ti_ids _ (reach_tinv _ RE)) in I2. lia.
    + apply split_nostart in Q2; [|exact NS]. destruct Q2 as (l & Q2). exact (I _ _ _ _ Q2 _ IZ A).
  - destruct l1 as [|w l1]; cbn [app] in Q; [discriminate Q|]. injection Q as Q1 Q2.
    apply split_nostart in Q2; [|exact NS]. destruct Q2 as (l & Q2). exact (I _ _ _ _ Q2 _ IZ A).
Qed.
Lemma call_obs_in : forall c n o s z, In z (call_obs c n o s) -> ~ isstart z /\ forall y, acts y z -> y = c.
Proof.
  intros c n o s z I. destruct o; cbn in I; repeat (destruct I as [<-|I]; [split; [exact (fun x => x)|intros y A; cbn in A; try contradiction; congruence]|]); destruct I.
Qed.
Theorem reach_late : forall s, reach s -> late s.
Proof.
  apply rrun_preserves.
  - intros s c o d fs k sch md RE I M CU U NR E X l1 l2 p x Q. cbn [tr] in Q. rewrite (app_assoc (handler_obs _ _ _ _)) in Q.
    eapply late_step; [exact RE|exact CU|exact I| | |exact Q].
    + intros z IZ. apply in_app_or in IZ. destruct IZ as [IZ|IZ]; [apply handler_quiet in IZ; destruct IZ as (h & ->); exact (fun x => x) | apply (call_obs_in _ _ _ _ _ IZ)].
    + intros z y IZ A. apply in_app_or in IZ. destruct IZ as [IZ|IZ]; [apply handler_quiet in IZ; destruct IZ as (h & ->); cbn in A; congruence | apply (call_obs_in _ _ _ _ _ IZ), A].
  - intros s c v f rest b d fs k sch md RE I M CU SK L E X l1 l2 p x Q. cbn [tr] in Q. rewrite (app_assoc (handler_obs _ _ _ _)) in Q.
    eapply late_step; [exact RE|exact CU|exact I| | |exact Q].
    + intros z IZ. apply in_app_or in IZ. destruct IZ as [IZ|IZ]; [apply handler_quiet in IZ; destruct IZ as (h & ->) | apply ret_quiet in IZ; destruct IZ as (? & ? & ? & ? & ->)]; exact (fun x => x).
    + intros z y IZ A. apply in_app_or in IZ. destruct IZ as [IZ|IZ]; [apply handler_quiet in IZ; destruct IZ as (h & ->); cbn in A; congruence|].
      apply ret_quiet in IZ. destruct IZ as (? & ? & ? & ? & ->). destruct A.
  - intros s d ws sch md ios RE I M A K X. exact I.
  - intros s m RE I _. exact I.
  - intros s e RE I H M l1 l2 p x Q. destruct (env_tr s e H) as [Q2|(y & Q2)]; rewrite Q2 in Q; [exact (I _ _ _ _ Q)|].
    destruct l1 as [|w l1]; cbn [app] in Q; [discriminate Q|]. injection Q as _ Q. exact (I _ _ _ _ Q).
  - intros g O l1 l2 p x Q z IZ. cbn in Q. destruct l1 as [|w l1]; [injection Q as _ _ <-; destruct IZ|]. cbn in Q. injection Q as _ Q. destruct l1; discriminate Q.
Qed.

(** ** Only signals 1..31 are ever watched, and only on the main thread *)
Definition watchable (d : dat) (n : Z) : Prop := mainthread d = true /\ signo n.
Definition wrange (s : state) : Prop := forall x n, ~ watchable (dt s) n -> bit (dt s) x n = false.
Lemma wr_call : forall c o nw d d' fs k, hcall c o nw d = (d', fs, k) -> (forall x n, ~ watchable d n -> bit d x n = false) -> forall x n, ~ watchable d n -> bit d' x n = false.
Proof.
  intros c o nw d d' fs k E I x n SN.
  assert (SAME : sw d' = sw d /\ (forall x, sigwatch (cof d' x) = sigwatch (cof d x)) -> bit d' x n = false).
  { intros [_ SQ]. unfold bit. rewrite SQ. apply I, SN. }
  destruct (special o) eqn:SP; [|apply hcall_sp in E; [|exact SP]; apply SAME; eapply sp_sw; exact E].
  pose proof (hcall_special _ _ _ _ _ _ _ E SP) as H.
  assert (UP : forall f, (forall z, sigwatch (f z) = sigwatch z) -> bit (upco c f d) x n = false).
  { intros f F. unfold bit. cbn. unfold zupd. destruct (Z.eqb_spec x c) as [->|]; [rewrite F|]; apply I, SN. }
  destruct o; try discriminate SP.
  - apply SAME. eapply cancel_sw; exact H.
  - destruct H as (-> & _). apply UP. reflexivity.
  - destruct H as (-> & _). apply UP. reflexivity.
  - rename n0 into m. unfold do_sigwatch in H. destruct ((m <? 1) || (31 <? m)) eqn:R; [inj H; apply I, SN|]. destruct (mainthread d) eqn:MT; cbn [negb] in H; [|inj H; apply I, SN]. destruct (Z.testbit _ m); inj H; [apply I, SN|].
    unfold bit. cbn. unfold zupd. destruct (Z.eqb_spec x c) as [->|]; [|apply I, SN]. cbn. apply orb_false_iff in R. rewrite setbit by lia. destruct (Z.eqb_spec m n) as [->|]; [exfalso; apply SN; split; [exact MT | unfold signo; lia]|]. apply I, SN.
  - rename n0 into m. unfold do_sigunwatch in H. destruct ((m <? 1) || (31 <? m)) eqn:R; [inj H; apply I, SN|]. destruct (mainthread d) eqn:MT; cbn [negb] in H; [|inj H; apply I, SN]. destruct (negb _); inj H; [apply I, SN|].
    unfold bit. cbn. unfold zupd. destruct (Z.eqb_spec x c) as [->|]; [|apply I, SN]. cbn. apply orb_false_iff in R. rewrite clrbit by lia. rewrite andb_false_iff. right. apply I, SN.
  - destruct H as (-> & _). apply UP. reflexivity.
  - unfold do_cleanup_pop in H. destruct (cleanups _); [inj H; apply I, SN|]. destruct exec; inj H; apply UP; reflexivity.
  - apply SAME. eapply exits_sw; exact H.
Qed.
Lemma wr_ctl : forall (P : Z -> Prop) c m k d, (forall x n, ~ P n -> bit d x n = false) -> forall x n, ~ P n -> bit (ctl_dat c m k d) x n = false.
Proof.
  intros P c m k d I x n SN. unfold bit. destruct (Z.eq_dec x m) as [->|NE]; [|rewrite ctl_sigwatch by exact NE; apply I, SN].
  destruct k; cbn [ctl_dat]; try (apply I, SN).
  destruct (spawn_sigwatch (Some c) m isgen d) as [->|(y & l & _ & ->)]; [apply Z.testbit_0_l | apply I, SN].
Qed.
Theorem reach_wrange : forall s, reach s -> wrange s.
Proof.
  apply rrun_preserves.
  - intros s c o d fs k sch md RE I M CU U NR E X. unfold wrange, watchable. cbn [dt].
    pose proof (ctl_sw c (nextid (sc s) + 1) k d) as Q. unfold sw in Q. injection Q; intros -> _.
    rewrite (prims_const c bool mainthread) with (d' := d) (d := dt s); [|intros a b PP; destruct PP; reflexivity | eapply hcall_prims; exact E].
    apply (wr_ctl (fun n => mainthread (dt s) = true /\ signo n)). eapply wr_call; [exact E|exact I].
  - intros s c v f rest b d fs k sch md RE I M CU SK L E X. unfold wrange, watchable. cbn [dt].
    pose proof (ctl_sw c (nextid (sc s) + 1) k d) as Q. unfold sw in Q. injection Q; intros -> _. destruct (hret_sw _ _ _ _ _ _ _ _ _ E) as [Q2 B]. unfold sw in Q2. injection Q2; intros -> _.
    apply (wr_ctl (fun n => mainthread (dt s) = true /\ signo n)). intros x n SN. unfold bit. rewrite B. apply I, SN.
  - intros s d ws sch md ios RE I M A K X x n SN. cbn [dt] in *. unfold bit. destruct (mprims_sw _ _ (mp_main _ _ _ _ _ _ _ K)) as [Q ->]. unfold sw in Q. injection Q; intros Q2 _. unfold watchable in SN. rewrite Q2 in SN. apply I, SN.
  - intros s m RE I _. exact I.
  - intros s e RE I H M x n SN. unfold bit. rewrite (env_cof s e H).
    assert (EV : mainthread (dt (step s e)) = mainthread (dt s)).
    { destruct e; try destruct H; cbn; repeat match goal with |- context [if ?b then _ else _] => destruct b eqn:? | |- context [match mode ?z with _ => _ end] => destruct (mode z) | |- context [match stk (sc ?z) ?c with _ => _ end] => destruct (stk (sc z) c) as [|[] ?] end; auto. }
    unfold watchable in SN. rewrite EV in SN. apply I, SN.
  - intros g O x n SN. unfold bit. cbn. unfold zupd. destruct (_ =? _); apply Z.testbit_0_l.
Qed.
Lemma nobits : forall s x, reach s -> (mainthread (dt s) = true -> forall n, signo n -> bit (dt s) x n = false) -> sigwatch (cof (dt s) x) = 0.
Proof.
  intros s x RE H. apply Z.bits_inj'. intros n _. rewrite Z.testbit_0_l. change (bit (dt s) x n = false).
  destruct (mainthread (dt s)) eqn:MT; [|apply (reach_wrange _ RE); intros [Q _]; congruence].
  destruct (Z_le_dec 1 n); [destruct (Z_le_dec n 31)|]; [apply H; [reflexivity|split; assumption]| |]; apply (reach_wrange _ RE); unfold watchable, signo; lia.
Qed.
