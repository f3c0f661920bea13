(** A coroutine that has ended, or is about to, is no generator any more; and before
    it stops being one its channel is closed. *)
From Coq Require Import List ZArith Bool Lia.
From Verif Require Import AATreeSpec AATreeHist Util Runtime SchedInv StepInv StackShape RuntimeSpec TraceInv Immediate Prims StaticInv Footprint QueueInv OwnInv WaitInv CallInv SpecInv TraceStep AllInv PairedInv CancelInv AtCall ChanShape ChanStatic.
Import ListNotations.
Local Open Scope Z_scope.

(** what a piece of code does to the generator of the running coroutine *)
Record gout (c : Z) (d d' : dat) (fs : list frame) (k : ctl) : Prop := {
  go_fin : forall a, In (FExitFin a) fs \/ k = CFinal a -> gen (cof d' c) = None;
  go_gen : forall a b, In (FExitGen a b) fs -> forall g, gen (cof d c) = Some g -> isch d g -> shut d' g;
  go_eq : forall x, gen (cof d' x) = gen (cof d x) }.
Lemma sp_gen : forall c d d', sp c d d' -> forall x, gen (cof d' x) = gen (cof d x).
Proof. intros c d d' S x. pose proof (sp_c _ _ _ S x) as Q. unfold spc in Q. congruence. Qed.
Lemma resume_all_gen : forall k n d x, popq_ok k -> gen (cof (resume_all k n d) x) = gen (cof d x).
Proof. intros k n d x H. apply (sp_gen 0), sp_resume_all, H. Qed.
Lemma coexit_rest_gout : forall c a d d' fs k, chd d -> coexit_rest c a d = (d', fs, k) -> gout c d d' fs k.
Proof.
  intros c a d d' fs k D E. unfold coexit_rest in E. match type of E with context [gen (cof ?x c)] => set (dd := x) in E end. match type of E with context [if ?x then yfsr _ _ else _] => set (sb := x) in E end.
  assert (GE : forall x, gen (cof dd x) = gen (cof d x)) by (intros x; unfold dd; rewrite !resume_all_gen by exact I; reflexivity).
  assert (KD : keepch d dd).
  { unfold dd. eapply keepch_trans; [|apply (prims_keepch c), pr_resume_all; exact I]. eapply keepch_trans; [|apply (prims_keepch c), pr_resume_all; exact I]. apply keepch_eq; reflexivity. }
  clearbody dd sb. destruct (gen (cof dd c)) as [g|] eqn:EG.
  - destruct (do_close g dd) as [[d1 fs1] k1] eqn:C. injection E as <- <- <-. assert (GS : forall x, gen (cof d1 x) = gen (cof dd x)) by (intros x; pose proof (sp_c _ _ _ (sp_do_close c _ _ _ _ _ C) x) as Q; unfold spc in Q; congruence).
    constructor.
    + intros b [IN|IN]; exfalso; apply do_close_cases in C; destruct C as [(-> & v & K)|(K & [->| ->])]; cbn in *; try congruence; intuition discriminate.
    + intros a0 b IN g0 G0 IC. rewrite GE in EG. assert (g0 = g) by congruence. subst g0. clear IN. apply (keep_isch _ _ _ KD) in IC. unfold do_close in C.
      assert (CK : chk_chan g dd = OK). { unfold chk_chan. destruct IC as [_ CR]. rewrite CR, Z.eqb_refl. destruct (Z.eqb_spec (rtid dd) 0) as [Z0|]; [|reflexivity]. destruct KD as (_ & KR & _). pose proof (proj2 (proj2 D)). lia. }
      rewrite CK in C. cbn [negb] in C. change (negb (OK =? OK)) with false in C. cbv iota in C. destruct (sclosed (chn dd g)) eqn:SC; [injection C as <- <- <-; split; assumption|].
      assert (SH : shut (upch g (set_sclosed true) dd) g) by (split; [eapply keep_isch; [apply keepch_up; intros x; repeat split; auto | exact IC] | cbn; rewrite nupd_eq; reflexivity]).
      destruct (_ || _); [injection C as <- <- <-; exact SH|]. apply yfsr_cases in C. destruct C as (-> & _).
      eapply keep_shut; [|exact SH]. eapply keepch_trans; [apply (prims_keepch c), pr_close_loop|]. apply keepch_up. intros x. repeat split; auto.
    + intros x. rewrite GS. apply GE.
  - assert (Q : d' = dd /\ forall a b, ~ In (FExitGen a b) fs).
    { destruct sb; [apply yfsr_cases in E; destruct E as (-> & _ & [->| ->])|injection E as <- <- <-]; split; auto; intros ? ? IN; cbn in IN; intuition discriminate. }
    destruct Q as [-> NG]. constructor; [intros; exact EG | intros a0 b IN; destruct (NG _ _ IN) | exact GE].
Qed.
Lemma coexit_async_gout : forall c d d' fs k, chd d -> coexit_async c d = (d', fs, k) -> gout c d d' fs k.
Proof.
  intros c d d' fs k D E. destruct (coexit_async_cases _ _ _ _ _ E) as [(h & l & CL & -> & -> & ->)|(CL & ER)]; [|eapply coexit_rest_gout; eassumption]. constructor.
  - intros a [IN|Q]; [cbn in IN; intuition discriminate | discriminate Q].
  - intros a b IN. cbn in IN. intuition discriminate.
  - intros x. cbn. unfold zupd. destruct (Z.eqb_spec x c) as [->|]; reflexivity.
Qed.
Lemma gout_noexit : forall c d d' fs k, noexit fs -> (forall b, k <> CFinal b) -> (forall x, gen (cof d' x) = gen (cof d x)) -> gout c d d' fs k.
Proof.
  intros c d d' fs k N NF H. constructor; [|intros a b IN; apply N in IN; discriminate IN | exact H]. intros a [IN|Q]; [apply N in IN; discriminate IN | destruct (NF _ Q)].
Qed.
Lemma cancel_gen : forall c id dl nw d d' fs k, do_cancel c id dl nw d = (d', fs, k) -> forall x, gen (cof d' x) = gen (cof d x).
Proof.
  intros c id dl nw d d' fs k E x. destruct (do_cancel_sp _ _ _ _ _ _ _ _ E) as [[Q _]|(_ & d1 & Q & _ & -> & _)]; rewrite <- (sp_gen _ _ _ Q x); [reflexivity|]. cbn. unfold zupd. destruct (Z.eqb_spec x id) as [->|]; reflexivity.
Qed.
Lemma shape_noexit : forall o w, shape o w -> noexit w.
Proof. intros o w SH f IN. destruct (exitf f) eqn:EF; [|reflexivity]. exfalso. eapply shape_noexf; [exact SH | exact IN|]. destruct f; try discriminate EF; exact I. Qed.
Lemma hcall_gout : forall c o nw d d' fs k, chd d -> hcall c o nw d = (d', fs, k) -> gout c d d' fs k.
Proof.
  intros c o nw d d' fs k D E. assert (DO : o = OpExit \/ o <> OpExit) by (destruct o; auto; right; discriminate). destruct DO as [->|NO]; [cbn [hcall] in E; eapply coexit_async_gout; eassumption|].
  assert (GE : forall x, gen (cof d' x) = gen (cof d x)).
  { intros x. destruct (special o) eqn:SP; [|apply hcall_sp in E; [|exact SP]; apply (sp_gen _ _ _ E)]. pose proof (hcall_special _ _ _ _ _ _ _ E SP) as S. destruct o; try discriminate SP; try congruence.
    all: try (eapply cancel_gen; exact S).
    all: try (destruct S as (-> & _); cbn; unfold zupd; destruct (Z.eqb_spec x c) as [->|]; reflexivity).
    all: unfold do_sigwatch, do_sigunwatch, do_cleanup_pop in S; repeat match type of S with context [if ?b then _ else _] => destruct b | context [match ?b with [] => _ | _ => _ end] => destruct b end; injection S as <- <- <-; auto; cbn; unfold zupd; destruct (Z.eqb_spec x c) as [->|]; reflexivity. }
  destruct (hcall_next _ _ _ _ _ _ _ E) as [N|[(h & -> & -> & -> & _)|(-> & N)]]; [| |congruence].
  - apply gout_noexit; [|intros b ->; destruct N | exact GE]. destruct k; first [contradiction | eapply shape_noexit; exact N].
  - apply gout_noexit; [intros f [<-|[]]; reflexivity | discriminate | exact GE].
Qed.
(** the same for a step inside the library *)
Lemma hret_gout : forall c f v b nw d d' fs k, chd d -> hret c f v b nw d = (d', fs, k) ->
  gout c d d' fs k \/ (exists a t, f = FExitGen a t /\ gen (cof d' c) = None /\ (forall x, x <> c -> gen (cof d' x) = gen (cof d x)) /\ forall a0 b0, ~ In (FExitGen a0 b0) fs) \/
  (exists a, f = FExitFin a /\ d' = d /\ fs = []).
Proof.
  intros c f v b nw d d' fs k D E. destruct (endf f) eqn:EF.
  - left. assert (DF : f = FEntry \/ f <> FEntry) by (destruct f; auto; right; discriminate). destruct DF as [->|NF]; [cbn [hret] in E; eapply coexit_rest_gout; eassumption|].
    destruct (hret_endf _ _ _ _ _ _ _ _ _ E EF NF) as [H|(NX & NK & _)]; [eapply coexit_async_gout; eassumption|]. apply gout_noexit; [exact NX | exact NK|].
    assert (EG : forall (a : Z) b0, exits c d d' fs k -> gen (cof d' b0) = gen (cof d b0)).
    { intros _ x [h l _ -> _ _|a ER]; [cbn; unfold zupd; destruct (Z.eqb_spec x c) as [->|]; reflexivity | apply (go_eq _ _ _ _ _ (coexit_rest_gout _ _ _ _ _ _ D ER))]. }
    intros x. apply hret_sp in E. destruct f; try discriminate EF; try congruence.
    + destruct E as [E|(_ & _ & E)]; [apply (sp_gen _ _ _ E) | apply (EG 0), E].
    + destruct E as [E|(_ & _ & E)]; [apply (sp_gen _ _ _ E) | apply (EG 0), E].
    + destruct E as [E|(_ & _ & E)]; [apply (sp_gen _ _ _ E) | apply (EG 0), E].
    + apply (EG 0), E.
  - destruct (exitf f) eqn:XF.
    + right. destruct f; try discriminate XF; apply hret_sp in E; cbn in E.
      * left. exists async, sched. split; [reflexivity|]. destruct E as (-> & H). split; [cbn; rewrite zupd_eq; reflexivity|]. split; [intros x N; cbn; rewrite zupd_neq by exact N; reflexivity|].
        intros a0 b0 IN. destruct H as [(-> & _)|H]; [destruct IN|]. apply yfsr_cases in H. destruct H as (_ & _ & [->| ->]); cbn in IN; intuition discriminate.
      * right. exists async. destruct E as (-> & -> & _). auto.
    + left. destruct (hret_noexit2 _ _ _ _ _ _ _ _ _ E EF XF) as (NX & NK & _). apply gout_noexit; [exact NX | exact NK|].
      intros x. apply hret_sp in E. destruct f; try discriminate EF; try discriminate XF; try (apply (sp_gen _ _ _ E)). apply cancel_gen with (x := x) in E. exact E.
Qed.
Lemma prims_gen : forall c d d', prims c d d' -> forall x g, gen (cof d' x) = Some g -> gen (cof d x) = Some g.
Proof.
  intros c d d' P. induction P as [|d1 d2 P IH H]; intros x g E; [exact E|]. apply IH. clear IH P. revert E. inversion H; subst; cbn; auto;
    try (unfold upco; cbn; unfold zupd; destruct (_ =? _) eqn:EQ; cbn; auto; try (apply Z.eqb_eq in EQ; subst; auto; discriminate)).
Qed.

Record gx (s : state) : Prop := {
  gx_exit : forall x, In x (exited (tr s)) -> gen (cof (dt s) x) = None;
  gx_fin : forall x a, In (FExitFin a) (stk (sc s) x) -> gen (cof (dt s) x) = None }.
Lemma ctl_gen : forall c n k d x, x <> n -> gen (cof (ctl_dat c n k d) x) = gen (cof d x).
Proof.
  intros c n k d x N. destruct k; cbn [ctl_dat]; try reflexivity. rewrite spawn_cof by exact N. destruct (x =? c); [|reflexivity]. destruct isgen; reflexivity.
Qed.
Lemma gen_none : forall c d d', prims c d d' -> forall x, gen (cof d x) = None -> gen (cof d' x) = None.
Proof. intros c d d' P x H. destruct (gen (cof d' x)) as [g|] eqn:E; [|reflexivity]. rewrite (prims_gen _ _ _ P _ _ E) in H. discriminate H. Qed.
Lemma gx_exec : forall s c d fs rest k sch md nc N, reach s -> gx s -> cur (sc s) = Some c -> prims c (dt s) d ->
  (forall a, In (FExitFin a) fs \/ k = CFinal a -> gen (cof d c) = None) -> (forall a, In (FExitFin a) rest -> In (FExitFin a) (stk (sc s) c)) -> exited N = ended c k ++ exited (tr s) ->
  exec c k (set_stk (zupd (stk (sc s)) c (fs ++ rest)) (sc s)) = (sch, md) ->
  gx (mkst sch (ctl_dat c (nextid (sc s) + 1) k d) md (now s) nc N).
Proof.
  intros s c d fs rest k sch md nc N RE [G1 G2] CU P FIN SUB EN X. pose proof (reach_full _ RE) as F. pose proof (cur_notfresh _ _ F CU) as NC. pose proof (reach_tinv _ RE) as TI. split; cbn [dt sc tr].
  - intros x IX. rewrite EN in IX. apply in_app_or in IX.
    assert (XN : x <> nextid (sc s) + 1) by (destruct IX as [IX|IX]; [destruct k; cbn in IX; try destruct IX; try contradiction; congruence | apply (ti_sub _ TI), (ti_ids _ TI) in IX; lia]).
    rewrite ctl_gen by exact XN. destruct IX as [IX|IX]; [|eapply gen_none; [exact P | apply G1, IX]]. destruct k; cbn in IX; try contradiction. destruct IX as [<-|[]]. eapply FIN. right. reflexivity.
  - intros x a IN. destruct (exec_stk_cases _ _ _ _ _ X NC x) as [(-> & Q)|[(_ & -> & (g & ->) & Q)|(NE & Q & NS)]]; rewrite Q in IN.
    + rewrite ctl_gen by congruence. assert (IN' : In (FExitFin a) (fs ++ rest)) by (destruct k; try (cbn in IN; rewrite zupd_eq in IN; exact IN); destruct IN).
      apply in_app_or in IN'. destruct IN' as [I1|I1]; [eapply FIN; left; exact I1|]. eapply gen_none; [exact P|]. eapply G2, SUB, I1.
    + cbn in IN. intuition discriminate.
    + cbn in IN. rewrite zupd_neq in IN by exact NE. assert (XN : x <> nextid (sc s) + 1). { intros ->. rewrite (stk_fresh _ F) in IN; destruct IN. }
      rewrite ctl_gen by exact XN. eapply gen_none; [exact P | eapply G2, IN].
Qed.
Theorem reach_gx : forall s, reach s -> gx s.
Proof.
  apply rrun_preserves.
  - intros s c o d fs k sch md RE I M CU U NR E X. eapply (gx_exec s c d fs (FApi (ncalls s) o :: stk (sc s) c)); try eassumption.
    + eapply hcall_prims, E.
    + apply (go_fin _ _ _ _ _ (hcall_gout _ _ _ _ _ _ _ (proj1 (reach_chinv _ RE)) E)).
    + intros a [H|H]; [discriminate H | exact H].
    + rewrite !exited_app, exited_ctl, exited_handler, exited_call. reflexivity.
  - intros s c v f rest b d fs k sch md RE I M CU SK L E X. eapply (gx_exec s c d fs rest); try eassumption.
    + eapply hret_prims, E.
    + destruct (hret_gout _ _ _ _ _ _ _ _ _ (proj1 (reach_chinv _ RE)) E) as [H|[(a & t & -> & H & _)|(a & -> & -> & ->)]]; [apply (go_fin _ _ _ _ _ H) | intros; exact H|].
      intros _ _. apply (gx_fin _ I c a). rewrite SK. left. reflexivity.
    + intros a H. rewrite SK. right. exact H.
    + rewrite !exited_app, exited_ctl, exited_handler, exited_ret. reflexivity.
  - intros s d ws sch md ios RE I M A K X. pose proof (mp_main _ _ _ _ _ _ _ K) as MP.
    assert (C : forall dd d', mprims dd d' -> forall x, gen (cof d' x) = gen (cof dd x)).
    { clear. intros dd d' P x. induction P; [auto|]. rewrite <- IHP. destruct H; cbn; auto; unfold zupd; destruct (Z.eqb_spec x c); subst; reflexivity. }
    assert (ST : forall x, stk sch x = stk (sc s) x) by (intros x; apply sco_switch_frame in X; destruct X as (X1 & _); destruct (wakes_frame ws (sc s)) as (W1 & _); rewrite X1, W1; reflexivity).
    destruct I as [I1 I2]. split; cbn [dt tr sc]; intros x; rewrite (C _ _ MP); auto. intros a. rewrite ST. apply I2.
  - intros s m RE I _. destruct I; split; assumption.
  - intros s e RE I H M. destruct I as [I1 I2]. split.
    + destruct (env_tr s e H) as [Q|(y & Q)]; rewrite Q; intros x IX; rewrite (env_cof s e H); auto.
    + intros x a. rewrite (env_cof s e H), (proj1 (env_frame s e H)). apply I2.
  - intros g O. split; cbn.
    + intros x [].
    + intros x a J. unfold zupd in J. destruct (_ =? _); [destruct J as [J|[]]; discriminate | destruct J].
Qed.

(** a coroutine that is started gets no stale generator: its channel is new *)
Lemma spawn_gen2 : forall s c d n isg v, reach s -> prims c (dt s) d -> gen (cof (spawn_dat (Some c) n isg d) n) = Some v ->
  isg = true /\ v = nchan d /\ isch (spawn_dat (Some c) n isg d) v.
Proof.
  intros s c d n isg v RE P. unfold spawn_dat. destruct (popq QPool d) as [pp d1] eqn:PO.
  assert (C1 : cof d1 = cof d /\ nchan d1 = nchan d /\ rtid d1 = rtid d) by (unfold popq in PO; destruct (q d QPool); injection PO as <- <-; repeat split; reflexivity). destruct C1 as (C1 & N1 & R1).
  assert (ST : forall pn, pp = Some pn -> gen (cof d (node_co pn)) = None).
  { intros pn ->. assert (IN : In pn (q d QPool)) by (unfold popq in PO; destruct (q d QPool); [discriminate PO|]; injection PO as -> _; left; reflexivity).
    eapply prims_sysq in IN; [|exact P|exact Logic.I]. destruct IN as [IN|(D & _)]; [|discriminate D].
    destruct (so_nco _ _ (reach_sysok _ RE) _ QPool Logic.I IN) as (z & ->). cbn [node_co]. eapply gen_none; [exact P|]. apply (gx_exit _ (reach_gx _ RE)), (reach_poolx _ RE), IN. }
  destruct pp as [pn|], isg; cbn [new_chan]; cbn; rewrite ?zupd_eq, ?C1; cbn; rewrite ?(ST _ eq_refl); intros E; try discriminate E;
    (split; [reflexivity|]; injection E as <-; rewrite N1; split; [reflexivity|]; split; cbn; [lia|]; unfold nupd; rewrite Nat.eqb_refl; reflexivity).
Qed.
