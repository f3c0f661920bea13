(** The cleanup handlers of a coroutine are those it has pushed and that were neither
    popped nor run, as long as coroutine functions pop their handlers before they return. *)
From Coq Require Import List ZArith Bool Lia.
From Verif Require Import AATreeSpec AATreeHist Util Runtime SchedInv StepInv StackShape RuntimeSpec TraceInv Immediate Prims StaticInv Footprint QueueInv OwnInv WaitInv CallInv SpecInv TraceStep Wake Awake AllInv PausedInv ResultInv JoinInv PairedInv CancelInv CancelRes CancelSpec CancelSt.
Import ListNotations.
Local Open Scope Z_scope.

(** a coroutine step that starts a handler *)
Lemma hcall_user : forall c o nw d d' fs k, hcall c o nw d = (d', fs, k) -> o <> OpExit -> o <> OpCleanupPop true -> handler_obs c fs k d = [].
Proof.
  intros c o nw d d' fs k E N1 N2. destruct (hcall_next _ _ _ _ _ _ _ E) as [N|[(h & -> & _)|(-> & _)]]; [|congruence|congruence]. destruct k; try destruct N; reflexivity.
Qed.
Lemma call_hs : forall c o n s T, (forall h, o <> OpCleanupPush h) -> o <> OpCleanupPop false -> handlers c (call_obs c n o s ++ T) = handlers c T.
Proof. intros c o n s T N1 N2. destruct o; try reflexivity; [destruct (N1 h eq_refl)|]. destruct exec; [reflexivity | congruence]. Qed.
Lemma exits_hs : forall c d d' fs k T, coexit_async c d = (d', fs, k) -> handlers c T = cleanups (cof d c) -> handlers c (handler_obs c fs k d ++ T) = cleanups (cof d' c).
Proof.
  intros c d d' fs k T E H. destruct (coexit_async_cases _ _ _ _ _ E) as [(h & l & CL & -> & -> & ->)|(CL & ER)].
  - unfold handler_obs. rewrite CL. cbn. rewrite Z.eqb_refl, zupd_eq, H, CL. reflexivity.
  - assert (HO : handler_obs c fs k d = []) by (unfold handler_obs; rewrite CL; destruct k; auto; destruct fs as [|[] ?]; reflexivity).
    rewrite HO. cbn. rewrite H. symmetry. eapply coexit_rest_cl; exact ER.
Qed.
Lemma hcall_hs : forall c o nw d d' fs k n s T, hcall c o nw d = (d', fs, k) -> handlers c T = cleanups (cof d c) ->
  handlers c (handler_obs c fs k d ++ call_obs c n o s ++ T) = cleanups (cof d' c).
Proof.
  intros c o nw d d' fs k n s T E H.
  assert (D : o = OpExit \/ (exists b, o = OpCleanupPop b) \/ (exists h, o = OpCleanupPush h) \/ (o <> OpExit /\ (forall b, o <> OpCleanupPop b) /\ forall h, o <> OpCleanupPush h)).
  { destruct o; eauto; right; right; right; repeat split; intros; discriminate. }
  destruct D as [->|[(b & ->)|[(h & ->)|(N1 & N2 & N3)]]].
  - cbn [hcall] in E. eapply exits_hs; [exact E|]. rewrite call_hs by discriminate. exact H.
  - cbn [hcall] in E. unfold do_cleanup_pop in E. destruct (cleanups (cof d c)) as [|h l] eqn:CL.
    + inj E. destruct b; cbn; rewrite ?Z.eqb_refl, H, CL; reflexivity.
    + destruct b; inj E; unfold handler_obs; rewrite ?CL; cbn; rewrite Z.eqb_refl, zupd_eq, H; reflexivity.
  - cbn [hcall] in E. inj E. cbn. rewrite Z.eqb_refl, zupd_eq, H. reflexivity.
  - rewrite (hcall_user _ _ _ _ _ _ _ E) by auto. cbn [app]. rewrite call_hs by auto. rewrite H.
    destruct (special o) eqn:SP; [|apply hcall_sp in E; [|exact SP]; symmetry; apply (sp_cl _ _ _ E)].
    pose proof (hcall_special _ _ _ _ _ _ _ E SP) as S. symmetry. destruct o; try discriminate SP; try congruence; try (destruct (N2 exec eq_refl)); try (destruct (N3 h eq_refl)).
    + destruct (do_cancel_sp _ _ _ _ _ _ _ _ S) as [[Q _]|(_ & d1 & Q & _ & -> & _)]; [apply (sp_cl _ _ _ Q)|]. rewrite <- (sp_cl _ _ _ Q c). cbn. unfold zupd. destruct (Z.eqb_spec c id) as [->|]; reflexivity.
    + destruct S as (-> & _). cbn. rewrite zupd_eq. reflexivity.
    + destruct S as (-> & _). cbn. rewrite zupd_eq. reflexivity.
    + unfold do_sigwatch in S. repeat match type of S with context [if ?b then _ else _] => destruct b end; inj S; auto; cbn; rewrite zupd_eq; reflexivity.
    + unfold do_sigunwatch in S. repeat match type of S with context [if ?b then _ else _] => destruct b end; inj S; auto; cbn; rewrite zupd_eq; reflexivity.
Qed.
Definition asyncf (f : frame) : bool := match f with FApi _ _ | FCoyield | FCvRelock _ _ | FExitLoop | FEntry => true | _ => false end.
Ltac nu E := repeat match type of E with
  | (let '(_, _) := ?p in _) = _ => destruct p as [? ?]
  | context [let '(_, _) := ?p in _] => destruct p as [? ?]
  | context [if ?b then _ else _] => destruct b end; inversion E; reflexivity.
Lemma hret_user : forall c f v b nw d d' fs k, hret c f v b nw d = (d', fs, k) -> asyncf f = false -> handler_obs c fs k d = [].
Proof.
  intros c f v b nw d d' fs k E A. assert (NU : k <> CUser); [|destruct k; try reflexivity; congruence].
  intros ->. destruct f; try discriminate A; cbn [hret] in E; unfold sleep_end, sigwait_end, wait_end, send_end, recv_end, select_end, lock_end, wgwait_end, cvwait_unlocked, cvwait_end, join_end, suspend_end, work_submit, exit_gen, do_cancel, cv_relock, finish_lock, yfsr, coyield, copause in E; cbv zeta in E;
  repeat match type of E with
  | (let '(_, _) := ?p in _) = _ => destruct p as [? ?]
  | context [let '(_, _) := ?p in _] => destruct p as [? ?]
  | context [if ?b then _ else _] => destruct b end; discriminate E.
Qed.
Lemma hret_hs : forall c f v b nw d d' fs k T, hret c f v b nw d = (d', fs, k) -> handlers c T = cleanups (cof d c) ->
  (f = FEntry -> cleanups (cof d c) = []) -> handlers c (handler_obs c fs k d ++ T) = cleanups (cof d' c).
Proof.
  intros c f v b nw d d' fs k T E H FE. destruct (asyncf f) eqn:A.
  - destruct f; try discriminate A; cbn [hret] in E.
    + specialize (FE eq_refl). unfold handler_obs. rewrite FE. assert (HO : match k with CUser => match fs with FExitLoop :: _ | FHandler :: _ => @nil obs | _ => [] end | _ => [] end = []) by (destruct k; auto; destruct fs as [|[] ?]; auto).
      rewrite (coexit_rest_cl _ _ _ _ _ _ E), <- H. destruct k; auto; destruct fs as [|[] ?]; reflexivity.
    + destruct (_ && _); [eapply exits_hs; eassumption|]. inj E. exact H.
    + destruct (_ && _); [eapply exits_hs; eassumption|]. inj E. exact H.
    + destruct (_ =? _); [inj E; exact H|]. destruct (_ && _); [eapply exits_hs; eassumption|].
      assert (NU : k <> CUser). { intros ->. unfold cv_relock, finish_lock, copause in E. cbv zeta in E. destruct (negb _); [discriminate E|]. destruct (mu_trylock _ _ _ _ _ _) as [v1 d1]. destruct (_ =? _); [destruct (_ || _)|]; discriminate E. }
      replace (handler_obs c fs k d) with (@nil obs) by (destruct k; try reflexivity; congruence). cbn [app]. rewrite H. symmetry. apply sp_cv_relock in E. apply (sp_cl _ _ _ E).
    + eapply exits_hs; eassumption.
  - rewrite (hret_user _ _ _ _ _ _ _ _ _ E A). cbn [app]. rewrite H. symmetry. apply hret_sp in E. destruct f; try discriminate A; try apply (sp_cl _ _ _ E).
    + destruct (do_cancel_sp _ _ _ _ _ _ _ _ E) as [[Q _]|(_ & d1 & Q & _ & -> & _)]; [apply (sp_cl _ _ _ Q c)|]. change (cof d c) with (cof (rmq (NCo c) d) c). rewrite <- (sp_cl _ _ _ Q c). cbn. unfold zupd. destruct (Z.eqb_spec c id) as [->|]; reflexivity.
    + destruct E as (-> & _). cbn. rewrite zupd_eq. reflexivity.
    + destruct E as (-> & _). reflexivity.
Qed.
Lemma spawn_cl : forall p n g d, cleanups (cof (spawn_dat p n g d) n) = [] \/
  exists y l, q d QPool = y :: l /\ cleanups (cof (spawn_dat p n g d) n) = cleanups (cof d (node_co y)).
Proof.
  intros p n g d. unfold spawn_dat. destruct (popq QPool d) as [pp d1] eqn:P. unfold popq in P.
  destruct (q d QPool) as [|y l]; inj P.
  - left. destruct g; destruct p; cbn; rewrite ?zupd_eq; reflexivity.
  - right. exists y, l. split; [reflexivity|]. destruct g; destruct p; cbn; rewrite ?zupd_eq; reflexivity.
Qed.
Record hs (s : state) : Prop := {
  hs_eq : forall x, In x (started (tr s)) -> cleanups (cof (dt s) x) = handlers x (tr s);
  hs_ex : forall x, In x (exited (tr s)) -> cleanups (cof (dt s) x) = [] }.
Lemma handlers_other : forall x c N T, x <> c -> (forall z y, In z N -> acts y z -> y = c) -> handlers x (N ++ T) = handlers x T.
Proof.
  intros x c N T NE H. induction N as [|z N IH]; [reflexivity|]. cbn [app].
  assert (IH' : handlers x (N ++ T) = handlers x T) by (apply IH; intros z0 y0 I A; eapply H; [right; exact I | exact A]).
  pose proof (fun y A => H z y (or_introl eq_refl) A) as HZ. destruct z; cbn [handlers]; auto.
  - pose proof (HZ c0 eq_refl) as ->. assert (Q : c =? x = false) by (apply Z.eqb_neq; congruence). destruct o; auto; [rewrite Q; exact IH'|]. destruct exec; [exact IH' | rewrite Q; exact IH'].
  - pose proof (HZ c0 eq_refl) as ->. assert (Q : c =? x = false) by (apply Z.eqb_neq; congruence). rewrite Q. exact IH'.
Qed.
Lemma handlers_none : forall x T, (forall z, In z T -> ~ acts x z) -> handlers x T = [].
Proof.
  intros x T. induction T as [|z T IH]; intros H; [reflexivity|]. assert (IH' : handlers x T = []) by (apply IH; intros z0 I; apply H; right; exact I).
  pose proof (H z (or_introl eq_refl)) as HZ. destruct z; cbn [handlers]; auto; cbn in HZ; destruct (Z.eqb_spec c x) as [->|NE]; try congruence; auto. destruct o; auto. destruct exec; auto.
Qed.
Lemma ctl_cl : forall c n k d x, x <> n -> cleanups (cof (ctl_dat c n k d) x) = cleanups (cof d x).
Proof. intros c n k d x N. destruct k; cbn [ctl_dat]; auto. apply spawn_cleanups, N. Qed.
Lemma hs_exec : forall s c d k N sch md nc, reach s -> hs s -> cur (sc s) = Some c -> prims c (dt s) d ->
  (forall x, x <> c -> cleanups (cof d x) = cleanups (cof (dt s) x)) ->
  (forall z y, In z N -> acts y z -> y = c) -> started N = [] -> exited N = [] ->
  handlers c (N ++ tr s) = cleanups (cof d c) -> (forall b, k = CFinal b -> cleanups (cof d c) = []) ->
  hs (mkst sch (ctl_dat c (nextid (sc s) + 1) k d) md (now s) nc (ctl_obs c (nextid (sc s) + 1) k ++ N ++ tr s)).
Proof.
  intros s c d k N sch md nc RE I CU P OT NA SN EN OWN FIN. pose proof (reach_tinv _ RE) as TI. pose proof (cur_in_started _ _ RE CU) as CS.
  assert (CTL : forall x T, handlers x (ctl_obs c (nextid (sc s) + 1) k ++ T) = handlers x T) by (intros x T; destruct k; reflexivity).
  assert (ALL : forall x, In x (started (tr s)) -> cleanups (cof d x) = handlers x (N ++ tr s)).
  { intros x IX. destruct (Z.eq_dec x c) as [->|NE]; [auto|]. rewrite OT by exact NE. rewrite (hs_eq _ I x IX). symmetry. eapply handlers_other; eassumption. }
  assert (EXX : forall x, In x (exited (tr s)) -> cleanups (cof d x) = []).
  { intros x IX. destruct (Z.eq_dec x c) as [->|NE]; [|rewrite OT by exact NE; apply (hs_ex _ I), IX].
    exfalso. destruct (reach_full _ RE) as [[SI _] _]. destruct (cur_alive _ _ SI CU) as [AL _]. apply (ti_alive _ TI) in AL. destruct AL; contradiction. }
  split; cbn [tr dt].
  - intros x IX. rewrite !started_app, started_ctl, SN in IX. cbn [app] in IX. rewrite CTL. apply in_app_or in IX. destruct IX as [IX|IX].
    + assert (XN : exists g, k = CSpawn g /\ x = nextid (sc s) + 1) by (destruct k; cbn in IX; try destruct IX; try contradiction; eauto). destruct XN as (g & -> & ->).
      rewrite handlers_none.
      2:{ intros z IZ A. apply in_app_or in IZ. destruct IZ as [IZ|IZ].
          - apply (cur_notfresh _ _ (reach_full _ RE) CU). eapply NA; eassumption.
          - pose proof (reach_acted _ RE _ _ IZ A) as H. apply (ti_ids _ TI) in H. lia. }
      cbn [ctl_dat]. destruct (spawn_cl (Some c) (nextid (sc s) + 1) g d) as [H|(y & l & QP & H)]; [exact H|]. rewrite H.
      assert (IN : In y (q d QPool)) by (rewrite QP; left; reflexivity).
      eapply prims_sysq in IN; [|exact P|exact Logic.I]. destruct IN as [IN|(D & _)]; [|discriminate D].
      destruct (so_nco _ _ (reach_sysok _ RE) _ QPool Logic.I IN) as (z & ->). cbn [node_co]. apply EXX, (reach_poolx _ RE), IN.
    + assert (XN : x <> nextid (sc s) + 1) by (apply (ti_ids _ TI) in IX; lia). rewrite ctl_cl by exact XN. apply ALL, IX.
  - intros x IX. rewrite !exited_app, EN in IX. cbn [app] in IX.
    assert (XS : In x (started (tr s))).
    { apply in_app_or in IX. destruct IX as [IX|IX]; [|apply (ti_sub _ TI), IX]. destruct k; cbn in IX; try destruct IX; try contradiction. subst; assumption. }
    assert (XN : x <> nextid (sc s) + 1) by (apply (ti_ids _ TI) in XS; lia). rewrite ctl_cl by exact XN.
    apply in_app_or in IX. destruct IX as [IX|IX]; [|apply EXX, IX]. destruct k; cbn in IX; try destruct IX; try contradiction. subst x. eapply FIN; reflexivity.
Qed.
Theorem preach_hs : forall s, preach s -> hs s.
Proof.
  apply (prun_preserves hs).
  - intros s c o d fs k sch md RE I M CU U NR E X. pose proof (pj_reach _ RE) as R0. rewrite (app_assoc (handler_obs _ _ _ _)).
    eapply hs_exec; try eassumption.
    + eapply hcall_prims; exact E.
    + intros x NE. eapply prims_cleanups; [eapply hcall_prims; exact E | exact NE].
    + intros z y IZ A. apply in_app_or in IZ. destruct IZ as [IZ|IZ]; [apply handler_quiet in IZ; destruct IZ as (h & ->); cbn in A; congruence|].
      destruct o; cbn in IZ; intuition (subst; cbn in A; try contradiction; congruence).
    + rewrite started_app, started_handler, started_call. reflexivity.
    + rewrite exited_app, exited_handler, exited_call. reflexivity.
    + rewrite <- app_assoc. eapply hcall_hs; [exact E|]. symmetry. apply (hs_eq _ I). apply cur_in_started; assumption.
    + intros b0 ->. destruct (hcall_next _ _ _ _ _ _ _ E) as [N|[(h & _ & _ & ? & _)|(-> & N)]]; [destruct N | discriminate|]. cbn [hcall] in E.
      destruct (coexit_async_cases _ _ _ _ _ E) as [(h & l & _ & _ & _ & ?)|(CL & ER)]; [discriminate|]. rewrite (coexit_rest_cl _ _ _ _ _ _ ER). exact CL.
  - intros s c v f rest b d fs k sch md RE I M CU SK L E X. pose proof (pj_reach _ RE) as R0. rewrite (app_assoc (handler_obs _ _ _ _)).
    assert (FE : f = FEntry -> cleanups (cof (dt s) c) = []).
    { intros ->. destruct RE as [_ PO]. eapply PO; [exact M | exact CU|]. rewrite SK, (entry_only _ L). reflexivity. }
    assert (RO : ret_obs c f v (d, fs, k) s = [] \/ exists kk o m t, ret_obs c f v (d, fs, k) s = [TRet kk c o v m t]).
    { destruct (ret_obs_cases c f v (d, fs, k) s) as [Q|(k0 & o & d0 & _ & _ & Q)]; [auto | right; eauto 6]. }
    assert (CS : In c (started (tr s))) by (apply cur_in_started; assumption).
    eapply hs_exec; try eassumption.
    + eapply hret_prims; exact E.
    + intros x NE. eapply prims_cleanups; [eapply hret_prims; exact E | exact NE].
    + intros z y IZ A. apply in_app_or in IZ. destruct IZ as [IZ|IZ]; [apply handler_quiet in IZ; destruct IZ as (h & ->); cbn in A; congruence|].
      apply ret_quiet in IZ. destruct IZ as (? & ? & ? & ? & ->). destruct A.
    + rewrite started_app, started_handler, started_ret. reflexivity.
    + rewrite exited_app, exited_handler, exited_ret. reflexivity.
    + rewrite <- app_assoc. eapply hret_hs; [exact E| |exact FE]. rewrite (hs_eq _ I c CS). destruct RO as [->|(kk & o & m & t & ->)]; reflexivity.
    + intros b0 ->. pose proof (preach_dy _ (proj1 RE)) as DY. destruct (endf f) eqn:EF.
      * assert (DF : f = FEntry \/ f <> FEntry) by (destruct f; auto; right; discriminate). destruct DF as [DF|DF].
        -- specialize (FE DF). subst f. cbn [hret] in E. rewrite (coexit_rest_cl _ _ _ _ _ _ E). exact FE.
        -- destruct (hret_endf _ _ _ _ _ _ _ _ _ E EF DF) as [EA|(_ & NK & _)]; [|destruct (NK _ eq_refl)].
           destruct (coexit_async_cases _ _ _ _ _ EA) as [(h & l & _ & _ & _ & ?)|(CL & ER)]; [discriminate|]. rewrite (coexit_rest_cl _ _ _ _ _ _ ER). exact CL.
      * destruct (exitf f) eqn:XF; [|destruct (hret_noexit2 _ _ _ _ _ _ _ _ _ E EF XF) as (_ & NK & _); destruct (NK _ eq_refl)].
        assert (CL : cleanups (cof (dt s) c) = []). { apply (dy_cl _ DY). rewrite SK. intros N. specialize (N f (or_introl eq_refl)). congruence. }
        apply hret_sp in E. destruct f; try discriminate XF; destruct E as (-> & _); [|exact CL]. cbn. rewrite zupd_eq. exact CL.
  - intros s d ws sch md ios RE I M A K X. pose proof (mp_main _ _ _ _ _ _ _ K) as MP.
    assert (C : forall dd d', mprims dd d' -> forall x, cleanups (cof d' x) = cleanups (cof dd x)).
    { clear. intros dd d' P x. induction P; [auto|]. rewrite <- IHP. destruct H; cbn; auto; unfold zupd; destruct (Z.eqb_spec x c); subst; reflexivity. }
    destruct I as [I1 I2]. split; cbn [dt tr]; intros x IX; rewrite (C _ _ MP); auto.
  - intros s m RE I _. destruct I; split; assumption.
  - intros s e RE I H M. destruct I as [I1 I2]. destruct (env_tr s e H) as [Q|(y & Q)]; split; rewrite Q; intros x IX; rewrite (env_cof s e H); auto.
    + cbn [handlers]. apply I1, IX.
  - intros g O. split; cbn.
    + intros x [<-|[]]. rewrite zupd_eq. reflexivity.
    + intros x [].
Qed.
