(** What is known about the result of a call at the moment its last continuation
    produces it holds of the result the client sees. *)
From Coq Require Import List ZArith Bool Lia.
From Verif Require Import AATreeSpec AATreeHist Util Runtime SchedInv StepInv StackShape RuntimeSpec TraceInv Immediate Prims StaticInv Footprint QueueInv OwnInv WaitInv DeadlineInv CallInv SpecInv TraceStep Wake Awake PausedInv.
Import ListNotations.
Local Open Scope Z_scope.

Definition handing (o : op) : Prop := match o with OpStart | OpGenStart | OpResume _ => True | _ => False end.
Definition over (m : emode) : Prop := match m with MUB | MKilled _ | MDone => True | _ => False end.

Ltac hn E :=
  match type of E with
  | copause _ _ _ _ = _ => let Q := fresh in apply copause_cases in E; destruct E as [(-> & Q & _)|(-> & Q & _)]; try discriminate Q; eauto
  | yfsr _ _ = _ => apply yfsr_cases in E; destruct E as (_ & _ & [E|E]); discriminate E
  | (_, _, _) = _ => inversion E; subst; eauto; fail
  | coyield _ _ = _ => unfold coyield in E; inversion E
  | context [checkdl ?a ?b ?c ?d] => destruct (checkdl a b c d); hn E
  | context [if ?x then _ else _] => destruct x; hn E
  | context [match ?x with Some _ => _ | None => _ end] => destruct x; hn E
  | context [let '(_, _) := ?x in _] => destruct x; hn E
  end.
Lemma fastunlock_nil : forall m f fs d d' k, fastunlock m (f :: fs) d = (d', [], k) -> False.
Proof. intros m f fs d d' k E. unfold fastunlock in E. cbv zeta in E. repeat match type of E with context [if ?b then _ else _] => destruct b end; try (inversion E; fail);
  apply yfsr_cases in E; destruct E as (_ & _ & [E|E]); discriminate E. Qed.
(** a call that leaves nothing on the stack has its result, or hands control over *)
Lemma hcall_nil : forall c o nw d d' k, hcall c o nw d = (d', [], k) ->
  (exists v, k = CRet v) \/ k = CUB \/ handing o \/ exists b, k = CFinal b.
Proof.
  intros c o nw d d' k E. destruct o; cbn [hcall] in E; try (right; right; left; exact I); try (hn E; fail).
  - unfold do_sleep in E. hn E.
  - unfold do_cancel in E. hn E.
  - unfold do_sigwatch in E. hn E.
  - unfold do_sigunwatch in E. hn E.
  - unfold do_sigwait in E. hn E.
  - unfold do_wait in E. cbv zeta in E. hn E.
  - unfold do_chmake in E. hn E.
  - unfold do_send in E. cbv zeta in E. destruct (negb _); [hn E|]. destruct (sclosed _); [hn E|]. destruct (canceled _); [hn E|].
    destruct (send_loop _ _ _ _) as [[r|] d1]; hn E.
  - unfold do_bcast in E. cbv zeta in E. destruct (negb _); [hn E|]. destruct (sclosed _); [hn E|].
    destruct (bcast_loop _ _ _ _) as [n1 d1]; hn E.
  - unfold do_recv in E. cbv zeta in E. destruct (negb _); [hn E|]. destruct (rclosed _); [hn E|]. destruct (canceled _); [hn E|].
    destruct (take _ _) as [[[m [r|]] d1]|]; hn E.
  - unfold do_recv in E. cbv zeta in E. destruct (negb _); [hn E|]. destruct (rclosed _); [hn E|]. destruct (canceled _); [hn E|].
    destruct (take _ _) as [[[m [r|]] d1]|]; hn E.
  - apply do_close_cases in E. destruct E as [(_ & v & ->)|(_ & [E|E])]; [eauto | discriminate E | discriminate E].
  - unfold do_select in E. cbv zeta in E. destruct (negb _); [hn E|]. destruct (canceled _); [hn E|].
    destruct (first_ready _ _ _) as [[ch i]|]; [|hn E]. destruct (rclosed _); [hn E|]. destruct (take _ _) as [[[m [r|]] d1]|]; hn E.
  - unfold do_select in E. cbv zeta in E. destruct (negb _); [hn E|]. destruct (canceled _); [hn E|].
    destruct (first_ready _ _ _) as [[ch i]|]; [|hn E]. destruct (rclosed _); [hn E|]. destruct (take _ _) as [[[m [r|]] d1]|]; hn E.
  - unfold do_case in E. cbv zeta in E. hn E.
  - unfold do_genyield in E. destruct (gen _) as [g|]; [|hn E]. unfold do_send in E. cbv zeta in E. destruct (negb _); [hn E|]. destruct (sclosed _); [hn E|]. destruct (canceled _); [hn E|].
    destruct (send_loop _ _ _ _) as [[r|] d1]; hn E.
  - unfold do_trylock in E. hn E.
  - unfold do_trylock in E. hn E.
  - unfold do_lock, finish_lock in E. cbv zeta in E. hn E.
  - unfold do_lock, finish_lock in E. cbv zeta in E. hn E.
  - unfold do_unlock in E. destruct (check_mu _ _) as [v1 d1]. destruct (negb _); [hn E|]. apply fastunlock_nil in E. contradiction.
  - unfold do_mudestroy in E. hn E.
  - unfold do_wgadd in E. cbv zeta in E. hn E.
  - unfold do_wgdone in E. cbv zeta in E. destruct (check_wg _ _) as [v1 d1]. destruct (negb _); [hn E|]. destruct (_ =? _); [hn E|]. destruct (negb _); [hn E|].
    match type of E with context [match ?l0 with [] => _ | _ => _ end] => destruct l0 as [|n1 [|n2 l]] end; hn E.
  - unfold do_wgwait in E. hn E.
  - unfold do_cvsignal in E. hn E.
  - unfold do_cvbcast in E. hn E.
  - unfold do_cvwait in E. destruct (check_cv _ _) as [v1 d1]. destruct (negb _); [hn E|]. destruct (check_mu _ _) as [v2 d2]. destruct (negb _); [hn E|].
    destruct (canceled _); [hn E|]. apply fastunlock_nil in E. contradiction.
  - unfold do_join in E. hn E.
  - unfold do_suspend in E. cbv zeta in E. hn E.
  - unfold do_work, work_submit in E. hn E.
  - unfold do_cleanup_pop in E. destruct (cleanups _); hn E.
  - unfold coexit_async in E. destruct (cleanups _); [|hn E]. (unfold coexit_rest in E; cbv zeta in E; destruct (gen _) as [g|];
      [destruct (do_close _ _) as [[d1 fs1] k1] eqn:C; apply (f_equal (fun z => snd (fst z))) in E; cbn in E; destruct fs1; discriminate E|]; hn E).
Qed.
Lemma cv_relock_nil : forall c m ret nw d d' k, cv_relock c m ret nw d = (d', [], k) -> exists v, k = CRet v.
Proof. intros c m ret nw d d' k E. unfold cv_relock, finish_lock in E. cbv zeta in E. hn E. Qed.
Lemma coexit_rest_nil : forall c a d d' k, coexit_rest c a d = (d', [], k) -> exists b, k = CFinal b.
Proof.
  intros c a d d' k E. unfold coexit_rest in E; cbv zeta in E; destruct (gen _) as [g|].
  - destruct (do_close _ _) as [[d1 fs1] k1] eqn:C; apply (f_equal (fun z => snd (fst z))) in E; cbn in E; destruct fs1; discriminate E.
  - hn E.
Qed.
Lemma hret_nil : forall c f v b nw d d' k, hret c f v b nw d = (d', [], k) ->
  (exists v, k = CRet v) \/ k = CUB \/ (k = CUser /\ exists kk o, f = FApi kk o) \/ exists b, k = CFinal b.
Proof.
  intros c f v b nw d d' k E.
  assert (EX : coexit_async c d = (d', [], k) -> exists b, k = CFinal b).
  { intros Q. unfold coexit_async in Q. destruct (cleanups _); [eapply coexit_rest_nil; exact Q | inversion Q]. }
  destruct f; cbn [hret] in E; try (hn E; fail); try (destruct (_ && _); [apply EX in E; auto|]; inversion E; subst; eauto 7; fail).
  - apply coexit_rest_nil in E. auto.
  - unfold sleep_end in E. hn E.
  - unfold do_cancel in E. hn E.
  - unfold sigwait_end in E. hn E.
  - unfold wait_end in E. hn E.
  - unfold send_end in E. hn E.
  - unfold recv_end in E. hn E.
  - unfold select_end in E. hn E.
  - unfold lock_end in E. hn E.
  - unfold wgwait_end in E. hn E.
  - unfold cvwait_unlocked in E. cbv zeta in E. hn E.
  - unfold cvwait_end in E. destruct (checkdl _ _ _ _) as [v1 d1]. apply cv_relock_nil in E. auto.
  - destruct (_ =? _); [hn E|]. destruct (_ && _); [apply EX in E; auto|]. apply cv_relock_nil in E. auto.
  - unfold join_end in E. hn E.
  - unfold suspend_end in E. hn E.
  - unfold work_submit in E. hn E.
  - apply EX in E. auto.
  - unfold exit_gen in E. hn E.
Qed.

(** ** The principle *)
Section Principle.
  Variable G : list obs -> Prop.
  Variable Q : nat -> Z -> op -> Z -> Z -> Z -> list obs -> Prop.
  Hypothesis GA : forall t t', (forall x, In x t -> In x t') -> G t' -> G t.
  Hypothesis QM : forall k c o v m n n' t t', (forall x, In x t -> In x t') -> n <= n' -> Q k c o v m n t -> Q k c o v m n' t'.
  Hypothesis HC : forall s c o d v, reach s -> mode s = MUser -> cur (sc s) = Some c -> ustack (stk (sc s) c) -> o <> OpReturn ->
    hcall c o (now s) (dt s) = (d, [], CRet v) -> G (call_tr s c o [] (CRet v)) ->
    Q (ncalls s) c o v (rbuf (cof d c)) (now s) (call_tr s c o [] (CRet v)).
  Hypothesis HR : forall s c f w b d v k o st, reach s -> mode s = MRet w -> cur (sc s) = Some c -> stk (sc s) c = f :: FApi k o :: st ->
    lstack (f :: FApi k o :: st) -> ~ handing o ->
    hret c f w b (now s) (dt s) = (d, [], CRet v) -> G (tick_tr s c w f d [] (CRet v)) ->
    Q k c o v (rbuf (cof d c)) (now s) (tick_tr s c w f d [] (CRet v)).

  (** results in transit *)
  Definition transit (s : state) : Prop := forall x k o st, stk (sc s) x = FApi k o :: st ->
    handing o \/ over (mode s) \/
    (cur (sc s) = Some x /\ exists v, mode s = MRet v /\ (G (tr s) -> Q k x o v (rbuf (cof (dt s) x)) (now s) (tr s))).
  Definition landed (s : state) : Prop := G (tr s) -> forall k x o v m t, In (TRet k x o v m t) (tr s) -> ~ handing o -> Q k x o v m t (tr s).

  Lemma transit_exec : forall s c d k fs st' sch md nc T, reach s -> cur (sc s) = Some c -> ~ over (mode s) -> transit s ->
    exec c k (set_stk (zupd (stk (sc s)) c (fs ++ st')) (sc s)) = (sch, md) ->
    (forall kk o st, fs ++ st' = FApi kk o :: st -> ~ handing o -> (forall b, k <> CFinal b) ->
       k = CUB \/ exists v, k = CRet v /\ (G T -> Q kk c o v (rbuf (cof d c)) (now s) T)) ->
    transit (mkst sch (ctl_dat c (nextid (sc s) + 1) k d) md (now s) nc T).
  Proof.
    intros s c d k fs st' sch md nc T RE CU NO I X OWN x kk o st SX. cbn [sc dt now mode tr] in *. pose proof (reach_full _ RE) as F.
    pose proof (cur_notfresh _ _ F CU) as NFR.
    assert (HD : handing o \/ ~ handing o) by (destruct o; cbn; auto). destruct HD as [HD|HD]; [auto|].
    destruct (exec_stk_cases _ _ _ _ _ X NFR x) as [[-> QQ]|[(NE & -> & (g & ->) & QQ)|(NE & QQ & _)]].
    - cbn [set_stk stk] in QQ. rewrite zupd_eq in QQ.
      assert (NF : forall b, k <> CFinal b) by (intros b ->; congruence).
      assert (SX2 : fs ++ st' = FApi kk o :: st) by (rewrite QQ in SX; destruct k; try exact SX; discriminate).
      destruct (OWN _ _ _ SX2 HD NF) as [->|(v & -> & H)]; cbn [exec] in X; inj X; [right; left; exact Logic.I|].
      right; right. cbn. split; [exact CU|]. eauto.
    - rewrite QQ in SX. discriminate.
    - cbn [set_stk stk] in QQ. rewrite zupd_neq in QQ by exact NE. rewrite QQ in SX.
      destruct (I _ _ _ _ SX) as [H|[H|(H & _)]]; [auto | contradiction | congruence].
  Qed.
  Lemma env_now : forall s e, match e with ECall _ | ETick _ | EMain _ => False | _ => True end -> now s <= now (step s e).
  Proof.
    intros s e H. destruct e; try contradiction; cbn;
      repeat match goal with |- context [if ?b then _ else _] => destruct b eqn:? | |- context [match mode ?z with _ => _ end] => destruct (mode z)
        | |- context [match stk (sc ?z) ?c with _ => _ end] => destruct (stk (sc z) c) as [|[] ?] end; cbn; lia.
  Qed.
  Theorem result_principle : forall s, reach s -> transit s /\ landed s.
  Proof.
    apply (rrun_preserves (fun s => transit s /\ landed s)).
    - intros s c o d fs k sch md RE [I LA] M CU U NR E X.
      assert (OLD : forall x, In x (tr s) -> In x (call_tr s c o fs k)) by (intros x; apply call_tr_old).
      split.
      + eapply transit_exec; try eassumption; [rewrite M; exact (fun H => H)|]. intros kk oo st SX NH NF.
        assert (FS : fs = []).
        { destruct fs as [|f fs]; [reflexivity|]. exfalso. cbn in SX. injection SX as -> _. eapply hcall_noapi; [exact E | left; reflexivity]. }
        subst fs. cbn in SX. injection SX as <- <- _.
        destruct (hcall_nil _ _ _ _ _ _ E) as [(v & ->)|[->|[H|(b & ->)]]]; [right | left; reflexivity | contradiction | destruct (NF b eq_refl)].
        exists v. split; [reflexivity|]. intros GG. eapply HC; eassumption.
      + intros GG kk x oo v m t H NH. apply call_tr_rets in H. eapply QM; [exact OLD | apply Z.le_refl|].
        eapply LA; [eapply GA; eassumption | exact H | exact NH].
    - intros s c v f rest b d fs k sch md RE [I LA] M CU SK L E X.
      assert (OLD : forall x, In x (tr s) -> In x (tick_tr s c v f d fs k)) by (intros x; apply tick_tr_old).
      split.
      + eapply transit_exec; try eassumption; [rewrite M; exact (fun H => H)|]. intros kk oo st SX NH NF.
        assert (FS : fs = []).
        { destruct fs as [|g fs]; [reflexivity|]. exfalso. cbn in SX. injection SX as -> _. eapply (tick_noapi _ _ _ _ _ _ _ _ _ _ L E). left. reflexivity. }
        subst fs. cbn in SX. subst rest.
        destruct (hret_nil _ _ _ _ _ _ _ _ E) as [(v2 & ->)|[->|[(-> & k1 & o1 & ->)|(b2 & ->)]]]; [right | left; reflexivity | | destruct (NF b2 eq_refl)].
        * exists v2. split; [reflexivity|]. intros GG. eapply HR; eassumption.
        * exfalso. pose proof (hret_next _ _ _ _ _ _ _ _ _ _ L E) as N. cbn in N. inversion N.
      + intros GG kk x oo w m t H NH. apply tick_tr_rets in H. destruct H as [H|(-> & -> & -> & -> & -> & -> & ->)].
        * eapply QM; [exact OLD | apply Z.le_refl|]. eapply LA; [eapply GA; eassumption | exact H | exact NH].
        * destruct (I _ _ _ _ SK) as [H|[H|(_ & v2 & MV & H)]]; [contradiction | rewrite M in H; destruct H|].
          rewrite M in MV. injection MV as <-. eapply QM; [exact OLD | apply Z.le_refl|]. apply H. eapply GA; eassumption.
    - intros s d ws sch md ios RE [I LA] M A K X. split; [|exact LA]. intros x k o st SX. cbn [sc] in SX.
      apply sco_switch_frame in X. destruct X as (X1 & _). destruct (wakes_frame ws (sc s)) as (W1 & _). rewrite X1, W1 in SX.
      destruct (I _ _ _ _ SX) as [H|[H|(_ & v & H & _)]]; [auto | rewrite M in H; destruct H | congruence].
    - intros s m RE [I LA] HM. split; [|exact LA]. intros x k o st SX. cbn [sc set_mode mode] in *.
      destruct HM as [[-> HM]|[(-> & _)|[(n & ->)| ->]]]; [|right; left; exact Logic.I..].
      destruct (I _ _ _ _ SX) as [H|[H|(_ & v & H & _)]]; [auto | rewrite HM in H; destruct H | congruence].
    - intros s e RE [I LA] H M.
      assert (OLD : forall x, In x (tr s) -> In x (tr (step s e))) by (intros x; apply env_tr_old, H).
      split.
      + intros x k o st SX. destruct (env_frame s e H) as (E1 & E2 & _). rewrite E1 in SX. rewrite E2, M, (env_cof s e H).
        destruct (I _ _ _ _ SX) as [Z|[Z|(Z & v & MV & QQ)]]; [auto | auto|]. right; right. split; [exact Z|]. exists v. split; [exact MV|].
        intros GG. eapply QM; [exact OLD | apply env_now, H|]. apply QQ. eapply GA; eassumption.
      + intros GG kk x oo w m t HI NH. apply (env_tr_in s e _ H) in HI. destruct HI as [HI|(cc & jj & HI)]; [|discriminate].
        eapply QM; [exact OLD | apply Z.le_refl|]. eapply LA; [eapply GA; eassumption | exact HI | exact NH].
    - intros g O. split.
      + intros x k o st SX. cbn in SX. unfold zupd in SX. destruct (_ =? _); discriminate.
      + intros _ k x o v m t [H|[]]; discriminate.
  Qed.

  (** the same, about the history before the return *)
  Theorem result_before : forall s, reach s -> G (tr s) -> forall l1 l2 k x o v m t,
    tr s = l1 ++ TRet k x o v m t :: l2 -> ~ handing o -> Q k x o v m t l2.
  Proof.
    assert (SP : forall N T l1 l2 k x o v m t, (forall k x o v m t, ~ In (TRet k x o v m t) N) -> N ++ T = l1 ++ TRet k x o v m t :: l2 ->
      exists l, T = l ++ TRet k x o v m t :: l2).
    { intros N T l1 l2 k x o v m t NN EQ. destruct (app_eq_app _ _ _ _ EQ) as (l & [[EN EL]|[EN EL]]); [|eauto].
      destruct l as [|z l]; [exists []; symmetry; exact EL|]. injection EL as <- _. exfalso. eapply NN. rewrite EN. apply in_or_app. right; left; reflexivity. }
    apply (rrun_preserves (fun s => G (tr s) -> forall l1 l2 k x o v m t, tr s = l1 ++ TRet k x o v m t :: l2 -> ~ handing o -> Q k x o v m t l2)).
    - intros s c o d fs k sch md RE I M CU U NR E X GG l1 l2 kk x oo v m t EQ NH. cbn [tr] in *. rewrite !app_assoc in EQ. apply SP in EQ.
      + destruct EQ as (l & EQ). eapply I; [|exact EQ | exact NH]. eapply GA; [|exact GG]. intros z. apply (call_tr_old s c o fs k).
      + intros k0 x0 o0 v0 m0 t0 H. apply in_app_or in H. destruct H as [H|H]; [apply in_app_or in H; destruct H as [H|H]|].
        * eapply ctl_obs_noret; exact H.
        * eapply handler_obs_noret; exact H.
        * eapply call_obs_noret; exact H.
    - intros s c w f rest b d fs k sch md RE I M CU SK L E X GG l1 l2 kk x oo v m t EQ NH. cbn [tr] in *.
      assert (G0 : G (tr s)) by (eapply GA; [|exact GG]; intros z; apply (tick_tr_old s c w f d fs k)).
      specialize (I G0). rewrite app_assoc in EQ. apply SP in EQ.
      + destruct EQ as (l & EQ). destruct f; try (eapply I; [exact EQ | exact NH]). cbn [ret_obs] in EQ.
        destruct fs; [|eapply I; [exact EQ | exact NH]]. destruct k; try (eapply I; [exact EQ | exact NH]).
        destruct l as [|z l]; cbn in EQ; injection EQ; intros; [|eapply I; [eassumption | exact NH]].
        subst. destruct (proj1 (result_principle s RE) _ _ _ _ SK) as [H|[H|(_ & v2 & MV & H)]]; [contradiction | rewrite M in H; destruct H|].
        rewrite M in MV. injection MV as <-. apply H, G0.
      + intros k0 x0 o0 v0 m0 t0 H. apply in_app_or in H. destruct H as [H|H]; [eapply ctl_obs_noret; exact H | eapply handler_obs_noret; exact H].
    - intros s d ws sch md ios RE I M A K X. exact I.
    - intros s m RE I _. exact I.
    - intros s e RE I H M GG l1 l2 kk x oo v m t EQ NH. assert (G0 : G (tr s)) by (eapply GA; [|exact GG]; intros z; apply env_tr_old, H).
      destruct (env_tr s e H) as [T|(w & T)]; rewrite T in EQ; [eapply I; eassumption|]. destruct l1 as [|z l1]; [discriminate EQ|].
      injection EQ as _ EQ. eapply I; eassumption.
    - intros g O _ l1 l2 kk x oo v m t EQ NH. cbn in EQ. destruct l1 as [|? [|? ?]]; discriminate EQ.
  Qed.
End Principle.
