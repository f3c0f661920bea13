(** API calls that return without a switch: the value handed to the client is the
    one computed from the state at the call. *)
From Coq Require Import List ZArith Bool Lia.
From Verif Require Import Util Runtime RuntimeSpec SchedInv StepInv StackShape TraceInv.
Import ListNotations.
Local Open Scope Z_scope.

Definition noapi (fs : list frame) : Prop := forall k o, ~ In (FApi k o) fs.

Lemma noapi_nil : noapi []. Proof. intros k o []. Qed.
Lemma noapi_cons : forall f fs, (forall k o, f <> FApi k o) -> noapi fs -> noapi (f :: fs).
Proof. intros f fs A B k o [H|H]; [eapply A; exact H | eapply B; exact H]. Qed.
#[export] Hint Resolve noapi_nil : napi.
#[export] Hint Extern 1 (noapi (_ :: _)) => (apply noapi_cons; [intros; discriminate|]) : napi.

Lemma shape_noapi : forall o w, shape o w -> noapi w.
Proof.
  intros o w H. inversion H; subst; auto with napi;
    match goal with H : pz _ _ |- _ => inversion H; subst | H : yf _ _ |- _ => inversion H; subst end;
    cbn [app]; auto 6 with napi.
Qed.
Lemma coexit_rest_noapi : forall c a d d' fs k, coexit_rest c a d = (d', fs, k) -> noapi fs.
Proof.
  intros c a d d' fs k E. unfold coexit_rest in E.
  match type of E with context [gen (cof ?x c)] => set (dd := x) in E end.
  destruct (gen (cof dd c)) as [g|].
  - destruct (do_close g dd) as [[d1 fs1] k1] eqn:C. inj E.
    apply do_close_cases in C. destruct C as [(-> & v & ->)|(-> & [->| ->])]; cbn; auto 6 with napi.
  - destruct (negb _); [|inj E; auto with napi].
    apply yfsr_cases in E. destruct E as (_ & _ & [->| ->]); auto 6 with napi.
Qed.
Lemma coexit_async_noapi : forall c d d' fs k, coexit_async c d = (d', fs, k) -> noapi fs.
Proof.
  intros c d d' fs k E. unfold coexit_async in E. destruct (cleanups (cof d c)).
  - eapply coexit_rest_noapi; exact E.
  - inj E. auto with napi.
Qed.
Lemma hcall_noapi : forall c o nw d d' fs k, hcall c o nw d = (d', fs, k) -> noapi fs.
Proof.
  intros c o nw d d' fs k E.
  destruct (hcall_next _ _ _ _ _ _ _ E) as [N|[(h & -> & -> & -> & _)|(-> & N)]].
  - destruct k; cbn in N; try contradiction; try (eapply shape_noapi; exact N).
  - auto with napi.
  - cbn [hcall] in E. eapply coexit_async_noapi; exact E.
Qed.

(** What a return can uncover: the top frame below is an API frame of [o]. *)
Definition plainop (o : op) : Prop := (forall w, shape o w -> w = []) /\ o <> OpCleanupPop true.

Lemma tick_noapi : forall c f v b nw d d' fs k rest,
  lstack (f :: rest) -> hret c f v b nw d = (d', fs, k) -> noapi fs.
Proof.
  intros c f v b nw d d' fs k rest L E.
  inversion L; subst.
  - inversion H; subst; cbn [hret] in E.
    + eapply coexit_rest_noapi; exact E.
    + inj E. auto with napi.
    + eapply coexit_async_noapi; exact E.
  - destruct w as [|f' w]; cbn in H; inj H.
    + cbn [hret] in E. destruct (_ && _); [eapply coexit_async_noapi; exact E | inj E; auto with napi].
    + assert (A : f = FCoyield \/ (exists m r, f = FCvRelock m r) \/ (f <> FCoyield /\ forall m r, f <> FCvRelock m r)).
      { destruct f; auto; try (right; right; split; [discriminate | intros; discriminate]). right; left; eauto. }
      destruct A as [->|[(m & r & ->)|[A1 A2]]].
      * cbn [hret] in E. destruct (_ && _); [eapply coexit_async_noapi; exact E | inj E; auto with napi].
      * cbn [hret] in E. destruct (_ =? _); [inj E; auto with napi|].
        destruct (_ && _); [eapply coexit_async_noapi; exact E|].
        unfold cv_relock, finish_lock, copause in E. 
        destruct (negb _); [inj E; auto with napi|]. destruct (mu_trylock _ _ _ _ _ _).
        destruct (_ =? _); [destruct (_ || _)|]; inj E; auto with napi.
      * destruct (shape_next _ _ _ _ _ _ _ _ _ _ _ H1 E) as [N|N].
        -- assert (SH : shape o (fs ++ w)) by (destruct k; cbn in N; try contradiction; auto).
           intros k1 o1 I. apply (shape_noapi _ _ SH k1 o1). apply in_or_app. left. exact I.
        -- (* exits: only from the frames handled above *)
           destruct f; cbn [hret] in E; try congruence;
           try (inj E; auto with napi; fail);
           try (exfalso; eapply A2; reflexivity);
           try (unfold sleep_end, sigwait_end, wait_end, send_end, recv_end, select_end, lock_end,
                 wgwait_end, join_end, suspend_end, coyield, work_submit in E;
                repeat match type of E with context [checkdl ?a ?b ?c ?d] => destruct (checkdl a b c d) end;
                repeat match type of E with context [if ?x then _ else _] => destruct x end;
                inj E; auto with napi; fail).
           ++ eapply coexit_rest_noapi; exact E.
           ++ destruct (_ && _); [eapply coexit_async_noapi; exact E | inj E; auto with napi].
           ++ apply do_cancel_next in E. destruct k; cbn in E; try contradiction; eapply shape_noapi; exact E.
           ++ unfold cvwait_unlocked, copause in E. destruct (_ || _); inj E; auto with napi.
           ++ unfold cvwait_end in E. destruct (checkdl _ _ _ _).
              apply (cv_relock_next _ 0%nat _ 0) in E. destruct k; cbn in E; try contradiction; eapply shape_noapi; exact E.
           ++ eapply coexit_async_noapi; exact E.
           ++ unfold exit_gen in E. destruct sched; [|inj E; auto with napi].
              apply yfsr_cases in E. destruct E as (_ & _ & [->| ->]); auto 6 with napi.
  - destruct w as [|f' w].
    + exfalso. inversion H0 as [a s w0 Y Q| |a w0 Y]; [destruct w0; discriminate Q | inversion Y].
    + cbn in H. inj H. 
      inversion H0; subst; clear H0.
      * inversion H1; subst; cbn in H; inj H; cbn [hret] in E.
        -- inj E; auto with napi.
        -- destruct (_ && _); [eapply coexit_async_noapi; exact E | inj E; auto with napi].
        -- inj E; auto with napi.
        -- destruct (_ && _); [eapply coexit_async_noapi; exact E | inj E; auto with napi].
      * cbn [hret] in E. unfold exit_gen in E. destruct s; [|inj E; auto with napi].
        apply yfsr_cases in E. destruct E as (_ & _ & [->| ->]); auto 6 with napi.
      * inversion H; subst; cbn [hret] in E.
        -- inj E; auto with napi.
        -- destruct (_ && _); [eapply coexit_async_noapi; exact E | inj E; auto with napi].
        -- inj E; auto with napi.
        -- destruct (_ && _); [eapply coexit_async_noapi; exact E | inj E; auto with napi].
Qed.

Lemma ustack_notapi : forall k o st, ~ ustack (FApi k o :: st).
Proof. intros k o st H. inversion H. Qed.

Lemma tick_uncovers : forall c f v b nw d d' fs k rest k0 o st,
  lstack (f :: rest) -> hret c f v b nw d = (d', fs, k) -> not_final k -> plainop o ->
  fs ++ rest = FApi k0 o :: st -> False.
Proof.
  intros c f v b nw d d' fs k rest k0 o st L E NF [P1 P2] T.
  pose proof (tick_noapi _ _ _ _ _ _ _ _ _ _ L E) as NA.
  destruct fs as [|f0 fs]; [|cbn in T; inj T; apply (NA k0 o); left; reflexivity].
  cbn in T. subst rest. inversion L as [? U|k1 o1 w s1 U SH Q|w s1 ES Q]; subst.
  - inversion U; subst; cbn [hret] in E.
    + congruence.
    + unfold coexit_async in E. destruct (cleanups (cof d c)); [|inj E].
      unfold coexit_rest in E.
      match type of E with context [gen (cof ?x c)] => set (dd := x) in E end.
      destruct (gen (cof dd c)) as [g|].
      * destruct (do_close g dd) as [[d1 fs1] k1]. inj E. destruct fs1; discriminate.
      * destruct (negb _); [unfold yfsr, coyield in E; destruct (_ <? _); inj E | inj E; eapply NF; reflexivity].
  - destruct w as [|f1 [|f2 w]]; cbn in Q; inj Q.
    + eapply ustack_notapi; exact U.
    + apply P1 in SH. discriminate.
    + apply (shape_noapi _ _ SH k0 o). right. left. reflexivity.
  - assert (W : exists w', w = f :: w').
    { destruct w; cbn in Q; [|inj Q; eauto]. exfalso.
      inversion ES as [a s w0 Y Z| |a w0 Y]; [destruct w0; discriminate Z | inversion Y]. }
    destruct W as (w' & ->). cbn in Q. inj Q.
    inversion ES as [a s w0 Y Q|a s Q|a w0 Y]; subst.
    + inversion Y; subst; cbn in Q; inj Q; cbn in *; discriminate.
    + cbn [hret] in E. unfold exit_gen in E.
      destruct s; [unfold yfsr, coyield in E; destruct (_ <? _); inj E | inj E; eapply NF; reflexivity].
    + inversion Y; subst; try (cbn in *; discriminate). cbn [hret] in E. inj E. eapply NF; reflexivity.
Qed.

Lemma split_ret : forall (a b l1 l2 : list obs) x,
  a ++ b = l1 ++ x :: l2 -> ~ In x a -> exists l1', b = l1' ++ x :: l2.
Proof.
  induction a as [|y a IH]; intros b l1 l2 x E N; [eauto|].
  destruct l1 as [|z l1]; cbn in E; inversion E; subst.
  - exfalso. apply N. left. reflexivity.
  - eapply IH; [eassumption|]. intros I. apply N. right. exact I.
Qed.
Lemma ctl_obs_noret : forall c n k k0 c0 o0 v m t, ~ In (TRet k0 c0 o0 v m t) (ctl_obs c n k).
Proof. intros. destruct k; cbn; intuition discriminate. Qed.
Lemma handler_obs_noret : forall c fs k d k0 c0 o0 v m t, ~ In (TRet k0 c0 o0 v m t) (handler_obs c fs k d).
Proof. intros. destruct (handler_obs_cases c fs k d) as [->|(h & ->)]; cbn; intuition discriminate. Qed.
Lemma call_obs_noret : forall c n o1 s k0 c0 o0 v m t, ~ In (TRet k0 c0 o0 v m t) (call_obs c n o1 s).
Proof. intros. destruct o1; cbn; intuition discriminate. Qed.

Definition dead (m : emode) : bool := match m with MUB | MKilled _ => true | _ => false end.

Section Imm.
  Variable o : op.
  (** what the returned value and output buffer say about the trace at the call *)
  Variable R : Z -> Z -> Z -> list obs -> Prop.
  Hypothesis PL : plainop o.
  Hypothesis IMM : forall c nw d d' fs k, hcall c o nw d = (d', fs, k) -> fs = [] /\ (k = CUB \/ exists v, k = CRet v).
  Hypothesis STEP : forall c v s d, reach s -> mode s = MUser -> cur (sc s) = Some c ->
    hcall c o (now s) (dt s) = (d, [], CRet v) ->
    R c v (rbuf (cof d c)) (call_obs c (ncalls s) o s ++ tr s).
  Hypothesis WD : forall c v m x j t, R c v m t -> R c v m (TWorkDone x j :: t).

  Record iinv (s : state) : Prop := {
    ii_top : forall x k rest, stk (sc s) x = FApi k o :: rest -> dead (mode s) = false ->
               cur (sc s) = Some x /\ exists v, mode s = MRet v /\ R x v (rbuf (cof (dt s) x)) (tr s);
    ii_tr : forall k c v m t l1 l2, tr s = l1 ++ TRet k c o v m t :: l2 -> R c v m l2
  }.

  (** another coroutine's top frame is not a pending immediate call *)
  Lemma other_top : forall s c x k rest, iinv s -> cur (sc s) = Some c -> dead (mode s) = false -> x <> c ->
    stk (sc s) x = FApi k o :: rest -> False.
  Proof. intros s c x k rest [T _] CU D N E. destruct (T _ _ _ E D) as [C _]. congruence. Qed.

  Theorem imm_inv : forall s, reach s -> iinv s.
  Proof.
    apply rrun_preserves.
    - intros s c o1 d fs k sch md RE I M CU U NR1 E X. split; cbn [sc mode tr dt].
      + intros x k0 rest SX DM.
        pose proof (exec_stk _ _ _ _ _ X) as ES. cbn [stk set_stk] in ES.
        assert (D0 : dead (mode s) = false) by (rewrite M; reflexivity).
        assert (NF : x = c -> not_final k /\ fs ++ FApi (ncalls s) o1 :: stk (sc s) c = FApi k0 o :: rest).
        { intros ->. destruct (reach_full _ RE) as [[SI _] _]. destruct (cur_alive _ _ SI CU) as [AL IB].
          rewrite ES in SX. destruct k; cbn [nextid set_stk] in SX; try (rewrite zupd_eq in SX; split; [intros ? ?; discriminate | exact SX]).
          - rewrite zupd_neq, zupd_eq in SX by lia. split; [intros ? ?; discriminate | exact SX].
          - rewrite zupd_eq in SX. discriminate. }
        destruct (Z.eq_dec x c) as [->|NE].
        * destruct (NF eq_refl) as [NF1 T]. pose proof (hcall_noapi _ _ _ _ _ _ _ E) as NA.
          destruct fs as [|f fs]; [|cbn in T; inj T; exfalso; eapply NA; left; reflexivity].
          cbn in T. inj T. destruct (IMM _ _ _ _ _ _ E) as [_ [->|(v & ->)]].
          -- cbn in X. inj X. discriminate.
          -- cbn in X. inj X. cbn. split; [exact CU|]. exists v. split; [reflexivity|].
             apply STEP; assumption.
        * exfalso. rewrite ES in SX. cbn [nextid] in SX.
          assert (stk (sc s) x = FApi k0 o :: rest).
          { destruct k; cbn [nextid set_stk] in SX; try (rewrite zupd_neq in SX by exact NE; exact SX).
            - unfold zupd in SX. destruct (_ =? _); [discriminate|]. destruct (Z.eqb_spec x c); [contradiction | exact SX].
            - rewrite !zupd_neq in SX by exact NE. exact SX. }
          eapply other_top; eassumption.
      + intros k0 c0 v m t l1 l2 TE.
        apply split_ret in TE; [|apply ctl_obs_noret]. destruct TE as (l1a & TE).
        apply split_ret in TE; [|apply handler_obs_noret]. destruct TE as (l1b & TE).
        apply split_ret in TE; [|apply call_obs_noret]. destruct TE as (l1c & TE).
        eapply (ii_tr _ I). exact TE.
    - intros s c v f rest b d fs k sch md RE I M CU SK L E X. split; cbn [sc mode tr dt].
      + intros x k0 rest0 SX DM. exfalso.
        pose proof (exec_stk _ _ _ _ _ X) as ES. cbn [stk set_stk] in ES.
        assert (D0 : dead (mode s) = false) by (rewrite M; reflexivity).
        destruct (reach_full _ RE) as [[SI _] _]. destruct (cur_alive _ _ SI CU) as [AL IB].
        destruct (Z.eq_dec x c) as [->|NE].
        * assert (not_final k /\ fs ++ rest = FApi k0 o :: rest0) as [NF T].
          { rewrite ES in SX. destruct k; cbn [nextid set_stk] in SX; try (rewrite zupd_eq in SX; split; [intros ? ?; discriminate | exact SX]).
            - rewrite zupd_neq, zupd_eq in SX by lia. split; [intros ? ?; discriminate | exact SX].
            - rewrite zupd_eq in SX. discriminate. }
          eapply tick_uncovers; eassumption.
        * assert (stk (sc s) x = FApi k0 o :: rest0).
          { rewrite ES in SX. destruct k; cbn [nextid set_stk] in SX; try (rewrite zupd_neq in SX by exact NE; exact SX).
            - unfold zupd in SX. destruct (_ =? _); [discriminate|]. destruct (Z.eqb_spec x c); [contradiction | exact SX].
            - rewrite !zupd_neq in SX by exact NE. exact SX. }
          eapply other_top; eassumption.
      + intros k0 c0 v0 m t l1 l2 TE.
        apply split_ret in TE; [|apply ctl_obs_noret]. destruct TE as (l1a & TE).
        apply split_ret in TE; [|apply handler_obs_noret]. destruct TE as (l1b & TE).
        destruct (ret_obs_cases c f v (d, fs, k) s) as [Q|(kk & oo & dd & -> & _ & Q)]; rewrite Q in TE.
        * eapply (ii_tr _ I). exact TE.
        * destruct l1b as [|y l1b]; cbn in TE; inj TE.
          -- assert (D0 : dead (mode s) = false) by (rewrite M; reflexivity).
             destruct (ii_top _ I _ _ _ SK D0) as (_ & v1 & M1 & HR). rewrite M in M1. inj M1. exact HR.
          -- eapply (ii_tr _ I). eassumption.
    - intros s d ws sch md ios RE I M A K X. split; cbn [sc mode tr dt].
      + intros x k rest SX DM. exfalso. apply sco_switch_frame in X. destruct X as (X1 & _).
        destruct (wakes_frame ws (sc s)) as (W1 & _). rewrite X1, W1 in SX.
        destruct (ii_top _ I _ _ _ SX) as (_ & v & M1 & _); [rewrite M; reflexivity | congruence].
      + apply (ii_tr _ I).
    - intros s m RE I H. split; cbn [sc mode tr dt set_mode]; [|apply (ii_tr _ I)].
      intros x k rest SX DM.
      destruct H as [[-> M]|[(-> & M & _)|[(n & ->)| ->]]]; try discriminate;
        (destruct (ii_top _ I _ _ _ SX) as (_ & v & M1 & _); [rewrite M; reflexivity | congruence]).
    - intros s e RE I H M. destruct (env_frame s e H) as (E1 & E2 & _). split.
      + intros x k rest. rewrite E1, E2, M. intros SX DM. destruct (ii_top _ I _ _ _ SX DM) as (C & v & M1 & HR).
        split; [exact C|]. exists v. split; [exact M1|].
        assert (rbuf (cof (dt (step s e)) x) = rbuf (cof (dt s) x)) as ->.
        { destruct e; try contradiction; cbn.
          - destruct (_ <? _); reflexivity.
          - destruct (mode s); auto; (destruct (_ || _); auto; destruct (_ =? _); auto; destruct (_ =? _); auto).
          - destruct (mode s); auto; (destruct (mem _ _); auto; destruct (stk (sc s) c) as [|[] ?]; auto).
          - reflexivity.
          - destruct (_ =? _); reflexivity.
          - reflexivity.
          - destruct (_ =? _); reflexivity.
          - destruct (_ =? _); reflexivity. }
        destruct (env_tr s e H) as [->|(y & ->)]; [exact HR | apply WD; exact HR].
      + intros k c v m t l1 l2 TE. destruct (env_tr s e H) as [Q|(y & Q)]; rewrite Q in TE.
        * eapply (ii_tr _ I). exact TE.
        * destruct l1 as [|z l1]; cbn in TE; inj TE. eapply (ii_tr _ I). eassumption.
    - intros g _. split; cbn.
      + intros x k rest SX. unfold zupd in SX. destruct (_ =? _); discriminate.
      + intros k c v m t l1 l2 TE. destruct l1 as [|? [|]]; discriminate.
  Qed.

  (** every return of [o] satisfies [R] *)
  Theorem imm_returns : forall s k c v m t l1 l2, reach s ->
    tr s = l1 ++ TRet k c o v m t :: l2 -> R c v m l2.
  Proof. intros s k c v m t l1 l2 RE. apply (ii_tr _ (imm_inv _ RE)). Qed.
End Imm.
