(** The number of coroutines that neco_getstats reports, also when cancellation is
    asynchronous (the default): it can go wrong only for a coroutine that is canceled and
    is joined, is a generator or is waited for by a canceler. *)
From Coq Require Import List ZArith Bool Lia.
From Verif Require Import AATreeSpec AATreeHist Util Runtime SchedInv StepInv StackShape RuntimeSpec TraceInv Immediate Prims StaticInv Footprint QueueInv OwnInv WaitInv CallInv SpecInv TraceStep Wake Awake AllInv DldInv JoinInv CancelInv CancelOrd CancelSpec CancelSt GenInv ChanOrder BlockSpec Props_Gen.
Import ListNotations.
Local Open Scope Z_scope.

(** ** Specification *)
(** nobody joins [x], [x] is not a generator, and [x] never has cancellation disabled *)
Definition loner (s : state) (x : Z) : Prop :=
  (forall k c dl t, ~ In (TCall k c (OpJoin x dl) t) (tr s)) /\ (forall k c, ~ ChanOrder.started_by (tr s) k c x) /\
  env_enabled (dt s) = true /\ forall k t, ~ In (TCall k x (OpSetState false) t) (tr s).
(** asynchronous cancellation is never enabled, or cancels are aimed at loners only *)
Definition calm (s : state) : Prop := deferred s \/ forall x, spared (tr s) x \/ loner s x.

(** ** What [loner] gives *)
Lemma loner_back : forall s s' x, loner s' x -> env_enabled (dt s') = env_enabled (dt s) -> (exists p, tr s' = p ++ tr s) -> loner s x.
Proof.
  intros s s' x (A & B & C & D) EE (p & Q). rewrite Q in *. split; [|split; [|split]].
  - intros k c dl t I. eapply A. apply in_or_app. right. exact I.
  - intros k c (l1 & l2 & tm & E). eapply B. exists (p ++ l1), l2, tm. rewrite E, app_assoc. reflexivity.
  - congruence.
  - intros k t I. eapply D. apply in_or_app. right. exact I.
Qed.
(** *** Registered coroutines were started *)
Theorem reach_all_started : forall s, reach s -> forall x, In x (all (dt s)) -> In x (started (tr s)).
Proof.
  assert (CT : forall c n k d x, In x (all (ctl_dat c n k d)) -> In x (all d) \/ In x (spawned n k)).
  { intros c n k d x I. destruct k; cbn [ctl_dat] in I; auto. destruct (spawn_all (Some c) n isgen d) as (A & _). rewrite A in I.
    apply in_app_or in I. destruct I as [I|[I|[]]]; [auto | right; left; exact I]. }
  apply (rrun_preserves (fun s => forall x, In x (all (dt s)) -> In x (started (tr s)))).
  - intros s c o d fs k sch md RE I M CU U NR E X x J. cbn [tr dt] in *. change (In x (started (call_tr s c o fs k))). rewrite started_calls. apply in_or_app.
    apply CT in J. destruct J as [J|J]; [right|left; exact J]. apply I. eapply prims_all; [eapply hcall_prims, E | exact J].
  - intros s c v f rest b d fs k sch md RE I M CU SK L E X x J. cbn [tr dt] in *. change (In x (started (tick_tr s c v f d fs k))). rewrite started_tick. apply in_or_app.
    apply CT in J. destruct J as [J|J]; [right|left; exact J]. apply I. eapply prims_all; [eapply hret_prims, E | exact J].
  - intros s d ws sch md ios RE I M A K X x J. cbn [set_sc set_dt set_mode tr dt] in *. rewrite (mprims_all _ _ (mp_main _ _ _ _ _ _ _ K)) in J. apply I, J.
  - intros s m RE I HM. exact I.
  - intros s e RE I H M x J. rewrite (env_all s e H) in J. specialize (I x J). destruct (env_tr s e H) as [Q|(y & Q)]; rewrite Q; exact I.
  - intros g O x J. cbn in *. exact J.
Qed.
(** *** Cancelers wait only if cancellation was disabled *)
Definition never_off (s : state) (x : Z) : Prop := env_enabled (dt s) = true /\ forall k t, ~ In (TCall k x (OpSetState false) t) (tr s).
Lemma never_off_state : forall t x, (forall k tm, ~ In (TCall k x (OpSetState false) tm) t) -> cancel_state x true t = true.
Proof.
  induction t as [|z t IH]; intros x N; [reflexivity|]. assert (H : cancel_state x true t = true) by (apply IH; intros k tm I; apply (N k tm); right; exact I).
  destruct z as [k c o tm| | | | | | ]; try exact H. destruct o; try exact H. cbn. destruct (Z.eqb_spec c x) as [->|]; [|exact H]. destruct enable; [reflexivity|]. destruct (N k tm). left. reflexivity.
Qed.
Lemma never_off_en : forall s x, reach s -> never_off s x -> In x (all (dt s)) -> cenabled (cof (dt s) x) = true.
Proof.
  intros s x RE [A B] I. pose proof (reach_cst _ RE x (reach_all_started _ RE x I)) as H. unfold ac in H. rewrite A in H. rewrite (never_off_state _ x B) in H. congruence.
Qed.
Lemma cancel_fcw : forall c id0 dl0 nw d d' fs k id dl, do_cancel c id0 dl0 nw d = (d', fs, k) -> In (FCancelWait id dl) fs -> In id (all d) /\ cenabled (cof d id) = false.
Proof.
  intros c id0 dl0 nw d d' fs k id dl E IN. unfold do_cancel in E. destruct (mem id0 (all d)) eqn:ME; cbn in E; [|inj E; destruct IN].
  destruct (checkdl c dl0 nw d) as [v d1] eqn:CD. destruct (negb (v =? OK)); [inj E; destruct IN|]. destruct (cenabled (cof d1 id0)) eqn:CE; [inj E; destruct IN as [Q|[]]; discriminate Q|].
  assert (id = id0). { apply copause_fs in E. destruct E as [(-> & _)|(-> & _)]; cbn in IN; intuition congruence. } subst id0. split; [apply mem_In, ME|].
  unfold checkdl in CD. destruct (negb _ && negb _ && _); injection CD as _ <-; [exact CE|]. cbn in CE. unfold zupd in CE. destruct (Z.eqb_spec id c) as [->|]; exact CE.
Qed.

Lemma hret_fcw : forall c f v b nw d d' fs k id dl, hret c f v b nw d = (d', fs, k) -> In (FCancelWait id dl) fs -> In id (all d) /\ cenabled (cof d id) = false.
Proof.
  intros c f v b nw d d' fs k id dl E IN. assert (F : exists id0 dl0, f = FCancelWait id0 dl0).
  { destruct (hret_out _ _ _ _ _ _ _ _ _ E) as (d1 & _ & O). destruct O as [_ N _|g r dl0 d2 _ WG N WD E1|_ -> _|_ -> _].
    - specialize (N _ IN). discriminate N.
    - assert (IG : In (FCancelWait id dl) (FPause :: g :: r)).
      { apply copause_fs in E1. destruct E1 as [(-> & _)|(-> & _)]; [right; exact IN | exact IN]. }
      destruct IG as [Q|[Q|Q]]; [discriminate Q | subst g | specialize (N _ Q); discriminate N].
      destruct f; eauto; cbn in WD; destruct WD as [WD ?]; try discriminate WD; destruct WD as (? & WD); discriminate WD.
    - cbn in IN. intuition discriminate.
    - cbn in IN. intuition discriminate. }
  destruct F as (id0 & dl0 & ->). cbn [hret] in E. exact (cancel_fcw _ _ _ _ _ _ _ _ _ _ E IN).
Qed.
Lemma hcall_fcw : forall c o nw d d' fs k id dl, hcall c o nw d = (d', fs, k) -> In (FCancelWait id dl) fs -> In id (all d) /\ cenabled (cof d id) = false.
Proof.
  intros c o nw d d' fs k id dl E IN. assert (F : exists id0 dl0, o = OpCancel id0 dl0).
  { destruct (hcall_next _ _ _ _ _ _ _ E) as [N|[(h & -> & -> & -> & _)|(-> & N)]].
    - destruct k; cbn in N; try contradiction; inversion N; subst; eauto; exfalso; repeat (apply in_app_or in IN; destruct IN as [IN|IN]);
      try (match goal with H : pz _ _ |- _ => inversion H; subst; cbn in IN end);
      try (match goal with H : yf _ _ |- _ => inversion H; subst; cbn in IN end); cbn in IN; intuition discriminate.
    - cbn in IN. intuition discriminate.
    - exfalso. pose proof (hcall_special _ _ _ _ _ _ _ E eq_refl) as EX. cbn in EX. destruct EX as [h l CL -> -> ->|a ER]; [cbn in IN; intuition discriminate|].
      destruct (coexit_rest_shape _ _ _ _ _ _ ER) as [(-> & _)|(ES & _)]; [destruct IN|]. inversion ES as [a0 s w0 Y|a0 s|a0 w0 Y]; subst; try inversion Y; subst; cbn in IN; intuition discriminate. }
  destruct F as (id0 & dl0 & ->). cbn [hcall] in E. exact (cancel_fcw _ _ _ _ _ _ _ _ _ _ E IN).
Qed.
Definition fcw (s : state) : Prop := forall id, never_off s id -> forall x dl, ~ In (FCancelWait id dl) (stk (sc s) x).
Lemma never_off_back : forall s s' x, never_off s' x -> env_enabled (dt s') = env_enabled (dt s) -> (exists p, tr s' = p ++ tr s) -> never_off s x.
Proof. intros s s' x [A B] EE (p & Q). split; [congruence|]. intros k t I. apply (B k t). rewrite Q. apply in_or_app. right. exact I. Qed.
Lemma call_pre : forall s c o fs k, exists p, call_tr s c o fs k = p ++ tr s.
Proof. intros. unfold call_tr. eexists. rewrite !app_assoc. reflexivity. Qed.
Lemma tick_pre : forall s c v f d fs k, exists p, tick_tr s c v f d fs k = p ++ tr s.
Proof. intros. unfold tick_tr. eexists. rewrite !app_assoc. reflexivity. Qed.
Lemma env_pre : forall s e, match e with ECall _ | ETick _ | EMain _ => False | _ => True end -> exists p, tr (step s e) = p ++ tr s.
Proof. intros s e H. destruct (env_tr s e H) as [Q|(y & Q)]; rewrite Q; [exists []; reflexivity | eexists [_]; reflexivity]. Qed.

Lemma env_ee : forall s e, match e with ECall _ | ETick _ | EMain _ => False | _ => True end -> env_enabled (dt (step s e)) = env_enabled (dt s).
Proof.
  intros s e H. destruct e; try contradiction; cbn;
      repeat match goal with |- context [if ?b then _ else _] => destruct b | |- context [match mode ?z with _ => _ end] => destruct (mode z)
        | |- context [match stk (sc ?z) ?c with _ => _ end] => destruct (stk (sc z) c) as [|[] ?] end; cbn; auto.
Qed.
Lemma mprims_ee : forall dd d', mprims dd d' -> env_enabled d' = env_enabled dd.
Proof. intros dd d' P. induction P; [auto|]. rewrite <- IHP. destruct H; reflexivity. Qed.
Theorem reach_fcw : forall s, reach s -> fcw s.
Proof.
  apply rrun_preserves.
  - intros s c o d fs k sch md RE I M CU U NR E X id NO x dl IN. cbn [sc] in IN. pose proof (cur_notfresh _ _ (reach_full _ RE) CU) as NC.
    assert (N0 : never_off s id). { eapply never_off_back; [exact NO | | apply call_pre]. cbn [dt]. rewrite (proj2 (CancelSt.ctl_env _ _ _ _)). apply (env_enabled_const _ _ _ (hcall_prims _ _ _ _ _ _ _ E)). }
    destruct (exec_stk_cases _ _ _ _ _ X NC x) as [(-> & Q)|[(_ & -> & (g & ->) & Q)|(NE & Q & NS)]]; rewrite Q in IN.
    + assert (IN' : In (FCancelWait id dl) (fs ++ FApi (ncalls s) o :: stk (sc s) c)) by (destruct k; try (cbn in IN; rewrite zupd_eq in IN; exact IN); destruct IN).
      apply in_app_or in IN'. destruct IN' as [IN'|[IN'|IN']]; [|discriminate IN' | exact (I _ N0 _ _ IN')].
      destruct (hcall_fcw _ _ _ _ _ _ _ _ _ E IN') as [A B]. rewrite (never_off_en _ _ RE N0 A) in B. discriminate B.
    + cbn in IN. intuition discriminate.
    + cbn in IN. rewrite zupd_neq in IN by exact NE. exact (I _ N0 _ _ IN).
  - intros s c v f rest b d fs k sch md RE I M CU SK L E X id NO x dl IN. cbn [sc] in IN. pose proof (cur_notfresh _ _ (reach_full _ RE) CU) as NC.
    assert (N0 : never_off s id). { eapply never_off_back; [exact NO | | apply (tick_pre s c v f d fs k)]. cbn [dt]. rewrite (proj2 (CancelSt.ctl_env _ _ _ _)). apply (env_enabled_const _ _ _ (hret_prims _ _ _ _ _ _ _ _ _ E)). }
    destruct (exec_stk_cases _ _ _ _ _ X NC x) as [(-> & Q)|[(_ & -> & (g & ->) & Q)|(NE & Q & NS)]]; rewrite Q in IN.
    + assert (IN' : In (FCancelWait id dl) (fs ++ rest)) by (destruct k; try (cbn in IN; rewrite zupd_eq in IN; exact IN); destruct IN).
      apply in_app_or in IN'. destruct IN' as [IN'|IN']; [|apply (I _ N0 c dl); rewrite SK; right; exact IN'].
      destruct (hret_fcw _ _ _ _ _ _ _ _ _ _ _ E IN') as [A B]. rewrite (never_off_en _ _ RE N0 A) in B. discriminate B.
    + cbn in IN. intuition discriminate.
    + cbn in IN. rewrite zupd_neq in IN by exact NE. exact (I _ N0 _ _ IN).
  - intros s d ws sch md ios RE I M A K X id NO x dl IN. cbn [set_sc set_dt set_mode sc dt] in *. apply sco_switch_frame in X. destruct X as (X1 & _). destruct (wakes_frame ws (sc s)) as (W1 & _). rewrite X1, W1 in IN.
    apply (I _ (never_off_back _ _ _ NO (mprims_ee _ _ (mp_main _ _ _ _ _ _ _ K)) (ex_intro _ [] eq_refl)) _ _ IN).
  - intros s m RE I _. exact I.
  - intros s e RE I H M id NO x dl IN. destruct (env_frame s e H) as (E1 & _). rewrite E1 in IN. apply (I _ (never_off_back _ _ _ NO (env_ee s e H) (env_pre s e H)) _ _ IN).
  - intros g O id _ x dl IN. cbn in IN. unfold zupd in IN. destruct (_ =? _); cbn in IN; intuition discriminate.
Qed.
(** *** A loner ends at once *)
Lemma join_open : forall s c id r, reach s -> stk (sc s) c = FJoin id :: r \/ stk (sc s) c = FPause :: FJoin id :: r -> exists k dl t, In (TCall k c (OpJoin id dl) t) (tr s).
Proof.
  intros s c id r RE SX.
  assert (L : lstack (stk (sc s) c)) by (apply live_lstack; [apply reach_full, RE | destruct SX as [-> | ->]; discriminate]).
  assert (H : exists k dl, In (FApi k (OpJoin id dl)) (stk (sc s) c)).
  { inversion L as [s0 U EQ|k0 o w s0 U SH EQ|w s0 ES EQ].
    - exfalso. destruct SX as [SX|SX]; rewrite SX in U; inversion U.
    - rewrite <- EQ in SX. exists k0. assert (O : exists dl, o = OpJoin id dl).
      { inversion SH; subst; try (match goal with H : pz _ _ |- _ => inversion H; subst end); try (match goal with H : yf _ _ |- _ => inversion H; subst end);
          cbn in SX; destruct SX as [SX|SX]; try discriminate SX; injection SX; intros; subst; eauto. }
      destruct O as (dl & ->). exists dl. apply in_or_app. right. left. reflexivity.
    - exfalso. rewrite <- EQ in SX. destruct (exit_shape_hd _ ES) as (f & t & -> & H). cbn in SX. destruct SX as [SX|SX]; injection SX; intros; subst; destruct H. }
  destruct H as (k & dl & IN). destruct (ci_open _ (reach_cinv _ RE) _ _ _ IN) as (t & IT & _). eauto.
Qed.
Lemma loner_queues : forall s x, reach s -> loner s x -> q (dt s) (QCancel x) = [] /\ q (dt s) (QJoin x) = [] /\ gen (cof (dt s) x) = None.
Proof.
  intros s x RE (NJ & NG & NO). split; [|split].
  - destruct (q (dt s) (QCancel x)) as [|n l] eqn:Q; [reflexivity|]. exfalso. assert (IN : In n (q (dt s) (QCancel x))) by (rewrite Q; left; reflexivity).
    pose proof (reach_qloc _ RE n (QCancel x) Logic.I IN) as MA. unfold matched in MA. pose proof (reach_fcw _ RE _ NO (node_co n)) as FC.
    destruct (stk (sc s) (node_co n)) as [|f st]; [exact MA|]. 
    assert (H : exists dl, In (FCancelWait x dl) (f :: st)).
    { destruct f; cbn [top] in MA; try contradiction; try (destruct MA as [_ MA]; discriminate MA); try (destruct st as [|[] ?]; try contradiction; destruct o; try contradiction; destruct MA as (? & ? & _ & _ & MA); discriminate MA);
        try (destruct MA as [_ MA]; injection MA as ->; eexists; left; reflexivity).
      destruct st as [|f st]; [contradiction|]. destruct f; try contradiction; try (destruct MA as [_ MA]; discriminate MA); try (destruct st as [|[] ?]; try contradiction; destruct o; try contradiction; destruct MA as (? & ? & _ & _ & MA); discriminate MA).
      destruct MA as [_ MA]; injection MA as ->. eexists. right. left. reflexivity. }
    destruct H as (dl & H). exact (FC _ H).
  - destruct (q (dt s) (QJoin x)) as [|n l] eqn:Q; [reflexivity|]. exfalso. assert (IN : In n (q (dt s) (QJoin x))) by (rewrite Q; left; reflexivity).
    pose proof (reach_qloc _ RE n (QJoin x) Logic.I IN) as MA. unfold matched in MA.
    assert (H : exists r, stk (sc s) (node_co n) = FJoin x :: r \/ stk (sc s) (node_co n) = FPause :: FJoin x :: r).
    { destruct (stk (sc s) (node_co n)) as [|f st]; [contradiction|].
      destruct f; cbn [top] in MA; try contradiction; try (destruct MA as [_ MA]; try discriminate MA; try (injection MA as ->; eexists; left; reflexivity)); try (destruct st as [|[] ?]; try contradiction; destruct o; try contradiction; destruct MA as (? & ? & _ & _ & MA); discriminate MA).
      destruct st as [|f st]; [contradiction|]. destruct f; try contradiction; try (destruct MA as [_ MA]; try discriminate MA; try (injection MA as ->; eexists; right; reflexivity)); try (destruct st as [|[] ?]; try contradiction; destruct o; try contradiction; destruct MA as (? & ? & _ & _ & MA); discriminate MA). }
    destruct H as (r & H). destruct (join_open _ _ _ _ RE H) as (k & dl & t & IT). exact (NJ _ _ _ _ IT).
  - destruct (gen (cof (dt s) x)) as [g|] eqn:E; [|reflexivity]. destruct (reach_gmade _ RE _ _ E) as (k & c & SB). destruct (NG _ _ SB).
Qed.

Lemma loner_rest : forall s c a d fs k, reach s -> loner s c -> coexit_rest c a (dt s) = (d, fs, k) -> fs = [] /\ k = CFinal a.
Proof.
  intros s c a d fs k RE LO E. destruct (loner_queues _ _ RE LO) as (Q1 & Q2 & G). unfold coexit_rest in E. cbn [set_allcount set_all q] in E. unfold emptyq in E. cbn [set_allcount set_all q] in E. rewrite Q1 in E. cbn [length resume_all negb andb q set_allcount set_all] in E.
  rewrite Q2 in E. cbn [length resume_all negb andb cof set_allcount set_all] in E. rewrite G in E. injection E as _ <- <-. auto.
Qed.
Lemma flag_off : forall s x, reach s -> calm s -> ~ loner s x -> canceled (cof (dt s) x) && casync (cof (dt s) x) = false.
Proof.
  intros s x RE [DE|H] NL; [rewrite (al_async _ (reach_alli _ RE DE)); apply andb_false_r|]. destruct (H x) as [SP|LO]; [rewrite (spared_flag _ _ RE SP); reflexivity | contradiction].
Qed.

(** ** The set of live coroutines *)
Definition exk (L : Z -> Prop) (x : Z) (st : list frame) : Prop := noexit st \/ exists w base, st = w ++ base /\ exit_shape w /\ noexit base /\ ~ L x.
Lemma exk_mono : forall (L L' : Z -> Prop) x st, (forall x, L' x -> L x) -> exk L x st -> exk L' x st.
Proof. intros L L' x st H [A|(w & base & A & B & C & D)]; [left; exact A | right; exists w, base; split; [exact A | split; [exact B | split; [exact C | intros Q; apply D, H, Q]]]]. Qed.
Record ali2 (L : Z -> Prop) (s : state) : Prop := {
  a2_ex : forall x, exk L x (stk (sc s) x);
  a2_nd : NoDup (all (dt s));
  a2_cnt : allcount (dt s) = Z.of_nat (length (all (dt s)));
  a2_in : forall x, In x (all (dt s)) <-> stk (sc s) x <> [] /\ noexit (stk (sc s) x)
}.
(** one step of [c], with what it does to the set *)
Lemma ali2_exec : forall (L L' : Z -> Prop) s c d k st' sch md nw nc T,
  (forall x, L' x -> L x) -> full s -> cur (sc s) = Some c -> ali2 L s ->
  exec c k (set_stk (zupd (stk (sc s)) c st') (sc s)) = (sch, md) ->
  (all d = all (dt s) /\ allcount d = allcount (dt s) /\ (noexit st' <-> noexit (stk (sc s) c)) /\ exk L' c st' /\ st' <> [] /\ (forall b, k <> CFinal b)) \/
  (all d = all (dt s) /\ allcount d = allcount (dt s) /\ ~ noexit (stk (sc s) c) /\ (exists b, k = CFinal b)) \/
  (all d = remove1 c (all (dt s)) /\ allcount d = allcount (dt s) - 1 /\ noexit (stk (sc s) c) /\ ((exists b, k = CFinal b) \/ ((forall b, k <> CFinal b) /\ (forall g, k <> CSpawn g) /\ exk L' c st' /\ ~ noexit st'))) ->
  ali2 L' (mkst sch (ctl_dat c (nextid (sc s) + 1) k d) md nw nc T).
Proof.
  intros L L' s c d k st' sch md nw nc T LL F CU [I2 I3 I4 I5] X H.
  pose proof (cur_notfresh _ _ F CU) as NFR. set (n := nextid (sc s) + 1) in *.
  assert (AL : stk (sc s) c <> []) by (destruct F as [[SI _] _]; apply cur_alive; assumption).
  assert (FR : ~ In n (all (dt s))). { intros IN. apply I5 in IN. destruct IN as [IN _]. apply IN, stk_fresh, F. }
  pose proof (exec_stk_cases _ _ _ _ _ X NFR) as ST. cbn [set_stk stk nextid] in ST. fold n in ST.
  assert (STc : stk sch c = match k with CFinal _ => [] | _ => st' end).
  { destruct (ST c) as [[_ Q]|[(? & _)|(? & _)]]; [|contradiction|contradiction]. rewrite Q, zupd_eq. reflexivity. }
  assert (STo : forall x, x <> c -> (exists g, k = CSpawn g) /\ x = n /\ stk sch x = [FEntry] \/ stk sch x = stk (sc s) x /\ forall g, k = CSpawn g -> x <> n).
  { intros x NE. destruct (ST x) as [[? _]|[(_ & -> & G & Q)|(_ & Q & G)]]; [contradiction|left; auto|right]. rewrite zupd_neq in Q by exact NE. auto. }
  assert (ALL2 : (forall g, k <> CSpawn g) /\ all (ctl_dat c n k d) = all d /\ allcount (ctl_dat c n k d) = allcount d \/
     (exists g, k = CSpawn g) /\ all (ctl_dat c n k d) = all d ++ [n] /\ allcount (ctl_dat c n k d) = allcount d + 1).
  { destruct k; try (left; split; [discriminate|]; auto; fail). right. split; [eauto|]. cbn [ctl_dat]. destruct (spawn_all (Some c) n isgen d) as (A & B & _). auto. }
  split; cbn [sc dt].
  - intros x. destruct (Z.eq_dec x c) as [->|NE].
    + rewrite STc. destruct k; try (destruct H as [(_ & _ & _ & E & _)|[(_ & _ & _ & (b & Q))|(_ & _ & _ & [(b & Q)|(_ & _ & E & _)])]]; try discriminate Q; exact E).
      left. apply noexit_nil.
    + destruct (STo x NE) as [(_ & _ & ->)|(-> & _)]; [left; nx | apply (exk_mono L), I2; exact LL].
  - assert (ND : NoDup (all d) /\ ~ In n (all d)).
    { destruct H as [(E & _)|[(E & _)|(E & _)]]; rewrite E; auto. split; [apply NoDup_filter, I3 | intros IN; apply remove1_In in IN; tauto]. }
    destruct ALL2 as [(_ & -> & _)|(_ & -> & _)]; [apply ND | apply NoDup_snoc; apply ND].
  - assert (LN : allcount d = Z.of_nat (length (all d))).
    { destruct H as [(E1 & E2 & _)|[(E1 & E2 & _)|(E1 & E2 & NX & _)]]; rewrite E1, E2; auto. rewrite remove1_len; [lia | exact I3 | apply I5; auto]. }
    destruct ALL2 as [(_ & -> & ->)|(_ & -> & ->)]; [exact LN | rewrite app_length; cbn; lia].
  - intros x.
    assert (AX : In x (all (ctl_dat c n k d)) <-> In x (all d) \/ ((exists g, k = CSpawn g) /\ x = n)).
    { destruct ALL2 as [(G & -> & _)|(G & -> & _)]; [|rewrite in_app_iff; cbn; intuition].
      split; [auto|]. intros [A|[(g & A) _]]; [exact A | destruct (G g A)]. }
    rewrite AX. destruct (Z.eq_dec x c) as [->|NE].
    + rewrite STc. assert (NC : ~ ((exists g, k = CSpawn g) /\ c = n)) by (intros [_ Q]; congruence).
      destruct H as [(E & _ & NX & _ & NN & NF)|[(E & _ & NX & (b & ->))|(E & _ & NX & [(b & ->)|(NF & NS & _ & NX2)])]]; rewrite E.
      * rewrite I5. assert (Q : match k with CFinal _ => [] | _ => st' end = st') by (destruct k; try reflexivity; destruct (NF tomain eq_refl)).
        rewrite Q. tauto.
      * rewrite I5. tauto.
      * split; [intros [A|A]; [apply remove1_In in A; tauto | tauto] | tauto].
      * assert (Q : match k with CFinal _ => [] | _ => st' end = st') by (destruct k; try reflexivity; destruct (NF tomain eq_refl)).
        rewrite Q. split; [intros [A|A]; [apply remove1_In in A; tauto | tauto] | tauto].
    + assert (AD : In x (all d) <-> In x (all (dt s))).
      { destruct H as [(E & _)|[(E & _)|(E & _)]]; rewrite E; try tauto. rewrite remove1_In. intuition congruence. }
      rewrite AD. destruct (STo x NE) as [(G & -> & ->)|(-> & G)].
      * split; [|auto]. intros _. split; [discriminate | nx].
      * rewrite I5. split; [intros [A|[(g & A) B]]; [exact A | destruct (G g A B)] | auto].
Qed.


Lemma hcall_all3 : forall c o nw d d' fs k, hcall c o nw d = (d', fs, k) -> o <> OpExit -> all d' = all d /\ allcount d' = allcount d.
Proof.
  intros c o nw d d' fs k E N1. destruct (special o) eqn:S.
  - pose proof (hcall_special _ _ _ _ _ _ _ E S) as H. destruct o; try discriminate S; try congruence.
    + destruct (do_cancel_all _ _ _ _ _ _ _ _ H) as (A & B & _). auto.
    + destruct H as (-> & _). auto.
    + destruct H as (-> & _). auto.
    + unfold do_sigwatch in H. repeat match type of H with context [if ?b then _ else _] => destruct b end; inj H; auto.
    + unfold do_sigunwatch in H. repeat match type of H with context [if ?b then _ else _] => destruct b end; inj H; auto.
    + destruct H as (-> & _). auto.
    + unfold do_cleanup_pop in H. destruct (cleanups (cof d c)); [inj H; auto|]. destruct exec; inj H; auto.
  - apply hcall_sp in E; [|exact S]. apply sp_env in E. destruct E as (A & B & _). auto.
Qed.
(** continuations that do not end the coroutine *)
Lemma hret_noexit3 : forall c f v b nw d d' fs k, hret c f v b nw d = (d', fs, k) -> exitf f = false ->
  exits c d d' fs k \/ (noexit fs /\ (forall b, k <> CFinal b) /\ all d' = all d /\ allcount d' = allcount d).
Proof.
  intros c f v b nw d d' fs k E N3.
  assert (SPE : sp c d d' -> all d' = all d /\ allcount d' = allcount d) by (intros S; apply sp_env in S; destruct S as (A & B & _); auto).
  assert (Z : exits c d d' fs k \/ (noexit fs /\ (forall b, k <> CFinal b))).
  { destruct f; try discriminate N3; cbn [hret] in E; try (right; nox E; fail).
    - left. eapply ex_rest; exact E.
    - destruct (_ && _ && _); [left; apply coexit_async_exits, E | right; nox E].
    - destruct (_ && _); [left; apply coexit_async_exits, E | right; nox E].
    - right. unfold sleep_end in E. nox E.
    - right. unfold do_cancel in E. nox E.
    - right. unfold sigwait_end in E. nox E.
    - right. unfold wait_end in E. nox E.
    - right. unfold send_end in E. nox E.
    - right. unfold recv_end in E. nox E.
    - right. unfold select_end in E. nox E.
    - right. unfold lock_end in E. nox E.
    - right. unfold wgwait_end in E. nox E.
    - right. unfold cvwait_unlocked in E. nox E.
    - right. unfold cvwait_end, cv_relock, finish_lock in E. nox E.
    - destruct (_ =? _); [right; nox E|]. destruct (_ && _); [left; apply coexit_async_exits, E|]. right. unfold cv_relock, finish_lock in E. nox E.
    - right. unfold join_end in E. nox E.
    - right. unfold suspend_end in E. nox E.
    - right. unfold work_submit in E. nox E.
    - left. apply coexit_async_exits, E. }
  destruct Z as [Z|[A B]]; [auto|]. 
  apply hret_sp in E. destruct f; try discriminate N3; try (right; split; [exact A | split; [exact B | apply SPE, E]]);
    try (destruct E as [E|(_ & _ & E)]; [right; split; [exact A | split; [exact B | apply SPE, E]] | auto]).
  - left. eapply ex_rest; exact E.
  - right. split; [exact A | split; [exact B|]]. apply do_cancel_all in E. cbn in E. destruct E as (E1 & E2 & _). auto.
  - auto.
Qed.
Lemma spared_back : forall p t x, spared (p ++ t) x -> spared t x.
Proof.
  intros p t x S k c id dl tm IN. destruct (S k c id dl tm (in_or_app _ _ _ (or_intror IN))) as [A B]. split; [exact A|]. intros Q. apply B, ended_mono, Q.
Qed.
Lemma calm_back : forall s s', calm s' -> env_async (dt s') = env_async (dt s) -> env_enabled (dt s') = env_enabled (dt s) -> (exists p, tr s' = p ++ tr s) -> calm s.
Proof.
  intros s s' [[A B]|H] EA EE (p & Q).
  - left. split; [congruence|]. intros k c t IN. apply (B k c t). rewrite Q. apply in_or_app. auto.
  - right. intros x. destruct (H x) as [S|L]; [left; rewrite Q in S; eapply spared_back, S | right; eapply loner_back; eauto].
Qed.
Lemma call_back : forall s c o d fs k, hcall c o (now s) (dt s) = (d, fs, k) -> forall sch md nw nc, let s' := mkst sch (ctl_dat c (nextid (sc s) + 1) k d) md nw nc (call_tr s c o fs k) in
  (calm s' -> calm s) /\ forall x, loner s' x -> loner s x.
Proof.
  intros s c o d fs k E sch md nw nc s'. destruct (env_enabled_const _ _ _ (hcall_prims _ _ _ _ _ _ _ E)) as [A B]. destruct (CancelSt.ctl_env c (nextid (sc s) + 1) k d) as [A2 B2].
  split; [intros C; eapply calm_back; [exact C | cbn; congruence | cbn; congruence | apply call_pre] | intros x L; eapply loner_back; [exact L | cbn; congruence | apply call_pre]].
Qed.
Lemma tick_back : forall s c v f b d fs k, hret c f v b (now s) (dt s) = (d, fs, k) -> forall sch md nw nc, let s' := mkst sch (ctl_dat c (nextid (sc s) + 1) k d) md nw nc (tick_tr s c v f d fs k) in
  (calm s' -> calm s) /\ forall x, loner s' x -> loner s x.
Proof.
  intros s c v f b d fs k E sch md nw nc s'. destruct (env_enabled_const _ _ _ (hret_prims _ _ _ _ _ _ _ _ _ E)) as [A B]. destruct (CancelSt.ctl_env c (nextid (sc s) + 1) k d) as [A2 B2].
  split; [intros C; eapply calm_back; [exact C | cbn; congruence | cbn; congruence | apply (tick_pre s c v f d fs k)] | intros x L; eapply loner_back; [exact L | cbn; congruence | apply (tick_pre s c v f d fs k)]].
Qed.
(** a coroutine that ends, or runs the next cleanup handler *)
Lemma ali2_exits : forall s c d fs k rest sch md nw nc T (L' : Z -> Prop), reach s -> cur (sc s) = Some c -> ali2 (loner s) s -> (forall x, L' x -> loner s x) ->
  exits c (dt s) d fs k -> noexit (stk (sc s) c) -> noexit rest -> exec c k (set_stk (zupd (stk (sc s)) c (fs ++ rest)) (sc s)) = (sch, md) ->
  ali2 L' (mkst sch (ctl_dat c (nextid (sc s) + 1) k d) md nw nc T).
Proof.
  intros s c d fs k rest sch md nw nc T L' RE CU I LL EX NX NR X. destruct EX as [h l CL -> -> ->|a ER].
  - assert (NN : noexit ([FExitLoop] ++ rest)) by (apply noexit_cons; [reflexivity | exact NR]).
    eapply (ali2_exec (loner s) L' s c); try eassumption; [apply reach_full, RE|].
    left. split; [reflexivity|]. split; [reflexivity|]. split; [apply noexit_iff; assumption|]. split; [left; exact NN|]. split; discriminate.
  - pose proof (coexit_rest_sp _ _ _ _ _ _ ER) as S2. apply sp_env in S2. cbn in S2. destruct S2 as (A & B & _ & D).
    eapply (ali2_exec (loner s) L' s c); try eassumption; [apply reach_full, RE|].
    right; right. split; [exact A|]. split; [exact B|]. split; [exact NX|]. destruct (coexit_rest_shape _ _ _ _ _ _ ER) as [(-> & ->)|(ES & K)]; [left; eauto | right].
    split; [intros b0 ->; destruct K as [K|(v0 & K)]; discriminate|]. split; [intros g ->; destruct K as [K|(v0 & K)]; discriminate|].
    split; [|apply exit_shape_not; exact ES]. right. exists fs, rest. split; [reflexivity|]. split; [exact ES|]. split; [exact NR|].
    intros Q. destruct (loner_rest _ _ _ _ _ _ RE (LL _ Q) ER) as [-> _]. destruct (exit_shape_hd _ ES) as (? & ? & W & _). discriminate W.
Qed.
Lemma ustack_noexit2 : forall L x st, ustack st -> exk L x st -> noexit st.
Proof. intros L x st U [N|(w & base & A & B & C & _)]; apply ustack_noexit; try exact U; [left; exact N | right; eauto]. Qed.
Theorem reach_ali2 : forall s, reach s -> calm s -> ali2 (loner s) s.
Proof.
  apply (rrun_preserves (fun s => calm s -> ali2 (loner s) s)).
  - intros s c o d fs k sch md RE I M CU U NR E X CA. pose proof (reach_full _ RE) as F.
    destruct (call_back _ _ _ _ _ _ E sch md (now s) (S (ncalls s))) as [CB LL]. specialize (I (CB CA)). pose proof (ustack_noexit2 _ _ _ U (a2_ex _ _ I c)) as NX.
    assert (DO : o = OpExit \/ o <> OpExit) by (destruct o; auto; right; discriminate).
    destruct DO as [->|NO].
    + pose proof (hcall_special _ _ _ _ _ _ _ E eq_refl) as EX. cbn in EX.
      eapply (ali2_exits s c d fs k (FApi (ncalls s) OpExit :: stk (sc s) c)); try eassumption. apply noexit_cons; [reflexivity | exact NX].
    + destruct (hcall_all3 _ _ _ _ _ _ _ E NO) as (A & B). destruct (hcall_noexit _ _ _ _ _ _ _ E NO) as [NF NK].
      eapply (ali2_exec (loner s) _ s c); try eassumption.
      assert (NN : noexit (fs ++ FApi (ncalls s) o :: stk (sc s) c)) by (apply noexit_app; [exact NF | apply noexit_cons; [reflexivity | exact NX]]).
      left. split; [exact A|]. split; [exact B|]. split; [apply noexit_iff; assumption|]. split; [left; exact NN|]. split; [destruct fs; discriminate | exact NK].
  - intros s c v f rest b d fs k sch md RE I M CU SK L E X CA. pose proof (reach_full _ RE) as F.
    destruct (tick_back _ _ _ _ _ _ _ _ E sch md (now s) (ncalls s)) as [CB LL]. specialize (CB CA). specialize (I CB).
    pose proof (hret_sp _ _ _ _ _ _ _ _ _ E) as S.
    assert (EXF : fs ++ rest <> [] \/ exists b0, k = CFinal b0).
    { pose proof (hret_next _ _ _ _ _ _ _ _ _ _ L E) as N. destruct k; cbn in N; try (left; apply lstack_nonnil; exact N);
        try (right; eauto; fail). left. apply lstack_nonnil, ls_user. exact N. }
    destruct (a2_ex _ _ I c) as [NX|(w & base & SW & ES & NB & NL)].
    + pose proof NX as NX0. rewrite SK in NX. pose proof (noexit_tl _ _ NX) as NR.
      destruct (hret_noexit3 _ _ _ _ _ _ _ _ _ E (NX f (or_introl eq_refl))) as [EX|(NF & NK & A & B)].
      * eapply (ali2_exits s c d fs k rest); eassumption.
      * eapply (ali2_exec (loner s) _ s c); try eassumption.
        assert (NN : noexit (fs ++ rest)) by (apply noexit_app; assumption).
        left. split; [exact A|]. split; [exact B|]. split; [apply noexit_iff; assumption|]. split; [left; exact NN|]. split; [|exact NK].
        destruct EXF as [H|(b0 & H)]; [exact H | destruct (NK b0 H)].
    + pose proof (flag_off _ _ RE CB NL) as FO.
      assert (NXs : ~ noexit (stk (sc s) c)) by (rewrite SW; apply exit_shape_not; exact ES). rewrite SK in SW.
      assert (STAY : forall w', all d = all (dt s) -> allcount d = allcount (dt s) ->
         exit_shape w' -> fs ++ rest = w' ++ base -> (forall b0, k <> CFinal b0) ->
         ali2 (loner (mkst sch (ctl_dat c (nextid (sc s) + 1) k d) md (now s) (ncalls s) (tick_tr s c v f d fs k))) (mkst sch (ctl_dat c (nextid (sc s) + 1) k d) md (now s) (ncalls s) (tick_tr s c v f d fs k))).
      { intros w' A B ES' Q NK. eapply (ali2_exec (loner s) _ s c); try eassumption.
        assert (NXw : ~ noexit (w' ++ base)) by (apply exit_shape_not; exact ES').
        left. rewrite Q. split; [exact A|]. split; [exact B|]. split; [tauto|]. split; [right; exists w', base; split; [reflexivity | split; [exact ES' | split; [exact NB | intros Z; apply NL, LL, Z]]]|].
        split; [destruct (exit_shape_hd _ ES') as (? & ? & -> & _); discriminate | exact NK]. }
      assert (FIN : all d = all (dt s) -> allcount d = allcount (dt s) -> (exists b0, k = CFinal b0) ->
         ali2 (loner (mkst sch (ctl_dat c (nextid (sc s) + 1) k d) md (now s) (ncalls s) (tick_tr s c v f d fs k))) (mkst sch (ctl_dat c (nextid (sc s) + 1) k d) md (now s) (ncalls s) (tick_tr s c v f d fs k))).
      { intros A B K. eapply (ali2_exec (loner s) _ s c); try eassumption. right; left. auto. }
      inversion ES as [a sb w0 Y|a sb|a w0 Y]; subst w; [inversion Y; subst w0 | |inversion Y; subst w0]; cbn in SW; injection SW as -> ->;
        cbn [hret] in E; rewrite ?FO in E.
      * inj E. apply (STAY [FExitGen a sb]); auto; try discriminate. constructor.
      * inj E. apply (STAY ([FClose] ++ [FExitGen a sb])); auto; try discriminate. constructor. constructor.
      * unfold coyield in E. inj E. apply (STAY ([FCoyield; FClose] ++ [FExitGen a sb])); auto; try discriminate. constructor. constructor.
      * inj E. apply (STAY ([FYfsr; FClose] ++ [FExitGen a sb])); auto; try discriminate. constructor. constructor.
      * destruct S as (-> & [(-> & ->)|Y2]); [apply FIN; eauto|]. apply yfsr_cases in Y2. destruct Y2 as (_ & -> & [->| ->]).
        -- apply (STAY [FCoyield; FYfsr; FExitFin a]); auto; try discriminate. apply (es_fin a). constructor.
        -- apply (STAY [FCoyield; FExitFin a]); auto; try discriminate. apply (es_fin a). constructor.
      * inj E. apply FIN; eauto.
      * inj E. apply (STAY [FExitFin a]); auto; try discriminate. apply (es_fin a). constructor.
      * unfold coyield in E. inj E. apply (STAY [FCoyield; FExitFin a]); auto; try discriminate. apply (es_fin a). constructor.
      * inj E. apply (STAY [FYfsr; FExitFin a]); auto; try discriminate. apply (es_fin a). constructor.
  - intros s d ws sch md ios RE I M A K X D. pose proof (mp_main _ _ _ _ _ _ _ K) as MP.
    assert (C : forall dd d', mprims dd d' -> all d' = all dd /\ allcount d' = allcount dd /\ env_async d' = env_async dd).
    { clear. intros dd d' P. induction P; [auto|]. destruct IHP as (A & B & C).
      assert (G : all d2 = all d1 /\ allcount d2 = allcount d1 /\ env_async d2 = env_async d1) by (destruct H; cbn; auto).
      destruct G as (G1 & G2 & G3). repeat split; congruence. }
    destruct (C _ _ MP) as (C1 & C2 & C3). pose proof (mprims_ee _ _ MP) as C4. specialize (I (calm_back _ _ D C3 C4 (ex_intro _ [] eq_refl))).
    apply sco_switch_frame in X. destruct X as (X1 & _). destruct (wakes_frame ws (sc s)) as (W1 & _).
    destruct I as [I2 I3 I4 I5]. split; cbn [set_sc set_dt set_mode sc dt]; rewrite ?C1, ?C2, ?X1, ?W1; auto.
    intros x. apply (exk_mono (loner s)); [|apply I2]. intros y Q. eapply loner_back; [exact Q | exact C4 | exists []; reflexivity].
  - intros s m RE I _ D. specialize (I D). destruct I; split; assumption.
  - intros s e RE I H M D.
    assert (C : allcount (dt (step s e)) = allcount (dt s) /\ env_async (dt (step s e)) = env_async (dt s)).
    { destruct e; try contradiction; cbn;
      repeat match goal with |- context [if ?b then _ else _] => destruct b | |- context [match mode ?z with _ => _ end] => destruct (mode z)
        | |- context [match stk (sc ?z) ?c with _ => _ end] => destruct (stk (sc z) c) as [|[] ?] end; cbn; auto. }
    destruct C as (C2 & C3). destruct (env_frame s e H) as (E1 & _).
    destruct (I (calm_back _ _ D C3 (env_ee s e H) (env_pre s e H))) as [I2 I3 I4 I5]. split; rewrite ?(env_all s e H), ?C2, ?E1; auto.
    intros x. apply (exk_mono (loner s)); [|apply I2]. intros y Q. eapply loner_back; [exact Q | apply env_ee, H | apply env_pre, H].
  - intros g O D. cbn [init dt] in D. split; cbn [init dt sc].
    + intros x. cbn. unfold zupd. destruct (_ =? _); left; nx.
    + cbn. repeat constructor; intros [].
    + reflexivity.
    + intros x. cbn. unfold zupd. destruct (Z.eqb_spec x (cfg_lastid g + 1)) as [->|N].
      * split; [intros _; split; [discriminate | nx] | auto].
      * split; [intros [H|[]]; congruence | intros [H _]; congruence].
Qed.
