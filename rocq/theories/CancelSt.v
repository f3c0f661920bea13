(** The cancel state, cancel type and cleanup handlers of a coroutine. *)
From Coq Require Import List ZArith Bool Lia.
From Verif Require Import AATreeSpec AATreeHist Util Runtime SchedInv StepInv StackShape RuntimeSpec TraceInv Immediate Prims StaticInv Footprint QueueInv OwnInv WaitInv CallInv SpecInv TraceStep Wake Awake AllInv PausedInv ResultInv JoinInv PairedInv CancelInv CancelRes CancelSpec.
Import ListNotations.
Local Open Scope Z_scope.

Definition ac (r : corec) := (casync r, cenabled r).
Lemma sp_ac : forall c d d', sp c d d' -> forall x, ac (cof d' x) = ac (cof d x).
Proof. intros c d d' [_ C _ _] x. specialize (C x). unfold spc in C. injection C; intros. unfold ac. congruence. Qed.
Lemma exits_ac : forall c d d' fs k, exits c d d' fs k -> forall x, ac (cof d' x) = ac (cof d x).
Proof.
  intros c d d' fs k [h l _ -> _ _|a E] x; [cbn; unfold zupd; destruct (Z.eqb_spec x c) as [->|]; reflexivity|].
  apply coexit_rest_sp in E. apply (sp_ac _ _ _ E x).
Qed.
Lemma cancel_ac : forall c id dl nw d d' fs k, do_cancel c id dl nw d = (d', fs, k) -> forall x, ac (cof d' x) = ac (cof d x).
Proof.
  intros c id dl nw d d' fs k E x. destruct (do_cancel_sp _ _ _ _ _ _ _ _ E) as [[S _]|(_ & d1 & S & _ & -> & _)]; [eapply sp_ac; exact S|].
  rewrite <- (sp_ac _ _ _ S x). cbn. unfold zupd. destruct (Z.eqb_spec x id) as [->|]; reflexivity.
Qed.
Definition ac_call (o : op) (p : bool * bool) : bool * bool :=
  match o with OpSetType b => (b, snd p) | OpSetState b => (fst p, b) | _ => p end.
Lemma hcall_ac : forall c o nw d d' fs k, hcall c o nw d = (d', fs, k) -> forall x,
  ac (cof d' x) = if c =? x then ac_call o (ac (cof d x)) else ac (cof d x).
Proof.
  intros c o nw d d' fs k E x.
  assert (SAME : ac (cof d' x) = ac (cof d x) -> ac_call o (ac (cof d x)) = ac (cof d x) -> ac (cof d' x) = if c =? x then ac_call o (ac (cof d x)) else ac (cof d x)).
  { intros A B. destruct (c =? x); congruence. }
  destruct (special o) eqn:SP.
  2:{ apply hcall_sp in E; [|exact SP]. apply SAME; [eapply sp_ac; exact E | destruct o; try reflexivity; discriminate SP]. }
  pose proof (hcall_special _ _ _ _ _ _ _ E SP) as H. destruct o; try discriminate SP.
  - apply SAME; [eapply cancel_ac; exact H | reflexivity].
  - destruct H as (-> & _). cbn. unfold zupd. rewrite (Z.eqb_sym x c). destruct (Z.eqb_spec c x) as [->|]; reflexivity.
  - destruct H as (-> & _). cbn. unfold zupd. rewrite (Z.eqb_sym x c). destruct (Z.eqb_spec c x) as [->|]; reflexivity.
  - apply SAME; [|reflexivity]. unfold do_sigwatch in H. repeat match type of H with context [if ?b then _ else _] => destruct b end; inj H; auto. cbn; unfold zupd; destruct (Z.eqb_spec x c) as [->|]; reflexivity.
  - apply SAME; [|reflexivity]. unfold do_sigunwatch in H. repeat match type of H with context [if ?b then _ else _] => destruct b end; inj H; auto. cbn; unfold zupd; destruct (Z.eqb_spec x c) as [->|]; reflexivity.
  - apply SAME; [|reflexivity]. destruct H as (-> & _). cbn. unfold zupd. destruct (Z.eqb_spec x c) as [->|]; reflexivity.
  - apply SAME; [|reflexivity]. unfold do_cleanup_pop in H. destruct (cleanups _); [inj H; reflexivity|]. destruct exec; inj H; cbn; unfold zupd; destruct (Z.eqb_spec x c) as [->|]; reflexivity.
  - apply SAME; [|reflexivity]. eapply exits_ac; exact H.
Qed.
Lemma hret_ac : forall c f v b nw d d' fs k, hret c f v b nw d = (d', fs, k) -> forall x, ac (cof d' x) = ac (cof d x).
Proof.
  intros c f v b nw d d' fs k E x. apply hret_sp in E.
  destruct f; try (eapply sp_ac; exact E); try (destruct E as [E|(_ & _ & E)]; [eapply sp_ac; exact E | eapply exits_ac; exact E]).
  - apply coexit_rest_sp in E. apply (sp_ac _ _ _ E x).
  - apply cancel_ac with (x := x) in E. exact E.
  - eapply exits_ac; exact E.
  - destruct E as (-> & _). cbn. unfold zupd. destruct (Z.eqb_spec x c) as [->|]; reflexivity.
  - destruct E as (-> & _). reflexivity.
Qed.
Lemma env_enabled_const : forall c d d', prims c d d' -> env_async d' = env_async d /\ env_enabled d' = env_enabled d.
Proof.
  intros c d d' P. split; [apply (prims_const c bool env_async) in P | apply (prims_const c bool env_enabled) in P]; auto; intros a b PP; destruct PP; reflexivity.
Qed.
Definition started_by (s : state) (x : Z) : Prop := In x (started (tr s)).
(** ** Cancel state and type *)
Definition cst (s : state) : Prop := forall x, In x (started (tr s)) ->
  ac (cof (dt s) x) = (cancel_type x (env_async (dt s)) (tr s), cancel_state x (env_enabled (dt s)) (tr s)).
Definition quiet_ob (z : obs) : Prop := match z with TCall _ _ (OpSetType _) _ | TCall _ _ (OpSetState _) _ => False | _ => True end.
Lemma ct_quiet : forall x a b N T, (forall z, In z N -> quiet_ob z) -> cancel_type x a (N ++ T) = cancel_type x a T /\ cancel_state x b (N ++ T) = cancel_state x b T.
Proof.
  induction N as [|z N IH]; intros T Q; [auto|]. destruct (IH T) as [A B]; [intros; apply Q; right; assumption|].
  pose proof (Q z (or_introl eq_refl)) as QZ. cbn [app]. destruct z; cbn [cancel_type cancel_state]; auto. destruct o; cbn [cancel_type cancel_state]; auto; destruct QZ.
Qed.
Lemma spawn_ac : forall p n g d, ac (cof (spawn_dat p n g d) n) = (env_async d, env_enabled d).
Proof.
  intros p n g d. unfold spawn_dat. destruct (popq QPool d) as [pp d1] eqn:P. unfold popq in P.
  assert (EN : env_async d1 = env_async d /\ env_enabled d1 = env_enabled d) by (destruct (q d QPool); inj P; auto). destruct EN as [E1 E2].
  destruct pp as [pp|]; destruct g; destruct p; cbn; rewrite ?zupd_eq; cbn; unfold ac; cbn; congruence.
Qed.
Lemma ctl_ac : forall c n k d x, x <> n -> ac (cof (ctl_dat c n k d) x) = ac (cof d x).
Proof.
  intros c n k d x N. destruct k; cbn [ctl_dat]; auto. rewrite spawn_cof by exact N. destruct (_ =? _); destruct isgen; reflexivity.
Qed.
Lemma ctl_env : forall c n k d, env_async (ctl_dat c n k d) = env_async d /\ env_enabled (ctl_dat c n k d) = env_enabled d.
Proof.
  intros c n k d. destruct k; cbn [ctl_dat]; auto. unfold spawn_dat. destruct (popq QPool d) as [pp d1] eqn:P. unfold popq in P.
  assert (EN : env_async d1 = env_async d /\ env_enabled d1 = env_enabled d) by (destruct (q d QPool); inj P; auto). destruct EN as [E1 E2].
  destruct pp as [pp|]; destruct isgen; cbn; auto.
Qed.
Lemma ct_none : forall x a b T, (forall k o t, ~ In (TCall k x o t) T) -> cancel_type x a T = a /\ cancel_state x b T = b.
Proof.
  induction T as [|z T IH]; intros N; [auto|]. destruct IH as [A B]; [intros k o t I; eapply N; right; exact I|].
  destruct z; cbn [cancel_type cancel_state]; auto. destruct o; cbn [cancel_type cancel_state]; auto; destruct (Z.eqb_spec c x) as [->|]; auto; exfalso; eapply N; left; reflexivity.
Qed.
Lemma handler_quiet : forall c fs k d z, In z (handler_obs c fs k d) -> exists h, z = THandler c h.
Proof. intros c fs k d z I. destruct (handler_obs_cases c fs k d) as [Q|(h & Q)]; rewrite Q in I; cbn in I; [destruct I|]; destruct I as [<-|[]]; eauto. Qed.
Lemma ret_quiet : forall c f v r s z, In z (ret_obs c f v r s) -> exists k o m t, z = TRet k c o v m t.
Proof. intros c f v r s z I. destruct (ret_obs_cases c f v r s) as [Q|(k & o & d & _ & _ & Q)]; rewrite Q in I; cbn in I; [destruct I|]; destruct I as [<-|[]]; eauto 6. Qed.
Lemma ctl_quiet : forall c n k z, In z (ctl_obs c n k) -> (exists p x, z = TStart p x) \/ exists x, z = TExit x.
Proof. intros c n k z I. destruct k; cbn in I; try (destruct I; fail); destruct I as [<-|[]]; eauto. Qed.
Lemma started_tick : forall s c v f d fs k, started (tick_tr s c v f d fs k) = spawned (nextid (sc s) + 1) k ++ started (tr s).
Proof. intros. unfold tick_tr. rewrite !started_app, started_ctl, started_handler, started_ret. reflexivity. Qed.
Lemma started_calls : forall s c o fs k, started (call_tr s c o fs k) = spawned (nextid (sc s) + 1) k ++ started (tr s).
Proof. intros. unfold call_tr. rewrite !started_app, started_ctl, started_handler, started_call. reflexivity. Qed.
Lemma cur_in_started : forall s c, reach s -> cur (sc s) = Some c -> In c (started (tr s)).
Proof. intros s c RE CU. destruct (reach_full _ RE) as [[SI _] _]. apply (ti_alive _ (reach_tinv _ RE)). apply (cur_alive _ _ SI CU). Qed.
(** only started coroutines do anything *)
Definition acted (s : state) : Prop := forall z x, In z (tr s) -> acts x z -> In x (started (tr s)).
Theorem reach_acted : forall s, reach s -> acted s.
Proof.
  apply rrun_preserves.
  - intros s c o d fs k sch md RE I M CU U NR E X z x IZ A. cbn [tr] in *. change (In x (started (call_tr s c o fs k))). rewrite started_calls. apply in_or_app. right.
    apply in_app_or in IZ. destruct IZ as [IZ|IZ]; [apply ctl_quiet in IZ; destruct IZ as [(? & ? & ->)|(? & ->)]; destruct A|].
    apply in_app_or in IZ. destruct IZ as [IZ|IZ]; [apply handler_quiet in IZ; destruct IZ as (h & ->); cbn in A; subst x; apply cur_in_started; assumption|].
    apply in_app_or in IZ. destruct IZ as [IZ|IZ]; [|eapply I; eassumption].
    assert (x = c); [|subst x; apply cur_in_started; assumption].
    destruct o; cbn in IZ; intuition (subst; cbn in A; try contradiction; congruence).
  - intros s c v f rest b d fs k sch md RE I M CU SK L E X z x IZ A. cbn [tr] in *. change (In x (started (tick_tr s c v f d fs k))). rewrite started_tick. apply in_or_app. right.
    apply in_app_or in IZ. destruct IZ as [IZ|IZ]; [apply ctl_quiet in IZ; destruct IZ as [(? & ? & ->)|(? & ->)]; destruct A|].
    apply in_app_or in IZ. destruct IZ as [IZ|IZ]; [apply handler_quiet in IZ; destruct IZ as (h & ->); cbn in A; subst x; apply cur_in_started; assumption|].
    apply in_app_or in IZ. destruct IZ as [IZ|IZ]; [|eapply I; eassumption]. apply ret_quiet in IZ. destruct IZ as (? & ? & ? & ? & ->). destruct A.
  - intros s d ws sch md ios RE I M A K X. exact I.
  - intros s m RE I _. exact I.
  - intros s e RE I H M z x IZ A. destruct (env_tr s e H) as [Q|(y & Q)]; rewrite Q in *; [eapply I; eassumption|]. destruct IZ as [<-|IZ]; [destruct A|]. eapply I; eassumption.
  - intros g O z x IZ A. cbn in IZ. destruct IZ as [<-|[]]. destruct A.
Qed.
Lemma nocalls_new : forall s, reach s -> forall k o t, ~ In (TCall k (nextid (sc s) + 1) o t) (tr s).
Proof.
  intros s RE k o t I. pose proof (reach_acted _ RE _ (nextid (sc s) + 1) I eq_refl) as I2. clear I. rename I2 into I. apply (ti_ids _ (reach_tinv _ RE)) in I. lia.
Qed.
Theorem reach_cst : forall s, reach s -> cst s.
Proof.
  apply rrun_preserves.
  - intros s c o d fs k sch md RE I M CU U NR E X x IX. cbn [tr dt] in *. change (In x (started (call_tr s c o fs k))) in IX. rewrite started_calls in IX.
    destruct (ctl_env c (nextid (sc s) + 1) k d) as [-> ->]. destruct (env_enabled_const _ _ _ (hcall_prims _ _ _ _ _ _ _ E)) as [EA EE].
    apply in_app_or in IX. destruct IX as [IX|IX].
    + destruct k; cbn in IX; try destruct IX. subst x. 2: destruct H. cbn [ctl_dat]. rewrite spawn_ac.
      destruct (ct_none (nextid (sc s) + 1) (env_async d) (env_enabled d) (call_tr s c o fs (CSpawn isgen))) as [A B]; [|unfold call_tr in A, B; rewrite A, B; reflexivity].
      intros k0 o0 t0 IN. apply call_tr_calls in IN. destruct IN as [(_ & IN & _)|IN]; [|eapply nocalls_new; eassumption].
      destruct (cur_notfresh _ _ (reach_full _ RE) CU). exact IN.
    + assert (XN : x <> nextid (sc s) + 1) by (apply (ti_ids _ (reach_tinv _ RE)) in IX; lia). rewrite ctl_ac by exact XN.
      rewrite (hcall_ac _ _ _ _ _ _ _ E x), (I x IX), EA, EE.
      rewrite app_assoc. match goal with |- context [cancel_type x ?a (?N ++ ?T)] => destruct (ct_quiet x a (env_enabled (dt s)) N T) as [-> ->] end.
      { intros z IZ. apply in_app_or in IZ. destruct IZ as [IZ|IZ]; [apply ctl_quiet in IZ; destruct IZ as [(? & ? & ->)|(? & ->)]; exact Logic.I|].
        apply handler_quiet in IZ. destruct IZ as (h & ->). exact Logic.I. }
      destruct o; cbn [call_obs app cancel_type cancel_state ac_call fst snd]; destruct (c =? x); reflexivity.
  - intros s c v f rest b d fs k sch md RE I M CU SK L E X x IX. cbn [tr dt] in *. change (In x (started (tick_tr s c v f d fs k))) in IX. rewrite started_tick in IX.
    destruct (ctl_env c (nextid (sc s) + 1) k d) as [-> ->]. destruct (env_enabled_const _ _ _ (hret_prims _ _ _ _ _ _ _ _ _ E)) as [EA EE].
    apply in_app_or in IX. destruct IX as [IX|IX].
    + destruct k; cbn in IX; try destruct IX. subst x. 2: destruct H. cbn [ctl_dat]. rewrite spawn_ac.
      destruct (ct_none (nextid (sc s) + 1) (env_async d) (env_enabled d) (tick_tr s c v f d fs (CSpawn isgen))) as [A B]; [|unfold tick_tr in A, B; rewrite A, B; reflexivity].
      intros k0 o0 t0 IN. apply tick_tr_calls in IN. eapply nocalls_new; eassumption.
    + assert (XN : x <> nextid (sc s) + 1) by (apply (ti_ids _ (reach_tinv _ RE)) in IX; lia). rewrite ctl_ac by exact XN.
      rewrite (hret_ac _ _ _ _ _ _ _ _ _ E x), (I x IX), EA, EE.
      rewrite 2!app_assoc. match goal with |- context [cancel_type x ?a (?N ++ ?T)] => destruct (ct_quiet x a (env_enabled (dt s)) N T) as [-> ->] end; [|reflexivity].
      intros z IZ. apply in_app_or in IZ. destruct IZ as [IZ|IZ]; [|apply ret_quiet in IZ; destruct IZ as (? & ? & ? & ? & ->); exact Logic.I].
      apply in_app_or in IZ. destruct IZ as [IZ|IZ]; [apply ctl_quiet in IZ; destruct IZ as [(? & ? & ->)|(? & ->)]; exact Logic.I|].
      apply handler_quiet in IZ. destruct IZ as (h & ->). exact Logic.I.
  - intros s d ws sch md ios RE I M A K X x IX. pose proof (mp_main _ _ _ _ _ _ _ K) as MP. cbn [tr dt] in *.
    assert (C : forall dd d', mprims dd d' -> ac (cof d' x) = ac (cof dd x) /\ env_async d' = env_async dd /\ env_enabled d' = env_enabled dd).
    { clear. intros dd d' P. induction P; [auto|]. destruct IHP as (<- & <- & <-). destruct H; cbn; auto; unfold zupd; destruct (Z.eqb_spec x c); subst; auto. }
    destruct (C _ _ MP) as (-> & -> & ->). apply I, IX.
  - intros s m RE I _. exact I.
  - intros s e RE I H M x IX. rewrite (env_cof s e H).
    assert (EV : env_async (dt (step s e)) = env_async (dt s) /\ env_enabled (dt (step s e)) = env_enabled (dt s)).
    { destruct e; try destruct H; cbn; repeat match goal with |- context [if ?b then _ else _] => destruct b eqn:? | |- context [match mode ?z with _ => _ end] => destruct (mode z) | |- context [match stk (sc ?z) ?c with _ => _ end] => destruct (stk (sc z) c) as [|[] ?] end; auto. }
    destruct EV as [-> ->]. destruct (env_tr s e H) as [Q|(y & Q)]; rewrite Q in *; [apply I, IX|]. cbn [cancel_type cancel_state]. apply I. exact IX.
  - intros g O x IX. cbn in IX. destruct IX as [<-|[]]. cbn. rewrite zupd_eq. reflexivity.
Qed.
