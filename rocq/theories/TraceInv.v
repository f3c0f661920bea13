(** Relation between the trace and the set of live coroutines. *)
From Coq Require Import List ZArith Bool Lia.
From Verif Require Import Util Runtime RuntimeSpec SchedInv StepInv StackShape.
Import ListNotations.
Local Open Scope Z_scope.

Lemma started_app : forall a b, started (a ++ b) = started a ++ started b.
Proof. intros. apply flat_map_app. Qed.
Lemma exited_app : forall a b, exited (a ++ b) = exited a ++ exited b.
Proof. intros. apply flat_map_app. Qed.

Definition spawned (n : Z) (k : ctl) : list Z := match k with CSpawn _ => [n] | _ => [] end.
Definition ended (c : Z) (k : ctl) : list Z := match k with CFinal _ => [c] | _ => [] end.

Lemma started_ctl : forall c n k, started (ctl_obs c n k) = spawned n k.
Proof. intros. destruct k; reflexivity. Qed.
Lemma exited_ctl : forall c n k, exited (ctl_obs c n k) = ended c k.
Proof. intros. destruct k; reflexivity. Qed.

Lemma handler_obs_cases : forall c fs k d,
  handler_obs c fs k d = [] \/ exists h, handler_obs c fs k d = [THandler c h].
Proof.
  intros. unfold handler_obs. destruct k; auto. destruct fs as [|[] ?]; auto;
    destruct (cleanups _); eauto.
Qed.
Lemma started_handler : forall c fs k d, started (handler_obs c fs k d) = [].
Proof. intros. destruct (handler_obs_cases c fs k d) as [->|(h & ->)]; reflexivity. Qed.
Lemma exited_handler : forall c fs k d, exited (handler_obs c fs k d) = [].
Proof. intros. destruct (handler_obs_cases c fs k d) as [->|(h & ->)]; reflexivity. Qed.
Lemma started_call : forall c k o s, started (call_obs c k o s) = [].
Proof. intros. destruct o; reflexivity. Qed.
Lemma exited_call : forall c k o s, exited (call_obs c k o s) = [].
Proof. intros. destruct o; reflexivity. Qed.
Lemma ret_obs_cases : forall c f v r s,
  ret_obs c f v r s = [] \/
  exists k o d, f = FApi k o /\ r = (d, [], CUser) /\ ret_obs c f v r s = [TRet k c o v (rbuf (cof (dt s) c)) (now s)].
Proof.
  intros. unfold ret_obs. destruct f; auto. destruct r as [[d [|? ?]] []]; auto. right. eauto 10.
Qed.
Lemma started_ret : forall c f v r s, started (ret_obs c f v r s) = [].
Proof. intros. destruct (ret_obs_cases c f v r s) as [->|(k & o & d & _ & _ & ->)]; reflexivity. Qed.
Lemma exited_ret : forall c f v r s, exited (ret_obs c f v r s) = [].
Proof. intros. destruct (ret_obs_cases c f v r s) as [->|(k & o & d & _ & _ & ->)]; reflexivity. Qed.

Lemma env_tr : forall s e,
  match e with ECall _ | ETick _ | EMain _ => False | _ => True end ->
  tr (step s e) = tr s \/ exists y, tr (step s e) = TWorkDone (fst y) (snd y) :: tr s.
Proof.
  intros s e H. destruct e; try contradiction; cbn; auto.
  - destruct (_ <? _); auto.
  - destruct (mode s); auto; (destruct (_ || _); auto; destruct (_ =? _); auto; destruct (_ =? _); auto).
  - destruct (mode s); auto; (destruct (mem _ _); auto; destruct (stk (sc s) c) as [|[] w]; auto; right; exists (c, callno w); reflexivity).
  - destruct (_ =? _); auto.
  - destruct (_ =? _); auto.
  - destruct (_ =? _); auto.
Qed.

Lemma env_nextid : forall s e,
  match e with ECall _ | ETick _ | EMain _ => False | _ => True end ->
  nextid (sc s) <= nextid (sc (step s e)).
Proof.
  intros s e H. destruct e; try contradiction; cbn; try lia.
  - destruct (_ <? _); cbn; lia.
  - destruct (mode s); try lia; (destruct (_ || _); try lia; destruct (_ =? _); try (cbn; lia); destruct (_ =? _); cbn; lia).
  - destruct (mode s); try lia; (destruct (mem _ _); try lia; destruct (stk (sc s) c) as [|[] ?]; cbn; lia).
  - destruct (_ =? _); cbn; lia.
  - destruct (_ =? _); cbn; lia.
  - destruct (_ =? _); cbn; lia.
Qed.

Lemma exec_nextid : forall c k s s' m, exec c k s = (s', m) ->
  nextid s' = match k with CSpawn _ => nextid s + 1 | _ => nextid s end.
Proof.
  intros c k s s' m E. destruct k; cbn [exec] in E; try (inj E; reflexivity);
    try (apply sco_switch_frame in E; destruct E as (_ & -> & _); reflexivity).
  - destruct (mem id (paused s)); [|inj E; reflexivity].
    apply sco_switch_frame in E. destruct E as (_ & -> & _). cbn. apply (wake_frame id s).
  - apply sco_switch_frame in E. destruct E as (_ & -> & _). destruct tomain; reflexivity.
Qed.

Record tinv (s : state) : Prop := {
  ti_alive : forall c, stk (sc s) c <> [] <-> alive (tr s) c;
  ti_started : NoDup (started (tr s));
  ti_exited : NoDup (exited (tr s));
  ti_sub : forall c, In c (exited (tr s)) -> In c (started (tr s));
  ti_ids : forall c, In c (started (tr s)) -> c <= nextid (sc s) }.

Lemma tinv_exec : forall c k s st' sch md t,
  sinv (sc s) -> tinv s -> cur (sc s) = Some c -> (not_final k -> st' <> []) ->
  exec c k (set_stk (zupd (stk (sc s)) c st') (sc s)) = (sch, md) ->
  started t = spawned (nextid (sc s) + 1) k ++ started (tr s) ->
  exited t = ended c k ++ exited (tr s) ->
  forall d n nc, tinv (mkst sch d md n nc t).
Proof.
  intros c k s st' sch md t SI [A N1 N2 SB ID] CU NE X ST EX d n nc.
  destruct (cur_alive _ _ SI CU) as [AL LE].
  assert (AC : alive (tr s) c) by (apply A; exact AL).
  assert (NN : ~ In (nextid (sc s) + 1) (started (tr s))) by (intros H; apply ID in H; lia).
  pose proof (exec_stk _ _ _ _ _ X) as XS. pose proof (exec_nextid _ _ _ _ _ X) as XN.
  cbn [nextid set_stk stk] in XS, XN.
  split; cbn [sc tr]; unfold alive; rewrite ?ST, ?EX, ?XS, ?XN.
  - intros x. specialize (A x).
    assert (G : not_final k -> spawned (nextid (sc s) + 1) k = [] -> zupd (stk (sc s)) c st' x <> [] <->
        In x (spawned (nextid (sc s) + 1) k ++ started (tr s)) /\ ~ In x (ended c k ++ exited (tr s))).
    { intros NF SP. rewrite SP. replace (ended c k) with (@nil Z) by (destruct k; try reflexivity; destruct (NF tomain); reflexivity).
      cbn. unfold zupd. destruct (Z.eqb_spec x c) as [->|]; [|exact A].
      split; [intros _; exact AC | intros _; apply NE; exact NF]. }
    destruct k; try (apply G; [intros ? ?; discriminate | reflexivity]).
    + cbn [spawned ended app In]. unfold zupd at 1. destruct (Z.eqb_spec x (nextid (sc s) + 1)) as [->|N].
      * split; [|intros _; discriminate]. intros _. split; [left; reflexivity|].
        intros H. apply SB in H. contradiction.
      * unfold zupd. destruct (Z.eqb_spec x c) as [->|].
        -- split; [intros _|intros _; apply NE; intros ? ?; discriminate]. destruct AC. auto.
        -- rewrite A. unfold alive. split; [intros []; auto | intros [[?|?] ?]; [congruence | auto]].
    + cbn [spawned ended app In]. unfold zupd at 1. destruct (Z.eqb_spec x c) as [->|N].
      * split; [congruence|]. intros [_ H]. exfalso. apply H. left. reflexivity.
      * rewrite zupd_neq by exact N. rewrite A. unfold alive.
        split; [intros [? ?]; split; [assumption | intros [?|?]; congruence] | intros [? H]; split; auto].
  - destruct k; cbn; auto. constructor; assumption.
  - destruct k; cbn; auto. constructor; [apply AC | assumption].
  - intros x. destruct k; cbn; auto.
    intros [->|H]; [apply AC | auto].
  - intros x. destruct k; cbn; intros H; try (apply ID in H; lia).
    destruct H as [<-|H]; [lia | apply ID in H; lia].
Qed.

Lemma tinv_run : forall g es, tinv (run (init g) es).
Proof.
  intros g es. apply run_preserves.
  - intros s c o d fs k sch md [[SI MO] B] T M CU U NR E X.
    eapply tinv_exec; try eassumption.
    + intros _. destruct fs; discriminate.
    + rewrite !started_app, started_ctl, started_handler, started_call. reflexivity.
    + rewrite !exited_app, exited_ctl, exited_handler, exited_call. reflexivity.
  - intros s c v f rest b d fs k sch md [[SI MO] B] T M CU SK L E X.
    eapply tinv_exec; try eassumption.
    + intros NF. apply stack_ok_nonnil. eapply hret_stack; [exact E | | exact NF].
      rewrite <- SK. apply (si_stack _ SI). rewrite SK. discriminate.
    + rewrite !started_app, started_ctl, started_handler, started_ret. reflexivity.
    + rewrite !exited_app, exited_ctl, exited_handler, exited_ret. reflexivity.
  - intros s d ws sch md ios F [A N1 N2 SB ID] M AC K X.
    apply sco_switch_frame in X. destruct X as (X1 & X2 & _).
    destruct (wakes_frame ws (sc s)) as (W1 & W2 & _).
    split; cbn [sc tr]; rewrite ?X1, ?X2, ?W1, ?W2; auto.
  - intros s m F [A N1 N2 SB ID] H. split; cbn; auto.
  - intros s e F [A N1 N2 SB ID] H M.
    destruct (env_frame s e H) as (E1 & _). pose proof (env_nextid s e H) as EN.
    assert (SE : started (tr (step s e)) = started (tr s) /\ exited (tr (step s e)) = exited (tr s)).
    { destruct (env_tr s e H) as [->|(c & ->)]; auto. }
    destruct SE as [S1 S2].
    split; unfold alive; rewrite ?S1, ?S2, ?E1; auto.
    intros c Hc. apply ID in Hc. lia.
  - split; cbn.
    + intros c. unfold zupd, alive; cbn. destruct (Z.eqb_spec c (cfg_lastid g + 1)) as [->|N].
      * split; [auto | discriminate].
      * split; [congruence | intros [[?|[]] _]; congruence].
    + repeat constructor. intros [].
    + constructor.
    + intros c [].
    + intros c [<-|[]]; lia.
Qed.

Lemma reach_tinv : forall s, reach s -> tinv s.
Proof. intros s (g & es & _ & ->). apply tinv_run. Qed.
