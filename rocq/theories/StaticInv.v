(** The identity fields of a coroutine record (who started it, whom it started
    last) and the trace. *)
From Coq Require Import List ZArith Bool Lia.
From Verif Require Import Util AATreeSpec AATreeHist Runtime SchedInv StepInv StackShape RuntimeSpec TraceInv Prims.
Import ListNotations.
Local Open Scope Z_scope.

Definition ident (d : dat) (x : Z) : Z * Z := (starterid (cof d x), lastid (cof d x)).

Lemma upco_ident : forall c f d x,
  starterid (f (cof d c)) = starterid (cof d c) -> lastid (f (cof d c)) = lastid (cof d c) ->
  ident (upco c f d) x = ident d x.
Proof. intros c f d x A B. unfold ident, upco, zupd. cbn. destruct (Z.eqb_spec x c); [subst; rewrite A, B|]; reflexivity. Qed.

Lemma prim_ident : forall c d d' x, prim c d d' -> ident d' x = ident d x.
Proof. intros c d d' x P. destruct P; try reflexivity; apply upco_ident; reflexivity. Qed.
Lemma prims_ident : forall c d d' x, prims c d d' -> ident d' x = ident d x.
Proof. intros c d d' x. apply (prims_const c _ (fun d => ident d x)). intros; eapply prim_ident; eassumption. Qed.
Lemma mprim_ident : forall d d' x, mprim d d' -> ident d' x = ident d x.
Proof. intros d d' x P. destruct P; try reflexivity; apply upco_ident; reflexivity. Qed.
Lemma mprims_ident : forall d d' x, mprims d d' -> ident d' x = ident d x.
Proof. intros d d' x. apply (mprims_const _ (fun d => ident d x)). intros; eapply mprim_ident; eassumption. Qed.

Lemma popq_cof : forall k d n d', popq k d = (n, d') -> cof d' = cof d.
Proof. intros k d n d' E. unfold popq in E. destruct (q d k); inj E; reflexivity. Qed.

(** what a start does to the records *)
Lemma spawn_cof : forall p n g d x, x <> n ->
  cof (spawn_dat p n g d) x =
  if (match p with Some y => x =? y | None => false end)
  then set_lastid n (if g then set_rbuf (Z.of_nat (nchan d)) (cof d x) else cof d x)
  else cof d x.
Proof.
  intros p n g d x N. unfold spawn_dat. destruct (popq QPool d) as [pp d1] eqn:P.
  assert (C1 : cof d1 = cof d) by (eapply popq_cof; exact P).
  assert (N1 : nchan d1 = nchan d) by (unfold popq in P; destruct (q d QPool); inj P; reflexivity).
  destruct pp as [pp|]; destruct g; destruct p as [y|]; cbn;
    rewrite zupd_neq by exact N; unfold zupd; cbn;
    try (destruct (Z.eqb_spec x y); [subst|]); rewrite ?Nat.sub_0_r, ?C1, ?N1; reflexivity.
Qed.
Lemma spawn_starter : forall p n g d, starterid (cof (spawn_dat p n g d) n) = match p with Some y => y | None => 0 end.
Proof.
  intros p n g d. unfold spawn_dat. destruct (popq QPool d) as [[pp|] d1] eqn:P; destruct g; destruct p; cbn;
    rewrite zupd_eq; reflexivity.
Qed.

Lemma ident_ctl : forall c n k d x, x <> n ->
  ident (ctl_dat c n k d) x =
  (starterid (cof d x), match k with CSpawn _ => if x =? c then n else lastid (cof d x) | _ => lastid (cof d x) end).
Proof.
  intros c n k d x N. unfold ident. destruct k; cbn [ctl_dat]; try reflexivity.
  rewrite spawn_cof by exact N. cbn. destruct (Z.eqb_spec x c); destruct isgen; reflexivity.
Qed.

Lemma children_app : forall c a b, children c (a ++ b) = children c a ++ children c b.
Proof. intros. apply flat_map_app. Qed.
Lemma children_ctl : forall x c n k, children x (ctl_obs c n k) = match k with CSpawn _ => if c =? x then [n] else [] | _ => [] end.
Proof. intros. destruct k; try reflexivity. cbn. destruct (_ =? _); reflexivity. Qed.
Lemma children_handler : forall x c fs k d, children x (handler_obs c fs k d) = [].
Proof. intros. destruct (handler_obs_cases c fs k d) as [->|(h & ->)]; reflexivity. Qed.
Lemma children_call : forall x c k o s, children x (call_obs c k o s) = [].
Proof. intros. destruct o; reflexivity. Qed.
Lemma children_ret : forall x c f v r s, children x (ret_obs c f v r s) = [].
Proof. intros. destruct (ret_obs_cases c f v r s) as [->|(k & o & d & _ & _ & ->)]; reflexivity. Qed.

Lemma children_started : forall c x t, In x (children c t) -> In x (started t).
Proof.
  intros c x t I. unfold children, started in *. apply in_flat_map in I. destruct I as (o & I & H).
  apply in_flat_map. exists o. split; [exact I|]. destruct o; cbn in *; try contradiction.
  destruct (_ =? _); [exact H | contradiction].
Qed.

Record idinv (s : state) : Prop := {
  id_pos : forall c, In c (started (tr s)) -> 0 < c;
  id_starter : forall c, stk (sc s) c <> [] -> In (TStart (starterid (cof (dt s) c)) c) (tr s);
  id_last : forall c x l, stk (sc s) c <> [] -> children c (tr s) = x :: l -> lastid (cof (dt s) c) = x;
  id_par : forall p c, In (TStart p c) (tr s) -> p = 0 \/ In p (started (tr s));
  id_pool : exited (tr s) = [] -> q (dt s) QPool = [] /\
     forall c, stk (sc s) c <> [] -> children c (tr s) = [] -> lastid (cof (dt s) c) = 0 }.

Lemma prim_pool : forall c d d', prim c d d' -> q d QPool = [] -> q d' QPool = [].
Proof.
  intros c d d' P H. destruct P; cbn; auto;
    try (rewrite H; reflexivity).
  - destruct k; cbn in *; try contradiction; rewrite H; reflexivity.
  - destruct k; cbn in *; try contradiction; exact H.
  - destruct k; cbn in *; try contradiction; subst; exact H.
Qed.
Lemma prims_pool : forall c d d', prims c d d' -> q d QPool = [] -> q d' QPool = [].
Proof. intros c d d' P. apply (prims_ind_pres c (fun d => q d QPool = [])); [|exact P]. intros; eapply prim_pool; eassumption. Qed.
Lemma mprim_pool : forall d d', mprim d d' -> q d QPool = [] -> q d' QPool = [].
Proof.
  intros d d' P H. destruct P; cbn; auto.
  subst f. rewrite H in *. match goal with E : [] = _ ++ _ |- _ => symmetry in E; apply app_eq_nil in E; apply E end.
Qed.
Lemma mprims_pool : forall d d', mprims d d' -> q d QPool = [] -> q d' QPool = [].
Proof. intros d d' P. apply (mprims_ind_pres (fun d => q d QPool = [])); [|exact P]. intros; eapply mprim_pool; eassumption. Qed.
Lemma spawn_pool : forall p n g d, q d QPool = [] -> q (spawn_dat p n g d) QPool = [] /\ lastid (cof (spawn_dat p n g d) n) = 0.
Proof.
  intros p n g d H. unfold spawn_dat, popq. rewrite H. destruct g; destruct p; cbn; rewrite zupd_eq; auto.
Qed.

(** somebody who never started has no children *)
Lemma no_children : forall s n, idinv s -> 0 < n -> ~ In n (started (tr s)) -> children n (tr s) = [].
Proof.
  intros s n I P SN. destruct (children n (tr s)) as [|z zs] eqn:Q; [reflexivity|]. exfalso.
  assert (In z (children n (tr s))) as J by (rewrite Q; left; reflexivity).
  unfold children in J. apply in_flat_map in J. destruct J as (o & J & HH). destruct o; cbn in HH; try contradiction.
  destruct (Z.eqb_spec parent n); [subst parent|contradiction].
  destruct (id_par _ I _ _ J); [lia | contradiction].
Qed.

(** the common part of the two kinds of coroutine steps *)
Lemma idinv_exec : forall s c d k st' sch md t1 nw nc,
  full s -> tinv s -> idinv s -> cur (sc s) = Some c -> prims c (dt s) d ->
  exec c k (set_stk (zupd (stk (sc s)) c st') (sc s)) = (sch, md) ->
  (forall p x, ~ In (TStart p x) t1) -> exited t1 = [] ->
  idinv (mkst sch (ctl_dat c (nextid (sc s) + 1) k d) md nw nc (ctl_obs c (nextid (sc s) + 1) k ++ t1 ++ tr s)).
Proof.
  intros s c d k st' sch md t1 nw nc F TI I CU PR X NS EX.
  destruct F as [[SI MO] _]. destruct (cur_alive _ _ SI CU) as [AL IB].
  pose proof (exec_stk _ _ _ _ _ X) as ES. cbn [stk set_stk nextid] in ES.
  set (n := nextid (sc s) + 1) in *.
  assert (CS : In c (started (tr s))) by (apply (ti_alive _ TI) in AL; apply AL).
  assert (CP : 0 < c) by (apply (id_pos _ I); exact CS).
  assert (CH : forall x, children x t1 = []).
  { intros x. destruct (children x t1) as [|z zs] eqn:Q; [reflexivity|]. exfalso.
    assert (J : In z (children x t1)) by (rewrite Q; left; reflexivity).
    apply in_flat_map in J. destruct J as (o & J & HH). destruct o; cbn in HH; try contradiction. eapply NS; exact J. }
  assert (ST : started t1 = []).
  { destruct (started t1) as [|z zs] eqn:Q; [reflexivity|]. exfalso.
    assert (J : In z (started t1)) by (rewrite Q; left; reflexivity).
    apply in_flat_map in J. destruct J as (o & J & HH). destruct o; cbn in HH; try contradiction. eapply NS; exact J. }
  assert (FR : forall x, x <> n -> stk sch x <> [] -> stk (sc s) x <> []).
  { intros x NE H H0. apply H. rewrite ES. destruct (Z.eq_dec x c) as [->|NC]; [contradiction|].
    destruct k; rewrite ?zupd_neq by assumption; exact H0. }
  assert (NEW : stk sch n <> [] -> exists g, k = CSpawn g).
  { intros H. assert (stk (sc s) n = []) as E0.
    { destruct (stk (sc s) n) eqn:Q; [reflexivity|]. assert (n <= nextid (sc s)) by (apply (si_ids _ SI); rewrite Q; discriminate). lia. }
    rewrite ES in H. destruct k; eauto; rewrite ?zupd_neq in H by lia; contradiction. }
  assert (SN : ~ In n (started (tr s))).
  { intros H. apply (ti_ids _ TI) in H. lia. }
  assert (NC : children n (tr s) = []) by (apply no_children; [exact I | lia | exact SN]).
  assert (ID : forall x, starterid (cof d x) = starterid (cof (dt s) x) /\ lastid (cof d x) = lastid (cof (dt s) x)).
  { intros x. pose proof (prims_ident _ _ _ x PR) as Q. unfold ident in Q. inversion Q. auto. }
  assert (ID2 : forall x, x <> n -> starterid (cof (ctl_dat c n k d) x) = starterid (cof (dt s) x) /\
      lastid (cof (ctl_dat c n k d) x) = match k with CSpawn _ => if x =? c then n else lastid (cof (dt s) x) | _ => lastid (cof (dt s) x) end).
  { intros x NE. pose proof (ident_ctl c n k d x NE) as Q. unfold ident in Q. inversion Q as [[Q1 Q2]].
    destruct (ID x) as [E1 E2]. rewrite <- E1, <- E2. auto. }
  split; cbn [sc dt tr].
  - intros x. rewrite !started_app, started_ctl, ST. cbn [app]. rewrite in_app_iff. intros [H|H]; [|apply (id_pos _ I), H].
    destruct k; cbn in H; try contradiction. destruct H as [<-|[]]. lia.
  - intros x H. destruct (Z.eq_dec x n) as [->|NE].
    + destruct (NEW H) as (g & ->). cbn [ctl_dat ctl_obs]. rewrite spawn_starter. left. reflexivity.
    + rewrite (proj1 (ID2 x NE)). apply in_or_app. right. apply in_or_app. right. apply (id_starter _ I). apply FR; assumption.
  - intros x y l H CHE. rewrite !children_app, children_ctl, CH in CHE. cbn [app] in CHE.
    destruct (Z.eq_dec x n) as [->|NE].
    + exfalso. destruct (NEW H) as (g & ->). rewrite NC, app_nil_r in CHE. destruct (Z.eqb_spec c n); [lia | discriminate].
    + rewrite (proj2 (ID2 x NE)).
      destruct k; cbn [app] in CHE; try (eapply (id_last _ I); [apply FR; assumption | exact CHE]).
      destruct (Z.eqb_spec c x).
      * subst x. rewrite Z.eqb_refl. cbn in CHE. inversion CHE. reflexivity.
      * destruct (Z.eqb_spec x c); [congruence|]. eapply (id_last _ I); [apply FR; assumption | exact CHE].
  - intros p x. rewrite !started_app, started_ctl, ST. cbn [app]. rewrite !in_app_iff. intros [H|[H|H]].
    + destruct k; cbn in H; try contradiction; destruct H as [E|[]]; inversion E; subst; auto.
    + exfalso. eapply NS; exact H.
    + destruct (id_par _ I _ _ H); auto.
  - rewrite !exited_app, exited_ctl, EX. cbn [app]. intros H. apply app_eq_nil in H. destruct H as [E1 E2].
    destruct (id_pool _ I E2) as [P0 P1]. pose proof (prims_pool _ _ _ PR P0) as PD.
    assert (q (ctl_dat c n k d) QPool = []) as PQ.
    { destruct k; cbn [ctl_dat]; auto; [apply spawn_pool; exact PD | discriminate]. }
    split; [exact PQ|]. intros x H. rewrite !children_app, children_ctl, CH. cbn [app]. intros HC.
    destruct (Z.eq_dec x n) as [->|NE].
    + destruct (NEW H) as (g & ->). cbn [ctl_dat]. apply spawn_pool. exact PD.
    + rewrite (proj2 (ID2 x NE)). destruct k; cbn [app] in HC; try (apply P1; [apply FR; assumption | exact HC]).
      destruct (Z.eqb_spec c x); [discriminate|]. destruct (Z.eqb_spec x c); [congruence|].
      apply P1; [apply FR; assumption | exact HC].
Qed.

Lemma handler_nostart : forall c fs k d p x, ~ In (TStart p x) (handler_obs c fs k d).
Proof. intros. destruct (handler_obs_cases c fs k d) as [->|(h & ->)]; cbn; intuition discriminate. Qed.
Lemma call_nostart : forall c k o s p x, ~ In (TStart p x) (call_obs c k o s).
Proof. intros. destruct o; cbn; intuition discriminate. Qed.
Lemma ret_nostart : forall c f v r s p x, ~ In (TStart p x) (ret_obs c f v r s).
Proof. intros. destruct (ret_obs_cases c f v r s) as [->|(k & o & d & _ & _ & ->)]; cbn; intuition discriminate. Qed.

Lemma env_cof : forall s e,
  match e with ECall _ | ETick _ | EMain _ => False | _ => True end ->
  cof (dt (step s e)) = cof (dt s).
Proof.
  intros s e H. destruct e; try contradiction; cbn.
  - destruct (_ <? _); reflexivity.
  - destruct (mode s); auto; (destruct (_ || _); auto; destruct (_ =? _); auto; destruct (_ =? _); auto).
  - destruct (mode s); auto; (destruct (mem _ _); auto; destruct (stk (sc s) c) as [|[] ?]; auto).
  - reflexivity.
  - destruct (_ =? _); reflexivity.
  - reflexivity.
  - destruct (_ =? _); reflexivity.
  - destruct (_ =? _); reflexivity.
Qed.
Lemma env_q : forall s e,
  match e with ECall _ | ETick _ | EMain _ => False | _ => True end ->
  q (dt (step s e)) = q (dt s) \/
  exists c, e = EWorkDone c /\ mem c (inflight (dt s)) = true /\
    (exists w, stk (sc s) c = FWork :: w) /\ q (dt (step s e)) = q (pushq QIo (NCo c) (dt s)).
Proof.
  intros s e H. destruct e; try contradiction; cbn; auto.
  - destruct (_ <? _); auto.
  - destruct (mode s); auto; (destruct (_ || _); auto; destruct (_ =? _); auto; destruct (_ =? _); auto).
  - destruct (mode s); auto; (destruct (mem _ _) eqn:ME; auto; destruct (stk (sc s) c) as [|[] ?] eqn:SK; auto;
      right; exists c; repeat split; eauto).
  - destruct (_ =? _); auto.
  - destruct (_ =? _); auto.
  - destruct (_ =? _); auto.
Qed.

Theorem reach_idinv : forall s, reach s -> idinv s.
Proof.
  apply rrun_preserves.
  - intros s c o d fs k sch md RE I M CU U NR E X. rewrite (app_assoc (handler_obs _ _ _ _)).
    eapply idinv_exec; eauto using reach_full, reach_tinv, hcall_prims.
    + intros p x. rewrite in_app_iff. intros [H|H]; [eapply handler_nostart | eapply call_nostart]; exact H.
    + rewrite exited_app, exited_handler, exited_call. reflexivity.
  - intros s c v f rest b d fs k sch md RE I M CU SK L E X. rewrite (app_assoc (handler_obs _ _ _ _)).
    eapply idinv_exec; eauto using reach_full, reach_tinv, hret_prims.
    + intros p x. rewrite in_app_iff. intros [H|H]; [eapply handler_nostart | eapply ret_nostart]; exact H.
    + rewrite exited_app, exited_handler, exited_ret. reflexivity.
  - intros s d ws sch md ios RE [I1 I2 I3 I4 I5] M A K X.
    assert (MP : mprims (dt s) (rc_step (now s) d)) by (eapply mp_main; exact K).
    apply sco_switch_frame in X. destruct X as (X1 & _). destruct (wakes_frame ws (sc s)) as (W1 & _).
    assert (ID : forall x, starterid (cof (rc_step (now s) d) x) = starterid (cof (dt s) x) /\ lastid (cof (rc_step (now s) d) x) = lastid (cof (dt s) x)).
    { intros x. pose proof (mprims_ident _ _ x MP) as Q. unfold ident in Q. inversion Q. auto. }
    split; cbn [sc dt tr]; auto.
    + intros c. rewrite X1, W1. rewrite (proj1 (ID c)). apply I2.
    + intros c x l. rewrite X1, W1. rewrite (proj2 (ID c)). apply I3.
    + intros H. destruct (I5 H) as [P0 P1]. split; [eapply mprims_pool; eassumption|].
      intros c. rewrite X1, W1. rewrite (proj2 (ID c)). apply P1.
  - intros s m RE [I1 I2 I3 I4 I5] _. split; assumption.
  - intros s e RE [I1 I2 I3 I4 I5] H M. destruct (env_frame s e H) as (E1 & E2 & _).
    pose proof (env_cof s e H) as EC.
    assert (T : exists t, tr (step s e) = t ++ tr s /\ (forall p x, ~ In (TStart p x) t) /\ exited t = [] /\ started t = [] /\ forall c, children c t = []).
    { destruct (env_tr s e H) as [Q|(y & Q)]; [exists [] | exists [TWorkDone (fst y) (snd y)]]; rewrite Q; cbn; repeat split; auto; intuition discriminate. }
    destruct T as (t & TE & T1 & T2 & T3 & T4).
    split; rewrite ?TE, ?E1, ?EC; rewrite ?started_app, ?T3, ?exited_app, ?T2; cbn [app].
    + exact I1.
    + intros c A. apply in_or_app. right. apply I2, A.
    + intros c x l A. rewrite children_app, T4. apply I3, A.
    + intros p c. rewrite in_app_iff. intros [B|B]; [exfalso; eapply T1; exact B | eapply I4; exact B].
    + intros A. destruct (I5 A) as [P0 P1]. split.
      * destruct (env_q s e H) as [->|(y & _ & _ & _ & ->)]; [exact P0|]. cbn. rewrite P0. reflexivity.
      * intros c B. rewrite children_app, T4. apply P1, B.
  - intros g [G1 G2]. split; cbn.
    + intros c [<-|[]]. lia.
    + intros c. unfold zupd. cbn. destruct (Z.eqb_spec c (cfg_lastid g + 1)); [subst; left; reflexivity | contradiction].
    + intros c x l. unfold zupd. destruct (Z.eqb_spec c (cfg_lastid g + 1)); [|contradiction].
      intros _. destruct c; try lia; discriminate.
    + intros p c [E|[]]. inversion E. auto.
    + intros _. split; [reflexivity|]. intros c. unfold zupd. destruct (Z.eqb_spec c (cfg_lastid g + 1)); [reflexivity | contradiction].
Qed.
