(** The invariant of mutexes: holders, hand-overs and fields agree. *)
From Coq Require Import List ZArith Bool Lia.
From Verif Require Import AATreeSpec AATreeHist Util Runtime SchedInv StepInv StackShape RuntimeSpec TraceInv Immediate Prims StaticInv Footprint QueueInv OwnInv WaitInv DeadlineInv CallInv SpecInv TraceStep Wake Awake AllInv PausedInv ResultInv JoinInv PairedInv WaiterInv DldInv MutexSpec MutexW MutexEff MutexTok MutexRt MutexStep.
Import ListNotations.
Local Open Scope Z_scope.

(** ** Holds along the trace *)
Lemma hold_nz : forall m c t, hold m c t <> HR 0.
Proof.
  intros m c t. induction t as [|x t IH]; [discriminate|]. cbn. destruct x; try exact IH; destruct (_ =? c); try exact IH; destruct o; try exact IH;
    try (destruct (_ && _); try exact IH; try discriminate); try (destruct (Nat.eqb _ _); try exact IH; try discriminate);
    destruct (hold m c t) as [| |[|[|n]]]; discriminate.
Qed.
Lemma hold_quiet : forall m x c n k fs d t, hold m x (ctl_obs c n k ++ handler_obs c fs k d ++ t) = hold m x t.
Proof.
  intros m x c n k fs d t. assert (A : forall u, hold m x (ctl_obs c n k ++ u) = hold m x u) by (intros u; destruct k; reflexivity).
  rewrite A. destruct (handler_obs_cases c fs k d) as [->|(h & ->)]; reflexivity.
Qed.
Lemma hold_call : forall m x s c o fs k, hold m x (call_tr s c o fs k) = hold m x (TCall (ncalls s) c o (now s) :: tr s).
Proof. intros. unfold call_tr. rewrite hold_quiet. destruct o; reflexivity. Qed.
Lemma hold_call_other : forall m x s c o fs k, x <> c -> hold m x (call_tr s c o fs k) = hold m x (tr s).
Proof. intros m x s c o fs k N. rewrite hold_call. cbn. destruct (Z.eqb_spec c x); [congruence | reflexivity]. Qed.
Lemma hold_tick : forall m x s c v f d fs k, hold m x (tick_tr s c v f d fs k) = hold m x (ret_obs c f v (d, fs, k) s ++ tr s).
Proof. intros. unfold tick_tr. apply hold_quiet. Qed.
Lemma hold_tick_other : forall m x s c v f d fs k, x <> c -> hold m x (tick_tr s c v f d fs k) = hold m x (tr s).
Proof.
  intros m x s c v f d fs k N. rewrite hold_tick. destruct (ret_obs_cases c f v (d, fs, k) s) as [->|(kk & o & e & _ & _ & ->)]; [reflexivity|].
  cbn. destruct (Z.eqb_spec c x); [congruence | reflexivity].
Qed.
(** what returning adds *)
Definition plus (h : held) (g : option bool) : held :=
  match g with None => h | Some false => HW | Some true => match h with HR n => HR (S n) | _ => HR 1 end end.
Lemma hold_ret : forall m c kk o v mm tm t, hold m c (TRet kk c o v mm tm :: t) = plus (hold m c t) (gives m o v).
Proof.
  intros. cbn. rewrite Z.eqb_refl. destruct o; try reflexivity; cbn [gives]; try (destruct (_ && _)); try (destruct (Nat.eqb _ _)); reflexivity.
Qed.
Lemma hold_env : forall m x s e, match e with ECall _ | ETick _ | EMain _ => False | _ => True end -> hold m x (tr (step s e)) = hold m x (tr s).
Proof. intros m x s e H. destruct (env_tr s e H) as [->|(y & ->)]; reflexivity. Qed.
Lemma proper_app : forall l t, proper (l ++ t) -> proper t.
Proof. intros l t T l1 l2 k c o tm E. eapply (T (l ++ l1)). rewrite <- app_assoc, E. reflexivity. Qed.
Lemma proper_call : forall s c o fs k, proper (call_tr s c o fs k) -> proper (tr s) /\
  match o with
  | OpUnlock m => hold m c (tr s) <> HNone
  | OpCvWait _ m _ => hold m c (tr s) = HW
  | OpMuInit m => forall x, hold m x (tr s) = HNone
  | _ => True
  end.
Proof.
  intros s c o fs k P. split.
  - unfold call_tr in P. apply proper_app in P. apply proper_app in P. eapply proper_app; exact P.
  - assert (Q : o = OpStats \/ exists l1, call_tr s c o fs k = l1 ++ TCall (ncalls s) c o (now s) :: tr s).
    { unfold call_tr, call_obs. destruct o; auto; right; rewrite ?app_assoc; eexists; rewrite <- app_assoc; reflexivity. }
    destruct Q as [->|(l1 & Q)]; [exact I | exact (P l1 (tr s) _ _ _ _ Q)].
Qed.
Lemma proper_tick : forall s c v f d fs k, proper (tick_tr s c v f d fs k) -> proper (tr s).
Proof. intros s c v f d fs k P. unfold tick_tr in P. apply proper_app in P. apply proper_app in P. eapply proper_app; exact P. Qed.
Lemma proper_env : forall s e, match e with ECall _ | ETick _ | EMain _ => False | _ => True end -> proper (tr (step s e)) -> proper (tr s).
Proof. intros s e H T. destruct (env_tr s e H) as [Q|(y & Q)]; rewrite Q in T; [exact T|]. apply (proper_app [TWorkDone (fst y) (snd y)]). exact T. Qed.

(** ** Hand-overs along a step *)
Lemma tok_rv : forall s m x a b rv, reach s -> ~ over (mode s) -> cur (sc s) <> Some x -> tk m (stk (sc s) x) a b rv = tk m (stk (sc s) x) a b None.
Proof.
  intros s m x a b rv RE NO NC. unfold tk. destruct (stk (sc s) x) as [|f rest] eqn:SX; [reflexivity|].
  destruct f; cbn [top]; try reflexivity.
  - destruct rv as [v|]; [|reflexivity]. destruct (reach_apiq _ RE _ _ _ _ SX) as [H|[H|(H & _)]]; [apply handing_gives, H | contradiction | contradiction].
  - assert (L : lstack (FPause :: rest)) by (rewrite <- SX; apply live_lstack; [apply reach_full, RE | rewrite SX; discriminate]).
    destruct (pause_rest _ L) as (f & t & -> & N1 & N2 & N3). destruct f; try reflexivity; [destruct (N2 k o eq_refl) | destruct (N3 m0 ret eq_refl)].
  - destruct rv as [v|]; [|reflexivity]. destruct (reach_relq _ RE _ _ _ _ SX) as [H|(H & _)]; contradiction.
Qed.
Lemma ptok_idle : forall s m x, reach s -> ~ over (mode s) -> cur (sc s) <> Some x -> forall rv,
  ptok s m x = tk m (stk (sc s) x) (memn (NCo x) (q (dt s) (QMu m))) (rlocked (cof (dt s) x)) rv.
Proof. intros s m x RE NO NC rv. unfold ptok. rewrite (tok_rv s m x _ _ _ RE NO NC). symmetry. apply (tok_rv s m x _ _ _ RE NO NC). Qed.
Lemma ptok_other : forall s c d k fs st' sch md nc T m x, reach s -> cur (sc s) = Some c -> ~ over (mode s) -> x <> c ->
  exec c k (set_stk (zupd (stk (sc s)) c (fs ++ st')) (sc s)) = (sch, md) ->
  rlocked (cof d x) = rlocked (cof (dt s) x) ->
  ptok (mkst sch (ctl_dat c (nextid (sc s) + 1) k d) md (now s) nc T) m x =
  tk m (stk (sc s) x) (memn (NCo x) (q d (QMu m))) (rlocked (cof (dt s) x)) None.
Proof.
  intros s c d k fs st' sch md nc T m x RE CU NO NE X RL. pose proof (reach_full _ RE) as F. pose proof (cur_notfresh _ _ F CU) as NFR.
  unfold ptok. cbn [sc dt].
  destruct (exec_stk_cases _ _ _ _ _ X NFR x) as [[-> _]|[(_ & -> & (g & ->) & QQ)|(_ & QQ & NS)]]; [congruence | |]; rewrite QQ.
  - rewrite tk_ustack by constructor. cbn [set_stk nextid]. rewrite (stk_fresh _ F). reflexivity.
  - cbn [set_stk stk]. rewrite zupd_neq by exact NE. rewrite (tok_rv s m x) by (assumption || congruence).
    rewrite ctl_rl by exact NS. rewrite RL. f_equal. apply memn_iff. apply ctl_qmu_in, NE.
Qed.
Lemma ptok_own : forall s c d k fs st' sch md nc T m, reach s -> cur (sc s) = Some c ->
  exec c k (set_stk (zupd (stk (sc s)) c (fs ++ st')) (sc s)) = (sch, md) ->
  match k with
  | CFinal _ => ptok (mkst sch (ctl_dat c (nextid (sc s) + 1) k d) md (now s) nc T) m c = None
  | CRet v => ptok (mkst sch (ctl_dat c (nextid (sc s) + 1) k d) md (now s) nc T) m c = tk m (fs ++ st') (memn (NCo c) (q d (QMu m))) (rlocked (cof d c)) (Some v)
  | _ => exists rv, ptok (mkst sch (ctl_dat c (nextid (sc s) + 1) k d) md (now s) nc T) m c = tk m (fs ++ st') (memn (NCo c) (q d (QMu m))) (rlocked (cof d c)) rv
  end.
Proof.
  intros s c d k fs st' sch md nc T m RE CU X. pose proof (reach_full _ RE) as F. pose proof (cur_notfresh _ _ F CU) as NFR.
  destruct (exec_stk_cases _ _ _ _ _ X NFR c) as [[_ QQ]|[(N & _)|(N & _)]]; try congruence.
  unfold ptok. cbn [sc dt]. rewrite QQ. cbn [set_stk stk]. rewrite zupd_eq.
  assert (RL : rlocked (cof (ctl_dat c (nextid (sc s) + 1) k d) c) = rlocked (cof d c)) by (apply ctl_rl; intros; congruence).
  destruct k; cbn [ctl_dat] in *; try (eexists; reflexivity).
  - cbn [exec] in X. injection X as <- <-. unfold rvx. cbn [mode sc set_stk cur]. rewrite CU, Z.eqb_refl. reflexivity.
  - rewrite RL. eexists. f_equal. rewrite (spawn_q_eq _ _ _ _ (QMu m)) by discriminate. reflexivity.
Qed.

Lemma ptok_own_ret : forall s c d k fs st' sch md nc T m v, reach s -> cur (sc s) = Some c ->
  exec c k (set_stk (zupd (stk (sc s)) c (fs ++ st')) (sc s)) = (sch, md) -> k = CRet v ->
  ptok (mkst sch (ctl_dat c (nextid (sc s) + 1) k d) md (now s) nc T) m c = tk m (fs ++ st') (memn (NCo c) (q d (QMu m))) (rlocked (cof d c)) (Some v).
Proof. intros s c d k fs st' sch md nc T m v RE CU X K. pose proof (ptok_own _ _ d _ _ _ _ _ nc T m RE CU X) as P. subst k. exact P. Qed.
Lemma ptok_own_fin : forall s c d k fs st' sch md nc T m e, reach s -> cur (sc s) = Some c ->
  exec c k (set_stk (zupd (stk (sc s)) c (fs ++ st')) (sc s)) = (sch, md) -> k = CFinal e ->
  ptok (mkst sch (ctl_dat c (nextid (sc s) + 1) k d) md (now s) nc T) m c = None.
Proof. intros s c d k fs st' sch md nc T m v RE CU X K. pose proof (ptok_own _ _ d _ _ _ _ _ nc T m RE CU X) as P. subst k. exact P. Qed.
Lemma ptok_own_any : forall s c d k fs st' sch md nc T m, reach s -> cur (sc s) = Some c ->
  exec c k (set_stk (zupd (stk (sc s)) c (fs ++ st')) (sc s)) = (sch, md) -> (forall e, k <> CFinal e) ->
  exists rv, ptok (mkst sch (ctl_dat c (nextid (sc s) + 1) k d) md (now s) nc T) m c = tk m (fs ++ st') (memn (NCo c) (q d (QMu m))) (rlocked (cof d c)) rv.
Proof.
  intros s c d k fs st' sch md nc T m RE CU X NF. pose proof (ptok_own _ _ d _ _ _ _ _ nc T m RE CU X) as P. destruct k; try exact P; [eexists; exact P | destruct (NF _ eq_refl)].
Qed.

(** ** Steps that leave an object's queue alone *)
Lemma quiet_queue : forall s c KP KW d0 R P d k, reach s -> fps c KP KW d0 R P d -> objq k -> ~ KP k -> (forall n kk, In n (q d0 kk) -> In n (q (dt s) kk)) ->
  (forall x, x <> c -> In (NCo x) (q (dt s) k) -> In (NCo x) (q d0 k)) -> (forall n, ~ KW k n) ->
  (forall x, x <> c -> In (NCo x) (q d k) <-> In (NCo x) (q (dt s) k)) /\ (forall n, In n (q d k) -> In n (q (dt s) k)).
Proof.
  intros s c KP KW d0 R P d k RE FP OQ NK SUB SUP NW. pose proof (reach_qloc _ RE) as QL.
  assert (WQ : waitq k) by (destruct k; try destruct OQ; exact I).
  assert (SEP : forall r, In r R -> r <> c -> ~ In (NCo r) (q d0 k)).
  { intros r IR NE IN. destruct (fps_R _ _ _ _ _ _ _ FP r IR) as [?|(k' & n & K' & PK & NC & IN')]; [contradiction|].
    apply SUB in IN. apply SUB in IN'. pose proof (QL _ _ WQ IN) as M1. pose proof (QL _ _ (popq_waitq _ PK) IN') as M2. rewrite NC in M2. cbn [node_co] in M1.
    destruct (matched_cases _ _ _ M1) as [(f & rest & TP & W & _)|(N & j & chs & dl & st' & TP)]; [destruct k; try destruct OQ; exact I | |].
    - destruct (matched_cases _ _ _ M2 PK) as [(f2 & rest2 & TP2 & W2 & _)|(N & j & chs & dl & st' & TP2)]; [congruence|]. rewrite TP in TP2. injection TP2 as -> _. destruct k; discriminate W.
    - unfold matched in M1. rewrite TP in M1. destruct M1 as (i & ch & D & _). discriminate D. }
  pose proof (fps_others _ _ _ _ _ _ _ FP k WQ NK SEP) as OT. split.
  - intros x NE. assert (A : forall l, In (NCo x) (others c l) <-> In (NCo x) l).
    { intros l. unfold others. rewrite filter_In. cbn. destruct (Z.eqb_spec x c); cbn; intuition congruence. }
    rewrite <- A, OT, A. split; [apply SUB | apply SUP, NE].
  - intros n IN. destruct (fps_q_in _ _ _ _ _ _ _ FP n k WQ IN) as [H|[_ H]]; [apply SUB, H | destruct (NW _ H)].
Qed.
Lemma call_queue : forall s c o d fs k kk, reach s -> hcall c o (now s) (dt s) = (d, fs, k) -> objq kk -> ~ kcall c (dt s) o kk ->
  (forall x, x <> c -> In (NCo x) (q d kk) <-> In (NCo x) (q (dt s) kk)) /\ (forall n, In n (q d kk) -> In n (q (dt s) kk)).
Proof.
  intros s c o d fs k kk RE E OQ NK. destruct (hcall_fp _ _ _ _ _ _ _ (ncalls s) (stk (sc s) c) E) as (R & P & FP & _).
  eapply quiet_queue; try eassumption; auto. intros n [_ W]. apply NK. destruct o; cbn in W |- *; try exact W; subst kk; destruct OQ.
Qed.
Lemma tick_queue : forall s c f v b d fs k kk, reach s -> hret c f v b (now s) (dt s) = (d, fs, k) -> objq kk -> ~ kret c (dt s) f kk -> ~ wret f kk ->
  (forall x, x <> c -> In (NCo x) (q d kk) <-> In (NCo x) (q (dt s) kk)) /\ (forall n, In n (q d kk) -> In n (q (dt s) kk)).
Proof.
  intros s c f v b d fs k kk RE E OQ NK NW. destruct (hret_fp _ _ _ _ _ _ _ _ _ [] E) as (R & P & FP & _).
  eapply quiet_queue; try eassumption; auto.
  - intros n k2. apply leave_in.
  - intros x N IN. apply leave_keep; assumption.
  - intros n [_ W]. exact (NW W).
Qed.
Lemma ctl_qin : forall c n k d kk x, objq kk -> In x (q (ctl_dat c n k d) kk) -> In x (q d kk).
Proof.
  intros c n k d kk x OQ IN. destruct k; cbn [ctl_dat] in IN; try exact IN.
  - rewrite spawn_q_eq in IN; [exact IN|]. intros ->. destruct OQ.
  - unfold final_dat in IN. cbn [q set_npool] in IN. apply In_pushq in IN. destruct IN as [[IN _]|[-> _]]; [exact IN | destruct OQ].
Qed.

(** ** Calls *)
Lemma classic_locks : forall o m, locks o m \/ ~ locks o m.
Proof. intros o m. destruct o; cbn; auto; destruct (Nat.eq_dec m0 m); auto. Qed.
Lemma kcall_mu_cases : forall c d o m, kcall c d o (QMu m) -> o <> OpExit ->
  (exists rd, lockop o m rd) \/ o = OpUnlock m \/ o = OpMuInit m \/ o = OpMuDestroy m \/ exists v dl, o = OpCvWait v m dl.
Proof.
  intros c d o m KC NX. destruct o; cbn [kcall] in KC; try discriminate KC; try contradiction;
    try (destruct KC as (? & _ & KC); discriminate KC); try (destruct KC as [KC|KC]; try discriminate KC);
    try (destruct (NX eq_refl)); injection KC as <-; eauto 10.
  all: left; eexists; cbn; auto.
Qed.
Section Call.
Variables (s : state) (c : Z) (o : op) (d : dat) (fs : list frame) (k : ctl) (sch : sched) (md : emode) (m : nat).
Hypothesis RE : reach s.
Hypothesis MU : mode s = MUser.
Hypothesis CU : cur (sc s) = Some c.
Hypothesis US : ustack (stk (sc s) c).
Hypothesis E : hcall c o (now s) (dt s) = (d, fs, k).
Hypothesis X : exec c k (set_stk (zupd (stk (sc s)) c (fs ++ FApi (ncalls s) o :: stk (sc s) c)) (sc s)) = (sch, md).
Hypothesis TI : tidy (call_tr s c o fs k).
Hypothesis PR : proper (call_tr s c o fs k).
Let s' := mkst sch (ctl_dat c (nextid (sc s) + 1) k d) md (now s) (S (ncalls s)) (call_tr s c o fs k).
Let h := fun x => hold m x (tr s).
Let h' := fun x => hold m x (call_tr s c o fs k).
Hypothesis OKM : ok (mux (dt s) m) (q (dt s) (QMu m)) h (ptok s m).

Lemma call_mw : mw s.
Proof. apply reach_mw; [exact RE|]. eapply tidy_call; exact TI. Qed.
Lemma call_free0 : free0 m (dt s).
Proof.
  intros Z0. destruct (mlocked (mux (dt s) m)) eqn:L; [|destruct (ok_free _ _ _ _ OKM L); auto].
  exfalso. pose proof (call_mw m (or_introl L)). pose proof (reach_rt _ RE). lia.
Qed.
Lemma call_notin : forall kk, waitq kk -> ~ In (NCo c) (q (dt s) kk).
Proof. intros kk W IN. apply (reach_qloc _ RE) in IN; [|exact W]. eapply ustack_top; eassumption. Qed.
Lemma call_noover : ~ over (mode s).
Proof. rewrite MU. exact (fun z => z). Qed.
Lemma call_ptok0 : ptok s m c = None.
Proof. unfold ptok. apply tk_ustack, US. Qed.
Lemma call_h : forall x, x <> c -> h' x = h x.
Proof. intros x N. apply hold_call_other, N. Qed.
Lemma call_rl : forall x, x <> c -> rlocked (cof d x) = rlocked (cof (dt s) x).
Proof.
  intros x N. destruct (hcall_fp _ _ _ _ _ _ _ (ncalls s) (stk (sc s) c) E) as (R & P & FP & _). apply still_rl. eapply fps_still; [exact FP | exact N].
Qed.
Lemma call_p : (forall x, x <> c -> In (NCo x) (q d (QMu m)) <-> In (NCo x) (q (dt s) (QMu m))) -> forall x, x <> c -> ptok s' m x = ptok s m x.
Proof.
  intros H x N. unfold s'. rewrite (ptok_other _ _ _ _ _ _ _ _ _ _ _ _ RE CU call_noover N X (call_rl x N)).
  rewrite (ptok_idle _ _ _ RE call_noover) with (rv := None) by congruence. f_equal. apply memn_iff, H, N.
Qed.
Lemma call_oth : (forall x, x <> c -> In (NCo x) (q d (QMu m)) <-> In (NCo x) (q (dt s) (QMu m))) -> forall x, x <> c -> h' x = h x /\ ptok s' m x = ptok s m x.
Proof. intros H x N. split; [apply call_h, N | apply call_p; assumption]. Qed.
Lemma call_own : forall v, k = CRet v -> ptok s' m c = tk m (fs ++ FApi (ncalls s) o :: stk (sc s) c) (memn (NCo c) (q d (QMu m))) (rlocked (cof d c)) (Some v).
Proof. intros v K. eapply ptok_own_ret; eassumption. Qed.
Lemma call_own_any : (forall e, k <> CFinal e) -> exists rv, ptok s' m c = tk m (fs ++ FApi (ncalls s) o :: stk (sc s) c) (memn (NCo c) (q d (QMu m))) (rlocked (cof d c)) rv.
Proof. intros NF. eapply ptok_own_any; eassumption. Qed.
Lemma final_dec : forall k : ctl, (exists e, k = CFinal e) \/ forall e, k <> CFinal e.
Proof. intros []; eauto; right; discriminate. Qed.
Lemma call_own_none : ~ locks o m -> ptok s' m c = None.
Proof.
  intros NL. destruct (final_dec k) as [(e & K)|NF].
  - eapply ptok_own_fin; eassumption.
  - destruct (call_own_any NF) as (rv & ->). eapply call_tok; eassumption.
Qed.
Definition lockish (o : op) (m : nat) : Prop := exists rd, lockop o m rd.
Lemma call_hc : match o with OpUnlock m' | OpCvWait _ m' _ => m' <> m | _ => True end -> h' c = h c.
Proof.
  intros H. unfold h', h. rewrite hold_call. cbn. rewrite Z.eqb_refl. destruct o; try reflexivity; destruct (Nat.eqb_spec m0 m); [contradiction | reflexivity | contradiction | reflexivity].
Qed.
Notation MS := (mstep False (resets o (QMu m)) c (mux (dt s) m) h (ptok s m) (mux (dt s') m) (q (dt s') (QMu m)) h' (ptok s' m)).
Lemma call_quiet : ~ kcall c (dt s) o (QMu m) -> MS.
Proof.
  intros NK. destruct (call_queue _ _ _ _ _ _ (QMu m) RE E I NK) as [A B].
  assert (NL : ~ locks o m) by (intros LK; apply NK; destruct o; cbn in *; subst; auto; try contradiction).
  assert (HC : h' c = h c) by (apply call_hc; destruct o; auto; intros ->; apply NK; cbn; auto).
  apply ms_keep.
  - unfold s'. cbn [dt]. rewrite ctl_mux, (call_mux _ _ _ _ _ _ _ _ E NK). reflexivity.
  - unfold s'. cbn [dt]. rewrite ctl_mux, (call_mux _ _ _ _ _ _ _ _ E NK). reflexivity.
  - intros L. destruct (ok_free _ _ _ _ OKM L) as [_ Q0]. unfold s'. cbn [dt]. apply incl_l_nil. intros n IN. apply (ctl_qin _ _ _ _ (QMu m)) in IN; [|exact I].
    apply B in IN. rewrite Q0 in IN. exact IN.
  - apply call_oth, A.
  - rewrite HC, call_ptok0, (call_own_none NL). lia.
  - rewrite HC, call_ptok0, (call_own_none NL). lia.
  - right. rewrite HC, call_ptok0, (call_own_none NL). auto.
Qed.
Lemma call_lock : forall rd, lockop o m rd -> MS.
Proof.
  intros rd LO. pose proof (hcall_lock_eff _ _ _ _ _ _ _ _ _ LO call_free0 (call_notin (QMu m) I) E) as LE.
  assert (HC : h' c = h c) by (apply call_hc; destruct o; auto; destruct LO).
  assert (Q0 : q (dt s') (QMu m) = q d (QMu m)) by (unfold s'; cbn [dt]; apply ctl_qmu; destruct LE as [v ? ? ? ? ? -> ?|? ? ? ? ? -> |? ? ? ? ? ? [[-> _]|[-> _]]]; discriminate).
  assert (M0 : mux (dt s') = mux d) by (unfold s'; cbn [dt]; apply ctl_mux). rewrite Q0, M0.
  destruct LE as [v Q1 L1 R1 T1 F1 K1 N1|Q1 D1 L1 T1 F1 K1|Q1 L1 R1 W1 T1 RL1 FK].
  - assert (PC : ptok s' m c = None).
    { rewrite (call_own v K1), F1. unfold tk. cbn. destruct o; try destruct LO; cbn [gives]; destruct (Z.eqb_spec v OK); try contradiction; rewrite andb_false_r; reflexivity. }
    apply ms_keep; try assumption.
    + intros L. rewrite Q1. apply (ok_free _ _ _ _ OKM L).
    + apply call_oth. intros x N. rewrite Q1. reflexivity.
    + rewrite HC, PC, call_ptok0. lia.
    + rewrite HC, PC, call_ptok0. lia.
    + rewrite HC, PC, call_ptok0. auto.
  - assert (PC : ptok s' m c = Some rd).
    { rewrite (call_own OK K1), F1. unfold tk. cbn. destruct o; try destruct LO as [-> ->]; try destruct LO; cbn [gives]; rewrite Nat.eqb_refl; reflexivity. }
    apply (ms_take _ _ _ _ _ _ _ _ _ _ rd).
    + apply call_oth. intros x N. rewrite Q1. reflexivity.
    + exact L1.
    + destruct rd; destruct D1 as [D1 D2]; [destruct D2; auto | auto].
    + rewrite HC, PC, call_ptok0. destruct rd; unfold wW; lia.
    + rewrite HC, PC, call_ptok0. destruct rd; unfold wR; lia.
  - assert (LK : mlocked (mux (dt s) m) = true).
    { destruct (mlocked (mux (dt s) m)) eqn:L; [reflexivity|]. destruct W1 as [W1|W1]; [congruence|]. destruct (ok_free _ _ _ _ OKM L) as [_ QN]. contradiction. }
    assert (IN : memn (NCo c) (q d (QMu m)) = true) by (apply memn_In; rewrite Q1; apply in_or_app; right; left; reflexivity).
    assert (PC : ptok s' m c = None).
    { destruct call_own_any as (rv & ->); [destruct FK as [(-> & _)|(-> & _)]; discriminate|]. rewrite IN. unfold tk.
      destruct FK as [(_ & ->)|(_ & ->)]; cbn; rewrite andb_false_r; reflexivity. }
    apply ms_keep; try assumption.
    + intros L. congruence.
    + apply call_oth. intros x N. rewrite Q1, in_app_iff. cbn. intuition congruence.
    + rewrite HC, PC, call_ptok0. lia.
    + rewrite HC, PC, call_ptok0. lia.
    + rewrite HC, PC, call_ptok0. auto.
Qed.
Lemma call_top : forall x, In (NCo x) (q (dt s) (QMu m)) -> exists rest, top (stk (sc s) x) = FLock m :: rest.
Proof.
  intros x IN. apply (reach_qloc _ RE) in IN; [|exact I]. cbn [node_co] in IN. destruct (matched_cases _ _ _ IN I) as [(f & rest & TP & W & _)|(N & j & chs & dl & st' & TP)].
  - exists rest. rewrite TP. destruct f; try discriminate W. injection W as ->. reflexivity.
  - unfold matched in IN. rewrite TP in IN. destruct IN as (i & ch & D & _). discriminate D.
Qed.
Lemma call_nodes : forall n, In n (q (dt s) (QMu m)) -> n = NCo (node_co n).
Proof.
  intros n IN. apply (reach_qloc _ RE) in IN; [|exact I]. destruct (matched_cases _ _ _ IN I) as [(f & rest & TP & W & D)|(N & j & chs & dl & st' & TP)]; [exact D|].
  unfold matched in IN. rewrite TP in IN. destruct IN as (i & ch & _ & _ & D). discriminate D.
Qed.
Lemma call_release : forall gs d1, mux d1 m = mux (dt s) m -> q d1 (QMu m) = q (dt s) (QMu m) -> cof d1 = cof (dt s) ->
  fastunlock m gs d1 = (d, fs, k) -> ptok s' m c = None -> tot h' (ptok s' m) c = tot h (ptok s m) c - 1 ->
  wW (h' c) None <= wW (h c) None -> MS.
Proof.
  intros gs d1 M1 Q1 C1 FU PC TT WW. pose proof (reach_uniq _ RE) as [UQ _].
  destruct (fastunlock_eff m gs d1 d fs k) as (UE & CO & _); [rewrite Q1; apply UQ | rewrite Q1; apply call_nodes | exact FU |].
  assert (NF : forall e, k <> CFinal e) by (destruct UE as [? ? ? ->|? ? ? ? ? ? ->|? ? ? ? ? ? ? ->|? ? ? ? ? ? ? -> ?]; discriminate).
  assert (Q0 : q (dt s') (QMu m) = q d (QMu m)) by (unfold s'; cbn [dt]; apply ctl_qmu, NF).
  assert (M0 : mux (dt s') = mux d) by (unfold s'; cbn [dt]; apply ctl_mux). rewrite Q0, M0. clear Q0 M0.
  pose proof (tot_pos h' (ptok s' m) c) as TP.
  assert (LK : mlocked (mux (dt s) m) = true).
  { destruct (mlocked (mux (dt s) m)) eqn:L; [reflexivity|]. pose proof (ok_zero _ _ _ _ OKM L c). lia. }
  pose proof (ok_pos _ _ _ _ OKM) as RP.
  destruct UE as [L1 D1 F1 K1|L1 R1 L2 R2 Q2 F1 K1|L1 R1 L2 R2 Q2 Q3 F1 K1|P L1 R1 L2 Q2 G R2 K1 F1]; rewrite M1 in *.
  - congruence.
  - apply ms_dec; try assumption.
    + apply call_oth. intros x N. rewrite Q2, Q1. reflexivity.
    + rewrite PC, call_ptok0. exact WW.
  - apply ms_free; try assumption; [auto|]. apply call_oth. intros x N. rewrite Q3, <- Q1, Q2. reflexivity.
  - rewrite Q1 in Q2. unfold granted in G. rewrite ?C1 in G, R2, CO. specialize (R2 RP).
    assert (NDP : NoDup (P ++ q d (QMu m))) by (rewrite <- Q2; apply UQ).
    assert (NP : P <> []) by (destruct G as [(n & -> & _)|(NP & _)]; [discriminate | exact NP]).
    assert (IP : forall n, In n P -> In n (q (dt s) (QMu m))) by (intros n IN; rewrite Q2; apply in_or_app; auto).
    assert (PN : forall n, In n P -> n = NCo (node_co n)) by (intros n IN; apply call_nodes, IP, IN).
    assert (IM : forall x, In x (map node_co P) <-> In (NCo x) P).
    { intros x. rewrite in_map_iff. split; [intros (n & <- & IN); rewrite <- (PN n IN); exact IN | intros IN; exists (NCo x); auto]. }
    assert (GR : exists rd : bool, (forall n, In n P -> rlocked (cof (dt s) (node_co n)) = rd) /\ (rd = false -> exists n, P = [n]) /\ rlocked (cof (dt s) (node_co (hd (NCo 0) P))) = rd).
    { destruct G as [(n & -> & RL)|(_ & RL & _)].
      - exists false. split; [intros n' [<-|[]]; exact RL|]. split; [eauto | exact RL].
      - exists true. split; [exact RL|]. split; [discriminate|]. apply RL. destruct P; [congruence | left; reflexivity]. }
    destruct GR as (rd & GR1 & GR2 & GR3). rewrite GR3 in R2.
    apply (ms_grant _ _ _ _ _ _ _ _ _ _ rd (map node_co P)); try assumption.
    + assert (NP0 : NoDup P) by (clear -NDP; induction P as [|a P IH]; [constructor|]; cbn in NDP; apply NoDup_cons_iff in NDP; destruct NDP as [A B]; constructor; [intros H; apply A, in_or_app; auto | auto]).
      clear -NP0 PN. induction P as [|a P IH]; [constructor|]. cbn. apply NoDup_cons_iff in NP0. destruct NP0 as [A B]. constructor.
      * rewrite in_map_iff. intros (n & QE & IN). apply A. rewrite (PN a) by (left; reflexivity). rewrite <- QE, <- (PN n) by (right; exact IN). exact IN.
      * apply IH; [|exact B]. intros n IN. apply PN. right. exact IN.
    + destruct P; [congruence | discriminate].
    + rewrite IM. intros IN. apply IP in IN. apply (call_notin (QMu m)) in IN; [exact IN | exact I].
    + intros x N. apply call_h, N.
    + intros x N NI. rewrite IM in NI. unfold s'. rewrite (ptok_other _ _ _ _ _ _ _ _ _ _ _ _ RE CU call_noover N X (call_rl x N)).
      rewrite (ptok_idle _ _ _ RE call_noover) with (rv := None) by congruence. f_equal. apply memn_iff. rewrite Q2, in_app_iff. tauto.
    + intros x IN. rewrite IM in IN. assert (NE : x <> c) by (intros ->; apply IP in IN; apply (call_notin (QMu m)) in IN; [exact IN | exact I]).
      unfold s'. rewrite (ptok_other _ _ _ _ _ _ _ _ _ _ _ _ RE CU call_noover NE X (call_rl x NE)).
      assert (MF : memn (NCo x) (q d (QMu m)) = false).
      { apply memn_false. intros I2. clear -NDP IN I2. induction P as [|a P IH]; [destruct IN|]. cbn in NDP. apply NoDup_cons_iff in NDP. destruct NDP as [A B].
        destruct IN as [->|IN]; [apply A, in_or_app; auto | auto]. }
      rewrite MF. destruct (call_top x (IP _ IN)) as (rest & TP2). unfold tk. rewrite TP2, Nat.eqb_refl. cbn. f_equal. apply (GR1 _ IN).
    + intros RF. destruct (GR2 RF) as (n & ->). exists (node_co n). reflexivity.
    + rewrite map_length. exact R2.
Qed.
Lemma call_mu_ok : mlocked (mux (dt s) m) = true -> check_mu m (dt s) = (OK, dt s).
Proof.
  intros L. pose proof (call_mw m (or_introl L)) as W. pose proof (reach_rt _ RE). unfold check_mu. rewrite W.
  destruct (Z.eqb_spec (rtid (dt s)) 0); [lia|]. rewrite Z.eqb_refl. reflexivity.
Qed.
Lemma held_locked : h c <> HNone -> mlocked (mux (dt s) m) = true.
Proof.
  intros H. destruct (mlocked (mux (dt s) m)) eqn:L; [reflexivity|]. exfalso. pose proof (ok_zero _ _ _ _ OKM L c) as T. apply tot_zero in T. rewrite call_ptok0 in T.
  pose proof (hold_nz m c (tr s)) as NZ. fold (h c) in NZ. destruct T as [T1 T2]. unfold wW, wR in T1, T2. destruct (h c) as [| |[|n]]; try congruence; lia.
Qed.
Lemma call_unlock : o = OpUnlock m -> MS.
Proof.
  intros EO. destruct (proper_call _ _ _ _ _ PR) as [_ PC0]. rewrite EO in PC0. fold (h c) in PC0. pose proof (held_locked PC0) as LK.
  pose proof E as E0. rewrite EO in E0. cbn [hcall] in E0. unfold do_unlock in E0. rewrite (call_mu_ok LK) in E0. change (negb (OK =? OK)) with false in E0. cbn match in E0.
  assert (PC : ptok s' m c = None) by (apply call_own_none; rewrite EO; exact (fun z => z)).
  assert (HC : h' c = match h c with HR (S (S n)) => HR (S n) | _ => HNone end).
  { unfold h', h. rewrite hold_call, EO. cbn. rewrite Z.eqb_refl, Nat.eqb_refl. reflexivity. }
  pose proof (hold_nz m c (tr s)) as NZ. fold (h c) in NZ.
  apply (call_release [FUnlock] (dt s)); auto.
  - unfold tot. rewrite PC, call_ptok0, HC. unfold wW, wR. destruct (h c) as [| |[|[|n]]]; try congruence; lia.
  - rewrite HC. unfold wW. destruct (h c) as [| |[|[|n]]]; lia.
Qed.
Lemma call_cvwait : forall v dl, o = OpCvWait v m dl -> MS.
Proof.
  intros v dl EO. destruct (proper_call _ _ _ _ _ PR) as [_ PC0]. rewrite EO in PC0. fold (h c) in PC0.
  assert (HN : h c <> HNone) by congruence. pose proof (held_locked HN) as LK.
  assert (HC : h' c = HNone).
  { unfold h', h. rewrite hold_call, EO. cbn. rewrite Z.eqb_refl, Nat.eqb_refl. reflexivity. }
  assert (KEEP : forall w, fs = [] -> k = CRet w -> mux d m = mux (dt s) m -> q d (QMu m) = q (dt s) (QMu m) -> MS).
  { intros w F1 K1 M1 Q1. assert (PC : ptok s' m c = Some false).
    { rewrite (call_own w K1), F1, EO. unfold tk. cbn. rewrite Nat.eqb_refl. reflexivity. }
    assert (Q0 : q (dt s') (QMu m) = q d (QMu m)) by (unfold s'; cbn [dt]; apply ctl_qmu; rewrite K1; discriminate).
    assert (M0 : mux (dt s') = mux d) by (unfold s'; cbn [dt]; apply ctl_mux). rewrite Q0, M0, M1, Q1.
    apply ms_keep; auto.
    - intros L. apply (ok_free _ _ _ _ OKM L).
    - apply call_oth. intros x N. rewrite Q1. reflexivity.
    - rewrite HC, PC, call_ptok0, PC0. cbn. lia.
    - rewrite HC, PC, call_ptok0, PC0. cbn. lia.
    - rewrite HC, PC, call_ptok0, PC0. cbn. auto. }
  pose proof E as E0. rewrite EO in E0. cbn [hcall] in E0. unfold do_cvwait in E0. destruct (check_cv v (dt s)) as [e0 d0] eqn:C0.
  destruct (check_cv_mu _ _ _ _ C0) as (CM & CR & CC & CQ).
  destruct (negb (e0 =? OK)); [injection E0 as E1 E2 E3; eapply (KEEP e0); [congruence | congruence | rewrite <- E1, CM; reflexivity | rewrite <- E1; apply CQ]|].
  assert (CMU : check_mu m d0 = (OK, d0)).
  { pose proof (call_mw m (or_introl LK)) as W. pose proof (reach_rt _ RE). unfold check_mu. rewrite CM, CR, W.
    destruct (Z.eqb_spec (rtid (dt s)) 0); [lia|]. rewrite Z.eqb_refl. reflexivity. }
  rewrite CMU in E0. change (negb (OK =? OK)) with false in E0. cbn match in E0.
  destruct (canceled (cof d0 c)); [injection E0 as E1 E2 E3; eapply (KEEP ECANCELED); [congruence | congruence | rewrite <- E1; cbn [mux upco set_cof]; rewrite CM; reflexivity | rewrite <- E1; cbn [q upco set_cof]; apply CQ]|].
  assert (PC : ptok s' m c = None).
  { pose proof (fastunlock_cases _ _ _ _ _ _ E0) as FC.
    assert (NF : forall e, k <> CFinal e) by (decompose [and or] FC; subst; discriminate).
    destruct (call_own_any NF) as (rv & ->). unfold tk. decompose [and or] FC; subst fs; reflexivity. }
  eapply (call_release _ d0); try eassumption.
  - rewrite CM. reflexivity.
  - apply CQ.
  - unfold tot. rewrite PC, call_ptok0, HC, PC0. reflexivity.
  - rewrite HC, PC0. cbn. lia.
Qed.
(** nobody is inside a call on the mutex *)
Lemma call_notok : resets o (QMu m) -> forall x, ptok s m x = None.
Proof.
  intros RS x. pose proof (reach_full _ RE) as F. destruct (ptok s m x) as [b|] eqn:P; [|reflexivity]. exfalso. unfold ptok in P.
  destruct (stk (sc s) x) as [|f rest] eqn:SX; [discriminate P|].
  assert (L : lstack (f :: rest)) by (rewrite <- SX; apply live_lstack; [exact F | rewrite SX; discriminate]).
  assert (H : exists j o', In (FApi j o') (stk (sc s) x) /\ uses o' (QMu m)).
  { rewrite <- SX in P, L. clear SX f rest. remember (stk (sc s) x) as st eqn:SX. destruct L as [st U|j o' w st U SH|w st ES].
    - rewrite tk_ustack in P by exact U. discriminate P.
    - exists j, o'. split; [apply in_or_app; right; left; reflexivity|].
      destruct (classic_locks o' m) as [LK|NL]; [|rewrite (shape_tk _ _ _ _ _ _ _ _ SH NL) in P; discriminate P].
      destruct o'; try destruct LK; cbn; auto; exfalso.
      all: inversion SH; subst; cbn in SX; symmetry in SX; destruct (reach_apiq _ RE _ _ _ _ SX) as [H|[H|(H & _)]]; [destruct H | exact (call_noover H)|].
      all: assert (x = c) by congruence; subst x; rewrite SX in US; inversion US.
    - erewrite tk_exit in P by exact ES. discriminate P. }
  destruct H as (j & o' & IA & U). eapply (tidy_now _ _ _ _ _ _ RE TI RS); eassumption.
Qed.

Lemma call_muinit : o = OpMuInit m -> MS.
Proof.
  intros EO. destruct (proper_call _ _ _ _ _ PR) as [_ PC0]. rewrite EO in PC0.
  pose proof E as E0. rewrite EO in E0. cbn [hcall] in E0. injection E0 as E1 E2 E3.
  assert (Q0 : q (dt s') (QMu m) = q d (QMu m)) by (unfold s'; cbn [dt]; apply ctl_qmu; rewrite <- E3; discriminate).
  assert (M0 : mux (dt s') = mux d) by (unfold s'; cbn [dt]; apply ctl_mux). rewrite Q0, M0.
  assert (RS : resets o (QMu m)) by (rewrite EO; reflexivity).
  apply ms_reset; [exact RS|..]; try (rewrite <- E1; unfold mu_init, upmu; cbn; unfold nupd; rewrite ?Nat.eqb_refl; reflexivity).
  - rewrite <- E1. unfold mu_init. cbn. apply qupd_eq.
  - intros x. assert (HX : h' x = HNone).
    { destruct (Z.eq_dec x c) as [->|N]; [rewrite call_hc by (rewrite EO; exact I) | rewrite (call_h x N)]; apply PC0. }
    assert (PX : ptok s' m x = None).
    { destruct (Z.eq_dec x c) as [->|N]; [apply call_own_none; rewrite EO; exact (fun z => z)|].
      unfold s'. rewrite (ptok_other _ _ _ _ _ _ _ _ _ _ _ _ RE CU call_noover N X (call_rl x N)).
      pose proof (call_notok RS x) as P. rewrite (ptok_idle _ _ _ RE call_noover) with (rv := None) in P by congruence. unfold tk in *.
      destruct (top (stk (sc s) x)) as [|[] ?]; auto. destruct (m0 =? m)%nat; auto.
      destruct (memn (NCo x) (q (dt s) (QMu m))) eqn:MM; [|discriminate P]. apply memn_In in MM.
      exfalso. destruct (call_top _ MM) as (r & TP). 
      assert (LV : stk (sc s) x <> []) by (intros Q; rewrite Q in TP; discriminate TP).
      destruct (seg_host _ (FLock m) (QMu m) (live_lstack _ _ (reach_full _ RE) LV)) as (j & o' & IA & U); [eapply top_seg; [exact TP | reflexivity] | reflexivity|].
      eapply (tidy_now _ _ _ _ _ _ RE TI RS); eassumption. }
    unfold tot. rewrite HX, PX. reflexivity.
Qed.
Lemma call_mudestroy : o = OpMuDestroy m -> MS.
Proof.
  intros EO. pose proof E as E0. rewrite EO in E0. cbn [hcall] in E0. unfold do_mudestroy in E0. destruct (check_mu m (dt s)) as [e0 d0] eqn:CM.
  assert (NL : ~ locks o m) by (rewrite EO; exact (fun z => z)).
  assert (HC : h' c = h c) by (apply call_hc; rewrite EO; exact I).
  assert (KEEP : forall w, k = CRet w -> mlocked (mux d m) = mlocked (mux (dt s) m) -> mrl (mux d m) = mrl (mux (dt s) m) -> q d (QMu m) = q (dt s) (QMu m) -> MS).
  { intros w K1 M1 M2 Q1. 
    assert (Q0 : q (dt s') (QMu m) = q d (QMu m)) by (unfold s'; cbn [dt]; apply ctl_qmu; rewrite K1; discriminate).
    assert (M0 : mux (dt s') = mux d) by (unfold s'; cbn [dt]; apply ctl_mux). rewrite Q0, M0.
    apply ms_keep; auto.
    - intros L. rewrite Q1. apply (ok_free _ _ _ _ OKM). congruence.
    - apply call_oth. intros x N. rewrite Q1. reflexivity.
    - rewrite HC, call_ptok0, (call_own_none NL). lia.
    - rewrite HC, call_ptok0, (call_own_none NL). lia.
    - right. rewrite HC, call_ptok0, (call_own_none NL). auto. }
  destruct (check_mu_eff _ _ _ _ call_free0 CM) as (A1 & A2 & A3 & A4 & A5 & _).
  destruct (negb (e0 =? OK)); [injection E0 as E1 E2 E3; apply (KEEP e0); [congruence | rewrite <- E1; assumption ..]|].
  rewrite A4 in E0. destruct (mlocked (mux (dt s) m)) eqn:L; [injection E0 as E1 E2 E3; apply (KEEP EBUSY); [congruence | rewrite <- E1; assumption ..]|].
  injection E0 as E1 E2 E3. destruct (ok_free _ _ _ _ OKM L) as [R0 Q0].
  assert (QQ : q (dt s') (QMu m) = q d (QMu m)) by (unfold s'; cbn [dt]; apply ctl_qmu; rewrite <- E3; discriminate).
  assert (MM : mux (dt s') = mux d) by (unfold s'; cbn [dt]; apply ctl_mux). rewrite QQ, MM.
  assert (QD : q d (QMu m) = []) by (rewrite <- E1; cbn; apply qupd_eq).
  apply ms_reset; [rewrite EO; reflexivity|..]; try (rewrite <- E1; cbn; unfold nupd; rewrite ?Nat.eqb_refl; reflexivity); [exact QD|].
  intros x. pose proof (ok_zero _ _ _ _ OKM L x) as T. rewrite <- T. unfold tot. destruct (Z.eq_dec x c) as [->|N].
  - rewrite HC, call_ptok0, (call_own_none NL). reflexivity.
  - destruct (call_oth) with (x := x) as [-> ->]; [|exact N | reflexivity]. intros y Ny. rewrite QD, Q0. reflexivity.
Qed.
Lemma call_mstep : MS.
Proof.
  destruct (kcall_mu_dec c (dt s) o m) as [K|K]; [|exact (call_quiet K)].
  assert (NX : o <> OpExit) by (intros EO; rewrite EO in K; exact (exitk_mu _ _ _ K)).
  destruct (kcall_mu_cases _ _ _ _ K NX) as [(rd & H)|[H|[H|[H|(v & dl & H)]]]].
  - exact (call_lock rd H).
  - exact (call_unlock H).
  - exact (call_muinit H).
  - exact (call_mudestroy H).
  - exact (call_cvwait v dl H).
Qed.
End Call.

(** ** Continuations *)
Lemma plus_ok : forall M Q h p x, ok M Q h p -> wW (plus (h x) (p x)) None = wW (h x) (p x) /\ wR (plus (h x) (p x)) None = wR (h x) (p x).
Proof.
  intros M Q h p x O. pose proof (bnd_one _ _ x (ok_b _ _ _ _ O)) as B. pose proof (ok_w _ _ _ _ O) as W. pose proof (ok_r _ _ _ _ O) as R.
  assert (D : mrl M = 0 /\ tot h p x <= 1 /\ wR (h x) (p x) = 0 \/ wW (h x) (p x) = 0).
  { destruct (Z.eq_dec (mrl M) 0) as [Z0|NZ]; [left | right; auto]. split; [exact Z0|]. split; [|auto]. unfold cap in B. rewrite Z0 in B. cbn in B. destruct (mlocked M); lia. }
  unfold tot, wW, wR in *. destruct (h x) as [| |n], (p x) as [[]|]; cbn [plus] in *; lia.
Qed.
Lemma lock_rest : forall m rest, lstack (FLock m :: rest) -> exists kk st, (exists dl, rest = FApi kk (OpLock m dl) :: st) \/ (exists dl, rest = FApi kk (OpRdLock m dl) :: st) \/
  (exists v dl ret, rest = FCvRelock m ret :: FApi kk (OpCvWait v m dl) :: st).
Proof.
  intros m rest L. inversion L as [s0 U EQ|k0 o w s0 U SH EQ|w s0 ES EQ].
  - inversion U.
  - destruct w as [|g w]; cbn in EQ; [discriminate EQ|]. injection EQ as -> <-. exists k0, s0.
    inversion SH; subst; try (match goal with H : pz _ _ |- _ => inversion H; subst end);
    try (match goal with H : yf _ _ |- _ => inversion H; subst end); cbn in *; try discriminate; eauto 10.
    all: match goal with Q : _ :: _ = _ :: _ |- _ => injection Q as <- <- end; cbn; eauto 10.
  - destruct (exit_shape_hd _ ES) as (f & t & -> & H). cbn in EQ. injection EQ as -> _. destruct H.
Qed.
Lemma cvw_rest : forall v m rest, lstack (FCvWait v m :: rest) -> exists kk dl st, rest = FApi kk (OpCvWait v m dl) :: st.
Proof.
  intros v m rest L. inversion L as [s0 U EQ|k0 o w s0 U SH EQ|w s0 ES EQ].
  - inversion U.
  - destruct w as [|g w]; cbn in EQ; [discriminate EQ|]. injection EQ as -> <-. 
    inversion SH; subst; try (match goal with H : pz _ _ |- _ => inversion H; subst end);
    try (match goal with H : yf _ _ |- _ => inversion H; subst end); cbn in *; eauto 10; discriminate.
  - destruct (exit_shape_hd _ ES) as (f & t & -> & H). cbn in EQ. injection EQ as -> _. destruct H.
Qed.
Lemma cvr_rest : forall m r rest, lstack (FCvRelock m r :: rest) -> exists kk v dl st, rest = FApi kk (OpCvWait v m dl) :: st.
Proof.
  intros v m rest L. inversion L as [s0 U EQ|k0 o w s0 U SH EQ|w s0 ES EQ].
  - inversion U.
  - destruct w as [|g w]; cbn in EQ; [discriminate EQ|]. injection EQ as -> <-. 
    inversion SH; subst; try (match goal with H : pz _ _ |- _ => inversion H; subst end);
    try (match goal with H : yf _ _ |- _ => inversion H; subst end); cbn in *; eauto 10; discriminate.
  - destruct (exit_shape_hd _ ES) as (f & t & -> & H). cbn in EQ. injection EQ as -> _. destruct H.
Qed.

Lemma carry_cases : forall f m, carry f m -> f = FLock m \/ (exists cv, f = FCvWait cv m) \/ exists r, f = FCvRelock m r.
Proof. intros f m C. destruct f; cbn in C; try contradiction; subst; eauto. Qed.
Section Tick.
Variables (s : state) (c v : Z) (f : frame) (rest : list frame) (b : bool) (d : dat) (fs : list frame) (k : ctl) (sch : sched) (md : emode) (m : nat).
Hypothesis RE : reach s.
Hypothesis MU : mode s = MRet v.
Hypothesis CU : cur (sc s) = Some c.
Hypothesis SK : stk (sc s) c = f :: rest.
Hypothesis LS : lstack (f :: rest).
Hypothesis E : hret c f v b (now s) (dt s) = (d, fs, k).
Hypothesis X : exec c k (set_stk (zupd (stk (sc s)) c (fs ++ rest)) (sc s)) = (sch, md).
Let s' := mkst sch (ctl_dat c (nextid (sc s) + 1) k d) md (now s) (ncalls s) (tick_tr s c v f d fs k).
Let h := fun x => hold m x (tr s).
Let h' := fun x => hold m x (tick_tr s c v f d fs k).
Hypothesis OKM : ok (mux (dt s) m) (q (dt s) (QMu m)) h (ptok s m).
Let dr : Prop := (exists kk cv dl, f = FApi kk (OpCvWait cv m dl) /\ v = ECANCELED /\ casync (cof (dt s) c) = true) \/ (f = FLock m /\ (canceled (cof (dt s) c) = true \/ deadlined (cof (dt s) c) = true)).

Lemma tick_noover : ~ over (mode s).
Proof. rewrite MU. exact (fun z => z). Qed.
Lemma tick_h : forall x, x <> c -> h' x = h x.
Proof. intros x N. apply hold_tick_other, N. Qed.
Lemma tick_rl : forall x, x <> c -> rlocked (cof d x) = rlocked (cof (dt s) x).
Proof.
  intros x N. destruct (hret_fp _ _ _ _ _ _ _ _ _ rest E) as (R & P & FP & _). rewrite <- (leave_cof f c (dt s)). apply still_rl. eapply fps_still; [exact FP | exact N].
Qed.
Lemma tick_oth : (forall x, x <> c -> In (NCo x) (q d (QMu m)) <-> In (NCo x) (q (dt s) (QMu m))) -> forall x, x <> c -> h' x = h x /\ ptok s' m x = ptok s m x.
Proof.
  intros H x N. split; [apply tick_h, N|]. unfold s'. rewrite (ptok_other _ _ _ _ _ _ _ _ _ _ _ _ RE CU tick_noover N X (tick_rl x N)).
  rewrite (ptok_idle _ _ _ RE tick_noover) with (rv := None) by congruence. f_equal. apply memn_iff, H, N.
Qed.
Lemma tick_own : forall w, k = CRet w -> ptok s' m c = tk m (fs ++ rest) (memn (NCo c) (q d (QMu m))) (rlocked (cof d c)) (Some w).
Proof. intros w K. eapply ptok_own_ret; eassumption. Qed.
Lemma tick_own_any : (forall e, k <> CFinal e) -> exists rv, ptok s' m c = tk m (fs ++ rest) (memn (NCo c) (q d (QMu m))) (rlocked (cof d c)) rv.
Proof. intros NF. eapply ptok_own_any; eassumption. Qed.
Lemma tick_before : ptok s m c = tk m (f :: rest) (memn (NCo c) (q (dt s) (QMu m))) (rlocked (cof (dt s) c)) (Some v).
Proof. unfold ptok, rvx. rewrite SK, MU, CU, Z.eqb_refl. reflexivity. Qed.
Lemma tick_hc : (forall kk o, f <> FApi kk o) -> h' c = h c.
Proof.
  intros NA. unfold h', h. rewrite hold_tick. destruct (ret_obs_cases c f v (d, fs, k) s) as [->|(kk & o & e & QF & _)]; [reflexivity | destruct (NA kk o QF)].
Qed.
Notation MS := (mstep dr False c (mux (dt s) m) h (ptok s m) (mux (dt s') m) (q (dt s') (QMu m)) h' (ptok s' m)).
(** a continuation that touches neither the mutex nor its queue *)
Lemma tick_keep : (forall x, x <> c -> In (NCo x) (q d (QMu m)) <-> In (NCo x) (q (dt s) (QMu m))) ->
  (mlocked (mux (dt s) m) = false -> forall n, In n (q d (QMu m)) -> In n (q (dt s) (QMu m))) ->
  mlocked (mux d m) = mlocked (mux (dt s) m) -> mrl (mux d m) = mrl (mux (dt s) m) ->
  wW (h' c) (ptok s' m c) <= wW (h c) (ptok s m c) -> wR (h' c) (ptok s' m c) <= wR (h c) (ptok s m c) ->
  (dr \/ (wW (h' c) (ptok s' m c) = wW (h c) (ptok s m c) /\ wR (h' c) (ptok s' m c) = wR (h c) (ptok s m c))) -> MS.
Proof.
  intros A B M1 M2 W1 W2 D. assert (M0 : mux (dt s') = mux d) by (unfold s'; cbn [dt]; apply ctl_mux).
  apply ms_keep; rewrite ?M0; try assumption; [|apply tick_oth, A].
  intros L. destruct (ok_free _ _ _ _ OKM L) as [_ Q0]. unfold s'. cbn [dt]. apply incl_l_nil. intros n IN. apply (ctl_qin _ _ _ _ (QMu m)) in IN; [|exact I].
  apply (B L) in IN. rewrite Q0 in IN. exact IN.
Qed.
(** frames that have nothing to do with the mutex *)
Lemma tick_quiet : f <> FPause -> (forall kk o, f <> FApi kk o) -> ~ carry f m -> MS.
Proof.
  intros NP NA NC.
  assert (NK : ~ kret c (dt s) f (QMu m)).
  { intros K. destruct (kret_mu _ _ _ _ K) as [(vv & QF)|(r & QF)]; rewrite QF in NC; apply NC; reflexivity. }
  assert (NW : ~ wret f (QMu m)).
  { intros W. apply NC. destruct f; cbn in *; try discriminate W; try contradiction; try congruence. }
  destruct (tick_queue _ _ _ _ _ _ _ _ (QMu m) RE E I NK NW) as [A B].
  assert (PC : ptok s' m c = None).
  { destruct (final_dec k) as [(e & K)|NF]; [eapply ptok_own_fin; eassumption|]. destruct (tick_own_any NF) as (rv & ->). eapply tick_tok; eassumption. }
  assert (PB : ptok s m c = None).
  { rewrite tick_before. unfold tk. destruct f; try reflexivity; try (destruct (NP eq_refl)); try (destruct (NA _ _ eq_refl)); cbn [top]; cbn in NC; destruct (Nat.eqb_spec m0 m); try contradiction; reflexivity. }
  pose proof (tick_mux _ _ _ _ _ _ _ _ _ _ E NK) as MX.
  apply tick_keep; auto; try (rewrite MX; reflexivity); rewrite (tick_hc NA), PC, PB; lia.
Qed.
Lemma tick_pause : f = FPause -> MS.
Proof.
  intros QF. pose proof E as E0. rewrite QF in E0. cbn [hret] in E0. injection E0 as E1 E2 E3.
  assert (NA : forall kk o, f <> FApi kk o) by (rewrite QF; discriminate).
  assert (PE : q d (QMu m) = q (dt s) (QMu m) /\ mux d = mux (dt s) /\ rlocked (cof d c) = rlocked (cof (dt s) c)).
  { rewrite <- E1. unfold pause_end. rewrite upco_eq. destruct (_ <? _); auto. }
  destruct PE as (PQ & PM & PL).
  assert (PC : ptok s' m c = ptok s m c).
  { rewrite (tick_own 0) by congruence. rewrite tick_before, <- E2, QF, PQ, PL. cbn [app]. apply pause_tk. rewrite <- QF. exact LS. }
  apply tick_keep; rewrite ?PM, ?PQ; auto; try reflexivity; rewrite (tick_hc NA), PC; auto; lia.
Qed.
Lemma tick_api : forall kk o, f = FApi kk o -> MS.
Proof.
  intros kk o QF. pose proof E as E0. rewrite QF in E0. cbn [hret] in E0.
  assert (NK : ~ kret c (dt s) f (QMu m)) by (rewrite QF; apply exitk_mu).
  assert (NW : ~ wret f (QMu m)) by (rewrite QF; exact (fun z => z)).
  destruct (tick_queue _ _ _ _ _ _ _ _ (QMu m) RE E I NK NW) as [A B].
  pose proof (tick_mux _ _ _ _ _ _ _ _ _ _ E NK) as MX.
  assert (PB : ptok s m c = gives m o v) by (rewrite tick_before, QF; reflexivity).
  destruct (is_async o && (v =? ECANCELED) && casync (cof (dt s) c)) eqn:AS.
  - assert (HC : h' c = h c).
    { unfold h', h. rewrite hold_tick. replace (ret_obs c f v (d, fs, k) s) with (@nil obs); [reflexivity|]. rewrite QF. unfold ret_obs.
      destruct fs; [|reflexivity]. unfold coexit_async in E0. destruct (cleanups _); [|discriminate E0]. apply coexit_rest_nil in E0. destruct E0 as (z & ->). reflexivity. }
    assert (PC : ptok s' m c = None).
    { destruct (final_dec k) as [(e & K)|NF]; [eapply ptok_own_fin; eassumption|]. destruct (tick_own_any NF) as (rv & ->). eapply async_tk; eassumption. }
    apply andb_true_iff in AS. destruct AS as [AS AS2]. apply andb_true_iff in AS. destruct AS as [_ AS]. apply Z.eqb_eq in AS.
    pose proof (wW_pos (h c) (ptok s m c)). pose proof (wR_pos (h c) (ptok s m c)).
    assert (D : dr \/ gives m o v = None).
    { destruct o; auto; cbn [gives]; rewrite ?AS; change (ECANCELED =? OK) with false; rewrite ?andb_false_r; auto.
      destruct (Nat.eqb_spec m0 m) as [->|]; [left; left; eauto 10 | auto]. }
    apply tick_keep; auto; try (rewrite MX; reflexivity); rewrite HC, PC.
    + unfold wW. destruct (ptok s m c) as [[]|]; lia.
    + unfold wR. destruct (ptok s m c) as [[]|]; lia.
    + destruct D as [D|D]; [auto|]. rewrite PB, D. auto.
  - injection E0 as E1 E2 E3.
    assert (HC : h' c = plus (h c) (ptok s m c)).
    { rewrite PB. unfold h', h. rewrite hold_tick, QF, <- E2, <- E3. unfold ret_obs. cbn [app]. apply hold_ret. }
    assert (PC : ptok s' m c = None).
    { destruct tick_own_any as (rv & ->); [rewrite <- E3; discriminate|]. rewrite <- E2. cbn [app]. apply tk_ustack. eapply api_below. rewrite <- QF. exact LS. }
    destruct (plus_ok _ _ _ _ c OKM) as [P1 P2].
    apply tick_keep; auto; try (rewrite MX; reflexivity); rewrite HC, PC, ?P1, ?P2; auto; lia.
Qed.

Lemma tick_lock : f = FLock m -> MS.
Proof.
  intros QF. pose proof E as E0. rewrite QF in E0. cbn [hret] in E0. unfold lock_end in E0.
  destruct (checkdl c MAXI (now s) _) as [w d1] eqn:CK. injection E0 as E1 E2 E3. rewrite E1 in CK. clear d1 E1.
  destruct (checkdl_eff _ _ _ _ _ _ CK) as (CQ & CM & _ & _ & _ & CO).
  assert (NA : forall kk o, f <> FApi kk o) by (rewrite QF; discriminate).
  assert (MX : mux d = mux (dt s)) by (rewrite CM; reflexivity).
  assert (QQ : q d (QMu m) = q (rmq (NCo c) (dt s)) (QMu m)) by (rewrite CQ; reflexivity).
  assert (SUB : forall n, In n (q d (QMu m)) <-> In n (q (dt s) (QMu m)) /\ n <> NCo c) by (intros n; rewrite QQ; apply In_rmq).
  assert (PC : ptok s' m c = if w =? OK then Some (wants rest) else None).
  { rewrite (tick_own w) by congruence. rewrite <- E2. cbn [app]. pose proof LS as L0. rewrite QF in L0. destruct (lock_rest _ _ L0) as (kk & st & [(dl & ->)|[(dl & ->)|(cv & dl & ret & ->)]]);
      unfold tk; cbn [top gives wants]; rewrite Nat.eqb_refl; cbn [andb]; reflexivity. }
  assert (PB : ptok s m c = if memn (NCo c) (q (dt s) (QMu m)) then None else Some (wants rest)).
  { rewrite tick_before, QF. unfold tk. cbn [top]. rewrite Nat.eqb_refl. cbn [andb]. destruct (memn _ _); [reflexivity|]. cbn [negb]. f_equal.
    eapply (reach_rlinv _ RE c m). rewrite SK, QF. reflexivity. }
  assert (CF : canceled (cof (upco c (set_rlocked false) (rmq (NCo c) (set_nlocked (nlocked (dt s) - 1) (dt s)))) c) = canceled (cof (dt s) c)) by (rewrite upco_eq; reflexivity).
  assert (DF : deadlined (cof (upco c (set_rlocked false) (rmq (NCo c) (set_nlocked (nlocked (dt s) - 1) (dt s)))) c) = deadlined (cof (dt s) c)) by (rewrite upco_eq; reflexivity).
  rewrite CF, DF in CO. 
  assert (D : (ptok s' m c = None /\ dr) \/ ptok s' m c = ptok s m c).
  { destruct (Z.eqb_spec w OK) as [QW|NW].
    - right. rewrite PC, PB. destruct (memn (NCo c) (q (dt s) (QMu m))) eqn:MM; [|reflexivity]. exfalso. apply memn_In in MM.
      rewrite QW in CK. apply checkdl_ok in CK. rewrite CF, DF in CK. destruct CK as [K1 K2].
      destruct (reach_awake _ RE c (FLock m) rest) as [H|[H|[H|H]]]; [rewrite SK, QF; reflexivity | reflexivity | | congruence | congruence | exact (H MM)].
      exact (cur_notpaused _ _ (reach_full _ RE) CU H).
    - left. split; [exact PC|]. right. split; [exact QF|]. destruct (canceled (cof (dt s) c)); [auto|]. destruct (deadlined (cof (dt s) c)); [auto|].
      destruct NW. auto. }
  apply tick_keep; rewrite ?MX; auto.
  - intros x N. rewrite SUB. intuition congruence.
  - intros _ n IN. apply SUB, IN.
  - rewrite (tick_hc NA). destruct D as [[-> _]| ->]; [|lia]. unfold wW. destruct (ptok s m c) as [[]|]; lia.
  - rewrite (tick_hc NA). destruct D as [[-> _]| ->]; [|lia]. unfold wR. destruct (ptok s m c) as [[]|]; lia.
  - rewrite (tick_hc NA). destruct D as [[_ D]| ->]; auto.
Qed.
(** taking the mutex again at the end of neco_cond_wait *)
Lemma tick_again : forall kk cv dl st ret d1, (forall kk o, f <> FApi kk o) -> rest = FApi kk (OpCvWait cv m dl) :: st -> ptok s m c = None ->
  mux d1 = mux (dt s) -> (forall n, In n (q d1 (QMu m)) <-> In n (q (dt s) (QMu m)) /\ n <> NCo c) -> 
  cv_relock c m ret (now s) d1 = (d, fs, k) -> MS.
Proof.
  intros kk cv dl st ret d1 NA QR PB M1 Q1 RL. 
  assert (NI : ~ In (NCo c) (q d1 (QMu m))) by (intros IN; apply Q1 in IN; destruct IN as [_ []]; reflexivity).
  destruct (cv_relock_eff _ _ _ _ _ _ _ _ NI RL) as (RF & _).
  assert (QN : mlocked (mux (dt s) m) = false -> q d1 (QMu m) = []).
  { intros L. destruct (ok_free _ _ _ _ OKM L) as [_ Q0]. apply incl_l_nil. intros n IN. apply Q1 in IN. rewrite Q0 in IN. destruct IN as [[] _]. }
  assert (M0 : mux (dt s') = mux d) by (unfold s'; cbn [dt]; apply ctl_mux).
  destruct RF as [L1 L2 R1 Q2 F1 K1|w L1 M2 Q2 F1 K1 NW|L1 M2 Q2 RL2 FK]; rewrite M1 in *.
  - assert (PC : ptok s' m c = Some false).
    { rewrite (tick_own ret K1), F1, QR. unfold tk. cbn. rewrite Nat.eqb_refl. reflexivity. }
    apply (ms_take _ _ _ _ _ _ _ _ _ _ false).
    + apply tick_oth. intros x N. rewrite Q2, Q1. intuition congruence.
    + rewrite M0. exact L2.
    + rewrite M0. auto.
    + rewrite (tick_hc NA), PC, PB. unfold wW. lia.
    + rewrite (tick_hc NA), PC, PB. unfold wR. lia.
  - assert (PC : ptok s' m c = None).
    { rewrite (tick_own w K1), F1. unfold tk. cbn. destruct (Z.eqb_spec w OK); [contradiction|]. rewrite andb_false_r. reflexivity. }
    apply tick_keep; rewrite ?M2; auto; try (rewrite (tick_hc NA), PC, PB; auto; lia).
    + intros x N. rewrite Q2, Q1. intuition congruence.
    + intros _ n IN. rewrite Q2 in IN. apply Q1, IN.
  - assert (NF : forall e, k <> CFinal e) by (destruct FK as [[-> _]|[-> _]]; discriminate).
    assert (PC : ptok s' m c = None).
    { destruct (tick_own_any NF) as (rv & ->). assert (IN : memn (NCo c) (q d (QMu m)) = true) by (apply memn_In; rewrite Q2; apply in_or_app; right; left; reflexivity).
      rewrite IN. unfold tk. destruct FK as [[_ ->]|[_ ->]]; cbn; rewrite andb_false_r; reflexivity. }
    apply tick_keep; rewrite ?M2; auto; try (rewrite (tick_hc NA), PC, PB; auto; lia).
    + intros x N. rewrite Q2, in_app_iff, Q1. cbn. intuition congruence.
    + intros L. congruence.
Qed.
Lemma tick_cvwait : forall cv, f = FCvWait cv m -> MS.
Proof.
  intros cv QF. pose proof E as E0. rewrite QF in E0. cbn [hret] in E0. unfold cvwait_end in E0.
  destruct (checkdl c MAXI (now s) _) as [w d1] eqn:CK. destruct (checkdl_eff _ _ _ _ _ _ CK) as (CQ & CM & _).
  pose proof LS as L0. rewrite QF in L0. destruct (cvw_rest _ _ _ L0) as (kk & dl & st & QR).
  eapply (tick_again kk cv dl st w d1); try eassumption.
  - rewrite QF. discriminate.
  - rewrite tick_before, QF. reflexivity.
  - intros n. rewrite CQ. rewrite In_rmq; reflexivity.
Qed.
Lemma tick_relocked : forall ret, f = FCvRelock m ret -> MS.
Proof.
  intros ret QF. pose proof E as E0. rewrite QF in E0. cbn [hret] in E0.
  assert (NA : forall kk o, f <> FApi kk o) by (rewrite QF; discriminate).
  pose proof LS as L0. rewrite QF in L0. destruct (cvr_rest _ _ _ L0) as (kk & cv & dl & st & QR).
  assert (PB : ptok s m c = if v =? OK then Some false else None).
  { rewrite tick_before, QF. unfold tk. cbn [top]. rewrite Nat.eqb_refl. reflexivity. }
  destruct (v =? OK) eqn:VO.
  - injection E0 as E1 E2 E3.
    assert (PC : ptok s' m c = Some false).
    { rewrite (tick_own ret) by congruence. rewrite <- E2, QR. unfold tk. cbn. rewrite Nat.eqb_refl. reflexivity. }
    apply tick_keep; rewrite <- ?E1; auto; try reflexivity; rewrite (tick_hc NA), PC, PB; auto; lia.
  - destruct ((v =? ECANCELED) && casync (cof (dt s) c)) eqn:AS.
    + assert (E2 : hret c (FApi O (OpLock O 0)) v b (now s) (dt s) = (d, fs, k)) by (cbn [hret is_async]; rewrite <- andb_assoc, AS; exact E0).
      destruct (tick_queue _ _ _ _ _ _ _ _ (QMu m) RE E2 I (exitk_mu _ _ _) (fun z => z)) as [A B].
      pose proof (async_prims_mu _ _ _ _ _ E0 m) as MX.
      assert (PC : ptok s' m c = None).
      { destruct (final_dec k) as [(e & K)|NF]; [eapply ptok_own_fin; eassumption|]. destruct (tick_own_any NF) as (rv & ->). eapply async_tk; eassumption. }
      apply tick_keep; rewrite ?MX; auto; rewrite (tick_hc NA), PC, PB; auto; lia.
    + eapply (tick_again kk cv dl st ret (dt s)); try eassumption; [reflexivity|].
      intros n. split; [|tauto]. intros IN. split; [exact IN|]. intros ->. apply (reach_qloc _ RE) in IN; [|exact I]. unfold matched in IN. cbn [node_co] in IN. rewrite SK, QF in IN. exact IN.
Qed.
Lemma tick_mstep : MS.
Proof.
  assert (D : f = FPause \/ (exists kk o, f = FApi kk o) \/ carry f m \/ (f <> FPause /\ (forall kk o, f <> FApi kk o) /\ ~ carry f m)).
  { destruct f; eauto; cbn [carry]; try (do 3 right; repeat split; auto; discriminate); destruct (Nat.eq_dec m0 m); auto; do 3 right; repeat split; auto; discriminate. }
  destruct D as [D|[(kk & o & D)|[D|(D1 & D2 & D3)]]].
  - exact (tick_pause D).
  - exact (tick_api kk o D).
  - destruct (carry_cases _ _ D) as [D1|[(cv & D1)|(r & D1)]]; [exact (tick_lock D1) | exact (tick_cvwait cv D1) | exact (tick_relocked r D1)].
  - exact (tick_quiet D1 D2 D3).
Qed.
End Tick.

(** ** All steps *)
Lemma tok_main : forall s m x a b rv, reach s -> mode s = MMain -> tk m (stk (sc s) x) a b rv = tk m (stk (sc s) x) a b None.
Proof.
  intros s m x a b rv RE MM. unfold tk. destruct (stk (sc s) x) as [|f rest] eqn:SX; [reflexivity|].
  destruct f; cbn [top]; try reflexivity.
  - destruct rv as [v|]; [|reflexivity]. destruct (reach_apiq _ RE _ _ _ _ SX) as [H|[H|(_ & z & H)]]; [apply handing_gives, H | rewrite MM in H; destruct H | congruence].
  - assert (L : lstack (FPause :: rest)) by (rewrite <- SX; apply live_lstack; [apply reach_full, RE | rewrite SX; discriminate]).
    destruct (pause_rest _ L) as (f & t & -> & N1 & N2 & N3). destruct f; try reflexivity; [destruct (N2 k o eq_refl) | destruct (N3 m0 ret eq_refl)].
  - destruct rv as [v|]; [|reflexivity]. destruct (reach_relq _ RE _ _ _ _ SX) as [H|(_ & z & H)]; [rewrite MM in H; destruct H | congruence].
Qed.
Lemma tk_drop : forall m st a b rv, tk m st a b None = tk m st a b rv \/ tk m st a b None = None.
Proof. intros m st a b rv. unfold tk. destruct (top st) as [|[] ?]; auto. Qed.

(** the fields of a mutex agree with who holds it *)
Definition mok (s : state) (m : nat) : Prop := ok (mux (dt s) m) (q (dt s) (QMu m)) (fun x => hold m x (tr s)) (ptok s m).
Definition mlow (s : state) (m : nat) : Prop := lows (mux (dt s) m) (fun x => hold m x (tr s)) (ptok s m).
Lemma mode_ptok : forall s md, reach s -> (md = MRet 0 /\ mode s = MUser) \/ (md = MDone /\ mode s = MMain /\ active (sc s) = false) \/ ((exists n, md = MKilled n)) \/ (md = MUB) ->
  forall m x, ptok (set_mode md s) m x = ptok s m x \/ (over md /\ ptok (set_mode md s) m x = None).
Proof.
  intros s md RE HM m x. unfold ptok. cbn [sc dt set_mode].
  assert (O : over md -> rvx (set_mode md s) x = None) by (intros O; unfold rvx; cbn [mode set_mode]; destruct md; try destruct O; reflexivity).
  destruct HM as [[-> HM]|HM].
  - left. destruct (option_map (Z.eqb x) (cur (sc s))) as [[]|] eqn:CX.
    + destruct (cur (sc s)) as [c|] eqn:CU; [|discriminate CX]. cbn in CX. injection CX as CX. apply Z.eqb_eq in CX. subst c.
      pose proof (reach_full _ RE) as [_ [_ B2]]. rewrite !tk_ustack by (apply B2; [exact HM | exact CU]). reflexivity.
    + destruct (cur (sc s)) as [c|] eqn:CU; [|discriminate CX]. cbn in CX. injection CX as CX. apply Z.eqb_neq in CX.
      unfold rvx. cbn [mode sc set_mode]. rewrite HM, CU. destruct (Z.eqb_spec c x); [congruence | reflexivity].
    + destruct (cur (sc s)) as [c|] eqn:CU; [discriminate CX|]. unfold rvx. cbn [mode sc set_mode]. rewrite HM, CU. reflexivity.
  - assert (OV : over md) by (destruct HM as [(-> & _)|[(n & ->)| ->]]; exact I). rewrite (O OV).
    destruct (tk_drop m (stk (sc s) x) (memn (NCo x) (q (dt s) (QMu m))) (rlocked (cof (dt s) x)) (rvx s x)) as [->|H]; auto.
Qed.
Lemma main_same : forall s d ws sch md ios, reach s -> mode s = MMain ->
  (if 0 <? npsd (sc s) then paused_step (now s) ios (dt s) else (dt s, [], None)) = (d, ws, None) ->
  sco_switch true (fold_left (fun a id => wake id a) ws (sc s)) = (sch, md) ->
  let s' := mkst sch (rc_step (now s) d) md (now s) (ncalls s) (tr s) in
  mux (dt s') = mux (dt s) /\ forall m, q (dt s') (QMu m) = q (dt s) (QMu m) /\ forall x, ptok s' m x = ptok s m x.
Proof.
  intros s d ws sch md ios RE MM K X s'. apply sco_switch_frame in X. destruct X as (X1 & _). destruct (wakes_frame ws (sc s)) as (W1 & _).
  destruct (mprims_mu _ _ (mp_main _ _ _ _ _ _ _ K)) as (MX & RT & QQ & RL). unfold s'. cbn [dt]. split; [exact MX|]. intros m. split; [apply QQ|].
  intros x. unfold ptok. cbn [sc dt]. rewrite X1, W1, QQ, RL. rewrite (tok_main _ _ _ _ _ _ RE MM). symmetry. apply tok_main; assumption.
Qed.
Lemma env_same : forall s e, reach s -> match e with ECall _ | ETick _ | EMain _ => False | _ => True end -> mode (step s e) = mode s ->
  forall m, mlocked (mux (dt (step s e)) m) = mlocked (mux (dt s) m) /\ mrl (mux (dt (step s e)) m) = mrl (mux (dt s) m) /\
  (mlocked (mux (dt s) m) = false -> q (dt s) (QMu m) = [] -> q (dt (step s e)) (QMu m) = []) /\
  forall x, hold m x (tr (step s e)) = hold m x (tr s) /\ ptok (step s e) m x = ptok s m x.
Proof.
  intros s e RE H M m. split; [|split; [|split]].
  - destruct e; try contradiction; cbn [step]; unfold set_now, set_dt; 
      repeat match goal with |- context [if ?b then _ else _] => destruct b eqn:? | |- context [match mode ?z with _ => _ end] => destruct (mode z) | |- context [match stk (sc ?z) ?c with _ => _ end] => destruct (stk (sc z) c) as [|[] ?] end;
      try reflexivity. cbn. unfold nupd. destruct (Nat.eqb_spec m m0) as [->|]; reflexivity.
  - destruct e; try contradiction; cbn [step]; unfold set_now, set_dt; 
      repeat match goal with |- context [if ?b then _ else _] => destruct b eqn:? | |- context [match mode ?z with _ => _ end] => destruct (mode z) | |- context [match stk (sc ?z) ?c with _ => _ end] => destruct (stk (sc z) c) as [|[] ?] end;
      try reflexivity. cbn. unfold nupd. destruct (Nat.eqb_spec m m0) as [->|]; reflexivity.
  - intros _ Q0. apply incl_l_nil. intros n IN. destruct (env_q s e H) as [Q|(c & _ & _ & _ & Q)]; rewrite Q in IN; [rewrite Q0 in IN; exact IN|].
    apply In_pushq in IN. destruct IN as [[IN _]|[D _]]; [rewrite Q0 in IN; exact IN | discriminate D].
  - intros x. split; [apply hold_env, H|]. destruct (env_frame s e H) as (E1 & E2 & _). unfold ptok, rvx. rewrite E1, E2, M, (env_cof s e H).
    f_equal. apply memn_iff. destruct (env_q s e H) as [->|(c & _ & _ & (w & SX) & ->)]; [reflexivity|]. rewrite In_pushq.
    split; [intros [[IN _]|[D _]]; [exact IN | discriminate D]|]. intros IN. left. split; [exact IN|]. intros Q. injection Q as ->.
    apply (reach_qloc _ RE) in IN; [|exact I]. unfold matched in IN. cbn [node_co] in IN. rewrite SX in IN. exact IN.
Qed.
Theorem reach_mok : forall s, reach s -> tidy (tr s) -> proper (tr s) -> forall m, mok s m.
Proof.
  apply (rrun_preserves (fun s => tidy (tr s) -> proper (tr s) -> forall m, mok s m)).
  - intros s c o d fs k sch md RE I M CU U NR E X T P m. cbn [tr] in T, P. pose proof (tidy_call _ _ _ _ _ T) as T1. pose proof (proj1 (proper_call _ _ _ _ _ P)) as P1.
    specialize (I T1 P1 m). eapply mstep_ok; [exact I|]. eapply call_mstep; eassumption.
  - intros s c v f rest b d fs k sch md RE I M CU SK L E X T P m. cbn [tr] in T, P. pose proof (tidy_tick _ _ _ _ _ _ _ T) as T1. pose proof (proper_tick _ _ _ _ _ _ _ P) as P1.
    specialize (I T1 P1 m). eapply mstep_ok; [exact I|]. eapply tick_mstep; eassumption.
  - intros s d ws sch md ios RE I M A K X T P m. specialize (I T P m). destruct (main_same _ _ _ _ _ _ RE M K X) as [MX QP]. destruct (QP m) as [QQ PP].
    unfold mok in *. cbn [tr]. rewrite MX, QQ. eapply ok_mono; [exact I | reflexivity | reflexivity | intros L0; apply (ok_free _ _ _ _ I L0)|].
    intros x. rewrite PP. lia.
  - intros s md RE I HM T P m. specialize (I T P m). unfold mok in *. cbn [tr dt set_mode] in *. eapply ok_mono; [exact I | reflexivity | reflexivity | intros L0; apply (ok_free _ _ _ _ I L0)|].
    intros x. destruct (mode_ptok s md RE HM m x) as [->|[_ ->]]; [lia|]. unfold wW, wR. destruct (ptok s m x) as [[]|]; lia.
  - intros s e RE I H M T P m. apply tidy_env in T; [|exact H]. apply proper_env in P; [|exact H]. specialize (I T P m).
    destruct (env_same s e RE H M m) as (A & B & C & D). eapply ok_mono; [exact I | exact A | exact B | intros L0; apply (C L0); apply (ok_free _ _ _ _ I L0)|].
    intros x. destruct (D x) as [-> ->]. lia.
  - intros g O T P m. unfold mok. cbn. apply ok_unlocked; [reflexivity | reflexivity|]. intros x. unfold tot, ptok. cbn. unfold zupd. match goal with |- context [if ?b then _ else _] => destruct b end; reflexivity.
Qed.

