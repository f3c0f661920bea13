(** What footprints leave alone, and the two basic facts about wait queues:
    a waiter is in at most one place, and it is in a queue only while its
    coroutine is inside the call that put it there. *)
From Coq Require Import List ZArith Bool Lia.
From Verif Require Import Util Runtime SchedInv StepInv StackShape Prims StaticInv Footprint TraceInv.
Import ListNotations.
Local Open Scope Z_scope.

(** ** Queue primitives *)
Lemma In_rmq : forall n d k x, In x (q (rmq n d) k) <-> In x (q d k) /\ x <> n.
Proof.
  intros. cbn. rewrite filter_In. destruct (node_eqb_spec n x); cbn; intuition congruence.
Qed.
Lemma In_pushq : forall k n d k' x, In x (q (pushq k n d) k') <-> (In x (q d k') /\ x <> n) \/ (k' = k /\ x = n).
Proof.
  intros. unfold pushq. cbn [q set_q]. unfold qupd at 1. destruct (qid_eqb_spec k' k) as [->|N].
  - rewrite in_app_iff, In_rmq. cbn. intuition congruence.
  - rewrite In_rmq. intuition congruence.
Qed.
Lemma In_sched_resume : forall r d k x, In x (q (sched_resume r d) k) <-> (In x (q d k) /\ x <> NCo r) \/ (k = QRes /\ x = NCo r).
Proof. intros. unfold sched_resume. cbn [q set_nresumers]. apply In_pushq. Qed.
Lemma In_qupd_tl : forall d k n l k' x, q d k = n :: l -> In x (q (set_q (qupd (q d) k l) d) k') -> In x (q d k').
Proof.
  intros d k n l k' x Q. cbn. unfold qupd. destruct (qid_eqb_spec k' k) as [->|N]; [|auto]. rewrite Q. cbn. auto.
Qed.
Lemma In_qupd_nil : forall f k d k' x, f = q d -> In x (q (set_q (qupd f k []) d) k') -> In x (q d k').
Proof. intros f k d k' x ->. cbn. unfold qupd. destruct (qid_eqb_spec k' k); [contradiction | auto]. Qed.

(** a node is in at most one queue, and once *)
Definition uniq (d : dat) : Prop :=
  (forall k, NoDup (q d k)) /\ forall n k1 k2, In n (q d k1) -> In n (q d k2) -> k1 = k2.
Lemma NoDup_filter : forall A (f : A -> bool) l, NoDup l -> NoDup (filter f l).
Proof.
  intros A f l N. induction N; cbn; [constructor|]. destruct (f x); [constructor; [rewrite filter_In; tauto|]|]; assumption.
Qed.
Lemma NoDup_snoc : forall A (l : list A) x, NoDup l -> ~ In x l -> NoDup (l ++ [x]).
Proof.
  intros. apply NoDup_app_intro; [assumption | repeat constructor; intros [] |]. intros y I [<-|[]]. contradiction.
Qed.
Lemma uniq_rmq : forall n d, uniq d -> uniq (rmq n d).
Proof.
  intros n d [A B]. split; [intros k; cbn; apply NoDup_filter, A|]. intros x k1 k2 I1 I2.
  apply In_rmq in I1. apply In_rmq in I2. eapply B; [apply I1 | apply I2].
Qed.
Lemma uniq_pushq : forall k n d, uniq d -> uniq (pushq k n d).
Proof.
  intros k n d U. pose proof (uniq_rmq n d U) as [A B]. split.
  - intros k'. unfold pushq. cbn [q set_q]. unfold qupd at 1. destruct (qid_eqb_spec k' k) as [->|N]; [|apply A].
    apply NoDup_snoc; [apply A|]. rewrite In_rmq. tauto.
  - intros x k1 k2 I1 I2. apply In_pushq in I1. apply In_pushq in I2. destruct U as [_ U].
    destruct I1 as [[I1 N1]|[-> ->]], I2 as [[I2 N2]|[-> E]]; try congruence. eapply U; eassumption.
Qed.
Lemma uniq_sched_resume : forall r d, uniq d -> uniq (sched_resume r d).
Proof. intros. apply (uniq_pushq QRes (NCo r) d), H. Qed.
Lemma uniq_sub : forall d d', (forall k x, In x (q d' k) -> In x (q d k)) -> (forall k, NoDup (q d' k)) -> uniq d -> uniq d'.
Proof. intros d d' S N [_ B]. split; [exact N|]. intros x k1 k2 I1 I2. eapply B; apply S; eassumption. Qed.
Lemma uniq_qupd_tl : forall d k n l, q d k = n :: l -> uniq d -> uniq (set_q (qupd (q d) k l) d).
Proof.
  intros d k n l Q U. apply (uniq_sub d); [intros; eapply In_qupd_tl; eassumption| |exact U].
  intros k'. cbn. unfold qupd. destruct (qid_eqb_spec k' k) as [->|N]; [|apply U]. destruct U as [A _]. specialize (A k).
  rewrite Q in A. apply NoDup_cons_iff in A. apply A.
Qed.
Lemma uniq_qupd_nil : forall d f k, f = q d -> uniq d -> uniq (set_q (qupd f k []) d).
Proof.
  intros d f k -> U. apply (uniq_sub d); [intros; eapply In_qupd_nil; [reflexivity | eassumption]| |exact U].
  intros k'. cbn. unfold qupd. destruct (qid_eqb_spec k' k); [constructor | apply U].
Qed.
Lemma uniq_prim : forall c d d', prim c d d' -> uniq d -> uniq d'.
Proof.
  intros c d d' P U. inversion P; subst; try exact U.
  - apply uniq_rmq, U.
  - apply uniq_pushq, U.
  - apply uniq_sched_resume, U.
  - eapply uniq_qupd_tl; eassumption.
  - apply uniq_qupd_nil; [reflexivity | exact U].
Qed.
Lemma uniq_mprim : forall d d', mprim d d' -> uniq d -> uniq d'.
Proof.
  intros d d' P U. inversion P; subst; try exact U.
  - apply uniq_qupd_nil; [reflexivity | exact U].
  - apply uniq_qupd_nil; [reflexivity | exact U].
  - apply (uniq_sub d); [| |exact U].
    + intros k x. cbn. unfold qupd. destruct (qid_eqb_spec k QPool) as [->|]; [|auto]. intros I. rewrite H0. apply in_or_app. auto.
    + intros k. cbn. unfold qupd. destruct (qid_eqb_spec k QPool) as [->|]; [|apply U]. destruct U as [A _]. specialize (A QPool).
      rewrite H0 in A. eapply NoDup_app_r; exact A.
Qed.
Lemma spawn_q : forall p n g d k x, In x (q (spawn_dat p n g d) k) -> In x (q d k).
Proof.
  intros p n g d k x. unfold spawn_dat, popq, new_chan. destruct (q d QPool) as [|y l] eqn:Q; destruct g, p; cbn; auto;
    (intros I; unfold qupd in I; destruct (qid_eqb_spec k QPool) as [->|]; [rewrite Q; right; exact I | exact I]).
Qed.
Lemma spawn_q_eq : forall p n g d k, k <> QPool -> q (spawn_dat p n g d) k = q d k.
Proof.
  intros p n g d k N. unfold spawn_dat, popq, new_chan. destruct (q d QPool) as [|y l] eqn:Q; destruct g, p; cbn; auto;
    apply qupd_neq; exact N.
Qed.
Lemma uniq_spawn : forall p n g d, uniq d -> uniq (spawn_dat p n g d).
Proof.
  intros p n g d U. apply (uniq_sub d); [intros; eapply spawn_q; eassumption| |exact U].
  intros k. destruct (qid_eqb_spec k QPool) as [->|N]; [|rewrite spawn_q_eq by exact N; apply U].
  destruct U as [A _]. specialize (A QPool).
  unfold spawn_dat, popq, new_chan. destruct (q d QPool) as [|y l] eqn:Q; destruct g, p; cbn; rewrite ?Q; try exact A;
    apply NoDup_cons_iff in A; apply A.
Qed.
Lemma uniq_ctl : forall c n k d, uniq d -> uniq (ctl_dat c n k d).
Proof.
  intros c n k d U. destruct k; try exact U; cbn [ctl_dat].
  - apply uniq_spawn, U.
  - apply (uniq_pushq QPool (NCo c) d), U.
Qed.
Theorem reach_uniq : forall s, reach s -> uniq (dt s).
Proof.
  apply rrun_preserves.
  - intros s c o d fs k sch md RE I M CU U NR E X. apply uniq_ctl.
    eapply (prims_ind_pres c uniq); [apply uniq_prim | eapply hcall_prims; exact E | exact I].
  - intros s c v f rest b d fs k sch md RE I M CU SK L E X. apply uniq_ctl.
    eapply (prims_ind_pres c uniq); [apply uniq_prim | eapply hret_prims; exact E | exact I].
  - intros s d ws sch md ios RE I M A K X.
    eapply (mprims_ind_pres uniq); [apply uniq_mprim | eapply mp_main; exact K | exact I].
  - intros s m RE I _. exact I.
  - intros s e RE I H M. destruct (env_q s e H) as [Q|(c & _ & _ & _ & Q)].
    + unfold uniq. rewrite Q. exact I.
    + unfold uniq. rewrite Q. apply (uniq_pushq QIo (NCo c) _ I).
  - intros g O. cbn. split; [constructor | intros n k1 k2 []].
Qed.

(** ** What a footprint leaves alone *)
Lemma fps_core_q : forall d1 d2, core d2 = core d1 ->
  q d2 = q d1 /\ cof d2 = cof d1 /\ chn d2 = chn d1 /\ mux d2 = mux d1 /\ wgx d2 = wgx d1 /\ cvx d2 = cvx d1 /\
  nchan d2 = nchan d1 /\ rtid d2 = rtid d1 /\ nresumers d2 = nresumers d1.
Proof. intros d1 d2 E. unfold core in E. inversion E. auto 12. Qed.

Lemma fps_q_in : forall c KP KW d R P d', fps c KP KW d R P d' ->
  forall n k, waitq k -> In n (q d' k) -> In n (q d k) \/ (node_co n = c /\ KW k n).
Proof.
  intros c KP KW d R P d' F. induction F; intros x k0 W I0; auto.
  - apply fps_core_q in H. destruct H as (H & _). rewrite H in I0. auto.
  - apply In_rmq in I0. apply IHF; [exact W | apply I0].
  - apply In_pushq in I0. destruct I0 as [[I0 _]|[-> ->]]; [apply IHF; assumption | auto].
  - apply IHF; [exact W|]. eapply In_qupd_tl; eassumption.
  - apply In_sched_resume in I0. destruct I0 as [[I0 _]|[-> ->]]; [apply IHF; assumption | destruct W].
  - apply IHF; [exact W|]. eapply In_qupd_nil; eassumption.
Qed.
Lemma fps_R : forall c KP KW d R P d', fps c KP KW d R P d' ->
  forall r, In r R -> r = c \/ exists k n, KP k /\ popq_ok k /\ node_co n = r /\ In n (q d k).
Proof.
  intros c KP KW d R P d' F. induction F; intros r0 I0; auto; try contradiction.
  destruct I0 as [<-|I0]; [|apply IHF, I0]. destruct (fps_q_in _ _ _ _ _ _ _ F n k) as [I1|[E _]].
  - destruct k; try exact I; destruct H0.
  - rewrite H1. left. reflexivity.
  - right. exists k, n. auto.
  - left. exact E.
Qed.
(** another coroutine's record: only what a waker hands over, and the cancel flag *)
Definition still (a b : corec) : Prop :=
  b = set_canceled (canceled b) (set_cclosed (cclosed b) (set_retidx (retidx b) (set_rbuf (rbuf b) a))) /\
  (canceled a = true -> canceled b = true).
Lemma still_refl : forall a, still a a.
Proof. intros []. split; [reflexivity | auto]. Qed.
Lemma still_trans : forall a b x, still a b -> still b x -> still a x.
Proof.
  intros a b x [A1 A2] [B1 B2]. split; [|auto]. rewrite B1, A1. destruct a; reflexivity.
Qed.
Lemma still_hand : forall g a, handover g -> still a (g a).
Proof.
  intros g a H. assert (C : canceled (g a) = canceled a) by (rewrite H; destruct a; reflexivity).
  split; [|rewrite C; auto]. rewrite C. rewrite (H a) at 1. destruct a; reflexivity.
Qed.
Lemma still_cancel : forall a, still a (set_canceled true a).
Proof. intros []. split; [reflexivity | reflexivity]. Qed.
Lemma upco_eq : forall c f d, cof (upco c f d) c = f (cof d c).
Proof. intros. unfold upco. cbn. apply zupd_eq. Qed.
Lemma upco_neq : forall c f d x, x <> c -> cof (upco c f d) x = cof d x.
Proof. intros. unfold upco. cbn. apply zupd_neq. assumption. Qed.
Lemma fps_still : forall c KP KW d R P d', fps c KP KW d R P d' -> forall x, x <> c -> still (cof d x) (cof d' x).
Proof.
  intros c KP KW d R P d' F x N. induction F; auto using still_refl.
  - rewrite upco_neq by exact N. exact IHF.
  - apply fps_core_q in H. destruct H as (_ & H & _). rewrite H. exact IHF.
  - destruct (Z.eq_dec x r) as [->|M]; [rewrite upco_eq; eapply still_trans; [exact IHF | apply still_hand; assumption] | rewrite upco_neq by exact M; exact IHF].
  - destruct (Z.eq_dec x id) as [->|M]; [rewrite upco_eq; eapply still_trans; [exact IHF | apply still_cancel] | rewrite upco_neq by exact M; exact IHF].
Qed.
Lemma fps_cof : forall c KP KW d R P d', fps c KP KW d R P d' -> forall x, x <> c -> ~ In x R ->
  cof d' x = cof d x \/ cof d' x = set_canceled true (cof d x).
Proof.
  intros c KP KW d R P d' F x N. induction F; intros M; auto.
  - rewrite upco_neq by exact N. auto.
  - apply fps_core_q in H. destruct H as (_ & H & _). rewrite H. auto.
  - apply IHF. intros B. apply M. right. exact B.
  - rewrite upco_neq by congruence. auto.
  - destruct (Z.eq_dec x id) as [->|M2]; [rewrite upco_eq | rewrite upco_neq by exact M2; auto].
    destruct (IHF M) as [->| ->]; right; [reflexivity | destruct (cof d id); reflexivity].
Qed.
(** queues it is not about: only the runner's own nodes can come and go *)
Definition others (c : Z) (l : list node) : list node := filter (fun n => negb (node_co n =? c)) l.
Lemma others_rmq : forall c n d k, node_co n = c -> others c (q (rmq n d) k) = others c (q d k).
Proof.
  intros c n d k E. unfold others. cbn. rewrite filter_filter. apply filter_ext_all. intros x.
  destruct (node_eqb_spec n x) as [->|]; cbn; [rewrite E, Z.eqb_refl; reflexivity | reflexivity].
Qed.
Lemma others_notin : forall c n l, ~ In n l -> others c (filter (fun x => negb (node_eqb n x)) l) = others c l.
Proof.
  intros c n l N. f_equal. apply filter_all. intros x I. destruct (node_eqb_spec n x) as [->|]; [contradiction | reflexivity].
Qed.
Lemma fps_others : forall c KP KW d R P d', fps c KP KW d R P d' ->
  forall k, waitq k -> ~ KP k -> (forall r, In r R -> r <> c -> ~ In (NCo r) (q d k)) ->
  others c (q d' k) = others c (q d k).
Proof.
  intros c KP KW d R P d' F k0 W NK. induction F; intros SEP; auto.
  - apply fps_core_q in H. destruct H as (H & _). rewrite H. auto.
  - rewrite others_rmq by assumption. auto.
  - unfold pushq. cbn [q set_q]. unfold qupd at 1. destruct (qid_eqb_spec k0 k) as [->|N]; [|rewrite others_rmq by assumption; auto].
    unfold others at 1. rewrite filter_app. fold (others c (q (rmq n d1) k)). rewrite others_rmq by assumption. cbn.
    rewrite H, Z.eqb_refl. cbn. rewrite app_nil_r. auto.
  - cbn. rewrite qupd_neq by congruence. apply IHF. intros r I0. apply SEP. right. exact I0.
  - unfold sched_resume, pushq. cbn [q set_q set_nresumers]. rewrite qupd_neq by (intros ->; destruct W).
    destruct (Z.eq_dec r c) as [->|N]; [rewrite others_rmq by reflexivity; auto|].
    change (q (rmq (NCo r) d1) k0) with (filter (fun x => negb (node_eqb (NCo r) x)) (q d1 k0)). rewrite others_notin; [auto|]. intros I0. destruct (fps_q_in _ _ _ _ _ _ _ F _ _ W I0) as [I1|[E _]]; [|cbn in E; congruence].
    exact (SEP r H N I1).
  - subst f. cbn. rewrite qupd_neq by congruence. auto.
Qed.
Lemma fps_nchan : forall c KP KW d R P d', fps c KP KW d R P d' -> (nchan d <= nchan d')%nat.
Proof.
  intros c KP KW d R P d' F. induction F; auto; cbn; try (cbn in *; lia).
  apply fps_core_q in H. destruct H as (_ & _ & _ & _ & _ & _ & H & _). rewrite H. exact IHF.
Qed.
Lemma fps_chn : forall c KP KW d R P d', fps c KP KW d R P d' -> forall ch, ~ KP (QChan ch) -> (ch < nchan d)%nat -> chn d' ch = chn d ch.
Proof.
  intros c KP KW d R P d' F ch NK L. induction F; auto.
  - apply fps_core_q in H. destruct H as (_ & _ & H & _). rewrite H. exact IHF.
  - unfold upch. cbn. rewrite nupd_neq by congruence. exact IHF.
  - cbn. rewrite nupd_neq; [exact IHF|]. apply fps_nchan in F. lia.
Qed.
Lemma fps_mux : forall c KP KW d R P d', fps c KP KW d R P d' -> forall m, ~ KP (QMu m) -> mux d' m = mux d m.
Proof.
  intros c KP KW d R P d' F m NK. induction F; auto.
  - apply fps_core_q in H. destruct H as (_ & _ & _ & H & _). rewrite H. exact IHF.
  - cbn. rewrite nupd_neq by congruence. exact IHF.
Qed.
Lemma fps_wgx : forall c KP KW d R P d', fps c KP KW d R P d' -> forall m, ~ KP (QWg m) -> wgx d' m = wgx d m.
Proof.
  intros c KP KW d R P d' F m NK. induction F; auto.
  - apply fps_core_q in H. destruct H as (_ & _ & _ & _ & H & _). rewrite H. exact IHF.
  - cbn. rewrite nupd_neq by congruence. exact IHF.
Qed.
Lemma fps_cvx : forall c KP KW d R P d', fps c KP KW d R P d' -> forall m, ~ KP (QCv m) -> cvx d' m = cvx d m.
Proof.
  intros c KP KW d R P d' F m NK. induction F; auto.
  - apply fps_core_q in H. destruct H as (_ & _ & _ & _ & _ & H & _). rewrite H. exact IHF.
  - cbn. rewrite nupd_neq by congruence. exact IHF.
Qed.
Lemma fps_rtid : forall c KP KW d R P d', fps c KP KW d R P d' -> rtid d' = rtid d.
Proof.
  intros c KP KW d R P d' F. induction F; auto.
  apply fps_core_q in H. destruct H as (_ & _ & _ & _ & _ & _ & _ & H & _). rewrite H. exact IHF.
Qed.

(** ** A waiter is in a queue only while it waits there *)
Definition qloc (s : state) : Prop :=
  forall n k, waitq k -> In n (q (dt s) k) -> matched (stk (sc s) (node_co n)) n k.

Lemma ustack_top : forall st n k, ustack st -> ~ matched st n k.
Proof. intros st n k U. inversion U; subst; unfold matched; cbn; auto. Qed.
Lemma matched_nil : forall n k, ~ matched [] n k.
Proof. intros n k H. exact H. Qed.

(** a waiter that continues has left its queues *)
Lemma In_rm_cases : forall c n d k x, In x (q (rm_cases c n d) k) <-> In x (q d k) /\ forall i, (i < n)%nat -> x <> NCase c (Z.of_nat i).
Proof.
  intros c n. induction n as [|n IH]; intros d k x; cbn [rm_cases].
  - split; [intros H; split; [exact H | lia] | tauto].
  - rewrite IH, In_rmq. split.
    + intros [[A B] C]. split; [exact A|]. intros i L. assert (D : (i < n)%nat \/ i = n) by lia. destruct D as [D| ->]; [apply C, D | exact B].
    + intros [A B]. repeat split; [exact A | apply B; lia | intros i L; apply B; lia].
Qed.
Lemma leave_in : forall f c d k x, In x (q (leave f c d) k) -> In x (q d k).
Proof.
  intros f c d k x I0. destruct f; cbn [leave] in I0; try exact I0; try (apply In_rmq in I0; apply I0).
  apply In_rm_cases in I0. apply I0.
Qed.
Lemma sel_len : forall N k chs dl st, lstack (FSelWait N :: FApi k (OpSelect chs dl) :: st) -> N = Z.of_nat (length chs).
Proof.
  intros N k chs dl st L. inversion L as [st0 U|k0 o0 w st0 U SH EQ|w st0 ES EQ]; subst.
  - inversion U.
  - inversion SH; subst; cbn in EQ; try discriminate; try (match goal with H : pz _ _ |- _ => inversion H; subst; cbn in EQ; try discriminate; inversion EQ; subst; auto end);
      try (match goal with H : yf _ _ |- _ => inversion H; subst; cbn in EQ; discriminate end).
    all: try reflexivity.
  - inversion ES as [a0 s0 w0 Y|a0 s0|a0 w0 Y]; subst; try (inversion Y; subst; cbn in EQ; discriminate); cbn in EQ; discriminate.
Qed.
Lemma leave_gone : forall f c rest d n k, lstack (f :: rest) -> f <> FPause -> matched (f :: rest) n k -> node_co n = c ->
  ~ In n (q (leave f c d) k).
Proof.
  intros f c rest d n k L NP M E. unfold matched in M. destruct f; cbn [top] in M; try contradiction; cbn [leave];
    try (destruct M as [-> _]; cbn in E; subst; rewrite In_rmq; tauto).
  destruct rest as [|[] rest]; try contradiction. destruct o; try contradiction. destruct M as (i & ch & -> & NE & _). cbn in E. subst.
  rewrite In_rm_cases. intros [_ H]. apply sel_len in L. subst. rewrite Nat2Z.id in H.
  apply (H i); [|reflexivity]. apply nth_error_Some. congruence.
Qed.

Lemma qloc_exec : forall c k s0 st' s' md d n0,
  exec c k (set_stk (zupd (stk s0) c st') s0) = (s', md) -> n0 = nextid s0 + 1 -> n0 <> c ->
  (forall n kk, waitq kk -> In n (q d kk) -> node_co n = c -> st' <> [] /\ matched st' n kk /\ forall b, k <> CFinal b) ->
  (forall n kk, waitq kk -> In n (q d kk) -> node_co n <> c -> node_co n <> n0 /\ matched (stk s0 (node_co n)) n kk) ->
  forall n kk, waitq kk -> In n (q (ctl_dat c n0 k d) kk) -> matched (stk s' (node_co n)) n kk.
Proof.
  intros c k s0 st' s' md d n0 X N0 NE HC HO n kk W IN. apply exec_stk in X.
  assert (IN2 : In n (q d kk)).
  { destruct k; cbn [ctl_dat] in IN; try exact IN.
    - eapply spawn_q; exact IN.
    - unfold final_dat in IN. cbn [q set_npool] in IN. apply In_pushq in IN. destruct IN as [[IN _]|[-> _]]; [exact IN | destruct W]. }
  destruct (Z.eq_dec (node_co n) c) as [E|E].
  - destruct (HC n kk W IN2 E) as (A & B & D). rewrite X, E. destruct k; cbn; try (rewrite zupd_eq; exact B).
    + rewrite zupd_neq by (cbn; rewrite <- N0; auto). rewrite zupd_eq. exact B.
    + destruct (D tomain eq_refl).
  - destruct (HO n kk W IN2 E) as (A & B). rewrite X. destruct k; cbn; try (rewrite zupd_neq by exact E; exact B).
    + rewrite zupd_neq by (rewrite <- N0; exact A). rewrite zupd_neq by exact E. exact B.
    + rewrite zupd_neq by exact E. rewrite zupd_neq by exact E. exact B.
Qed.

Lemma stk_fresh : forall s, full s -> stk (sc s) (nextid (sc s) + 1) = [].
Proof.
  intros s [[SI _] _]. destruct (stk (sc s) (nextid (sc s) + 1)) eqn:E; [reflexivity|].
  pose proof (si_ids _ SI (nextid (sc s) + 1)) as H. rewrite E in H. specialize (H ltac:(discriminate)). lia.
Qed.
Lemma cur_notfresh : forall s c, full s -> cur (sc s) = Some c -> nextid (sc s) + 1 <> c.
Proof. intros s c [[SI _] _] CU. destruct (cur_alive _ _ SI CU) as [_ H]. lia. Qed.

Lemma mprim_wq : forall d d' k, mprim d d' -> waitq k -> q d' k = q d k.
Proof.
  intros d d' k P W. inversion P; subst; try reflexivity; cbn; apply qupd_neq; intros ->; destruct W.
Qed.
Lemma mprims_wq : forall d d' k, mprims d d' -> waitq k -> q d' k = q d k.
Proof. intros d d' k P W. induction P; [reflexivity|]. rewrite (mprim_wq _ _ _ H W). exact IHP. Qed.

Lemma coexit_rest_final : forall c a d d' fs b, coexit_rest c a d = (d', fs, CFinal b) -> fs = [].
Proof.
  intros c a d d' fs b E. unfold coexit_rest in E.
  match type of E with context [gen (cof ?x c)] => set (dd := x) in E end.
  destruct (gen (cof dd c)) as [g|].
  - destruct (do_close g dd) as [[d1 fs1] k1] eqn:C. inj E. apply do_close_cases in C. destruct C as [(_ & v & H)|(H & _)]; discriminate.
  - destruct (negb _); [apply yfsr_cases in E; destruct E as (_ & H & _); discriminate | inj E; reflexivity].
Qed.
Lemma coexit_async_final : forall c d d' fs b, coexit_async c d = (d', fs, CFinal b) -> fs = [].
Proof.
  intros c d d' fs b E. unfold coexit_async in E. destruct (cleanups _); [eapply coexit_rest_final; exact E | discriminate].
Qed.
Lemma hcall_final : forall c o nw d d' fs b, hcall c o nw d = (d', fs, CFinal b) -> fs = [].
Proof.
  intros c o nw d d' fs b E. destruct (hcall_next _ _ _ _ _ _ _ E) as [[]|[(h & _ & _ & H & _)|(-> & _)]]; [discriminate|].
  eapply coexit_async_final; exact E.
Qed.
Ltac nofin E :=
  match type of E with
  | copause _ _ _ _ = _ => apply copause_cases in E; destruct E as [(E & _)|(E & _)]; discriminate
  | yfsr _ _ = _ => apply yfsr_cases in E; destruct E as (_ & E & _); discriminate
  | (_, _, _) = _ => discriminate E
  | coyield _ _ = _ => discriminate E
  | context [checkdl ?a ?b ?c ?d] => destruct (checkdl a b c d); nofin E
  | context [mu_trylock ?a ?b ?c ?d ?e ?f] => destruct (mu_trylock a b c d e f); nofin E
  | context [if ?x then _ else _] => destruct x; nofin E
  end.
Lemma hret_final : forall c f v bb nw d d' fs b, hret c f v bb nw d = (d', fs, CFinal b) -> fs = [].
Proof.
  intros c f v bb nw d d' fs b E. destruct f; cbn [hret] in E; try (nofin E; fail).
  - eapply coexit_rest_final; exact E.
  - destruct (_ && _); [eapply coexit_async_final; exact E | discriminate].
  - destruct (_ && _); [eapply coexit_async_final; exact E | discriminate].
  - unfold sleep_end in E. nofin E.
  - unfold do_cancel in E. nofin E.
  - unfold sigwait_end in E. nofin E.
  - unfold wait_end in E. nofin E.
  - unfold send_end in E. nofin E.
  - unfold recv_end in E. nofin E.
  - unfold select_end in E. nofin E.
  - unfold lock_end in E. nofin E.
  - unfold wgwait_end in E. nofin E.
  - unfold cvwait_unlocked in E. nofin E.
  - unfold cvwait_end, cv_relock, finish_lock in E. nofin E.
  - destruct (_ =? _); [discriminate|]. destruct (_ && _); [eapply coexit_async_final; exact E|]. unfold cv_relock, finish_lock in E. nofin E.
  - unfold join_end in E. nofin E.
  - unfold suspend_end in E. nofin E.
  - unfold work_submit in E. nofin E.
  - eapply coexit_async_final; exact E.
  - unfold exit_gen in E. destruct sched; [nofin E | inj E; reflexivity].
  - inj E. reflexivity.
Qed.

Theorem reach_qloc : forall s, reach s -> qloc s.
Proof.
  apply rrun_preserves.
  - intros s c o d fs k sch md RE I M CU U NR E X. unfold qloc. cbn [sc dt].
    pose proof (reach_full _ RE) as F.
    destruct (hcall_fp _ _ _ _ _ _ _ (ncalls s) (stk (sc s) c) E) as (R & P & FP & _).
    eapply qloc_exec; [exact X | reflexivity | apply cur_notfresh; assumption | |].
    + intros n kk W IN EQ. destruct (fps_q_in _ _ _ _ _ _ _ FP n kk W IN) as [IO|[_ [[A B] _]]].
      * exfalso. specialize (I n kk W IO). rewrite EQ in I. eapply ustack_top; eassumption.
      * repeat split; [destruct fs; [congruence | discriminate] | exact B|]. intros b ->. apply A. eapply hcall_final; exact E.
    + intros n kk W IN NE. destruct (fps_q_in _ _ _ _ _ _ _ FP n kk W IN) as [IO|[B _]]; [|contradiction].
      specialize (I n kk W IO). split; [|exact I]. intros B. rewrite B, stk_fresh in I by exact F. exact I.
  - intros s c v f rest b d fs k sch md RE I M CU SK L E X. unfold qloc. cbn [sc dt].
    pose proof (reach_full _ RE) as F.
    destruct (hret_fp _ _ _ _ _ _ _ _ _ rest E) as (R & P & FP & _).
    eapply qloc_exec; [exact X | reflexivity | apply cur_notfresh; assumption | |].
    + intros n kk W IN EQ. destruct (fps_q_in _ _ _ _ _ _ _ FP n kk W IN) as [IO|[_ [[A B] _]]].
      * pose proof (leave_in _ _ _ _ _ IO) as IO2. specialize (I n kk W IO2). rewrite EQ, SK in I.
        assert (NP : f = FPause \/ f <> FPause) by (destruct f; auto; right; discriminate).
        destruct NP as [->|NP]; [|exfalso; eapply leave_gone; eassumption].
        cbn in E. inj E. cbn [app]. repeat split; [|destruct rest as [|[] rest]; try exact I; destruct I | discriminate]. intros ->. exact I.
      * repeat split; [destruct fs; [congruence | discriminate] | exact B|]. intros x ->. apply A. eapply hret_final; exact E.
    + intros n kk W IN NE. destruct (fps_q_in _ _ _ _ _ _ _ FP n kk W IN) as [IO|[B _]]; [|contradiction].
      apply leave_in in IO. specialize (I n kk W IO). split; [|exact I]. intros B. rewrite B, stk_fresh in I by exact F. exact I.
  - intros s d ws sch md ios RE I M A K X. intros n k W. cbn [sc dt].
    apply sco_switch_frame in X. destruct X as (X1 & _). destruct (wakes_frame ws (sc s)) as (W1 & _). rewrite X1, W1.
    rewrite (mprims_wq (dt s)) by (try eapply mp_main; eassumption). apply I, W.
  - intros s m RE I _. exact I.
  - intros s e RE I H M n k W. destruct (env_frame s e H) as (E1 & _). rewrite E1.
    destruct (env_q s e H) as [->|(c & _ & _ & _ & ->)]; [apply I, W|].
    rewrite In_pushq. intros [[IN _]|[-> _]]; [apply I; assumption | destruct W].
  - intros g O n k W IN. cbn [init dt] in IN. rewrite spawn_q_eq in IN by (intros ->; destruct W). destruct IN.
Qed.
