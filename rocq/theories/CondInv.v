(** How the queue of a condition variable evolves, and why a cond_wait call that
    returns NECO_OK was signalled. *)
From Coq Require Import List ZArith Bool Lia.
From Verif Require Import AATreeSpec AATreeHist Util Runtime SchedInv StepInv StackShape RuntimeSpec TraceInv Immediate Prims StaticInv Footprint QueueInv OwnInv WaitInv CallInv SpecInv TraceStep Wake Awake DeadlineInv AllInv PausedInv ResultInv JoinInv WaiterInv CancelSt MutexSpec MutexEff MutexTok MutexRt MutexInv MutexOrd AtCall WgInv CvSpec.
Import ListNotations.
Local Open Scope Z_scope.

Lemma kcall_cv : forall c d o v, kcall c d o (QCv v) -> match o with OpCvInit v' | OpCvSignal v' | OpCvBcast v' | OpCvWait v' _ _ | OpCvDestroy v' => v' = v | _ => False end.
Proof.
  intros c d o w K. destruct o; cbn in K; unfold exitk in K;
    repeat match goal with H : exists _, _ |- _ => destruct H | H : _ /\ _ |- _ => destruct H | H : _ \/ _ |- _ => destruct H end; try discriminate; try contradiction;
    try (injection K as ->; reflexivity). injection H as ->. reflexivity.
Qed.
Lemma kret_cv : forall c d f v, ~ kret c d f (QCv v).
Proof.
  intros c d f w K. destruct f; cbn in K; unfold exitk in K;
    repeat match goal with H : exists _, _ |- _ => destruct H | H : _ /\ _ |- _ => destruct H | H : _ \/ _ |- _ => destruct H end; try discriminate; contradiction.
Qed.
Lemma kcall_cv_dec : forall c d o v, kcall c d o (QCv v) \/ ~ kcall c d o (QCv v).
Proof.
  intros c d o v. destruct (match o with OpCvInit v' | OpCvSignal v' | OpCvBcast v' | OpCvWait v' _ _ | OpCvDestroy v' => Nat.eqb v' v | _ => false end) eqn:B.
  - left. destruct o; try discriminate B; apply Nat.eqb_eq in B; subst; cbn; auto.
  - right. intros K. apply kcall_cv in K. destruct o; try contradiction; subst; rewrite Nat.eqb_refl in B; discriminate B.
Qed.
Lemma resume_all_nil : forall k n d, k <> QRes -> length (q d k) = n -> NoDup (q d k) -> (forall y, In y (q d k) -> y = NCo (node_co y)) -> q (resume_all k n d) k = [].
Proof.
  intros k n. induction n as [|n IH]; intros d NK LE ND NN; cbn [resume_all]; [destruct (q d k); [reflexivity | discriminate LE]|].
  unfold popq. destruct (q d k) as [|y r] eqn:Q; [discriminate LE|]. injection LE as LE. apply NoDup_cons_iff in ND. destruct ND as [N1 N2].
  assert (NY : y = NCo (node_co y)) by (apply NN; left; reflexivity).
  set (d1 := set_q (qupd (q d) k r) d). assert (Q1 : q (sched_resume (node_co y) d1) k = r).
  { rewrite sched_resume_other; [|exact NK|]; unfold d1; cbn; rewrite qupd_eq; [reflexivity|]. rewrite <- NY. exact N1. }
  apply IH; rewrite ?Q1; auto. intros z IZ. apply NN. right. exact IZ.
Qed.
Lemma grant_otherq : forall m n d k, k <> QMu m -> k <> QRes -> (forall y, In y (q d (QMu m)) -> ~ In (NCo (node_co y)) (q d k)) -> q (grant m n d) k = q d k.
Proof.
  intros m n. induction n as [|n IH]; intros d k N1 N2 H; cbn [grant]; [reflexivity|]. unfold popq. destruct (q d (QMu m)) as [|y l] eqn:Q; [reflexivity|].
  set (d1 := sched_resume (node_co y) (set_q (qupd (q d) (QMu m) l) d)).
  assert (Q1 : q d1 k = q d k).
  { unfold d1. rewrite sched_resume_other; [|exact N2|]; cbn [q set_q]; rewrite qupd_neq by exact N1; [reflexivity|]. apply H. left. reflexivity. }
  assert (S1 : forall z, In z (q d1 (QMu m)) -> In z l).
  { intros z IZ. unfold d1 in IZ. apply In_sched_resume in IZ. destruct IZ as [[IZ _]|[D _]]; [|discriminate D]. cbn [q set_q] in IZ. rewrite qupd_eq in IZ. exact IZ. }
  cbv zeta. fold d1. clearbody d1. destruct (rlocked (cof d1 (node_co y))); [|exact Q1]. set (d2 := upmu m _ d1). assert (Q2 : q d2 = q d1) by reflexivity. clearbody d2.
  destruct (q d2 (QMu m)) as [|n2 l2] eqn:QQ; [rewrite Q2; exact Q1|]. match goal with |- context [if ?b then _ else _] => destruct b end; [|rewrite Q2; exact Q1].
  rewrite IH; [rewrite Q2; exact Q1 | exact N1 | exact N2|]. intros z IZ. rewrite Q2, Q1. apply H. right. apply S1. rewrite <- Q2. exact IZ.
Qed.
Lemma mu_cv_apart : forall s m v y, reach s -> In y (q (dt s) (QMu m)) -> ~ In (NCo (node_co y)) (q (dt s) (QCv v)).
Proof.
  intros s m v y RE I1 I2. pose proof (reach_qloc _ RE _ (QMu m) Logic.I I1) as M1. pose proof (reach_qloc _ RE _ (QCv v) Logic.I I2) as M2. cbn [node_co] in M2. unfold matched in *.
  destruct (top (stk (sc s) (node_co y))) as [|[] [|[] ?]]; try contradiction; try (destruct M1 as [_ M1], M2 as [_ M2]; congruence);
  try (destruct o; try contradiction; destruct M1 as (? & ? & _ & _ & D); discriminate D).
Qed.
Lemma check_mu_otherq : forall m d v d1 k, check_mu m d = (v, d1) -> k <> QMu m -> q d1 k = q d k.
Proof.
  intros m d v d1 k E N. unfold check_mu in E. destruct (_ =? 0); [injection E as <- <-; unfold mu_init; cbn; apply qupd_neq, N|]. destruct (negb _); injection E as <- <-; reflexivity.
Qed.
Lemma check_cv_eff : forall v d e d1, objz d -> check_cv v d = (e, d1) -> (e = OK \/ e = EPERM) /\ (forall k, q d1 k = q d k) /\ (e = EPERM -> d1 = d /\ cvx d v <> 0 /\ cvx d v <> rtid d) /\ (e = OK -> cvx d v = 0 \/ cvx d v = rtid d).
Proof.
  intros v d e d1 Z E. unfold check_cv in E. destruct (Z.eqb_spec (cvx d v) 0) as [Z0|NZ].
  - injection E as <- <-. split; [auto|]. split; [|split; [intros D; discriminate D | auto]]. intros k. unfold cv_init. cbn. destruct (qid_eqb_spec k (QCv v)) as [->|N]; [rewrite qupd_eq, (Z (QCv v) Z0); reflexivity | apply qupd_neq, N].
  - destruct (Z.eqb_spec (rtid d) (cvx d v)) as [Q|NQ]; cbn in E; injection E as <- <-; (split; [auto|]; split; [auto|]; split; intros D; try discriminate D); auto.
Qed.

(** ** The queue under a call *)
Lemma cv_call_q : forall s c o d fs k v, reach s -> tidy (tr s) -> hcall c o (now s) (dt s) = (d, fs, k) -> kcall c (dt s) o (QCv v) ->
  q d (QCv v) = q (dt s) (QCv v) \/ (o = OpCvSignal v /\ q d (QCv v) = List.tl (q (dt s) (QCv v))) \/ (o = OpCvBcast v /\ q d (QCv v) = []) \/ resets o (QCv v).
Proof.
  intros s c o d fs k v RE T E K. apply kcall_cv in K. destruct (reach_wl _ RE T) as [ON _]. pose proof (objn_objz _ RE ON) as OZ.
  destruct o; try contradiction; subst; try (right; right; right; reflexivity); cbn [hcall] in E.
  - unfold do_cvsignal in E. destruct (check_cv v (dt s)) as [e d1] eqn:CK. destruct (check_cv_eff _ _ _ _ OZ CK) as (_ & Q & _).
    destruct (negb _); [injection E as <- <- <-; auto|]. unfold popq in E. destruct (q d1 (QCv v)) as [|n r] eqn:QQ; injection E as <- <- <-; rewrite Q in QQ; [left; rewrite Q; reflexivity|].
    right. left. split; [reflexivity|]. cbn. rewrite qupd_eq, QQ. reflexivity.
  - unfold do_cvbcast in E. destruct (check_cv v (dt s)) as [e d1] eqn:CK. destruct (check_cv_eff _ _ _ _ OZ CK) as (_ & Q & _).
    destruct (negb _); [injection E as <- <- <-; auto|]. apply yfsr_d in E. subst d. right. right. left. split; [reflexivity|]. apply resume_all_nil; [discriminate | reflexivity | |]; rewrite Q.
    + apply (proj1 (reach_uniq _ RE)).
    + intros y IY. apply (objq_node s (QCv v) y RE Logic.I IY).
  - left. unfold do_cvwait in E. destruct (check_cv v (dt s)) as [e d1] eqn:CK. destruct (check_cv_eff _ _ _ _ OZ CK) as (_ & Q & _).
    destruct (negb _); [injection E as <- <- <-; auto|]. destruct (check_mu m d1) as [e2 d2] eqn:CM. pose proof (check_mu_otherq _ _ _ _ (QCv v) CM ltac:(discriminate)) as Q2.
    assert (QM : forall y, In y (q d2 (QMu m)) -> In y (q (dt s) (QMu m))).
    { intros y IY. rewrite <- Q. clear - CM IY. unfold check_mu in CM. destruct (_ =? 0); [injection CM as <- <-; unfold mu_init in IY; cbn in IY; rewrite qupd_eq in IY; destruct IY|]. destruct (negb _); injection CM as <- <-; exact IY. }
    destruct (negb _); [injection E as <- <- <-; rewrite Q2, Q; reflexivity|]. destruct (canceled _); [injection E as <- <- <-; cbn; rewrite Q2, Q; reflexivity|].
    assert (G : forall n d3, q d3 = q d2 -> q (grant m n d3) (QCv v) = q (dt s) (QCv v)).
    { intros n d3 Q3. rewrite grant_otherq; [rewrite Q3, Q2; apply Q | discriminate | discriminate|]. intros y IY. rewrite Q3 in IY |- *. rewrite Q2, Q. apply (mu_cv_apart s m v y RE), QM, IY. }
    unfold fastunlock in E. destruct (negb _); [injection E as <- <- <-; rewrite Q2, Q; reflexivity|]. cbv zeta in E. set (d3 := if 0 <? _ then _ else d2) in E.
    assert (Q3 : q d3 = q d2) by (unfold d3; destruct (_ <? _); reflexivity). clearbody d3.
    destruct (_ && _); [injection E as <- <- <-; rewrite Q3, Q2, Q; reflexivity|]. destruct (emptyq _ _); [injection E as <- <- <-; cbn; rewrite Q3, Q2, Q; reflexivity|].
    apply yfsr_d in E. subst d. apply G, Q3.
Qed.

(** ** Signalled waits *)
Lemma sg_app : forall v k N T, signalled v k T -> signalled v k (N ++ T).
Proof. intros v k N T (t1 & t2 & j & c & o & tm & -> & H). exists (N ++ t1), t2, j, c, o, tm. split; [rewrite <- app_assoc; reflexivity | exact H]. Qed.
Lemma sg_call : forall v kk s c o fs k, signalled v kk (tr s) -> signalled v kk (call_tr s c o fs k).
Proof. intros. unfold call_tr. rewrite !app_assoc. apply sg_app. assumption. Qed.
Lemma sg_tick : forall v kk s c r f d fs k, signalled v kk (tr s) -> signalled v kk (tick_tr s c r f d fs k).
Proof. intros. unfold tick_tr. rewrite !app_assoc. apply sg_app. assumption. Qed.
Lemma sg_env : forall v k s e, match e with ECall _ | ETick _ | EMain _ => False | _ => True end -> signalled v k (tr s) -> signalled v k (tr (step s e)).
Proof. intros v k s e H Z. destruct (env_tr s e H) as [->|(y & ->)]; [exact Z | apply (sg_app v k [_] _ Z)]. Qed.
Lemma sg_now : forall v kk s c o fs k x p t, (o = OpCvSignal v \/ o = OpCvBcast v) -> In (TCall kk x p t) (tr s) -> signalled v kk (call_tr s c o fs k).
Proof.
  intros v kk s c o fs k x p t O IN. unfold call_tr. rewrite app_assoc. apply sg_app. exists [], (tr s), (ncalls s), c, o, (now s). split; [destruct O as [-> | ->]; reflexivity|]. split; [exact O | eauto].
Qed.

Record cvi (s : state) : Prop := {
  cv_w : forall x l kk v m dl, at_call s x l kk (OpCvWait v m dl) -> In (FCvWait v m) l -> In (NCo x) (q (dt s) (QCv v)) \/ signalled v kk (tr s);
  cv_r : forall x l kk v m dl, at_call s x l kk (OpCvWait v m dl) -> In (FCvRelock m OK) l -> signalled v kk (tr s);
  cv_e : forall x kk v m dl, at_call s x [] kk (OpCvWait v m dl) -> mode s = MRet OK -> cur (sc s) = Some x -> signalled v kk (tr s) }.
Definition cres (s : state) : Prop := forall l1 l2 k c v m dl b t, tr s = l1 ++ TRet k c (OpCvWait v m dl) OK b t :: l2 -> signalled v k l2.

Lemma ctl_qin2 : forall c n k d kk x, objq kk -> x <> c -> In (NCo x) (q (ctl_dat c n k d) kk) <-> In (NCo x) (q d kk).
Proof.
  intros c n k d kk x OQ N. split; [apply ctl_qin; exact OQ|]. intros IN. destruct k; cbn [ctl_dat]; try exact IN; [rewrite spawn_q_eq; [exact IN | intros ->; destruct OQ]|].
  unfold final_dat. cbn [q set_npool]. apply In_pushq. left. split; [exact IN | congruence].
Qed.
Lemma call_cvi : forall s c o d fs k sch md, reach s -> tidy (call_tr s c o fs k) -> cvi s -> mode s = MUser -> cur (sc s) = Some c -> ustack (stk (sc s) c) ->
  hcall c o (now s) (dt s) = (d, fs, k) ->
  exec c k (set_stk (zupd (stk (sc s)) c (fs ++ FApi (ncalls s) o :: stk (sc s) c)) (sc s)) = (sch, md) ->
  cvi (mkst sch (ctl_dat c (nextid (sc s) + 1) k d) md (now s) (S (ncalls s)) (call_tr s c o fs k)).
Proof.
  intros s c o d fs k sch md RE T [W R EE] M CU U E X. pose proof (reach_full _ RE) as F. pose proof T as T1. apply tidy_call in T1.
  assert (OWN : forall v m dl, o = OpCvWait v m dl -> ~ In (FCvWait v m) fs /\ (forall r, ~ In (FCvRelock m r) fs) /\ (fs = [] -> exists e, k = CRet e /\ e <> OK)).
  { intros v m dl ->. cbn [hcall] in E. unfold do_cvwait in E. destruct (check_cv v (dt s)) as [e d1] eqn:CK.
    destruct (Z.eqb_spec e OK) as [->|NE]; cbn [negb] in E; [|injection E as <- <- <-; split; [intros []|]; split; [intros r []|]; intros _; eauto].
    destruct (check_mu m d1) as [e2 d2] eqn:CM.
    destruct (Z.eqb_spec e2 OK) as [->|NE]; cbn [negb] in E; [|injection E as <- <- <-; split; [intros []|]; split; [intros r []|]; intros _; eauto].
    destruct (canceled _); [injection E as <- <- <-; split; [intros []|]; split; [intros r []|]; intros _; eexists; split; [reflexivity | discriminate]|].
    assert (FS : fs = [FCvUnlocked v m dl] \/ fs = FCoyield :: FYfsr :: [FCvUnlocked v m dl] \/ fs = FCoyield :: [FCvUnlocked v m dl]).
    { unfold fastunlock in E. destruct (negb _); [injection E as <- <- <-; auto|]. cbv zeta in E. destruct (_ && _); [injection E as <- <- <-; auto|]. destruct (emptyq _ _); [injection E as <- <- <-; auto|].
      apply yfsr_cases in E. destruct E as (_ & _ & [-> | ->]); auto. }
    destruct FS as [-> |[-> | ->]]; (split; [intros H; cbn in H; intuition discriminate|]; split; [intros r H; cbn in H; intuition discriminate | discriminate]). }
  constructor; cbn [dt tr mode sc].
  - intros x l kk v m dl A IF. destruct (call_at _ _ _ _ _ _ _ _ _ _ _ _ F CU U E X A) as [(-> & -> & -> & OE & SH & NF)|(NE & A0)].
    + destruct (OWN v m dl (eq_sym OE)) as (O1 & _). contradiction.
    + destruct (W x l kk v m dl A0 IF) as [IQ|Z]; [|right; apply sg_call, Z]. destruct (at_called _ _ _ _ _ RE A0) as (tm & IT).
      destruct (kcall_cv_dec c (dt s) o v) as [K|K].
      * destruct (cv_call_q _ _ _ _ _ _ _ RE T1 E K) as [Q|[(-> & Q)|[(-> & Q)|RS]]].
        -- left. apply ctl_qin2; [exact Logic.I | exact NE|]. rewrite Q. exact IQ.
        -- right. eapply sg_now; [left; reflexivity | exact IT].
        -- right. eapply sg_now; [right; reflexivity | exact IT].
        -- exfalso. destruct A0 as (st & SX & _). apply (tidy_now _ _ _ _ _ _ RE T RS x kk (OpCvWait v m dl)); [rewrite SX; apply in_or_app; right; left; reflexivity | left; reflexivity].
      * left. apply ctl_qin2; [exact Logic.I | exact NE|]. destruct (call_queue _ _ _ _ _ _ (QCv v) RE E Logic.I K) as [OT _]. apply OT; assumption.
  - intros x l kk v m dl A IF. destruct (call_at _ _ _ _ _ _ _ _ _ _ _ _ F CU U E X A) as [(-> & -> & -> & OE & SH & NF)|(NE & A0)].
    + destruct (OWN v m dl (eq_sym OE)) as (_ & O1 & _). destruct (O1 _ IF).
    + apply sg_call. eapply R; eassumption.
  - intros x kk v m dl A MD CX. destruct (call_at _ _ _ _ _ _ _ _ _ _ _ _ F CU U E X A) as [(-> & <- & -> & OE & SH & NF)|(NE & A0)].
    + destruct (OWN v m dl (eq_sym OE)) as (_ & _ & O1). destruct (O1 eq_refl) as (e & -> & NE). cbn in X. injection X as <- <-. congruence.
    + exfalso. destruct A0 as (st & SX & _). cbn in SX. destruct (reach_apiq _ RE x kk _ _ SX) as [H|[H|[H _]]]; [exact H | rewrite M in H; exact H | congruence].
Qed.

Lemma cvwait_shape : forall v m dl l, shape (OpCvWait v m dl) l ->
  l = [] \/ l = [FCvUnlocked v m dl] \/ l = FCoyield :: FYfsr :: [FCvUnlocked v m dl] \/ l = FYfsr :: [FCvUnlocked v m dl] \/ l = FCoyield :: [FCvUnlocked v m dl] \/
  l = [FCvWait v m] \/ l = [FPause; FCvWait v m] \/ (exists ret, l = [FCvRelock m ret] \/ l = [FLock m; FCvRelock m ret] \/ l = [FPause; FLock m; FCvRelock m ret]).
Proof.
  intros v m dl l SH. inversion SH; subst; auto; try (match goal with H : yf _ _ |- _ => inversion H; subst end); try (match goal with H : pz _ _ |- _ => inversion H; subst end); auto 20; cbn; eauto 20.
Qed.
Lemma cvs_unl : forall v m dl l, shape (OpCvWait v m dl) l -> In (FCvUnlocked v m dl) l -> ~ In (FCvWait v m) l /\ (forall r, ~ In (FCvRelock m r) l) /\ l <> [].
Proof.
  intros v m dl l SH IN. destruct (cvwait_shape _ _ _ _ SH) as [-> |[-> |[-> |[-> |[-> |[-> |[-> |(ret & [-> |[-> | ->]])]]]]]]]; cbn in IN; try (exfalso; intuition discriminate);
    (split; [intros H; cbn in H; intuition discriminate | split; [intros r H; cbn in H; intuition discriminate | discriminate]]).
Qed.
Lemma cvs_rel : forall v m dl l r, shape (OpCvWait v m dl) l -> In (FCvRelock m r) l -> ~ In (FCvWait v m) l /\ (forall r', In (FCvRelock m r') l -> r' = r) /\ l <> [].
Proof.
  intros v m dl l r SH IN. destruct (cvwait_shape _ _ _ _ SH) as [-> |[-> |[-> |[-> |[-> |[-> |[-> |(ret & [-> |[-> | ->]])]]]]]]]; cbn in IN; try (exfalso; intuition discriminate);
    (split; [intros H; cbn in H; intuition discriminate | split; [|discriminate]]); intros r' H; cbn in H; intuition congruence.
Qed.
Lemma tick_cvi : forall s c v f rest b d fs k sch md, reach s -> cvi s -> mode s = MRet v -> cur (sc s) = Some c -> stk (sc s) c = f :: rest -> lstack (f :: rest) ->
  hret c f v b (now s) (dt s) = (d, fs, k) ->
  exec c k (set_stk (zupd (stk (sc s)) c (fs ++ rest)) (sc s)) = (sch, md) ->
  cvi (mkst sch (ctl_dat c (nextid (sc s) + 1) k d) md (now s) (ncalls s) (tick_tr s c v f d fs k)).
Proof.
  intros s c v f rest b d fs k sch md RE [W R EE] M CU SK L E X. pose proof (reach_full _ RE) as F.
  assert (RLK : forall cv m ret d0 w1 kk dl, at_call s c (f :: w1) kk (OpCvWait cv m dl) -> fs = [] \/ fs = [FCvRelock m ret] \/ fs = [FLock m; FCvRelock m ret] \/ fs = [FPause; FLock m; FCvRelock m ret] ->
            cv_relock c m ret (now s) d0 = (d, fs, k) -> fs = [] -> k = CRet ret).
  { intros cv m ret d0 w1 kk dl _ _ CR FE. unfold cv_relock in CR. destruct (negb _); [injection CR as _ _ <-; reflexivity|]. destruct (mu_trylock _ _ _ _ _ _) as [v1 d1].
    destruct (_ =? _); [|injection CR as _ <- _; discriminate FE]. unfold finish_lock, copause in CR. destruct (_ || _); [|destruct (_ <? _)]; injection CR as _ <- _; discriminate FE. }
  assert (RLF : forall m ret d0, cv_relock c m ret (now s) d0 = (d, fs, k) -> fs = [] \/ fs = [FCvRelock m ret] \/ fs = [FLock m; FCvRelock m ret] \/ fs = [FPause; FLock m; FCvRelock m ret]).
  { intros m ret d0 CR. unfold cv_relock in CR. destruct (negb _); [injection CR as _ <- _; auto|]. destruct (mu_trylock _ _ _ _ _ _) as [v1 d1].
    destruct (_ =? _); [|injection CR as _ <- _; auto]. unfold finish_lock, copause in CR. destruct (_ || _); [|destruct (_ <? _)]; injection CR as _ <- _; auto. }
  assert (WOK : forall cv m kk dl v1 d1, f = FCvWait cv m -> at_call s c [FCvWait cv m] kk (OpCvWait cv m dl) -> checkdl c MAXI (now s) (rmq (NCo c) (set_ncvs (ncvs (dt s) - 1) (dt s))) = (v1, d1) -> v1 = OK -> signalled cv kk (tr s)).
  { intros cv m kk dl v1 d1 -> A CK ->. destruct (W c [FCvWait cv m] kk cv m dl A (or_introl eq_refl)) as [IQ|Z]; [|exact Z]. apply checkdl_ok in CK. destruct CK as [K1 K2]. cbn in K1, K2.
    destruct (reach_awake _ RE c (FCvWait cv m) rest) as [H|[H|[H|H]]]; [rewrite SK; reflexivity | reflexivity | | congruence | congruence |].
    - destruct (cur_notpaused _ _ F CU H).
    - destruct (H IQ). }
  (* what the running coroutine's own call looks like *)
  assert (OWN : forall w1 kk cv m dl, at_call s c (f :: w1) kk (OpCvWait cv m dl) -> shape (OpCvWait cv m dl) (fs ++ w1) -> (forall e, k <> CFinal e) ->
     (In (FCvWait cv m) (fs ++ w1) -> In (NCo c) (q (ctl_dat c (nextid (sc s) + 1) k d) (QCv cv)) \/ signalled cv kk (tr s)) /\
     (In (FCvRelock m OK) (fs ++ w1) -> signalled cv kk (tr s)) /\
     (fs ++ w1 = [] -> md = MRet OK -> signalled cv kk (tr s))).
  { intros w1 kk cv m dl A SH NF. pose proof A as (st & SX & S0). pose proof (cvwait_shape _ _ _ _ S0) as C0.
    destruct C0 as [C0|[C0|[C0|[C0|[C0|[C0|[C0|(ret & [C0|[C0|C0]])]]]]]]]; [discriminate C0 | injection C0 as -> -> ..]; pose proof E as E0; cbn [hret] in E.
    - (* unlocked *) unfold cvwait_unlocked in E. destruct (copause_eff _ _ _ _ _ _ _ E) as (P1 & P2 & _ & _ & P3).
      assert (QN : In (NCo c) (q (ctl_dat c (nextid (sc s) + 1) k d) (QCv cv))).
      { destruct P3 as [(-> & _)|(-> & _)]; cbn [ctl_dat]; rewrite P1; apply (proj2 (In_pushq (QCv cv) (NCo c) (dt s) (QCv cv) (NCo c))); auto. }
      split; [intros _; left; exact QN|]. destruct P3 as [(_ & -> & _)|(_ & ->)]; (split; [intros H; cbn in H; intuition discriminate | discriminate]).
    - destruct (cvs_unl _ _ _ _ SH ltac:(apply in_or_app; right; cbn; auto)) as (H1 & H2 & H3). split; [intros H; contradiction|]. split; [intros H; destruct (H2 _ H) | intros H; contradiction].
    - destruct (cvs_unl _ _ _ _ SH ltac:(apply in_or_app; right; cbn; auto)) as (H1 & H2 & H3). split; [intros H; contradiction|]. split; [intros H; destruct (H2 _ H) | intros H; contradiction].
    - destruct (cvs_unl _ _ _ _ SH ltac:(apply in_or_app; right; cbn; auto)) as (H1 & H2 & H3). split; [intros H; contradiction|]. split; [intros H; destruct (H2 _ H) | intros H; contradiction].
    - rewrite app_nil_r in *. unfold cvwait_end in E. destruct (checkdl _ _ _ _) as [v1 d1] eqn:CK. pose proof (WOK cv m kk dl v1 d1 eq_refl A eq_refl) as WO. pose proof (RLF _ _ _ E) as FF.
      split; [|split].
      + intros H. exfalso. destruct FF as [-> |[-> |[-> | ->]]]; cbn in H; intuition discriminate.
      + intros H. apply WO. destruct FF as [-> |[-> |[-> | ->]]]; cbn in H; intuition congruence.
      + intros H MD. rewrite (RLK cv m v1 d1 [] kk dl A FF E H) in X. cbn in X. injection X as _ X. apply WO. congruence.
    - injection E as <- <- <-. cbn [app] in *. split; [|split; [intros H; cbn in H; intuition discriminate | discriminate]].
      intros _. destruct (W c _ kk cv m dl A ltac:(cbn; auto)) as [IQ|Z]; [left | right; exact Z]. cbn [ctl_dat]. unfold pause_end. destruct (_ <? _); exact IQ.
    - rewrite app_nil_r in *. destruct (Z.eqb_spec v OK) as [->|NV].
      + injection E as <- <- <-. cbn in X. injection X as _ <-. split; [intros []|]. split; [intros []|]. intros _ MD. injection MD as ->. apply (R c _ kk cv m dl A). left; reflexivity.
      + destruct (_ && _).
        * exfalso. destruct (next_hasexf fs k (fun r => coexit_async_next _ _ _ _ _ r E) (tick_noapi _ _ _ _ _ _ _ _ _ _ L E0) NF) as (g & G1 & G2). exact (shape_noexf _ _ _ SH G1 G2).
        * pose proof (RLF _ _ _ E) as FF. split; [|split].
          -- intros H. exfalso. destruct FF as [-> |[-> |[-> | ->]]]; cbn in H; intuition discriminate.
          -- intros H. assert (RO : ret = OK) by (destruct FF as [-> |[-> |[-> | ->]]]; cbn in H; intuition congruence). subst ret. apply (R c _ kk cv m dl A). left; reflexivity.
          -- intros H MD. rewrite (RLK cv m ret _ [] kk dl A FF E H) in X. cbn in X. injection X as _ X. assert (RO : ret = OK) by congruence. subst ret. apply (R c _ kk cv m dl A). left; reflexivity.
    - destruct (cvs_rel _ _ _ _ ret SH ltac:(apply in_or_app; right; cbn; auto)) as (H1 & H2 & H3). split; [intros H; contradiction|]. split; [intros H | intros H; contradiction].
      apply H2 in H. subst ret. apply (R c _ kk cv m dl A). cbn; auto.
    - destruct (cvs_rel _ _ _ _ ret SH ltac:(apply in_or_app; right; cbn; auto)) as (H1 & H2 & H3). split; [intros H; contradiction|]. split; [intros H | intros H; contradiction].
      apply H2 in H. subst ret. apply (R c _ kk cv m dl A). cbn; auto. }
  assert (OT : forall x cv, x <> c -> In (NCo x) (q (dt s) (QCv cv)) -> In (NCo x) (q (ctl_dat c (nextid (sc s) + 1) k d) (QCv cv))).
  { intros x cv NE IN. apply ctl_qin2; [exact Logic.I | exact NE|]. pose proof (tick_others _ _ _ _ _ _ _ _ (QCv cv) RE E Logic.I (kret_cv _ _ _ _)) as Q. apply (others_in _ _ _ _ NE Q). exact IN. }
  constructor; cbn [dt tr mode sc].
  - intros x l kk cv m dl A IF. destruct (tick_at _ _ _ _ _ _ _ _ _ _ _ _ _ _ _ F CU SK L E X A) as [(-> & NF & w1 & -> & SH & A0)|[(-> & _ & _ & D)|(NE & A0)]]; [| discriminate D |].
    + destruct (OWN _ _ _ _ _ A0 SH NF) as (Z & _). destruct (Z IF) as [Z1|Z1]; [left; exact Z1 | right; apply sg_tick, Z1].
    + destruct (W x l kk cv m dl A0 IF) as [IQ|Z]; [left; apply OT; assumption | right; apply sg_tick, Z].
  - intros x l kk cv m dl A IF. apply sg_tick. destruct (tick_at _ _ _ _ _ _ _ _ _ _ _ _ _ _ _ F CU SK L E X A) as [(-> & NF & w1 & -> & SH & A0)|[(-> & _ & _ & D)|(NE & A0)]]; [| discriminate D |].
    + destruct (OWN _ _ _ _ _ A0 SH NF) as (_ & Z & _). exact (Z IF).
    + eapply R; eassumption.
  - intros x kk cv m dl A MD CX. apply sg_tick. destruct (tick_at _ _ _ _ _ _ _ _ _ _ _ _ _ _ _ F CU SK L E X A) as [(-> & NF & w1 & Q & SH & A0)|[(-> & _ & _ & D)|(NE & A0)]]; [| discriminate D |].
    + rewrite Q in SH. destruct (OWN _ _ _ _ _ A0 SH NF) as (_ & _ & Z). exact (Z (eq_sym Q) MD).
    + exfalso. destruct A0 as (st & SX & _). cbn in SX. destruct (reach_apiq _ RE x kk _ _ SX) as [H|[H|[H _]]]; [exact H | rewrite M in H; exact H | congruence].
Qed.
(** a return in the trace is not among entries that are not returns *)
Lemma ret_skip : forall N T l1 l2 k c o v m t, (forall k c o v m t, ~ In (TRet k c o v m t) N) -> N ++ T = l1 ++ TRet k c o v m t :: l2 -> exists l, T = l ++ TRet k c o v m t :: l2.
Proof.
  intros N T l1 l2 k c o v m t NN EQ. destruct (app_eq_app _ _ _ _ EQ) as (l & [[EN EL]|[EN EL]]); [|eauto].
  destruct l as [|z l]; [exists []; symmetry; exact EL|]. injection EL as <- _. exfalso. eapply NN. rewrite EN. apply in_or_app. right; left; reflexivity.
Qed.
Lemma call_noret : forall s c o fs k l1 l2 kk x p v m t, call_tr s c o fs k = l1 ++ TRet kk x p v m t :: l2 -> exists l, tr s = l ++ TRet kk x p v m t :: l2.
Proof.
  intros s c o fs k l1 l2 kk x p v m t EQ. unfold call_tr in EQ. rewrite !app_assoc in EQ. eapply ret_skip; [|exact EQ]. intros k0 c0 o0 v0 m0 t0 H.
  apply in_app_or in H. destruct H as [H|H]; [apply in_app_or in H; destruct H as [H|H]|].
  - eapply ctl_obs_noret; exact H.
  - eapply handler_obs_noret; exact H.
  - eapply call_obs_noret; exact H.
Qed.
Lemma tick_newret : forall s c v f d fs k l1 l2 kk x p r m t, tick_tr s c v f d fs k = l1 ++ TRet kk x p r m t :: l2 ->
  (exists l, tr s = l ++ TRet kk x p r m t :: l2) \/ (l2 = tr s /\ x = c /\ r = v /\ f = FApi kk p).
Proof.
  intros s c v f d fs k l1 l2 kk x p r m t EQ. unfold tick_tr in EQ. rewrite !app_assoc, <- (app_assoc _ _ (tr s)) in EQ.
  apply ret_skip in EQ. 2:{ intros k0 c0 o0 v0 m0 t0 H. apply in_app_or in H. destruct H as [H|H]; [eapply ctl_obs_noret; exact H | eapply handler_obs_noret; exact H]. }
  destruct EQ as (l & EQ). destruct (ret_obs_cases c f v (d, fs, k) s) as [Q|(k2 & o & e & QF & _ & QR)]; [rewrite Q in EQ; left; eauto|]. rewrite QR in EQ.
  destruct l as [|z l]; cbn in EQ; injection EQ as Q1 Q2; [right | left; eauto]. subst l2. repeat split; congruence.
Qed.
Theorem reach_cvi : forall s, reach s -> tidy (tr s) -> (~ over (mode s) -> cvi s) /\ cres s.
Proof.
  apply (rrun_preserves (fun s => tidy (tr s) -> (~ over (mode s) -> cvi s) /\ cres s)).
  - intros s c o d fs k sch md RE I M CU U NR E X T. cbn [tr mode] in *. pose proof (tidy_call _ _ _ _ _ T) as T1. destruct (I T1) as [IC R]. split.
    + intros NU. eapply call_cvi; eauto. apply IC. rewrite M. exact (fun z => z).
    + intros l1 l2 kk c0 v m dl b t EQ. destruct (call_noret _ _ _ _ _ _ _ _ _ _ _ _ _ EQ) as (l & Q). eapply R; exact Q.
  - intros s c v f rest b d fs k sch md RE I M CU SK L E X T. cbn [tr mode] in *. pose proof (tidy_tick _ _ _ _ _ _ _ T) as T1. destruct (I T1) as [IC R]. assert (W : cvi s) by (apply IC; rewrite M; exact (fun z => z)). split.
    + intros _. eapply tick_cvi; eassumption.
    + intros l1 l2 k0 c0 cv m dl b0 t EQ. destruct (tick_newret _ _ _ _ _ _ _ _ _ _ _ _ _ _ _ EQ) as [(l & Q)|(-> & -> & VE & ->)]; [eapply R; exact Q|]. subst v.
      eapply (cv_e _ W); [exists rest; split; [exact SK | constructor] | exact M | exact CU].
  - intros s d ws sch md ios RE I M A K X T. cbn [tr mode] in *. destruct (I T) as [IC R]. split; [|exact R]. intros _. pose proof (mp_main _ _ _ _ _ _ _ K) as MP.
    assert (E3 : forall v, q (rc_step (now s) d) (QCv v) = q (dt s) (QCv v)) by (intros v; apply (mprims_wq _ _ _ MP); exact Logic.I).
    destruct IC as [W RR EE]; [rewrite M; exact (fun z => z)|]. apply sco_switch_frame in X. destruct X as (X1 & _). destruct (wakes_frame ws (sc s)) as (W0 & _).
    assert (AC : forall x l kk o, at_call {| sc := sch; dt := rc_step (now s) d; mode := md; now := now s; ncalls := ncalls s; tr := tr s |} x l kk o -> at_call s x l kk o).
    { intros x l kk o (st & SX & SH). cbn [sc] in SX. rewrite X1, W0 in SX. exists st; auto. }
    constructor; cbn [sc dt tr mode].
    + intros x l kk v m dl A1 IF. rewrite E3. eapply W; eauto.
    + intros x l kk v m dl A1 IF. eapply RR; eauto.
    + intros x kk v m dl A1 MD CX. exfalso. destruct (at_ret _ _ _ _ RE (AC _ _ _ _ A1)) as (_ & r & H); [exact (fun z => z) | rewrite M; exact (fun z => z) | congruence].
  - intros s m RE I HM T. cbn [tr set_mode mode] in *. destruct (I T) as [IC R]. split; [|exact R]. intros NU. destruct IC as [W RR EE].
    { destruct HM as [[_ HM]|[(-> & _)|[(n & ->)| ->]]]; [rewrite HM; exact (fun z => z) | destruct (NU Logic.I) ..]. }
    constructor; [exact W | exact RR|]. intros x kk v m0 dl AC MD CX. cbn [mode set_mode] in MD. subst m.
    destruct HM as [[_ HM]|[(HM & _)|[(n & HM)|HM]]]; try discriminate HM. exfalso. destruct (at_ret s x kk (OpCvWait v m0 dl) RE AC) as (_ & r & H); [exact (fun z => z) | rewrite HM; exact (fun z => z) | congruence].
  - intros s e RE I H M T. pose proof (tidy_env _ _ H T) as T1. destruct (I T1) as [IC R]. split.
    + rewrite M. intros NU. destruct (IC NU) as [W RR EE]. destruct (env_frame s e H) as (E1 & E2 & _).
      assert (AC : forall x l kk o, at_call (step s e) x l kk o -> at_call s x l kk o) by (intros x l kk o (st & SX & SH); rewrite E1 in SX; exists st; auto).
      constructor.
      * intros x l kk v m dl A IF. destruct (W x l kk v m dl (AC _ _ _ _ A) IF) as [IQ|Z]; [left | right; apply sg_env; assumption].
        destruct (env_q s e H) as [->|(c & _ & _ & (w0 & SX0) & ->)]; [exact IQ|]. apply In_pushq. left. split; [exact IQ|]. intros Q. injection Q as ->.
        apply (reach_qloc _ RE) in IQ; [|exact Logic.I]. unfold matched in IQ. cbn [node_co] in IQ. rewrite SX0 in IQ. exact IQ.
      * intros x l kk v m dl A IF. apply sg_env; [exact H|]. eapply RR; [apply AC; exact A | exact IF].
      * intros x kk v m dl A MD CX. apply sg_env; [exact H|]. rewrite M in MD. rewrite E2 in CX. eapply EE; [apply AC; exact A | exact MD | exact CX].
    + intros l1 l2 k c w m dl b t EQ. destruct (env_tr s e H) as [Q|(y & Q)]; rewrite Q in EQ; [eapply R; exact EQ|]. destruct l1 as [|z l1]; [discriminate EQ|]. injection EQ as _ EQ. eapply R; exact EQ.
  - intros g O _. split.
    + intros _. assert (NA : forall x l kk o, ~ at_call (init g) x l kk o).
      { intros x l kk o (st & SX & _). cbn in SX. unfold zupd in SX. destruct (_ =? _); destruct l as [|? [|? ?]]; discriminate SX. }
      constructor; intros; exfalso; eapply NA; eassumption.
    + intros l1 l2 k c w m dl b t EQ. destruct l1 as [|? [|? ?]]; discriminate EQ.
Qed.
