(** A pending cancellation stays until the canceled coroutine reports it. *)
From Coq Require Import List ZArith Bool Lia.
From Verif Require Import AATreeSpec AATreeHist Util Runtime SchedInv StepInv StackShape RuntimeSpec TraceInv Immediate Prims StaticInv Footprint QueueInv OwnInv WaitInv DeadlineInv CallInv SpecInv TraceStep Wake Awake AllInv PausedInv DldInv ResultInv JoinInv TimeoutInv CancelInv CancelRes BlockSpec WorkInv CancelFate.
Import ListNotations.
Local Open Scope Z_scope.

(** ** Code that leaves the pending flags alone *)
Definition ca (d : dat) (x : Z) : bool := canceled (cof d x).
Definition cq (d d' : dat) : Prop := forall x, ca d' x = ca d x.
Lemma cq_refl : forall d, cq d d.
Proof. intros d x. reflexivity. Qed.
Lemma cq_trans : forall a b c, cq a b -> cq b c -> cq a c.
Proof. intros a b c A B x. rewrite B. apply A. Qed.
Ltac cqd := let y := fresh "y" in intros y; unfold ca; cbn; unfold zupd; match goal with |- context [y =? ?r] => destruct (Z.eqb_spec y r); subst; reflexivity end.
Lemma cq_up : forall r f d, (forall z, canceled (f z) = canceled z) -> cq d (upco r f d).
Proof. intros r f d H x. unfold ca. cbn. unfold zupd. destruct (Z.eqb_spec x r); [subst; apply H | reflexivity]. Qed.
Lemma cq_cof : forall d d', cof d' = cof d -> cq d d'.
Proof. intros d d' E x. unfold ca. rewrite E. reflexivity. Qed.
Lemma cq_popq : forall k d n d', popq k d = (n, d') -> cq d d'.
Proof. intros k d n d' E. unfold popq in E. destruct (q d k); inj E; apply cq_cof; reflexivity. Qed.
Lemma cq_deliver : forall ch m n d r d', deliver ch m n d = Some (r, d') -> cq d d'.
Proof. intros ch m n d r d' E. unfold deliver in E. destruct n; [|destruct (negb _); [discriminate E|]]; inj E; [apply cq_up; reflexivity|]. intros y. unfold ca. cbn. unfold zupd. destruct (Z.eqb_spec y r); subst; reflexivity. Qed.
Lemma cq_send_loop : forall ch m n d r d', send_loop ch m n d = (r, d') -> cq d d'.
Proof.
  intros ch m. induction n as [|n IH]; intros d r d' E; cbn in E; [inj E; apply cq_refl|].
  destruct (popq (QChan ch) d) as [[x|] d1] eqn:P; apply cq_popq in P; [|inj E; exact P].
  destruct (deliver ch m x d1) as [[r1 d2]|] eqn:D; [inj E; eapply cq_trans; [exact P | eapply cq_deliver; exact D] | eapply cq_trans; [exact P | eapply IH; exact E]].
Qed.
Lemma cq_resume : forall x d, cq d (sched_resume x d).
Proof. intros. apply cq_cof. reflexivity. Qed.
Lemma cq_bcast_loop : forall ch m n t d r d', bcast_loop ch m n t d = (r, d') -> cq d d'.
Proof.
  intros ch m. induction n as [|n IH]; intros t d r d' E; cbn in E; [inj E; apply cq_refl|].
  destruct (popq (QChan ch) d) as [[x|] d1] eqn:P; apply cq_popq in P; [|inj E; exact P].
  destruct (deliver ch m x d1) as [[r1 d2]|] eqn:D; [|eapply cq_trans; [exact P | eapply IH; exact E]].
  apply IH in E. eapply cq_trans; [exact P|]. eapply cq_trans; [eapply cq_deliver; exact D|]. exact E.
Qed.
Lemma cq_close_loop : forall ch n d, cq d (close_loop ch n d).
Proof.
  intros ch. induction n as [|n IH]; intros d; cbn; [apply cq_refl|].
  destruct (popq (QChan ch) d) as [[[x|x i]|] d1] eqn:P; apply cq_popq in P; [| |exact P].
  - eapply cq_trans; [exact P|]. eapply cq_trans; [|apply IH]. eapply cq_trans; [|apply cq_resume]. apply cq_up; reflexivity.
  - destruct (negb _); [eapply cq_trans; [exact P | apply IH]|]. eapply cq_trans; [exact P|]. eapply cq_trans; [|apply IH]. eapply cq_trans; [|apply cq_resume].
    eapply cq_trans; [apply (cq_up x (fun r => set_cclosed true (set_retidx i r))); reflexivity | apply cq_cof; reflexivity].
Qed.
Lemma cq_resume_all : forall k n d, cq d (resume_all k n d).
Proof.
  intros k. induction n as [|n IH]; intros d; cbn; [apply cq_refl|].
  destruct (popq k d) as [[x|] d1] eqn:P; apply cq_popq in P; [|exact P]. eapply cq_trans; [exact P|]. eapply cq_trans; [apply cq_resume | apply IH].
Qed.
Lemma cq_grant : forall m n d, cq d (grant m n d).
Proof.
  intros m. induction n as [|n IH]; intros d; cbn [grant]; [apply cq_refl|].
  destruct (popq (QMu m) d) as [[x|] d1] eqn:P; apply cq_popq in P; [|exact P]. eapply cq_trans; [exact P|].
  destruct (rlocked _); [|apply cq_resume].
  match goal with |- context [grant m n ?e] => assert (A : cq d1 e) by (apply cq_cof; reflexivity); set (d2 := e) in * end.
  destruct (q d2 (QMu m)); [exact A|]. destruct (rlocked _); [|exact A]. eapply cq_trans; [exact A | apply IH].
Qed.
Lemma cq_push_cases : forall c chs i d, cq d (push_cases c chs i d).
Proof. intros c. induction chs as [|ch chs IH]; intros i d; cbn; [apply cq_refl|]. eapply cq_trans; [|apply IH]. apply cq_cof. reflexivity. Qed.
Lemma cq_cid : forall ch d, cq d (close_if_drained ch d).
Proof. intros. unfold close_if_drained. destruct (_ && _); apply cq_cof; reflexivity. Qed.
Lemma cq_take : forall ch d m s d', take ch d = Some (m, s, d') -> cq d d'.
Proof.
  intros ch d m s d' E. unfold take in E. destruct (buf (chn d ch)) as [|m0 b].
  - destruct (qrecv _); [discriminate E|]. destruct (popq (QChan ch) d) as [[x|] d1] eqn:P; apply cq_popq in P; [|discriminate E]. inj E. eapply cq_trans; [exact P | apply cq_cid].
  - destruct (popq (QChan ch) _) as [[x|] d1] eqn:P; apply cq_popq in P; inj E.
    + eapply cq_trans; [|apply cq_cid]. eapply cq_trans; [|apply cq_cof; reflexivity]. exact P.
    + eapply cq_trans; [|apply cq_cid]. exact P.
Qed.
Lemma cq_copause : forall c dl fs d d' fs' k, copause c dl fs d = (d', fs', k) -> cq d d'.
Proof.
  intros c dl fs d d' fs' k E. unfold copause in E. destruct (_ || _); [inj E; apply cq_refl|]. destruct (_ <? _); inj E; [|apply cq_up; reflexivity].
  eapply cq_trans; [apply (cq_up c (set_deadline dl)); reflexivity | apply cq_cof; reflexivity].
Qed.
Lemma cq_yfsr : forall fs d d' fs' k, yfsr fs d = (d', fs', k) -> cq d d'.
Proof. intros fs d d' fs' k E. unfold yfsr, coyield in E. destruct (_ <? _); inj E; apply cq_refl. Qed.
Lemma cq_close : forall ch d d' fs k, do_close ch d = (d', fs, k) -> cq d d'.
Proof.
  intros ch d d' fs k E. unfold do_close in E. destruct (negb _); [inj E; apply cq_refl|]. destruct (sclosed _); [inj E; apply cq_refl|].
  destruct (_ || _); [inj E; apply cq_cof; reflexivity|]. apply cq_yfsr in E. intros x. rewrite (E x).
  match goal with |- context [close_loop ch ?n ?e] => exact (cq_close_loop ch n e x) end.
Qed.
Lemma cq_rest : forall c a d d' fs k, coexit_rest c a d = (d', fs, k) -> cq d d'.
Proof.
  intros c a d d' fs k E. unfold coexit_rest in E.
  set (d0 := set_allcount (allcount d - 1) (set_all (remove1 c (all d)) d)) in E.
  set (d1 := resume_all (QCancel c) (length (q d0 (QCancel c))) d0) in E.
  set (d2 := resume_all (QJoin c) (length (q d1 (QJoin c))) d1) in E.
  assert (A : cq d d2) by (eapply cq_trans; [|apply cq_resume_all]; eapply cq_trans; [|apply cq_resume_all]; apply cq_cof; reflexivity).
  clearbody d1 d2. destruct (gen (cof d2 c)).
  - destruct (do_close _ _) as [[d3 fs3] k3] eqn:C. inj E. eapply cq_trans; [exact A | eapply cq_close; exact C].
  - destruct (negb _); [apply cq_yfsr in E; eapply cq_trans; eassumption | inj E; exact A].
Qed.
Lemma cq_async : forall c d d' fs k, coexit_async c d = (d', fs, k) -> cq d d'.
Proof. intros c d d' fs k E. unfold coexit_async in E. destruct (cleanups _); [eapply cq_rest; exact E | inj E; apply cq_up; reflexivity]. Qed.
Lemma cq_fastunlock : forall m fs d d' fs' k, fastunlock m fs d = (d', fs', k) -> cq d d'.
Proof.
  intros m fs d d' fs' k E. unfold fastunlock in E. destruct (negb _); [inj E; apply cq_refl|]. cbv zeta in E.
  match type of E with context [if 0 <? ?r then ?a else d] => assert (A : cq d (if 0 <? r then a else d)) by (destruct (0 <? r); apply cq_cof; reflexivity); set (d1 := if 0 <? r then a else d) in * end.
  clearbody d1. destruct (_ && _); [inj E; exact A|]. destruct (emptyq _ _); [inj E; eapply cq_trans; [exact A | apply cq_cof; reflexivity]|].
  apply cq_yfsr in E. eapply cq_trans; [exact A|]. eapply cq_trans; [apply cq_grant | exact E].
Qed.
Lemma cq_check_mu : forall m d v d', check_mu m d = (v, d') -> cq d d'.
Proof. intros m d v d' E. unfold check_mu in E. destruct (_ =? _); [|destruct (negb _)]; inj E; apply cq_cof; reflexivity. Qed.
Lemma cq_check_wg : forall m d v d', check_wg m d = (v, d') -> cq d d'.
Proof. intros m d v d' E. unfold check_wg in E. destruct (_ =? _); [|destruct (negb _)]; inj E; apply cq_cof; reflexivity. Qed.
Lemma cq_check_cv : forall m d v d', check_cv m d = (v, d') -> cq d d'.
Proof. intros m d v d' E. unfold check_cv in E. destruct (_ =? _); [|destruct (negb _)]; inj E; apply cq_cof; reflexivity. Qed.

(** ** The flag of the running coroutine *)
(** it stays, or the code returns NECO_CANCELED, or a condition wait is about to take
    its mutex again *)
Definition cleared (d' : dat) (c : Z) (fs : list frame) (k : ctl) : Prop :=
  ca d' c = true \/ (fs = [] /\ k = CRet ECANCELED) \/ (exists w m r, fs = w ++ [FCvRelock m r] /\ forall a, k <> CFinal a).
Lemma cl_cq : forall d d' c fs k, cq d d' -> ca d c = true -> cleared d' c fs k.
Proof. intros d d' c fs k H C. left. rewrite H. exact C. Qed.
Lemma cq_work : forall c b d d' fs k, work_submit c b d = (d', fs, k) -> cq d d'.
Proof. intros c b d d' fs k E. unfold work_submit in E. destruct b; inj E; apply cq_cof; reflexivity. Qed.
Lemma do_cancel_keeps : forall c id dl nw d d' fs k, do_cancel c id dl nw d = (d', fs, k) -> ca d c = true -> cleared d' c fs k.
Proof.
  intros c id dl nw d d' fs k E C. unfold do_cancel in E. destruct (negb _); [inj E; left; exact C|].
  destruct (checkdl_canceled c dl nw d C) as (e & Q). rewrite Q in E. inj E. right; left. auto.
Qed.
Lemma hcall_keeps : forall c o nw d d' fs k, hcall c o nw d = (d', fs, k) -> ca d c = true -> cleared d' c fs k.
Proof.
  intros c o nw d d' fs k E C.
  assert (CD : forall dl e, cq d e -> exists e', checkdl c dl nw e = (ECANCELED, e')) by (intros dl e A; apply checkdl_canceled; change (ca e c = true); rewrite A; exact C).
  assert (KQ : cq d d' -> cleared d' c fs k) by (intros H; eapply cl_cq; eassumption).
  destruct o; cbn [hcall] in E; try (inj E; left; exact C; fail); try (inj E; apply KQ, cq_cof; reflexivity); try (inj E; apply KQ, cq_up; reflexivity).
  - unfold do_sleep in E. destruct (_ <? _); [inj E; left; exact C|]. apply cq_copause in E. apply KQ, E.
  - eapply do_cancel_keeps; eassumption.
  - unfold do_sigwatch in E. repeat match type of E with context [if ?b then _ else _] => destruct b end; inj E; try (left; exact C).
    apply KQ. cqd.
  - unfold do_sigunwatch in E. repeat match type of E with context [if ?b then _ else _] => destruct b end; inj E; try (left; exact C).
    apply KQ. cqd.
  - unfold do_sigwait in E. unfold ca in C. rewrite C in E. destruct (negb _); [inj E; left; exact C|]. destruct (_ =? _); [inj E; left; exact C|]. inj E. right; left; auto.
  - unfold do_wait in E. destruct (_ && _); [inj E; left; exact C|]. destruct fail; [inj E; left; exact C|]. apply cq_copause in E. apply KQ. eapply cq_trans; [|exact E]. cqd.
  - unfold do_chmake in E. destruct (_ || _); [inj E; left; exact C|]. cbn in E. inj E. apply KQ. cqd.
  - unfold do_send in E. unfold ca in C. rewrite C in E. destruct (negb _); [inj E; left; exact C|]. destruct (sclosed _); [inj E; left; exact C|]. inj E. right; left; auto.
  - unfold do_bcast in E. destruct (negb _); [inj E; left; exact C|]. destruct (sclosed _); [inj E; left; exact C|].
    destruct (bcast_loop _ _ _ _ _) as [t d1] eqn:B. apply cq_bcast_loop in B. apply cq_yfsr in E. apply KQ. eapply cq_trans; eassumption.
  - unfold do_recv in E. unfold ca in C. rewrite C in E. destruct (negb _); [inj E; left; exact C|]. destruct (rclosed _); [inj E; left; exact C|]. inj E. right; left; auto.
  - unfold do_recv in E. unfold ca in C. rewrite C in E. destruct (negb _); [inj E; left; exact C|]. destruct (rclosed _); [inj E; left; exact C|]. inj E. right; left; auto.
  - apply cq_close in E. apply KQ, E.
  - unfold do_select in E. unfold ca in C. rewrite C in E. destruct (negb _); [inj E; left; exact C|]. inj E. right; left; auto.
  - unfold do_select in E. unfold ca in C. rewrite C in E. destruct (negb _); [inj E; left; exact C|]. inj E. right; left; auto.
  - unfold do_case in E. destruct (negb _); [inj E; left; exact C|]. destruct (negb _); [inj E; left; exact C|]. inj E. apply KQ, cq_up. reflexivity.
  - unfold do_genyield in E. destruct (gen _); [|inj E; left; exact C]. unfold do_send in E. unfold ca in C. rewrite C in E. destruct (negb _); [inj E; left; exact C|]. destruct (sclosed _); [inj E; left; exact C|]. inj E. right; left; auto.
  - unfold do_trylock in E. destruct (check_mu m d) as [v d1] eqn:K. apply cq_check_mu in K. destruct (negb _); [inj E; apply KQ, K|].
    unfold mu_trylock in E. cbn in E. destruct (mlocked _); inj E; apply KQ; [exact K|]. eapply cq_trans; [exact K | apply cq_cof; reflexivity].
  - unfold do_trylock in E. destruct (check_mu m d) as [v d1] eqn:K. apply cq_check_mu in K. destruct (negb _); [inj E; apply KQ, K|].
    unfold mu_tryrdlock in E. cbn in E. destruct (_ || _); inj E; apply KQ; [exact K|]. eapply cq_trans; [exact K | apply cq_cof; reflexivity].
  - unfold do_lock in E. destruct (check_mu m d) as [v d1] eqn:K. apply cq_check_mu in K. destruct (negb _); [inj E; apply KQ, K|].
    unfold mu_trylock in E. destruct (CD dl d1 K) as (e & Q). rewrite Q in E. cbn in E. inj E. right; left; auto.
  - unfold do_lock in E. destruct (check_mu m d) as [v d1] eqn:K. apply cq_check_mu in K. destruct (negb _); [inj E; apply KQ, K|].
    unfold mu_tryrdlock in E. destruct (CD dl d1 K) as (e & Q). rewrite Q in E. cbn in E. inj E. right; left; auto.
  - unfold do_unlock in E. destruct (check_mu m d) as [v d1] eqn:K. apply cq_check_mu in K. destruct (negb _); [inj E; apply KQ, K|].
    apply cq_fastunlock in E. apply KQ. eapply cq_trans; eassumption.
  - unfold do_mudestroy in E. destruct (check_mu m d) as [v d1] eqn:K. apply cq_check_mu in K. destruct (negb _); [inj E; apply KQ, K|].
    destruct (mlocked _); inj E; apply KQ; [exact K|]. eapply cq_trans; [exact K | apply cq_cof; reflexivity].
  - unfold do_wgadd in E. destruct (check_wg w d) as [v d1] eqn:K. apply cq_check_wg in K. destruct (negb _); [inj E; apply KQ, K|].
    repeat match type of E with context [if ?b then _ else _] => destruct b end; inj E; apply KQ; exact K.
  - unfold do_wgdone in E. destruct (check_wg w d) as [v d1] eqn:K. apply cq_check_wg in K. destruct (negb _); [inj E; apply KQ, K|].
    destruct (_ =? _); [inj E; apply KQ, K|]. destruct (negb _); [inj E; apply KQ; eapply cq_trans; [exact K | apply cq_cof; reflexivity]|].
    cbn [q upwg set_wgx] in E. destruct (q d1 (QWg w)) as [|n1 [|n2 l]]; [inj E; apply KQ; eapply cq_trans; [exact K | apply cq_cof; reflexivity] | inj E; apply KQ; eapply cq_trans; [exact K | apply cq_cof; reflexivity]|].
    apply cq_yfsr in E. apply KQ. eapply cq_trans; [exact K|]. eapply cq_trans; [|exact E]. eapply cq_trans; [|apply cq_resume_all]. apply cq_cof. reflexivity.
  - unfold do_wgwait in E. destruct (check_wg w d) as [v d1] eqn:K. apply cq_check_wg in K. destruct (negb _); [inj E; apply KQ, K|].
    destruct (CD dl d1 K) as (e & Q). rewrite Q in E. cbn in E. inj E. right; left; auto.
  - destruct (check_wg w d) as [v d1] eqn:K. apply cq_check_wg in K. destruct (negb _); inj E; apply KQ; [exact K|]. eapply cq_trans; [exact K | apply cq_cof; reflexivity].
  - unfold do_cvsignal in E. destruct (check_cv v d) as [e d1] eqn:K. apply cq_check_cv in K. destruct (negb _); [inj E; apply KQ, K|].
    destruct (popq (QCv v) d1) as [[n|] d2] eqn:P; apply cq_popq in P; inj E; apply KQ; eapply cq_trans; eassumption.
  - unfold do_cvbcast in E. destruct (check_cv v d) as [e d1] eqn:K. apply cq_check_cv in K. destruct (negb _); [inj E; apply KQ, K|].
    apply cq_yfsr in E. apply KQ. eapply cq_trans; [exact K|]. eapply cq_trans; [apply cq_resume_all | exact E].
  - unfold do_cvwait in E. destruct (check_cv v d) as [e d1] eqn:K. apply cq_check_cv in K. destruct (negb _); [inj E; apply KQ, K|].
    destruct (check_mu m d1) as [e2 d2] eqn:K2. apply cq_check_mu in K2. pose proof (cq_trans _ _ _ K K2) as K3. destruct (negb _); [inj E; apply KQ, K3|].
    pose proof (K3 c) as H. rewrite C in H. unfold ca in H. rewrite H in E. inj E. right; left; auto.
  - destruct (check_cv v d) as [e d1] eqn:K. apply cq_check_cv in K. destruct (negb _); inj E; apply KQ; [exact K|]. eapply cq_trans; [exact K | apply cq_cof; reflexivity].
  - unfold do_join in E. destruct (negb _); [inj E; left; exact C|]. destruct (CD dl d (cq_refl d)) as (e & Q). rewrite Q in E. cbn in E. inj E. right; left; auto.
  - unfold do_suspend in E. apply cq_copause in E. apply KQ. eapply cq_trans; [|exact E]. cqd.
  - unfold do_resume in E. repeat match type of E with context [if ?b then _ else _] => destruct b end; inj E; left; exact C.
  - unfold do_work in E. apply cq_work in E. apply KQ. eapply cq_trans; [|exact E]. apply cq_cof. reflexivity.
  - unfold do_cleanup_pop in E. destruct (cleanups _); [inj E; left; exact C|]. destruct exec; inj E; apply KQ, cq_up; reflexivity.
  - apply cq_async in E. apply KQ, E.
Qed.
Lemma cq_rmq : forall n d, cq d (rmq n d).
Proof. intros. apply cq_cof. reflexivity. Qed.
Lemma hret_keeps : forall c f v b nw d d' fs k, hret c f v b nw d = (d', fs, k) -> ca d c = true -> cleared d' c fs k.
Proof.
  intros c f v b nw d d' fs k E C. destruct (final_wait f) eqn:FW.
  { destruct (final_ret _ _ _ _ _ _ _ _ _ E FW C) as [(-> & ->)|(m & w & cv & _ & -> & _ & NF)]; [right; left; auto | right; right; eauto 6]. }
  assert (KQ : cq d d' -> cleared d' c fs k) by (intros H; eapply cl_cq; eassumption).
  destruct f; try discriminate FW; cbn [hret] in E; try (inj E; left; exact C); try (inj E; apply KQ, cq_cof; reflexivity); try (inj E; apply KQ, cq_up; reflexivity).
  - apply cq_rest in E. apply KQ, E.
  - destruct (_ && _); [apply cq_async in E; apply KQ, E | inj E; left; exact C].
  - destruct (_ && _); [apply cq_async in E; apply KQ, E | inj E; left; exact C].
  - inj E. apply KQ. unfold pause_end. eapply cq_trans; [|apply (cq_up c (set_deadline 0)); reflexivity]. destruct (_ <? _); apply cq_cof; reflexivity.
  - eapply do_cancel_keeps; [exact E | exact C].
  - unfold cvwait_unlocked in E. apply cq_copause in E. apply KQ. eapply cq_trans; [|exact E]. apply cq_cof. reflexivity.
  - destruct (_ =? _); [inj E; left; exact C|]. destruct (_ && _); [apply cq_async in E; apply KQ, E|].
    destruct (relock_frames _ _ _ _ _ _ _ _ E) as [(-> & ->)|(w & -> & _ & NF)]; [|right; right; eauto 6].
    unfold cv_relock, finish_lock in E. destruct (negb _); [inj E; left; exact C|]. destruct (mu_trylock _ _ _ _ _ _) as [v1 d1]. destruct (_ =? _); [|discriminate E].
    unfold copause in E. destruct (_ || _); discriminate E.
  - apply cq_work in E. apply KQ, E.
  - apply cq_async in E. apply KQ, E.
  - unfold exit_gen in E. destruct sched; [apply cq_yfsr in E | inj E]; apply KQ; [eapply cq_trans; [|exact E]|]; apply cq_up; reflexivity.
Qed.

Lemma spawn_canceled : forall p n g d x, x <> n -> canceled (cof (spawn_dat p n g d) x) = canceled (cof d x).
Proof.
  intros p n g d x N. unfold spawn_dat. destruct (popq QPool d) as [pp d1] eqn:P. apply cq_popq in P. specialize (P x). unfold ca in P.
  destruct pp, g, p; cbn; rewrite ?zupd_neq by exact N; unfold zupd; try match goal with |- context [x =? ?r] => destruct (Z.eqb_spec x r); subst end; exact P.
Qed.
Lemma ctl_canceled : forall c n k d x, x <> n -> canceled (cof (ctl_dat c n k d) x) = canceled (cof d x).
Proof. intros c n k d x N. destruct k; cbn [ctl_dat]; auto. apply spawn_canceled, N. Qed.
(** a pending cancellation of [x], one step *)
Theorem cancel_kept : forall s e x, reach s -> In x (started (tr s)) -> canceled (cof (dt s) x) = true ->
  canceled (cof (dt (step s e)) x) = true \/ (cur (sc (step s e)) = Some x /\ mode (step s e) = MRet ECANCELED) \/
  (exists w m r st, stk (sc (step s e)) x = w ++ FCvRelock m r :: st).
Proof.
  intros s e x RE XS C.
  assert (XN : x <> nextid (sc s) + 1) by (apply (ti_ids _ (reach_tinv _ RE)) in XS; lia).
  assert (EXE : forall c d fs k base sch md nw nc T, cur (sc s) = Some c -> (ca (dt s) c = true -> cleared d c fs k) -> (forall y, y <> c -> canceled (cof (dt s) y) = true -> canceled (cof d y) = true) -> 
    exec c k (set_stk (zupd (stk (sc s)) c (fs ++ base)) (sc s)) = (sch, md) ->
    let z := mkst sch (ctl_dat c (nextid (sc s) + 1) k d) md nw nc T in 
    canceled (cof (dt z) x) = true \/ (cur (sc z) = Some x /\ mode z = MRet ECANCELED) \/ (exists w m r st, stk (sc z) x = w ++ FCvRelock m r :: st)).
  { intros c d fs k base sch md nw nc T CU CL OT X z. unfold z. cbn [dt sc mode]. destruct (Z.eq_dec x c) as [->|NE]; [|left; rewrite ctl_canceled by exact XN; apply OT; assumption].
    destruct (CL C) as [H|[(-> & ->)|(w & m & r & -> & NF)]].
    - left. rewrite ctl_canceled by exact XN. exact H.
    - cbn [exec] in X. inj X. right; left. cbn. auto.
    - destruct (exec_stk_cases _ _ _ _ _ X (cur_notfresh _ _ (reach_full _ RE) CU) c) as [[_ Q]|[(NE & _)|(NE & _)]]; [|congruence|congruence].
      right; right. exists w, m, r, base. rewrite Q. cbn [stk set_stk]. rewrite zupd_eq, <- app_assoc. destruct k; try reflexivity. destruct (NF _ eq_refl). }
  apply (gstep_preserves (fun z => full z /\ z = s) (fun z => canceled (cof (dt z) x) = true \/ (cur (sc z) = Some x /\ mode z = MRet ECANCELED) \/
    (exists w m r st, stk (sc z) x = w ++ FCvRelock m r :: st))); try (intros z [F _]; exact F); auto; [| | | | |split; [apply reach_full, RE | reflexivity]].
  - intros z c o d fs k sch md [_ ->] _ M CU U NR E X. eapply EXE; [exact CU | | |exact X].
    + intros CC. eapply hcall_keeps; eassumption.
    + intros y NE CY. destruct (canceled (cof d y)) eqn:Q; [reflexivity|]. exfalso. apply NE. eapply prims_canceled; [eapply hcall_prims; exact E | exact CY | exact Q].
  - intros z c v f rest b d fs k sch md [_ ->] _ M CU SK L E X. eapply EXE; [exact CU | | |exact X].
    + intros CC. eapply hret_keeps; eassumption.
    + intros y NE CY. destruct (canceled (cof d y)) eqn:Q; [reflexivity|]. exfalso. apply NE. eapply prims_canceled; [eapply hret_prims; exact E | exact CY | exact Q].
  - intros z d ws sch md ios [_ ->] _ M A K X. left. pose proof (mprims_flags _ _ x (mp_main _ _ _ _ _ _ _ K)) as H. cbn [dt set_sc set_dt]. intuition congruence.
  - intros z m [_ ->] _ _. left. exact C.
  - intros z e0 [_ ->] _ H _. left. rewrite (env_cof s e0 H). exact C.
Qed.
