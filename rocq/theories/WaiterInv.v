(** No waiter is lost: a coroutine blocked on a queue is still in that queue, or
    has been put on the list of coroutines that the next scheduler pass wakes -
    provided no mutex, wait group or condition variable is initialised or destroyed
    while somebody is using it. *)
From Coq Require Import List ZArith Bool Lia.
From Verif Require Import AATreeSpec AATreeHist Util Runtime SchedInv StepInv StackShape RuntimeSpec TraceInv Immediate Prims StaticInv Footprint QueueInv OwnInv WaitInv CallInv SpecInv TraceStep Wake Awake AllInv JoinInv.
Import ListNotations.
Local Open Scope Z_scope.

(** calls that (re-)initialise or destroy an object, by its waiting queue *)
Definition resets (o : op) (k : qid) : Prop :=
  match o with
  | OpMuInit m | OpMuDestroy m => k = QMu m
  | OpWgInit w | OpWgDestroy w => k = QWg w
  | OpCvInit v | OpCvDestroy v => k = QCv v
  | _ => False
  end.
(** calls during which the caller may be blocked on an object *)
Definition uses (o : op) (k : qid) : Prop :=
  match o with
  | OpLock m _ | OpRdLock m _ => k = QMu m
  | OpWgWait w _ => k = QWg w
  | OpCvWait v m _ => k = QCv v \/ k = QMu m
  | _ => False
  end.
(** no object is initialised or destroyed while a call is using it *)
Definition tidy (t : list obs) : Prop :=
  forall l1 l2 k c o tm kk, t = l1 ++ TCall k c o tm :: l2 -> resets o kk ->
  forall k' c' o' tm', In (TCall k' c' o' tm') l2 -> uses o' kk -> returned k' l2.

Lemma tidy_app : forall l t, tidy (l ++ t) -> tidy t.
Proof. intros l t T l1 l2 k c o tm kk E. eapply (T (l ++ l1)). rewrite <- app_assoc, E. reflexivity. Qed.
Lemma tidy_call : forall s c o fs k, tidy (call_tr s c o fs k) -> tidy (tr s).
Proof. intros s c o fs k T. unfold call_tr in T. apply tidy_app in T. apply tidy_app in T. eapply tidy_app; exact T. Qed.
Lemma tidy_tick : forall s c v f d fs k, tidy (tick_tr s c v f d fs k) -> tidy (tr s).
Proof. intros s c v f d fs k T. unfold tick_tr in T. apply tidy_app in T. apply tidy_app in T. eapply tidy_app; exact T. Qed.
Lemma tidy_env : forall s e, match e with ECall _ | ETick _ | EMain _ => False | _ => True end -> tidy (tr (step s e)) -> tidy (tr s).
Proof. intros s e H T. destruct (env_tr s e H) as [Q|(y & Q)]; rewrite Q in T; [exact T|]. apply (tidy_app [TWorkDone (fst y) (snd y)]). exact T. Qed.
(** at such a call, nobody is using the object *)
Lemma tidy_now : forall s c o fs k kk, reach s -> tidy (call_tr s c o fs k) -> resets o kk ->
  forall x k' o', In (FApi k' o') (stk (sc s) x) -> ~ uses o' kk.
Proof.
  intros s c o fs k kk RE T RS x k' o' IN U. destruct (ci_open _ (reach_cinv _ RE) _ _ _ IN) as (t & IT & _).
  apply (ci_pend _ (reach_cinv _ RE) _ _ _ IN).
  assert (Q : exists l1, call_tr s c o fs k = l1 ++ TCall (ncalls s) c o (now s) :: tr s).
  { unfold call_tr, call_obs. destruct o; try destruct RS; rewrite ?app_assoc; eexists; rewrite <- app_assoc; reflexivity. }
  destruct Q as (l1 & Q). eapply (T l1 (tr s)); [exact Q | exact RS | exact IT | exact U].
Qed.

(** ** The runtime field of an object is not zero while it is used *)
Definition objrt (d : dat) (k : qid) : Z :=
  match k with QMu m => mrt (mux d m) | QWg w => wrt (wgx d w) | QCv v => cvx d v | _ => 1 end.
Definition stopf (f : frame) : bool :=
  match f with FApi _ _ | FEntry | FHandler | FExitLoop | FExitGen _ _ | FExitFin _ => true | _ => false end.
Fixpoint seg (st : list frame) : list frame :=
  match st with [] => [] | f :: r => if stopf f then [] else f :: seg r end.
Definition fobj (f : frame) (k : qid) : Prop :=
  match f with
  | FCvUnlocked v m _ | FCvWait v m => k = QCv v \/ k = QMu m
  | FCvRelock m _ | FLock m => k = QMu m
  | FWgWait w => k = QWg w
  | _ => False
  end.
Definition objn (s : state) : Prop := forall x f k, In f (seg (stk (sc s) x)) -> fobj f k -> objrt (dt s) k <> 0.

Lemma seg_app : forall a b f, In f (seg (a ++ b)) -> In f a \/ (In f (seg b) /\ forall g, In g a -> stopf g = false).
Proof.
  induction a as [|h a IH]; intros b f I; cbn in I; [right; split; [exact I | intros g []]|].
  destruct (stopf h) eqn:S; [destruct I|]. destruct I as [<-|I]; [left; left; reflexivity|].
  destruct (IH b f I) as [J|[J K]]; [left; right; exact J | right; split; [exact J|]]. intros g [<-|G]; auto.
Qed.
Lemma seg_ustack : forall st, ustack st -> seg st = [].
Proof. intros st U. inversion U; reflexivity. Qed.
Lemma shape_fobj : forall o w f k, shape o w -> In f w -> fobj f k -> uses o k.
Proof.
  intros o w f k S I F. inversion S; subst; try (match goal with H : pz _ _ |- _ => inversion H; subst; clear H end);
    try (match goal with H : yf _ _ |- _ => inversion H; subst; clear H end); cbn in I; intuition (subst; cbn in *; intuition (subst; auto)).
Qed.
Lemma exit_nofobj : forall w f k, exit_shape w -> In f w -> ~ fobj f k.
Proof.
  intros w f k E I F. inversion E; subst; try (match goal with H : yf _ _ |- _ => inversion H; subst; clear H end); cbn in I;
    intuition (subst; cbn in *; auto).
Qed.
Lemma seg_host : forall st f k, lstack st -> In f (seg st) -> fobj f k -> exists j o, In (FApi j o) st /\ uses o k.
Proof.
  intros st f k L I F. inversion L as [s0 U|j o w s0 U SH|w s0 ES]; subst.
  - rewrite seg_ustack in I by exact U. destruct I.
  - exists j, o. split; [apply in_or_app; right; left; reflexivity|]. apply seg_app in I. destruct I as [I|[[] _]]. eapply shape_fobj; eauto.
  - apply seg_app in I. destruct I as [I|[_ N]]; [exfalso; eapply exit_nofobj; eauto|]. exfalso.
    assert (X : exists g, In g w /\ stopf g = true).
    { inversion ES as [a s w0 Y|a s|a w0 Y]; subst.
      - exists (FExitGen a s). split; [apply in_or_app; right; left; reflexivity | reflexivity].
      - exists (FExitGen a s). split; [left; reflexivity | reflexivity].
      - exists (FExitFin a). split; [inversion Y; subst; cbn; auto | reflexivity]. }
    destruct X as (g & IG & S). rewrite N in S by exact IG. discriminate.
Qed.

(** updates that keep waiters and keep objects initialised *)
Definition kp (x : Z) (d d' : dat) : Prop :=
  (forall kk, In (NCo x) (q d kk) -> In (NCo x) (q d' kk) \/ In (NCo x) (q d' QRes)) /\
  (forall kk, objrt d kk <> 0 -> objrt d' kk <> 0) /\ rtid d' = rtid d.
Lemma kp_refl : forall x d, kp x d d. Proof. intros x d. split; [auto | split; auto]. Qed.
Lemma kp_trans : forall x a b c, kp x a b -> kp x b c -> kp x a c.
Proof.
  intros x a b c (A1 & A2 & A3) (B1 & B2 & B3). split; [|split; [auto | congruence]].
  intros kk I. destruct (A1 kk I) as [J|J]; [apply B1, J|]. destruct (B1 QRes J); auto.
Qed.
Lemma kp_same : forall x d d', q d' = q d -> mux d' = mux d -> wgx d' = wgx d -> cvx d' = cvx d -> rtid d' = rtid d -> kp x d d'.
Proof.
  intros x d d' E1 E2 E3 E4 E5. split; [|split; [|exact E5]].
  - intros kk I. left. rewrite E1. exact I.
  - intros kk. unfold objrt. destruct kk; rewrite ?E2, ?E3, ?E4; auto.
Qed.
Lemma kp_rmq : forall x n d, n <> NCo x -> kp x d (rmq n d).
Proof.
  intros x n d N. split; [|split; [|reflexivity]].
  - intros kk I. left. apply In_rmq. split; [exact I | congruence].
  - intros kk H. destruct kk; exact H.
Qed.
Lemma kp_push : forall x k n d, n <> NCo x -> kp x d (pushq k n d).
Proof.
  intros x k n d N. split; [|split; [|reflexivity]].
  - intros kk I. left. apply In_pushq. left. split; [exact I | congruence].
  - intros kk H. destruct kk; exact H.
Qed.
Lemma kp_resume : forall x r d, kp x d (sched_resume r d).
Proof.
  intros x r d. split; [|split; [|reflexivity]].
  - intros kk I. destruct (Z.eq_dec r x) as [->|N]; [right; apply In_sched_resume; auto|].
    left. apply In_sched_resume. left. split; [exact I | congruence].
  - intros kk H. destruct kk; exact H.
Qed.
(** taking the first waiter and putting it on the list *)
Lemma kp_pop_resume : forall x k n l d, q d k = n :: l -> kp x d (sched_resume (node_co n) (set_q (qupd (q d) k l) d)).
Proof.
  intros x k n l d E. split; [|split; [|reflexivity]].
  - intros kk I. destruct (Z.eq_dec (node_co n) x) as [->|N]; [right; apply In_sched_resume; auto|].
    left. apply In_sched_resume. left. split; [|congruence]. cbn. unfold qupd. destruct (qid_eqb_spec kk k) as [->|]; [|exact I].
    rewrite E in I. destruct I as [->|I]; [destruct N; reflexivity | exact I].
  - intros kk H. destruct kk; exact H.
Qed.
Lemma kp_mu : forall x m f d, (mrt (f (mux d m)) = mrt (mux d m)) -> kp x d (upmu m f d).
Proof.
  intros x m f d E. split; [auto|]. split; [|reflexivity]. intros kk H. destruct kk; try exact H. cbn in *. unfold nupd.
  destruct (Nat.eqb_spec m0 m) as [->|]; [rewrite E|]; exact H.
Qed.
Lemma kp_wg : forall x m f d, (wrt (f (wgx d m)) = wrt (wgx d m)) -> kp x d (upwg m f d).
Proof.
  intros x m f d E. split; [auto|]. split; [|reflexivity]. intros kk H. destruct kk; try exact H. cbn in *. unfold nupd.
  destruct (Nat.eqb_spec w m) as [->|]; [rewrite E|]; exact H.
Qed.
Lemma kp_grant : forall x m n d, kp x d (grant m n d).
Proof.
  intros x m n. induction n as [|n IH]; intros d; cbn [grant]; [apply kp_refl|]. unfold popq. destruct (q d (QMu m)) as [|y l] eqn:Q; [apply kp_refl|].
  assert (P := kp_pop_resume x (QMu m) y l d Q). cbv zeta. destruct (rlocked _); [|exact P].
  assert (P2 : kp x d (upmu m (fun r => set_mrl (mrl r + 1) r) (sched_resume (node_co y) (set_q (qupd (q d) (QMu m) l) d)))).
  { eapply kp_trans; [exact P|]. apply kp_mu. reflexivity. }
  match goal with |- context [match ?z with [] => _ | _ => _ end] => destruct z as [|n2 l2] end; [exact P2|]. destruct (rlocked _); [|exact P2]. eapply kp_trans; [exact P2 | apply IH].
Qed.
Lemma kp_resume_all : forall x k n d, kp x d (resume_all k n d).
Proof.
  intros x k n. induction n as [|n IH]; intros d; cbn [resume_all]; [apply kp_refl|]. unfold popq. destruct (q d k) as [|y l] eqn:Q; [apply kp_refl|].
  eapply kp_trans; [apply (kp_pop_resume x k y l d Q) | apply IH].
Qed.
Lemma kp_checkdl : forall x c dl nw d v d', checkdl c dl nw d = (v, d') -> kp x d d'.
Proof. intros x c dl nw d v d' E. destruct (checkdl_cases _ _ _ _ _ _ E) as [(-> & _)| ->]; [apply kp_refl | apply kp_same; reflexivity]. Qed.
Lemma kp_copause : forall x c dl fs d d' fs' k, copause c dl fs d = (d', fs', k) -> kp x d d'.
Proof.
  intros x c dl fs d d' fs' k E. apply copause_fs in E. destruct E as [(_ & _ & -> & _)|(_ & _ & _ & _ & ->)]; [apply kp_refl|].
  cbv zeta. destruct (_ <? _); apply kp_same; reflexivity.
Qed.
Lemma kp_yfsr : forall x fs d d' fs' k, yfsr fs d = (d', fs', k) -> kp x d d'.
Proof. intros x fs d d' fs' k E. unfold yfsr, coyield in E. destruct (_ <? _); inj E; apply kp_refl. Qed.
(** first use of an object *)
Definition objz (d : dat) : Prop := forall k, objrt d k = 0 -> q d k = [].
Lemma kp_check_mu : forall x m d v d', objz d -> 0 < rtid d -> check_mu m d = (v, d') -> kp x d d' /\ (v = OK -> objrt d' (QMu m) <> 0) /\ objz d'.
Proof.
  intros x m d v d' Z0 R E. unfold check_mu in E. destruct (Z.eqb_spec (mrt (mux d m)) 0) as [E0|N].
  - inj E. specialize (Z0 (QMu m) E0) as EM. unfold mu_init. cbv zeta. split; [|split].
    + split; [|split; [|reflexivity]].
      * intros kk I. left. cbn. unfold qupd. destruct (qid_eqb_spec kk (QMu m)) as [->|]; [rewrite EM in I; destruct I | exact I].
      * intros kk H. destruct kk; try exact H. cbn in *. unfold nupd. destruct (m0 =? m)%nat; [cbn; lia | exact H].
    + intros _. cbn. unfold nupd. rewrite Nat.eqb_refl. cbn. lia.
    + intros kk H. cbn. unfold qupd. destruct (qid_eqb_spec kk (QMu m)) as [->|NK]; [reflexivity|]. apply Z0. destruct kk; try exact H.
      cbn in *. unfold nupd in H. destruct (Nat.eqb_spec m0 m); [congruence | exact H].
  - destruct (negb _); inj E; (split; [apply kp_refl|]; split; [intros _; exact N | exact Z0]).
Qed.
Lemma kp_check_wg : forall x m d v d', objz d -> 0 < rtid d -> check_wg m d = (v, d') -> kp x d d' /\ (v = OK -> objrt d' (QWg m) <> 0) /\ objz d'.
Proof.
  intros x m d v d' Z0 R E. unfold check_wg in E. destruct (Z.eqb_spec (wrt (wgx d m)) 0) as [E0|N].
  - inj E. specialize (Z0 (QWg m) E0) as EM. unfold wg_init. cbv zeta. split; [|split].
    + split; [|split; [|reflexivity]].
      * intros kk I. left. cbn. unfold qupd. destruct (qid_eqb_spec kk (QWg m)) as [->|]; [rewrite EM in I; destruct I | exact I].
      * intros kk H. destruct kk; try exact H. cbn in *. unfold nupd. destruct (_ =? m)%nat; [cbn; lia | exact H].
    + intros _. cbn. unfold nupd. rewrite Nat.eqb_refl. cbn. lia.
    + intros kk H. cbn. unfold qupd. destruct (qid_eqb_spec kk (QWg m)) as [->|NK]; [reflexivity|]. apply Z0. destruct kk; try exact H.
      cbn in *. unfold nupd in H. destruct (Nat.eqb_spec w m); [congruence | exact H].
  - destruct (negb _); inj E; (split; [apply kp_refl|]; split; [intros _; exact N | exact Z0]).
Qed.
Lemma kp_check_cv : forall x m d v d', objz d -> 0 < rtid d -> check_cv m d = (v, d') -> kp x d d' /\ (v = OK -> objrt d' (QCv m) <> 0) /\ objz d'.
Proof.
  intros x m d v d' Z0 R E. unfold check_cv in E. destruct (Z.eqb_spec (cvx d m) 0) as [E0|N].
  - inj E. specialize (Z0 (QCv m) E0) as EM. unfold cv_init. cbv zeta. split; [|split].
    + split; [|split; [|reflexivity]].
      * intros kk I. left. cbn. unfold qupd. destruct (qid_eqb_spec kk (QCv m)) as [->|]; [rewrite EM in I; destruct I | exact I].
      * intros kk H. destruct kk; try exact H. cbn in *. unfold nupd. destruct (_ =? m)%nat; [cbn; lia | exact H].
    + intros _. cbn. unfold nupd. rewrite Nat.eqb_refl. cbn. lia.
    + intros kk H. cbn. unfold qupd. destruct (qid_eqb_spec kk (QCv m)) as [->|NK]; [reflexivity|]. apply Z0. destruct kk; try exact H.
      cbn in *. unfold nupd in H. destruct (Nat.eqb_spec v m); [congruence | exact H].
  - destruct (negb _); inj E; (split; [apply kp_refl|]; split; [intros _; exact N | exact Z0]).
Qed.
Lemma kp_trylock : forall x c m t dl nw d v d', mu_trylock c m t dl nw d = (v, d') -> kp x d d'.
Proof.
  intros x c m t dl nw d v d' E. unfold mu_trylock in E.
  assert (G : forall v0 d0, kp x d d0 -> (if negb (v0 =? OK) then (v0, d0) else if mlocked (mux d0 m) then (EBUSY, d0) else (OK, upmu m (set_mlocked true) d0)) = (v, d') -> kp x d d').
  { intros v0 d0 K E0. destruct (negb _); [inj E0; exact K|]. destruct (mlocked _); inj E0; [exact K|]. eapply kp_trans; [exact K | apply kp_mu; reflexivity]. }
  destruct t; [apply (G OK d); [apply kp_refl | exact E]|]. destruct (checkdl c dl nw d) as [v1 d1] eqn:C. eapply G; [eapply kp_checkdl; exact C | exact E].
Qed.
Lemma kp_tryrdlock : forall x c m t dl nw d v d', mu_tryrdlock c m t dl nw d = (v, d') -> kp x d d'.
Proof.
  intros x c m t dl nw d v d' E. unfold mu_tryrdlock in E.
  assert (G : forall v0 d0, kp x d d0 -> (if negb (v0 =? OK) then (v0, d0) else if negb (emptyq (QMu m) d0) || ((mrl (mux d0 m) =? 0) && mlocked (mux d0 m)) then (EBUSY, d0) else (OK, upmu m (fun x => set_mlocked true (set_mrl (mrl x + 1) x)) d0)) = (v, d') -> kp x d d').
  { intros v0 d0 K E0. destruct (negb (v0 =? OK)); [inj E0; exact K|]. destruct (_ || _); inj E0; [exact K|]. eapply kp_trans; [exact K | apply kp_mu; reflexivity]. }
  destruct t; [apply (G OK d); [apply kp_refl | exact E]|]. destruct (checkdl c dl nw d) as [v1 d1] eqn:C. eapply G; [eapply kp_checkdl; exact C | exact E].
Qed.
Lemma kp_finish_lock : forall x c m rl dl fs d d' fs' k, x <> c -> finish_lock c m rl dl fs d = (d', fs', k) -> kp x d d'.
Proof.
  intros x c m rl dl fs d d' fs' k N E. unfold finish_lock in E. apply (kp_copause x) in E. eapply kp_trans; [|exact E].
  eapply kp_trans; [|apply kp_same; reflexivity]. eapply kp_trans; [|apply kp_push; congruence]. apply kp_same; reflexivity.
Qed.
Lemma kp_fastunlock : forall x m fs d d' fs' k, fastunlock m fs d = (d', fs', k) -> kp x d d'.
Proof.
  intros x m fs d d' fs' k E. unfold fastunlock in E. destruct (negb _); [inj E; apply kp_refl|]. cbv zeta in E.
  set (d1 := if 0 <? mrl (mux d m) then upmu m (set_mrl (mrl (mux d m) - 1)) d else d) in *.
  assert (K : kp x d d1) by (unfold d1; destruct (_ <? _); [apply kp_mu; reflexivity | apply kp_refl]).
  destruct (_ && _); [inj E; exact K|]. destruct (emptyq _ _); [inj E; eapply kp_trans; [exact K | apply kp_mu; reflexivity]|].
  apply (kp_yfsr x) in E. eapply kp_trans; [exact K|]. eapply kp_trans; [apply kp_grant | exact E].
Qed.
Lemma kp_cv_relock : forall x c m ret nw d d' fs k, x <> c -> cv_relock c m ret nw d = (d', fs, k) -> kp x d d'.
Proof.
  intros x c m ret nw d d' fs k N E. unfold cv_relock in E. destruct (negb _); [inj E; apply kp_mu; reflexivity|].
  destruct (mu_trylock c m false MAXI nw d) as [v d1] eqn:T. apply (kp_trylock x) in T. destruct (_ =? _); [|inj E; exact T].
  eapply kp_trans; [exact T | eapply kp_finish_lock; eauto].
Qed.

(** handlers that touch no object *)
Lemma fps_keep2 : forall c KP KW d R P d', fps c KP KW d R P d' -> forall x k, x <> c -> ~ (objq k /\ KP k) ->
  In (NCo x) (q d k) -> In (NCo x) (q d' k) \/ In (NCo x) (q d' QRes) \/ In x P.
Proof.
  intros c KP KW d R P d' F x k N. induction F; intros NO I0; try (specialize (IHF NO I0)); auto.
  - apply fps_core_q in H. destruct H as (H & _). rewrite H. exact IHF.
  - destruct IHF as [J|[J|J]]; [left | right; left | auto]; (apply In_rmq; split; [exact J|]; intros <-; cbn in H; congruence).
  - destruct IHF as [J|[J|J]]; [left | right; left | auto]; (apply In_pushq; left; split; [exact J|]; intros <-; cbn in H; congruence).
  - destruct IHF as [J|[J|J]].
    + cbn. unfold qupd. destruct (qid_eqb_spec k k0) as [->|]; [|auto]. rewrite H1 in J. destruct J as [->|J]; [|auto]. right; right. left. reflexivity.
    + right; left. cbn. unfold qupd. destruct (qid_eqb_spec QRes k0) as [<-|]; [destruct H0 | exact J].
    + right; right. apply in_or_app. auto.
  - destruct (Z.eq_dec r x) as [->|NR]; [right; left; apply In_sched_resume; auto|].
    destruct IHF as [J|[J|J]]; [left; apply In_sched_resume; left; split; [exact J | congruence] | right; left; apply In_sched_resume; left; split; [exact J | congruence]|].
    right; right. apply rmz_In. auto.
  - destruct IHF as [J|[J|J]]; auto; cbn; unfold qupd.
    + destruct (qid_eqb_spec k k0) as [->|]; [tauto | subst; auto].
    + destruct (qid_eqb_spec QRes k0) as [<-|]; [destruct H0 | subst; auto].
  - destruct IHF as [J|[J|J]]; auto.
Qed.
Lemma fps_objrt : forall c KP KW d R P d', fps c KP KW d R P d' -> forall k, ~ (objq k /\ KP k) -> objrt d' k = objrt d k.
Proof.
  intros c KP KW d R P d' F k NO. assert (NK : objq k -> ~ KP k) by tauto. clear NO. induction F; auto; rewrite <- IHF; try (destruct k; reflexivity).
  - apply fps_core_q in H. destruct H as (_ & _ & _ & H1 & H2 & H3 & _). destruct k; cbn; rewrite ?H1, ?H2, ?H3; reflexivity.
  - destruct k; try reflexivity. cbn. unfold nupd. destruct (Nat.eqb_spec m0 m) as [->|]; [destruct NK; [exact I | assumption] | reflexivity].
  - destruct k; try reflexivity. cbn. unfold nupd. destruct (Nat.eqb_spec w0 w) as [->|]; [destruct NK; [exact I | assumption] | reflexivity].
  - destruct k; try reflexivity. cbn. unfold nupd. destruct (Nat.eqb_spec v0 v) as [->|]; [destruct NK; [exact I | assumption] | reflexivity].
Qed.

Definition keepw (x : Z) (d d' : dat) (k : ctl) (X : qid -> Prop) : Prop :=
  (forall kk, ~ X kk -> In (NCo x) (q d kk) -> In (NCo x) (q d' kk) \/ In (NCo x) (q d' QRes) \/ k = CResume x) /\
  (forall kk, ~ X kk -> objrt d kk <> 0 -> objrt d' kk <> 0).
Lemma kp_keepw : forall x d d' k X, kp x d d' -> keepw x d d' k X.
Proof. intros x d d' k X (A & B & _). split; [|auto]. intros kk _ I. destruct (A kk I); auto. Qed.
Lemma kp_keepw_trans : forall x d d1 d' k X, ~ X QRes -> kp x d d1 -> keepw x d1 d' k X -> keepw x d d' k X.
Proof.
  intros x d d1 d' k X HX (A & B & _) (C & D). split; [|auto]. intros kk NX I. destruct (A kk I) as [J|J]; [auto|].
  destruct (C QRes HX J) as [K|[K|K]]; auto.
Qed.
(** a waiter taken out and resumed directly *)
Lemma keepw_pop : forall x k n l d X, q d k = n :: l -> keepw x d (set_q (qupd (q d) k l) d) (CResume (node_co n)) X.
Proof.
  intros x k n l d X E. split.
  - intros kk _ I. cbn. unfold qupd. destruct (qid_eqb_spec kk k) as [->|]; [|auto]. rewrite E in I.
    destruct I as [->|I]; [right; right; reflexivity | auto].
  - intros kk _ H. destruct kk; exact H.
Qed.
(** an object that is set up or taken down *)
Lemma keepw_reset : forall x d d' k kk0, (forall kk, kk <> kk0 -> q d' kk = q d kk) -> (forall kk, kk <> kk0 -> objrt d' kk = objrt d kk) ->
  keepw x d d' k (fun kk => kk = kk0).
Proof. intros x d d' k kk0 A B. split; intros kk N H; [left; rewrite A by exact N; exact H | rewrite B by exact N; exact H]. Qed.

Definition objop (o : op) : bool :=
  match o with
  | OpMuInit _ | OpTryLock _ | OpTryRdLock _ | OpLock _ _ | OpRdLock _ _ | OpUnlock _ | OpMuDestroy _
  | OpWgInit _ | OpWgAdd _ _ | OpWgDone _ | OpWgWait _ _ | OpWgDestroy _
  | OpCvInit _ | OpCvSignal _ | OpCvBcast _ | OpCvDestroy _ | OpCvWait _ _ _ => true
  | _ => false
  end.
Lemma nres : forall o, ~ resets o QRes. Proof. intros o. destruct o; cbn; congruence. Qed.

Ltac rst := intros kk N; destruct kk; cbn in *; unfold qupd, nupd; try reflexivity;
  repeat match goal with |- context [qid_eqb ?a ?b] => destruct (qid_eqb_spec a b) | |- context [(?a =? ?b)%nat] => destruct (Nat.eqb_spec a b) end; try reflexivity; congruence.
Lemma hcall_keepw : forall c o nw d d' fs k x, objz d -> 0 < rtid d -> x <> c -> hcall c o nw d = (d', fs, k) ->
  keepw x d d' k (resets o) /\ (forall kk, uses o kk -> fs <> [] -> objrt d' kk <> 0).
Proof.
  intros c o nw d d' fs k x OZ RT NE E. destruct (objop o) eqn:OB.
  2:{ split.
      - destruct (hcall_fp _ _ _ _ _ _ _ 0%nat [] E) as (R & P & FP & _ & HP).
        assert (NO : forall kk, ~ (objq kk /\ kcall c d o kk)).
        { intros kk [A B]. destruct o; try discriminate OB; cbn in B; try contradiction; try (subst; destruct A);
            try (destruct B as (? & _ & ->); destruct A); try (destruct B as [->|[->|(? & _ & ->)]]; destruct A). }
        split.
        + intros kk _ I. destruct (fps_keep2 _ _ _ _ _ _ _ FP x kk NE (NO kk) I) as [J|[J|J]]; auto.
        + intros kk _ H. rewrite (fps_objrt _ _ _ _ _ _ _ FP kk (NO kk)). exact H.
      - intros kk U. destruct o; try discriminate OB; destruct U. }
  destruct o; try discriminate OB; cbn [hcall resets uses] in *.
  - inj E. split; [|intros ? []]. apply keepw_reset; rst.
  - split; [|intros ? []]. unfold do_trylock in E. destruct (check_mu m d) as [v d1] eqn:C. apply (kp_check_mu x) in C; auto. destruct C as (C & _).
    apply kp_keepw. destruct (negb _); [inj E; exact C|]. destruct (mu_trylock _ _ _ _ _ _) as [v2 d2] eqn:T. apply (kp_trylock x) in T. inj E. eapply kp_trans; eauto.
  - split; [|intros ? []]. unfold do_trylock in E. destruct (check_mu m d) as [v d1] eqn:C. apply (kp_check_mu x) in C; auto. destruct C as (C & _).
    apply kp_keepw. destruct (negb _); [inj E; exact C|]. destruct (mu_tryrdlock _ _ _ _ _ _) as [v2 d2] eqn:T. apply (kp_tryrdlock x) in T. inj E. eapply kp_trans; eauto.
  - unfold do_lock in E. destruct (check_mu m d) as [v d1] eqn:C. apply (kp_check_mu x) in C; auto. destruct C as (C & C2 & _).
    destruct (Z.eqb_spec v OK) as [->|NV]; cbn [negb] in E; [|inj E; split; [apply kp_keepw; exact C | congruence]].
    destruct (mu_trylock _ _ _ _ _ _) as [v2 d2] eqn:T. apply (kp_trylock x) in T.
    assert (K : kp x d1 d') by (destruct (_ =? _); [eapply kp_trans; [exact T | eapply kp_finish_lock; eauto] | inj E; exact T]).
    split; [apply kp_keepw; eapply kp_trans; eauto|]. intros kk -> _. apply K, C2. reflexivity.
  - unfold do_lock in E. destruct (check_mu m d) as [v d1] eqn:C. apply (kp_check_mu x) in C; auto. destruct C as (C & C2 & _).
    destruct (Z.eqb_spec v OK) as [->|NV]; cbn [negb] in E; [|inj E; split; [apply kp_keepw; exact C | congruence]].
    destruct (mu_tryrdlock _ _ _ _ _ _) as [v2 d2] eqn:T. apply (kp_tryrdlock x) in T.
    assert (K : kp x d1 d') by (destruct (_ =? _); [eapply kp_trans; [exact T | eapply kp_finish_lock; eauto] | inj E; exact T]).
    split; [apply kp_keepw; eapply kp_trans; eauto|]. intros kk -> _. apply K, C2. reflexivity.
  - split; [|intros ? []]. unfold do_unlock in E. destruct (check_mu m d) as [v d1] eqn:C. apply (kp_check_mu x) in C; auto. destruct C as (C & _).
    apply kp_keepw. destruct (negb _); [inj E; exact C|]. apply (kp_fastunlock x) in E. eapply kp_trans; eauto.
  - split; [|intros ? []]. unfold do_mudestroy in E. destruct (check_mu m d) as [v d1] eqn:C. apply (kp_check_mu x) in C; auto. destruct C as (C & _).
    destruct (negb _); [inj E; apply kp_keepw; exact C|]. destruct (mlocked _); inj E; [apply kp_keepw; exact C|].
    eapply kp_keepw_trans; [discriminate | exact C|]. apply keepw_reset; rst.
  - inj E. split; [|intros ? []]. apply keepw_reset; rst.
  - split; [|intros ? []]. unfold do_wgadd in E. destruct (check_wg w d) as [v d1] eqn:C. apply (kp_check_wg x) in C; auto. destruct C as (C & _).
    apply kp_keepw. destruct (negb _); [inj E; exact C|]. cbv zeta in E. destruct (_ || _); [inj E; exact C|].
    destruct (_ <? _); inj E; [exact C|]. eapply kp_trans; [exact C | apply kp_wg; reflexivity].
  - split; [|intros ? []]. unfold do_wgdone in E. destruct (check_wg w d) as [v d1] eqn:C. apply (kp_check_wg x) in C; auto. destruct C as (C & _).
    destruct (negb _); [inj E; apply kp_keepw; exact C|]. destruct (_ =? _); [inj E; apply kp_keepw; exact C|]. cbv zeta in E.
    set (d2 := upwg w (set_wcount (wcount (wgx d1 w) - 1)) d1) in *.
    assert (K : kp x d d2) by (eapply kp_trans; [exact C | apply kp_wg; reflexivity]).
    destruct (negb _); [inj E; apply kp_keepw; exact K|]. destruct (q d2 (QWg w)) as [|n [|n2 l]] eqn:Q.
    + inj E. apply kp_keepw. exact K.
    + inj E. eapply kp_keepw_trans; [auto | exact K|]. exact (keepw_pop x (QWg w) n [] d2 _ Q).
    + apply (kp_yfsr x) in E. apply kp_keepw. eapply kp_trans; [exact K|]. eapply kp_trans; [apply kp_resume_all | exact E].
  - unfold do_wgwait in E. destruct (check_wg w d) as [v d1] eqn:C. apply (kp_check_wg x) in C; auto. destruct C as (C & C2 & _).
    destruct (Z.eqb_spec v OK) as [->|NV]; cbn [negb] in E; [|inj E; split; [apply kp_keepw; exact C | congruence]].
    destruct (checkdl _ _ _ _) as [v2 d2] eqn:T. apply (kp_checkdl x) in T.
    assert (K : kp x d1 d').
    { destruct (negb _); [inj E; exact T|]. destruct (_ =? _); [unfold coyield in E; inj E; exact T|]. apply (kp_copause x) in E.
      eapply kp_trans; [exact T|]. eapply kp_trans; [|exact E]. eapply kp_trans; [|apply kp_same; reflexivity]. apply kp_push. congruence. }
    split; [apply kp_keepw; eapply kp_trans; eauto|]. intros kk -> _. apply K, C2. reflexivity.
  - split; [|intros ? []]. destruct (check_wg w d) as [v d1] eqn:C. apply (kp_check_wg x) in C; auto. destruct C as (C & _).
    destruct (negb _); inj E; [apply kp_keepw; exact C|].
    eapply kp_keepw_trans; [discriminate | exact C|]. apply keepw_reset; rst.
  - inj E. split; [|intros ? []]. apply keepw_reset; rst.
  - split; [|intros ? []]. unfold do_cvsignal in E. destruct (check_cv v d) as [v0 d1] eqn:C. apply (kp_check_cv x) in C; auto. destruct C as (C & _).
    destruct (negb _); [inj E; apply kp_keepw; exact C|]. unfold popq in E. destruct (q d1 (QCv v)) as [|n l] eqn:Q; inj E; [apply kp_keepw; exact C|].
    eapply kp_keepw_trans; [auto | exact C|]. apply keepw_pop. exact Q.
  - split; [|intros ? []]. unfold do_cvbcast in E. destruct (check_cv v d) as [v0 d1] eqn:C. apply (kp_check_cv x) in C; auto. destruct C as (C & _).
    apply kp_keepw. destruct (negb _); [inj E; exact C|]. apply (kp_yfsr x) in E. eapply kp_trans; [exact C|]. eapply kp_trans; [apply kp_resume_all | exact E].
  - unfold do_cvwait in E. destruct (check_cv v d) as [v0 d1] eqn:C. apply (kp_check_cv x) in C; auto. destruct C as (C & C2 & OZ1).
    destruct (Z.eqb_spec v0 OK) as [->|NV]; cbn [negb] in E; [|inj E; split; [apply kp_keepw; exact C | congruence]].
    assert (R1 : 0 < rtid d1) by (destruct C as (_ & _ & ->); exact RT).
    destruct (check_mu m d1) as [v1 d2] eqn:C3. apply (kp_check_mu x) in C3; auto. destruct C3 as (C3 & C4 & _).
    destruct (Z.eqb_spec v1 OK) as [->|NV]; cbn [negb] in E; [|inj E; split; [apply kp_keepw; eapply kp_trans; eauto | congruence]].
    assert (K : kp x d2 d').
    { destruct (canceled _); [inj E; apply kp_same; reflexivity|]. eapply kp_fastunlock; exact E. }
    split; [apply kp_keepw; eapply kp_trans; [exact C|]; eapply kp_trans; eauto|]. intros kk [->| ->] _; apply K; [apply C3, C2; reflexivity | apply C4; reflexivity].
  - split; [|intros ? []]. destruct (check_cv v d) as [v0 d1] eqn:C. apply (kp_check_cv x) in C; auto. destruct C as (C & _).
    destruct (negb _); inj E; [apply kp_keepw; exact C|].
    eapply kp_keepw_trans; [discriminate | exact C|]. apply keepw_reset; rst.
Qed.

Lemma kp_leave : forall f c d x, x <> c -> kp x d (leave f c d).
Proof.
  intros f c d x N. assert (RC : forall n d, kp x d (rm_cases c n d)).
  { induction n as [|n IH]; intros e; cbn [rm_cases]; [apply kp_refl|]. eapply kp_trans; [|apply IH]. apply kp_rmq. discriminate. }
  destruct f; cbn [leave]; try apply kp_refl; try (apply kp_rmq; congruence). apply RC.
Qed.
Lemma hret_keepw : forall c f v b nw d d' fs k x, x <> c -> hret c f v b nw d = (d', fs, k) -> keepw x d d' k (fun _ => False).
Proof.
  intros c f v b nw d d' fs k x NE E.
  assert (FR : (forall kk, ~ (objq kk /\ kret c d f kk)) -> keepw x d d' k (fun _ => False)).
  { intros NO. destruct (hret_fp _ _ _ _ _ _ _ _ _ [] E) as (R & P & FP & _ & HP). eapply kp_keepw_trans; [auto | apply kp_leave; exact NE|].
    split.
    + intros kk _ I. destruct (fps_keep2 _ _ _ _ _ _ _ FP x kk NE (NO kk) I) as [J|[J|J]]; auto.
    + intros kk _ H. rewrite (fps_objrt _ _ _ _ _ _ _ FP kk (NO kk)). exact H. }
  assert (EX : forall kk, ~ (objq kk /\ exitk c d kk)).
  { intros kk [A [->|[->|(? & _ & ->)]]]; destruct A. }
  destruct f; try (apply FR; intros kk [A B]; cbn in B; first [exact B | eapply EX; split; [exact A | exact B] | subst; exact A]).
  - cbn [hret] in E. unfold cvwait_end in E. destruct (checkdl _ _ _ _) as [v1 d1] eqn:C. apply (kp_checkdl x) in C. apply (kp_cv_relock x) in E; [|exact NE].
    apply kp_keepw. eapply kp_trans; [|exact E]. eapply kp_trans; [|exact C]. eapply kp_trans; [apply (kp_same x d (set_ncvs (ncvs d - 1) d)); reflexivity|]. apply kp_rmq. congruence.
  - cbn [hret] in E. destruct (_ =? _); [inj E; apply kp_keepw, kp_refl|]. destruct (_ && _) eqn:AS; [|apply kp_keepw; eapply kp_cv_relock; eauto].
    assert (E2 : hret c FExitLoop v b nw d = (d', fs, k)) by exact E.
    destruct (hret_fp _ _ _ _ _ _ _ _ _ [] E2) as (R & P & FP & _ & HP). cbn [leave kret] in FP.
    split.
    + intros kk _ I. destruct (fps_keep2 _ _ _ _ _ _ _ FP x kk NE (EX kk) I) as [J|[J|J]]; auto.
    + intros kk _ H. rewrite (fps_objrt _ _ _ _ _ _ _ FP kk (EX kk)). exact H.
Qed.

(** ** A coroutine that starts waiting is in its queue *)
Lemma copause_inq : forall c dl fs d d' fs' k kk, copause c dl fs d = (d', fs', k) -> In (NCo c) (q d kk) -> In (NCo c) (q d' kk).
Proof.
  intros c dl fs d d' fs' k kk E I. apply copause_fs in E. destruct E as [(_ & _ & -> & _)|(_ & _ & _ & _ & ->)]; [exact I|].
  cbv zeta. destruct (_ <? _); exact I.
Qed.
Lemma push_in : forall k n d, In n (q (pushq k n d) k). Proof. intros. apply In_pushq. auto. Qed.
Lemma copause_top2 : forall c dl g d d' fs k f rest st, copause c dl [g] d = (d', fs, k) -> top (fs ++ st) = f :: rest -> g <> FPause -> f = g.
Proof.
  intros c dl g d d' fs k f rest st E T N. apply copause_fs in E. destruct E as [(-> & _)|(-> & _)]; cbn in T.
  - destruct g; cbn in T; congruence.
  - congruence.
Qed.
Ltac iq E T :=
  match type of E with
  | copause _ _ [_] _ = _ => let Q := fresh in pose proof (copause_top2 _ _ _ _ _ _ _ _ _ _ E T) as Q;
      rewrite Q by discriminate; intros H; injection H as <-; eapply copause_inq; [exact E|]; apply push_in
  | (_, [], _) = _ => inj E; try discriminate T
  | (_, _, _) = _ => inj E; cbn in T; injection T as <- <-; discriminate
  | context [checkdl ?a ?b ?c ?d] => destruct (checkdl a b c d); iq E T
  | context [if ?x then _ else _] => destruct x; iq E T
  end.
Lemma do_send_inq : forall c ch m dl d d' fs k f rest kk j o st, do_send c ch m dl d = (d', fs, k) ->
  top (fs ++ FApi j o :: st) = f :: rest -> wqid f = Some kk -> In (NCo c) (q d' kk).
Proof.
  intros c ch m dl d d' fs k f rest kk j o st E T. unfold do_send in E. cbn [app] in T.
  repeat match type of E with (if ?x then _ else _) = _ => destruct x; [inj E; cbn in T; injection T as <- <-; discriminate|] end.
  destruct (send_loop _ _ _ _) as [[r|] d1]; [inj E; cbn in T; injection T as <- <-; discriminate|].
  destruct (_ <? _); [inj E; cbn in T; injection T as <- <-; discriminate|].
  rewrite (copause_top2 _ _ _ _ _ _ _ _ _ _ E T) by discriminate. intros H. injection H as <-. eapply copause_inq; [exact E|]. apply push_in.
Qed.
Lemma do_lock_inq : forall c m rd dl nw d d' fs k f rest kk j o st, do_lock c m rd dl nw d = (d', fs, k) ->
  top (fs ++ FApi j o :: st) = f :: rest -> wqid f = Some kk -> In (NCo c) (q d' kk).
Proof.
  intros c m rd dl nw d d' fs k f rest kk j o st E T. unfold do_lock, finish_lock in E.
  destruct (check_mu m d) as [v d1]. destruct (negb _); [inj E; cbn in T; injection T as <- <-; discriminate|].
  destruct ((if rd then mu_tryrdlock else mu_trylock) c m false dl nw d1) as [v2 d2]. destruct (_ =? _); [|inj E; cbn in T; injection T as <- <-; discriminate].
  rewrite (copause_top2 _ _ _ _ _ _ _ _ _ _ E T) by discriminate. intros H. injection H as <-. eapply copause_inq; [exact E|]. apply push_in.
Qed.
Lemma do_cancel_inq : forall c id dl nw d d' fs k f rest kk st, do_cancel c id dl nw d = (d', fs, k) -> fs <> [] ->
  top (fs ++ st) = f :: rest -> wqid f = Some kk -> In (NCo c) (q d' kk).
Proof.
  intros c id dl nw d d' fs k f rest kk st E NF T. unfold do_cancel in E.
  destruct (negb (mem _ _)); [inj E; congruence|]. destruct (checkdl _ _ _ _) as [v d1]. destruct (negb _); [inj E; congruence|].
  destruct (cenabled _); [inj E; cbn in T; injection T as <- <-; discriminate|].
  rewrite (copause_top2 _ _ _ _ _ _ _ _ _ _ E T) by discriminate. intros H. injection H as <-. eapply copause_inq; [exact E|]. apply push_in.
Qed.
Lemma hcall_inq : forall c o nw d d' fs k f rest kk j st, hcall c o nw d = (d', fs, k) -> (forall b, k <> CFinal b) -> ustack st ->
  top (fs ++ FApi j o :: st) = f :: rest -> wqid f = Some kk -> In (NCo c) (q d' kk).
Proof.
  intros c o nw d d' fs k f rest kk j st E NF U T W.
  assert (NN : fs <> []) by (intros ->; cbn in T; injection T as <- <-; discriminate W).
  destruct (hcall_next _ _ _ _ _ _ _ E) as [N|[(h & -> & -> & -> & _)|(-> & N)]].
  - assert (SH : shape o fs) by (destruct k; try exact N; destruct N). clear N.
    inversion SH; subst; try (exfalso; repeat match goal with H : pz _ _ |- _ => inversion H; subst; clear H | H : yf _ _ |- _ => inversion H; subst; clear H end;
      cbn in T; injection T as <- <-; discriminate W); try congruence; cbn [hcall] in E.
    + eapply do_cancel_inq; eassumption.
    + eapply do_send_inq; eassumption.
    + unfold do_genyield in E. destruct (gen _); [|inj E; congruence]. eapply do_send_inq; eassumption.
    + unfold do_recv in E.
      repeat match type of E with (if ?x then _ else _) = _ => destruct x; [inj E; congruence|] end.
      destruct (take _ _) as [[[m [s|]] d1]|]; [inj E; cbn in T; injection T as <- <-; discriminate W | inj E; congruence|].
      rewrite (copause_top2 _ _ _ _ _ _ _ _ _ _ E T) in W by discriminate. injection W as <-. eapply copause_inq; [exact E|]. apply push_in.
    + eapply do_lock_inq; eassumption.
    + eapply do_lock_inq; eassumption.
    + unfold do_wgwait in E. destruct (check_wg _ _) as [v d1]. destruct (negb _); [inj E; congruence|]. destruct (checkdl _ _ _ _) as [v2 d2].
      destruct (negb _); [inj E; congruence|]. destruct (_ =? _); [unfold coyield in E; inj E; cbn in T; injection T as <- <-; discriminate W|].
      rewrite (copause_top2 _ _ _ _ _ _ _ _ _ _ E T) in W by discriminate. injection W as <-. eapply copause_inq; [exact E|]. apply push_in.
    + exfalso. unfold do_cvwait in E. destruct (check_cv _ _) as [v0 d1]. destruct (negb _); [inj E; congruence|]. destruct (check_mu _ _) as [v1 d2].
      destruct (negb _); [inj E; congruence|]. destruct (canceled _); [inj E; congruence|]. apply fastunlock_cases in E.
      repeat match goal with H : pz _ _ |- _ => inversion H; subst; clear H end; destruct E as [(E & _)|(_ & [E|E])]; discriminate E.
    + exfalso. unfold do_cvwait in E. destruct (check_cv _ _) as [v0 d1]. destruct (negb _); [inj E; congruence|]. destruct (check_mu _ _) as [v1 d2].
      destruct (negb _); [inj E; congruence|]. destruct (canceled _); [inj E; congruence|]. apply fastunlock_cases in E.
      repeat match goal with H : pz _ _ |- _ => inversion H; subst; clear H end; destruct E as [(E & _)|(_ & [E|E])]; discriminate E.
    + destruct (do_join_wait _ _ _ _ _ _ _ _ E NN) as [_ H0].
      repeat match goal with H : pz _ _ |- _ => inversion H; subst; clear H end; cbn in T; injection T as <- <-; injection W as <-; exact H0.
  - cbn in T. injection T as <- <-. discriminate W.
  - exfalso. pose proof (hcall_special _ _ _ _ _ _ _ E eq_refl) as EX. cbn in EX. destruct EX as [h l CL -> -> ->|a ER].
    + cbn in T. injection T as <- <-. discriminate W.
    + destruct (coexit_rest_shape _ _ _ _ _ _ ER) as [(-> & _)|(ES & _)]; [congruence|].
      destruct (exit_shape_hd _ ES) as (g & r & -> & H). cbn in T. destruct g; try destruct H; injection T as <- <-; discriminate W.
Qed.
Lemma cv_relock_inq : forall c m ret nw d d' fs k f rest kk rest0, cv_relock c m ret nw d = (d', fs, k) -> fs <> [] ->
  top (fs ++ rest0) = f :: rest -> wqid f = Some kk -> In (NCo c) (q d' kk).
Proof.
  intros c m ret nw d d' fs k f rest kk rest0 E NF T W. unfold cv_relock, finish_lock in E.
  destruct (negb _); [inj E; congruence|]. destruct (mu_trylock _ _ _ _ _ _) as [v d1].
  destruct (_ =? _); [|inj E; cbn in T; injection T as <- <-; discriminate W].
  assert (F : f = FLock m).
  { apply copause_fs in E. destruct E as [(-> & _)|(-> & _)]; cbn in T; congruence. }
  subst f. injection W as <-. eapply copause_inq; [exact E|]. apply push_in.
Qed.
Lemma hret_inq : forall c f0 v b nw d d' fs k f rest kk rest0, hret c f0 v b nw d = (d', fs, k) -> fs <> [] ->
  top (fs ++ rest0) = f :: rest -> wqid f = Some kk -> In (NCo c) (q d' kk).
Proof.
  intros c f0 v b nw d d' fs k f rest kk rest0 E NF T W.
  assert (EX : forall d0, coexit_async c d0 = (d', fs, k) -> False).
  { intros d0 E0. apply coexit_async_exits in E0. destruct E0 as [h l CL -> -> ->|a ER]; [cbn in T; injection T as <- <-; discriminate W|].
    destruct (coexit_rest_shape _ _ _ _ _ _ ER) as [(-> & _)|(ES & _)]; [congruence|].
    destruct (exit_shape_hd _ ES) as (g & r & -> & H). cbn in T. destruct g; try destruct H; injection T as <- <-; discriminate W. }
  assert (ER2 : forall a d0, coexit_rest c a d0 = (d', fs, k) -> False).
  { intros a d0 ER. destruct (coexit_rest_shape _ _ _ _ _ _ ER) as [(-> & _)|(ES & _)]; [congruence|].
    destruct (exit_shape_hd _ ES) as (g & r & -> & H). cbn in T. destruct g; try destruct H; injection T as <- <-; discriminate W. }
  destruct f0; cbn [hret] in E; unfold sleep_end, sigwait_end, wait_end, send_end, recv_end, select_end, lock_end, wgwait_end, join_end, suspend_end, work_submit, exit_gen in E; cbv zeta in E;
    repeat match type of E with
    | (_, [], _) = _ => inj E; congruence
    | (_, _, _) = _ => inj E; cbn in T; injection T as <- <-; discriminate W
    | coyield _ _ = _ => unfold coyield in E; inj E; cbn in T; injection T as <- <-; discriminate W
    | yfsr _ _ = _ => apply yfsr_cases in E; destruct E as (_ & _ & [-> | ->]); cbn in T; injection T as <- <-; discriminate W
    | coexit_async _ _ = _ => destruct (EX _ E)
    | coexit_rest _ _ _ = _ => destruct (ER2 _ _ E)
    | context [checkdl ?a ?b ?c ?d] => destruct (checkdl a b c d)
    | context [if ?x then _ else _] => destruct x
    end.
  - eapply do_cancel_inq; eassumption.
  - unfold cvwait_unlocked in E. rewrite (copause_top2 _ _ _ _ _ _ _ _ _ _ E T) in W by discriminate. injection W as <-. eapply copause_inq; [exact E|]. apply push_in.
  - unfold cvwait_end in E. destruct (checkdl _ _ _ _) as [v1 dd]. eapply cv_relock_inq; eassumption.
  - eapply cv_relock_inq; eassumption.
Qed.

(** ** The invariants *)
Lemma reach_rt : forall s, reach s -> 0 < rtid (dt s).
Proof.
  apply rrun_preserves.
  - intros s c o d fs k sch md RE I M CU U NR E X. cbn [dt].
    assert (Q : rtid d = rtid (dt s)) by (eapply (prims_const c Z rtid); [|eapply hcall_prims; exact E]; intros a b PP; destruct PP; reflexivity).
    assert (Q2 : rtid (ctl_dat c (nextid (sc s) + 1) k d) = rtid d); [|lia]. destruct k; cbn [ctl_dat]; try reflexivity.
    unfold spawn_dat, popq, new_chan. destruct (q d QPool), isgen; reflexivity.
  - intros s c v f rest b d fs k sch md RE I M CU SK L E X. cbn [dt].
    assert (Q : rtid d = rtid (dt s)) by (eapply (prims_const c Z rtid); [|eapply hret_prims; exact E]; intros x y PP; destruct PP; reflexivity).
    assert (Q2 : rtid (ctl_dat c (nextid (sc s) + 1) k d) = rtid d); [|lia]. destruct k; cbn [ctl_dat]; try reflexivity.
    unfold spawn_dat, popq, new_chan. destruct (q d QPool), isgen; reflexivity.
  - intros s d ws sch md ios RE I M A K X. cbn [set_sc set_dt set_mode dt]. pose proof (mp_main _ _ _ _ _ _ _ K) as MP.
    revert I MP. generalize (dt s) (rc_step (now s) d). clear. intros d d' I MP. induction MP; [exact I|]. destruct H; exact IHMP.
  - intros s m RE I _. exact I.
  - intros s e RE I H M. destruct e; try contradiction; cbn;
      repeat match goal with |- context [if ?b then _ else _] => destruct b | |- context [match mode ?z with _ => _ end] => destruct (mode z)
        | |- context [match stk (sc ?z) ?c with _ => _ end] => destruct (stk (sc z) c) as [|[] ?] end; cbn; exact I.
  - intros g [_ O]. exact O.
Qed.
Lemma wqid_fobj : forall f k, wqid f = Some k -> objq k -> fobj f k.
Proof. intros f k W O. destruct f; inversion W; subst; try destruct O; cbn; auto. Qed.
Lemma top_seg : forall st f rest, top st = f :: rest -> stopf f = false -> In f (seg st).
Proof.
  intros st f rest T S. destruct st as [|g st]; [discriminate T|]. destruct g; cbn in T; try (injection T as <- <-; cbn; rewrite ?S; try discriminate S; left; reflexivity).
  subst st. cbn. rewrite S. right. left. reflexivity.
Qed.
Lemma objn_objz : forall s, reach s -> objn s -> objz (dt s).
Proof.
  intros s RE ON k Z0. destruct (q (dt s) k) as [|n l] eqn:Q; [reflexivity|]. exfalso.
  assert (O : objq k) by (destruct k; try exact Logic.I; discriminate Z0).
  assert (W : waitq k) by (destruct k; try exact Logic.I; destruct O).
  assert (IN : In n (q (dt s) k)) by (rewrite Q; left; reflexivity).
  pose proof (reach_qloc _ RE n k W IN) as MA.
  assert (PO : popq_ok k) by (destruct k; try exact Logic.I; destruct O).
  destruct (matched_cases _ _ _ MA PO) as [(f & rest & T & WQ & _)|(N & j & chs & dl & st2 & A)].
  - eapply (ON (node_co n) f k); [|apply wqid_fobj; assumption | exact Z0]. eapply top_seg; [exact T|]. destruct f; inversion WQ; reflexivity.
  - unfold matched in MA. rewrite A in MA. destruct MA as (i & ch & _ & _ & ->). destruct O.
Qed.

Definition wl (s : state) : Prop := forall x f rest k, top (stk (sc s) x) = f :: rest -> wqid f = Some k -> In x (paused (sc s)) ->
  In (NCo x) (q (dt s) k) \/ In (NCo x) (q (dt s) QRes).

Lemma ctl_objrt : forall c n k d kk, objrt (ctl_dat c n k d) kk = objrt d kk.
Proof.
  intros c n k d kk. destruct k; cbn [ctl_dat]; try reflexivity.
  - unfold spawn_dat, popq, new_chan. destruct (q d QPool), isgen; destruct kk; reflexivity.
Qed.
Lemma ctl_keep2 : forall c n k d x kk, x <> c -> (waitq kk \/ kk = QRes) -> In (NCo x) (q d kk) -> In (NCo x) (q (ctl_dat c n k d) kk).
Proof.
  intros c n k d x kk N W I0. destruct k; cbn [ctl_dat]; auto.
  - rewrite spawn_q_eq; [exact I0|]. intros ->. destruct W as [W|W]; [exact W | discriminate].
  - unfold final_dat. cbn [q set_npool]. apply In_pushq. left. split; [exact I0 | congruence].
Qed.
Lemma hret_fobj : forall c f v b nw d d' fs k g kk, hret c f v b nw d = (d', fs, k) -> In g fs -> fobj g kk -> fobj f kk.
Proof.
  intros c f v b nw d d' fs k g kk E I F.
  assert (ER2 : forall a d0, coexit_rest c a d0 = (d', fs, k) -> False).
  { intros a d0 ER. destruct (coexit_rest_shape _ _ _ _ _ _ ER) as [(-> & _)|(ES & _)]; [destruct I|]. eapply exit_nofobj; eassumption. }
  assert (EX : forall d0, coexit_async c d0 = (d', fs, k) -> False).
  { intros d0 E0. apply coexit_async_exits in E0. destruct E0 as [h l CL -> -> ->|a ER]; [|eapply ER2; exact ER].
    destruct I as [<-|[]]. destruct F. }
  destruct f; cbn [hret] in E; unfold sleep_end, sigwait_end, wait_end, send_end, recv_end, select_end, lock_end, wgwait_end, join_end, suspend_end, work_submit, exit_gen, do_cancel, cvwait_unlocked, cvwait_end, cv_relock, finish_lock in E; cbv zeta in E;
    repeat match type of E with
    | (_, _, _) = _ => inj E; cbn in I; intuition (subst; cbn in *; intuition auto); fail
    | coyield _ _ = _ => unfold coyield in E; inj E; cbn in I; intuition (subst; cbn in *; intuition auto)
    | yfsr _ _ = _ => apply yfsr_cases in E; destruct E as (_ & _ & [-> | ->]); cbn in I; intuition (subst; cbn in *; intuition auto)
    | copause _ _ _ _ = _ => apply copause_cases in E; destruct E as [(_ & -> & _)|(_ & -> & _)]; cbn in I; intuition (subst; cbn in *; intuition auto); fail
    | coexit_async _ _ = _ => destruct (EX _ E)
    | coexit_rest _ _ _ = _ => destruct (ER2 _ _ E)
    | context [checkdl ?a ?b ?c ?d] => destruct (checkdl a b c d)
    | context [mu_trylock ?a ?b ?c ?d ?e ?f] => destruct (mu_trylock a b c d e f)
    | context [if ?x then _ else _] => destruct x
    end.
Qed.
Lemma exit_stop : forall w, exit_shape w -> exists g, In g w /\ stopf g = true.
Proof.
  intros w ES. inversion ES as [a s w0 Y|a s|a w0 Y]; subst.
  - exists (FExitGen a s). split; [apply in_or_app; right; left; reflexivity | reflexivity].
  - exists (FExitGen a s). split; [left; reflexivity | reflexivity].
  - exists (FExitFin a). split; [inversion Y; subst; cbn; auto | reflexivity].
Qed.
Lemma hret_stop : forall c f v b nw d d' fs k, hret c f v b nw d = (d', fs, k) -> stopf f = true -> (forall kk oo, f <> FApi kk oo) -> f <> FHandler ->
  (exists a, k = CFinal a) \/ exists g, In g fs /\ stopf g = true.
Proof.
  intros c f v b nw d d' fs k E S NA NH.
  assert (ER2 : forall a d0, coexit_rest c a d0 = (d', fs, k) -> (exists a, k = CFinal a) \/ exists g, In g fs /\ stopf g = true).
  { intros a d0 ER. destruct (coexit_rest_shape _ _ _ _ _ _ ER) as [(_ & ->)|(ES & _)]; [eauto|]. right. apply exit_stop, ES. }
  assert (EX : forall d0, coexit_async c d0 = (d', fs, k) -> (exists a, k = CFinal a) \/ exists g, In g fs /\ stopf g = true).
  { intros d0 E0. apply coexit_async_exits in E0. destruct E0 as [h l CL -> -> ->|a ER]; [|eapply ER2; exact ER].
    right. exists FExitLoop. split; [left; reflexivity | reflexivity]. }
  destruct f; try discriminate S; cbn [hret] in E; try (exfalso; eapply NA; reflexivity).
  - eapply ER2; exact E.
  - congruence.
  - eapply EX; exact E.
  - unfold exit_gen in E. cbv zeta in E. destruct sched; [|inj E; eauto]. right. apply yfsr_cases in E.
    destruct E as (_ & _ & [-> | ->]); eexists; (split; [cbn; auto | reflexivity]).
  - inj E. eauto.
Qed.
Lemma seg_below : forall f rest, lstack (f :: rest) -> stopf f = true -> (exists kk oo, f = FApi kk oo) \/ f = FHandler -> seg rest = [].
Proof.
  intros f rest L S D. inversion L as [s0 U|j o w s0 U SH EQ|w s0 ES EQ]; subst.
  - inversion U; subst; try reflexivity. destruct D as [(? & ? & ?)|?]; discriminate.
  - destruct w as [|g w]; [injection EQ as <- <-; apply seg_ustack, U|]. exfalso.
    assert (ST : stopf g = false) by (inversion SH; subst; try (match goal with H : pz _ _ |- _ => inversion H; subst; clear H end);
      try (match goal with H : yf _ _ |- _ => inversion H; subst; clear H end); try reflexivity;
      (match goal with H : _ ++ _ = _ :: _ |- _ => cbn in H; injection H as <- _; reflexivity end)).
    injection EQ as -> _. congruence.
  - exfalso. inversion ES as [a s w0 Y|a s|a w0 Y]; subst; try (inversion Y; subst); cbn in EQ; injection EQ as <- _;
      destruct D as [(? & ? & ?)|?]; discriminate.
Qed.
Lemma tick_seg : forall c f v b nw d d' fs k rest g, hret c f v b nw d = (d', fs, k) -> lstack (f :: rest) -> (forall a, k <> CFinal a) ->
  In g (seg (fs ++ rest)) -> forall kk, fobj g kk -> exists g', In g' (seg (f :: rest)) /\ fobj g' kk.
Proof.
  intros c f v b nw d d' fs k rest g E L NF I kk FO. apply seg_app in I. destruct I as [I|[I N]].
  - pose proof (hret_fobj _ _ _ _ _ _ _ _ _ _ _ E I FO) as FF. exists f. split; [|exact FF]. destruct f; destruct FF; left; reflexivity.
  - destruct (stopf f) eqn:S; [|exists g; split; [cbn; rewrite S; right; exact I | exact FO]]. exfalso.
    assert (D : ((exists kk oo, f = FApi kk oo) \/ f = FHandler) \/ ((forall kk oo, f <> FApi kk oo) /\ f <> FHandler)).
    { destruct f; try discriminate S; try (right; split; discriminate); left; eauto. }
    destruct D as [D|[N1 N2]].
    + rewrite (seg_below _ _ L S D) in I. destruct I.
    + destruct (hret_stop _ _ _ _ _ _ _ _ _ E S N1 N2) as [(a & ->)|(h & J & SH)]; [eapply NF; reflexivity|].
      rewrite N in SH by exact J. discriminate.
Qed.

(** one step of another coroutine *)
Lemma wl_other : forall s c d k st' sch md x f rest kk X, reach s -> cur (sc s) = Some c -> wl s -> x <> c ->
  exec c k (set_stk (zupd (stk (sc s)) c st') (sc s)) = (sch, md) -> keepw x (dt s) d k X -> ~ X QRes ->
  top (stk sch x) = f :: rest -> wqid f = Some kk -> ~ X kk -> In x (paused sch) ->
  In (NCo x) (q (ctl_dat c (nextid (sc s) + 1) k d) kk) \/ In (NCo x) (q (ctl_dat c (nextid (sc s) + 1) k d) QRes).
Proof.
  intros s c d k st' sch md x f rest kk X RE CU I NE EX [KW _] XR TP W XK PA.
  pose proof (reach_full _ RE) as F. pose proof (cur_notfresh _ _ F CU) as NFR.
  destruct (exec_stk_cases _ _ _ _ _ EX NFR x) as [[? _]|[(_ & _ & _ & Q)|(_ & Q & _)]]; [contradiction | |]; rewrite Q in TP.
  { injection TP as <- <-. discriminate W. }
  cbn in TP. rewrite zupd_neq in TP by exact NE. pose proof (exec_paused _ _ _ _ _ EX) as PE. cbn [paused set_stk] in PE. rewrite PE in PA.
  assert (P2 : In x (paused (sc s)) /\ k <> CResume x).
  { destruct k; try (split; [exact PA | discriminate]).
    - apply in_app_or in PA. destruct PA as [PA|[->|[]]]; [split; [exact PA | discriminate] | contradiction].
    - destruct (mem id (paused (sc s))) eqn:ME.
      + apply remove1_In in PA. destruct PA as [PA N]. split; [exact PA | congruence].
      + split; [exact PA|]. intros Q2. injection Q2 as ->. apply mem_In_false in ME. contradiction. }
  destruct P2 as [P1 P2].
  assert (WQ : waitq kk) by (apply popq_waitq, (wqid_popq _ _ W)).
  destruct (I x f rest kk TP W P1) as [J|J].
  - destruct (KW kk XK J) as [K|[K|K]]; [left | right | contradiction]; apply ctl_keep2; auto.
  - destruct (KW QRes XR J) as [K|[K|K]]; [right | right | contradiction]; apply ctl_keep2; auto.
Qed.
Lemma own_final : forall c k s s0 st' sch md x f rest, exec c k (set_stk (zupd (stk s0) c st') s0) = (sch, md) -> nextid s0 + 1 <> c ->
  s = sch -> top (stk s c) = f :: rest -> x = c -> (forall a, k <> CFinal a) /\ stk s c = st'.
Proof.
  intros c k s s0 st' sch md x f rest X N -> TP ->.
  destruct (exec_stk_cases _ _ _ _ _ X N c) as [[_ Q]|[(? & _)|(? & _)]]; [|contradiction|contradiction].
  rewrite Q in TP. assert (NF : forall a, k <> CFinal a) by (intros a ->; discriminate TP). split; [exact NF|].
  rewrite Q. destruct k; cbn; rewrite ?zupd_eq; try reflexivity. exfalso. eapply NF. reflexivity.
Qed.

Lemma wakes_in : forall ws s x, In x (paused (fold_left (fun a id => wake id a) ws s)) -> In x (paused s) /\ ~ In x ws.
Proof.
  induction ws as [|w ws IH]; intros s x I; cbn in I; [auto|]. apply IH in I. destruct I as [I N].
  unfold wake in I. destruct (mem w (paused s)) eqn:ME.
  - cbn in I. apply remove1_In in I. destruct I as [I NW]. split; [exact I|]. intros [->|J]; auto.
  - split; [exact I|]. intros [->|J]; [|auto]. apply mem_In_false in ME. contradiction.
Qed.
Lemma paused_step_res : forall nw ios d d' ws k x, paused_step nw ios d = (d', ws, k) -> In (NCo x) (q d QRes) -> In x ws.
Proof.
  intros nw ios d d' ws k x E I. unfold paused_step in E.
  set (d1 := set_nresumers _ _) in E.
  set (d2 := if 0 <? niow d1 then set_q _ d1 else d1) in E.
  destruct (if 0 <? nevs d2 then _ else _) as [d3 w3] eqn:E3.
  destruct (if negb (sigm d3 =? 0) then _ else _) as [[d4 w4] kill] eqn:E4.
  destruct (dl_step (dls d4) nw d4) as [d5 w5] eqn:E5. inj E.
  apply in_or_app. left. apply in_map_iff. exists (NCo x). auto.
Qed.
Theorem reach_wl : forall s, reach s -> tidy (tr s) -> objn s /\ wl s.
Proof.
  apply (rrun_preserves (fun s => tidy (tr s) -> objn s /\ wl s)).
  - intros s c o d fs k sch md RE I M CU U NR E X T. cbn [tr] in T. pose proof T as T1. apply tidy_call in T1. destruct (I T1) as [ON WL]. clear I.
    pose proof (objn_objz _ RE ON) as OZ. pose proof (reach_rt _ RE) as RT.
    pose proof (reach_full _ RE) as F. pose proof (cur_notfresh _ _ F CU) as NFR.
    assert (CN : c + 1 <> c) by lia. destruct (hcall_keepw _ _ _ _ _ _ _ _ OZ RT CN E) as [[_ OK1] OK2].
    assert (RSN : forall x f kk, In f (seg (stk (sc s) x)) -> fobj f kk -> ~ resets o kk).
    { intros x f kk IN FO RS. assert (LV : stk (sc s) x <> []) by (intros Q; rewrite Q in IN; destruct IN).
      destruct (seg_host _ _ _ (live_lstack _ _ F LV) IN FO) as (j & o' & IA & US). eapply (tidy_now _ _ _ _ _ _ RE T RS); eassumption. }
    split.
    + intros x f kk IN FO. cbn [sc dt] in *. rewrite ctl_objrt. destruct (Z.eq_dec x c) as [->|NE].
      * destruct (exec_stk_cases _ _ _ _ _ X NFR c) as [[_ Q]|[(? & _)|(? & _)]]; [|contradiction|contradiction].
        rewrite Q in IN. cbn in IN. rewrite zupd_eq in IN.
        assert (NF : forall a, k <> CFinal a) by (intros a ->; destruct IN).
        assert (IN2 : In f (seg (fs ++ FApi (ncalls s) o :: stk (sc s) c))) by (destruct k; try exact IN; exfalso; eapply NF; reflexivity).
        apply seg_app in IN2. destruct IN2 as [IN2|[[] _]]. assert (NN : fs <> []) by (intros ->; destruct IN2).
        apply (OK2 kk); [|exact NN].
        destruct (hcall_next _ _ _ _ _ _ _ E) as [N|[(h & -> & -> & -> & _)|(-> & N)]].
        -- assert (SH : shape o fs) by (destruct k; try exact N; try destruct N; exfalso; eapply NF; reflexivity). eapply shape_fobj; eauto.
        -- destruct IN2 as [<-|[]]. destruct FO.
        -- exfalso. pose proof (hcall_special _ _ _ _ _ _ _ E eq_refl) as EX. cbn in EX. destruct EX as [h l CL -> -> ->|a ER].
           ++ destruct IN2 as [<-|[]]. destruct FO.
           ++ destruct (coexit_rest_shape _ _ _ _ _ _ ER) as [(-> & _)|(ES & _)]; [congruence|]. eapply exit_nofobj; eassumption.
      * destruct (exec_stk_cases _ _ _ _ _ X NFR x) as [[? _]|[(_ & _ & _ & Q)|(_ & Q & _)]]; [contradiction | |]; rewrite Q in IN; [destruct IN|].
        cbn in IN. rewrite zupd_neq in IN by exact NE. apply OK1; [eapply RSN; eassumption|]. eapply ON; eassumption.
    + intros x f rest kk TP W PA. cbn [sc dt] in *. destruct (Z.eq_dec x c) as [->|NE].
      * destruct (own_final _ _ _ _ _ _ _ c _ _ X NFR eq_refl TP eq_refl) as [NF Q]. rewrite Q in TP. left.
        pose proof (hcall_inq _ _ _ _ _ _ _ _ _ _ _ _ E NF U TP W) as IQ.
        assert (WQ : waitq kk) by (apply popq_waitq, (wqid_popq _ _ W)).
        destruct k; try exact IQ; cbn [ctl_dat].
        -- rewrite spawn_q_eq; [exact IQ|]. intros ->. exact WQ.
        -- exfalso. eapply NF. reflexivity.
      * destruct (hcall_keepw _ _ _ _ _ _ _ _ OZ RT NE E) as [KW _].
        eapply wl_other; try eassumption; [apply nres|].
        intros RS. assert (OQ : objq kk) by (destruct o; cbn in RS; try contradiction; subst kk; exact Logic.I).
        destruct (exec_stk_cases _ _ _ _ _ X NFR x) as [[? _]|[(_ & _ & _ & Q)|(_ & Q & _)]]; [contradiction | |]; rewrite Q in TP.
        { injection TP as <- <-. discriminate W. }
        cbn in TP. rewrite zupd_neq in TP by exact NE. eapply (RSN x f kk); [|apply wqid_fobj; assumption | exact RS].
        eapply top_seg; [exact TP|]. destruct f; try reflexivity; discriminate W.
  - intros s c v f0 rest0 b d fs k sch md RE I M CU SK L E X T. cbn [tr] in T. apply tidy_tick in T. destruct (I T) as [ON WL]. clear I.
    pose proof (reach_full _ RE) as F. pose proof (cur_notfresh _ _ F CU) as NFR.
    assert (CN : c + 1 <> c) by lia. destruct (hret_keepw _ _ _ _ _ _ _ _ _ _ CN E) as [_ OK1].
    split.
    + intros x f kk IN FO. cbn [sc dt] in *. rewrite ctl_objrt. apply OK1; [auto|]. destruct (Z.eq_dec x c) as [->|NE].
      * destruct (exec_stk_cases _ _ _ _ _ X NFR c) as [[_ Q]|[(? & _)|(? & _)]]; [|contradiction|contradiction].
        rewrite Q in IN. cbn in IN. rewrite zupd_eq in IN.
        assert (NF : forall a, k <> CFinal a) by (intros a ->; destruct IN).
        assert (IN2 : In f (seg (fs ++ rest0))) by (destruct k; try exact IN; exfalso; eapply NF; reflexivity).
        assert (LS : lstack (f0 :: rest0)) by (rewrite <- SK; apply live_lstack; [exact F | rewrite SK; discriminate]).
        destruct (tick_seg _ _ _ _ _ _ _ _ _ _ _ E LS NF IN2 kk FO) as (g & IG & FG). rewrite <- SK in IG. eapply ON; eassumption.
      * destruct (exec_stk_cases _ _ _ _ _ X NFR x) as [[? _]|[(_ & _ & _ & Q)|(_ & Q & _)]]; [contradiction | |]; rewrite Q in IN; [destruct IN|].
        cbn in IN. rewrite zupd_neq in IN by exact NE. eapply ON; eassumption.
    + intros x f rest kk TP W PA. cbn [sc dt] in *. destruct (Z.eq_dec x c) as [->|NE].
      * destruct (own_final _ _ _ _ _ _ _ c _ _ X NFR eq_refl TP eq_refl) as [NF Q]. rewrite Q in TP.
        assert (WF : waitf f = true) by (eapply wqid_waitf; exact W).
        destruct fs as [|g fs].
        -- exfalso. cbn [app] in TP. pose proof (reach_wsh _ RE c) as WS. rewrite SK in WS.
           assert (INF : In f rest0) by (apply top_sub; rewrite TP; left; reflexivity).
           assert (f0 = FPause).
           { destruct f0; try reflexivity; exfalso; (assert (NW : nowait rest0) by (eapply wsh_tl; [exact WS | discriminate]); specialize (NW _ INF); unfold plain in NW; rewrite WF in NW; discriminate NW). }
           subst f0. cbn in E. injection E as <- <-. apply exec_paused in X. rewrite X in PA. eapply cur_notpaused; eassumption.
        -- left. assert (NN : g :: fs <> []) by discriminate. pose proof (hret_inq _ _ _ _ _ _ _ _ _ _ _ _ _ E NN TP W) as IQ.
           assert (WQ : waitq kk) by (apply popq_waitq, (wqid_popq _ _ W)).
           destruct k; try exact IQ; cbn [ctl_dat].
           ++ rewrite spawn_q_eq; [exact IQ|]. intros ->. exact WQ.
           ++ exfalso. eapply NF. reflexivity.
      * eapply wl_other; try eassumption; [eapply hret_keepw; eassumption | auto | auto].
  - intros s d ws sch md ios RE I M A K X T. cbn [tr set_sc set_dt set_mode] in T. destruct (I T) as [ON WL]. clear I.
    pose proof (mp_main _ _ _ _ _ _ _ K) as MP. pose proof X as X0.
    apply sco_switch_frame in X. destruct X as (X1 & _). destruct (wakes_frame ws (sc s)) as (W1 & _).
    split.
    + intros x f kk IN FO. cbn [set_sc set_dt set_mode sc dt] in *. rewrite X1, W1 in IN.
      assert (Q : objrt (rc_step (now s) d) kk = objrt (dt s) kk).
      { apply (mprims_const Z (fun e => objrt e kk)); [|exact MP]. intros a a' PP. destruct PP; destruct kk; reflexivity. }
      rewrite Q. eapply ON; eassumption.
    + intros x f rest kk TP W PA. cbn [set_sc set_dt set_mode sc dt] in *. rewrite X1, W1 in TP.
      rewrite (switch_paused _ _ _ _ X0) in PA.
      destruct (wakes_in _ _ _ PA) as [PB NW].
      rewrite (mprims_wq _ _ _ MP) by (apply popq_waitq, (wqid_popq _ _ W)).
      destruct (WL x f rest kk TP W PB) as [J|J]; [left; exact J|]. exfalso. apply NW.
      destruct (0 <? npsd (sc s)) eqn:NP.
      * eapply paused_step_res; eassumption.
      * exfalso. destruct (reach_full _ RE) as [[SI _] _]. pose proof (ct_psd _ (si_counts _ SI)) as Q. apply Z.ltb_ge in NP.
        destruct (paused (sc s)); [destruct PB|]. cbn in Q. lia.
  - intros s m RE I _ T. exact (I T).
  - intros s e RE I H M T. apply tidy_env in T; [|exact H]. destruct (I T) as [ON WL].
    destruct (env_frame s e H) as (E1 & _ & _ & _ & E5). split.
    + intros x f kk IN FO. rewrite E1 in IN.
      assert (Q : objrt (dt s) kk <> 0 -> objrt (dt (step s e)) kk <> 0).
      { pose proof (reach_rt _ RE) as RT. destruct e; try contradiction; cbn;
        repeat match goal with |- context [if ?b then _ else _] => destruct b | |- context [match mode ?z with _ => _ end] => destruct (mode z)
          | |- context [match stk (sc ?z) ?c with _ => _ end] => destruct (stk (sc z) c) as [|[] ?] end;
        try (destruct kk; exact (fun J => J)); destruct kk; cbn; unfold nupd; try exact (fun J => J); destruct (_ =? _)%nat; cbn; auto; lia. }
      apply Q. eapply ON; eassumption.
    + intros x f rest kk TP W PA. rewrite E1 in TP. rewrite E5 in PA.
      destruct (env_q s e H) as [Q|(c & _ & _ & (w & SW) & Q)]; rewrite Q; [eapply WL; eassumption|].
      assert (NE : NCo x <> NCo c). { intros J. injection J as ->. rewrite SW in TP. injection TP as <- <-. discriminate W. }
      destruct (WL x f rest kk TP W PA) as [J|J]; [left | right]; apply In_pushq; left; auto.
  - intros g O T. split.
    + intros x f kk IN. cbn in IN. unfold zupd in IN. destruct (_ =? _); destruct IN.
    + intros x f rest kk TP. cbn in TP. unfold zupd in TP. destruct (_ =? _); [injection TP as <- <-; discriminate | discriminate TP].
Qed.

(** ** The same for what is not a client's object: channels, joins, cancels *)
Definition wlc (s : state) : Prop := forall x f rest k, top (stk (sc s) x) = f :: rest -> wqid f = Some k -> ~ objq k -> In x (paused (sc s)) ->
  In (NCo x) (q (dt s) k) \/ In (NCo x) (q (dt s) QRes).
Lemma fps_keepq : forall c KP KW d0 d R P d' k x, x <> c -> kp x d0 d -> fps c KP KW d R P d' -> (forall x, In x P -> k = CResume x) ->
  forall kk, ~ objq kk -> In (NCo x) (q d0 kk) -> In (NCo x) (q d' kk) \/ In (NCo x) (q d' QRes) \/ k = CResume x.
Proof.
  intros c KP KW d0 d R P d' k x NE (KP0 & _) FP HP kk NO I0.
  assert (G : forall k0, ~ objq k0 -> In (NCo x) (q d k0) -> In (NCo x) (q d' k0) \/ In (NCo x) (q d' QRes) \/ k = CResume x).
  { intros k0 N0 J. destruct (fps_keep2 _ _ _ _ _ _ _ FP x k0 NE) as [A|[A|A]]; auto. tauto. }
  destruct (KP0 kk I0) as [J|J]; [apply G; assumption|]. destruct (G QRes (fun z => z) J) as [A|[A|A]]; auto.
Qed.
Lemma wlc_other : forall s c d k st' sch md x f rest kk, reach s -> cur (sc s) = Some c -> wlc s -> x <> c ->
  exec c k (set_stk (zupd (stk (sc s)) c st') (sc s)) = (sch, md) ->
  (forall kk, ~ objq kk -> In (NCo x) (q (dt s) kk) -> In (NCo x) (q d kk) \/ In (NCo x) (q d QRes) \/ k = CResume x) ->
  top (stk sch x) = f :: rest -> wqid f = Some kk -> ~ objq kk -> In x (paused sch) ->
  In (NCo x) (q (ctl_dat c (nextid (sc s) + 1) k d) kk) \/ In (NCo x) (q (ctl_dat c (nextid (sc s) + 1) k d) QRes).
Proof.
  intros s c d k st' sch md x f rest kk RE CU I NE EX KW TP W XK PA.
  pose proof (reach_full _ RE) as F. pose proof (cur_notfresh _ _ F CU) as NFR.
  destruct (exec_stk_cases _ _ _ _ _ EX NFR x) as [[? _]|[(_ & _ & _ & Q)|(_ & Q & _)]]; [contradiction | |]; rewrite Q in TP.
  { injection TP as <- <-. discriminate W. }
  cbn in TP. rewrite zupd_neq in TP by exact NE. pose proof (exec_paused _ _ _ _ _ EX) as PE. cbn [paused set_stk] in PE. rewrite PE in PA.
  assert (P2 : In x (paused (sc s)) /\ k <> CResume x).
  { destruct k; try (split; [exact PA | discriminate]).
    - apply in_app_or in PA. destruct PA as [PA|[->|[]]]; [split; [exact PA | discriminate] | contradiction].
    - destruct (mem id (paused (sc s))) eqn:ME.
      + apply remove1_In in PA. destruct PA as [PA N]. split; [exact PA | congruence].
      + split; [exact PA|]. intros Q2. injection Q2 as ->. apply mem_In_false in ME. contradiction. }
  destruct P2 as [P1 P2].
  assert (WQ : waitq kk) by (apply popq_waitq, (wqid_popq _ _ W)).
  destruct (I x f rest kk TP W XK P1) as [J|J].
  - destruct (KW kk XK J) as [K|[K|K]]; [left | right | contradiction]; apply ctl_keep2; auto.
  - destruct (KW QRes (fun z => z) J) as [K|[K|K]]; [right | right | contradiction]; apply ctl_keep2; auto.
Qed.
Theorem reach_wlc : forall s, reach s -> wlc s.
Proof.
  apply rrun_preserves.
  - intros s c o d fs k sch md RE I M CU U NR E X.
    pose proof (reach_full _ RE) as F. pose proof (cur_notfresh _ _ F CU) as NFR.
    intros x f rest kk TP W NO PA. cbn [sc dt] in *. destruct (Z.eq_dec x c) as [->|NE].
    + destruct (own_final _ _ _ _ _ _ _ c _ _ X NFR eq_refl TP eq_refl) as [NF Q]. rewrite Q in TP. left.
      pose proof (hcall_inq _ _ _ _ _ _ _ _ _ _ _ _ E NF U TP W) as IQ.
      assert (WQ : waitq kk) by (apply popq_waitq, (wqid_popq _ _ W)).
      destruct k; try exact IQ; cbn [ctl_dat].
      * rewrite spawn_q_eq; [exact IQ|]. intros ->. exact WQ.
      * exfalso. eapply NF. reflexivity.
    + destruct (hcall_fp _ _ _ _ _ _ _ (ncalls s) (stk (sc s) c) E) as (R & P & FP & _ & HP).
      eapply wlc_other; try eassumption. eapply fps_keepq; [exact NE | apply kp_refl | exact FP | exact HP].
  - intros s c v f0 rest0 b d fs k sch md RE I M CU SK L E X.
    pose proof (reach_full _ RE) as F. pose proof (cur_notfresh _ _ F CU) as NFR.
    intros x f rest kk TP W NO PA. cbn [sc dt] in *. destruct (Z.eq_dec x c) as [->|NE].
    + destruct (own_final _ _ _ _ _ _ _ c _ _ X NFR eq_refl TP eq_refl) as [NF Q]. rewrite Q in TP.
      assert (WF : waitf f = true) by (eapply wqid_waitf; exact W).
      destruct fs as [|g fs].
      * exfalso. cbn [app] in TP. pose proof (reach_wsh _ RE c) as WS. rewrite SK in WS.
        assert (INF : In f rest0) by (apply top_sub; rewrite TP; left; reflexivity).
        assert (f0 = FPause).
        { destruct f0; try reflexivity; exfalso; (assert (NW : nowait rest0) by (eapply wsh_tl; [exact WS | discriminate]); specialize (NW _ INF); unfold plain in NW; rewrite WF in NW; discriminate NW). }
        subst f0. cbn in E. injection E as <- <-. apply exec_paused in X. rewrite X in PA. eapply cur_notpaused; eassumption.
      * left. assert (NN : g :: fs <> []) by discriminate. pose proof (hret_inq _ _ _ _ _ _ _ _ _ _ _ _ _ E NN TP W) as IQ.
        assert (WQ : waitq kk) by (apply popq_waitq, (wqid_popq _ _ W)).
        destruct k; try exact IQ; cbn [ctl_dat].
        -- rewrite spawn_q_eq; [exact IQ|]. intros ->. exact WQ.
        -- exfalso. eapply NF. reflexivity.
    + destruct (hret_fp _ _ _ _ _ _ _ _ _ rest0 E) as (R & P & FP & _ & HP).
      eapply wlc_other; try eassumption. eapply fps_keepq; [exact NE | apply kp_leave; exact NE | exact FP | exact HP].
  - intros s d ws sch md ios RE WL M A K X.
    pose proof (mp_main _ _ _ _ _ _ _ K) as MP. pose proof X as X0.
    apply sco_switch_frame in X. destruct X as (X1 & _). destruct (wakes_frame ws (sc s)) as (W1 & _).
    intros x f rest kk TP W NO PA. cbn [set_sc set_dt set_mode sc dt] in *. rewrite X1, W1 in TP.
    rewrite (switch_paused _ _ _ _ X0) in PA.
    destruct (wakes_in _ _ _ PA) as [PB NW].
    rewrite (mprims_wq _ _ _ MP) by (apply popq_waitq, (wqid_popq _ _ W)).
    destruct (WL x f rest kk TP W NO PB) as [J|J]; [left; exact J|]. exfalso. apply NW.
    destruct (0 <? npsd (sc s)) eqn:NP.
    + eapply paused_step_res; eassumption.
    + exfalso. destruct (reach_full _ RE) as [[SI _] _]. pose proof (ct_psd _ (si_counts _ SI)) as Q. apply Z.ltb_ge in NP.
      destruct (paused (sc s)); [destruct PB|]. cbn in Q. lia.
  - intros s m RE I _. exact I.
  - intros s e RE WL H M. destruct (env_frame s e H) as (E1 & _ & _ & _ & E5).
    intros x f rest kk TP W NO PA. rewrite E1 in TP. rewrite E5 in PA.
    destruct (env_q s e H) as [Q|(c & _ & _ & (w & SW) & Q)]; rewrite Q; [eapply WL; eassumption|].
    assert (NE : NCo x <> NCo c). { intros J. injection J as ->. rewrite SW in TP. injection TP as <- <-. discriminate W. }
    destruct (WL x f rest kk TP W NO PA) as [J|J]; [left | right]; apply In_pushq; left; auto.
  - intros g O x f rest kk TP. cbn in TP. unfold zupd in TP. destruct (_ =? _); [injection TP as <- <-; discriminate | discriminate TP].
Qed.
