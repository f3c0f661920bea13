(** C08 - C10: mutexes.
    [reach s]: [s] is the state after some history of a freshly started runtime.
    [hold m c t] (MutexSpec): how coroutine [c] holds mutex [m] after the history [t].
    [proper t] (MutexSpec): clients unlock only what they hold.
    [tidy t]: no object is initialised or destroyed while a call is using it. *)
From Coq Require Import List ZArith Bool Lia Sorting.Sorted.
From Verif Require Import AATreeSpec AATreeHist Util Runtime SchedInv StepInv StackShape RuntimeSpec TraceInv Immediate Prims StaticInv Footprint QueueInv OwnInv WaitInv DeadlineInv CallInv SpecInv TraceStep Wake Awake AllInv PausedInv DldInv ResultInv JoinInv WaiterInv BlockSpec OneStep CancelInv MutexSpec MutexW MutexEff MutexTok MutexRt MutexStep MutexInv MutexLow MutexLeak MutexOrd Scripts.
Import ListNotations.
Local Open Scope Z_scope.

(** deciding the client rules on concrete traces (sufficient conditions) *)
Fixpoint properb (t : list obs) : bool :=
  match t with
  | [] => true
  | TCall _ c o _ :: r =>
      match o with
      | OpUnlock m => match hold m c r with HNone => false | _ => true end
      | OpCvWait _ m _ => match hold m c r with HW => true | _ => false end
      | OpMuInit _ => false
      | _ => true
      end && properb r
  | _ :: r => properb r
  end.
Lemma properb_ok : forall t, properb t = true -> proper t.
Proof.
  induction t as [|a t IH]; intros H l1 l2 k c o tm E; [destruct l1; discriminate E|].
  destruct l1 as [|b l1]; cbn in E; injection E as -> E.
  - subst l2. cbn [properb] in H. apply andb_true_iff in H. destruct H as [H _]. destruct o; auto; try discriminate H; destruct (hold m c t); congruence.
  - assert (P : properb t = true) by (destruct b; cbn [properb] in H; try exact H; apply andb_true_iff in H; apply H). exact (IH P _ _ _ _ _ _ E).
Qed.
Definition resetsb (o : op) : bool :=
  match o with OpMuInit _ | OpMuDestroy _ | OpWgInit _ | OpWgDestroy _ | OpCvInit _ | OpCvDestroy _ => true | _ => false end.
Lemma noreset_tidy : forall t, forallb (fun z => match z with TCall _ _ o _ => negb (resetsb o) | _ => true end) t = true -> tidy t.
Proof.
  intros t H l1 l2 k c o tm kk E R. exfalso. rewrite forallb_forall in H. assert (IN : In (TCall k c o tm) t) by (rewrite E; apply in_or_app; right; left; reflexivity).
  apply H in IN. destruct o; try destruct R; discriminate IN.
Qed.

(* ------------------------------------------------------------------------ *)
(** * C08 mutual exclusion *)

(** While a coroutine holds the write lock no other coroutine holds the mutex in any
    mode; and a reader is never a writer. Cancellations, deadlines, both cancel types,
    condition variables, any number of coroutines and mutexes are included. *)
Theorem C08_mutual_exclusion : forall s m c c', reach s -> tidy (tr s) -> proper (tr s) ->
  hold m c (tr s) = HW -> hold m c' (tr s) <> HNone -> c' = c.
Proof.
  intros s m c c' RE T P H H'. pose proof (reach_mok _ RE T P m) as [O1 O2 O3 O4 O5]. destruct (Z.eq_dec c' c) as [|N]; [assumption|exfalso].
  pose proof (hold_nz m c' (tr s)) as NZ.
  destruct (Z.eq_dec (mrl (mux (dt s) m)) 0) as [R0|R0].
  - specialize (O5 [c; c'] ltac:(constructor; [intros [?|[]]; congruence | constructor; [intros [] | constructor]])). cbn [sumf] in O5.
    assert (CP : cap (mux (dt s) m) <= 1) by (unfold cap; rewrite R0; destruct (mlocked _); cbn; lia).
    unfold tot in O5. rewrite H in O5. pose proof (wR_pos HW (ptok s m c)). pose proof (wR_pos (hold m c' (tr s)) (ptok s m c')).
    assert (1 <= wW HW (ptok s m c)) by (unfold wW; destruct (ptok s m c) as [[]|]; lia).
    pose proof (O4 R0 c') as R. destruct (hold m c' (tr s)) as [| |[|n]]; try congruence; [|unfold wR in R; destruct (ptok s m c') as [[]|]; lia].
    assert (1 <= wW HW (ptok s m c')) by (unfold wW; destruct (ptok s m c') as [[]|]; lia). lia.
  - pose proof (O3 R0 c) as W. rewrite H in W. unfold wW in W. destruct (ptok s m c) as [[]|]; lia.
Qed.

(** nobody holds the mutex, and no call on it is still to return *)
Definition free (s : state) (m : nat) : Prop :=
  (forall x, hold m x (tr s) = HNone) /\
  forall k x o tm, In (TCall k x o tm) (tr s) -> uses o (QMu m) -> returned k (tr s).
(** the mutex is zeroed memory or of this runtime *)
Definition own (s : state) (m : nat) : Prop := mrt (mux (dt s) m) = 0 \/ mrt (mux (dt s) m) = rtid (dt s).

Lemma user_tok : forall s c m x, reach s -> mode s = MUser -> cur (sc s) = Some c -> ptok s m x <> None ->
  exists j o, In (FApi j o) (stk (sc s) x) /\ uses o (QMu m).
Proof.
  intros s c m x RE MU CU PN. pose proof (reach_full _ RE) as F. destruct (ptok s m x) as [b|] eqn:P; [clear PN | congruence]. unfold ptok in P.
  assert (US : ustack (stk (sc s) c)) by (apply (proj2 F); assumption).
  destruct (stk (sc s) x) as [|f rest] eqn:SX; [discriminate P|].
  assert (L : lstack (f :: rest)) by (rewrite <- SX; apply live_lstack; [exact F | rewrite SX; discriminate]).
  rewrite <- SX in P, L |- *. clear SX f rest. remember (stk (sc s) x) as st eqn:SX. destruct L as [st U|j o' w st U SH|w st ES].
  - rewrite tk_ustack in P by exact U. discriminate P.
  - exists j, o'. split; [apply in_or_app; right; left; reflexivity|].
    destruct (classic_locks o' m) as [LK|NL]; [|rewrite (shape_tk _ _ _ _ _ _ _ _ SH NL) in P; discriminate P].
    destruct o'; try destruct LK; cbn; auto; exfalso.
    all: inversion SH; subst; cbn in SX; symmetry in SX; destruct (reach_apiq _ RE _ _ _ _ SX) as [H|[H|(H & _)]]; [destruct H | rewrite MU in H; exact H|].
    all: assert (x = c) by congruence; subst x; rewrite SX in US; inversion US.
  - erewrite tk_exit in P by exact ES. discriminate P.
Qed.
Lemma no_users : forall s m x j o, reach s -> (forall k x o tm, In (TCall k x o tm) (tr s) -> uses o (QMu m) -> returned k (tr s)) ->
  In (FApi j o) (stk (sc s) x) -> uses o (QMu m) -> False.
Proof.
  intros s m x j o RE FR IN U. destruct (ci_open _ (reach_cinv _ RE) _ _ _ IN) as (t & IT & _). apply (ci_pend _ (reach_cinv _ RE) _ _ _ IN). eapply FR; eassumption.
Qed.
Lemma no_queue : forall s m, reach s -> (forall k x o tm, In (TCall k x o tm) (tr s) -> uses o (QMu m) -> returned k (tr s)) -> q (dt s) (QMu m) = [].
Proof.
  intros s m RE FR. destruct (q (dt s) (QMu m)) as [|n l] eqn:Q; [reflexivity|exfalso]. assert (IN : In n (q (dt s) (QMu m))) by (rewrite Q; left; reflexivity).
  pose proof (objq_node _ (QMu m) _ RE I IN) as NN. assert (M0 := IN). apply (reach_qloc _ RE) in M0; [|exact I]. set (x := node_co n) in *. clearbody x.
  destruct (matched_cases _ _ _ M0 I) as [(f & rest & TP & W & _)|(N & j & chs & dl & st' & TP)]; [|unfold matched in M0; rewrite TP in M0; destruct M0 as (i & ch & _ & _ & D); discriminate D].
  assert (NE : stk (sc s) x <> []) by (intros E0; rewrite E0 in TP; discriminate TP).
  assert (L : lstack (stk (sc s) x)) by (apply live_lstack; [apply reach_full, RE | exact NE]). apply lstack_top in L. rewrite TP in L.
  destruct f; try discriminate W. injection W as ->.
  assert (IR : forall g, In g rest -> In g (stk (sc s) x)) by (intros g IG; destruct (stk (sc s) x) as [|[] r]; cbn [top] in TP; rewrite ?TP; try (right; rewrite ?TP; right; exact IG); try (injection TP as ? <-; right; exact IG); discriminate).
  destruct (lock_rest _ _ L) as (kk & st & [(dl & ->)|[(dl & ->)|(cv & dl & ret & ->)]]).
  - eapply (no_users s m x kk); [exact RE | exact FR | apply IR; left; reflexivity | reflexivity].
  - eapply (no_users s m x kk); [exact RE | exact FR | apply IR; left; reflexivity | reflexivity].
  - eapply (no_users s m x kk); [exact RE | exact FR | apply IR; right; left; reflexivity | right; reflexivity].
Qed.
Lemma own_check : forall s m, own s m -> exists d, check_mu m (dt s) = (OK, d) /\
  (mrt (mux (dt s) m) <> 0 -> d = dt s) /\ (mrt (mux (dt s) m) = 0 -> mlocked (mux d m) = false /\ q d (QMu m) = []).
Proof.
  intros s m OW. unfold check_mu. destruct (Z.eqb_spec (mrt (mux (dt s) m)) 0) as [Z0|Z0].
  - eexists. split; [reflexivity|]. split; [congruence|]. intros _. cbn. unfold nupd. rewrite Nat.eqb_refl. split; [reflexivity | apply qupd_eq].
  - destruct OW as [?|OW]; [contradiction|]. rewrite OW, Z.eqb_refl. cbn. eexists. split; [reflexivity|]. split; [reflexivity | congruence].
Qed.

(** Readers share: while the mutex is held by readers and nobody is waiting for it,
    tryrdlock succeeds. *)
Theorem C08_readers_share : forall s m c y n b, reach s -> tidy (tr s) -> proper (tr s) -> mode s = MUser -> cur (sc s) = Some c ->
  hold m y (tr s) = HR n -> (forall k x o tm, In (TCall k x o tm) (tr s) -> uses o (QMu m) -> returned k (tr s)) ->
  let s' := step (step s (ECall (OpTryRdLock m))) (ETick b) in
  mode s' = MUser /\ exists mm, tr s' = TRet (ncalls s) c (OpTryRdLock m) OK mm (now s) :: TCall (ncalls s) c (OpTryRdLock m) (now s) :: tr s.
Proof.
  intros s m c y n b RE T P MU CU HY FR. pose proof (no_queue _ _ RE FR) as Q0. pose proof (reach_mok _ RE T P m) as [O1 O2 O3 O4 O5].
  assert (R0 : mrl (mux (dt s) m) <> 0).
  { intros R0. pose proof (hold_nz m y (tr s)) as NZ. pose proof (O4 R0 y) as R. rewrite HY in *. unfold wR in R. destruct n; [congruence|]. destruct (ptok s m y) as [[]|]; lia. }
  assert (LK : mlocked (mux (dt s) m) = true) by (destruct (mlocked (mux (dt s) m)) eqn:L; [reflexivity|]; destruct (O2 eq_refl); contradiction).
  assert (W : mrt (mux (dt s) m) = rtid (dt s)) by (apply (reach_mw _ RE T m (or_introl LK))). pose proof (reach_rt _ RE) as RT.
  assert (HC : exists d, hcall c (OpTryRdLock m) (now s) (dt s) = (d, [], CRet OK)).
  { cbn [hcall]. unfold do_trylock, check_mu. rewrite W. destruct (Z.eqb_spec (rtid (dt s)) 0); [lia|]. rewrite Z.eqb_refl. cbn [negb]. change (negb (OK =? OK)) with false. cbn match.
    unfold mu_tryrdlock. change (negb (OK =? OK)) with false. cbn match. unfold emptyq. rewrite Q0. destruct (Z.eqb_spec (mrl (mux (dt s) m)) 0); [contradiction|]. cbn. eexists. reflexivity. }
  destruct HC as (d & HC). pose proof (call_returns s c (OpTryRdLock m) d OK b RE MU CU ltac:(split; discriminate) ltac:(discriminate) HC) as CR. cbv zeta in *.
  set (z := step (step s (ECall (OpTryRdLock m))) (ETick b)) in *. clearbody z. destruct CR as (A & _ & _ & _ & _ & B). split; [exact A | eexists; exact B].
Qed.

(** Non-vacuity: a writer alone, with a reader and a writer waiting; and three readers. *)
Definition ex08w : list event :=
  [ECall (OpLock 0 MAXI); ECall OpStart; ECall (OpRdLock 0 MAXI); ECall OpStart; ECall (OpLock 0 5000)].
Example C08_ex_writer : let s := script ex08w in
  reach s /\ tidy (tr s) /\ proper (tr s) /\ hold 0 1 (tr s) = HW /\ paused (sc s) = [2; 3].
Proof.
  cbv zeta. split; [apply script_reach|]. split; [apply noreset_tidy; vm_compute; reflexivity|]. split; [apply properb_ok; vm_compute; reflexivity|]. split; vm_compute; reflexivity.
Qed.
Definition ex08r : list event :=
  [ECall (OpRdLock 0 MAXI); ECall OpStart; ECall (OpRdLock 0 MAXI); ECall OpYield; ECall OpStart; ECall (OpTryRdLock 0)].
Example C08_ex_readers : let s := script ex08r in
  reach s /\ tidy (tr s) /\ proper (tr s) /\ hold 0 1 (tr s) = HR 1 /\ hold 0 2 (tr s) = HR 1 /\ hold 0 3 (tr s) = HR 1.
Proof.
  cbv zeta. split; [apply script_reach|]. split; [apply noreset_tidy; vm_compute; reflexivity|]. split; [apply properb_ok; vm_compute; reflexivity|]. repeat split; vm_compute; reflexivity.
Qed.

(* ------------------------------------------------------------------------ *)
(** * C09 a mutex is never left locked without a holder *)

(** The full statement is false: a lock call whose deadline passes (or that is
    canceled) after the mutex has been handed to it returns an error and the mutex
    stays locked for ever. *)
Definition left_locked (s : state) (m : nat) : Prop :=
  exists c k mm tm tm2 t, tr s = TRet k c (OpTryLock m) EBUSY mm tm :: TCall k c (OpTryLock m) tm2 :: t /\
  (forall x, hold m x t = HNone) /\ forall k x o tm, In (TCall k x o tm) t -> uses o (QMu m) -> returned k t.
Definition ex09d : list event :=
  [ECall (OpLock 0 MAXI); ECall OpStart; ECall (OpLock 0 1500); EAdv 1600; ECall (OpUnlock 0); ECall (OpTryLock 0)].
Definition ex09c : list event :=
  [ECall (OpLock 0 MAXI); ECall OpStart; ECall (OpLock 0 MAXI); ECall OpStart; ECall OpYield; ECall (OpUnlock 0); ECall (OpCancel 2 MAXI); ECall (OpTryLock 0)].
Lemma hold_callers : forall m x t, hold m x t <> HNone -> exists k o v mm tm, In (TRet k x o v mm tm) t.
Proof.
  intros m x t. induction t as [|a t IH]; cbn [hold]; [congruence|]. intros H.
  assert (D : (exists k o v mm tm, a = TRet k x o v mm tm) \/ hold m x t <> HNone).
  { destruct (hold m x t) eqn:Q; [|right; congruence..]. destruct a; try (right; exact H).
    - exfalso. apply H. destruct (c =? x); [|reflexivity]. destruct o; try reflexivity; destruct (Nat.eqb m0 m); reflexivity.
    - destruct (Z.eqb_spec c x) as [->|]; [left; eauto 10 | congruence]. }
  destruct D as [(k & o & v & mm & tm & ->)|D]; [exists k, o, v, mm, tm; left; reflexivity|]. destruct (IH D) as (k & o & v & mm & tm & IN). exists k, o, v, mm, tm. right. exact IN.
Qed.
Definition nohold (m : nat) (t : list obs) : bool :=
  forallb (fun z => match z with TRet _ x _ _ _ _ => match hold m x t with HNone => true | _ => false end | _ => true end) t.
Lemma nohold_ok : forall m t, nohold m t = true -> forall x, hold m x t = HNone.
Proof.
  intros m t H x. destruct (hold m x t) eqn:Q; [reflexivity| |]; exfalso.
  all: destruct (hold_callers m x t ltac:(congruence)) as (k & o & v & mm & tm & IN); unfold nohold in H; rewrite forallb_forall in H; apply H in IN; rewrite Q in IN; discriminate IN.
Qed.
Definition usesb (o : op) (m : nat) : bool := match o with OpLock m' _ | OpRdLock m' _ | OpCvWait _ m' _ => Nat.eqb m' m | _ => false end.
Lemma usesb_ok : forall o m, uses o (QMu m) -> usesb o m = true.
Proof. intros o m U. destruct o; cbn [uses] in U; try contradiction; try discriminate U; try (destruct U as [U|U]; [discriminate U|]); injection U as ->; apply Nat.eqb_refl. Qed.
Definition doneb (m : nat) (t : list obs) : bool :=
  forallb (fun z => match z with TCall k _ o _ => negb (usesb o m) || existsb (fun y => match y with TRet k' _ _ _ _ _ => Nat.eqb k' k | _ => false end) t | _ => true end) t.
Lemma doneb_ok : forall m t, doneb m t = true -> forall k x o tm, In (TCall k x o tm) t -> uses o (QMu m) -> returned k t.
Proof.
  intros m t H k x o tm IN U. unfold doneb in H. rewrite forallb_forall in H. apply H in IN. rewrite (usesb_ok _ _ U) in IN. cbn in IN.
  apply existsb_exists in IN. destruct IN as (y & IY & E). destruct y; try discriminate E. apply Nat.eqb_eq in E. subst. unfold returned. eauto 10.
Qed.
Theorem C09_refuted : exists s m, reach s /\ tidy (tr s) /\ proper (tr s) /\ left_locked s m.
Proof.
  exists (script ex09d), 0%nat. split; [apply script_reach|]. split; [apply noreset_tidy; vm_compute; reflexivity|]. split; [apply properb_ok; vm_compute; reflexivity|].
  unfold left_locked. exists 2, 4%nat, 0, 1600, 1600, (skipn 2 (tr (script ex09d))). split; [vm_compute; reflexivity|].
  split; [apply nohold_ok; vm_compute; reflexivity | apply doneb_ok; vm_compute; reflexivity].
Qed.
Theorem C09_cancel_refuted : exists s m, reach s /\ tidy (tr s) /\ proper (tr s) /\ left_locked s m.
Proof.
  exists (script ex09c), 0%nat. split; [apply script_reach|]. split; [apply noreset_tidy; vm_compute; reflexivity|]. split; [apply properb_ok; vm_compute; reflexivity|].
  unfold left_locked. exists 2, 7%nat, 0, 1000, 1000, (skipn 2 (tr (script ex09c))). split; [vm_compute; reflexivity|].
  split; [apply nohold_ok; vm_compute; reflexivity | apply doneb_ok; vm_compute; reflexivity].
Qed.

Lemma free_unlocked : forall s m c, reach s -> tidy (tr s) -> proper (tr s) -> mode s = MUser -> cur (sc s) = Some c -> free s m -> mlow s m -> mlocked (mux (dt s) m) = false.
Proof.
  intros s m c RE T P MU CU [FH FR] ML. destruct (mlocked (mux (dt s) m)) eqn:L; [exfalso | reflexivity].
  destruct (ML L) as (l & _ & LO).
  assert (C1 : 1 <= cap (mux (dt s) m)) by (unfold cap; rewrite L; pose proof (ok_pos _ _ _ _ (reach_mok _ RE T P m)); destruct (Z.eqb_spec (mrl (mux (dt s) m)) 0); lia).
  assert (S0 : sumf (tot (fun x => hold m x (tr s)) (ptok s m)) l = 0); [|lia].
  clear LO. induction l as [|x l IH]; [reflexivity|]. cbn. rewrite IH. assert (PN : ptok s m x = None).
  { destruct (ptok s m x) as [bb|] eqn:PT; [exfalso | reflexivity]. destruct (user_tok s c m x RE MU CU ltac:(congruence)) as (j & o & IN & U). eapply no_users; eassumption. }
  unfold tot. rewrite FH, PN. reflexivity.
Qed.
Lemma unlocked_trylock : forall s m c b, reach s -> mode s = MUser -> cur (sc s) = Some c -> own s m -> mlocked (mux (dt s) m) = false ->
  let s' := step (step s (ECall (OpTryLock m))) (ETick b) in
  mode s' = MUser /\ exists mm, tr s' = TRet (ncalls s) c (OpTryLock m) OK mm (now s) :: TCall (ncalls s) c (OpTryLock m) (now s) :: tr s.
Proof.
  intros s m c b RE MU CU OW LK.
  destruct (own_check s m OW) as (d0 & CM & D1 & D2).
  assert (L0 : mlocked (mux d0 m) = false) by (destruct (Z.eq_dec (mrt (mux (dt s) m)) 0) as [Z0|Z0]; [apply D2, Z0 | rewrite D1 by exact Z0; exact LK]).
  assert (HC : exists d, hcall c (OpTryLock m) (now s) (dt s) = (d, [], CRet OK)).
  { cbn [hcall]. unfold do_trylock. rewrite CM. change (negb (OK =? OK)) with false. cbn match. unfold mu_trylock. change (negb (OK =? OK)) with false. cbn match. rewrite L0. eexists. reflexivity. }
  destruct HC as (d & HC). pose proof (call_returns s c (OpTryLock m) d OK b RE MU CU ltac:(split; discriminate) ltac:(discriminate) HC) as CR. cbv zeta in *.
  set (z := step (step s (ECall (OpTryLock m))) (ETick b)) in *. clearbody z. destruct CR as (A & _ & _ & _ & _ & B). split; [exact A | eexists; exact B].
Qed.

(** What holds: in histories where no cancel is aimed at a coroutine that locks the mutex
    (or at an ended one) and the mutex is locked without deadlines, trylock succeeds
    whenever nobody holds the mutex and every lock, rdlock and cond_wait call on it has
    returned. (Missing for the full statement: histories with such cancellations or lock
    deadlines, where it is false.) *)
Theorem C09_free_partial : forall s m c b, reach s -> tidy (tr s) -> proper (tr s) -> clean m (tr s) ->
  mode s = MUser -> cur (sc s) = Some c -> own s m -> free s m ->
  let s' := step (step s (ECall (OpTryLock m))) (ETick b) in
  mode s' = MUser /\ exists mm, tr s' = TRet (ncalls s) c (OpTryLock m) OK mm (now s) :: TCall (ncalls s) c (OpTryLock m) (now s) :: tr s.
Proof.
  intros s m c b RE T P CL MU CU OW FR. apply unlocked_trylock; try assumption. eapply free_unlocked; try eassumption.
  apply reach_mlow; try assumption. rewrite MU. exact (fun z => z).
Qed.

(** And with cancellations and deadlines of every kind: trylock succeeds whenever nobody
    holds the mutex, every lock, rdlock and cond_wait call on it has returned, and none of
    the lock and rdlock calls ended with NECO_CANCELED or NECO_TIMEDOUT. A cond_wait may
    have been canceled or timed out. (Missing for the full statement: histories in which
    such a call did end so, where it is false.) *)
Theorem C09_free_unless_failed_partial : forall s m c b, reach s -> tidy (tr s) -> proper (tr s) -> ~ failed m (tr s) ->
  mode s = MUser -> cur (sc s) = Some c -> own s m -> free s m ->
  let s' := step (step s (ECall (OpTryLock m))) (ETick b) in
  mode s' = MUser /\ exists mm, tr s' = TRet (ncalls s) c (OpTryLock m) OK mm (now s) :: TCall (ncalls s) c (OpTryLock m) (now s) :: tr s.
Proof.
  intros s m c b RE T P NB MU CU OW FR. apply unlocked_trylock; try assumption. eapply free_unlocked; try eassumption.
  destruct (reach_spoiled s m RE T P) as [L|[F|[(y & j & p & v & st & MR & _)|[(j & y & p & tm & IN & U & NR & _)|(_ & x & w & j & cv & dl & ret & A & _)]]]].
  - rewrite MU. exact (fun z => z).
  - exact L.
  - contradiction.
  - congruence.
  - exfalso. apply NR. destruct FR as [_ FR]. eapply FR; eassumption.
  - exfalso. destruct (at_tcall _ _ _ _ _ RE A) as [(t & IT) NR]. apply NR. destruct FR as [_ FR]. eapply FR; [exact IT | right; reflexivity].
Qed.
(** 2 is canceled meanwhile and goes on *)
Definition ex09 : list event :=
  [ECall OpStart; ECall (OpSetType false); ECall (OpSuspend MAXI); ECall (OpLock 0 MAXI); ECall OpStart; ECall (OpLock 0 MAXI); ECall OpStart; ECall (OpRdLock 0 MAXI); ECall (OpUnlock 0); ECall (OpUnlock 0); ECall (OpUnlock 0)].
Definition cleanb (t : list obs) : bool :=
  forallb (fun z => match z with TCall _ _ (OpCancel id dl) _ => (dl =? MAXI) &&
    forallb (fun y => match y with TExit x | TCall _ x (OpLock _ _) _ | TCall _ x (OpRdLock _ _) _ | TCall _ x (OpCvWait _ _ _) _ => negb (id =? x) | _ => true end) t
  | TCall _ _ (OpLock m' dl) _ | TCall _ _ (OpRdLock m' dl) _ => dl =? MAXI | _ => true end) t.
Lemma cleanb_ok : forall m t, cleanb t = true -> clean m t.
Proof.
  intros m t H. unfold cleanb in H. rewrite forallb_forall in H. split; [split|].
  - intros k c id dl tm IN. apply H in IN. apply andb_true_iff in IN. apply Z.eqb_eq, IN.
  - intros k c o tm IN L j y id dl tn IC. apply H in IC. apply andb_true_iff in IC. destruct IC as [_ IC]. rewrite forallb_forall in IC. split.
    + apply IC in IN. destruct o; try destruct L; apply negb_true_iff in IN; apply Z.eqb_neq, IN.
    + intros X. apply IC in X. rewrite Z.eqb_refl in X. discriminate X.
  - intros k c o tm IN. apply H in IN. destruct o; auto; intros _; apply Z.eqb_eq, IN.
Qed.
Example C09_ex : let s := script ex09 in
  reach s /\ tidy (tr s) /\ proper (tr s) /\ clean 0 (tr s) /\ mode s = MUser /\ (exists c, cur (sc s) = Some c) /\ own s 0 /\ free s 0 /\ length (filter (fun z => match z with TRet _ _ (OpLock _ _) 0 _ _ | TRet _ _ (OpRdLock _ _) 0 _ _ => true | _ => false end) (tr s)) = 3%nat.
Proof.
  cbv zeta. split; [apply script_reach|]. split; [apply noreset_tidy; vm_compute; reflexivity|]. split; [apply properb_ok; vm_compute; reflexivity|].
  split; [apply cleanb_ok; vm_compute; reflexivity|]. split; [vm_compute; reflexivity|]. split; [eexists; vm_compute; reflexivity|].
  split; [right; vm_compute; reflexivity|]. split; [split; [apply nohold_ok; vm_compute; reflexivity | apply doneb_ok; vm_compute; reflexivity]|]. vm_compute. reflexivity.
Qed.

(** 2 waits on a condition with a deadline that passes; 3 is canceled while it waits on
    the condition; both take the mutex again and unlock it; 1 locks with a deadline. *)
Definition ex09f : list event :=
  [ECall OpStart; ECall (OpLock 0 MAXI); ECall (OpCvWait 0 0 1500); ECall OpYield;
   ECall OpStart; ECall (OpSetType false); ECall (OpLock 0 MAXI); ECall (OpCvWait 0 0 MAXI);
   ECall (OpLock 0 9000); EAdv 1600; ECall (OpCancel 3 MAXI); ECall OpYield; ECall (OpUnlock 0);
   ECall OpYield; ECall (OpUnlock 0); ECall OpYield; ECall (OpUnlock 0); ECall OpYield].
Definition failedb (m : nat) (t : list obs) : bool :=
  existsb (fun z => match z with TRet _ _ (OpLock m' _) v _ _ | TRet _ _ (OpRdLock m' _) v _ _ => Nat.eqb m' m && ((v =? ECANCELED) || (v =? ETIMEDOUT)) | _ => false end) t.
Lemma failedb_ok : forall m t, failedb m t = false -> ~ failed m t.
Proof.
  intros m t H (k & c & o & v & mm & tm & IN & L & B). assert (D : failedb m t = true); [|congruence].
  apply existsb_exists. exists (TRet k c o v mm tm). split; [exact IN|]. destruct o; try destruct L; rewrite Nat.eqb_refl; destruct B as [-> | ->]; reflexivity.
Qed.
Example C09_ex_failed : let s := script ex09f in
  reach s /\ tidy (tr s) /\ proper (tr s) /\ ~ failed 0 (tr s) /\ mode s = MUser /\ (exists c, cur (sc s) = Some c) /\ own s 0 /\ free s 0 /\
  (exists k mm t, In (TRet k 2 (OpCvWait 0 0 1500) ETIMEDOUT mm t) (tr s)) /\ (exists k mm t, In (TRet k 3 (OpCvWait 0 0 MAXI) ECANCELED mm t) (tr s)).
Proof.
  cbv zeta. split; [apply script_reach|]. split; [apply noreset_tidy; vm_compute; reflexivity|]. split; [apply properb_ok; vm_compute; reflexivity|].
  split; [apply failedb_ok; vm_compute; reflexivity|]. split; [vm_compute; reflexivity|]. split; [eexists; vm_compute; reflexivity|].
  split; [right; vm_compute; reflexivity|]. split; [split; [apply nohold_ok; vm_compute; reflexivity | apply doneb_ok; vm_compute; reflexivity]|].
  split; [exists 2%nat, 0, 1600 | exists 7%nat, 0, 1600]; vm_compute; tauto.
Qed.

(* ------------------------------------------------------------------------ *)
(** * C10 fairness *)

(** the coroutines waiting for a mutex, first come first *)
Definition waiters (s : state) (m : nat) : list Z := map node_co (q (dt s) (QMu m)).
(** the call coroutine [x] is in *)
Definition incall (s : state) (x : Z) (k : nat) (o : op) : Prop :=
  exists w st, stk (sc s) x = w ++ FApi k o :: st /\ forall j p, ~ In (FApi j p) w.
Definition lockcall (o : op) (m : nat) : Prop :=
  match o with OpLock m' _ | OpRdLock m' _ | OpTryLock m' | OpTryRdLock m' => m' = m | _ => False end.
Lemma lockcall_b : forall o m, lockcall o m -> lockb o m = true.
Proof. intros o m H. destruct o; try destruct H; apply Nat.eqb_refl. Qed.

Lemma in_waiters : forall s m x, reach s -> In x (waiters s m) -> In (NCo x) (q (dt s) (QMu m)).
Proof.
  intros s m x RE IN. unfold waiters in IN. apply in_map_iff in IN. destruct IN as (n & <- & IN). rewrite <- (objq_node s (QMu m) n RE I IN). exact IN.
Qed.
Lemma waiter_top : forall s m x, reach s -> In (NCo x) (q (dt s) (QMu m)) -> exists rest, top (stk (sc s) x) = FLock m :: rest /\ lstack (FLock m :: rest).
Proof.
  intros s m x RE IN. apply (reach_qloc _ RE) in IN; [|exact I]. cbn [node_co] in IN. destruct (matched_cases _ _ _ IN I) as [(g & r & TP & W & _)|(N & j & chs & dl & st' & TP)].
  - exists r. destruct g; try discriminate W. injection W as ->. split; [exact TP|]. rewrite <- TP. apply lstack_top, live_lstack; [apply reach_full, RE|]. intros Q. rewrite Q in TP. discriminate TP.
  - unfold matched in IN. rewrite TP in IN. destruct IN as (i & ch & D & _). discriminate D.
Qed.
Lemma top_app : forall st, exists p, st = p ++ top st /\ forall j o, ~ In (FApi j o) p.
Proof.
  intros [|f st]; [exists []; split; [reflexivity | intros j0 o0 []]|]. destruct f; try (exists []; split; [reflexivity | intros j0 o0 []]).
  exists [FPause]. split; [reflexivity|]. intros j0 o0 [D|[]]. discriminate D.
Qed.
Lemma top_call : forall st w k o st', top st = w ++ FApi k o :: st' -> (forall j p, ~ In (FApi j p) w) -> exists w' st2, st = w' ++ FApi k o :: st2 /\ forall j p, ~ In (FApi j p) w'.
Proof.
  intros st w k o st' E N. destruct (top_app st) as (p & -> & NP). exists (p ++ w), st'. split; [rewrite <- app_assoc, <- E|].
  - clear. destruct (top_app st) as (p' & Q & _). congruence.
  - intros j q0 IN. apply in_app_or in IN. destruct IN; [eapply NP | eapply N]; eassumption.
Qed.
Lemma incall_unique : forall s x k o k' o', incall s x k o -> incall s x k' o' -> k' = k /\ o' = o.
Proof. intros s x k o k' o' (w & st & E & N) (w' & st' & E' & N'). rewrite E in E'. destruct (app_api_inj _ _ _ _ _ _ _ _ E' N N') as (_ & -> & -> & _). auto. Qed.

(** everybody waiting for a mutex is in a lock, rdlock or cond_wait call on it *)
Theorem C10_waiter_call : forall s m x, reach s -> In x (waiters s m) ->
  exists k o, incall s x k o /\ (exists v dl, o = OpLock m dl \/ o = OpRdLock m dl \/ o = OpCvWait v m dl).
Proof.
  intros s m x RE IN. apply in_waiters in IN; [|exact RE]. destruct (waiter_top _ _ _ RE IN) as (rest & TP & L).
  destruct (lock_rest _ _ L) as (k & st & [(dl & ->)|[(dl & ->)|(v & dl & ret & ->)]]).
  - exists k, (OpLock m dl). split; [|exists 0%nat, dl; auto]. apply (top_call _ [FLock m] _ _ st TP). intros j p [D|[]]. discriminate D.
  - exists k, (OpRdLock m dl). split; [|exists 0%nat, dl; auto]. apply (top_call _ [FLock m] _ _ st TP). intros j p [D|[]]. discriminate D.
  - exists k, (OpCvWait v m dl). split; [|exists v, dl; auto]. apply (top_call _ [FLock m; FCvRelock m ret] _ _ st TP). intros j p [D|[D|[]]]; discriminate D.
Qed.
Lemma waiter_ck : forall s m x k o, reach s -> In x (waiters s m) -> incall s x k o -> lockcall o m -> ck m (stk (sc s) x) = Some k.
Proof.
  intros s m x k o RE IN IC LC. apply in_waiters in IN; [|exact RE]. destruct (waiter_top _ _ _ RE IN) as (rest & TP & L).
  unfold ck. rewrite TP. destruct (lock_rest _ _ L) as (k2 & st & [(dl & ->)|[(dl & ->)|(v & dl & ret & ->)]]).
  - assert (I2 : incall s x k2 (OpLock m dl)) by (apply (top_call _ [FLock m] _ _ st TP); intros j p [D|[]]; discriminate D). destruct (incall_unique _ _ _ _ _ _ I2 IC) as [-> _]. cbn. rewrite Nat.eqb_refl. reflexivity.
  - assert (I2 : incall s x k2 (OpRdLock m dl)) by (apply (top_call _ [FLock m] _ _ st TP); intros j p [D|[]]; discriminate D). destruct (incall_unique _ _ _ _ _ _ I2 IC) as [-> _]. cbn. rewrite Nat.eqb_refl. reflexivity.
  - assert (I2 : incall s x k2 (OpCvWait v m dl)) by (apply (top_call _ [FLock m; FCvRelock m ret] _ _ st TP); intros j p [D|[D|[]]]; discriminate D). destruct (incall_unique _ _ _ _ _ _ I2 IC) as [_ ->]. destruct LC.
Qed.
(** a coroutine blocked in a lock or rdlock call is waiting, unless the scheduler is
    about to resume it (it has been handed the mutex, was canceled or timed out) *)
Theorem C10_blocked_waits : forall s m x k o, reach s -> tidy (tr s) -> blocked s x k o -> lockcall o m -> In x (waiters s m) \/ to_resume s x.
Proof.
  intros s m x k o RE T B LC. destruct (reach_wl _ RE T) as [_ WL]. assert (PA : In x (paused (sc s))) by apply B.
  destruct (blocked_frames _ _ _ _ RE B) as (w & st & SK & BF). destruct BF as [f o WF H|v m0 dl ret|b]; [|destruct LC..].
  assert (QF : f = FLock m) by (destruct o; try destruct LC; destruct f; try destruct H; try discriminate WF; reflexivity). subst f.
  destruct (WL x (FLock m) (FApi k o :: st) (QMu m)) as [IN|IN]; [rewrite SK; reflexivity | reflexivity | exact PA | left | right; exact IN].
  unfold waiters. change x with (node_co (NCo x)). apply in_map, IN.
Qed.
(** The waiters are in the order in which they called lock or rdlock. *)
Theorem C10_arrival_order : forall s m, reach s -> tidy (tr s) -> proper (tr s) -> forall l1 x l2 y l3 kx ox ky oy,
  waiters s m = l1 ++ x :: l2 ++ y :: l3 -> incall s x kx ox -> lockcall ox m -> incall s y ky oy -> lockcall oy m -> (kx < ky)%nat.
Proof.
  intros s m RE T P l1 x l2 y l3 kx ox ky oy W IX LX IY LY. destruct (reach_mord _ RE T P m) as [OS _ _].
  assert (WX : In x (waiters s m)) by (rewrite W; apply in_or_app; right; left; reflexivity).
  assert (WY : In y (waiters s m)) by (rewrite W; apply in_or_app; right; right; apply in_or_app; right; left; reflexivity).
  pose proof (waiter_ck _ _ _ _ _ RE WX IX LX) as KX. pose proof (waiter_ck _ _ _ _ _ RE WY IY LY) as KY.
  assert (NN : forall n, In n (q (dt s) (QMu m)) -> n = NCo (node_co n)) by (intros n IN; apply (objq_node s (QMu m) n RE I IN)).
  unfold waiters in W. apply map_eq_app in W. destruct W as (a & b & Q & _ & W). apply map_eq_cons in W. destruct W as (nx & b' & -> & NX & W).
  apply map_eq_app in W. destruct W as (a2 & b2 & -> & _ & W). apply map_eq_cons in W. destruct W as (ny & b3 & -> & NY & _).
  rewrite Q in OS. apply ss_app in OS. destruct OS as [OS _]. apply StronglySorted_inv in OS. destruct OS as [_ FA]. rewrite Forall_forall in FA.
  assert (LE : le1 (fun x => ck m (stk (sc s) x)) nx ny) by (apply FA, in_or_app; right; left; reflexivity). apply (LE kx ky); [rewrite NX; exact KX | rewrite NY; exact KY].
Qed.
(** No overtaking: while a coroutine waits in lock or rdlock call number [k1], no lock,
    rdlock, trylock or tryrdlock call on the mutex made after it has succeeded. *)
Theorem C10_no_overtaking : forall s m, reach s -> tidy (tr s) -> proper (tr s) -> forall x k1 o1,
  In x (waiters s m) -> incall s x k1 o1 -> lockcall o1 m ->
  forall k2 c o2 mm tm, In (TRet k2 c o2 OK mm tm) (tr s) -> lockcall o2 m -> (k2 < k1)%nat.
Proof.
  intros s m RE T P x k1 o1 WX IX LX k2 c o2 mm tm IN L2. destruct (reach_mord _ RE T P m) as [_ _ OW].
  eapply (OW x k1); [apply in_waiters; assumption | eapply waiter_ck; eassumption|]. exists c, o2, mm, tm. split; [exact IN | apply lockcall_b, L2].
Qed.

Lemma grant_in : forall m n d x, (forall y, In y (q d (QMu m)) -> y = NCo (node_co y)) -> In (NCo x) (q d (QMu m)) \/ In (NCo x) (q d QRes) ->
  In (NCo x) (q (grant m n d) (QMu m)) \/ In (NCo x) (q (grant m n d) QRes).
Proof.
  intros m n. induction n as [|n IH]; intros d x NN H; [exact H|]. cbn [grant]. unfold popq. destruct (q d (QMu m)) as [|y l] eqn:Q; [rewrite Q; exact H|].
  set (d1 := sched_resume (node_co y) (set_q (qupd (q d) (QMu m) l) d)).
  assert (NY : y = NCo (node_co y)) by (apply NN; left; reflexivity).
  assert (H1 : In (NCo x) (q d1 (QMu m)) \/ In (NCo x) (q d1 QRes)).
  { unfold d1. rewrite !In_sched_resume. cbn [q set_q]. rewrite qupd_eq, qupd_neq by discriminate. destruct (Z.eq_dec x (node_co y)) as [->|N]; [auto|].
    destruct H as [[H|H]|H]; [rewrite H in N; cbn in N; congruence | left; left; split; [exact H | congruence] | right; left; split; [exact H | congruence]]. }
  assert (N1 : forall z, In z (q d1 (QMu m)) -> z = NCo (node_co z)).
  { intros z IN. unfold d1 in IN. apply In_sched_resume in IN. cbn [q set_q] in IN. rewrite qupd_eq in IN. destruct IN as [[IN _]|[D _]]; [apply NN; right; exact IN | discriminate D]. }
  cbv zeta. fold d1. clearbody d1. destruct (rlocked (cof d1 (node_co y))); [|exact H1]. set (d2 := upmu m _ d1). assert (Q2 : q d2 = q d1) by reflexivity. clearbody d2.
  rewrite <- Q2 in H1, N1. clear Q2 d1. destruct (q d2 (QMu m)) as [|n2 l2] eqn:Q1; [rewrite Q1; exact H1|].
  match goal with |- context [if ?b then _ else _] => destruct b end; [|rewrite Q1; exact H1]. apply IH; rewrite Q1; assumption.
Qed.
(** Handing over: when the writer (or the last reader) calls unlock, the mutex goes to
    the first waiter if that is a writer, and to all the readers at the front of the
    queue otherwise; exactly these leave the queue, the scheduler is to resume them,
    and all others keep their place. *)
Definition wants_read (s : state) (m : nat) (x : Z) : Prop := exists k dl, incall s x k (OpRdLock m dl).
Theorem C10_handover : forall s m c, reach s -> tidy (tr s) -> proper (tr s) -> mode s = MUser -> cur (sc s) = Some c ->
  hold m c (tr s) = HW \/ (hold m c (tr s) <> HNone /\ mrl (mux (dt s) m) <= 1) -> waiters s m <> [] ->
  let s' := step s (ECall (OpUnlock m)) in
  exists P, waiters s m = P ++ waiters s' m /\ P <> [] /\ (forall x, In x P -> to_resume s' x) /\
    ((exists w, P = [w] /\ ~ wants_read s m w) \/
     ((forall x, In x P -> wants_read s m x) /\ forall y r, waiters s' m = y :: r -> ~ wants_read s m y)).
Proof.
  intros s m c RE T P MU CU HH WN s'. pose proof (reach_mok _ RE T P m) as OKM. assert (US : ustack (stk (sc s) c)) by (apply (proj2 (reach_full _ RE)); assumption).
  assert (HN : hold m c (tr s) <> HNone) by (destruct HH as [->|[H _]]; [discriminate | exact H]).
  assert (LK : mlocked (mux (dt s) m) = true) by (eapply held_locked; eassumption).
  assert (RL : mrl (mux (dt s) m) <= 1).
  { destruct HH as [H|[_ H]]; [|exact H]. destruct (Z.eq_dec (mrl (mux (dt s) m)) 0) as [->|R0]; [lia|]. pose proof (ok_w _ _ _ _ OKM R0 c) as W. cbv beta in W. rewrite H in W. unfold wW in W. destruct (ptok s m c) as [[]|]; lia. }
  assert (W : mrt (mux (dt s) m) = rtid (dt s)) by (apply (reach_mw _ RE T m (or_introl LK))). pose proof (reach_rt _ RE) as RT.
  assert (CM : check_mu m (dt s) = (OK, dt s)) by (unfold check_mu; rewrite W; destruct (Z.eqb_spec (rtid (dt s)) 0); [lia|]; rewrite Z.eqb_refl; reflexivity).
  destruct (hcall c (OpUnlock m) (now s) (dt s)) as [[d fs] k] eqn:E.
  destruct (exec c k (set_stk (zupd (stk (sc s)) c (fs ++ FApi (ncalls s) (OpUnlock m) :: stk (sc s) c)) (sc s))) as [sch md] eqn:X.
  assert (SE : s' = mkst sch (ctl_dat c (nextid (sc s) + 1) k d) md (now s) (S (ncalls s)) (call_tr s c (OpUnlock m) fs k)) by (apply step_call_eq; try assumption; discriminate).
  cbn [hcall] in E. unfold do_unlock in E. rewrite CM in E. change (negb (OK =? OK)) with false in E. cbn match in E.
  pose proof (reach_uniq _ RE) as [UQ _].
  assert (NN : forall n, In n (q (dt s) (QMu m)) -> n = NCo (node_co n)) by (intros n IN; apply (objq_node s (QMu m) n RE I IN)).
  destruct (fastunlock_eff m [FUnlock] (dt s) d fs k (UQ _) NN E) as (UE & CO & _).
  destruct UE as [L1 D1 F1 K1|L1 R1 L2 R2 Q2 F1 K1|L1 R1 L2 R2 Q2 Q3 F1 K1|PP L1 R1 L2 Q2 G R2 K1 F1]; [congruence | lia | unfold waiters in WN; rewrite Q2 in WN; destruct (WN eq_refl) |].
  assert (DT : dt s' = d) by (rewrite SE, K1; reflexivity).
  assert (RD : forall n, In n (q (dt s) (QMu m)) -> (rlocked (cof (dt s) (node_co n)) = true <-> wants_read s m (node_co n))).
  { intros n IN. rewrite (NN n IN) in IN. set (x := node_co n) in *. clearbody x. destruct (waiter_top _ _ _ RE IN) as (rest & TP & L). rewrite (reach_rlinv _ RE _ _ _ TP).
    destruct (lock_rest _ _ L) as (k2 & st & [(dl & ->)|[(dl & ->)|(v & dl & ret & ->)]]); cbn [wants].
    - assert (I2 : incall s x k2 (OpLock m dl)) by (apply (top_call _ [FLock m] _ _ st TP); intros j p [D|[]]; discriminate D). split; [discriminate|]. intros (k3 & dl3 & I3). destruct (incall_unique _ _ _ _ _ _ I2 I3) as [_ D]. discriminate D.
    - assert (I2 : incall s x k2 (OpRdLock m dl)) by (apply (top_call _ [FLock m] _ _ st TP); intros j p [D|[]]; discriminate D). split; [intros _; exists k2, dl; exact I2 | reflexivity].
    - assert (I2 : incall s x k2 (OpCvWait v m dl)) by (apply (top_call _ [FLock m; FCvRelock m ret] _ _ st TP); intros j p [D|[D|[]]]; discriminate D). split; [discriminate|]. intros (k3 & dl3 & I3). destruct (incall_unique _ _ _ _ _ _ I2 I3) as [_ D]. discriminate D. }
  exists (map node_co PP). unfold waiters. rewrite DT. split; [rewrite Q2 at 1; apply map_app|].
  assert (NE : PP <> []) by (destruct G as [(n & -> & _)|(H & _)]; [discriminate | exact H]). split; [destruct PP; [congruence | discriminate]|].
  assert (IQ : forall n, In n PP -> In n (q (dt s) (QMu m))) by (intros n IN; rewrite Q2; apply in_or_app; auto).
  split.
  - intros x IN. apply in_map_iff in IN. destruct IN as (n & <- & IN). unfold to_resume. rewrite DT. rewrite <- (NN n (IQ n IN)).
    unfold fastunlock in E. rewrite LK in E. cbn [negb] in E. cbv zeta in E.
    assert (NQ : ~ In n (q d (QMu m))).
    { intros I2. pose proof (UQ (QMu m)) as ND. rewrite Q2 in ND. clear - ND IN I2. induction PP as [|a l IH]; [destruct IN|]. cbn in ND. apply NoDup_cons_iff in ND. destruct ND as [N1 N2]. destruct IN as [->|IN]; [apply N1, in_or_app; auto | exact (IH IN N2)]. }
    assert (GO : forall d0, q d0 = q (dt s) -> yfsr [FUnlock] (grant m (length (q d0 (QMu m))) d0) = (d, fs, k) -> In n (q d QRes)).
    { intros d0 Q0 Y. apply yfsr_cases in Y. destruct Y as (DD & _). rewrite (NN n (IQ n IN)) in NQ |- *.
      destruct (grant_in m (length (q d0 (QMu m))) d0 (node_co n)) as [A|A]; [rewrite Q0; exact NN | left; rewrite Q0, <- (NN n (IQ n IN)); apply IQ, IN | rewrite <- DD in A; contradiction | rewrite <- DD in A; exact A]. }
    assert (EM : forall d0, q d0 = q (dt s) -> emptyq (QMu m) d0 = false).
    { intros d0 Q0. unfold emptyq. rewrite Q0. destruct (q (dt s) (QMu m)) eqn:QQ; [destruct (IQ n IN) | reflexivity]. }
    destruct (0 <? mrl (mux (dt s) m)) eqn:B1; cbn [andb] in E.
    + destruct (Z.ltb_spec 0 (mrl (mux (dt s) m) - 1)); [lia|]. rewrite EM in E by reflexivity. eapply GO; [|exact E]. reflexivity.
    + rewrite EM in E by reflexivity. eapply GO; [|exact E]. reflexivity.
  - destruct G as [(n & -> & G)|(_ & G1 & G2)].
    + left. exists (node_co n). split; [reflexivity|]. intros WR. apply RD in WR; [congruence | apply IQ; left; reflexivity].
    + right. split.
      * intros x IN. apply in_map_iff in IN. destruct IN as (n & <- & IN). apply RD; [apply IQ, IN | apply G1, IN].
      * intros y r QY WR. apply map_eq_cons in QY. destruct QY as (n & r' & QY & <- & _). apply RD in WR; [rewrite (G2 _ _ QY) in WR; discriminate WR|]. rewrite Q2, QY. apply in_or_app. right. left. reflexivity.
Qed.

(** Non-vacuity: a writer, with two readers, a writer and a reader waiting. *)
Definition ex10 : list event :=
  [ECall (OpLock 0 MAXI); ECall OpStart; ECall (OpRdLock 0 MAXI); ECall OpStart; ECall (OpRdLock 0 MAXI); ECall OpStart; ECall (OpLock 0 MAXI); ECall OpStart; ECall (OpRdLock 0 5000)].
Example C10_ex : let s := script ex10 in
  reach s /\ tidy (tr s) /\ proper (tr s) /\ mode s = MUser /\ cur (sc s) = Some 1 /\ hold 0 1 (tr s) = HW /\ waiters s 0 = [2; 3; 4; 5] /\
  waiters (step s (ECall (OpUnlock 0))) 0 = [4; 5] /\ incall s 2 2 (OpRdLock 0 MAXI).
Proof.
  cbv zeta. split; [apply script_reach|]. split; [apply noreset_tidy; vm_compute; reflexivity|]. split; [apply properb_ok; vm_compute; reflexivity|].
  split; [vm_compute; reflexivity|]. split; [vm_compute; reflexivity|]. split; [vm_compute; reflexivity|]. split; [vm_compute; reflexivity|]. split; [vm_compute; reflexivity|].
  exists [FPause; FLock 0], [FEntry]. split; [vm_compute; reflexivity|]. intros j p [D|[D|[]]]; discriminate D.
Qed.

Print Assumptions C08_mutual_exclusion.
Print Assumptions C08_readers_share.
Print Assumptions C09_refuted.
Print Assumptions C09_cancel_refuted.
Print Assumptions C09_free_partial.
Print Assumptions C09_free_unless_failed_partial.
Print Assumptions C10_waiter_call.
Print Assumptions C10_blocked_waits.
Print Assumptions C10_arrival_order.
Print Assumptions C10_no_overtaking.
Print Assumptions C10_handover.
