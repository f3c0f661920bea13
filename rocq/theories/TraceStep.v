(** What one step adds to the trace. *)
From Coq Require Import List ZArith Bool Lia.
From Verif Require Import Util Runtime RuntimeSpec SchedInv StepInv StackShape TraceInv Immediate.
Import ListNotations.
Local Open Scope Z_scope.

Definition call_tr (s : state) (c : Z) (o : op) (fs : list frame) (k : ctl) : list obs :=
  ctl_obs c (nextid (sc s) + 1) k ++ handler_obs c fs k (dt s) ++ call_obs c (ncalls s) o s ++ tr s.
Definition tick_tr (s : state) (c v : Z) (f : frame) (d : dat) (fs : list frame) (k : ctl) : list obs :=
  ctl_obs c (nextid (sc s) + 1) k ++ handler_obs c fs k (dt s) ++ ret_obs c f v (d, fs, k) s ++ tr s.

Lemma call_tr_old : forall s c o fs k x, In x (tr s) -> In x (call_tr s c o fs k).
Proof. intros. unfold call_tr. rewrite !in_app_iff. auto. Qed.
Lemma tick_tr_old : forall s c v f d fs k x, In x (tr s) -> In x (tick_tr s c v f d fs k).
Proof. intros. unfold tick_tr. rewrite !in_app_iff. auto. Qed.
Lemma call_tr_new : forall s c o fs k, In (TCall (ncalls s) c o (now s)) (call_tr s c o fs k).
Proof.
  intros. unfold call_tr. rewrite !in_app_iff. right; right; left.
  destruct o; (left; reflexivity) || (right; left; reflexivity).
Qed.
Lemma call_tr_calls : forall s c o fs k kk cc oo tt, In (TCall kk cc oo tt) (call_tr s c o fs k) ->
  (kk = ncalls s /\ cc = c /\ oo = o /\ tt = now s) \/ In (TCall kk cc oo tt) (tr s).
Proof.
  intros s c o fs k kk cc oo tt H. unfold call_tr in H. apply in_app_or in H. destruct H as [H|H]; [destruct k; cbn in H; intuition discriminate|].
  apply in_app_or in H. destruct H as [H|H].
  - destruct (handler_obs_cases c fs k (dt s)) as [Q|(h & Q)]; rewrite Q in H; cbn in H; intuition discriminate.
  - apply in_app_or in H. destruct H as [H|H]; [|right; exact H]. left.
    destruct o; cbn in H; intuition (try discriminate); match goal with Q : TCall _ _ _ _ = _ |- _ => inj Q end; auto.
Qed.
Lemma call_tr_rets : forall s c o fs k kk cc oo v m tt, In (TRet kk cc oo v m tt) (call_tr s c o fs k) -> In (TRet kk cc oo v m tt) (tr s).
Proof.
  intros s c o fs k kk cc oo v m tt H. unfold call_tr in H. apply in_app_or in H. destruct H as [H|H]; [exfalso; eapply ctl_obs_noret; exact H|].
  apply in_app_or in H. destruct H as [H|H]; [exfalso; eapply handler_obs_noret; exact H|].
  apply in_app_or in H. destruct H as [H|H]; [exfalso; eapply call_obs_noret; exact H | exact H].
Qed.
Lemma tick_tr_calls : forall s c v f d fs k kk cc oo tt, In (TCall kk cc oo tt) (tick_tr s c v f d fs k) -> In (TCall kk cc oo tt) (tr s).
Proof.
  intros s c v f d fs k kk cc oo tt H. unfold tick_tr in H. apply in_app_or in H. destruct H as [H|H]; [destruct k; cbn in H; intuition discriminate|].
  apply in_app_or in H. destruct H as [H|H].
  - destruct (handler_obs_cases c fs k (dt s)) as [Q|(h & Q)]; rewrite Q in H; cbn in H; intuition discriminate.
  - apply in_app_or in H. destruct H as [H|H]; [|exact H].
    destruct (ret_obs_cases c f v (d, fs, k) s) as [Q|(k0 & o0 & d0 & _ & _ & Q)]; rewrite Q in H; cbn in H; intuition discriminate.
Qed.
Lemma tick_tr_rets : forall s c v f d fs k kk cc oo w m tt, In (TRet kk cc oo w m tt) (tick_tr s c v f d fs k) ->
  In (TRet kk cc oo w m tt) (tr s) \/
  (f = FApi kk oo /\ cc = c /\ w = v /\ m = rbuf (cof (dt s) c) /\ tt = now s /\ fs = [] /\ k = CUser).
Proof.
  intros s c v f d fs k kk cc oo w m tt H. unfold tick_tr in H. apply in_app_or in H. destruct H as [H|H]; [exfalso; eapply ctl_obs_noret; exact H|].
  apply in_app_or in H. destruct H as [H|H]; [exfalso; eapply handler_obs_noret; exact H|].
  apply in_app_or in H. destruct H as [H|H]; [|left; exact H]. right.
  unfold ret_obs in H. destruct f; try destruct H. destruct fs; try destruct H. destruct k; try destruct H.
  match goal with Q : TRet _ _ _ _ _ _ = _ |- _ => inj Q end. auto 10. inversion H.
Qed.
(** nothing but calls and returns of the runner, and the environment's entries *)
Lemma env_tr_in : forall s e x, match e with ECall _ | ETick _ | EMain _ => False | _ => True end ->
  In x (tr (step s e)) -> In x (tr s) \/ exists c k, x = TWorkDone c k.
Proof.
  intros s e x H I. destruct (env_tr s e H) as [Q|(c & Q)]; rewrite Q in I; [auto|]. destruct I as [<-|I]; eauto.
Qed.
Lemma env_tr_old : forall s e x, match e with ECall _ | ETick _ | EMain _ => False | _ => True end ->
  In x (tr s) -> In x (tr (step s e)).
Proof. intros s e x H I. destruct (env_tr s e H) as [Q|(c & Q)]; rewrite Q; [auto|right; auto]. Qed.
