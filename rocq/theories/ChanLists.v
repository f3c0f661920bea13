(** The lists of sends and receives along one step. *)
From Coq Require Import List ZArith Bool Lia.
From Verif Require Import Util Runtime RuntimeSpec SchedInv StepInv StackShape TraceInv Immediate CancelInv CallInv TraceStep ChanSpec.
Import ListNotations.
Local Open Scope Z_scope.

Definition quietz (z : obs) : Prop := match z with TCall _ _ _ _ | TRet _ _ _ _ _ _ => False | _ => True end.
Section L.
Context {A : Type} (sel : Z -> op -> option A).
Lemma failed_quiet : forall z t k, quietz z -> failed (z :: t) k = failed t k.
Proof. intros z t k Q. destruct z; try destruct Q; reflexivity. Qed.
Lemma failed_call : forall kk c o tm t k, failed (TCall kk c o tm :: t) k = failed t k.
Proof. reflexivity. Qed.
Lemma live_quiet : forall z t, quietz z -> live sel (z :: t) = live sel t.
Proof. intros z t Q. destruct z; try destruct Q; reflexivity. Qed.
Lemma live_quiets : forall l t, Forall quietz l -> live sel (l ++ t) = live sel t.
Proof. intros l t F. induction F; cbn [app]; [reflexivity|]. rewrite live_quiet by assumption. exact IHF. Qed.
Lemma live_call : forall k c o tm t, failed t k = false ->
  live sel (TCall k c o tm :: t) = live sel t ++ match sel c o with Some a => [(k, a)] | None => [] end.
Proof.
  intros k c o tm t F. unfold live. cbn [calls_of]. rewrite filter_app. f_equal.
  destruct (sel c o); cbn [filter fst]; [|reflexivity]. rewrite failed_call, F. reflexivity.
Qed.
Lemma live_ret : forall k c o r m tm t,
  live sel (TRet k c o r m tm :: t) = filter (fun p => (r =? OK) || negb (Nat.eqb k (fst p))) (live sel t).
Proof.
  intros k c o r m tm t. unfold live. cbn [calls_of]. rewrite filter_filter. apply filter_ext_all. intros p.
  cbn [failed existsb]. fold (failed t (fst p)). destruct (r =? OK), (Nat.eqb k (fst p)), (failed t (fst p)); reflexivity.
Qed.
Lemma calls_of_in : forall t k a, In (k, a) (calls_of sel t) -> exists c o tm, In (TCall k c o tm) t /\ sel c o = Some a.
Proof.
  induction t as [|z t IH]; intros k a IN; [destruct IN|].
  assert (OLD : In (k, a) (calls_of sel t) -> exists c o tm, In (TCall k c o tm) (z :: t) /\ sel c o = Some a).
  { intros I0. destruct (IH _ _ I0) as (c & o & tm & A0 & B0). exists c, o, tm. split; [right; exact A0 | exact B0]. }
  destruct z as [k0 c o tm| | | | | |]; cbn [calls_of] in IN; auto.
  apply in_app_or in IN. destruct IN as [IN|IN]; auto. destruct (sel c o) eqn:S; [|destruct IN]. destruct IN as [IN|[]]. injection IN as -> ->.
  exists c, o, tm. split; [left; reflexivity | exact S].
Qed.
Lemma live_in : forall t k a, In (k, a) (live sel t) -> exists c o tm, In (TCall k c o tm) t /\ sel c o = Some a.
Proof. intros t k a IN. unfold live in IN. apply filter_In in IN. apply calls_of_in with (1 := proj1 IN). Qed.
End L.
Lemma failed_in : forall t k, failed t k = true -> exists c o r m tm, In (TRet k c o r m tm) t /\ r <> OK.
Proof.
  intros t k F. unfold failed in F. apply existsb_exists in F. destruct F as (z & IN & F). destruct z; try discriminate.
  apply andb_true_iff in F. destruct F as [F1 F2]. apply Nat.eqb_eq in F1. subst. do 5 eexists. split; [exact IN|].
  intros ->. discriminate F2.
Qed.
Lemma failed_not : forall t k, (forall c o r m tm, In (TRet k c o r m tm) t -> r = OK) -> failed t k = false.
Proof. intros t k H. destruct (failed t k) eqn:F; [|reflexivity]. apply failed_in in F. destruct F as (c & o & r & m & tm & IN & NE). destruct (NE (H _ _ _ _ _ IN)). Qed.

Lemma obs_quiet : forall c n k fs d, Forall quietz (ctl_obs c n k) /\ Forall quietz (handler_obs c fs k d).
Proof.
  intros. split; [destruct k; repeat constructor|]. destruct (handler_obs_cases c fs k d) as [->|(h & ->)]; repeat constructor.
Qed.
Lemma ncalls_notfailed : forall s, reach s -> failed (tr s) (ncalls s) = false.
Proof.
  intros s RE. apply failed_not. intros c o r m tm IN. exfalso. pose proof (reach_cinv _ RE) as C.
  apply in_split in IN. destruct IN as (l1 & l2 & E). destruct (ci_ret _ C _ _ _ _ _ _ _ _ E) as ((t0 & I0 & _) & _).
  assert (I1 : In (TCall (ncalls s) c o t0) (tr s)) by (rewrite E; apply in_or_app; right; right; exact I0).
  destruct (ci_lt _ C _ _ _ _ I1) as [L _]. lia.
Qed.
Lemma live_call_tr : forall A (sel : Z -> op -> option A) s c o fs k, reach s ->
  live sel (call_tr s c o fs k) = live sel (tr s) ++ match sel c o with Some a => [(ncalls s, a)] | None => [] end.
Proof.
  intros A sel s c o fs k RE. unfold call_tr. destruct (obs_quiet c (nextid (sc s) + 1) k fs (dt s)) as [Q1 Q2].
  rewrite live_quiets by exact Q1. rewrite live_quiets by exact Q2. pose proof (ncalls_notfailed _ RE) as NF.
  destruct o; try (cbn [call_obs app]; apply live_call; exact NF).
  cbn [call_obs app]. rewrite live_quiet by exact Logic.I. apply live_call. exact NF.
Qed.
(** what a tick leaves *)
Definition keep (c v : Z) (f : frame) (fs : list frame) (k : ctl) (j : nat) : bool :=
  match f, fs, k with FApi kk o, [], CUser => (v =? OK) || negb (Nat.eqb kk j) | _, _, _ => true end.
Lemma live_tick_tr : forall A (sel : Z -> op -> option A) s c v f d fs k,
  live sel (tick_tr s c v f d fs k) = filter (fun p => keep c v f fs k (fst p)) (live sel (tr s)).
Proof.
  intros A sel s c v f d fs k. unfold tick_tr. destruct (obs_quiet c (nextid (sc s) + 1) k fs (dt s)) as [Q1 Q2].
  rewrite live_quiets by exact Q1. rewrite live_quiets by exact Q2.
  assert (ALL : live sel (tr s) = filter (fun _ => true) (live sel (tr s))) by (symmetry; apply filter_all; reflexivity).
  destruct f; cbn [ret_obs app keep]; try exact ALL. destruct fs; cbn [app]; [|exact ALL]. destruct k; cbn [app]; try exact ALL. apply live_ret.
Qed.
Lemma live_env : forall A (sel : Z -> op -> option A) s e, match e with ECall _ | ETick _ | EMain _ => False | _ => True end ->
  live sel (tr (step s e)) = live sel (tr s).
Proof. intros A sel s e H. destruct (env_tr s e H) as [->|(y & ->)]; [reflexivity | apply live_quiet; exact Logic.I]. Qed.
