(** C45: a started coroutine begins in a fresh state. *)
From Coq Require Import List ZArith Bool Lia.
From Verif Require Import AATreeSpec AATreeHist Util Runtime SchedInv StepInv StackShape RuntimeSpec TraceInv Immediate Prims StaticInv Footprint QueueInv OwnInv WaitInv CallInv SpecInv TraceStep Wake Awake AllInv PausedInv ResultInv JoinInv PairedInv CancelInv CancelRes CancelSpec CancelSt HandlerInv DldInv WatchInv FreshInv Scripts ScriptsP BlockSpec Stuck.
Import ListNotations.
Local Open Scope Z_scope.

(** ** Specification *)
(** coroutine [x] is about to execute its first instruction: its start is the last
    thing that happened, and its code is running *)
Definition begins (s : state) (x : Z) : Prop :=
  (exists p T, tr s = TStart p x :: T) /\ cur (sc s) = Some x /\ mode s = MUser.
(** what a coroutine should look like then *)
Record fresh (s : state) (x : Z) : Prop := {
  fr_type : casync (cof (dt s) x) = env_async (dt s);          (* the default cancel type *)
  fr_state : cenabled (cof (dt s) x) = env_enabled (dt s);      (* the default cancel state *)
  fr_handlers : cleanups (cof (dt s) x) = [];                   (* no cleanup handlers *)
  fr_canceled : canceled (cof (dt s) x) = false;                (* not canceled *)
  fr_deadline : deadlined (cof (dt s) x) = false;               (* no expired deadline *)
  fr_watch : sigwatch (cof (dt s) x) = 0 }.                     (* watches no signal *)
(** no coroutine that has ended was ever the target of a cancel *)
Definition no_ended_target (t : list obs) : Prop :=
  forall k c id dl tm, In (TCall k c (OpCancel id dl) tm) t -> ~ In id (exited t).

Lemma begins_nocall : forall s x, reach s -> begins s x -> forall k o t, ~ In (TCall k x o t) (tr s).
Proof.
  intros s x RE [(p & T & Q) _] k o t I. rewrite Q in I. destruct I as [I|I]; [discriminate I|].
  exact (reach_late _ RE [] T p x Q _ I eq_refl).
Qed.
Lemma begins_started : forall s x, begins s x -> In x (started (tr s)).
Proof. intros s x [(p & T & ->) _]. left. reflexivity. Qed.

(** The cancel type and state are always the defaults of the environment. *)
Theorem C45_defaults : forall s x, reach s -> begins s x ->
  casync (cof (dt s) x) = env_async (dt s) /\ cenabled (cof (dt s) x) = env_enabled (dt s).
Proof.
  intros s x RE B. pose proof (reach_cst _ RE x (begins_started _ _ B)) as H.
  destruct (ct_none x (env_async (dt s)) (env_enabled (dt s)) (tr s)) as [E1 E2]; [apply begins_nocall; assumption|]. rewrite E1, E2 in H.
  unfold ac in H. injection H; intros. auto.
Qed.
(** No cleanup handlers, when every coroutine pops what it pushes or ends by exiting
    (the pairing the neco_cleanup macros enforce). *)
Theorem C45_handlers : forall s x, preach s -> begins s x -> cleanups (cof (dt s) x) = [].
Proof.
  intros s x PR B. rewrite (hs_eq _ (preach_hs _ PR)) by (apply begins_started, B). destruct B as [(p & T & Q) _].
  rewrite Q. cbn [handlers]. apply handlers_none. exact (reach_late _ (preach_reach _ PR) [] T p x Q).
Qed.
(** Not canceled, unless an earlier coroutine was canceled and ended. *)
Theorem C45_canceled_partial : forall s x, reach s -> begins s x -> no_ended_target (tr s) ->
  (forall k c dl tm, ~ In (TCall k c (OpCancel x dl) tm) (tr s)) -> canceled (cof (dt s) x) = false.
Proof.
  intros s x RE B N NX. destruct (canceled (cof (dt s) x)) eqn:C; [|reflexivity]. exfalso.
  destruct (reach_cn _ RE x C) as (k & c & id & dl & tm & A & [->|D]); [exact (NX _ _ _ _ A) | exact (N _ _ _ _ _ A D)].
Qed.
(** No expired deadline, unless a neco_cancel_dl call with a deadline was made. *)
Theorem C45_deadline_partial : forall s x, reach s -> begins s x -> nofincancel (tr s) -> deadlined (cof (dt s) x) = false.
Proof.
  intros s x RE [_ [CU M]] NF. apply ustack_nodl; [intros y; apply (reach_wsh _ RE) | apply reach_dld; assumption |].
  apply (proj2 (reach_full _ RE)); assumption.
Qed.
(** Watches nothing, unless a coroutine ended while it watched a signal. *)
Theorem C45_watch_partial : forall s x, reach s -> begins s x -> tidy (tr s) -> sigwatch (cof (dt s) x) = 0.
Proof.
  intros s x RE B TD. apply nobits; [exact RE|]. intros MT n SN. rewrite (wo_bit _ (reach_wi _ RE MT TD)); [|apply begins_started, B|exact SN].
  apply w_none, begins_nocall; assumption.
Qed.
(** All together. *)
Theorem C45_fresh_partial : forall s x, preach s -> begins s x -> nofincancel (tr s) -> tidy (tr s) -> no_ended_target (tr s) ->
  (forall k c dl tm, ~ In (TCall k c (OpCancel x dl) tm) (tr s)) -> fresh s x.
Proof.
  intros s x PR B NF TD NE NX. pose proof (preach_reach _ PR) as RE. destruct (C45_defaults s x RE B). split; try assumption.
  - apply C45_handlers; assumption.
  - apply C45_canceled_partial; assumption.
  - apply C45_deadline_partial; assumption.
  - apply C45_watch_partial; assumption.
Qed.

(** ** The exceptions are real: the record of an ended coroutine is recycled as it is. *)
(** Coroutine 2 is canceled and returns without blocking again; coroutine 3 begins
    canceled (C17_uncanceled_refuted shows its first sleep failing). *)
Theorem C45_canceled_refuted : exists s x, preach s /\ begins s x /\ canceled (cof (dt s) x) = true /\
  forall k c dl tm, ~ In (TCall k c (OpCancel x dl) tm) (tr s).
Proof.
  exists (script [ECall OpStart; ECall OpYield; ECall (OpCancel 2 MAXI); ECall OpReturn; ECall OpStart]), 3.
  split; [apply script_preach; vm_compute; reflexivity|]. split; [split; [|split; vm_compute; reflexivity]; exists 1; eexists; vm_compute; reflexivity|].
  split; [vm_compute; reflexivity|]. intros k c dl tm I.
  assert (F : forallb (fun z => match z with TCall _ _ (OpCancel id _) _ => negb (id =? 3) | _ => true end)
    (tr (script [ECall OpStart; ECall OpYield; ECall (OpCancel 2 MAXI); ECall OpReturn; ECall OpStart])) = true) by (vm_compute; reflexivity).
  rewrite forallb_forall in F. apply F in I. discriminate I.
Qed.
(** Coroutine 3 ends with an expired neco_cancel_dl deadline that nobody has told it
    about; coroutine 4 begins with it: its first suspend, whose deadline is far away,
    returns NECO_TIMEDOUT at once. *)
Definition ex45d : state := script [ECall OpStart; ECall (OpSetState false); ECall OpYield; ECall OpStart; ECall (OpCancel 2 2000); ECall OpYield;
  EAdv 3000; ECall OpYield; ECall OpYield; ECall OpReturn; ECall OpYield; ECall OpReturn; ECall OpStart].
Theorem C45_deadline_refuted : exists s x dl t, preach s /\ begins s x /\ deadlined (cof (dt s) x) = true /\ t < dl /\
  exists k m, In (TRet k x (OpSuspend dl) ETIMEDOUT m t) (tr (run s (ECall (OpSuspend dl) :: settle 12))).
Proof.
  exists ex45d, 4, 99000, 3000.
  split; [apply script_preach; vm_compute; reflexivity|]. split; [split; [|split; vm_compute; reflexivity]; exists 1; eexists; vm_compute; reflexivity|].
  split; [vm_compute; reflexivity|]. split; [lia|]. exists 10%nat, 0. vm_compute. tauto.
Qed.
(** Coroutine 2 ends while it watches a signal; coroutine 3 begins with that watch and
    so waits for the signal instead of being told NECO_NOSIGWATCH. *)
Definition ex45w : state := script [ECall OpStart; ECall (OpSigWatch 10); ECall OpReturn; ECall OpStart].
Theorem C45_watch_refuted : exists s x, preach s /\ begins s x /\ sigwatch (cof (dt s) x) <> 0 /\
  exists k, blocked (run s (ECall (OpSigWait MAXI) :: settle 12)) x k (OpSigWait MAXI).
Proof.
  exists ex45w, 3.
  split; [apply script_preach; vm_compute; reflexivity|]. split; [split; [|split; vm_compute; reflexivity]; exists 1; eexists; vm_compute; reflexivity|].
  split; [vm_compute; discriminate|]. exists 3%nat. apply blockedb_ok. split; [vm_compute; auto|]. exists 2%nat. eexists. split; vm_compute; reflexivity.
Qed.
(** Coroutine 2 returns without popping its cleanup handler; coroutine 3 begins with it. *)
Theorem C45_handlers_refuted : exists s x, reach s /\ begins s x /\ cleanups (cof (dt s) x) <> [].
Proof.
  exists (script [ECall OpStart; ECall (OpCleanupPush 7); ECall OpReturn; ECall OpStart]), 3.
  split; [apply script_reach|]. split; [split; [|split; vm_compute; reflexivity]; exists 1; eexists; vm_compute; reflexivity|]. vm_compute. discriminate.
Qed.

(** ** Non-vacuity: coroutine 2 changes its cancel type and state, pushes and pops a
    handler, watches and stops watching a signal, times out and ends; coroutine 3
    recycles its record. *)
Definition ex45 : state := script [ECall OpStart; ECall (OpSetType true); ECall (OpSetState false); ECall (OpCleanupPush 7); ECall (OpCleanupPop false);
  ECall (OpSigWatch 10); ECall (OpSigUnwatch 10); ECall (OpSuspend 2000); ECall OpYield; EAdv 3000; ECall OpYield; ECall OpYield; ECall OpReturn; ECall OpStart].
Lemma split_exit : forall (P : Z -> list obs -> Prop) t, (fix go t := match t with [] => True | TExit x :: r => P x r /\ go r | _ :: r => go r end) t ->
  forall l1 l2 x, t = l1 ++ TExit x :: l2 -> P x l2.
Proof.
  induction t as [|z t IH]; intros H l1 l2 x Q; [destruct l1; discriminate Q|]. destruct l1 as [|y l1]; cbn [app] in Q; injection Q as -> ->.
  - apply H.
  - eapply IH; [|reflexivity]. destruct y; try exact H. apply H.
Qed.
Example C45_example : preach ex45 /\ begins ex45 3 /\ nofincancel (tr ex45) /\ tidy (tr ex45) /\ no_ended_target (tr ex45) /\
  (forall k c dl tm, ~ In (TCall k c (OpCancel 3 dl) tm) (tr ex45)) /\ In 2 (exited (tr ex45)) /\
  In (TCall 5 2 (OpSigWatch 10) 1000) (tr ex45) /\ exists m, In (TRet 7 2 (OpSuspend 2000) ETIMEDOUT m 3000) (tr ex45).
Proof.
  assert (F : forallb (fun z => match z with TCall _ _ (OpCancel _ _) _ => false | _ => true end) (tr ex45) = true) by (vm_compute; reflexivity).
  rewrite forallb_forall in F.
  split; [apply script_preach; vm_compute; reflexivity|]. split; [split; [|split; vm_compute; reflexivity]; exists 1; eexists; vm_compute; reflexivity|].
  split; [intros k c id dl tm I; apply F in I; discriminate I|]. split.
  - intros l1 l2 x n Q SN. revert n SN. pattern x, l2. revert Q. apply split_exit. vm_compute.
    split; [|exact Logic.I]. intros n _. match goal with |- (if ?b then _ else _) = _ => destruct b; reflexivity end.
  - split; [intros k c id dl tm I; apply F in I; discriminate I|]. split; [intros k c dl tm I; apply F in I; discriminate I|].
    split; [vm_compute; tauto|]. split; [vm_compute; tauto|]. exists 0. vm_compute. tauto.
Qed.

Print Assumptions C45_defaults.
Print Assumptions C45_handlers.
Print Assumptions C45_canceled_partial.
Print Assumptions C45_deadline_partial.
Print Assumptions C45_watch_partial.
Print Assumptions C45_fresh_partial.
Print Assumptions C45_canceled_refuted.
Print Assumptions C45_deadline_refuted.
Print Assumptions C45_watch_refuted.
Print Assumptions C45_handlers_refuted.
