(** Without cancellations and lock deadlines nobody leaves a mutex locked behind. *)
From Coq Require Import List ZArith Bool Lia.
From Verif Require Import AATreeSpec AATreeHist Util Runtime SchedInv StepInv StackShape RuntimeSpec TraceInv Immediate Prims StaticInv Footprint QueueInv OwnInv WaitInv DeadlineInv CallInv SpecInv TraceStep Wake Awake AllInv PausedInv DldInv ResultInv JoinInv PairedInv TimeoutInv WaiterInv CancelInv CancelOrd CancelRes MutexSpec MutexW MutexEff MutexTok MutexRt MutexStep MutexInv.
Import ListNotations.
Local Open Scope Z_scope.

(** the call locks [m] and may wait *)
Definition locks (m : nat) (o : op) : Prop := match o with OpLock m' _ | OpRdLock m' _ | OpCvWait _ m' _ => m' = m | _ => False end.
(** cancels have no deadlines, and none is aimed at a coroutine that waits for [m] or at
    one that has ended; the mutex is locked without deadlines *)
Definition clean (m : nat) (t : list obs) : Prop :=
  (nofincancel t /\ forall k c o tm, In (TCall k c o tm) t -> locks m o -> forall j y id dl tn, In (TCall j y (OpCancel id dl) tn) t -> id <> c /\ ~ In (TExit id) t) /\
  forall k c o tm, In (TCall k c o tm) t -> match o with OpLock m' dl | OpRdLock m' dl => m' = m -> dl = MAXI | _ => True end.
Lemma clean_sub : forall m t t', (forall z, In z t -> In z t') -> clean m t' -> clean m t.
Proof. intros m t t' H [[A0 A] B]. split; [split; [intros k c id dl tm IN; eapply A0; eauto | intros k c o tm IN L j y id dl tn IC; destruct (A k c o tm (H _ IN) L j y id dl tn (H _ IC)) as [P Q]; split; [exact P | intros X; apply Q, H, X]] | intros k c o tm IN; eapply B; eauto]. Qed.

Lemma no_drop : forall s c v f rest m, reach s -> cur (sc s) = Some c -> mode s = MRet v -> stk (sc s) c = f :: rest -> lstack (f :: rest) -> clean m (tr s) ->
  ~ ((exists kk cv dl, f = FApi kk (OpCvWait cv m dl) /\ v = ECANCELED /\ casync (cof (dt s) c) = true) \/ (f = FLock m /\ (canceled (cof (dt s) c) = true \/ deadlined (cof (dt s) c) = true))).
Proof.
  intros s c v f rest m RE CU MU SK L [[NF NC] DL] [(kk & cv & dl & -> & -> & _)|[-> [C|D]]].
  - destruct (canceled_all _ RE) as [TR _]. destruct (TR c kk _ _ SK) as [[]|[O|(_ & v & Q & H)]]; [rewrite MU in O; exact O|].
    rewrite MU in Q. injection Q as <-. destruct (H Logic.I eq_refl eq_refl) as (k & c' & id & dl' & tm & A & B).
    destruct (ci_open _ (reach_cinv _ RE) c kk (OpCvWait cv m dl)) as (t & IT & _); [rewrite SK; left; reflexivity|].
    destruct (NC _ _ _ _ IT eq_refl _ _ _ _ _ A) as [N1 N2]. rewrite exited_In in B. destruct B as [B|B]; [exact (N1 B) | exact (N2 B)].
  - destruct (lock_rest _ _ L) as (kk & st & EQ).
    assert (IT : exists o t, locks m o /\ In (TCall kk c o t) (tr s)).
    { destruct EQ as [(dl & ->)|[(dl & ->)|(cv & dl & ret & ->)]]; eexists.
      - destruct (ci_open _ (reach_cinv _ RE) c kk (OpLock m dl)) as (t & IT & _); [rewrite SK; right; left; reflexivity|]. exists t. split; [|exact IT]. reflexivity.
      - destruct (ci_open _ (reach_cinv _ RE) c kk (OpRdLock m dl)) as (t & IT & _); [rewrite SK; right; left; reflexivity|]. exists t. split; [|exact IT]. reflexivity.
      - destruct (ci_open _ (reach_cinv _ RE) c kk (OpCvWait cv m dl)) as (t & IT & _); [rewrite SK; right; right; left; reflexivity|]. exists t. split; [|exact IT]. reflexivity. }
    destruct IT as (o & t & LO & IT). rewrite (spared_flag _ _ RE) in C; [discriminate C|].
    apply never_ended_spared. intros k c' id dl tm A. rewrite exited_In. exact (NC _ _ _ _ IT LO _ _ _ _ _ A).
  - destruct (reach_dld _ RE NF c D) as (g & r & TP & W & LT & DM). rewrite SK in TP. cbn in TP. injection TP as <- <-.
    destruct (lock_rest _ _ L) as (kk & st & [(dl & ->)|[(dl & ->)|H]]).
    + destruct (ci_open _ (reach_cinv _ RE) c kk (OpLock m dl)) as (t & IT & _); [rewrite SK; right; left; reflexivity|].
      pose proof (DL _ _ _ _ IT eq_refl) as ->. cbn in DM, LT. lia.
    + destruct (ci_open _ (reach_cinv _ RE) c kk (OpRdLock m dl)) as (t & IT & _); [rewrite SK; right; left; reflexivity|].
      pose proof (DL _ _ _ _ IT eq_refl) as ->. cbn in DM, LT. lia.
    + destruct H as (cv & dl & ret & ->). cbn in DM. lia.
Qed.

Theorem reach_mlow : forall s m, reach s -> tidy (tr s) -> proper (tr s) -> clean m (tr s) -> ~ over (mode s) -> mlow s m.
Proof.
  intros s m RE. revert s RE. apply (rrun_preserves (fun s => tidy (tr s) -> proper (tr s) -> clean m (tr s) -> ~ over (mode s) -> mlow s m)).
  - intros s c o d fs k sch md RE I M CU U NR E X T P CL NO. cbn [tr] in T, P, CL. pose proof (tidy_call _ _ _ _ _ T) as T1. pose proof (proj1 (proper_call _ _ _ _ _ P)) as P1.
    pose proof (reach_mok _ RE T1 P1 m) as K.
    assert (CL1 : clean m (tr s)) by (eapply clean_sub; [|exact CL]; intros z; apply (call_tr_old s c o fs k)).
    assert (NO1 : ~ over (mode s)) by (rewrite M; exact (fun H => H)).
    eapply (mstep_lows False); [exact (fun H => H) | exact K | apply I; assumption|]. eapply call_mstep; eassumption.
  - intros s c v f rest b d fs k sch md RE I M CU SK L E X T P CL NO. cbn [tr] in T, P, CL. pose proof (tidy_tick _ _ _ _ _ _ _ T) as T1. pose proof (proper_tick _ _ _ _ _ _ _ P) as P1.
    pose proof (reach_mok _ RE T1 P1 m) as K.
    assert (CL1 : clean m (tr s)) by (eapply clean_sub; [|exact CL]; intros z; apply (tick_tr_old s c v f d fs k)).
    assert (NO1 : ~ over (mode s)) by (rewrite M; exact (fun H => H)).
    eapply mstep_lows; [eapply no_drop; eassumption | exact K | apply I; assumption|]. eapply tick_mstep; eassumption.
  - intros s d ws sch md ios RE I M A K X T P CL NO. cbn [tr] in *.
    assert (NO1 : ~ over (mode s)) by (rewrite M; exact (fun H => H)). specialize (I T P CL NO1).
    destruct (main_same _ _ _ _ _ _ RE M K X) as [MX QP]. destruct (QP m) as [QQ PP].
    unfold mlow in *. cbn [tr]. rewrite MX. intros L0. eapply low_ext; [apply I; exact L0|]. intros x. unfold tot. rewrite PP. reflexivity.
  - intros s md RE I HM T P CL NO. cbn [tr mode set_mode] in *.
    assert (NO1 : ~ over (mode s)).
    { destruct HM as [[-> H]|[(-> & _)|[(n & ->)| ->]]]; [rewrite H; exact (fun H => H) | destruct (NO Logic.I)..]. }
    specialize (I T P CL NO1). unfold mlow in *. cbn [tr dt set_mode] in *. intros L0. eapply low_ext; [apply I; exact L0|].
    intros x. unfold tot. destruct (mode_ptok s md RE HM m x) as [->|[O _]]; [reflexivity | contradiction].
  - intros s e RE I H M T P CL NO. apply tidy_env in T; [|exact H]. apply proper_env in P; [|exact H]. rewrite M in NO.
    assert (CL1 : clean m (tr s)) by (eapply clean_sub; [|exact CL]; intros z; apply env_tr_old, H). specialize (I T P CL1 NO).
    destruct (env_same s e RE H M m) as (A & B & C & D). unfold mlow, lows, cap in *. rewrite A, B. intros L0. eapply low_ext; [apply I; exact L0|].
    intros x. unfold tot. destruct (D x) as [-> ->]. reflexivity.
  - intros g O T P CL NO L0. cbn in L0. discriminate L0.
Qed.
