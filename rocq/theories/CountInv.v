(** The blocked counters are exact: each equals the number of coroutines waiting
    in the corresponding kind of frame. *)
From Coq Require Import List ZArith Bool Lia.
From Verif Require Import AATreeSpec AATreeHist Util Runtime SchedInv StepInv StackShape Prims StaticInv QueueInv OwnInv WaitInv.
Import ListNotations.
Local Open Scope Z_scope.

(** kinds of blocking, in the order of struct neco_stats, /repo/neco.h:283-294 *)
Inductive cls := KSleep | KEv | KSig | KSend | KRecv | KLock | KWg | KCv | KSusp | KWork.
Definition ctr (i : cls) (d : dat) : Z :=
  match i with
  | KSleep => nsleepers d | KEv => nevs d | KSig => nsigs d | KSend => nsenders d | KRecv => nreceivers d
  | KLock => nlocked d | KWg => nwgs d | KCv => ncvs d | KSusp => nsusp d | KWork => niow d
  end.
(** frame [f] belongs to the waiting part of a blocking call of kind [i] *)
Definition infr (i : cls) (f : frame) : bool :=
  match i, f with
  | KSleep, FSleep | KEv, FEvWait _ _ | KSig, FSigWait | KSend, FSendWait _
  | KRecv, FRecvWait _ | KRecv, FSelWait _ | KLock, FLock _ | KWg, FWgWait _
  | KCv, FCvWait _ _ | KSusp, FSuspend | KWork, FWork | KWork, FWorkRetry => true
  | _, _ => false
  end.
(** the coroutine is blocked in kind [i]: the waiting frame is on top, possibly
    below copause *)
Definition blk (i : cls) (st : list frame) : bool :=
  match st with
  | FPause :: f :: _ => infr i f
  | f :: _ => infr i f
  | [] => false
  end.
Definition b2z (b : bool) : Z := if b then 1 else 0.
Definition zsum (f : Z -> Z) (l : list Z) : Z := fold_right (fun x a => f x + a) 0 l.

Lemma zsum_cons : forall f x l, zsum f (x :: l) = f x + zsum f l.
Proof. reflexivity. Qed.
Lemma zsum_ext : forall f g l, (forall x, In x l -> f x = g x) -> zsum f l = zsum g l.
Proof.
  intros f g l; induction l as [|x l IH]; intros H; [reflexivity|]. rewrite !zsum_cons, (H x) by (left; reflexivity).
  rewrite IH; [reflexivity|]. intros y I. apply H. right. exact I.
Qed.
Lemma zsum_upd : forall f g c l, NoDup l -> In c l -> (forall x, x <> c -> f x = g x) -> zsum g l = zsum f l + (g c - f c).
Proof.
  intros f g c l; induction l as [|x l IH]; intros ND I H; [contradiction|]. apply NoDup_cons_iff in ND. destruct ND as [NI ND].
  rewrite !zsum_cons. destruct I as [->|I].
  - rewrite (zsum_ext g f l); [lia|]. intros y J. symmetry. apply H. intros ->. contradiction.
  - rewrite IH by assumption. rewrite (H x); [lia|]. intros ->. contradiction.
Qed.

Lemma nowait_blk : forall i st, nowait st -> blk i st = false.
Proof.
  intros i st N. destruct st as [|f st]; [reflexivity|].
  pose proof (N f (or_introl eq_refl)) as P. destruct f; cbn in P; try discriminate; destruct i; reflexivity.
Qed.
Lemma quiet_ctr : forall i c d d', quiet c d d' -> ctr i d' = ctr i d.
Proof. intros i c d d' [Q _ _]. unfold hard in Q. injection Q; intros. destruct i; cbn; congruence. Qed.
Lemma enter_ctr : forall i c f d, ctr i (enter c f d) = ctr i d + b2z (infr i f).
Proof. intros i c f d. destruct f, i; cbn; lia. Qed.
Lemma lv_ctr : forall i c f d, ctr i (lv c f d) = ctr i d - b2z (infr i f).
Proof.
  intros i c f d. destruct f; try (destruct i; cbn; lia). cbn [lv]. unfold pause_end. cbv zeta.
  destruct (_ <? _); destruct i; cbn; lia.
Qed.
Lemma copause_ctr : forall i c dl fs d d' fs' k, copause c dl fs d = (d', fs', k) -> ctr i d' = ctr i d.
Proof.
  intros i c dl fs d d' fs' k E. apply copause_fs in E. destruct E as [(_ & _ & -> & _)|(_ & _ & _ & _ & ->)]; [reflexivity|].
  cbv zeta. destruct (_ <? _); destruct i; reflexivity.
Qed.
Lemma outc_ctr : forall V c d d' fs k i st, outc c V d d' fs k -> nowait st ->
  ctr i d' = ctr i d + b2z (blk i (fs ++ st)).
Proof.
  intros V c d d' fs k i st [Q N K|f rest dl d1 Q W N WD E| -> -> _| -> -> _] NS.
  - rewrite nowait_blk by (apply nowait_app; assumption). rewrite (quiet_ctr i _ _ _ Q). cbn. lia.
  - rewrite (copause_ctr i _ _ _ _ _ _ _ E), enter_ctr, (quiet_ctr i _ _ _ Q).
    apply copause_fs in E. destruct E as [(-> & _)|(-> & _)]; [|reflexivity]. destruct f; try discriminate; reflexivity.
  - destruct i; cbn; lia.
  - destruct i; cbn; lia.
Qed.
Lemma outc_npause : forall V c d d' fs k i st b, outc c V d d' fs k -> nowait st -> k = CFinal b -> blk i (fs ++ st) = false.
Proof.
  intros V c d d' fs k i st b O NS ->. apply nowait_blk. apply nowait_app; [eapply outc_final; exact O|exact NS].
Qed.
Lemma ctl_ctr : forall i c n k d, ctr i (ctl_dat c n k d) = ctr i d.
Proof.
  intros i c n k d. destruct k; try reflexivity; cbn [ctl_dat].
  - pose proof (spawn_hard (Some c) n isgen d) as H. unfold hard in H. injection H; intros. destruct i; cbn; congruence.
Qed.

Definition covers (l : list Z) (p : sched) : Prop := NoDup l /\ forall x, stk p x <> [] -> In x l.
Definition cnt (i : cls) (p : sched) (l : list Z) : Z := zsum (fun x => b2z (blk i (stk p x))) l.
(** a step of coroutine [c] *)
Lemma cnt_step : forall i s c d k fs rest sch md old,
  full s -> cur (sc s) = Some c ->
  (forall l, covers l (sc s) -> ctr i (dt s) = cnt i (sc s) l) ->
  b2z (blk i (stk (sc s) c)) = old ->
  ctr i d = ctr i (dt s) - old + b2z (blk i (fs ++ rest)) ->
  (forall b, k = CFinal b -> blk i (fs ++ rest) = false) ->
  exec c k (set_stk (zupd (stk (sc s)) c (fs ++ rest)) (sc s)) = (sch, md) ->
  forall l, covers l sch -> ctr i (ctl_dat c (nextid (sc s) + 1) k d) = cnt i sch l.
Proof.
  intros i s c d k fs rest sch md old F CU I EO EC FN X l [ND CV]. pose proof (cur_notfresh _ _ F CU) as NF.
  rewrite ctl_ctr.
  assert (AC : stk (sc s) c <> []) by (destruct F as [[SI _] _]; apply (cur_alive _ _ SI CU)).
  assert (NC : b2z (blk i (stk sch c)) = b2z (blk i (fs ++ rest))).
  { destruct (exec_stk_cases _ _ _ _ _ X NF c) as [[_ ->]|[(NE & _)|(NE & _)]]; try congruence.
    cbn. rewrite zupd_eq. destruct k; try reflexivity. rewrite (FN _ eq_refl). reflexivity. }
  assert (OC : forall x, x <> c -> b2z (blk i (stk (sc s) x)) = b2z (blk i (stk sch x))).
  { intros x NE. destruct (exec_stk_cases _ _ _ _ _ X NF x) as [[? _]|[(_ & -> & _ & ->)|(_ & -> & _)]]; try congruence.
    - cbn [nextid set_stk]. rewrite stk_fresh by exact F. destruct i; reflexivity.
    - cbn. rewrite zupd_neq by exact NE. reflexivity. }
  assert (CO : forall x, x <> c -> stk (sc s) x <> [] -> stk sch x <> []).
  { intros x NE A. destruct (exec_stk_cases _ _ _ _ _ X NF x) as [[? _]|[(_ & -> & _ & ->)|(_ & -> & _)]]; try congruence.
    cbn. rewrite zupd_neq by exact NE. exact A. }
  destruct (in_dec Z.eq_dec c l) as [IN|NI].
  - assert (CL : covers l (sc s)).
    { split; [exact ND|]. intros x A. destruct (Z.eq_dec x c) as [->|NE]; [exact IN|]. apply CV, CO; assumption. }
    unfold cnt. rewrite (zsum_upd (fun x => b2z (blk i (stk (sc s) x))) (fun x => b2z (blk i (stk sch x))) c l ND IN OC).
    rewrite NC, EO, EC. pose proof (I _ CL) as J. unfold cnt in J. lia.
  - assert (CL : covers (c :: l) (sc s)).
    { split; [constructor; assumption|]. intros x A. destruct (Z.eq_dec x c) as [->|NE]; [left; reflexivity|].
      right. apply CV, CO; assumption. }
    assert (Z0 : b2z (blk i (fs ++ rest)) = 0).
    { rewrite <- NC. destruct (stk sch c) eqn:SC; [destruct i; reflexivity|]. exfalso. apply NI, CV. rewrite SC. discriminate. }
    pose proof (I _ CL) as J. unfold cnt in *. rewrite zsum_cons in J.
    rewrite EC, Z0. rewrite <- (zsum_ext (fun x => b2z (blk i (stk (sc s) x))) (fun x => b2z (blk i (stk sch x))) l); [lia|].
    intros x IX. apply OC. intros ->. contradiction.
Qed.

Theorem reach_cnt : forall i s, reach s -> forall l, covers l (sc s) -> ctr i (dt s) = cnt i (sc s) l.
Proof.
  intros i. apply (rrun_preserves (fun s => forall l, covers l (sc s) -> ctr i (dt s) = cnt i (sc s) l)).
  - intros s c o d fs k sch md RE I M CU U NR E X. cbn [sc dt].
    pose proof (reach_full _ RE) as F. pose proof (hcall_out _ _ _ _ _ _ _ E) as OC.
    assert (NW : nowait (stk (sc s) c)) by (apply ustack_nowait; [apply reach_wsh; exact RE|exact U]).
    assert (NW2 : nowait (FApi (ncalls s) o :: stk (sc s) c)) by (apply nowait_cons; [reflexivity|exact NW]).
    eapply (cnt_step i s c d k fs _ sch md 0); [exact F|exact CU|exact I| | | |exact X].
    + rewrite nowait_blk by exact NW. reflexivity.
    + rewrite (outc_ctr _ _ _ _ _ _ i _ OC NW2). lia.
    + intros b ->. eapply outc_npause; [exact OC|exact NW2|reflexivity].
  - intros s c v f rest b d fs k sch md RE I M CU SK L E X. cbn [sc dt].
    pose proof (reach_full _ RE) as F. destruct (hret_out _ _ _ _ _ _ _ _ _ E) as (d0 & Q & OC).
    pose proof (reach_wsh _ RE c) as W. rewrite SK in W.
    assert (NP : f = FPause \/ f <> FPause) by (destruct f; auto; right; discriminate).
    destruct NP as [->|NP].
    + cbn in E. inj E. destruct (wsh_pause _ W) as (g & st & -> & WG & NS).
      eapply (cnt_step i s c _ (CRet 0) [] (g :: st) sch md); [exact F|exact CU|exact I|reflexivity| |discriminate|exact X].
      rewrite SK. cbn [app]. change (pause_end c (dt s)) with (lv c FPause (dt s)). rewrite (lv_ctr i c FPause (dt s)).
      replace (blk i (g :: st)) with (infr i g) by (destruct g; try discriminate; reflexivity). cbn [blk].
      destruct i; cbn; lia.
    + pose proof (wsh_tl _ _ W NP) as NW.
      eapply (cnt_step i s c d k fs rest sch md); [exact F|exact CU|exact I|reflexivity| | |exact X].
      * rewrite (outc_ctr _ _ _ _ _ _ i _ OC NW), lv_ctr, (quiet_ctr i _ _ _ Q), SK.
        replace (blk i (f :: rest)) with (infr i f) by (destruct f; try reflexivity; congruence). reflexivity.
      * intros b0 ->. eapply outc_npause; [exact OC|exact NW|reflexivity].
  - intros s d ws sch md ios RE I M A K X l. cbn [sc dt].
    pose proof (mp_main _ _ _ _ _ _ _ K) as P. apply mprims_hard in P. destruct P as [P1 P2].
    apply sco_switch_frame in X. destruct X as (X1 & X2 & _). destruct (wakes_frame ws (sc s)) as (W1 & W2 & _).
    unfold covers, cnt. rewrite X1, W1. intros CV. specialize (I l CV). unfold cnt in I. rewrite <- I.
    unfold hard in P1. injection P1; intros. destruct i; cbn; assumption.
  - intros s m RE I _. exact I.
  - intros s e RE I H M l. destruct (env_frame s e H) as (E1 & _). unfold covers, cnt. rewrite E1.
    intros CV. specialize (I l CV). unfold cnt in I. rewrite <- I.
    destruct e; try contradiction; cbn [step]; try reflexivity.
    all: repeat match goal with
         | |- context [if ?b then _ else _] => destruct b
         | |- context [match mode ?z with _ => _ end] => destruct (mode z)
         | |- context [match stk (sc ?z) ?c with _ => _ end] => destruct (stk (sc z) c) as [|[] ?]
         end; destruct i; reflexivity.
  - intros g O l [ND CV]. cbn [init dt sc]. unfold cnt.
    transitivity 0; [destruct i; reflexivity|]. symmetry.
    rewrite (zsum_ext _ (fun _ => 0)).
    + clear. induction l; cbn; auto. 
    + intros x _. cbn [stk]. unfold zupd. destruct (_ =? _); destruct i; reflexivity.
Qed.
