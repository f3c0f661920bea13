(** Bookkeeping against stacks: the event set, the deadline set, the suspended
    marks and the blocked counters say exactly what the coroutines' stacks say. *)
From Coq Require Import List ZArith Bool Lia Permutation Sorted.
From Verif Require Import AATreeSpec AATreeHist AATreeProofs Util Runtime SchedInv StepInv StackShape RuntimeSpec TraceInv Prims StaticInv Footprint QueueInv OwnInv.
Import ListNotations.
Local Open Scope Z_scope.

(** ** Wait frames are on top of stacks only *)
Inductive wsh : list frame -> Prop :=
| ws_plain st : nowait st -> wsh st
| ws_wait f st : waitf f = true -> nowait st -> wsh (f :: st)
| ws_pause f st : waitf f = true -> nowait st -> wsh (FPause :: f :: st)
| ws_work f st : f = FWork \/ f = FWorkRetry -> nowait st -> wsh (f :: st).

Lemma nowait_app : forall a b, nowait a -> nowait b -> nowait (a ++ b).
Proof. intros a b A B f I. apply in_app_or in I. destruct I; auto. Qed.
Lemma nowait_tl : forall f st, nowait (f :: st) -> nowait st.
Proof. intros f st N g I. apply N. right. exact I. Qed.
Lemma wsh_tl : forall f st, wsh (f :: st) -> f <> FPause -> nowait st.
Proof.
  intros f st W N. inversion W; subst; auto; try congruence. eapply nowait_tl; eassumption.
Qed.
Lemma wsh_pause : forall st, wsh (FPause :: st) -> exists f st', st = f :: st' /\ waitf f = true /\ nowait st'.
Proof.
  intros st W. inversion W as [s' N|f s' A B|f s' A B|f s' A B]; subst.
  - specialize (N FPause (or_introl eq_refl)). discriminate.
  - discriminate.
  - eauto.
  - destruct A; discriminate.
Qed.
Lemma ustack_nowait : forall st, wsh st -> ustack st -> nowait st.
Proof.
  intros st W U. inversion W; subst; auto; exfalso.
  - inversion U; subst; discriminate.
  - inversion U.
  - inversion U; subst; destruct H; discriminate.
Qed.
Lemma copause_fs : forall c dl fs d d' fs' k, copause c dl fs d = (d', fs', k) ->
  (fs' = fs /\ k = CRet 0 /\ d' = d /\ canceled (cof d c) || deadlined (cof d c) = true) \/
  (fs' = FPause :: fs /\ k = CPause /\ canceled (cof d c) = false /\ deadlined (cof d c) = false /\
   d' = let d := upco c (set_deadline dl) d in
        if dl <? MAXI then set_ndls (ndls d + 1) (set_dls (set_add dl_compare (dl, c) (dls d)) d) else d).
Proof.
  intros c dl fs d d' fs' k E. unfold copause in E. destruct (_ || _) eqn:B; inj E; [left; auto|right].
  apply orb_false_elim in B. destruct B. cbv zeta. auto.
Qed.
Lemma outc_wsh : forall V c d d' fs k st, outc c V d d' fs k -> nowait st -> wsh (fs ++ st).
Proof.
  intros V c d d' fs k st [Q N K|f rest dl d1 Q W N WD E|E1 -> E3|E1 -> E3] NS.
  - apply ws_plain, nowait_app; auto.
  - apply copause_fs in E. destruct E as [(-> & _)|(-> & _)]; cbn [app].
    + apply ws_wait; [exact W | apply nowait_app; auto].
    + apply ws_pause; [exact W | apply nowait_app; auto].
  - apply ws_work; auto.
  - apply ws_work; auto.
Qed.

(** stacks after a step of [c] *)
Lemma exec_stk_cases : forall c k s sch md, exec c k s = (sch, md) -> nextid s + 1 <> c -> forall x,
  (x = c /\ stk sch x = match k with CFinal _ => [] | _ => stk s c end) \/
  (x <> c /\ x = nextid s + 1 /\ (exists g, k = CSpawn g) /\ stk sch x = [FEntry]) \/
  (x <> c /\ stk sch x = stk s x /\ forall g, k = CSpawn g -> x <> nextid s + 1).
Proof.
  intros c k s sch md X N x. pose proof (exec_stk _ _ _ _ _ X) as E. rewrite E.
  destruct (Z.eq_dec x c) as [->|NE].
  - left. split; [reflexivity|]. destruct k; try reflexivity; [apply zupd_neq; lia | apply zupd_eq].
  - right. destruct k; try (right; repeat split; auto; discriminate).
    + destruct (Z.eq_dec x (nextid s + 1)) as [->|NF].
      * left. repeat split; eauto. apply zupd_eq.
      * right. repeat split; auto. apply zupd_neq. exact NF.
    + right. rewrite zupd_neq by exact NE. repeat split; auto; discriminate.
Qed.

Theorem reach_wsh : forall s, reach s -> forall x, wsh (stk (sc s) x).
Proof.
  apply (rrun_preserves (fun s => forall x, wsh (stk (sc s) x))).
  - intros s c o d fs k sch md RE I M CU U NR E X x. cbn [sc].
    pose proof (reach_full _ RE) as F.
    destruct (exec_stk_cases _ _ _ _ _ X (cur_notfresh _ _ F CU) x) as [[-> ->]|[(_ & _ & _ & ->)|(NE & -> & _)]].
    + assert (W : wsh (fs ++ FApi (ncalls s) o :: stk (sc s) c)).
      { eapply outc_wsh; [eapply hcall_out; exact E|]. apply nowait_cons; [reflexivity|]. apply ustack_nowait; auto. }
      cbn. rewrite zupd_eq. destruct k; try exact W. apply ws_plain, nowait_nil.
    + apply ws_plain. nwt.
    + cbn. rewrite zupd_neq by exact NE. apply I.
  - intros s c v f rest b d fs k sch md RE I M CU SK L E X x. cbn [sc].
    pose proof (reach_full _ RE) as F.
    destruct (exec_stk_cases _ _ _ _ _ X (cur_notfresh _ _ F CU) x) as [[-> ->]|[(_ & _ & _ & ->)|(NE & -> & _)]].
    + assert (W : wsh (fs ++ rest)).
      { pose proof (I c) as Wc. rewrite SK in Wc.
        assert (NP : f = FPause \/ f <> FPause) by (destruct f; auto; right; discriminate).
        destruct NP as [->|NP].
        - cbn in E. inj E. cbn [app]. destruct (wsh_pause _ Wc) as (f & st & -> & A & B). apply ws_wait; auto.
        - destruct (hret_out _ _ _ _ _ _ _ _ _ E) as (d0 & _ & O). eapply outc_wsh; [exact O|].
          eapply wsh_tl; eassumption. }
      cbn. rewrite zupd_eq. destruct k; try exact W. apply ws_plain, nowait_nil.
    + apply ws_plain. nwt.
    + cbn. rewrite zupd_neq by exact NE. apply I.
  - intros s d ws sch md ios RE I M A K X x. cbn [sc].
    apply sco_switch_frame in X. destruct X as (X1 & _). destruct (wakes_frame ws (sc s)) as (W1 & _). rewrite X1, W1. apply I.
  - intros s m RE I _. exact I.
  - intros s e RE I H M x. destruct (env_frame s e H) as (E1 & _). rewrite E1. apply I.
  - intros g O x. cbn. unfold zupd. destruct (_ =? _); apply ws_plain; nwt.
Qed.

(** ** Pooled records belong to finished coroutines *)
Definition sysq (k : qid) : Prop := match k with QRes | QIo | QPool => True | _ => False end.
Lemma prim_sysq : forall c d d' n kk, prim c d d' -> sysq kk -> In n (q d' kk) ->
  In n (q d kk) \/ (kk = QRes /\ exists r, n = NCo r).
Proof.
  intros c d d' n kk P SQ. destruct kk; try destruct SQ; inversion P; subst; auto; cbn; intros IN;
    try (apply filter_In in IN; left; apply IN);
    try (destruct k; cbn in *; try contradiction; try (apply filter_In in IN; left; apply IN); auto).
  all: rewrite ?in_app_iff in IN; cbn in IN; destruct IN as [IN|[<-|[]]]; [apply filter_In in IN; left; apply IN | right; eauto].
Qed.
Lemma prims_sysq : forall c d d' n kk, prims c d d' -> sysq kk -> In n (q d' kk) ->
  In n (q d kk) \/ (kk = QRes /\ exists r, n = NCo r).
Proof.
  intros c d d' n kk P SQ. induction P; [auto|]. intros IN. eapply prim_sysq in IN; [|exact H|exact SQ].
  destruct IN; auto.
Qed.
Lemma mprim_sysq : forall d d' n kk, mprim d d' -> sysq kk -> In n (q d' kk) -> In n (q d kk).
Proof.
  intros d d' n kk P SQ. destruct kk; try destruct SQ; inversion P; subst; auto; cbn; try contradiction.
  intros IN. match goal with H : q d QPool = _ ++ _ |- _ => rewrite H end. apply in_or_app. right. exact IN.
Qed.
Lemma mprims_sysq : forall d d' n kk, mprims d d' -> sysq kk -> In n (q d' kk) -> In n (q d kk).
Proof. intros d d' n kk P SQ. induction P; [auto|]. intros IN. apply IHP. eapply mprim_sysq; eassumption. Qed.

(** nodes of the system queues are coroutines; pooled ones have finished *)
Record sysok (d : dat) (p : sched) : Prop := {
  so_nco : forall n k, sysq k -> In n (q d k) -> exists x, n = NCo x;
  so_pool : forall x, In (NCo x) (q d QPool) -> stk p x = [] /\ x <= nextid p
}.
Lemma ctl_sysq : forall c n k d x kk, sysq kk -> In x (q (ctl_dat c n k d) kk) ->
  In x (q d kk) \/ (kk = QPool /\ x = NCo c /\ exists b, k = CFinal b).
Proof.
  intros c n k d x kk SQ IN. destruct k; cbn [ctl_dat] in IN; auto.
  - apply spawn_q in IN. auto.
  - unfold final_dat in IN. cbn in IN. destruct kk; try destruct SQ; cbn in IN.
    + apply filter_In in IN. left. apply IN.
    + apply filter_In in IN. left. apply IN.
    + apply in_app_or in IN. destruct IN as [IN|[<-|[]]]; [apply filter_In in IN; left; apply IN | right; eauto].
Qed.
Lemma exec_nextid : forall c k s s' m, exec c k s = (s', m) ->
  nextid s' = match k with CSpawn _ => nextid s + 1 | _ => nextid s end.
Proof.
  intros c k s s' m E. destruct k; cbn [exec] in E; try (inj E; reflexivity);
    try (apply sco_switch_frame in E; destruct E as (_ & -> & _); reflexivity).
  - destruct (mem id (paused s)) eqn:ME; [|inj E; reflexivity]. apply sco_switch_frame in E.
    destruct E as (_ & -> & _). unfold wake. rewrite ME. reflexivity.
  - apply sco_switch_frame in E. destruct E as (_ & -> & _). destruct tomain; reflexivity.
Qed.
Lemma sysok_exec : forall s c d k st sch md, full s -> cur (sc s) = Some c -> sysok (dt s) (sc s) ->
  prims c (dt s) d -> exec c k (set_stk (zupd (stk (sc s)) c st) (sc s)) = (sch, md) ->
  sysok (ctl_dat c (nextid (sc s) + 1) k d) sch.
Proof.
  intros s c d k st sch md F CU [I1 I2] P X. pose proof (cur_notfresh _ _ F CU) as NF.
  assert (CA : stk (sc s) c <> [] /\ c <= nextid (sc s)) by (destruct F as [[SI _] _]; apply cur_alive; assumption).
  pose proof (exec_nextid _ _ _ _ _ X) as NX. cbn in NX.
  split.
  - intros n kk SQ IN. apply ctl_sysq in IN; [|exact SQ]. destruct IN as [IN|(_ & -> & _)]; [|eauto].
    eapply prims_sysq in IN; [|exact P|exact SQ]. destruct IN as [IN|(_ & r & ->)]; eauto.
  - intros x IN. apply ctl_sysq in IN; [|exact I].
    assert (IN2 : In (NCo x) (q (dt s) QPool) \/ (x = c /\ exists b, k = CFinal b)).
    { destruct IN as [IN|(_ & Q & B)]; [|right; injection Q; auto].
      eapply prims_sysq in IN; [|exact P|exact I]. destruct IN as [IN|(Q & _)]; [auto|discriminate]. }
    assert (LE : x <= nextid sch).
    { assert (x <= nextid (sc s)) by (destruct IN2 as [IN2|[-> _]]; [apply I2 in IN2; lia | lia]).
      rewrite NX. destruct k; lia. }
    split; [|exact LE].
    destruct (exec_stk_cases _ _ _ _ _ X NF x) as [[-> ->]|[(NE & -> & (g & ->) & _)|(NE & -> & _)]].
    + destruct IN2 as [IN2|(_ & b & ->)]; [|reflexivity]. exfalso. apply I2 in IN2. tauto.
    + exfalso. destruct IN2 as [IN2|(Q & _)]; [|contradiction]. apply I2 in IN2. cbn in IN2. lia.
    + cbn. rewrite zupd_neq by exact NE. destruct IN2 as [IN2|(Q & _)]; [|contradiction]. apply I2, IN2.
Qed.
Theorem reach_sysok : forall s, reach s -> sysok (dt s) (sc s).
Proof.
  apply (rrun_preserves (fun s => sysok (dt s) (sc s))).
  - intros s c o d fs k sch md RE I M CU U NR E X. cbn [sc dt].
    eapply sysok_exec; [apply reach_full; exact RE|exact CU|exact I|eapply hcall_prims; exact E|exact X].
  - intros s c v f rest b d fs k sch md RE I M CU SK L E X. cbn [sc dt].
    eapply sysok_exec; [apply reach_full; exact RE|exact CU|exact I|eapply hret_prims; exact E|exact X].
  - intros s d ws sch md ios RE [I1 I2] M A K X. cbn [sc dt].
    pose proof (mp_main _ _ _ _ _ _ _ K) as P.
    apply sco_switch_frame in X. destruct X as (X1 & X2 & _). destruct (wakes_frame ws (sc s)) as (W1 & W2 & _).
    split.
    + intros n k SQ IN. eapply mprims_sysq in IN; [|exact P|exact SQ]. eauto.
    + intros x IN. eapply mprims_sysq in IN; [|exact P|exact I]. rewrite X1, W1, X2, W2. auto.
  - intros s m RE I _. exact I.
  - intros s e RE [I1 I2] H M. destruct (env_frame s e H) as (E1 & _).
    assert (NX : nextid (sc s) <= nextid (sc (step s e))).
    { destruct e; try contradiction; cbn; try lia.
      - destruct (_ <? _); cbn; lia.
      - destruct (mode s); try lia; (destruct (_ || _); cbn; try lia; destruct (_ =? _); cbn; try lia; destruct (_ =? _); cbn; lia).
      - destruct (mode s); try lia; (destruct (mem _ _); cbn; try lia; destruct (stk (sc s) c) as [|[] ?]; cbn; lia).
      - destruct (_ =? _); cbn; lia.
      - destruct (_ =? _); cbn; lia.
      - destruct (_ =? _); cbn; lia. }
    assert (QQ : forall n k, In n (q (dt (step s e)) k) -> In n (q (dt s) k) \/ (k = QIo /\ exists x, n = NCo x)).
    { intros n k. destruct (env_q s e H) as [->|(c & _ & _ & _ & ->)]; [auto|].
      rewrite In_pushq. intros [[IN _]|[-> ->]]; eauto. }
    split.
    + intros n k SQ IN. destruct (QQ _ _ IN) as [IN2|(_ & x & ->)]; eauto.
    + intros x IN. destruct (QQ _ _ IN) as [IN2|(Q & _)]; [|discriminate]. rewrite E1. destruct (I2 _ IN2). split; [auto|lia].
  - intros g O. split; cbn [init dt sc].
    + intros n k SQ IN. apply spawn_q in IN. destruct IN.
    + intros x IN. apply spawn_q in IN. destruct IN.
Qed.

(** ** The event set, the deadline set and the suspended marks *)
Record bk (d : dat) (x : Z) (st : list frame) : Prop := mkbk {
  bk_ev : forall fd kd, In (fd, kd, x) (evs d) <-> In (FEvWait fd kd) st;
  bk_fd : forall fd kd, In (FEvWait fd kd) st -> evfd (cof d x) = fd /\ evkind (cof d x) = kd;
  bk_su : suspended (cof d x) = true <-> In FSuspend st;
  bk_dl : forall t, In (t, x) (dls d) <-> In FPause st /\ deadline (cof d x) = t /\ t < MAXI
}.
Lemma dl_compare_eq : forall a b, dl_compare a b = Eq <-> a = b.
Proof.
  intros [a1 a2] [b1 b2]. unfold dl_compare. cbn [fst snd]. split.
  - intros E. zcmp. f_equal; lia.
  - intros E. injection E as -> ->. rewrite !Z.ltb_irrefl. reflexivity.
Qed.
Lemma ev_compare_eq : forall a b, evcompare a b = Eq <-> a = b.
Proof.
  intros [[f1 k1] i1] [[f2 k2] i2]. unfold evcompare. split.
  - intros E. zcmp. f_equal; [f_equal|]; lia.
  - intros E. injection E as -> -> ->. rewrite !Z.ltb_irrefl. reflexivity.
Qed.
Lemma In_set_add : forall A (cmp : A -> A -> comparison), (forall a b, cmp a b = Eq <-> a = b) ->
  forall x l y, In y (set_add cmp x l) <-> y = x \/ In y l.
Proof.
  intros A cmp H x l y. induction l as [|z l IH]; cbn; [intuition|].
  destruct (cmp x z) eqn:C; cbn.
  - apply H in C. subst z. intuition.
  - intuition.
  - rewrite IH. intuition.
Qed.
Lemma In_set_del : forall A (cmp : A -> A -> comparison), (forall a b, cmp a b = Eq <-> a = b) ->
  forall x l y, In y (set_del cmp x l) <-> In y l /\ y <> x.
Proof.
  intros A cmp H x l y. unfold set_del. rewrite filter_In. split; intros [I E]; split; auto.
  - intros ->. rewrite (proj2 (H x x) eq_refl) in E. discriminate.
  - destruct (cmp x y) eqn:C; auto. apply H in C. congruence.
Qed.

Lemma quiet_bk : forall c d d' x st, quiet c d d' -> bk d x st -> bk d' x st.
Proof.
  intros c d d' x st [Q1 Q2 Q3] [B1 B2 B3 B4]. unfold hard in Q1. specialize (Q2 x). unfold hardc in Q2.
  injection Q1; injection Q2; intros. split.
  - intros. replace (evs d') with (evs d) by congruence. apply B1.
  - intros fd kd I. destruct (B2 _ _ I). split; congruence.
  - replace (suspended (cof d' x)) with (suspended (cof d x)) by congruence. exact B3.
  - intros. replace (dls d') with (dls d) by congruence. replace (deadline (cof d' x)) with (deadline (cof d x)) by congruence.
    apply B4.
Qed.
Lemma enter_bk_other : forall c f d x st, x <> c -> bk d x st -> bk (enter c f d) x st.
Proof.
  intros c f d x st NE B. destruct f; try exact B; destruct B as [B1 B2 B3 B4]; split; auto; cbn;
    rewrite ?zupd_neq by exact NE; auto.
  intros. rewrite (In_set_add _ evcompare ev_compare_eq). split; [|right; apply B1; exact H].
  intros [E|E]; [congruence | apply B1; exact E].
Qed.
Lemma copause_bk_other : forall c dl fs d d' fs' k x st, copause c dl fs d = (d', fs', k) -> x <> c -> bk d x st -> bk d' x st.
Proof.
  intros c dl fs d d' fs' k x st E NE B. apply copause_fs in E. destruct E as [(_ & _ & -> & _)|(_ & _ & _ & _ & ->)]; [exact B|].
  cbv zeta. destruct (dl <? MAXI); destruct B as [B1 B2 B3 B4]; split; cbn; rewrite ?zupd_neq by exact NE; auto.
  intros t. rewrite (In_set_add _ dl_compare dl_compare_eq). rewrite <- B4. split; [|auto]. intros [Q|Q]; [congruence|auto].
Qed.
Lemma lv_bk_other : forall c f d x st, x <> c -> bk d x st -> bk (lv c f d) x st.
Proof.
  intros c f d x st NE B. destruct f; try exact B; destruct B as [B1 B2 B3 B4].
  all: try (split; auto; cbn; rewrite ?zupd_neq by exact NE; auto; fail).
  - unfold lv, pause_end. cbv zeta. destruct (_ <? _); split; cbn; rewrite ?zupd_neq by exact NE; auto.
    intros t. rewrite (In_set_del _ dl_compare dl_compare_eq). rewrite <- B4. split; [tauto|]. intros Q; split; [exact Q|congruence].
  - split; cbn; rewrite ?zupd_neq by exact NE; auto.
    intros. rewrite (In_set_del _ evcompare ev_compare_eq). rewrite <- B1. split; [tauto|]. intros Q; split; [exact Q|congruence].
Qed.
Lemma outc_bk_other : forall V c d d' fs k x st, outc c V d d' fs k -> x <> c -> bk d x st -> bk d' x st.
Proof.
  intros V c d d' fs k x st [Q N K|f rest dl d1 Q W N WD E| -> E2 E3| -> E2 E3] NE B.
  - eapply quiet_bk; eassumption.
  - eapply copause_bk_other; [exact E|exact NE|]. apply enter_bk_other; [exact NE|]. eapply quiet_bk; eassumption.
  - destruct B as [B1 B2 B3 B4]; split; auto.
  - destruct B as [B1 B2 B3 B4]; split; auto.
Qed.
(** what a stack without wait frames says *)
Lemma nowait_bk : forall d x st, nowait st -> bk d x st <->
  ((forall fd kd, ~ In (fd, kd, x) (evs d)) /\ suspended (cof d x) = false /\ (forall t, ~ In (t, x) (dls d))).
Proof.
  intros d x st N.
  assert (N1 : forall f, plain f = false -> ~ In f st) by (intros f P I; rewrite (N f I) in P; discriminate).
  split.
  - intros [B1 B2 B3 B4]. split; [|split].
    + intros fd kd I. apply B1 in I. revert I. apply N1. reflexivity.
    + destruct (suspended (cof d x)); [|reflexivity]. exfalso. apply (N1 FSuspend); [reflexivity|]. apply B3. reflexivity.
    + intros t I. apply B4 in I. apply (N1 FPause); [reflexivity|tauto].
  - intros (A1 & A2 & A3). split.
    + intros. split; intros I; exfalso; [eapply A1; exact I | eapply N1; [|exact I]; reflexivity].
    + intros fd kd I. exfalso; eapply N1; [|exact I]; reflexivity.
    + rewrite A2. split; [discriminate|]. intros I. exfalso; eapply N1; [|exact I]; reflexivity.
    + intros. split; intros I; exfalso; [eapply A3; exact I | eapply N1; [|apply I]; reflexivity].
Qed.
(** entering a wait: the stack grows by the wait frame *)
Lemma waitf_in : forall f st g, nowait st -> waitf g = true -> (In g (f :: st) <-> f = g).
Proof.
  intros f st g N W. cbn. split; [|auto]. intros [E|I]; [exact E|]. exfalso. specialize (N g I). unfold plain in N. rewrite W in N. discriminate.
Qed.
Lemma pause_in : forall f st, nowait st -> waitf f = true -> ~ In FPause (f :: st).
Proof.
  intros f st N W [->|I]; [discriminate|]. specialize (N _ I). discriminate.
Qed.
Lemma enter_bk : forall c f d st, nowait st -> waitf f = true -> bk d c st -> bk (enter c f d) c (f :: st).
Proof.
  intros c f d st N W B. apply (nowait_bk d c st N) in B. destruct B as (A1 & A2 & A3). split.
  - intros fd kd. rewrite (waitf_in f st (FEvWait fd kd) N eq_refl).
    destruct f; cbn; try (split; [intros I; exfalso; eapply A1; exact I | discriminate]).
    rewrite (In_set_add _ evcompare ev_compare_eq). split.
    + intros [E|I]; [congruence|exfalso; eapply A1; exact I].
    + intros E. left. congruence.
  - intros fd kd. rewrite (waitf_in f st (FEvWait fd kd) N eq_refl). intros ->. cbn. rewrite zupd_eq. auto.
  - rewrite (waitf_in f st FSuspend N eq_refl). destruct f; cbn; rewrite ?zupd_eq; cbn;
      try (rewrite A2; split; discriminate); split; auto.
  - intros t. split.
    + intros I. exfalso. assert (E : dls (enter c f d) = dls d) by (destruct f; reflexivity). rewrite E in I. eapply A3; exact I.
    + intros [I _]. exfalso. eapply pause_in; eassumption.
Qed.
Lemma copause_bk : forall c dl fs d d' fs' k st, copause c dl fs d = (d', fs', k) -> ~ In FPause (fs ++ st) ->
  bk d c (fs ++ st) -> bk d' c (fs' ++ st).
Proof.
  intros c dl fs d d' fs' k st E NP B. apply copause_fs in E. destruct E as [(-> & _ & -> & _)|(-> & _ & _ & _ & ->)]; [exact B|].
  destruct B as [B1 B2 B3 B4].
  assert (ND : forall t, ~ In (t, c) (dls d)) by (intros t I; apply B4 in I; tauto).
  cbv zeta. cbn [app]. split.
  - intros fd kd. replace (evs _) with (evs d) by (destruct (_ <? _); reflexivity). rewrite B1. cbn. intuition discriminate.
  - intros fd kd [?|I]; [discriminate|]. destruct (B2 _ _ I). destruct (_ <? _); cbn; rewrite zupd_eq; cbn; auto.
  - replace (suspended (cof _ c)) with (suspended (cof d c)) by (destruct (_ <? _); cbn; rewrite zupd_eq; reflexivity).
    rewrite B3. cbn. intuition discriminate.
  - intros t. destruct (dl <? MAXI) eqn:L; cbn; rewrite zupd_eq; cbn.
    + apply Z.ltb_lt in L. rewrite (In_set_add _ dl_compare dl_compare_eq). split.
      * intros [Q|Q]; [|exfalso; eapply ND; exact Q]. injection Q as ->. auto.
      * intros (_ & -> & _). auto.
    + apply Z.ltb_ge in L. split; [intros Q; exfalso; eapply ND; exact Q|]. intros (_ & -> & ?). lia.
Qed.
Lemma outc_bk : forall V c d d' fs k st, outc c V d d' fs k -> nowait st -> bk d c st -> bk d' c (fs ++ st).
Proof.
  intros V c d d' fs k st [Q N K|f rest dl d1 Q W N WD E| -> -> E3| -> -> E3] NS B.
  - eapply quiet_bk in B; [|exact Q]. apply nowait_bk; [apply nowait_app; auto|]. apply nowait_bk in B; auto.
  - eapply quiet_bk in B; [|exact Q].
    assert (B1 : bk d1 c (rest ++ st)) by (apply nowait_bk; [apply nowait_app; auto|]; apply nowait_bk in B; auto).
    apply (enter_bk c f) in B1; [|apply nowait_app; auto|exact W].
    eapply copause_bk; [exact E| |exact B1]. cbn [app]. apply pause_in; [apply nowait_app; auto|exact W].
  - apply nowait_bk in B; [|exact NS]. destruct B as (A1 & A2 & A3). cbn [app enter].
    assert (N1 : forall f, plain f = false -> f <> FWork -> ~ In f (FWork :: st)).
    { intros f P N [<-|I]; [congruence|]. rewrite (NS f I) in P. discriminate. }
    split; cbn [evs cof dls set_inflight set_niow].
    + intros. split; intros I; exfalso; [eapply A1; exact I | eapply N1; [| |exact I]; [reflexivity|discriminate]].
    + intros fd kd I. exfalso; eapply N1; [| |exact I]; [reflexivity|discriminate].
    + rewrite A2. split; [discriminate|]. intros I. exfalso; eapply N1; [| |exact I]; [reflexivity|discriminate].
    + intros. split; intros I; exfalso; [eapply A3; exact I | eapply N1; [| |apply I]; [reflexivity|discriminate]].
  - apply nowait_bk in B; [|exact NS]. destruct B as (A1 & A2 & A3). cbn [app enter].
    assert (N1 : forall f, plain f = false -> f <> FWorkRetry -> ~ In f (FWorkRetry :: st)).
    { intros f P N [<-|I]; [congruence|]. rewrite (NS f I) in P. discriminate. }
    split; cbn [evs cof dls set_niow].
    + intros. split; intros I; exfalso; [eapply A1; exact I | eapply N1; [| |exact I]; [reflexivity|discriminate]].
    + intros fd kd I. exfalso; eapply N1; [| |exact I]; [reflexivity|discriminate].
    + rewrite A2. split; [discriminate|]. intros I. exfalso; eapply N1; [| |exact I]; [reflexivity|discriminate].
    + intros. split; intros I; exfalso; [eapply A3; exact I | eapply N1; [| |apply I]; [reflexivity|discriminate]].
Qed.
Lemma lv_bk : forall c f d st, wsh (f :: st) -> bk d c (f :: st) -> bk (lv c f d) c st.
Proof.
  intros c f d st W B.
  assert (NP : f = FPause \/ f <> FPause) by (destruct f; auto; right; discriminate).
  destruct NP as [->|NP].
  - destruct (wsh_pause _ W) as (g & st' & -> & WG & NS). destruct B as [B1 B2 B3 B4].
    assert (N1 : ~ In FPause (g :: st')) by (apply pause_in; assumption).
    unfold lv, pause_end. cbv zeta. split.
    + intros fd kd. replace (evs _) with (evs d) by (destruct (_ <? _); reflexivity). rewrite B1. cbn. intuition discriminate.
    + intros fd kd I. destruct (B2 fd kd (or_intror I)). destruct (_ <? _); cbn; rewrite zupd_eq; cbn; auto.
    + replace (suspended (cof _ c)) with (suspended (cof d c)) by (destruct (_ <? _); cbn; rewrite zupd_eq; reflexivity).
      rewrite B3. cbn. intuition discriminate.
    + intros t. destruct (_ <? _) eqn:L; cbn; rewrite zupd_eq; cbn [deadline set_deadline].
      * rewrite (In_set_del _ dl_compare dl_compare_eq). rewrite B4. split.
        -- intros ((_ & E & _) & N). exfalso. apply N. congruence.
        -- intros (I & _). contradiction.
      * apply Z.ltb_ge in L. rewrite B4. split; [intros (_ & E & ?); lia|]. intros (I & _). contradiction.
  - pose proof (wsh_tl _ _ W NP) as NS. apply nowait_bk; [exact NS|]. destruct B as [B1 B2 B3 B4].
    assert (N1 : forall g, plain g = false -> g <> f -> ~ In g (f :: st)).
    { intros g P N [<-|I]; [congruence|]. rewrite (NS g I) in P. discriminate. }
    assert (DL : forall t, ~ In (t, c) (dls (lv c f d))).
    { intros t I. assert (E : dls (lv c f d) = dls d) by (destruct f; try reflexivity; congruence). rewrite E in I.
      apply B4 in I. apply (N1 FPause); [reflexivity|congruence|tauto]. }
    split; [|split; [|exact DL]].
    + intros fd kd I. destruct f; cbn in I.
      all: try (apply B1 in I; revert I; apply N1; [reflexivity|discriminate]).
      1: congruence.
      rewrite (In_set_del _ evcompare ev_compare_eq) in I. destruct I as [I NE]. apply B1 in I. destruct (B2 _ _ I). congruence.
    + destruct f; cbn; rewrite ?zupd_eq; cbn; try reflexivity; try congruence.
      all: destruct (suspended (cof d c)); [|reflexivity]; exfalso; eapply (N1 FSuspend); [reflexivity|discriminate|]; apply B3; reflexivity.
Qed.
Lemma outc_final : forall V c d d' fs b, outc c V d d' fs (CFinal b) -> nowait fs.
Proof.
  intros V c d d' fs b [Q N K|f rest dl d1 Q W N WD E|_ _ E3|_ _ E3]; try discriminate; auto.
  apply copause_fs in E. destruct E as [(_ & E & _)|(_ & E & _)]; discriminate.
Qed.
Lemma spawn_hard : forall p n g d, hard (spawn_dat p n g d) = hard d.
Proof.
  intros p n g d. unfold spawn_dat, popq. destruct (q d QPool); destruct g, p; reflexivity.
Qed.
Lemma spawn_hardc : forall p n g d x, x <> n -> hardc (cof (spawn_dat p n g d) x) = hardc (cof d x) /\
  deadlined (cof (spawn_dat p n g d) x) = deadlined (cof d x).
Proof.
  intros p n g d x N. rewrite spawn_cof by exact N. destruct p as [y|]; [|auto]. destruct (_ =? _); destruct g; auto.
Qed.
(** the record of a new coroutine: fresh or that of a pooled one *)
Lemma spawn_new : forall p n g d,
  (q d QPool = [] /\ hardc (cof (spawn_dat p n g d) n) = hardc fresh_co /\ deadlined (cof (spawn_dat p n g d) n) = false /\
     canceled (cof (spawn_dat p n g d) n) = false) \/
  (exists y l, q d QPool = y :: l /\ hardc (cof (spawn_dat p n g d) n) = hardc (cof d (node_co y)) /\
     deadlined (cof (spawn_dat p n g d) n) = deadlined (cof d (node_co y)) /\
     canceled (cof (spawn_dat p n g d) n) = canceled (cof d (node_co y))).
Proof.
  intros p n g d. unfold spawn_dat, popq. destruct (q d QPool) as [|y l] eqn:Q.
  - left. split; [reflexivity|]. destruct g, p; cbn; rewrite zupd_eq; auto.
  - right. exists y, l. split; [reflexivity|]. destruct g, p; cbn; rewrite zupd_eq; cbn; auto.
Qed.
Lemma bk_eq : forall d d' x st, hard d' = hard d -> hardc (cof d' x) = hardc (cof d x) -> bk d x st -> bk d' x st.
Proof.
  intros d d' x st Q1 Q2 [B1 B2 B3 B4]. unfold hard in Q1. unfold hardc in Q2.
  injection Q1; injection Q2; intros. split.
  - intros. replace (evs d') with (evs d) by congruence. apply B1.
  - intros fd kd I. destruct (B2 _ _ I). split; congruence.
  - replace (suspended (cof d' x)) with (suspended (cof d x)) by congruence. exact B3.
  - intros. replace (dls d') with (dls d) by congruence. replace (deadline (cof d' x)) with (deadline (cof d x)) by congruence.
    apply B4.
Qed.
Lemma mprims_hard : forall d d', mprims d d' -> hard d' = hard d /\ forall x, hardc (cof d' x) = hardc (cof d x).
Proof.
  intros d d' P. induction P; [auto|]. destruct IHP as [A B].
  assert (hard d2 = hard d1 /\ forall x, hardc (cof d2 x) = hardc (cof d1 x)) as [C D].
  { destruct H; cbn; split; auto; intros x; unfold zupd; destruct (Z.eqb_spec x c); subst; reflexivity. }
  split; [congruence|]. intros. rewrite D. apply B.
Qed.
Lemma env_hard : forall s e,
  match e with ECall _ | ETick _ | EMain _ => False | _ => True end ->
  evs (dt (step s e)) = evs (dt s) /\ dls (dt (step s e)) = dls (dt s) /\ cof (dt (step s e)) = cof (dt s).
Proof.
  intros s e H. split; [|split; [|apply env_cof; exact H]].
  - destruct e; try contradiction; cbn; auto.
    + destruct (_ <? _); auto.
    + destruct (mode s); auto; (destruct (_ || _); auto; destruct (_ =? _); auto; destruct (_ =? _); auto).
    + destruct (mode s); auto; (destruct (mem _ _); auto; destruct (stk (sc s) c) as [|[] ?]; auto).
    + destruct (_ =? _); auto.
    + destruct (_ =? _); auto.
    + destruct (_ =? _); auto.
  - destruct e; try contradiction; cbn; auto.
    + destruct (_ <? _); auto.
    + destruct (mode s); auto; (destruct (_ || _); auto; destruct (_ =? _); auto; destruct (_ =? _); auto).
    + destruct (mode s); auto; (destruct (mem _ _); auto; destruct (stk (sc s) c) as [|[] ?]; auto).
    + destruct (_ =? _); auto.
    + destruct (_ =? _); auto.
    + destruct (_ =? _); auto.
Qed.

Lemma bk_exec : forall s c d fs k rest sch md, full s -> cur (sc s) = Some c -> sysok (dt s) (sc s) ->
  prims c (dt s) d ->
  bk d c (fs ++ rest) -> (forall b, k = CFinal b -> nowait (fs ++ rest)) ->
  (forall x, x <> c -> bk d x (stk (sc s) x)) ->
  exec c k (set_stk (zupd (stk (sc s)) c (fs ++ rest)) (sc s)) = (sch, md) ->
  forall x, bk (ctl_dat c (nextid (sc s) + 1) k d) x (stk sch x).
Proof.
  intros s c d fs k rest sch md F CU SO PR B FN O X x. pose proof (cur_notfresh _ _ F CU) as NF.
  destruct (exec_stk_cases _ _ _ _ _ X NF x) as [[-> ->]|[(NE & -> & (g & ->) & ->)|(NE & -> & SP)]].
  - cbn. rewrite zupd_eq. destruct k; try exact B; cbn [ctl_dat].
    + eapply bk_eq; [apply spawn_hard|apply spawn_hardc; cbn in NF; lia|exact B].
    + apply (bk_eq d); [reflexivity|reflexivity|]. apply nowait_bk; [apply nowait_nil|]. apply nowait_bk in B; [exact B|eauto].
  - cbn [ctl_dat]. cbn [nextid set_stk] in *. pose proof (O _ NE) as BO. rewrite stk_fresh in BO by exact F.
    apply nowait_bk in BO; [|apply nowait_nil]. destruct BO as (A1 & A2 & A3).
    pose proof (spawn_hard (Some c) (nextid (sc s) + 1) g d) as SH. unfold hard in SH.
    apply nowait_bk; [nwt|]. split; [|split].
    + intros fd kd. replace (evs _) with (evs d) by congruence. apply A1.
    + destruct (spawn_new (Some c) (nextid (sc s) + 1) g d) as [(_ & HC & _)|(y & l & Q & HC & _)].
      * unfold hardc in HC. injection HC; intros. auto.
      * assert (IN : In y (q d QPool)) by (rewrite Q; left; reflexivity).
        eapply prims_sysq in IN; [|exact PR|exact I]. destruct IN as [IN|(E & _)]; [|discriminate].
        destruct (so_nco _ _ SO _ QPool I IN) as (z & ->). cbn in HC. destruct (so_pool _ _ SO _ IN) as [SZ _].
        assert (NZ : z <> c) by (intros ->; destruct F as [[SI _] _]; destruct (cur_alive _ _ SI CU); contradiction).
        pose proof (O z NZ) as BZ. rewrite SZ in BZ. apply nowait_bk in BZ; [|apply nowait_nil]. destruct BZ as (_ & BZ & _).
        unfold hardc in HC. injection HC; intros. congruence.
    + intros t. replace (dls _) with (dls d) by congruence. apply A3.
  - cbn. rewrite zupd_neq by exact NE. apply O in NE as BX. destruct k; try exact BX; cbn [ctl_dat].
    + eapply bk_eq; [apply spawn_hard|apply spawn_hardc; eapply SP; reflexivity|exact BX].
    + apply (bk_eq d); [reflexivity|reflexivity|exact BX].
Qed.
Theorem reach_bk : forall s, reach s -> forall x, bk (dt s) x (stk (sc s) x).
Proof.
  apply (rrun_preserves (fun s => forall x, bk (dt s) x (stk (sc s) x))).
  - intros s c o d fs k sch md RE I M CU U NR E X. cbn [sc dt].
    pose proof (reach_full _ RE) as F. pose proof (hcall_out _ _ _ _ _ _ _ E) as OC.
    assert (NW : nowait (stk (sc s) c)) by (apply ustack_nowait; [apply reach_wsh; exact RE|exact U]).
    assert (NW2 : nowait (FApi (ncalls s) o :: stk (sc s) c)) by (apply nowait_cons; [reflexivity|exact NW]).
    eapply bk_exec; [exact F|exact CU|apply reach_sysok; exact RE|eapply hcall_prims; exact E| | | |exact X].
    + eapply outc_bk; [exact OC|exact NW2|]. apply nowait_bk; [exact NW2|]. specialize (I c). apply nowait_bk in I; [exact I|exact NW].
    + intros b ->. apply nowait_app; [eapply outc_final; exact OC|exact NW2].
    + intros x NE. eapply outc_bk_other; [exact OC|exact NE|apply I].
  - intros s c v f rest b d fs k sch md RE I M CU SK L E X. cbn [sc dt].
    pose proof (reach_full _ RE) as F. destruct (hret_out _ _ _ _ _ _ _ _ _ E) as (d0 & Q & OC).
    pose proof (reach_wsh _ RE c) as W. rewrite SK in W. pose proof (I c) as Ic. rewrite SK in Ic.
    eapply quiet_bk in Ic; [|exact Q]. apply lv_bk in Ic; [|exact W].
    assert (NP : f = FPause \/ f <> FPause) by (destruct f; auto; right; discriminate).
    eapply bk_exec; [exact F|exact CU|apply reach_sysok; exact RE|eapply hret_prims; exact E| | | |exact X].
    + destruct NP as [->|NP]; [cbn in E; inj E|].
      * apply (lv_bk c FPause (dt s) rest); [exact W|]. pose proof (I c) as J. rewrite SK in J. exact J.
      * eapply outc_bk; [exact OC|eapply wsh_tl; eassumption|exact Ic].
    + intros b0 ->. destruct NP as [->|NP]; [cbn in E; inj E|].
      apply nowait_app; [eapply outc_final; exact OC|eapply wsh_tl; eassumption].
    + intros x NE. eapply outc_bk_other; [exact OC|exact NE|]. apply lv_bk_other; [exact NE|]. eapply quiet_bk; [exact Q|apply I].
  - intros s d ws sch md ios RE I M A K X x. cbn [sc dt].
    pose proof (mp_main _ _ _ _ _ _ _ K) as P. apply mprims_hard in P. destruct P as [P1 P2].
    apply sco_switch_frame in X. destruct X as (X1 & X2 & _). destruct (wakes_frame ws (sc s)) as (W1 & W2 & _).
    rewrite X1, W1. eapply bk_eq; [exact P1|apply P2|apply I].
  - intros s m RE I _. exact I.
  - intros s e RE I H M x. destruct (env_frame s e H) as (E1 & _). destruct (env_hard s e H) as (E2 & E3 & E4).
    rewrite E1. destruct (I x) as [B1 B2 B3 B4]. split; rewrite ?E2, ?E3, ?E4; auto.
  - intros g O x. cbn [init dt sc stk]. unfold zupd.
    assert (A : bk (spawn_dat None (cfg_lastid g + 1) false (dat0 g)) x []).
    { apply nowait_bk; [apply nowait_nil|]. split; [|split]; cbn; auto. unfold zupd. destruct (_ =? _); reflexivity. }
    destruct (_ =? _); [|exact A]. apply nowait_bk; [nwt|]. apply nowait_bk in A; [exact A|apply nowait_nil].
Qed.
