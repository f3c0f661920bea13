(** Vocabulary for blocked coroutines, and what it means in the model. *)
From Coq Require Import List ZArith Bool Lia Sorting.Sorted.
From Verif Require Import AATreeSpec AATreeHist Util Runtime SchedInv StepInv StackShape RuntimeSpec TraceInv Immediate Prims StaticInv Footprint QueueInv OwnInv WaitInv CallInv SpecInv TraceStep Wake Awake DeadlineInv AllInv PausedInv ResultInv JoinInv WaiterInv.
Import ListNotations.
Local Open Scope Z_scope.

(** coroutine [x] is blocked (sco_pause, not runnable) inside API call number [k], which is [o] *)
Definition blocked (s : state) (x : Z) (k : nat) (o : op) : Prop :=
  In x (paused (sc s)) /\ exists w st, stk (sc s) x = w ++ FApi k o :: st /\ forall j p, ~ In (FApi j p) w.
(** [x] is on the scheduler's list of coroutines to resume at its next pass *)
Definition to_resume (s : state) (x : Z) : Prop := In (NCo x) (q (dt s) QRes).
(** [x] can run: it is running or in a ready list *)
Definition runnable (s : state) (x : Z) : Prop := cur (sc s) = Some x \/ In x (runners (sc s)) \/ In x (yielders (sc s)).

Lemma app_api_inj : forall w1 w2 j1 o1 s1 j2 o2 s2, w1 ++ FApi j1 o1 :: s1 = w2 ++ FApi j2 o2 :: s2 ->
  (forall j p, ~ In (FApi j p) w1) -> (forall j p, ~ In (FApi j p) w2) -> w1 = w2 /\ j1 = j2 /\ o1 = o2 /\ s1 = s2.
Proof.
  induction w1 as [|a w1 IH]; intros w2 j1 o1 s1 j2 o2 s2 E N1 N2; destruct w2 as [|b w2]; cbn in E.
  - injection E as -> -> ->. auto.
  - injection E as <- _. exfalso. eapply N2. left. reflexivity.
  - injection E as -> _. exfalso. eapply N1. left. reflexivity.
  - injection E as <- E. destruct (IH _ _ _ _ _ _ _ E) as (-> & H); [intros j p J; eapply N1; right; exact J | intros j p J; eapply N2; right; exact J|]. auto.
Qed.

(** the frames of a blocked coroutine *)
Inductive blk_frames : op -> list frame -> Prop :=
| bf_wait f o : waitf f = true -> hostop f o -> blk_frames o [FPause; f]
| bf_relock v m dl ret : blk_frames (OpCvWait v m dl) [FPause; FLock m; FCvRelock m ret]
| bf_work b : blk_frames (OpWork b) [FWork].
Lemma paused_blocked : forall s x, reach s -> In x (paused (sc s)) -> exists k o w st, stk (sc s) x = w ++ FApi k o :: st /\ blk_frames o w.
Proof.
  intros s x RE I. pose proof (reach_full _ RE) as F.
  destruct (reach_blocked _ RE x I) as [(f & r & SK & WF & _)|(r & SK)].
  - assert (L : lstack (FPause :: f :: r)) by (rewrite <- SK; apply live_lstack; [exact F | rewrite SK; discriminate]).
    apply lstack_pause in L. apply lstack_host in L; [|destruct f; try reflexivity; exact WF].
    destruct L as [(k & o & st & -> & _ & H)|(m & ret & k & v & dl & st & -> & -> & _)].
    + exists k, o, [FPause; f], st. split; [exact SK | constructor; assumption].
    + exists k, (OpCvWait v m dl), [FPause; FLock m; FCvRelock m ret], st. split; [exact SK | constructor].
  - assert (L : lstack (FWork :: r)) by (rewrite <- SK; apply live_lstack; [exact F | rewrite SK; discriminate]).
    apply lstack_host in L; [|reflexivity]. destruct L as [(k & o & st & -> & _ & H)|(m & ret & k & v & dl & st & ? & _)]; [|discriminate].
    destruct o; try destruct H. exists k, (OpWork sub), [FWork], st. split; [exact SK | constructor].
Qed.
Lemma blk_noapi : forall o w, blk_frames o w -> forall j p, ~ In (FApi j p) w.
Proof.
  intros o w B j p I. destruct B as [f o WF H| |]; cbn in I; intuition (try discriminate). subst. discriminate WF.
Qed.
(** every coroutine that is not runnable is blocked in exactly one call, which it made and which has not returned *)
Theorem paused_is_blocked : forall s x, reach s -> In x (paused (sc s)) -> exists k o, blocked s x k o.
Proof.
  intros s x RE I. destruct (paused_blocked s x RE I) as (k & o & w & st & SK & B). exists k, o. split; [exact I|]. exists w, st. split; [exact SK | apply (blk_noapi _ _ B)].
Qed.
Theorem blocked_call : forall s x k o, reach s -> blocked s x k o -> (exists t, In (TCall k x o t) (tr s)) /\ ~ returned k (tr s).
Proof.
  intros s x k o RE (I & w & st & SK & N). assert (IN : In (FApi k o) (stk (sc s) x)) by (rewrite SK; apply in_or_app; right; left; reflexivity). split.
  - destruct (ci_open _ (reach_cinv _ RE) _ _ _ IN) as (t & H & _). eauto.
  - eapply ci_pend; [apply reach_cinv, RE | exact IN].
Qed.
Lemma blocked_frames : forall s x k o, reach s -> blocked s x k o -> exists w st, stk (sc s) x = w ++ FApi k o :: st /\ blk_frames o w.
Proof.
  intros s x k o RE (I & w & st & SK & N). destruct (paused_blocked s x RE I) as (k2 & o2 & w2 & st2 & SK2 & B). rewrite SK in SK2.
  destruct (app_api_inj _ _ _ _ _ _ _ _ SK2 N (blk_noapi _ _ B)) as (-> & -> & -> & ->). eauto.
Qed.
Lemma blocked_unique : forall s x k o k' o', blocked s x k o -> blocked s x k' o' -> k = k' /\ o = o'.
Proof.
  intros s x k o k' o' (_ & w & st & SK & N) (_ & w2 & st2 & SK2 & N2). rewrite SK in SK2.
  destruct (app_api_inj _ _ _ _ _ _ _ _ SK2 N N2) as (_ & -> & -> & _). auto.
Qed.

(** the coroutines on the resume list are runnable after the next scheduler pass *)
Lemma notpaused_runnable : forall s x, reach s -> stk (sc s) x <> [] -> ~ In x (paused (sc s)) -> runnable s x.
Proof.
  intros s x RE SX NP. destruct (reach_full _ RE) as [[SI _] _]. apply (si_alive _ SI) in SX. unfold everyone, parked in SX.
  unfold curl in SX. rewrite !in_app_iff in SX. unfold runnable. destruct (cur (sc s)) as [c|]; cbn in SX; [|tauto].
  destruct SX as [[->|[]]|SX]; [auto | tauto].
Qed.

(** ** A pass of the scheduler loop *)
(** everything that can run, in the order in which it will *)
Definition ready (s : state) : list Z := curl (sc s) ++ runners (sc s) ++ yielders (sc s).
Lemma ready_runnable : forall s x, In x (ready s) <-> runnable s x.
Proof.
  intros s x. unfold ready, runnable, curl. rewrite !in_app_iff. destruct (cur (sc s)) as [c|]; cbn.
  - split; [intros [[->|[]]|H]; auto | intros [H|H]; [injection H as ->; auto | auto]].
  - split; [intros [[]|H]; auto | intros [H|H]; [discriminate | auto]].
Qed.

(** order-preserving sublists *)
Inductive sublist {A} : list A -> list A -> Prop :=
| sl_nil : sublist [] []
| sl_skip x a b : sublist a b -> sublist a (x :: b)
| sl_keep x a b : sublist a b -> sublist (x :: a) (x :: b).
Lemma sublist_In : forall A (a b : list A), sublist a b -> forall x, In x a -> In x b.
Proof. intros A a b S. induction S; intros y I; [exact I | right; auto|]. destruct I as [->|I]; [left; reflexivity | right; auto]. Qed.
Lemma wakes_list : forall ws s, exists l, yielders (fold_left (fun a id => wake id a) ws s) = yielders s ++ l /\ sublist l ws /\
  (forall x, In x l -> In x (paused s)) /\ (forall x, In x ws -> In x (paused s) -> In x l).
Proof.
  induction ws as [|w ws IH]; intros s; cbn [fold_left].
  - exists []. rewrite app_nil_r. repeat split; [constructor | intros x [] | intros x []].
  - destruct (IH (wake w s)) as (l & Y & SL & A & B). unfold wake in *. destruct (mem w (paused s)) eqn:ME.
    + cbn [yielders push_yielder set_nyld set_yielders set_npsd set_paused paused] in *. exists (w :: l). rewrite Y, <- app_assoc.
      split; [reflexivity|]. split; [constructor; exact SL|]. split.
      * intros x [<-|I]; [apply mem_In; exact ME|]. apply A in I. cbn in I. apply remove1_In in I. apply I.
      * intros x [<-|I] J; [left; reflexivity|]. destruct (Z.eq_dec x w) as [->|NE]; [left; reflexivity|]. right. apply B; [exact I|].
        cbn. apply remove1_In. auto.
    + exists l. split; [exact Y|]. split; [constructor; exact SL|]. split; [exact A|].
      intros x [<-|I] J; [apply mem_In in J; congruence | auto].
Qed.
Lemma wakes_runners : forall ws s, runners (fold_left (fun a id => wake id a) ws s) = runners s /\ cur (fold_left (fun a id => wake id a) ws s) = cur s.
Proof.
  induction ws as [|w ws IH]; intros s; cbn [fold_left]; [auto|]. destruct (IH (wake w s)) as [-> ->]. unfold wake. destruct (mem w _); auto.
Qed.
(** the deadline of a blocked coroutine; re-acquiring the mutex at the end of a
    condition wait has none *)
Definition relocking (s : state) (x : Z) : Prop := exists m r st, stk (sc s) x = FPause :: FLock m :: FCvRelock m r :: st.
Definition waits_until (s : state) (x dl : Z) : Prop := exists k o, blocked s x k o /\ op_dl o = dl /\ dl < MAXI /\ ~ relocking s x.
Lemma waits_dls : forall s x dl, reach s -> (waits_until s x dl <-> In x (paused (sc s)) /\ In (dl, x) (dls (dt s))).
Proof.
  intros s x dl RE. split.
  - intros (k & o & B & <- & LT & NR). split; [apply B|]. destruct (blocked_frames _ _ _ _ RE B) as (w & st & SK & BF).
    apply (bk_dl _ _ _ (reach_bk _ RE x)). destruct BF as [f o WF HO|v m d2 ret|b].
    + cbn in SK. rewrite SK, (reach_sdl _ RE _ _ _ SK), sdl_api. split; [left; reflexivity | auto].
    + exfalso. apply NR. do 3 eexists. exact SK.
    + exfalso. cbn in LT. lia.
  - intros (PA & I). apply (bk_dl _ _ _ (reach_bk _ RE x)) in I. destruct I as (IP & DL & LT).
    destruct (paused_blocked s x RE PA) as (k & o & w & st & SK & BF). exists k, o.
    assert (B : blocked s x k o) by (split; [exact PA|]; exists w, st; split; [exact SK | apply (blk_noapi _ _ BF)]).
    split; [exact B|]. destruct BF as [f o WF HO|v m d2 ret|b].
    + cbn in SK. rewrite (reach_sdl _ RE _ _ _ SK), sdl_api in DL. split; [exact DL|]. split; [exact LT|].
      intros (m & r & st2 & SK2). rewrite SK in SK2. discriminate SK2.
    + exfalso. cbn in SK. rewrite (reach_sdl _ RE _ _ _ SK) in DL. cbn in DL. lia.
    + exfalso. cbn in SK. pose proof (reach_wsh _ RE x) as W. rewrite SK in *. destruct IP as [H|IP]; [discriminate H|].
      assert (NF : FWork <> FPause) by discriminate. specialize (wsh_tl _ _ W NF _ IP) as N. discriminate N.
Qed.

(** one pass, when no signal ends the process *)
Lemma pass_inv : forall s ios, reach s -> mode s = MMain -> active (sc s) = true -> (exists n, mode (step s (EMain ios)) = MKilled n) \/
  exists d ws sch md, (if 0 <? npsd (sc s) then paused_step (now s) ios (dt s) else (dt s, [], None)) = (d, ws, None) /\
    sco_switch true (fold_left (fun a id => wake id a) ws (sc s)) = (sch, md) /\ step s (EMain ios) = set_sc sch (set_dt (rc_step (now s) d) (set_mode md s)).
Proof.
  intros s ios RE M AC. rewrite step_main, M. Transparent do_main. unfold do_main. Opaque do_main. rewrite AC. cbn [negb].
  destruct (if 0 <? npsd (sc s) then _ else _) as [[d ws] kill] eqn:PS. destruct kill as [n|]; [left; exists n; reflexivity|].
  right. destruct (sco_switch true _) as [sch md] eqn:X. exists d, ws, sch, md. auto.
Qed.
Lemma main_ready : forall s, reach s -> mode s = MMain -> ready s = yielders (sc s).
Proof.
  intros s RE M. destruct (reach_full _ RE) as [[_ MO] _]. rewrite M in MO. destruct MO as (A & B & _). unfold ready, curl. rewrite A, B. reflexivity.
Qed.
Lemma switch_ready : forall s sch md, cur s = None -> runners s = [] -> sco_switch true s = (sch, md) -> counts s -> md <> MUB ->
  curl sch ++ runners sch ++ yielders sch = yielders s.
Proof.
  intros s sch md C R E CT NU. unfold sco_switch in E. rewrite (ct_run _ CT), R in E. cbn in E. destruct (_ || _) eqn:Z0.
  - inj E. unfold curl. cbn. rewrite R. reflexivity.
  - cbn in E. destruct (yielders s) as [|y l]; inj E; [congruence|]. unfold curl. cbn. rewrite app_nil_r. reflexivity.
Qed.
Lemma paused_active : forall s x, reach s -> In x (paused (sc s)) -> active (sc s) = true.
Proof.
  intros s x RE I. destruct (reach_full _ RE) as [[SI _] _]. pose proof (si_counts _ SI) as [C1 C2 C3]. unfold active. rewrite C1, C2, C3.
  destruct (paused (sc s)); [destruct I|]. apply Z.ltb_lt. cbn [length]. destruct (cur (sc s)); lia.
Qed.
(** the coroutines on the resume list are runnable after the next pass *)
Theorem resumed_at_pass : forall s ios x, reach s -> mode s = MMain -> In x (paused (sc s)) -> to_resume s x ->
  (exists n, mode (step s (EMain ios)) = MKilled n) \/ runnable (step s (EMain ios)) x.
Proof.
  intros s ios x RE M PA TR. destruct (pass_inv s ios RE M (paused_active _ _ RE PA)) as [K|(d & ws & sch & md & PS & X & ST)]; [auto|]. right.
  apply notpaused_runnable; [apply reach_step, RE | |]; rewrite ST; cbn [set_sc set_dt set_mode sc].
  - apply sco_switch_frame in X. destruct X as (X1 & _). destruct (wakes_frame ws (sc s)) as (W1 & _). rewrite X1, W1.
    destruct (reach_full _ RE) as [[SI _] _]. apply (si_alive _ SI). unfold everyone, parked. rewrite !in_app_iff. auto.
  - rewrite (switch_paused _ _ _ _ X). intros J. apply wakes_in in J. destruct J as [_ J]. apply J.
    destruct (0 <? npsd (sc s)) eqn:NP; [eapply paused_step_res; [exact PS | exact TR]|]. exfalso.
    destruct (reach_full _ RE) as [[SI _] _]. pose proof (ct_psd _ (si_counts _ SI)) as Q. apply Z.ltb_ge in NP.
    destruct (paused (sc s)); [destruct PA|]. cbn in Q. lia.
Qed.

(** ** Deadlines at a pass *)
Definition expired (s : state) (x : Z) : Prop := exists dl, waits_until s x dl /\ dl < now s.
Lemma dl_step_list : forall l nw d d' w, StronglySorted (lt dl_compare) l -> dl_step l nw d = (d', w) ->
  w = map snd (filter (fun p => fst p <? nw) l).
Proof.
  induction l as [|[dl c] l IH]; intros nw d d' w SS E; cbn in E; [inj E; reflexivity|].
  inversion SS as [|? ? SS2 FA]; subst. cbn [filter fst]. destruct (dl <? nw) eqn:L.
  - destruct (dl_step l nw _) as [d1 w1] eqn:Q. inj E. cbn [map snd]. f_equal. eapply IH; eassumption.
  - inj E. assert (NIL : filter (fun p => fst p <? nw) l = []); [|rewrite NIL; reflexivity].
    apply filter_none. intros [t y] I. rewrite Forall_forall in FA. specialize (FA _ I). cbn. apply Z.ltb_ge in L. apply Z.ltb_ge.
    unfold lt in FA. unfold dl_compare in FA. cbn in FA. destruct (Z.ltb_spec dl t); [lia|]. destruct (Z.ltb_spec t dl); [discriminate | lia].
Qed.
Lemma sublist_map : forall A B (f : A -> B) l a, sublist a (map f l) -> exists e, a = map f e /\ sublist e l.
Proof.
  intros A B f. induction l as [|x l IH]; intros a S; cbn in S; inversion S; subst.
  - exists []. split; [reflexivity | constructor].
  - destruct (IH _ H1) as (e & -> & SL). exists e. split; [reflexivity | constructor; exact SL].
  - destruct (IH _ H1) as (e & -> & SL). exists (x :: e). split; [reflexivity | constructor; exact SL].
Qed.
Lemma sublist_sorted : forall A (R : A -> A -> Prop) e l, sublist e l -> StronglySorted R l -> StronglySorted R e.
Proof.
  intros A R e l S. induction S; intros SS; [constructor | inversion SS; auto|]. inversion SS as [|? ? S1 F]; subst. constructor; [auto|].
  rewrite Forall_forall in *. intros y I. apply F. eapply sublist_In; eassumption.
Qed.
Lemma filter_sublist : forall A (p : A -> bool) l, sublist (filter p l) l.
Proof. intros A p. induction l as [|x l IH]; cbn; [constructor|]. destruct (p x); constructor; exact IH. Qed.
(** why a coroutine may be woken by the pass other than by its deadline: resumed by another coroutine, work done, I/O event, signal *)
Definition other_reason (s : state) (x : Z) : Prop :=
  to_resume s x \/ In (NCo x) (q (dt s) QIo) \/ (exists fd kd, In (fd, kd, x) (evs (dt s))) \/ In (NCo x) (q (dt s) QSig).
Lemma paused_step_split : forall nw ios d d' ws, StronglySorted (lt dl_compare) (dls d) -> paused_step nw ios d = (d', ws, None) ->
  exists a d0, ws = a ++ map snd (filter (fun p => fst p <? nw) (dls d)) /\ dl_step (dls d) nw d0 = (d', map snd (filter (fun p => fst p <? nw) (dls d))) /\
    (forall x, deadlined (cof d0 x) = deadlined (cof d x)) /\
    (forall x, In x a -> (exists n, In n (q d QRes) /\ node_co n = x) \/ (exists n, In n (q d QIo) /\ node_co n = x) \/
      (exists fd kd, In (fd, kd, x) (evs d)) \/ (exists n, In n (q d QSig) /\ node_co n = x)).
Proof.
  intros nw ios d d' ws SS E. unfold paused_step in E.
  set (d1 := set_nresumers _ _) in E.
  set (d2 := if 0 <? niow d1 then set_q _ d1 else d1) in E.
  assert (V2 : evs d2 = evs d /\ dls d2 = dls d /\ q d2 QSig = q d QSig /\ cof d2 = cof d).
  { unfold d2. destruct (0 <? niow d1); cbn; repeat split; auto; rewrite ?qupd_neq by discriminate; reflexivity. }
  destruct V2 as (V2a & V2b & V2c & V2d).
  destruct (if 0 <? nevs d2 then _ else _) as [d3 w3] eqn:E3.
  assert (P3 : mprims d2 d3). { destruct (0 <? nevs d2); [eapply mp_event_step; exact E3 | inj E3; apply ms_nil]. }
  destruct (if negb (sigm d3 =? 0) then _ else _) as [[d4 w4] kill] eqn:E4.
  assert (P4 : mprims d3 d4). { destruct (negb _); [eapply mp_signal_step; exact E4 | inj E4; apply ms_nil]. }
  destruct (mprims_evs _ _ P3) as (_ & Q3 & _). destruct (mprims_evs _ _ P4) as (_ & Q4 & _).
  assert (QD : dls d4 = dls d) by congruence. rewrite QD in E.
  destruct (dl_step (dls d) nw d4) as [d5 w5] eqn:E5. inj E. pose proof (dl_step_list _ _ _ _ _ SS E5) as W5. subst w5.
  exists (map node_co (q d QRes) ++ (if 0 <? niow d then map node_co (q d1 QIo) else []) ++ w3 ++ w4), d4.
  split; [rewrite <- !app_assoc; reflexivity|]. split; [exact E5|]. split.
  { intros x. assert (C3 : cof d3 = cof d2) by (destruct (0 <? nevs d2); [eapply event_step_cof; exact E3 | inj E3; reflexivity]).
    assert (C4 : deadlined (cof d4 x) = deadlined (cof d3 x)).
    { destruct (negb _); [|inj E4; reflexivity]. unfold signal_step in E4. destruct (find _ signos); [|inj E4; reflexivity].
      destruct (_ =? 0); [inj E4; rewrite dec_sigq_cof; reflexivity|]. destruct (find _ (q d3 QSig)); inj E4; [|reflexivity].
      rewrite dec_sigq_cof. match goal with |- context [upco ?c _ _] => destruct (Z.eq_dec x c) as [->|N]; [rewrite upco_eq; destruct (cof d3 c); reflexivity | rewrite upco_neq by exact N; reflexivity] end. }
    rewrite C4, C3, V2d. reflexivity. }
  intros x I. apply in_app_or in I. destruct I as [I|I].
  { left. apply in_map_iff in I. destruct I as (n & A & B). exists n. auto. }
  apply in_app_or in I. destruct I as [I|I].
  { right; left. destruct (0 <? niow d); [|destruct I]. apply in_map_iff in I. destruct I as (n & A & B). exists n. split; [|exact A].
    cbn in B. try rewrite qupd_neq in B by discriminate. exact B. }
  apply in_app_or in I. destruct I as [I|I].
  { right; right; left. destruct (0 <? nevs d2); [|inj E3; destruct I]. rewrite <- V2a. eapply event_step_ws; eassumption. }
  right; right; right. destruct (negb _); [|inj E4; destruct I]. rewrite <- V2c, <- (mprims_wq _ _ QSig P3) by exact Logic.I.
  eapply signal_step_ws; eassumption.
Qed.

Lemma sys_node : forall s n k, reach s -> sysq k -> In n (q (dt s) k) -> exists y, n = NCo y.
Proof. intros s n k RE S I. apply (so_nco _ _ (reach_sysok _ RE) n k S I). Qed.
Lemma sig_node : forall s n, reach s -> In n (q (dt s) QSig) -> exists y, n = NCo y.
Proof.
  intros s n RE I. pose proof (reach_qloc _ RE n QSig Logic.I I) as MA. unfold matched in MA.
  destruct (top (stk (sc s) (node_co n))) as [|f r]; [destruct MA|]. destruct f; try (destruct MA; fail); try (destruct MA as [_ MA]; discriminate MA); try (destruct MA as [MA _]; eauto; fail).
  destruct r as [|g r]; [destruct MA|]. destruct g; try (destruct MA; fail). destruct o; try (destruct MA; fail). destruct MA as (? & ? & _ & _ & MA). discriminate MA.
Qed.
Theorem deadline_pass : forall s ios, reach s -> mode s = MMain -> active (sc s) = true -> (exists n, mode (step s (EMain ios)) = MKilled n) \/
  exists a e, ready (step s (EMain ios)) = ready s ++ a ++ map snd e /\
    (forall x, In x a -> In x (paused (sc s)) /\ (other_reason s x)) /\
    (forall dl x, In (dl, x) e -> waits_until s x dl /\ dl < now s /\ deadlined (cof (dt (step s (EMain ios))) x) = true) /\
    StronglySorted (lt dl_compare) e /\
    (forall dl x, waits_until s x dl -> dl < now s -> In x a \/ In (dl, x) e).
Proof.
  intros s ios RE M AC. destruct (pass_inv s ios RE M AC) as [K|(d & ws & sch & md & PS & X & ST)]; [auto|]. right.
  destruct (reach_full _ RE) as [[SI MO] _]. rewrite M in MO. destruct MO as (CN & RN & _).
  pose proof (reach_full _ (reach_step _ (EMain ios) RE)) as [[SI2 MO2] _].
  pose proof X as X0. destruct (wakes_runners ws (sc s)) as [W1 W2].
  assert (SW : swinv (fold_left (fun a id => wake id a) ws (sc s))) by (apply wakes_swinv, sinv_main_swinv; assumption).
  assert (NU : md <> MUB). { pose proof X as X9. apply sco_switch_inv in X9; [|exact SW]. destruct X9 as (_ & _ & [H|H]); congruence. }
  assert (RD : ready (step s (EMain ios)) = yielders (fold_left (fun a id => wake id a) ws (sc s))).
  { rewrite ST. unfold ready. cbn [set_sc sc]. eapply switch_ready; [congruence | congruence | exact X | apply (sw_counts _ SW) | exact NU]. }
  assert (EMPTY : ws = [] -> (forall x, ~ In x (paused (sc s))) -> exists a e, ready (step s (EMain ios)) = ready s ++ a ++ map snd e /\
    (forall x, In x a -> In x (paused (sc s)) /\ (other_reason s x)) /\
    (forall dl x, In (dl, x) e -> waits_until s x dl /\ dl < now s /\ deadlined (cof (dt (step s (EMain ios))) x) = true) /\
    StronglySorted (lt dl_compare) e /\
    (forall dl x, waits_until s x dl -> dl < now s -> In x a \/ In (dl, x) e)).
  { intros -> NP. exists [], []. rewrite RD, (main_ready _ RE M). cbn. rewrite !app_nil_r. split; [reflexivity|].
    split; [intros x []|]. split; [intros dl x []|]. split; [constructor|]. intros dl x (k & o & [B _] & _) _. destruct (NP x B). }
  destruct (0 <? npsd (sc s)) eqn:NP.
  2:{ apply EMPTY; [inj PS; reflexivity|]. intros x I. pose proof (ct_psd _ (si_counts _ SI)) as Q. apply Z.ltb_ge in NP.
      destruct (paused (sc s)); [destruct I|]. cbn in Q. lia. }
  clear EMPTY. pose proof (reach_dls_sorted _ RE) as SS.
  destruct (paused_step_split _ _ _ _ _ SS PS) as (a0 & d0 & WS & DS & _ & RS). set (E0 := filter (fun p => fst p <? now s) (dls (dt s))) in *.
  rewrite WS, fold_left_app in RD.
  destruct (wakes_list a0 (sc s)) as (a & YA & SA & AP & AQ).
  destruct (wakes_list (map snd E0) (fold_left (fun a id => wake id a) a0 (sc s))) as (l & YL & SL & LP & LQ).
  destruct (sublist_map _ _ _ _ _ SL) as (e & -> & SE). exists a, e.
  assert (PE : forall x, In x (map snd e) -> In x (paused (sc s)) /\ ~ In x a0) by (intros x I; apply LP in I; apply wakes_in in I; exact I).
  split; [rewrite RD, YL, YA, (main_ready _ RE M), <- app_assoc; reflexivity|]. split; [|split; [|split]].
  - intros x I. split; [apply AP, I|]. apply (sublist_In _ _ _ SA) in I. destruct (RS x I) as [(n & J & N)|[(n & J & N)|[J|(n & J & N)]]].
    + left. destruct (sys_node _ _ QRes RE Logic.I J) as (y & ->). cbn in N. subst y. exact J.
    + right; left. destruct (sys_node _ _ QIo RE Logic.I J) as (y & ->). cbn in N. subst y. exact J.
    + right; right; left. exact J.
    + right; right; right. destruct (sig_node _ _ RE J) as (y & ->). cbn in N. subst y. exact J.
  - intros dl x I. assert (IX : In x (map snd e)) by (apply in_map_iff; exists (dl, x); auto). destruct (PE x IX) as [PX _].
    pose proof (sublist_In _ _ _ SE _ I) as J. unfold E0 in J. apply filter_In in J. destruct J as [J L]. cbn in L. apply Z.ltb_lt in L.
    split; [apply (waits_dls _ _ _ RE); auto|]. split; [exact L|]. rewrite ST. cbn [set_sc set_dt dt]. rewrite rc_deadlined.
    eapply dl_step_ws in DS; [apply DS|]. apply in_map_iff. exists (dl, x). split; [reflexivity|]. eapply sublist_In; eassumption.
  - eapply sublist_sorted; [exact SE|]. eapply sublist_sorted; [apply filter_sublist | exact SS].
  - intros dl x W L. apply (waits_dls _ _ _ RE) in W. destruct W as [PX DX].
    assert (IE : In (dl, x) E0) by (apply filter_In; split; [exact DX | cbn; apply Z.ltb_lt; exact L]).
    destruct (in_dec Z.eq_dec x a0) as [IA|NA]; [left; apply AQ; assumption|]. right.
    assert (IL : In x (map snd e)). { apply LQ; [apply in_map_iff; exists (dl, x); auto|]. apply wakes_paused; assumption. }
    apply in_map_iff in IL. destruct IL as ([t y] & EQ & IE2). cbn in EQ. subst y.
    assert (t = dl); [|congruence]. pose proof (sublist_In _ _ _ SE _ IE2) as J. apply filter_In in J. destruct J as [J _].
    apply (bk_dl _ _ _ (reach_bk _ RE x)) in J. apply (bk_dl _ _ _ (reach_bk _ RE x)) in DX. destruct J as (_ & <- & _). destruct DX as (_ & <- & _). reflexivity.
Qed.
(** only a wait whose deadline has passed is marked as timed out *)
Theorem timeout_mark : forall s ios x, reach s -> mode s = MMain ->
  deadlined (cof (dt (step s (EMain ios))) x) = true -> deadlined (cof (dt s) x) = false ->
  exists k o t, In (TCall k x o t) (tr s) /\ ~ returned k (tr s) /\ op_dl o < now s.
Proof.
  intros s ios x RE M DD DF. assert (AC : active (sc s) = true).
  { rewrite step_main, M in DD. Transparent do_main. unfold do_main in DD. Opaque do_main. destruct (active (sc s)); [reflexivity|]. cbn in DD. congruence. }
  destruct (pass_inv s ios RE M AC) as [(n & K)|(d & ws & sch & md & PS & X & ST)].
  { exfalso. rewrite step_main, M in DD, K. Transparent do_main. unfold do_main in DD, K. Opaque do_main. rewrite AC in DD, K. cbn [negb] in DD, K.
    destruct (if 0 <? npsd (sc s) then _ else _) as [[d ws] [m|]]; [cbn in DD; congruence|].
    destruct (sco_switch true _) as [sch md] eqn:X. cbn in K. subst md. unfold sco_switch in X. destruct (_ && _); [discriminate X|].
    match type of X with context [match ?z with [] => _ | _ => _ end] => destruct z end; discriminate X. }
  rewrite ST in DD. cbn [set_sc set_dt dt] in DD. rewrite rc_deadlined in DD.
  destruct (0 <? npsd (sc s)); [|inj PS; congruence]. pose proof (reach_dls_sorted _ RE) as SS.
  destruct (paused_step_split _ _ _ _ _ SS PS) as (a0 & d0 & WS & DS & D0 & _).
  destruct (dl_step_marks _ _ _ _ _ _ DS DD) as [H|H]; [rewrite D0 in H; congruence|].
  apply in_map_iff in H. destruct H as ([dl y] & EQ & I). cbn in EQ. subst y. apply filter_In in I. destruct I as [I L]. cbn in L. apply Z.ltb_lt in L.
  apply (bk_dl _ _ _ (reach_bk _ RE x)) in I. destruct I as (IP & DL & LT).
  pose proof (reach_wsh _ RE x) as W. pose proof (reach_full _ RE) as F.
  assert (exists st, stk (sc s) x = FPause :: st) as (st & SK).
  { destruct (stk (sc s) x) as [|g st] eqn:SK; [destruct IP|]. destruct g; try (exfalso; destruct IP as [Z0|IP]; [discriminate Z0|];
      match type of W with wsh (?h :: _) => assert (NF : h <> FPause) by discriminate end; specialize (wsh_tl _ _ W NF _ IP) as N; discriminate N). eauto. }
  rewrite SK in W. destruct (wsh_pause _ W) as (g & r & -> & WF & _). pose proof (reach_sdl _ RE _ _ _ SK) as Q. rewrite DL in Q.
  assert (LS : lstack (FPause :: g :: r)) by (rewrite <- SK; apply live_lstack; [exact F | rewrite SK; discriminate]).
  apply lstack_pause in LS. apply lstack_host in LS; [|destruct g; try reflexivity; exact WF].
  destruct LS as [(k & o & st & -> & _ & HO)|(m & ret & k & v & dl2 & st & -> & -> & _)]; [|cbn in Q; lia].
  rewrite sdl_api in Q. assert (IN : In (FApi k o) (stk (sc s) x)) by (rewrite SK; cbn; auto).
  destruct (ci_open _ (reach_cinv _ RE) _ _ _ IN) as (t & H & _). exists k, o, t. split; [exact H|]. split; [eapply ci_pend; [apply reach_cinv, RE | exact IN] | lia].
Qed.
