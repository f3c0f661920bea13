(** C43: signals. *)
From Coq Require Import List ZArith Bool Lia.
From Verif Require Import AATreeSpec AATreeHist Util Runtime SchedInv StepInv StackShape RuntimeSpec TraceInv Immediate Prims StaticInv Footprint QueueInv OwnInv WaitInv CallInv SpecInv TraceStep Wake Awake DeadlineInv AllInv PausedInv ResultInv JoinInv WaiterInv AtCall BlockSpec Stuck ChanOrder WatchInv SigInv SigTold SigOnce Scripts.
Import ListNotations.
Local Open Scope Z_scope.

(** ** Specification *)
(** occurrences of [n] that arrived while somebody watched [n] and have not been handed out *)
Definition pending (s : state) (n : Z) : Z := sigq (dt s) n.
(** the runtime was started in the process's main thread: the only one with signals *)
Definition in_main (s : state) : Prop := mainthread (dt s) = true.
(** the signals the library can handle *)
Definition handled (n : Z) : Prop := In n allowed_signals.
(** how often the event "signal [n] arrives" occurs *)
Definition arrivals (n : Z) (es : list event) : nat := length (filter (fun e => match e with ESignal m => m =? n | _ => false end) es).
(** how many waits returned [n] *)
Definition received (n : Z) (t : list obs) : nat := length (filter (fun z => match z with TRet _ _ (OpSigWait _) v _ _ => v =? n | _ => false end) t).

(** ** Watching is counted; an unwatched signal has its default effect *)
Lemma handled_signo : forall n, handled n -> signo n.
Proof. intros n H. apply allowed_signos. apply mem_In. exact H. Qed.
(** Nobody watches [n]: it ends the process (SIGPIPE, 13, is ignored). *)
Theorem C43_default_partial : forall s n, reach s -> in_main s -> tidy (tr s) -> ~ over (mode s) -> handled n -> watchers n (tr s) = 0%nat ->
  step s (ESignal n) = if n =? 13 then s else set_mode (MKilled n) s.
Proof.
  intros s n RE IM TD NO HN WN. pose proof (wo_cnt _ (reach_wi _ RE IM TD) n (handled_signo _ HN)) as W. rewrite WN in W.
  apply mem_In in HN. unfold in_main in IM. cbn [step]. destruct (mode s) eqn:M; try (destruct (NO Logic.I)); rewrite IM, HN, W; reflexivity.
Qed.
(** Somebody watches [n]: the occurrence is recorded and nothing else happens. *)
Theorem C43_recorded_partial : forall s n, reach s -> in_main s -> tidy (tr s) -> ~ over (mode s) -> handled n -> (0 < watchers n (tr s))%nat ->
  let s' := step s (ESignal n) in
  pending s' n = pending s n + 1 /\ (forall m, m <> n -> pending s' m = pending s m) /\ mode s' = mode s /\ tr s' = tr s /\ sc s' = sc s.
Proof.
  intros s n RE IM TD NO HN WN. pose proof (wo_cnt _ (reach_wi _ RE IM TD) n (handled_signo _ HN)) as W.
  assert (W0 : (sigw (dt s) n =? 0) = false) by (apply Z.eqb_neq; lia).
  apply mem_In in HN. unfold in_main in IM.
  assert (G : step s (ESignal n) = set_dt (set_sigq (zupd (sigq (dt s)) n (sigq (dt s) n + 1)) (set_sigm (Z.lor (sigm (dt s)) (Z.shiftl 1 n)) (dt s))) s).
  { cbn [step]. destruct (mode s) eqn:M; try (destruct (NO Logic.I)); rewrite IM, HN, W0; reflexivity. }
  cbv zeta. rewrite G. unfold pending. cbn. rewrite zupd_eq. repeat split; auto. intros m NE. apply zupd_neq, NE.
Qed.

(** the lowest pending signal *)
Definition lowest (s : state) (n : Z) : Prop := 0 < pending s n /\ forall m, 0 <= m < n -> pending s m = 0.
Lemma find_low : forall (f : Z -> bool) k a n, (forall m, Z.of_nat a <= m < n -> f m = false) -> f n = true -> Z.of_nat a <= n < Z.of_nat (a + k) ->
  find f (map Z.of_nat (seq a k)) = Some n.
Proof.
  intros f. induction k as [|k IH]; intros a n LO HI R; [lia|]. cbn [seq map find]. destruct (Z.eq_dec (Z.of_nat a) n) as [->|NE]; [rewrite HI; reflexivity|].
  rewrite (LO (Z.of_nat a)) by lia. apply IH; [|exact HI|lia]. intros m M. apply LO. lia.
Qed.
Lemma find_lowest : forall s n, reach s -> lowest s n -> find (fun n => negb (sigq (dt s) n =? 0)) signos = Some n /\ 0 <= n <= 31.
Proof.
  intros s n RE [P L]. unfold pending in *.
  assert (R : 0 <= n <= 31). { apply signos_range. destruct (in_dec Z.eq_dec n signos) as [I|NI]; [exact I|]. rewrite (sg_out _ (reach_sgok _ RE) _ NI) in P. lia. }
  split; [|exact R]. apply (find_low _ 32 0); [| |cbn; lia].
  - intros m M. rewrite L by (cbn in M; lia). reflexivity.
  - destruct (Z.eqb_spec (sigq (dt s) n) 0); [lia | reflexivity].
Qed.
(** The default effect also applies to an occurrence whose watchers are all gone by
    the time it is handled. *)
Theorem C43_default_later_partial : forall s n ios, reach s -> in_main s -> tidy (tr s) -> mode s = MMain -> paused (sc s) <> [] -> lowest s n -> handled n -> watchers n (tr s) = 0%nat ->
  n <> 13 -> mode (step s (EMain ios)) = MKilled n.
Proof.
  intros s n ios RE IM TD M PA LO HN WN N13. pose proof (wo_cnt _ (reach_wi _ RE IM TD) n (handled_signo _ HN)) as W. rewrite WN in W. destruct (find_lowest _ _ RE LO) as [FN _].
  assert (exists x, In x (paused (sc s))) as (x & IX) by (destruct (paused (sc s)); [congruence | eexists; left; reflexivity]).
  rewrite step_main, M. Transparent do_main. unfold do_main. Opaque do_main. rewrite (paused_active _ _ RE IX). cbn [negb].
  assert (NP : 0 <? npsd (sc s) = true). { destruct (reach_full _ RE) as [[SI _] _]. rewrite (ct_psd _ (si_counts _ SI)). destruct (paused (sc s)); [congruence|]. apply Z.ltb_lt. cbn [length]. lia. }
  rewrite NP. destruct (paused_step (now s) ios (dt s)) as [[d ws] k] eqn:PS.
  destruct (paused_step_sig _ _ _ _ _ _ PS (reach_sgok _ RE)) as (d3 & d4 & w4 & S4 & Q3 & W3 & _). unfold signal_step in S4. rewrite Q3, FN, W3, W in S4. cbn in S4.
  apply Z.eqb_neq in N13. rewrite N13 in S4. inj S4. reflexivity.
Qed.

(** ** Delivery *)
(** [y] is inside a wait for signals, which is call number [j] and has not returned *)
Definition in_wait (s : state) (y : Z) (j : nat) : Prop := (exists dl t, In (TCall j y (OpSigWait dl) t) (tr s)) /\ ~ returned j (tr s).
Lemma sig_top : forall s n, reach s -> In n (q (dt s) QSig) -> exists rest, top (stk (sc s) (node_co n)) = FSigWait :: rest /\ n = NCo (node_co n).
Proof.
  intros s n RE I. pose proof (reach_qloc _ RE n QSig Logic.I I) as MA. unfold matched in MA.
  destruct (top (stk (sc s) (node_co n))) as [|f r]; [destruct MA|]. destruct f; try (destruct MA; fail); try (destruct MA as [_ MA]; discriminate MA); try (destruct MA as [MA _]; eauto; fail).
  destruct r as [|g r]; [destruct MA|]. destruct g; try (destruct MA; fail). destruct o; try (destruct MA; fail). destruct MA as (? & ? & _ & _ & MA). discriminate MA.
Qed.
Lemma top_wait : forall s y rest, reach s -> top (stk (sc s) y) = FSigWait :: rest ->
  exists j dl st, rest = FApi j (OpSigWait dl) :: st /\ in_wait s y j /\ stk (sc s) y <> [].
Proof.
  intros s y rest RE TP. pose proof (reach_full _ RE) as F.
  assert (NS : stk (sc s) y <> []) by (intros Z; rewrite Z in TP; discriminate).
  assert (L : lstack (FSigWait :: rest)) by (rewrite <- TP; apply lstack_top, live_lstack; assumption).
  destruct (lstack_host _ _ L eq_refl) as [(j & oo & st & Q2 & _ & H)|(? & ? & ? & ? & ? & ? & ? & _)]; [|discriminate].
  destruct oo; try destruct H. exists j, dl, st. split; [exact Q2|].
  assert (IA : In (FApi j (OpSigWait dl)) (stk (sc s) y)) by (apply top_sub; rewrite TP, Q2; right; left; reflexivity).
  destruct (ci_open _ (reach_cinv _ RE) y j (OpSigWait dl) IA) as (tm & B & _). split; [|exact NS]. split; [eauto|].
  eapply ci_pend; [apply reach_cinv, RE | exact IA].
Qed.
Lemma waiter_queued : forall s x k dl, reach s -> blocked s x k (OpSigWait dl) -> In (NCo x) (q (dt s) QSig) /\ sigmask (cof (dt s) x) = sigwatch (cof (dt s) x).
Proof.
  intros s x k dl RE B. destruct (blocked_frames _ _ _ _ RE B) as (w & st & SK & BF). inversion BF as [f o WF HO EQ| |]; subst.
  destruct f; try destruct HO. destruct (reach_mask _ RE x (FApi k (OpSigWait dl) :: st)) as [H1 H2]; [rewrite SK; reflexivity | left; apply B|]. auto.
Qed.
Lemma top_started : forall s x, reach s -> stk (sc s) x <> [] -> In x (started (tr s)).
Proof. intros s x RE N. apply (ti_alive _ (reach_tinv _ RE)) in N. apply N. Qed.
Lemma top_in : forall o w j st r, shape o w -> top (w ++ FApi j o :: st) = FSigWait :: r -> In FSigWait w.
Proof.
  intros o w j st r SH TP. destruct w as [|f w]; [discriminate TP|]. destruct f; cbn in TP; try discriminate TP.
  - destruct w as [|g w]; [discriminate TP|]. injection TP as -> _. right. left. reflexivity.
  - left. reflexivity.
Qed.
Theorem C43_delivered_partial : forall s n x k dl ios, reach s -> in_main s -> tidy (tr s) -> mode s = MMain ->
  handled n -> lowest s n -> blocked s x k (OpSigWait dl) -> watching x n (tr s) = true ->
  let s' := step s (EMain ios) in
  pending s' n = pending s n - 1 /\ (forall m, m <> n -> pending s' m = pending s m) /\
  exists y j, in_wait s y j /\ watching y n (tr s) = true /\ runnable s' y /\
    forall es c o v w t, In (TRet j c o v w t) (tr (run s' es)) -> v = n \/ v = ECANCELED \/ v = ETIMEDOUT.
Proof.
  intros s n x k dl ios RE IM TD M HN LO B WX. pose proof (reach_wi _ RE IM TD) as [WB _ WC]. pose proof (handled_signo _ HN) as SN.
  destruct (find_lowest _ _ RE LO) as [FN NR]. destruct (waiter_queued _ _ _ _ RE B) as [IQ SM].
  assert (PX : In x (paused (sc s))) by apply B.
  assert (SX : In x (started (tr s))). { apply top_started; [exact RE|]. destruct B as (_ & w & st & SK & _). rewrite SK. destruct w; discriminate. }
  assert (NW : sigw (dt s) n =? 0 = false).
  { apply Z.eqb_neq. rewrite (WC _ SN). unfold watchers. assert (I : In x (filter (fun x => watching x n (tr s)) (started (tr s)))) by (apply filter_In; auto).
    destruct (filter _ _); [destruct I | cbn [length]; lia]. }
  assert (FX : exists y, find (fun z => Z.testbit (sigmask (cof (dt s) (node_co z))) n) (q (dt s) QSig) = Some y).
  { destruct (find _ (q (dt s) QSig)) as [y|] eqn:FY; [eauto|]. exfalso. pose proof (find_none _ _ FY _ IQ) as Z0. cbn in Z0. rewrite SM in Z0.
    fold (bit (dt s) x n) in Z0. rewrite (WB x n SX SN) in Z0. congruence. }
  destruct FX as (yn & FY). pose proof (find_some _ _ FY) as [IY TY]. destruct (sig_top _ _ RE IY) as (rest & TP & EN). set (y := node_co yn) in *.
  destruct (top_wait _ _ _ RE TP) as (j & dl2 & st & ER & IW & NS). pose proof (top_started _ _ RE NS) as SY.
  assert (NP : 0 <? npsd (sc s) = true). { destruct (reach_full _ RE) as [[SI _] _]. rewrite (ct_psd _ (si_counts _ SI)). destruct (paused (sc s)); [destruct PX|]. apply Z.ltb_lt. cbn [length]. lia. }
  assert (R1 : reach (step s (EMain ios))) by (apply reach_step, RE).
  assert (ST : exists d ws sch md, paused_step (now s) ios (dt s) = (d, ws, None) /\ In y ws /\ (forall m, sigq d m = if m =? n then sigq (dt s) m - 1 else sigq (dt s) m) /\ sigmask (cof d y) = n /\
     sco_switch true (fold_left (fun a id => wake id a) ws (sc s)) = (sch, md) /\ step s (EMain ios) = set_sc sch (set_dt (rc_step (now s) d) (set_mode md s))).
  { rewrite step_main, M. Transparent do_main. unfold do_main. Opaque do_main. rewrite (paused_active _ _ RE PX), NP. cbn [negb].
    destruct (paused_step (now s) ios (dt s)) as [[d ws] kl] eqn:PS.
    destruct (paused_step_sig _ _ _ _ _ _ PS (reach_sgok _ RE)) as (d3 & d4 & w4 & S4 & Q3 & W3 & C3 & QS3 & Q4 & M4 & IW4). unfold signal_step in S4. rewrite Q3, FN, W3, NW, C3, QS3, FY in S4.
    injection S4 as <- <- <-. destruct (sco_switch true _) as [sch md] eqn:X. exists d, ws, sch, md. split; [reflexivity|]. split; [apply IW4; left; reflexivity|]. split; [|split; [|auto]].
    - intros m. rewrite Q4, dec_sigq_at. cbn. rewrite Q3. reflexivity.
    - rewrite M4, dec_sigq_cof. cbn. rewrite zupd_eq. reflexivity. }
  destruct ST as (d & ws & sch & md & PS & IYW & DQ & DM & X & ST). cbv zeta. pose proof (main_noyield _ _ _ _ RE M X) as NY.
  destruct (rc_sig (now s) d) as [RQ RM].
  split; [|split].
  - rewrite ST. unfold pending. cbn [dt set_sc set_dt]. rewrite RQ, DQ, Z.eqb_refl. reflexivity.
  - intros m NE. rewrite ST. unfold pending. cbn [dt set_sc set_dt]. rewrite RQ, DQ. apply Z.eqb_neq in NE. rewrite NE. reflexivity.
  - assert (FR : stk sch = stk (sc s)). { apply sco_switch_frame in X. destruct X as (X1 & _). destruct (wakes_frame ws (sc s)) as (W1 & _). congruence. }
    assert (RU : runnable (step s (EMain ios)) y).
    { apply notpaused_runnable; [exact R1 | |]; rewrite ST; cbn [set_sc set_dt set_mode sc].
      - rewrite FR. exact NS.
      - rewrite (switch_paused _ _ _ _ X). intros J. apply wakes_in in J. destruct J as [_ J]. exact (J IYW). }
    exists y, j. split; [exact IW|]. split; [|split; [exact RU|]].
    + rewrite <- (WB y n SY SN). unfold bit. assert (ID : idle (sc s) y).
      { destruct (reach_full _ RE) as [[SI MO] _]. rewrite M in MO. destruct MO as (M1 & M2 & _). apply (si_alive _ SI) in NS. unfold everyone, curl, parked in NS. rewrite M1, M2 in NS. cbn in NS. apply in_app_or in NS. destruct NS; [right | left]; assumption. }
      destruct (reach_mask _ RE y rest TP ID) as [<- _]. exact TY.
    + assert (TO : told y j n (step s (EMain ios))).
      { destruct IW as [(dl3 & t3 & IC) NRT]. constructor.
        - exists dl3, t3. rewrite ST. exact IC.
        - intros _ w o (st2 & SK & SH). left. rewrite ST in SK. cbn [set_sc sc] in SK. rewrite FR in SK.
          assert (IF : In FSigWait w).
          { rewrite SK in TP. exact (top_in _ _ _ _ _ SH TP). }
          split; [exact IF|]. split; [rewrite ST; cbn [set_sc set_dt dt]; rewrite RM; exact DM|].
          destruct RU as [R|[R|R]]; [left; exact R | right; exact R|]. rewrite ST in R. cbn in R. rewrite NY in R. destruct R.
        - intros c o v m t IN. exfalso. apply NRT. rewrite ST in IN. cbn in IN. do 5 eexists. exact IN. }
      intros es c o v w t IN. exact (tl_ret _ _ _ _ (told_run y j n es _ R1 TO) _ _ _ _ _ IN).
Qed.

(** ** Each occurrence at most once *)
Lemma sentl_arrivals : forall n es, sentl n es = Z.of_nat (arrivals n es).
Proof.
  intros n es. unfold arrivals. induction es as [|e es IH]; [reflexivity|]. cbn [sentl fold_right filter]. fold (sentl n es). rewrite IH.
  destruct e; cbn [sent]; try lia. destruct (n0 =? n); cbn [b2z length]; lia.
Qed.
Definition who (t : list obs) : list Z := flat_map (fun z => match z with TRet _ c _ _ _ _ => [c] | _ => [] end) t.
Lemma received_got : forall n L t, (forall c, In c (who t) -> In c L) -> gotL L n t = Z.of_nat (received n t).
Proof.
  intros n L t. unfold gotL, received. intros H. f_equal. f_equal. apply filter_ext_in. intros z I. unfold gotb. destruct z; try reflexivity. destruct o; try reflexivity.
  assert (M : mem c L = true). { apply mem_In, H. unfold who. apply in_flat_map. eexists. split; [exact I | left; reflexivity]. }
  rewrite M. reflexivity.
Qed.
(** In every execution the waits that returned [n] are at most the arrivals of [n]. *)
Theorem C43_once : forall g es n, cfg_ok g -> 1 <= n ->
  (received n (tr (run (init g) es)) <= arrivals n es)%nat.
Proof.
  intros g es n O N1. set (s := run (init g) es) in *. assert (RE : reach s) by (exists g, es; split; [exact O | reflexivity]).
  assert (R0 : reach (init g)) by (exists g, []; split; [exact O | reflexivity]).
  set (L := nodup Z.eq_dec (who (tr s))).
  pose proof (acct_run L n es (init g) N1 (NoDup_nodup _ _) R0) as H. fold s in H. rewrite sentl_arrivals in H.
  assert (A0 : acct L n (init g) = 0).
  { unfold acct. assert (Q : cnt (asgb n (init g)) L = 0). { unfold cnt. rewrite Util.filter_none; [reflexivity|]. intros x _. unfold asgb. cbn. unfold zupd. destruct (_ =? _); reflexivity. }
    rewrite Q. unfold gotL, pendb. cbn. unfold spawn_dat, popq. cbn. reflexivity. }
  rewrite A0 in H. unfold acct in H. rewrite (received_got n L) in H by (intros c I; unfold L; apply nodup_In, I).
  pose proof (sigq_nonneg _ RE n). pose proof (b2z_range (pendb L n s)). unfold cnt in H. lia.
Qed.

(** ** What holds signals back, and what loses them *)
(** the loop does not advance: the lowest pending signal is watched, but nobody waits for it *)
Record held (m : Z) (s : state) : Prop := {
  h_mode : mode s = MMain;
  h_yld : nyld (sc s) = 0;
  h_run : nrun (sc s) = 0;
  h_psd : 0 < npsd (sc s);
  h_res : q (dt s) QRes = [];
  h_iow : niow (dt s) = 0;
  h_inf : inflight (dt s) = [];
  h_evs : nevs (dt s) = 0;
  h_dls : dls (dt s) = [];
  h_rng : 0 <= m <= 31;
  h_low : 0 < sigq (dt s) m /\ forall n, 0 <= n < m -> sigq (dt s) n = 0;
  h_wat : sigw (dt s) m <> 0;
  h_que : forall x, In x (q (dt s) QSig) -> Z.testbit (sigmask (cof (dt s) (node_co x))) m = false;
  h_sgw : forall n, In n allowed_signals -> n < m -> sigw (dt s) n = 0 }.
Lemma rc_qsig : forall nw d, q (rc_step nw d) QSig = q d QSig.
Proof.
  intros nw d. unfold rc_step. destruct (0 <? npool d); [|reflexivity]. cbn.
  generalize (rev (q d QPool)). intros l. revert d. induction l as [|n l IH]; intros d; cbn [stamp]; [reflexivity|]. destruct (_ =? _); [rewrite IH; reflexivity | reflexivity].
Qed.
Lemma held_step : forall m s e, held m s -> stk (sc (step s e)) = stk (sc s) /\ paused (sc (step s e)) = paused (sc s) /\ (held m (step s e) \/ killed (step s e)).
Proof.
  intros m s e [M Y R P QR IW IN EV DL RG [LO1 LO2] WA QS SW]. assert (ST : held m s) by (constructor; auto).
  destruct e; cbn [step]; try (rewrite M; auto; fail).
  - rewrite M. Transparent do_main. unfold do_main. Opaque do_main. unfold active. rewrite Y, R. cbn [Z.add].
    assert (A : (0 <? npsd (sc s) + 0 + match cur (sc s) with Some _ => 1 | None => 0 end) = true) by (apply Z.ltb_lt; destruct (cur (sc s)); lia).
    rewrite A. cbn [negb]. rewrite (proj2 (Z.ltb_lt _ _) P).
    assert (SG : forall d, sigq d = sigq (dt s) -> sigw d = sigw (dt s) -> q d QSig = q (dt s) QSig -> cof d = cof (dt s) -> signal_step d = (d, [], None)).
    { intros d E1 E2 E3 E4. unfold signal_step. rewrite E1. assert (FL : find (fun n => negb (sigq (dt s) n =? 0)) signos = Some m); [apply (find_low _ 32 0); [| |cbn; lia]|rewrite FL; clear FL].
      - intros n H. rewrite LO2 by (cbn in H; lia). reflexivity.
      - destruct (Z.eqb_spec (sigq (dt s) m) 0); [lia | reflexivity].
      - rewrite E2, E3, E4. apply Z.eqb_neq in WA. rewrite WA. destruct (find _ (q (dt s) QSig)) as [y|] eqn:FY; [|reflexivity].
        apply find_some in FY. destruct FY as [I1 I2]. rewrite QS in I2 by exact I1. discriminate. }
    unfold paused_step. rewrite QR. cbn [map length Z.of_nat]. cbn [niow set_nresumers set_q nevs]. rewrite IW. cbn [Z.ltb Z.compare]. cbn [niow set_nresumers set_q nevs]. rewrite EV. cbn [Z.ltb Z.compare].
    match goal with |- context [if negb (?a =? 0) then signal_step ?d else _] => set (d1 := d); assert (G : (if negb (sigm d1 =? 0) then signal_step d1 else (d1, [], None)) = (d1, [], None)) by (destruct (negb _); [apply SG; try reflexivity; reflexivity | reflexivity]) end.
    rewrite G. assert (DL1 : dls d1 = []) by exact DL. rewrite DL1. cbn [dl_step app map fold_left].
    unfold sco_switch. rewrite R, Y. cbn [Z.eqb orb andb negb]. split; [reflexivity|]. split; [reflexivity|]. left.
    destruct (rc_step_rest (now s) d1) as (A1 & A2 & A3 & A4 & A5 & A6 & A7); [cbn; rewrite ?qupd_eq; reflexivity|].
    assert (QS1 : q (rc_step (now s) d1) QSig = q (dt s) QSig) by (rewrite (rc_qsig (now s) d1); reflexivity).
    destruct (rc_sig (now s) d1) as [RQ RM].
    split; cbn [set_sc set_dt set_mode mode sc dt set_exitreq set_cur nyld nrun npsd]; auto.
    + rewrite A2. exact IW.
    + rewrite A3. exact IN.
    + rewrite A4. exact EV.
    + rewrite A6. exact DL.
    + rewrite RQ. auto.
    + rewrite A7. exact WA.
    + intros x I. rewrite QS1 in I. rewrite RM. apply QS, I.
    + intros n J. rewrite A7. apply SW, J.
  - destruct (_ <? _); [|auto]. cbn. split; [reflexivity|]. split; [reflexivity|]. left. constructor; auto.
  - rewrite M. destruct (negb (mainthread (dt s))); cbn [orb]; [auto|]. destruct (mem n allowed_signals) eqn:ME; cbn [negb]; [|auto].
    apply mem_In in ME. destruct (sigw (dt s) n =? 0) eqn:WN; [destruct (n =? 13); [auto|]; split; [reflexivity|]; split; [reflexivity|]; right; exists n; reflexivity|].
    split; [reflexivity|]. split; [reflexivity|]. left. apply Z.eqb_neq in WN. assert (m <= n) by (destruct (Z.lt_ge_cases n m) as [H|H]; [destruct (WN (SW _ ME H)) | exact H]).
    split; cbn [set_dt mode sc dt q niow inflight nevs dls sigq sigw cof set_sigq set_sigm]; auto. split.
    + unfold zupd. destruct (Z.eqb_spec m n) as [->|]; lia.
    + intros n0 H0. rewrite zupd_neq by lia. apply LO2, H0.
  - rewrite M, IN. cbn. auto.
  - split; [reflexivity|]. split; [reflexivity|]. left. constructor; auto.
  - destruct (_ =? _); [|auto]. split; [reflexivity|]. split; [reflexivity|]. left. constructor; auto.
  - split; [reflexivity|]. split; [reflexivity|]. left. constructor; auto.
  - destruct (_ =? _); [|auto]. split; [reflexivity|]. split; [reflexivity|]. left. constructor; auto.
  - destruct (_ =? _); [|auto]. split; [reflexivity|]. split; [reflexivity|]. left. constructor; auto.
Qed.
Theorem held_forever : forall es m s, held m s -> forall x k o, blocked s x k o -> blocked (run s es) x k o.
Proof.
  intros es m s ST x k o B. assert (G : forall es s, held m s \/ killed s -> blocked s x k o -> blocked (run s es) x k o); [|auto]. clear.
  induction es as [|e es IH]; intros s ST B; [exact B|]. cbn [run fold_left]. change (fold_left step es (step s e)) with (run (step s e) es). apply IH.
  - destruct ST as [ST|ST]; [apply (held_step m s e) in ST | apply (killed_step s e) in ST]; tauto.
  - assert (SP : stk (sc (step s e)) = stk (sc s) /\ paused (sc (step s e)) = paused (sc s)) by (destruct ST as [ST|ST]; [apply (held_step m s e) in ST | apply (killed_step s e) in ST]; tauto).
    destruct SP as [SE PE]. unfold blocked. rewrite SE, PE. exact B.
Qed.
(** 2 watches and waits for 12; 1 watches 10 and is suspended. Signals 10 and 12 arrive.
    The wait for 12 never returns: the loop looks at the lowest pending signal only. *)
Definition ex_held : state := script [ECall OpStart; ECall (OpSigWatch 12); ECall (OpSigWait MAXI); ECall (OpSigWatch 10); ESignal 10; ESignal 12; ECall (OpSuspend MAXI)].
Lemma tidy_noexit : forall t, (forall x, ~ In (TExit x) t) -> tidy t.
Proof. intros t H l1 l2 x n Q. exfalso. apply (H x). rewrite Q. apply in_or_app. right. left. reflexivity. Qed.
Definition noexitb (t : list obs) : bool := forallb (fun z => match z with TExit _ => false | _ => true end) t.
Lemma noexitb_tidy : forall t, noexitb t = true -> tidy t.
Proof. intros t H. apply tidy_noexit. intros x I. unfold noexitb in H. rewrite forallb_forall in H. apply H in I. discriminate I. Qed.
Theorem C43_held_back_refuted : exists s n x k, reach s /\ in_main s /\ tidy (tr s) /\ handled n /\ 0 < pending s n /\ watching x n (tr s) = true /\
  forall es, blocked (run s es) x k (OpSigWait MAXI).
Proof.
  exists ex_held, 12, 2, 2%nat. split; [apply script_reach|]. split; [vm_compute; reflexivity|]. split; [apply noexitb_tidy; vm_compute; reflexivity|].
  split; [unfold handled; cbn; tauto|]. split; [vm_compute; reflexivity|]. split; [vm_compute; reflexivity|].
  intros es. apply (held_forever es 10).
  - constructor.
    + vm_compute; reflexivity.
    + vm_compute; reflexivity.
    + vm_compute; reflexivity.
    + vm_compute; reflexivity.
    + vm_compute; reflexivity.
    + vm_compute; reflexivity.
    + vm_compute; reflexivity.
    + vm_compute; reflexivity.
    + vm_compute; reflexivity.
    + lia.
    + split; [vm_compute; reflexivity|]. intros n H. assert (n = 0 \/ n = 1 \/ n = 2 \/ n = 3 \/ n = 4 \/ n = 5 \/ n = 6 \/ n = 7 \/ n = 8 \/ n = 9) as C by lia.
      repeat destruct C as [-> |C]; try (vm_compute; reflexivity). subst; vm_compute; reflexivity.
    + vm_compute; discriminate.
    + intros x I. assert (B : forallb (fun x => negb (Z.testbit (sigmask (cof (dt ex_held) (node_co x))) 10)) (q (dt ex_held) QSig) = true) by (vm_compute; reflexivity).
      generalize dependent ex_held. intros s0 I B. rewrite forallb_forall in B. specialize (B x I). cbv beta in B. apply negb_true_iff in B. exact B.
    + intros n I LT. assert (B : forallb (fun n => implb (n <? 10) (sigw (dt ex_held) n =? 0)) allowed_signals = true) by (vm_compute; reflexivity).
      generalize dependent ex_held. intros s0 B. rewrite forallb_forall in B. specialize (B n I). cbv beta in B. apply Z.ltb_lt in LT. rewrite LT in B. cbn [implb] in B. apply Z.eqb_eq in B. exact B.
  - apply blockedb_ok. split; [vm_compute; auto|]. exists 2%nat. eexists. split; vm_compute; reflexivity.
Qed.
(** 2 waits for 12 until 2000; at 3000 the signal arrives. The pass both hands 12 to 2
    and expires its deadline: the wait returns NECO_TIMEDOUT and the signal is gone. *)
Definition pre_lost : list event := scr [ECall OpStart; ECall (OpSigWatch 12); ECall (OpSigWait 2000); EAdv 3000; ESignal 12; ECall (OpSuspend MAXI)].
Theorem C43_lost_refuted : exists g es n x k, cfg_ok g /\ arrivals n es = 1%nat /\ watching x n (tr (run (init g) es)) = true /\
  In (TRet k x (OpSigWait 2000) ETIMEDOUT 0 3000) (tr (run (init g) es)) /\ pending (run (init g) es) n = 0 /\ received n (tr (run (init g) es)) = 0%nat.
Proof.
  exists g0, pre_lost, 12, 2, 2%nat. split; [exact g0_ok|]. split; [vm_compute; reflexivity|]. split; [vm_compute; reflexivity|].
  split; [vm_compute; tauto|]. split; vm_compute; reflexivity.
Qed.
(** 2 watched 10 and ended without unwatching: nobody watches 10 any more, yet its
    arrival does not have the default effect. *)
Definition ex_leak : state := script [ECall OpStart; ECall (OpSigWatch 10); ECall OpReturn].
Theorem C43_default_refuted : exists s n, reach s /\ in_main s /\ ~ over (mode s) /\ handled n /\
  (forall x, In x (started (tr s)) -> watching x n (tr s) = true -> In (TExit x) (tr s)) /\ ~ over (mode (step s (ESignal n))) /\ 0 < pending (step s (ESignal n)) n.
Proof.
  exists ex_leak, 10. split; [apply script_reach|]. split; [vm_compute; reflexivity|]. split; [vm_compute; exact (fun z => z)|]. split; [unfold handled; cbn; tauto|].
  split; [|split; [vm_compute; exact (fun z => z) | vm_compute; reflexivity]].
  intros x I W. assert (Q : started (tr ex_leak) = [2; 1]) by (vm_compute; reflexivity). rewrite Q in I. destruct I as [<-|[<-|[]]]; [vm_compute; tauto|].
  assert (F : watching 1 10 (tr ex_leak) = false) by (vm_compute; reflexivity). exfalso. clear Q. generalize dependent ex_leak. intros s0 W F. rewrite F in W. discriminate W.
Qed.

(** ** The hypotheses can be met *)
(** just before the pass that delivers: 2 blocked in its wait for 10, 1 suspended, 10 pending twice *)
Definition ex_wait : state := run (script [ECall OpStart; ECall (OpSigWatch 10); ECall (OpSigWatch 12); ECall (OpSigWait MAXI); ESignal 10; ESignal 10; ESignal 12]) [ECall (OpSuspend MAXI)].
Example C43_delivered_case : reach ex_wait /\ in_main ex_wait /\ tidy (tr ex_wait) /\ mode ex_wait = MMain /\ handled 10 /\ pending ex_wait 10 = 2 /\ pending ex_wait 12 = 1 /\ lowest ex_wait 10 /\
  blocked ex_wait 2 3 (OpSigWait MAXI) /\ watching 2 10 (tr ex_wait) = true /\
  exists es, In (TRet 3 2 (OpSigWait MAXI) 10 0 1000) (tr (run (step ex_wait (EMain [])) es)).
Proof.
  split; [apply reach_run, script_reach|]. split; [vm_compute; reflexivity|]. split; [apply noexitb_tidy; vm_compute; reflexivity|]. split; [vm_compute; reflexivity|]. split; [unfold handled; cbn; tauto|].
  split; [vm_compute; reflexivity|]. split; [vm_compute; reflexivity|]. split.
  { split; [vm_compute; reflexivity|]. intros n H. assert (n = 0 \/ n = 1 \/ n = 2 \/ n = 3 \/ n = 4 \/ n = 5 \/ n = 6 \/ n = 7 \/ n = 8 \/ n = 9) as C by lia.
      repeat destruct C as [-> |C]; try (vm_compute; reflexivity). subst; vm_compute; reflexivity. }
  split; [apply blockedb_ok; split; [vm_compute; auto|]; exists 2%nat; eexists; split; vm_compute; reflexivity|].
  split; [vm_compute; reflexivity|]. exists (settle 4). vm_compute. tauto.
Qed.
Example C43_watch_case : let s := script [ECall OpStart; ECall (OpSigWatch 10); ECall (OpSigWait MAXI); ECall (OpSigWatch 10)] in
  reach s /\ in_main s /\ tidy (tr s) /\ ~ over (mode s) /\ watchers 10 (tr s) = 2%nat /\ watchers 12 (tr s) = 0%nat /\ handled 12.
Proof.
  split; [apply script_reach|]. split; [vm_compute; reflexivity|]. split; [apply noexitb_tidy; vm_compute; reflexivity|]. split; [vm_compute; exact (fun z => z)|].
  split; [vm_compute; reflexivity|]. split; [vm_compute; reflexivity|]. unfold handled; cbn; tauto.
Qed.
Definition ex_unw : state := run (script [ECall OpStart; ECall (OpSigWatch 10); ESignal 10; ECall (OpSigUnwatch 10); ECall (OpSuspend MAXI)]) [ECall (OpSuspend MAXI)].
Example C43_default_later_case : reach ex_unw /\ in_main ex_unw /\ tidy (tr ex_unw) /\ mode ex_unw = MMain /\ paused (sc ex_unw) <> [] /\ pending ex_unw 10 = 1 /\ watchers 10 (tr ex_unw) = 0%nat.
Proof.
  split; [apply reach_run, script_reach|]. split; [vm_compute; reflexivity|]. split; [apply noexitb_tidy; vm_compute; reflexivity|]. split; [vm_compute; reflexivity|].
  split; [vm_compute; discriminate|]. split; vm_compute; reflexivity.
Qed.
Example C43_once_case : let es := scr [ECall OpStart; ECall (OpSigWatch 10); ECall (OpSigWait MAXI); ESignal 10; ESignal 10; ECall (OpSuspend MAXI); ECall (OpSigWait MAXI); ECall (OpSigWait MAXI)] in
  arrivals 10 es = 2%nat /\ received 10 (tr (run (init g0) es)) = 2%nat.
Proof. split; vm_compute; reflexivity. Qed.

Print Assumptions C43_default_partial.
Print Assumptions C43_recorded_partial.
Print Assumptions C43_default_later_partial.
Print Assumptions C43_delivered_partial.
Print Assumptions C43_once.
Print Assumptions C43_held_back_refuted.
Print Assumptions C43_lost_refuted.
Print Assumptions C43_default_refuted.
