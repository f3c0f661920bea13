(** Waiting for signals: what a waiting coroutine waits for, and that the one a
    signal was given to returns it. *)
From Coq Require Import List ZArith Bool Lia.
From Verif Require Import AATreeSpec AATreeHist Util Runtime SchedInv StepInv StackShape RuntimeSpec TraceInv Immediate Prims StaticInv Footprint QueueInv OwnInv WaitInv CallInv SpecInv TraceStep Wake Awake DeadlineInv AllInv PausedInv ResultInv JoinInv WaiterInv AtCall MutexEff MutexTok MutexRt ChanShape ChanQuiet BlockSpec Handed Promise WatchInv SigInv WgInv CancelInv CancelSt DldInv MutexOrd ChanStatic GenInv ChanOrder.
Import ListNotations.
Local Open Scope Z_scope.

(** ** The set of pending signals *)
Record sgok (d : dat) : Prop := {
  sg_bit : forall n, 0 <= n -> Z.testbit (sigm d) n = negb (sigq d n =? 0);
  sg_out : forall n, ~ In n signos -> sigq d n = 0 }.
Lemma sgok_same : forall d d', sigq d' = sigq d -> sigm d' = sigm d -> sgok d -> sgok d'.
Proof. intros d d' A B [H1 H2]. split; intros n; rewrite ?A, ?B; auto. Qed.
Lemma signos_range : forall n, In n signos <-> 0 <= n <= 31.
Proof.
  intros n. unfold signos. rewrite in_map_iff. split.
  - intros (i & <- & I). apply in_seq in I. lia.
  - intros R. exists (Z.to_nat n). split; [lia|]. apply in_seq. lia.
Qed.
Lemma sgok_dec : forall n d, In n signos -> sigq d n <> 0 -> sgok d -> sgok (dec_sigq n d).
Proof.
  intros n d I NZ [H1 H2]. apply signos_range in I. unfold dec_sigq. cbv zeta. cbn [sigq set_sigq]. rewrite zupd_eq. destruct (Z.eqb_spec (sigq d n - 1) 0) as [Q|Q]; split; intros m R; cbn; unfold zupd.
  - rewrite clrbit by lia. rewrite (Z.eqb_sym m n). destruct (Z.eqb_spec n m) as [->|]; [rewrite Q; reflexivity | apply H1, R].
  - destruct (Z.eqb_spec m n) as [->|]; [destruct R; apply signos_range; lia | apply H2, R].
  - destruct (Z.eqb_spec m n) as [->|]; [|apply H1, R]. rewrite H1 by lia. destruct (Z.eqb_spec (sigq d n - 1) 0); [contradiction|].
    destruct (Z.eqb_spec (sigq d n) 0) as [Z0|]; [contradiction | reflexivity].
  - destruct (Z.eqb_spec m n) as [->|]; [destruct R; apply signos_range; lia | apply H2, R].
Qed.
Lemma sgok_signal : forall d d' w k, signal_step d = (d', w, k) -> sgok d -> sgok d'.
Proof.
  intros d d' w k E H. unfold signal_step in E. destruct (find _ signos) as [n|] eqn:FN; [|inj E; exact H].
  apply find_some in FN. destruct FN as [I FN]. apply negb_true_iff, Z.eqb_neq in FN. destruct (sigw d n =? 0); [inj E; apply sgok_dec; assumption|].
  destruct (find _ (q d QSig)); inj E; [|exact H]. apply sgok_dec; [exact I | exact FN | apply (sgok_same d); [reflexivity | reflexivity | exact H]].
Qed.
Lemma dl_step_sigm : forall l nw d d' w, dl_step l nw d = (d', w) -> sigm d' = sigm d.
Proof.
  induction l as [|[dl c] l IH]; intros nw d d' w E; cbn in E; [inj E; auto|]. destruct (dl <? nw); [|inj E; auto].
  destruct (dl_step l nw _) as [d1 w1] eqn:Q. inj E. apply IH in Q. exact Q.
Qed.
Lemma event_step_sigm : forall ios d d' w, event_step d ios = (d', w) -> sigm d' = sigm d.
Proof.
  induction ios as [|[[fd r] w0] ios IH]; intros d d' w E; cbn in E; [inj E; auto|].
  destruct (armed d fd). destruct (_ || _); destruct (event_step _ ios) as [d2 w2] eqn:E2; inj E; apply IH in E2; exact E2.
Qed.
Lemma stamp_sigm : forall l nw d, sigm (stamp l nw d) = sigm d.
Proof. induction l as [|n l IH]; intros nw d; cbn; [auto|]. destruct (_ =? 0); [|auto]. rewrite IH. reflexivity. Qed.
Lemma sgok_paused : forall nw ios d d' ws k, paused_step nw ios d = (d', ws, k) -> sgok d -> sgok d'.
Proof.
  intros nw ios d d' ws k E H. unfold paused_step in E. set (d1 := set_nresumers _ _) in E.
  set (d2 := if 0 <? niow d1 then set_q _ d1 else d1) in E.
  assert (H2 : sgok d2). { apply (sgok_same d); [unfold d2; destruct (0 <? niow d1); reflexivity | unfold d2; destruct (0 <? niow d1); reflexivity | exact H]. }
  destruct (if 0 <? nevs d2 then _ else _) as [d3 w3] eqn:E3.
  assert (H3 : sgok d3). { destruct (0 <? nevs d2); [|inj E3; exact H2]. apply (sgok_same d2); [eapply event_step_sig; exact E3 | eapply event_step_sigm; exact E3 | exact H2]. }
  destruct (if negb (sigm d3 =? 0) then _ else _) as [[d4 w4] kill] eqn:E4.
  assert (H4 : sgok d4). { destruct (negb _); [eapply sgok_signal; eassumption | inj E4; exact H3]. }
  destruct (dl_step (dls d4) nw d4) as [d5 w5] eqn:E5. inj E.
  apply (sgok_same d4); [eapply dl_step_sig; exact E5 | eapply dl_step_sigm; exact E5 | exact H4].
Qed.
Lemma hcall_sigm : forall c o nw d d' fs k, hcall c o nw d = (d', fs, k) -> sigm d' = sigm d.
Proof. intros c o nw d d' fs k E. eapply (prims_const c _ sigm); [|eapply hcall_prims; exact E]. intros a b PP; destruct PP; reflexivity. Qed.
Lemma hret_sigm : forall c f v b nw d d' fs k, hret c f v b nw d = (d', fs, k) -> sigm d' = sigm d.
Proof. intros c f v b nw d d' fs k E. eapply (prims_const c _ sigm); [|eapply hret_prims; exact E]. intros x y PP; destruct PP; reflexivity. Qed.
Lemma ctl_sigm : forall c n k d, sigm (ctl_dat c n k d) = sigm d.
Proof. intros c n k d. destruct k; cbn [ctl_dat]; auto. unfold spawn_dat, popq. destruct (q d QPool); destruct isgen; reflexivity. Qed.
Lemma allowed_signos : forall n, mem n allowed_signals = true -> 1 <= n <= 31.
Proof. intros n H. apply mem_In in H. cbn in H. repeat destruct H as [<-|H]; try lia; contradiction. Qed.
Theorem reach_sgok : forall s, reach s -> sgok (dt s).
Proof.
  apply (rrun_preserves (fun s => sgok (dt s))).
  - intros s c o d fs k sch md RE I M CU U NR E X. cbn [dt]. apply (sgok_same (dt s)); [rewrite ctl_sigq; eapply hcall_sigq; exact E | rewrite ctl_sigm; eapply hcall_sigm; exact E | exact I].
  - intros s c v f rest b d fs k sch md RE I M CU SK L E X. cbn [dt]. apply (sgok_same (dt s)); [rewrite ctl_sigq; eapply hret_sigq; exact E | rewrite ctl_sigm; eapply hret_sigm; exact E | exact I].
  - intros s d ws sch md ios RE I M A K X. cbn [dt].
    assert (H : sgok d). { destruct (0 <? npsd (sc s)); [eapply sgok_paused; eassumption | inj K; exact I]. }
    apply (sgok_same d); [apply rc_sig | unfold rc_step; destruct (0 <? npool d); [apply stamp_sigm | reflexivity] | exact H].
  - intros s m RE I _. exact I.
  - intros s e RE I H M.
    assert (EV : match e with ESignal _ => True | _ => sigq (dt (step s e)) = sigq (dt s) /\ sigm (dt (step s e)) = sigm (dt s) end).
    { destruct e; try contradiction; cbn [step]; auto.
      - destruct (_ <? _); auto.
      - destruct (mode s); auto; (destruct (mem _ _); auto; destruct (stk (sc s) c) as [|[] ?]; auto).
      - destruct (_ =? _); auto.
      - destruct (_ =? _); auto.
      - destruct (_ =? _); auto. }
    destruct e; try contradiction; try exact (sgok_same (dt s) _ (proj1 EV) (proj2 EV) I).
    assert (G : sgok (dt (step s (ESignal n))) \/ dt (step s (ESignal n)) = dt s).
    { cbn [step]. destruct (mode s); auto; (destruct (negb _ || negb (mem n allowed_signals)) eqn:AL; auto; destruct (_ =? 0) eqn:W; [destruct (_ =? 13); auto|]; left;
      apply orb_false_iff in AL; destruct AL as [_ AL]; apply negb_false_iff, allowed_signos in AL; pose proof (sigq_nonneg _ RE n) as NN;
      destruct I as [H1 H2]; split; intros m R; cbn; unfold zupd;
      [rewrite setbit by lia; rewrite (Z.eqb_sym m n); destruct (Z.eqb_spec n m) as [->|]; [destruct (Z.eqb_spec (sigq (dt s) m + 1) 0); [lia | reflexivity] | apply H1, R]
      |destruct (Z.eqb_spec m n) as [->|]; [destruct R; apply signos_range; lia | apply H2, R]]). }
    destruct G as [G|G]; [exact G | rewrite G; exact I].
  - intros g O. cbn. unfold spawn_dat, popq. cbn. split; intros n R; cbn; [apply Z.bits_0 | reflexivity].
Qed.

(** ** What a waiting coroutine waits for *)
Definition idle (s : sched) (x : Z) : Prop := In x (paused s) \/ In x (yielders s).
Definition maskI (s : state) : Prop := forall x rest, top (stk (sc s) x) = FSigWait :: rest -> idle (sc s) x ->
  sigmask (cof (dt s) x) = sigwatch (cof (dt s) x) /\ In (NCo x) (q (dt s) QSig).
Lemma switch_idle : forall b s sch md x, sco_switch b s = (sch, md) -> idle sch x -> idle s x.
Proof.
  intros b s sch md x E H. unfold sco_switch in E. destruct (_ && _); [inj E; exact H|]. unfold idle in *.
  destruct (nrun s =? 0); cbn in E; [destruct (yielders s) | destruct (runners s)]; inj E; cbn in H; tauto.
Qed.
Lemma wake_idle : forall id s x, idle (wake id s) x -> idle s x.
Proof.
  intros id s x H. unfold wake in H. destruct (mem id (paused s)) eqn:B; [|exact H]. unfold idle in *. cbn in H. destruct H as [H|H].
  - apply remove1_In in H. left. apply H.
  - apply in_app_or in H. destruct H as [H|[<-|[]]]; [right; exact H | left; apply mem_In, B].
Qed.
Lemma exec_idle_old : forall c k s s' m x, exec c k s = (s', m) -> x <> c -> idle s' x -> idle s x.
Proof.
  intros c k s s' m x E N I. destruct k; cbn [exec] in E; try (inj E; exact I).
  - apply (switch_idle _ _ _ _ x) in E; [|exact I]. destruct E as [H|H]; [left; exact H|]. cbn in H. apply in_app_or in H. destruct H as [H|[H|[]]]; [right; exact H | congruence].
  - apply (switch_idle _ _ _ _ x) in E; [|exact I]. destruct E as [H|H]; [|right; exact H]. cbn in H. apply in_app_or in H. destruct H as [H|[H|[]]]; [left; exact H | congruence].
  - destruct (mem id (paused s)); [|inj E; exact I]. apply (switch_idle _ _ _ _ x) in E; [|exact I]. apply (wake_idle id).
    destruct E as [H|H]; [left; exact H|]. cbn in H. apply in_app_or in H. destruct H as [H|[H|[]]]; [right; exact H | congruence].
  - apply (switch_idle _ _ _ _ x) in E; [|exact I]. destruct tomain; exact E.
Qed.
Lemma cur_notidle : forall s c, full s -> cur (sc s) = Some c -> ~ idle (sc s) c.
Proof.
  intros s c [[SI _] _] CU IN. pose proof (si_nodup _ SI) as ND. unfold everyone, curl in ND. rewrite CU in ND. cbn in ND.
  apply NoDup_cons_iff in ND. destruct ND as [ND _]. apply ND. unfold parked. rewrite !in_app_iff. destruct IN; auto.
Qed.
Lemma mask_other : forall s c d0 d KP (KW : qid -> node -> Prop) R P k st' sch md n nw nc T,
  reach s -> cur (sc s) = Some c -> maskI s -> fps c KP KW d0 R P d -> uniq d0 ->
  exec c k (set_stk (zupd (stk (sc s)) c st') (sc s)) = (sch, md) -> n = nextid (sc s) + 1 ->
  (forall m kk, In m (q d0 kk) -> In m (q (dt s) kk)) -> (forall x kk, x <> c -> In (NCo x) (q (dt s) kk) -> In (NCo x) (q d0 kk)) -> (forall x, x <> c -> cof d0 x = cof (dt s) x) ->
  let s' := mkst sch (ctl_dat c n k d) md nw nc T in
  forall x rest, x <> c -> top (stk sch x) = FSigWait :: rest -> idle sch x ->
  sigmask (cof (dt s') x) = sigwatch (cof (dt s') x) /\ In (NCo x) (q (dt s') QSig).
Proof.
  intros s c d0 d KP KW R P k st' sch md n nw nc T RE CU I FP U0 X -> D0 D1 C0 s' x rest NE TP IP.
  pose proof (reach_full _ RE) as F. pose proof (cur_notfresh _ _ F CU) as NFR.
  destruct (exec_stk_cases _ _ _ _ _ X NFR x) as [[? _]|[(_ & _ & _ & Q)|(_ & Q & _)]]; [contradiction| |].
  { rewrite Q in TP. discriminate. }
  rewrite Q in TP. cbn in TP. rewrite zupd_neq in TP by exact NE.
  assert (NX : x <> nextid (sc s) + 1). { intros ->. rewrite stk_fresh in TP by exact F. discriminate. }
  assert (IP0 : idle (sc s) x) by (exact (exec_idle_old _ _ _ _ _ _ X NE IP)).
  destruct (I x rest TP IP0) as [SM IQ]. cbn [dt s'].
  assert (NR : ~ In x R).
  { intros IR. destruct (fps_taken _ _ _ _ _ _ _ FP U0 x IR) as (kk & y & _ & PO & NC & [IM|[? _]] & GO); [|contradiction].
    pose proof (reach_qloc _ RE y kk (popq_waitq _ PO) (D0 _ _ IM)) as MA. rewrite NC in MA.
    destruct (matched_cases _ _ _ MA PO) as [(f0 & rest0 & A & B & CN0)|(N & j & chs & dl & st2 & A)]; rewrite TP in A; [|discriminate].
    injection A as <- <-. discriminate. }
  rewrite ctl_sigmask, ctl_sigwatch by exact NX. split.
  - destruct (fps_still _ _ _ _ _ _ _ FP x NE) as [ST1 _]. rewrite C0 in ST1 by exact NE. rewrite ST1. destruct (cof (dt s) x); exact SM.
  - assert (G : In (NCo x) (q d QSig)). { eapply fps_keep; [exact FP | exact NE | exact NR | intros [[] _] | apply D1; assumption]. }
    destruct k; cbn [ctl_dat]; try exact G.
    + rewrite QueueInv.spawn_q_eq by discriminate; exact G.
    + unfold final_dat. cbn [q set_npool]. apply In_pushq. left. split; [exact G | congruence].
Qed.
(** what one turn does with signals *)
Lemma event_step_sigw : forall ios d d' w, event_step d ios = (d', w) -> sigw d' = sigw d.
Proof.
  induction ios as [|io ios IH]; intros d d' w E; cbn in E; [inj E; auto|].
  destruct (event_step1 d io) as [d1 w1] eqn:E1. destruct (event_step d1 ios) as [d2 w2] eqn:E2. inj E. rewrite (IH _ _ _ E2).
  destruct io as [[fd r] w0]. unfold event_step1 in E1. destruct (armed d fd). destruct (_ || _); inj E1; reflexivity.
Qed.
Lemma find_ext2 : forall A (f g : A -> bool) l, (forall x, f x = g x) -> find f l = find g l.
Proof. intros A f g l H. induction l as [|a l IH]; cbn; [reflexivity|]. rewrite H, IH. reflexivity. Qed.
Lemma paused_step_sig : forall nw ios d d' ws k, paused_step nw ios d = (d', ws, k) -> sgok d ->
  exists d3 d4 w4, signal_step d3 = (d4, w4, k) /\ sigq d3 = sigq d /\ sigw d3 = sigw d /\ cof d3 = cof d /\ q d3 QSig = q d QSig /\
    sigq d' = sigq d4 /\ (forall x, sigmask (cof d' x) = sigmask (cof d4 x)) /\ incl w4 ws.
Proof.
  intros nw ios d d' ws k E SG. unfold paused_step in E.
  set (d1 := set_nresumers _ _) in E.
  set (d2 := if 0 <? niow d1 then set_q _ d1 else d1) in E.
  assert (V2 : sigw d2 = sigw d /\ q d2 QSig = q d QSig /\ sigq d2 = sigq d /\ cof d2 = cof d /\ sigm d2 = sigm d).
  { unfold d2. destruct (0 <? niow d1); cbn; repeat split; auto; rewrite ?qupd_neq by discriminate; reflexivity. }
  destruct V2 as (V2a & V2c & V2d & V2e & V2f).
  destruct (if 0 <? nevs d2 then _ else _) as [d3 w3] eqn:E3.
  assert (V3 : sigq d3 = sigq d2 /\ cof d3 = cof d2 /\ q d3 = q d2). { destruct (0 <? nevs d2); [eapply event_step_sig; exact E3 | inj E3; auto]. }
  assert (V3s : sigw d3 = sigw d2). { destruct (0 <? nevs d2); [eapply event_step_sigw; exact E3 | inj E3; auto]. }
  assert (V3m : sigm d3 = sigm d2). { destruct (0 <? nevs d2); [eapply event_step_sigm; exact E3 | inj E3; auto]. }
  destruct V3 as (V3a & V3b & V3c).
  destruct (if negb (sigm d3 =? 0) then _ else _) as [[d4 w4] kill] eqn:E4.
  assert (S4 : signal_step d3 = (d4, w4, kill)).
  { destruct (negb _) eqn:B; [exact E4|]. apply negb_false_iff, Z.eqb_eq in B. unfold signal_step.
    destruct (find _ signos) as [n|] eqn:FN; [|exact E4]. exfalso. apply find_some in FN. destruct FN as [IN FN].
    destruct SG as [H1 _]. apply signos_range in IN. specialize (H1 n ltac:(lia)). rewrite <- V2f, <- V3m, B, Z.testbit_0_l in H1. rewrite V3a, V2d in FN. congruence. }
  destruct (dl_step (dls d4) nw d4) as [d5 w5] eqn:E5. inj E. exists d3, d4, w4.
  destruct (dl_step_sig _ _ _ _ _ E5) as [A B].
  repeat split; try congruence; try assumption. intros x I. apply in_or_app; right. apply in_or_app; right. apply in_or_app; right. apply in_or_app; left. exact I.
Qed.
Lemma main_sig : forall s d ws ios, reach s -> (if 0 <? npsd (sc s) then paused_step (now s) ios (dt s) else (dt s, [], None)) = (d, ws, None) ->
  (forall x, sigmask (cof (rc_step (now s) d) x) = sigmask (cof (dt s) x)) \/
  exists n x, In x ws /\ forall y, sigmask (cof (rc_step (now s) d) y) = if y =? x then n else sigmask (cof (dt s) y).
Proof.
  intros s d ws ios RE E. destruct (rc_sig (now s) d) as [_ B]. destruct (0 <? npsd (sc s)).
  - destruct (paused_step_sig _ _ _ _ _ _ E (reach_sgok _ RE)) as (d3 & d4 & w4 & S4 & _ & _ & C & _ & _ & M & IW).
    apply signal_step_ss in S4. inversion S4 as [H1 H2|n x H0 H1 H2 H3 H4]; subst.
    + left. intros x. rewrite B, M, H2, C. reflexivity.
    + right. exists n, x. split; [apply IW; left; reflexivity|]. intros y. rewrite B, M, H2, C. reflexivity.
  - inj E. left. exact B.
Qed.
Lemma wakes_paused_iff : forall ws s x, In x (paused (fold_left (fun a id => wake id a) ws s)) -> In x (paused s) /\ ~ In x ws.
Proof.
  induction ws as [|w ws IH]; intros s x I; cbn in I; [split; [exact I | intros []]|]. apply IH in I. destruct I as [I N].
  unfold wake in I. destruct (mem w (paused s)) eqn:B.
  - cbn in I. apply remove1_In in I. destruct I as [I NE]. split; [exact I|]. intros [->|J]; [congruence | contradiction].
  - split; [exact I|]. intros [->|J]; [|contradiction]. apply mem_In in I. congruence.
Qed.
Lemma hret_nosw : forall c f v b nw d d' fs k, hret c f v b nw d = (d', fs, k) -> ~ In FSigWait fs.
Proof.
  intros c f v b nw d d' fs k E IN. destruct (hret_out _ _ _ _ _ _ _ _ _ E) as (d1 & _ & O).
  destruct O as [_ N _|g r dl d2 _ WG N WD E1|_ -> _|_ -> _].
  - specialize (N _ IN). discriminate N.
  - assert (IG : In FSigWait (FPause :: g :: r)).
    { apply copause_fs in E1. destruct E1 as [(-> & _)|(-> & _)]; [right; exact IN | exact IN]. }
    destruct IG as [Q|[Q|Q]]; [discriminate Q | subst g | specialize (N _ Q); discriminate N].
    destruct f; cbn in WD; destruct WD as [WD ?]; try discriminate WD; destruct WD as (? & WD); discriminate WD.
  - cbn in IN. intuition discriminate.
  - cbn in IN. intuition discriminate.
Qed.
Lemma hcall_sw : forall c o nw d d' fs k j st rest, hcall c o nw d = (d', fs, k) -> top (fs ++ FApi j o :: st) = FSigWait :: rest ->
  exists dl, o = OpSigWait dl.
Proof.
  intros c o nw d d' fs k j st rest E TP. destruct (hcall_next _ _ _ _ _ _ _ E) as [N|[(h & -> & -> & -> & _)|(-> & N)]].
  - destruct k; cbn in N; try contradiction; inversion N; subst; cbn in TP; try discriminate TP;
      try (match goal with H : pz _ _ |- _ => inversion H; subst; cbn in TP end);
      try (match goal with H : yf _ _ |- _ => inversion H; subst; cbn in TP end); try discriminate TP; injection TP as <-; eauto.
  - discriminate TP.
  - pose proof (hcall_special _ _ _ _ _ _ _ E eq_refl) as EX. cbn in EX. destruct EX as [h l CL -> -> ->|a ER]; [discriminate TP|].
    exfalso. destruct (coexit_rest_shape _ _ _ _ _ _ ER) as [(-> & _)|(ES & _)]; [discriminate TP|].
    destruct (exit_shape_hd _ ES) as (f & r & -> & H). destruct f; cbn in TP; try discriminate TP; contradiction.
Qed.
Lemma wakes_exitreq : forall ws s, exitreq (fold_left (fun a id => wake id a) ws s) = exitreq s.
Proof. induction ws as [|w ws IH]; intros s; cbn [fold_left]; [reflexivity|]. rewrite IH. unfold wake. destruct (mem w _); reflexivity. Qed.
(** after a turn of the loop nobody is left among the yielders *)
Lemma main_noyield : forall s ws sch md, reach s -> mode s = MMain -> sco_switch true (fold_left (fun a id => wake id a) ws (sc s)) = (sch, md) -> yielders sch = [].
Proof.
  intros s ws sch md RE M X. destruct (reach_full _ RE) as [[SI MO] _]. rewrite M in MO. destruct MO as (M1 & M2 & M3).
  pose proof (sw_counts _ (wakes_swinv ws _ (sinv_main_swinv _ SI M1))) as WC. destruct (wakes_runners ws (sc s)) as [WR _].
  unfold sco_switch in X. rewrite (ct_run _ WC), WR, M2 in X. cbn [length Z.of_nat Z.eqb andb] in X. destruct (_ || _) eqn:Z0.
  - inj X. cbn. rewrite wakes_exitreq, M3, (ct_yld _ WC) in Z0. cbn in Z0. rewrite !orb_false_r in Z0. apply Z.eqb_eq in Z0. destruct (yielders (fold_left _ _ _)); [reflexivity | discriminate Z0].
  - cbn in X. destruct (yielders (fold_left _ _ _)); inj X; reflexivity.
Qed.
Theorem reach_mask : forall s, reach s -> maskI s.
Proof.
  apply (rrun_preserves maskI).
  - intros s c o d fs k sch md RE I M CU U NR E X.
    pose proof (reach_full _ RE) as F. pose proof (cur_notfresh _ _ F CU) as NFR.
    intros x rest TP IP. cbn [sc dt] in *. destruct (Z.eq_dec x c) as [->|NE].
    + destruct (exec_stk_cases _ _ _ _ _ X NFR c) as [[_ Q]|[(? & _)|(? & _)]]; [|contradiction|contradiction].
      rewrite Q in TP. cbn in TP. rewrite zupd_eq in TP.
      assert (TP2 : top (fs ++ FApi (ncalls s) o :: stk (sc s) c) = FSigWait :: rest) by (destruct k; try exact TP; discriminate TP).
      destruct (hcall_sw _ _ _ _ _ _ _ _ _ _ E TP2) as (dl & ->).
      assert (KF : k = CRet OK \/ k = CPause).
      { cbn [hcall] in E. unfold do_sigwait in E. destruct (negb _); [inj E; discriminate TP2|]. destruct (_ =? 0); [inj E; discriminate TP2|]. destruct (canceled _); [inj E; discriminate TP2|].
        apply copause_fs in E. destruct E as [(_ & -> & _)|(_ & -> & _)]; auto. }
      cbn [hcall] in E. unfold do_sigwait in E. destruct (negb _); [inj E; discriminate TP2|]. destruct (_ =? 0); [inj E; discriminate TP2|]. destruct (canceled _); [inj E; discriminate TP2|].
      assert (ED : sigmask (cof d c) = sigwatch (cof d c) /\ In (NCo c) (q d QSig)).
      { cbv zeta in E. remember (pushq QSig (NCo c) (upco c (fun r => set_sigmask (sigwatch r) r) (dt s))) as d1 eqn:D1.
        assert (H : sigmask (cof d1 c) = sigwatch (cof d1 c) /\ In (NCo c) (q d1 QSig)).
        { subst d1. split; [|apply In_pushq; right; auto]. cbn. rewrite zupd_eq. reflexivity. }
        clear D1. unfold copause in E. cbv zeta in E. repeat match goal with E : context [if ?b then _ else _] |- _ => destruct b end; inj E; cbn; unfold zupd; rewrite ?Z.eqb_refl; exact H. }
      destruct KF as [->| ->]; exact ED.
    + destruct (hcall_fp _ _ _ _ _ _ _ (ncalls s) (stk (sc s) c) E) as (R & P & FP & _ & _).
      exact (mask_other s c (dt s) d _ _ R P k _ sch md _ (now s) (ncalls s) (tr s) RE CU I FP (reach_uniq _ RE) X eq_refl (fun _ _ H => H) (fun _ _ _ H => H) (fun _ _ => eq_refl) x rest NE TP IP).
  - intros s c v f rest0 b d fs k sch md RE I M CU SK L E X.
    pose proof (reach_full _ RE) as F. pose proof (cur_notfresh _ _ F CU) as NFR.
    intros x rest TP IP. cbn [sc dt] in *. destruct (Z.eq_dec x c) as [->|NE].
    + destruct (exec_stk_cases _ _ _ _ _ X NFR c) as [[_ Q]|[(? & _)|(? & _)]]; [|contradiction|contradiction].
      rewrite Q in TP. cbn in TP. rewrite zupd_eq in TP.
      assert (TP2 : top (fs ++ rest0) = FSigWait :: rest) by (destruct k; try exact TP; discriminate TP).
      assert (IN : In FSigWait (fs ++ rest0)) by (apply top_sub; rewrite TP2; left; reflexivity).
      apply in_app_or in IN. destruct IN as [IN|IN]; [exfalso; eapply hret_nosw; [exact E | exact IN]|].
      pose proof (reach_wsh _ RE c) as W. rewrite SK in W.
      assert (f = FPause).
      { destruct f; try reflexivity; exfalso; (assert (NW : nowait rest0) by (eapply wsh_tl; [exact W | discriminate]); specialize (NW _ IN); discriminate NW). }
      subst f. cbn in E. injection E as <- <- <-. cbn [exec] in X. inj X. exfalso. exact (cur_notidle _ _ F CU IP).
    + destruct (hret_fp _ _ _ _ _ _ _ _ _ rest0 E) as (R & P & FP & _ & _).
      exact (mask_other s c (leave f c (dt s)) d _ _ R P k _ sch md _ (now s) (ncalls s) (tr s) RE CU I FP (leave_uniq _ _ _ (reach_uniq _ RE)) X eq_refl (fun m kk => leave_in f c (dt s) kk m) (fun y kk => leave_keep f c (dt s) y kk) (fun y _ => f_equal (fun g => g y) (leave_cof f c (dt s))) x rest NE TP IP).
  - intros s d ws sch md ios RE I M A K X. pose proof (mp_main _ _ _ _ _ _ _ K) as MP.
    intros x rest TP IP. cbn [set_sc set_dt set_mode sc dt] in *. pose proof (switch_paused _ _ _ _ X) as SP.
    assert (IPP : In x (paused sch)) by (destruct IP as [IP|IP]; [exact IP | rewrite (main_noyield _ _ _ _ RE M X) in IP; destruct IP]).
    clear IP. rename IPP into IP.
    apply sco_switch_frame in X. destruct X as (X1 & X2). destruct (wakes_frame ws (sc s)) as (W1 & W2).
    rewrite X1, W1 in TP. rewrite SP in IP. apply wakes_paused_iff in IP. destruct IP as [IP NW]. assert (IP0 : idle (sc s) x) by (left; exact IP).
    destruct (I x rest TP IP0) as [SM IQ]. rewrite (proj2 (mprims_sw _ _ MP)), (mprims_wq _ _ _ MP) by exact Logic.I. split; [|exact IQ].
    destruct (main_sig s d ws ios RE K) as [H|(n & y & IY & H)]; rewrite H; [exact SM|].
    destruct (Z.eqb_spec x y) as [->|]; [contradiction | exact SM].
  - intros s m RE I _. exact I.
  - intros s e RE I H M. intros x rest TP IP.
    destruct (env_frame s e H) as (E1 & _ & _ & E3 & E2). rewrite E1 in TP. unfold idle in IP. rewrite E2, E3 in IP. destruct (I x rest TP IP) as [LE J].
    rewrite (env_cof s e H). split; [exact LE|].
    destruct (env_q s e H) as [Q|(c & _ & _ & (w & SW) & Q)]; rewrite Q; [exact J|]. apply In_pushq.
    destruct (Z.eq_dec x c) as [->|NE]; [|left; split; [exact J | congruence]]. exfalso. rewrite SW in TP. discriminate TP.
  - intros g O x rest TP. cbn in TP. unfold zupd in TP. destruct (_ =? _); discriminate TP.
Qed.

(** ** The coroutine a signal was given to returns that signal *)
Definition tv (n v : Z) : Prop := v = n \/ v = ECANCELED \/ v = ETIMEDOUT.
Definition next (s : sched) (x : Z) : Prop := cur s = Some x \/ In x (runners s).
Definition tlw (s : state) (x n : Z) (w : list frame) : Prop :=
  (In FSigWait w /\ sigmask (cof (dt s) x) = n /\ next (sc s) x) \/ (w = [] /\ exists v, mode s = MRet v /\ tv n v).
Record told (x : Z) (k : nat) (n : Z) (s : state) : Prop := {
  tl_call : exists dl tm, In (TCall k x (OpSigWait dl) tm) (tr s);
  tl_at : ~ over (mode s) -> forall w o, at_call s x w k o -> tlw s x n w;
  tl_ret : forall c o v m t, In (TRet k c o v m t) (tr s) -> tv n v }.

Lemma switch_next : forall b s sch md x, sco_switch b s = (sch, md) -> nrun s = Z.of_nat (length (runners s)) -> In x (runners s) -> next sch x.
Proof.
  intros b s sch md x E C1 I. unfold sco_switch in E. assert (nrun s =? 0 = false) as NZ.
  { apply Z.eqb_neq. rewrite C1. destruct (runners s); [destruct I | cbn [length]; lia]. }
  rewrite NZ in E. cbn [andb] in E. destruct (runners s) as [|c r] eqn:RL; [destruct I|]. inj E. destruct I as [->|I]; [left; reflexivity | right; exact I].
Qed.
Lemma exec_next : forall c k s sch md x, exec c k s = (sch, md) -> nrun s = Z.of_nat (length (runners s)) -> In x (runners s) -> next sch x.
Proof.
  intros c k s sch md x E C I. destruct k; cbn [exec] in E; try (inj E; right; exact I).
  - eapply switch_next; [exact E | exact C | exact I].
  - eapply switch_next; [exact E | exact C | exact I].
  - destruct (mem id (paused s)) eqn:B; [|inj E; right; exact I].
    unfold wake in E. rewrite B in E. eapply switch_next; [exact E | exact C | exact I].
  - inj E. right. apply in_or_app. left. exact I.
  - eapply switch_next; [exact E | destruct tomain; exact C | destruct tomain; exact I].
Qed.
Lemma next_other : forall s c k st' sch md x, reach s -> cur (sc s) = Some c -> x <> c -> next (sc s) x ->
  exec c k (set_stk (zupd (stk (sc s)) c st') (sc s)) = (sch, md) -> next sch x.
Proof.
  intros s c k st' sch md x RE CU NE [H|H] X; [congruence|]. destruct (reach_full _ RE) as [[SI _] _].
  eapply exec_next; [exact X | cbn; exact (ct_run _ (si_counts _ SI)) | exact H].
Qed.
Lemma mask_same : forall s c KP KW d0 R P d n k x, x <> c -> x <> n -> fps c KP KW d0 R P d -> cof d0 = cof (dt s) ->
  sigmask (cof (ctl_dat c n k d) x) = sigmask (cof (dt s) x).
Proof.
  intros s c KP KW d0 R P d n k x NE NF FP C0. rewrite ctl_rb by assumption. destruct (fps_still _ _ _ _ _ _ _ FP x NE) as [ST1 _].
  rewrite C0 in ST1. rewrite ST1. destruct (cof (dt s) x); reflexivity.
Qed.
Theorem told_step : forall x k n s e, reach s -> told x k n s -> told x k n (step s e).
Proof.
  intros x kk n s0 e RE0 P0. destruct P0 as [(dl & tm0 & IC) PA PR].
  assert (OWN : forall s c w o, reach s -> (forall z, In z (tr s0) -> In z (tr s)) -> at_call s c w kk o -> c = x /\ o = OpSigWait dl).
  { intros s c w o RE SUB AC. destruct (at_called _ _ _ _ _ RE AC) as (tm & I1). destruct (callnos_inj _ _ _ _ _ _ _ _ (ci_uc _ (reach_cinv _ RE)) I1 (SUB _ IC)) as (-> & -> & _). auto. }
  assert (R1 : reach (step s0 e)) by (apply reach_step, RE0). revert R1.
  apply (gstep_preserves (fun z => reach z /\ z = s0) (fun z => reach z -> told x kk n z)); try (intros ? [? ?]; apply reach_full; assumption); auto.
  - intros s c o d fs k sch md [RE ->] _ M CU U NR E X RE'. set (s' := mkst _ _ _ _ _ _) in *. assert (NO : ~ over (mode s0)) by (rewrite M; exact (fun z => z)).
    assert (OLD : forall z, In z (tr s0) -> In z (tr s')) by (intros z; apply call_tr_old). constructor; [eauto 8| |].
    + intros _ w p AC. assert (LT : (kk < ncalls s0)%nat) by (eapply ci_lt; [apply (reach_cinv _ RE) | exact IC]).
      destruct (call_at _ _ _ _ _ _ _ _ _ _ _ _ (reach_full _ RE) CU U E X AC) as [(_ & _ & D & _)|(NE & A0)]; [lia|].
      destruct (PA NO _ _ A0) as [(IF & SM & NX)|(-> & r & MR & _)]; [|congruence]. left. split; [exact IF|].
      destruct (hcall_fp _ _ _ _ _ _ _ (ncalls s0) (stk (sc s0) c) E) as (R & P & FP & _).
      pose proof (at_notfresh _ _ _ _ _ (reach_full _ RE) A0) as NF. split; [|exact (next_other _ _ _ _ _ _ _ RE CU NE NX X)].
      rewrite <- SM. exact (mask_same s0 c _ _ _ _ _ _ _ _ _ NE NF FP eq_refl).
    + intros c' p r v t IN. apply call_tr_rets in IN. eapply PR, IN.
  - intros s c v f rest b d fs k sch md [RE ->] _ M CU SK L E X RE'. set (s' := mkst _ _ _ _ _ _) in *. assert (NO : ~ over (mode s0)) by (rewrite M; exact (fun z => z)).
    assert (OLD : forall z, In z (tr s0) -> In z (tr s')) by (intros z; apply tick_tr_old). constructor; [eauto 8| |].
    + intros _ w p AC. destruct (OWN _ _ _ _ RE' OLD AC) as [_ ->].
      destruct (tick_at _ _ _ _ _ _ _ _ _ _ _ _ _ _ _ (reach_full _ RE) CU SK L E X AC) as [(<- & NF & w1 & -> & SH & A0)|[(_ & _ & _ & D)|(NE & A0)]]; [|discriminate D|].
      * destruct (PA NO _ _ A0) as [(IF & SM & NX)|(D & _)]; [|discriminate D]. destruct A0 as (st & SX & SH0).
        assert (TW : (f = FSigWait /\ w1 = []) \/ (f = FPause /\ w1 = [FSigWait])).
        { inversion SH0; subst; try (destruct IF as [D|[]]; discriminate D); match goal with H : pz _ _ |- _ => inversion H; subst; auto end. }
        destruct TW as [[-> ->]|[-> ->]]; cbn [hret] in E.
        -- right. unfold sigwait_end in E. cbv zeta in E. destruct (checkdl x MAXI (now s0) _) as [v1 d1] eqn:CD.
           assert (C3 : v1 = OK \/ v1 = ECANCELED \/ v1 = ETIMEDOUT).
           { unfold checkdl in CD. destruct (negb _ && negb _ && _); injection CD as <- <-; auto. destruct (canceled _); [auto|]. destruct (if negb false && _ && _ && _ then _ else _); auto. }
           cbn [cof rmq set_q set_nsigs] in E. rewrite SM in E.
           injection E as <- <- <-. cbn in X. injection X as <- <-. split; [reflexivity|]. eexists. split; [reflexivity|].
           clear -C3. unfold tv. destruct C3 as [-> |[-> | ->]]; cbn; auto.
        -- injection E as <- <- <-. left. cbn in X. injection X as <- <-. split; [left; reflexivity|]. split; [|left; exact CU].
           unfold s'. cbn [dt ctl_dat]. unfold pause_end. destruct (_ <? _); cbn; rewrite zupd_eq; exact SM.
      * destruct (PA NO _ _ A0) as [(IF & SM & NX)|(-> & r & MR & _)].
        -- left. split; [exact IF|]. destruct (hret_fp _ _ _ _ _ _ _ _ _ rest E) as (R & P & FP & _).
           pose proof (at_notfresh _ _ _ _ _ (reach_full _ RE) A0) as NF. split; [|exact (next_other _ _ _ _ _ _ _ RE CU NE NX X)].
           rewrite <- SM. exact (mask_same s0 c _ _ _ _ _ _ _ _ _ NE NF FP (leave_cof _ _ _)).
        -- destruct (at_ret _ _ _ _ RE A0 (fun z => z) NO) as (CX & _). congruence.
    + intros c' p r vv t IN. apply tick_tr_rets in IN. destruct IN as [IN|(EF & -> & <- & EV & _)]; [eapply PR, IN|].
      assert (A0 : at_call s0 c [] kk p) by (exists rest; split; [rewrite SK, EF; reflexivity | constructor]). destruct (OWN s0 c [] p RE (fun z I => I) A0) as [-> _].
      destruct (PA NO _ _ A0) as [([] & _)|(_ & r1 & MR & G)]. rewrite M in MR. injection MR as ->. exact G.
  - intros s d ws sch md ios [RE ->] _ M A K X RE'. apply sco_switch_frame in X. destruct X as (X1 & _). destruct (wakes_frame ws (sc s0)) as (W0 & _). set (s' := mkst _ _ _ _ _ _) in *.
    assert (SK : stk (sc s') = stk (sc s0)) by (cbn; congruence). constructor; [cbn; eauto 8 | | exact PR].
    intros _ w p AC. unfold at_call in AC. rewrite SK in AC. exfalso. destruct (reach_full _ RE) as [[_ MO] _]. rewrite M in MO. destruct MO as (M1 & M2 & _).
    destruct (PA ltac:(rewrite M; exact (fun z => z)) _ _ AC) as [(_ & _ & [NX|NX])|(-> & r & MR & _)]; [congruence | rewrite M2 in NX; destruct NX | congruence].
  - intros s m0 [RE ->] _ HM RE'. constructor; [cbn; eauto 8 | | exact PR]. intros NU w p AC. destruct HM as [[EM HM]|[(-> & _)|[(j & ->)| ->]]]; try (destruct (NU Logic.I)).
    destruct (PA ltac:(rewrite HM; exact (fun z => z)) _ _ AC) as [H|(-> & r & MR & _)]; [left; exact H | congruence].
  - intros s ev [RE ->] _ H M RE'. destruct (env_frame s0 ev H) as (E1 & E2 & E3 & _). constructor.
    + exists dl, tm0. apply env_tr_old; assumption.
    + rewrite M. intros NO w p AC. unfold at_call in AC. rewrite E1 in AC. destruct (PA NO _ _ AC) as [(IF & SM & NX)|(-> & r & MR & G)].
      * left. split; [exact IF|]. rewrite (env_cof s0 ev H). split; [exact SM|]. unfold next. rewrite E2, E3. exact NX.
      * right. split; [reflexivity|]. exists r. rewrite M. auto.
    + intros c p r v t IN. apply env_tr_in in IN; [|exact H]. destruct IN as [IN|(y & j & D)]; [eapply PR, IN | discriminate D].
  - intros _. constructor; eauto 8.
Qed.
Theorem told_run : forall x k n es s, reach s -> told x k n s -> told x k n (run s es).
Proof. intros x k n es. induction es as [|e es IH]; intros s RE P; [exact P|]. cbn. apply IH; [apply reach_step, RE | apply told_step; assumption]. Qed.
