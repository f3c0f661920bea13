(** No signal is made up: the accounting of [SigInv] along whole executions. A
    coroutine waiting for signals is in the list of signal waiters, hence in no other
    list, so nothing but a signal, a cancellation or its deadline resumes it. *)
From Coq Require Import List ZArith Bool Lia.
From Verif Require Import AATreeSpec AATreeHist Util Runtime SchedInv StepInv StackShape RuntimeSpec TraceInv Immediate Prims StaticInv Footprint QueueInv OwnInv WaitInv CallInv SpecInv TraceStep Wake Awake DeadlineInv AllInv PausedInv ResultInv JoinInv WaiterInv AtCall MutexEff MutexTok MutexRt ChanShape ChanQuiet BlockSpec Handed Promise WatchInv SigInv WgInv CancelInv CancelSt DldInv MutexOrd ChanStatic GenInv ChanOrder SigTold.
Import ListNotations.
Local Open Scope Z_scope.

Lemma acct_main : forall L n s d ws sch md ios, 1 <= n -> NoDup L -> reach s -> mode s = MMain ->
  (if 0 <? npsd (sc s) then paused_step (now s) ios (dt s) else (dt s, [], None)) = (d, ws, None) ->
  sco_switch true (fold_left (fun a id => wake id a) ws (sc s)) = (sch, md) ->
  acct L n (mkst sch (rc_step (now s) d) md (now s) (ncalls s) (tr s)) <= acct L n s.
Proof.
  intros L n s d ws sch md ios N1 ND RE M K X. set (s' := mkst _ _ _ _ _ _).
  pose proof (mp_main _ _ _ _ _ _ _ K) as MP. destruct (main_ss _ _ _ _ K) as (w4 & SS & RS).
  assert (B : pendb L n s' = false).
  { destruct (pendb L n s') eqn:B; [|reflexivity]. exfalso. unfold pendb in B. cbn [mode s' sc] in B. destruct md as [|w| | | |]; try discriminate.
    assert (w = 0). { clear -X. unfold sco_switch in X. destruct (_ && _); [discriminate|]. destruct (nrun _ =? 0); cbn in X; match type of X with context [match ?l with [] => _ | _ => _ end] => destruct l end; inversion X; reflexivity. }
    subst w. destruct (cur sch); [|discriminate]. destruct (stk sch z) as [|[] ?]; try discriminate. destruct o; try discriminate.
    apply andb_true_iff in B. destruct B as [_ B]. apply Z.eqb_eq in B. lia. }
  assert (PAS : forall x, ~ In x w4 -> asgb n s' x = true -> asgb n s x = true).
  { intros x NI AS. apply asgb_true in AS. cbn [s' sc dt] in AS. destruct AS as ((rest & TP) & NP & CN & DN & SM). pose proof X as X0.
    apply sco_switch_frame in X0. destruct X0 as (X1 & _). destruct (wakes_frame ws (sc s)) as (W1 & _). rewrite X1, W1 in TP.
    destruct (mprims_flags _ _ x MP) as [MF1 MF2]. rewrite MF1 in CN.
    assert (DS : deadlined (cof (dt s) x) = false). { destruct (deadlined (cof (dt s) x)); [rewrite MF2 in DN by reflexivity; discriminate | reflexivity]. }
    assert (SS2 : sigmask (cof (dt s) x) = n).
    { rewrite <- SM. destruct SS as [H1 H2|m y H0 H1 H2 H3 H4]; [symmetry; apply H2|]. rewrite H2. destruct (Z.eqb_spec x y) as [->|]; [|reflexivity]. destruct NI. left. reflexivity. }
    apply asgb_true. split; [eauto|]. split; [|auto]. intros IP.
    destruct (in_dec Z.eq_dec x ws) as [IN|NW]; [|apply NP; rewrite (switch_paused _ _ _ _ X); apply wakes_paused; assumption].
    destruct (reach_mask _ RE x rest TP (or_introl IP)) as [_ IQ]. destruct (reach_uniq _ RE) as [_ UQ]. pose proof (reach_sysok _ RE) as SO.
    destruct (RS x IN) as [(y & J & NC)|[(y & J & NC)|[(fd & kd & J)|[J|J]]]].
    - destruct (so_nco _ _ SO y QRes Logic.I J) as (z & ->). cbn in NC. subst z.
      discriminate (UQ _ _ _ IQ J).
    - destruct (so_nco _ _ SO y QIo Logic.I J) as (z & ->). cbn in NC. subst z. discriminate (UQ _ _ _ IQ J).
    - destruct (reach_bk _ RE x) as [BE _ _ _]. apply BE in J.
      pose proof (reach_wsh _ RE x) as W. destruct (stk (sc s) x) as [|g st]; [discriminate TP|].
      inversion W as [s0 N|g0 s0 A0 N|g0 s0 A0 N|g0 s0 A0 N]; subst.
      + specialize (N _ J). discriminate N.
      + destruct J as [J|J]; [subst; discriminate TP | specialize (N _ J); discriminate N].
      + destruct J as [J|[J|J]]; [discriminate J | subst; discriminate TP | specialize (N _ J); discriminate N].
      + destruct J as [J|J]; [destruct A0 as [A0|A0]; subst; discriminate | specialize (N _ J); discriminate N].
    - contradiction.
    - congruence. }
  unfold acct. rewrite B. cbn [b2z tr s' dt]. assert (0 <= b2z (pendb L n s)) by (destruct (pendb L n s); cbn; lia).
  destruct SS as [H1 H2|m y H0 H1 H2 H3 H4].
  - assert (cnt (asgb n s') L <= cnt (asgb n s) L). { apply cnt_le. intros x _. apply PAS. intros []. }
    assert (sigq (rc_step (now s) d) n <= sigq (dt s) n). { destruct (H1 n) as [->|[_ ->]]; lia. } lia.
  - rewrite (H1 n). pose proof (cnt_one (asgb n s) (asgb n s') L y ND) as KK.
    assert (G : forall x, x <> y -> asgb n s' x = true -> asgb n s x = true) by (intros x NE; apply PAS; intros [<-|[]]; contradiction).
    specialize (KK G). assert (0 <= b2z (mem y L && asgb n s y)) by (destruct (_ && _); cbn; lia).
    destruct (Z.eqb_spec n m) as [->|NE].
    + pose proof (b2z_range (mem y L && asgb m s' y)). lia.
    + assert (Q : asgb n s' y = false).
      { destruct (asgb n s' y) eqn:Q; [|reflexivity]. apply asgb_true in Q. cbn [s' sc dt] in Q. destruct Q as (_ & _ & _ & _ & Q). rewrite H2, Z.eqb_refl in Q. congruence. }
      rewrite Q, andb_false_r in KK. cbn [b2z] in KK. lia.
Qed.

(** ** One step: no signal is made up *)
Definition sent (n : Z) (e : event) : Z := match e with ESignal m => b2z (m =? n) | _ => 0 end.
Theorem acct_step : forall L n s e, 1 <= n -> NoDup L -> reach s -> acct L n (step s e) <= acct L n s + sent n e.
Proof.
  intros L n s e N1 ND RE. pose proof (reach_full _ RE) as F. destruct F as [[SI MO] [B1 B2]].
  assert (MODE : forall m, (forall v, m = MRet v -> v = 0) -> acct L n (set_mode m s) <= acct L n s).
  { intros m HM. unfold acct. cbn [tr set_mode dt]. assert (Q : pendb L n (set_mode m s) = false).
    { unfold pendb. cbn [set_mode mode sc]. destruct m; auto. rewrite (HM v eq_refl). destruct (cur (sc s)); auto. destruct (stk (sc s) z) as [|[] ?]; auto. destruct o; auto.
      destruct (Z.eqb_spec 0 n); [lia | apply andb_false_r]. }
    rewrite Q. cbn [b2z]. assert (0 <= b2z (pendb L n s)) by (destruct (pendb L n s); cbn; lia).
    change (cnt (asgb n (set_mode m s)) L) with (cnt (asgb n s) L). lia. }
  assert (ENV : forall s', tr s' = tr s \/ (exists c k, tr s' = TWorkDone c k :: tr s) -> mode s' = mode s -> stk (sc s') = stk (sc s) -> cur (sc s') = cur (sc s) -> paused (sc s') = paused (sc s) ->
     cof (dt s') = cof (dt s) -> acct L n s' = acct L n s - sigq (dt s) n + sigq (dt s') n).
  { intros s' T E1 E2 E3 E4 E5. unfold acct, pendb. rewrite E1, E2, E3. assert (Q : cnt (asgb n s') L = cnt (asgb n s) L).
    { unfold cnt. f_equal. f_equal. apply filter_ext. intros x. unfold asgb. rewrite E2, E4, E5. reflexivity. }
    rewrite Q. assert (G : gotL L n (tr s') = gotL L n (tr s)) by (destruct T as [->|(c & k & ->)]; reflexivity). rewrite G. lia. }
  destruct e; cbn [sent]; rewrite ?Z.add_0_r.
  - rewrite step_call. destruct (mode s) eqn:M; try lia. destruct (cur (sc s)) as [c|] eqn:CU; [|lia].
    assert (G : o <> OpReturn -> acct L n (do_call s c o) <= acct L n s).
    { intros NR. Transparent do_call. unfold do_call, apply_res. Opaque do_call.
      destruct (hcall c o (now s) (dt s)) as [[d fs] k] eqn:E.
      destruct (exec c k _) as [sch md] eqn:X. cbn [set_ncalls sc dt mode now ncalls tr].
      exact (acct_call L n s c o d fs k sch md N1 ND RE M CU (B2 eq_refl c eq_refl) NR E X). }
    destruct o; try (apply G; discriminate). apply MODE. intros v Q. congruence.
  - rewrite step_tick. destruct (mode s) eqn:M; try lia. destruct (cur (sc s)) as [c|] eqn:CU; [|lia].
    destruct (stk (sc s) c) as [|f rest] eqn:SK; [apply MODE; discriminate|].
    Transparent do_tick. unfold do_tick, apply_res. Opaque do_tick.
    destruct (hret c f v b (now s) (dt s)) as [[d fs] k] eqn:E.
    destruct (exec c k _) as [sch md] eqn:X.
    refine (acct_tick L n s c v f rest b d fs k sch md N1 ND RE M CU SK _ E X). rewrite <- SK. apply B1. rewrite SK. discriminate.
  - rewrite step_main. destruct (mode s) eqn:M; try lia.
    Transparent do_main. unfold do_main. Opaque do_main.
    destruct (active (sc s)) eqn:A; cbn [negb]; [|apply MODE; discriminate].
    destruct (if 0 <? npsd (sc s) then _ else _) as [[d ws] kill] eqn:K.
    destruct kill as [m|]; [apply MODE; discriminate|].
    destruct (sco_switch true _) as [sch md] eqn:X.
    exact (acct_main L n s d ws sch md ios N1 ND RE M K X).
  - cbn. destruct (_ <? _); [|lia]. rewrite ENV; cbn; auto; lia.
  - assert (0 <= b2z (n0 =? n)) by (destruct (_ =? _); cbn; lia).
    cbn [step]. destruct (mode s) eqn:M; try lia;
    (destruct (_ || _); [lia|]; destruct (_ =? 0); [destruct (_ =? 13); [lia|]; pose proof (MODE (MKilled n0) ltac:(discriminate)); lia|];
     rewrite ENV; cbn [tr mode sc dt set_dt cof set_sigq set_sigm sigq]; auto; unfold zupd; rewrite (Z.eqb_sym n n0); destruct (Z.eqb_spec n0 n) as [->|]; cbn [b2z]; lia).
  - assert (Q : step s (EWorkDone c) = s \/ step s (EWorkDone c) = set_mode MUB s \/
      exists w, step s (EWorkDone c) = log (TWorkDone c (callno w)) (set_dt (pushq QIo (NCo c) (set_inflight (remove_first c (inflight (dt s))) (dt s))) s)).
    { cbn [step]. destruct (mode s); auto; destruct (mem c _); auto; destruct (stk (sc s) c) as [|[] w]; eauto. }
    destruct Q as [->|[->|(w & ->)]]; [lia | apply MODE; discriminate|]. rewrite ENV; cbn; auto; [lia|]. right. eauto.
  - cbn. rewrite ENV; cbn; auto; lia.
  - cbn. destruct (_ =? _); [|lia]. rewrite ENV; cbn; auto; lia.
  - cbn. rewrite ENV; cbn; auto; lia.
  - cbn. destruct (_ =? _); [|lia]. rewrite ENV; cbn; auto; lia.
  - cbn. destruct (_ =? _); [|lia]. rewrite ENV; cbn; auto; lia.
Qed.
Definition sentl (n : Z) (es : list event) : Z := fold_right (fun e a => sent n e + a) 0 es.
Theorem acct_run : forall L n es s, 1 <= n -> NoDup L -> reach s -> acct L n (run s es) <= acct L n s + sentl n es.
Proof.
  intros L n es. induction es as [|e es IH]; intros s N1 ND RE; [cbn; lia|].
  change (run s (e :: es)) with (run (step s e) es) in *. specialize (IH (step s e) N1 ND (reach_step _ _ RE)).
  pose proof (acct_step L n s e N1 ND RE). cbn [sentl fold_right]. unfold sentl in IH. lia.
Qed.
