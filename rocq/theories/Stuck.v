(** States in which nothing can happen any more: every coroutine is blocked, none of
    them with a deadline or in a call that the environment can complete. Used for the
    counterexamples in which a coroutine is blocked forever. *)
From Coq Require Import List ZArith Bool Lia.
From Verif Require Import Util Runtime SchedInv StepInv StackShape BlockSpec.
Import ListNotations.
Local Open Scope Z_scope.

Record stuck (s : state) : Prop := {
  k_mode : mode s = MMain;
  k_yld : nyld (sc s) = 0;
  k_run : nrun (sc s) = 0;
  k_psd : 0 < npsd (sc s);
  k_res : q (dt s) QRes = [];
  k_iow : niow (dt s) = 0;
  k_inf : inflight (dt s) = [];
  k_evs : nevs (dt s) = 0;
  k_sig : sigm (dt s) = 0;
  k_dls : dls (dt s) = [];
  k_sgw : forall n, In n allowed_signals -> sigw (dt s) n = 0 }.
(** ended by a signal that nobody watches *)
Definition killed (s : state) : Prop := exists n, mode s = MKilled n.
Lemma rc_step_rest : forall nw d, q d QRes = [] -> q (rc_step nw d) QRes = [] /\ niow (rc_step nw d) = niow d /\ inflight (rc_step nw d) = inflight d /\
  nevs (rc_step nw d) = nevs d /\ sigm (rc_step nw d) = sigm d /\ dls (rc_step nw d) = dls d /\ sigw (rc_step nw d) = sigw d.
Proof.
  intros nw d H. unfold rc_step. destruct (0 <? npool d); [|auto 10].
  assert (S : forall l e, q (stamp l nw e) = q e /\ niow (stamp l nw e) = niow e /\ inflight (stamp l nw e) = inflight e /\ nevs (stamp l nw e) = nevs e /\
    sigm (stamp l nw e) = sigm e /\ dls (stamp l nw e) = dls e /\ sigw (stamp l nw e) = sigw e).
  { induction l as [|n l IH]; intros e; cbn [stamp]; [auto 10|]. destruct (_ =? _); [exact (IH (upco (node_co n) (set_pool_ts nw) e)) | auto 10]. }
  destruct (S (rev (q d QPool)) d) as (A1 & A2 & A3 & A4 & A5 & A6 & A7). cbn. rewrite A1, A2, A3, A4, A5, A6, A7. auto 10.
Qed.
Lemma stuck_step : forall s e, stuck s -> stk (sc (step s e)) = stk (sc s) /\ paused (sc (step s e)) = paused (sc s) /\ (stuck (step s e) \/ killed (step s e)).
Proof.
  intros s e [M Y R P QR IW IN EV SG DL SW]. assert (ST : stuck s) by (constructor; assumption).
  destruct e; cbn [step]; try (rewrite M; auto; fail).
  - rewrite M. Transparent do_main. unfold do_main. Opaque do_main. unfold active. rewrite Y, R. cbn.
    assert (A : (0 <? npsd (sc s) + 0 + match cur (sc s) with Some _ => 1 | None => 0 end) = true) by (apply Z.ltb_lt; destruct (cur (sc s)); lia).
    rewrite A. cbn [negb]. rewrite (proj2 (Z.ltb_lt _ _) P). unfold paused_step. rewrite QR. cbn. rewrite IW. cbn. rewrite EV. cbn. rewrite SG. cbn. rewrite DL. cbn.
    unfold sco_switch. rewrite R, Y. cbn. split; [reflexivity|]. split; [reflexivity|]. left.
    match goal with |- stuck (set_sc _ (set_dt (rc_step ?nw ?d) _)) => destruct (rc_step_rest nw d) as (A1 & A2 & A3 & A4 & A5 & A6 & A7); [cbn; rewrite ?qupd_eq; reflexivity|] end.
    split; cbn [set_sc set_dt set_mode mode sc dt set_exitreq set_cur nyld nrun npsd]; auto.
    + rewrite A2. exact IW.
    + rewrite A3. exact IN.
    + rewrite A4. exact EV.
    + rewrite A5. exact SG.
    + rewrite A6. exact DL.
    + intros n J. rewrite A7. apply SW, J.
  - destruct (_ <? _); [|auto]. cbn. split; [reflexivity|]. split; [reflexivity|]. left. split; assumption.
  - rewrite M. destruct (negb (mainthread (dt s))); cbn [orb]; [auto|]. destruct (mem n allowed_signals) eqn:ME; cbn [negb]; [|auto].
    apply mem_In in ME. rewrite (SW _ ME). cbn. destruct (n =? 13); [auto|]. split; [reflexivity|]. split; [reflexivity|]. right. exists n. reflexivity.
  - rewrite M, IN. cbn. auto.
  - split; [reflexivity|]. split; [reflexivity|]. left. split; assumption.
  - destruct (_ =? _); [|auto]. split; [reflexivity|]. split; [reflexivity|]. left. split; assumption.
  - split; [reflexivity|]. split; [reflexivity|]. left. split; assumption.
  - destruct (_ =? _); [|auto]. split; [reflexivity|]. split; [reflexivity|]. left. split; assumption.
  - destruct (_ =? _); [|auto]. split; [reflexivity|]. split; [reflexivity|]. left. split; assumption.
Qed.
Lemma killed_step : forall s e, killed s -> stk (sc (step s e)) = stk (sc s) /\ paused (sc (step s e)) = paused (sc s) /\ killed (step s e).
Proof.
  intros s e (n & M). assert (K : killed s) by (exists n; exact M). destruct e; cbn [step]; rewrite ?M; auto.
  - destruct (_ <? _); auto.
  - destruct (_ =? _); auto.
  - destruct (_ =? _); auto.
  - destruct (_ =? _); auto.
Qed.
(** whatever happens from then on, who is blocked stays blocked *)
Theorem stuck_forever : forall es s, stuck s -> forall x k o, blocked s x k o -> blocked (run s es) x k o.
Proof.
  intros es s ST x k o B. assert (G : forall es s, stuck s \/ killed s -> blocked s x k o -> blocked (run s es) x k o); [|auto]. clear.
  induction es as [|e es IH]; intros s ST B; [exact B|]. cbn [run fold_left]. change (fold_left step es (step s e)) with (run (step s e) es). apply IH.
  - destruct ST as [ST|ST]; [apply (stuck_step s e) in ST | apply (killed_step s e) in ST]; tauto.
  - assert (SP : stk (sc (step s e)) = stk (sc s) /\ paused (sc (step s e)) = paused (sc s)) by (destruct ST as [ST|ST]; [apply (stuck_step s e) in ST | apply (killed_step s e) in ST]; tauto).
    destruct SP as [SE PE]. unfold blocked. rewrite SE, PE. exact B.
Qed.
(** deciding it for a concrete state *)
Definition stuckb (s : state) : bool :=
  match mode s, q (dt s) QRes, inflight (dt s), dls (dt s) with
  | MMain, [], [], [] => (nyld (sc s) =? 0) && (nrun (sc s) =? 0) && (0 <? npsd (sc s)) && (niow (dt s) =? 0) && (nevs (dt s) =? 0) && (sigm (dt s) =? 0) &&
      forallb (fun n => sigw (dt s) n =? 0) allowed_signals
  | _, _, _, _ => false
  end.
Lemma stuckb_ok : forall s, stuckb s = true -> stuck s.
Proof.
  intros s H. unfold stuckb in H. destruct (mode s) eqn:M; try discriminate H. destruct (q (dt s) QRes) eqn:Q; [|discriminate H]. destruct (inflight (dt s)) eqn:IN; [|discriminate H].
  destruct (dls (dt s)) eqn:D; [|discriminate H]. rewrite !andb_true_iff, !Z.eqb_eq, Z.ltb_lt in H. destruct H as ((((((A & B) & C) & E) & F) & G) & W).
  constructor; auto. intros n I. rewrite forallb_forall in W. apply Z.eqb_eq, W, I.
Qed.
(** deciding [blocked] *)
Definition blockedb (s : state) (x : Z) (k : nat) (o : op) : Prop :=
  In x (paused (sc s)) /\ exists n st, stk (sc s) x = firstn n (stk (sc s) x) ++ FApi k o :: st /\ forallb (fun f => match f with FApi _ _ => false | _ => true end) (firstn n (stk (sc s) x)) = true.
Lemma blockedb_ok : forall s x k o, blockedb s x k o -> blocked s x k o.
Proof.
  intros s x k o (I & n & st & E & F). split; [exact I|]. exists (firstn n (stk (sc s) x)), st. split; [exact E|]. intros j p J.
  rewrite forallb_forall in F. apply F in J. discriminate J.
Qed.
