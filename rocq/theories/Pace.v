(** How many turns pass before the scheduler loop runs again, and before a blocked
    coroutine that is due to be woken gets its turn. *)
From Coq Require Import List ZArith Bool Lia Permutation.
From Verif Require Import Util Runtime RuntimeSpec SchedInv StepInv StackShape TraceInv TraceStep ReadyQueue.
Import ListNotations.
Local Open Scope Z_scope.

Lemma switch_pace : forall fm s s' m, counts s -> sco_switch fm s = (s', m) ->
  exists new, disp s' = rev new ++ disp s /\ (length new <= 1)%nat /\ everyone s' = parked s /\ new ++ ready s' = ready s /\
    (fm = false -> 0 < npsd s -> (length new + length (runners s') <= length (runners s))%nat).
Proof.
  intros fm s s' m [C1 C2 C3] E. unfold sco_switch in E.
  destruct (nrun s =? 0) eqn:R0; cbn [andb] in E.
  - apply Z.eqb_eq in R0. rewrite C1 in R0.
    assert (RN : runners s = []) by (destruct (runners s); [reflexivity | cbn in R0; lia]).
    destruct (_ || _) eqn:Y.
    + inj E. exists []. cbn. repeat split; auto; lia.
    + apply orb_false_iff in Y. destruct Y as [Y Y3]. apply orb_false_iff in Y. destruct Y as [Y _]. apply Z.eqb_neq in Y. rewrite C2 in Y.
      cbn in E. destruct (yielders s) as [|c r] eqn:YL; [cbn in Y; lia|].
      inj E. exists [c]. unfold everyone, parked, curl, ready. cbn. rewrite RN, YL, !app_nil_r. repeat split; auto.
      intros -> NP. cbn in Y3. apply Z.ltb_ge in Y3. lia.
  - cbn in E. destruct (runners s) as [|c r] eqn:RL; [apply Z.eqb_neq in R0; rewrite C1 in R0; cbn in R0; lia|].
    inj E. exists [c]. unfold everyone, parked, curl, ready. cbn. rewrite RL. repeat split; auto.
Qed.

(** the pace of one step, for a coroutine [x] blocked before it *)
Definition paced (x : Z) (main : bool) (s s' : sched) (st : nat) : Prop :=
  exists new, disp s' = rev new ++ disp s /\ (length new <= 1)%nat /\ (length (everyone s') <= length (everyone s) + st)%nat /\
    (In x (paused s') \/ In x (ready s') \/ In x new) /\
    (main = false -> In x (paused s') -> (length new + length (runners s') <= length (runners s) + st)%nat).

Lemma parked_ready : forall s, length (parked s) = (length (ready s) + length (paused s))%nat.
Proof. intros s. unfold parked, ready. rewrite !app_length. lia. Qed.
Lemma In_npsd : forall s x, counts s -> In x (paused s) -> 0 < npsd s.
Proof. intros s x [_ _ ->] I. destruct (paused s); [destruct I|]. cbn [length]. lia. Qed.

Lemma paced_switch : forall x s s1 s' m n, counts s1 -> sco_switch false s1 = (s', m) -> disp s1 = disp s ->
  (length (parked s1) <= length (everyone s) + n)%nat -> (In x (paused s1) \/ In x (ready s1)) -> (length (runners s1) <= length (runners s) + n)%nat ->
  paced x false s s' n.
Proof.
  intros x s s1 s' m n CT X D L I LR. destruct (switch_pace _ _ _ _ CT X) as (new & A & B & C & E & F).
  destruct (sco_switch_frame _ _ _ _ X) as (_ & _ & P & _). exists new. rewrite A, D, C, P. split; [reflexivity|]. split; [exact B|]. split; [exact L|]. split.
  - destruct I as [I|I]; [auto|]. rewrite <- E in I. apply in_app_or in I. destruct I; auto.
  - intros _ J. specialize (F eq_refl (In_npsd _ _ CT J)). lia.
Qed.

Lemma exec_pace : forall x c k s s' m, counts s -> NoDup (parked s) -> cur s = Some c -> In x (paused s) -> exec c k s = (s', m) ->
  paced x false s s' (length (spawned (nextid s + 1) k)).
Proof.
  intros x c k s s' m CT ND CU I E.
  assert (LE : length (everyone s) = S (length (parked s))) by (unfold everyone, curl; rewrite CU; reflexivity).
  assert (RF : forall s', disp s' = disp s -> everyone s' = everyone s -> paused s' = paused s -> runners s' = runners s -> paced x false s s' 0).
  { intros z A B C D. exists []. rewrite A, B, C, D. cbn. repeat split; auto; lia. }
  destruct k; cbn [exec spawned length] in *.
  - inj E. apply RF; reflexivity.
  - inj E. apply RF; reflexivity.
  - eapply paced_switch; [|exact E| | | |]; [apply counts_push_yielder; exact CT | reflexivity | | left; exact I | cbn; lia].
    rewrite parked_ready, (proj1 (push_yielder_ready c s)), LE, parked_ready, app_length. cbn. lia.
  - eapply paced_switch; [|exact E| | | |]; [|reflexivity| | left; cbn; apply in_or_app; auto | cbn; lia].
    + destruct CT as [C1 C2 C3]. split; cbn; [exact C1 | exact C2 | rewrite app_length; cbn; lia].
    + rewrite LE, !parked_ready. unfold ready. cbn. rewrite (app_length (paused s)). cbn. lia.
  - destruct (mem id (paused s)) eqn:M; [|inj E; apply RF; reflexivity].
    pose proof (wake_counts id s ND CT) as WC.
    eapply paced_switch; [|exact E| | | |].
    + apply counts_push_yielder, WC.
    + unfold wake. rewrite M. reflexivity.
    + rewrite parked_ready, (proj1 (push_yielder_ready c _)), LE, app_length. cbn [paused push_yielder set_nyld set_yielders length].
      pose proof (Permutation_length (wake_perm id s ND)) as PL. rewrite parked_ready in PL. lia.
    + unfold wake. rewrite M. cbn. destruct (Z.eq_dec x id) as [->|NE].
      * right. unfold ready. cbn. rewrite !in_app_iff. cbn. auto.
      * left. apply remove1_In. auto.
    + unfold wake. rewrite M. cbn. lia.
  - inj E. exists []. unfold everyone, parked, curl, ready. cbn. rewrite CU. cbn. rewrite !app_length. cbn. repeat split; auto; lia.
  - eapply paced_switch; [|exact E| | | |].
    + destruct CT as [C1 C2 C3]. destruct tomain; split; cbn; assumption.
    + destruct tomain; reflexivity.
    + rewrite LE. destruct tomain; unfold parked; cbn; lia.
    + left. destruct tomain; exact I.
    + destruct tomain; cbn; lia.
  - inj E. apply RF; reflexivity.
Qed.
Lemma wakes_perm : forall ws s, NoDup (parked s) -> Permutation (parked (fold_left (fun a id => wake id a) ws s)) (parked s).
Proof.
  induction ws as [|w ws IH]; intros s ND; cbn [fold_left]; [reflexivity|]. pose proof (wake_perm w s ND) as P.
  rewrite IH; [exact P|]. apply (Permutation_NoDup (Permutation_sym P) ND).
Qed.

(** one step: [new] are the turns taken, [nst] the coroutines started *)
Lemma step_pace : forall x e s, full s -> In x (paused (sc s)) ->
  exists nst, started (tr (step s e)) = nst ++ started (tr s) /\
    paced x (match mode s with MMain => true | _ => false end) (sc s) (sc (step s e)) (length nst).
Proof.
  intros x e s F I.
  assert (EX : forall c k st' sch md t d n nc, mode s <> MMain -> cur (sc s) = Some c -> exec c k (set_stk (zupd (stk (sc s)) c st') (sc s)) = (sch, md) ->
    started t = spawned (nextid (sc s) + 1) k ++ started (tr s) ->
    exists nst, started (tr (mkst sch d md n nc t)) = nst ++ started (tr s) /\ paced x (match mode s with MMain => true | _ => false end) (sc s) (sc (mkst sch d md n nc t)) (length nst)).
  { intros c k st' sch md t d n nc NM CU X ST. exists (spawned (nextid (sc s) + 1) k). split; [exact ST|].
    destruct F as [[SI _] _]. pose proof (exec_pace x c k _ _ _ (counts_set_stk _ _ (si_counts _ SI)) (sinv_parked _ SI) CU I X) as H.
    destruct (mode s); try congruence; exact H. }
  assert (RF : forall z, disp (sc z) = disp (sc s) -> everyone (sc z) = everyone (sc s) -> paused (sc z) = paused (sc s) -> runners (sc z) = runners (sc s) -> started (tr z) = started (tr s) ->
    exists nst, started (tr z) = nst ++ started (tr s) /\ paced x (match mode s with MMain => true | _ => false end) (sc s) (sc z) (length nst)).
  { intros z A B C D T. exists []. split; [exact T|]. exists []. rewrite A, B, C, D. cbn. repeat split; auto; lia. }
  pose (P := fun z => exists nst, started (tr z) = nst ++ started (tr s) /\ paced x (match mode s with MMain => true | _ => false end) (sc s) (sc z) (length nst)).
  change (P (step s e)).
  apply (gstep_preserves (fun z => full z /\ z = s) P); try (intros z H; apply H); try (split; [exact F | reflexivity]).
  - intros z c o d fs k sch md [_ ->] _ M CU U NR E X. eapply (EX c k _ sch md); [congruence | exact CU | exact X|].
    rewrite !started_app, started_ctl, started_handler, started_call. reflexivity.
  - intros z c v f rest b d fs k sch md [_ ->] _ M CU SK L E X. eapply (EX c k _ sch md); [congruence | exact CU | exact X|].
    rewrite !started_app, started_ctl, started_handler, started_ret. reflexivity.
  - intros z d ws sch md ios [_ ->] _ M A K X. unfold P. rewrite M. exists []. split; [reflexivity|]. cbn [sc length].
    destruct F as [[SI MO] _]. rewrite M in MO. destruct MO as (CU & _).
    assert (W : swinv (fold_left (fun a id => wake id a) ws (sc s))) by (apply wakes_swinv, sinv_main_swinv; assumption).
    destruct (switch_pace _ _ _ _ (sw_counts _ W) X) as (new & N1 & N2 & N3 & N4 & _). destruct (wakes_ready ws (sc s)) as (j & _ & D).
    exists new. rewrite N1, D. split; [reflexivity|]. split; [exact N2|]. rewrite N3.
    pose proof (wakes_perm ws _ (sinv_parked _ SI)) as PM. split; [|split; [|discriminate]].
    + rewrite (Permutation_length PM). unfold everyone, curl. rewrite CU. cbn. lia.
    + assert (J : In x (parked (fold_left (fun a id => wake id a) ws (sc s)))).
      { apply (Permutation_in _ (Permutation_sym PM)). unfold parked. rewrite !in_app_iff. auto. }
      unfold parked in J. rewrite app_assoc in J. apply in_app_or in J. destruct J as [J|J].
      * change (In x (ready (fold_left (fun a id => wake id a) ws (sc s)))) in J. rewrite <- N4 in J. apply in_app_or in J. destruct J; auto.
      * left. destruct (sco_switch_frame _ _ _ _ X) as (_ & _ & -> & _). exact J.
  - intros z m [_ ->] _ _. apply RF; reflexivity.
  - intros z e0 [_ ->] _ H _. destruct (env_frame s e0 H) as (_ & EC & ER & EY & EP).
    destruct (step_link e0 s F) as [(j & (new & D & R) & ST)|(D & Y & (c & RN) & _)].
    + unfold ready in R. rewrite ER, EY in R. assert (LN : length new = length j) by (apply (f_equal (@length Z)) in R; rewrite !app_length in R; lia).
      apply RF; auto; [| unfold everyone, parked, curl; rewrite EC, ER, EY, EP; reflexivity].
      destruct e0; try contradiction; cbn; clear; repeat (match goal with |- context [match ?x with _ => _ end] => destruct x end; try reflexivity); reflexivity.
    + exfalso. rewrite ER in RN. apply (f_equal (@length Z)) in RN. rewrite app_length in RN. cbn in RN. lia.
  - apply RF; reflexivity.
Qed.

(** ** A coroutine due to be woken at the next pass *)
Section Due.
  (** [W s]: [x] is blocked and the next pass will wake it *)
  Variable x : Z.
  Variable W : state -> Prop.
  Hypothesis W_blocked : forall s, W s -> In x (paused (sc s)).
  Hypothesis W_stays : forall s e, reach s -> W s -> In x (paused (sc (step s e))) -> W (step s e).
  Hypothesis W_pass : forall s ios, reach s -> W s -> mode s = MMain -> (exists n, mode (step s (EMain ios)) = MKilled n) \/ ~ In x (paused (sc (step s (EMain ios)))).

  Definition dues (s : state) : nat := length (runners (sc s)) + length (everyone (sc s)).
  Lemma killed_same : forall s ios n, mode s = MMain -> mode (step s (EMain ios)) = MKilled n -> sc (step s (EMain ios)) = sc s /\ tr (step s (EMain ios)) = tr s.
  Proof.
    intros s ios n M K. rewrite step_main, M in *. Transparent do_main. unfold do_main in *. Opaque do_main.
    destruct (negb _); [discriminate K|]. destruct (if 0 <? npsd (sc s) then _ else _) as [[d ws] kill]. destruct kill; [split; reflexivity|].
    destruct (sco_switch true _) as [sch md] eqn:X. cbn in K. subst md. exfalso. clear -X. unfold sco_switch in X. destruct (_ && _); [discriminate X|].
    destruct (nrun _ =? 0); cbn in X; [destruct (yielders _) | destruct (runners _)]; discriminate X.
  Qed.
  Lemma ahead_le : forall l, In x l -> (S (ahead x l) <= length l)%nat.
  Proof. induction l as [|y l IH]; intros I; [destruct I|]. cbn. destruct (Z.eqb_spec x y); [lia|]. destruct I as [->|I]; [congruence|]. apply IH in I. lia. Qed.
  Lemma ready_le : forall s, (length (ready (sc s)) <= length (everyone (sc s)))%nat.
  Proof. intros s. unfold everyone, parked, ready. rewrite !app_length. lia. Qed.
  Lemma due_wait : forall es s, reach s -> W s ->
    exists new nst, disp (sc (run s es)) = rev new ++ disp (sc s) /\ started (tr (run s es)) = nst ++ started (tr s) /\
      (~ In x new -> (length new <= dues s + 2 * length nst)%nat).
  Proof.
    induction es as [|e es IH]; intros s RE HW; [exists [], []; cbn; repeat split; auto; lia|].
    pose proof (W_blocked _ HW) as PA. pose proof (reach_full _ RE) as F.
    destruct (step_pace x e s F PA) as (nst & ST & new & D & L1 & LE & PL & RU).
    cbn [run fold_left]. fold (run (step s e) es). pose proof (reach_step _ e RE) as RE'. pose proof (reach_full _ RE') as F'.
    destruct (in_dec Z.eq_dec x new) as [IN|NI].
    { destruct (started_grows es _ F') as (l & G). destruct (disp_grows es _ F') as (n2 & D2).
      exists (new ++ rev n2), (l ++ nst). rewrite D2, D, G, ST, rev_app_distr, rev_involutive, !app_assoc. repeat split; auto.
      intros H. exfalso. apply H, in_or_app. auto. }
    destruct (in_dec Z.eq_dec x (ready (sc (step s e)))) as [IR|NR].
    { destruct (ready_wait x es _ F' IR) as (new2 & nst2 & D2 & S2 & H2).
      exists (new ++ new2), (nst2 ++ nst). rewrite D2, D, S2, ST, rev_app_distr, !app_assoc. repeat split; auto.
      intros H. destruct H2 as [_ H2]; [intros K; apply H, in_or_app; auto|]. pose proof (ahead_le _ IR). pose proof (ready_le (step s e)).
      unfold dues. rewrite !app_length. lia. }
    destruct PL as [PA'|[H|H]]; [|contradiction|contradiction].
    destruct (IH _ RE' (W_stays _ e RE HW PA')) as (new2 & nst2 & D2 & S2 & H2).
    exists (new ++ new2), (nst2 ++ nst). rewrite D2, D, S2, ST, rev_app_distr, !app_assoc. repeat split; auto.
    intros H. assert (NI2 : ~ In x new2) by (intros K; apply H, in_or_app; auto). specialize (H2 NI2).
    assert (PC : (length new + length (runners (sc (step s e))) <= length (runners (sc s)) + length nst)%nat).
    { destruct (mode s) eqn:M; try (apply RU; [reflexivity | exact PA']).
      assert (SAME : sc (step s e) = sc s -> (length new + length (runners (sc (step s e))) <= length (runners (sc s)) + length nst)%nat).
      { intros Q. rewrite Q in D |- *. apply (f_equal (@length Z)) in D. rewrite app_length, rev_length in D. lia. }
      destruct e.
      - apply SAME. rewrite step_call, M. reflexivity.
      - apply SAME. rewrite step_tick, M. reflexivity.
      - destruct (W_pass s ios RE HW M) as [[n K]|K]; [|contradiction]. apply SAME. apply (killed_same _ _ _ M K).
      - apply SAME. cbn. destruct (_ <? _); reflexivity.
      - apply SAME. cbn. rewrite M. repeat (match goal with |- context [if ?x then _ else _] => destruct x end); reflexivity.
      - apply SAME. cbn. rewrite M. destruct (mem _ _); [|reflexivity]. destruct (stk (sc s) c) as [|[] ?]; reflexivity.
      - cbn in D |- *. assert (new = []) as -> by (destruct new as [|a new]; [reflexivity|]; apply (f_equal (@length Z)) in D; rewrite app_length, rev_length in D; cbn in D; lia). cbn. lia.
      - apply SAME. cbn. destruct (_ =? _); reflexivity.
      - apply SAME. reflexivity.
      - apply SAME. cbn. destruct (_ =? _); reflexivity.
      - apply SAME. cbn. destruct (_ =? _); reflexivity. }
    unfold dues in *. rewrite !app_length. lia.
  Qed.
End Due.
