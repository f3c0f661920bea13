(** The ready queue is first come, first served. *)
From Coq Require Import List ZArith Bool Lia.
From Verif Require Import Util Runtime RuntimeSpec SchedInv StepInv StackShape TraceInv.
Import ListNotations.
Local Open Scope Z_scope.

(** the coroutines waiting for the processor, in the order in which they get it *)
Definition ready (s : sched) : list Z := runners s ++ yielders s.

(** [new] are the coroutines switched in between [s] and [s'], taken from the
    front; [joined] are those that became ready, put at the back. *)
Definition plain (s s' : sched) (joined : list Z) : Prop :=
  exists new, disp s' = rev new ++ disp s /\ new ++ ready s' = ready s ++ joined.

Lemma plain_refl : forall s s', disp s' = disp s -> ready s' = ready s -> plain s s' [].
Proof. intros s s' D R. exists []. cbn. rewrite app_nil_r. auto. Qed.

Lemma plain_join : forall s s1 s' j j',
  ready s1 = ready s ++ j -> disp s1 = disp s -> plain s1 s' j' -> plain s s' (j ++ j').
Proof.
  intros s s1 s' j j' R D (new & D' & R'). exists new. rewrite D', D. split; [reflexivity|].
  rewrite R', R, app_assoc. reflexivity.
Qed.

Lemma sco_switch_plain : forall fm s s' m, counts s -> sco_switch fm s = (s', m) -> plain s s' [].
Proof.
  intros fm s s' m [C1 C2 C3] E. unfold sco_switch in E.
  destruct (nrun s =? 0) eqn:R0; cbn [andb] in E.
  - apply Z.eqb_eq in R0. rewrite C1 in R0.
    assert (RN : runners s = []) by (destruct (runners s); [reflexivity | cbn in R0; lia]).
    destruct (_ || _); [inj E; apply plain_refl; reflexivity|].
    cbn in E. destruct (yielders s) as [|c r] eqn:YL.
    + inj E. apply plain_refl; [reflexivity|]. unfold ready; cbn. rewrite RN, YL. reflexivity.
    + inj E. exists [c]. unfold ready; cbn. rewrite RN, YL, !app_nil_r. auto.
  - cbn in E. destruct (runners s) as [|c r] eqn:RL.
    + inj E. apply plain_refl; reflexivity.
    + inj E. exists [c]. unfold ready; cbn. rewrite RL, app_nil_r. auto.
Qed.

Lemma push_yielder_ready : forall c s, ready (push_yielder c s) = ready s ++ [c] /\ disp (push_yielder c s) = disp s.
Proof. intros. unfold ready; cbn. rewrite app_assoc. auto. Qed.

Lemma wake_ready : forall id s, exists j, ready (wake id s) = ready s ++ j /\ disp (wake id s) = disp s.
Proof.
  intros. unfold wake. destruct (mem id (paused s)).
  - exists [id]. rewrite (proj1 (push_yielder_ready id _)). cbn. auto.
  - exists []. rewrite app_nil_r. auto.
Qed.
Lemma wakes_ready : forall ws s, exists j,
  ready (fold_left (fun a id => wake id a) ws s) = ready s ++ j /\
  disp (fold_left (fun a id => wake id a) ws s) = disp s.
Proof.
  induction ws as [|w ws IH]; intros s; [exists []; rewrite app_nil_r; auto|].
  cbn [fold_left]. destruct (IH (wake w s)) as (j & R & D). destruct (wake_ready w s) as (j0 & R0 & D0).
  exists (j0 ++ j). rewrite R, R0, D, D0, app_assoc. auto.
Qed.

Lemma counts_push_yielder : forall c s, counts s -> counts (push_yielder c s).
Proof. intros c s [C1 C2 C3]. split; cbn; [exact C1 | rewrite app_length; cbn; lia | exact C3]. Qed.

Lemma exec_fifo : forall c k s s' m, counts s -> NoDup (parked s) -> exec c k s = (s', m) ->
  match k with
  | CSpawn _ => disp s' = disp s /\ runners s' = runners s ++ [c] /\ yielders s' = yielders s
  | _ => exists j, plain s s' j
  end.
Proof.
  intros c k s s' m CT ND E. destruct k; cbn [exec] in E.
  - inj E. exists []. apply plain_refl; reflexivity.
  - inj E. exists []. apply plain_refl; reflexivity.
  - apply sco_switch_plain in E; [|apply counts_push_yielder; exact CT].
    eexists. eapply plain_join; [apply push_yielder_ready | apply push_yielder_ready | exact E].
  - apply sco_switch_plain in E.
    + eexists. eapply (plain_join s _ s' []); [| |exact E]; cbn; [rewrite app_nil_r; reflexivity | reflexivity].
    + destruct CT as [C1 C2 C3]. split; cbn; [exact C1 | exact C2 | rewrite app_length; cbn; lia].
  - destruct (mem id (paused s)) eqn:M.
    + apply sco_switch_plain in E; [|apply counts_push_yielder, wake_counts; assumption].
      destruct (wake_ready id s) as (j & R & D).
      eexists. eapply plain_join; [exact R | exact D|].
      eapply plain_join; [apply push_yielder_ready | apply push_yielder_ready | exact E].
    + inj E. exists []. apply plain_refl; reflexivity.
  - inj E. cbn. auto.
  - apply sco_switch_plain in E.
    + eexists. eapply (plain_join s _ s' []); [| |exact E]; destruct tomain; cbn; try (rewrite app_nil_r; reflexivity); reflexivity.
    + destruct CT as [C1 C2 C3]. destruct tomain; split; cbn; assumption.
  - inj E. exists []. apply plain_refl; reflexivity.
Qed.

Definition fifo_link (s s' : state) : Prop :=
  (exists j, plain (sc s) (sc s') j /\ started (tr s') = started (tr s)) \/
  (disp (sc s') = disp (sc s) /\ yielders (sc s') = yielders (sc s) /\
   (exists c, runners (sc s') = runners (sc s) ++ [c]) /\
   exists n, started (tr s') = n :: started (tr s)).

Lemma counts_set_stk : forall s v, counts s -> counts (set_stk v s).
Proof. intros s v [C1 C2 C3]. split; assumption. Qed.

Lemma sinv_parked : forall s, sinv s -> NoDup (parked s).
Proof. intros s [_ ND _ _ _]. eapply NoDup_app_r. exact ND. Qed.

Lemma exec_link : forall c k s st' sch md t d n nc,
  sinv (sc s) -> exec c k (set_stk (zupd (stk (sc s)) c st') (sc s)) = (sch, md) ->
  started t = spawned (nextid (sc s) + 1) k ++ started (tr s) ->
  fifo_link s (mkst sch d md n nc t).
Proof.
  intros c k s st' sch md t d n nc SI X ST.
  apply exec_fifo in X; [|apply counts_set_stk, SI | exact (sinv_parked _ SI)].
  destruct k; cbn [spawned app] in ST;
    try (destruct X as (j & new & D & R); left; exists j; split; [exists new; cbn; auto | cbn; exact ST]).
  right. destruct X as (D & R & Y). cbn. split; [exact D|]. split; [exact Y|]. split; [exists c; exact R | eauto].
Qed.

Lemma step_link : forall e s, full s -> fifo_link s (step s e).
Proof.
  intros e s F.
  assert (RF : forall s', sc s' = sc s -> tr s' = tr s -> fifo_link s s').
  { intros s' A B. left. exists []. rewrite A, B. split; [apply plain_refl; reflexivity | reflexivity]. }
  destruct F as [[SI MO] [B1 B2]]. destruct e.
  - rewrite step_call. destruct (mode s) eqn:M; auto. destruct (cur (sc s)) as [c|] eqn:CU; auto.
    assert (G : fifo_link s (do_call s c o)).
    { Transparent do_call. unfold do_call, apply_res. Opaque do_call.
      destruct (hcall c o (now s) (dt s)) as [[d fs] k] eqn:E.
      destruct (exec c k _) as [sch md] eqn:X. eapply exec_link; [exact SI | exact X|]; cbn [tr].
      rewrite !started_app, started_ctl, started_handler, started_call. reflexivity. }
    destruct o; exact G.
  - rewrite step_tick. destruct (mode s) eqn:M; auto. destruct (cur (sc s)) as [c|] eqn:CU; auto.
    destruct (stk (sc s) c) as [|f rest] eqn:SK; [apply RF; reflexivity|].
    Transparent do_tick. unfold do_tick, apply_res. Opaque do_tick.
    destruct (hret c f v b (now s) (dt s)) as [[d fs] k] eqn:E.
    destruct (exec c k _) as [sch md] eqn:X. eapply exec_link; [exact SI | exact X|]; cbn [tr].
    rewrite !started_app, started_ctl, started_handler, started_ret. reflexivity.
  - rewrite step_main. destruct (mode s) eqn:M; auto.
    Transparent do_main. unfold do_main. Opaque do_main.
    destruct (active (sc s)) eqn:A; cbn [negb]; [|apply RF; reflexivity].
    destruct (if 0 <? npsd (sc s) then _ else _) as [[d ws] kill] eqn:K.
    destruct kill as [n|]; [apply RF; reflexivity|].
    destruct (sco_switch true _) as [sch md] eqn:X.
    
    assert (W : swinv (fold_left (fun a id => wake id a) ws (sc s))).
    { apply wakes_swinv, sinv_main_swinv; [exact SI | apply MO]. }
    apply sco_switch_plain in X; [|apply W].
    destruct (wakes_ready ws (sc s)) as (j & R & D).
    left. exists (j ++ []). cbn. split; [|reflexivity]. eapply plain_join; [exact R | exact D | exact X].
  - apply RF; cbn; destruct (_ <? _); reflexivity.
  - apply RF; cbn; destruct (mode s); auto; (destruct (_ || _); auto; destruct (_ =? _); auto; destruct (_ =? _); auto).
  - cbn. destruct (mode s) eqn:M; auto; (destruct (mem _ _); [|apply RF; reflexivity]; destruct (stk (sc s) c) as [|[] ?]; try (apply RF; reflexivity);
      left; exists []; split; [apply plain_refl; reflexivity | reflexivity]).
  - left. exists []. split; [apply plain_refl; reflexivity | reflexivity].
  - apply RF; cbn; destruct (_ =? _); reflexivity.
  - apply RF; reflexivity.
  - apply RF; cbn; destruct (_ =? _); reflexivity.
  - apply RF; cbn; destruct (_ =? _); reflexivity.
Qed.

(** ** Whole histories without starts: an exact FIFO queue *)
Lemma started_grows : forall es s, full s -> exists l, started (tr (run s es)) = l ++ started (tr s).
Proof.
  induction es as [|e es IH]; intros s F; [exists []; reflexivity|].
  destruct (IH (step s e) (full_step e s F)) as (l & E). cbn. fold (run (step s e) es). rewrite E.
  destruct (step_link e s F) as [(j & _ & ->)|(_ & _ & _ & n & ->)]; [eauto|].
  exists (l ++ [n]). rewrite <- app_assoc. reflexivity.
Qed.

Lemma disp_grows : forall es s, full s -> exists l, disp (sc (run s es)) = l ++ disp (sc s).
Proof.
  induction es as [|e es IH]; intros s F; [exists []; reflexivity|].
  destruct (IH (step s e) (full_step e s F)) as (l & E). cbn. fold (run (step s e) es). rewrite E.
  destruct (step_link e s F) as [(j & (new & D & _) & _)|(D & _)]; rewrite D; [|eauto].
  exists (l ++ rev new). rewrite <- app_assoc. reflexivity.
Qed.

Theorem run_fifo : forall es s, full s ->
  started (tr (run s es)) = started (tr s) ->
  exists new joined, disp (sc (run s es)) = rev new ++ disp (sc s) /\
     new ++ ready (sc (run s es)) = ready (sc s) ++ joined.
Proof.
  induction es as [|e es IH]; intros s F ST.
  - exists [], []. cbn. rewrite app_nil_r. auto.
  - cbn in ST |- *. fold (run (step s e) es) in *.
    pose proof (full_step e s F) as F'.
    destruct (started_grows es _ F') as (l & G).
    destruct (step_link e s F) as [(j & (new & D & R) & S1)|(_ & _ & _ & n & S1)].
    + destruct (IH _ F') as (new2 & j2 & D2 & R2).
      { rewrite S1. exact ST. }
      exists (new ++ new2), (j ++ j2). split.
      * rewrite D2, D, rev_app_distr, app_assoc. reflexivity.
      * rewrite <- app_assoc, R2, app_assoc, R, app_assoc. reflexivity.
    + exfalso. rewrite G, S1 in ST. apply (f_equal (@length Z)) in ST.
      rewrite app_length in ST. cbn in ST. lia.
Qed.

(** ** Bounded waiting, with starts *)
Fixpoint ahead (x : Z) (l : list Z) : nat :=
  match l with [] => 0%nat | y :: r => if x =? y then 0%nat else S (ahead x r) end.

Lemma ahead_app_in : forall x a b, In x a -> ahead x (a ++ b) = ahead x a.
Proof.
  induction a as [|y a IH]; intros b H; [contradiction|]. cbn.
  destruct (Z.eqb_spec x y); [reflexivity|]. rewrite IH; [reflexivity|]. destruct H; [congruence | assumption].
Qed.
Lemma ahead_app_notin : forall x a b, ~ In x a -> ahead x (a ++ b) = (length a + ahead x b)%nat.
Proof.
  induction a as [|y a IH]; intros b H; [reflexivity|]. cbn.
  destruct (Z.eqb_spec x y) as [->|]; [exfalso; apply H; left; reflexivity|].
  rewrite IH; [reflexivity|]. intros I. apply H. right. exact I.
Qed.

Lemma ready_wait : forall x es s, full s -> In x (ready (sc s)) ->
  exists new nst, disp (sc (run s es)) = rev new ++ disp (sc s) /\
    started (tr (run s es)) = nst ++ started (tr s) /\
    (~ In x new -> In x (ready (sc (run s es))) /\
       (ahead x (ready (sc (run s es))) + length new <= ahead x (ready (sc s)) + length nst)%nat).
Proof.
  intros x. induction es as [|e es IH]; intros s F I.
  - exists [], []. cbn. auto with arith.
  - cbn. fold (run (step s e) es). pose proof (full_step e s F) as F'.
    destruct (step_link e s F) as [(j & (new & D & R) & S1)|(D & Y & (c & RN) & n & S1)].
    + destruct (in_dec Z.eq_dec x new) as [IN|NI].
      * destruct (started_grows es _ F') as (l & G).
        destruct (disp_grows es _ F') as (n2 & D2).
        exists (new ++ rev n2), l. split; [|split].
        -- rewrite D2, D, rev_app_distr, rev_involutive, app_assoc. reflexivity.
        -- rewrite G, S1. reflexivity.
        -- intros H. exfalso. apply H. apply in_or_app. left. exact IN.
      * assert (IR : In x (ready (sc (step s e)))).
        { assert (In x (new ++ ready (sc (step s e)))) by (rewrite R; apply in_or_app; left; exact I).
          apply in_app_or in H. destruct H; [contradiction | assumption]. }
        assert (AH : (ahead x (ready (sc (step s e))) + length new = ahead x (ready (sc s)))%nat).
        { rewrite <- (ahead_app_in x (ready (sc s)) j I), <- R, ahead_app_notin by exact NI. lia. }
        destruct (IH _ F' IR) as (new2 & nst & D2 & S2 & H2).
        exists (new ++ new2), nst. split; [|split].
        -- rewrite D2, D, rev_app_distr, app_assoc. reflexivity.
        -- rewrite S2, S1. reflexivity.
        -- intros H. destruct H2 as [H3 H4].
           { intros K. apply H. apply in_or_app. right. exact K. }
           split; [exact H3|]. rewrite app_length. lia.
    + assert (IR : In x (ready (sc (step s e))) /\ (ahead x (ready (sc (step s e))) <= ahead x (ready (sc s)) + 1)%nat).
      { unfold ready in *. rewrite Y, RN. rewrite <- app_assoc. cbn.
        apply in_app_or in I. destruct (in_dec Z.eq_dec x (runners (sc s))) as [IN|NI].
        - split; [apply in_or_app; left; exact IN|]. rewrite !ahead_app_in by exact IN. lia.
        - destruct I as [I|I]; [contradiction|]. split; [apply in_or_app; right; right; exact I|].
          rewrite !ahead_app_notin by exact NI. cbn. destruct (x =? c); lia. }
      destruct IR as [IR AH].
      destruct (IH _ F' IR) as (new2 & nst & D2 & S2 & H2).
      exists new2, (nst ++ [n]). split; [|split].
      * rewrite D2, D. reflexivity.
      * rewrite S2, S1, <- app_assoc. reflexivity.
      * intros H. destruct (H2 H) as [H3 H4]. split; [exact H3|]. rewrite app_length. cbn. lia.
Qed.
