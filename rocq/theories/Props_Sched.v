(** C20 - C23: coroutine identity, no coroutine lost, scheduling order, end of the
    runtime. [reach s]: [s] is the state after some history of a freshly started
    runtime. *)
From Coq Require Import List ZArith Bool Lia Sorted.
From Verif Require Import Util Runtime SchedInv StepInv StackShape RuntimeSpec TraceInv ReadyQueue Immediate Prims StaticInv Scripts.
Import ListNotations.
Local Open Scope Z_scope.

(* ------------------------------------------------------------------------ *)
(** * C20 identity *)

Lemma started_sorted : forall s, reach s -> StronglySorted Z.gt (started (tr s)).
Proof.
  assert (EX : forall s k t, reach s -> StronglySorted Z.gt (started (tr s)) ->
    started t = spawned (nextid (sc s) + 1) k ++ started (tr s) -> StronglySorted Z.gt (started t)).
  { intros s k t RE H ->. destruct k; cbn; auto. constructor; [exact H|].
    apply Forall_forall. intros x I. apply (ti_ids _ (reach_tinv _ RE)) in I. lia. }
  apply rrun_preserves.
  - intros s c o d fs k sch md RE I M CU U NR E X. eapply (EX s k); eauto. cbn [tr].
    rewrite !started_app, started_ctl, started_handler, started_call. reflexivity.
  - intros s c v f rest b d fs k sch md RE I M CU SK L E X. eapply (EX s k); eauto. cbn [tr].
    rewrite !started_app, started_ctl, started_handler, started_ret. reflexivity.
  - intros s d ws sch md ios RE I _ _ _ _. exact I.
  - intros s m RE I _. exact I.
  - intros s e RE I H _. destruct (env_tr s e H) as [Q|(y & Q)]; rewrite Q; exact I.
  - intros g _. cbn. constructor; constructor.
Qed.

(** Ids are positive, all different, and each start gives a larger id than every
    earlier one (traces are newest first). *)
Theorem C20_ids_increase : forall s, reach s ->
  StronglySorted Z.gt (started (tr s)) /\ NoDup (started (tr s)) /\
  forall c, In c (started (tr s)) -> 0 < c.
Proof.
  intros s R. split; [apply started_sorted; exact R|]. split; [apply (ti_started _ (reach_tinv _ R))|].
  apply (id_pos _ (reach_idinv _ R)).
Qed.
(** An id taken by another runtime of the process is never used here. *)
Theorem C20_ids_across_runtimes : forall s es, reach s ->
  ~ In (nextid (sc s) + 1) (started (tr (run (step s EOtherId) es))).
Proof.
  intros s es R.
  assert (G : forall es s', reach s' -> forall n, n <= nextid (sc s') -> ~ In n (started (tr s')) ->
    ~ In n (started (tr (run s' es)))).
  { clear. induction es as [|e es IH]; intros s' R n N H; [exact H|].
    cbn [run fold_left]. fold (run (step s' e) es).
    assert (L : nextid (sc s') <= nextid (sc (step s' e)) /\ (started (tr (step s' e)) = started (tr s') \/
                started (tr (step s' e)) = (nextid (sc s') + 1) :: started (tr s'))).
    { pose (P := fun s1 : state => nextid (sc s') <= nextid (sc s1) /\ (started (tr s1) = started (tr s') \/
                started (tr s1) = (nextid (sc s') + 1) :: started (tr s'))).
      change (P (step s' e)).
      assert (X : forall k t sch md d nw nc c st', exec c k (set_stk st' (sc s')) = (sch, md) ->
        started t = spawned (nextid (sc s') + 1) k ++ started (tr s') -> P (mkst sch d md nw nc t)).
      { intros k t sch md d nw nc c st' X T. apply exec_nextid in X. cbn in X. unfold P. cbn [sc tr]. rewrite X, T.
        destruct k; cbn; split; auto; lia. }
      apply (gstep_preserves (fun z => full z /\ z = s') P); try (intros z [F _]; exact F);
        try (split; [apply reach_full; exact R | reflexivity]).
      - intros s c o d fs k sch md [_ ->] I M CU U NR E XX. eapply X; [exact XX|].
        rewrite !started_app, started_ctl, started_handler, started_call. reflexivity.
      - intros s c v f rest b d fs k sch md [_ ->] I M CU SK L E XX. eapply X; [exact XX|].
        rewrite !started_app, started_ctl, started_handler, started_ret. reflexivity.
      - intros s d ws sch md ios [_ ->] I _ _ _ XX. apply sco_switch_frame in XX.
        destruct XX as (_ & N1 & _). destruct (wakes_frame ws (sc s')) as (_ & W & _).
        unfold P. cbn [sc tr]. rewrite N1, W. split; [lia | auto].
      - intros s m [_ ->] I _. exact I.
      - intros s e0 [_ ->] I HH _. unfold P. split; [apply env_nextid; exact HH|].
        destruct (env_tr s' e0 HH) as [Q|(y & Q)]; rewrite Q; left; reflexivity.
      - unfold P. split; [lia | auto]. }
    destruct L as [L1 L2]. apply IH; [apply reach_step; exact R | lia|].
    destruct L2 as [->| ->]; [exact H|]. intros [Q|Q]; [lia | contradiction]. }
  apply G; [apply reach_step; exact R | cbn; lia |]. cbn. intros I. apply (ti_ids _ (reach_tinv _ R)) in I. lia.
Qed.

Ltac imm := intros; match goal with E : hcall _ _ _ _ = _ |- _ => cbn in E; inj E end; eauto.
Ltac plainop_tac := split; [intros w S; inversion S; reflexivity | discriminate].

(** neco_getid returns the id of the calling coroutine. *)
Theorem C20_getid : forall s k c v m t l1 l2, reach s ->
  tr s = l1 ++ TRet k c OpGetid v m t :: l2 -> v = c.
Proof.
  intros s k c v m t l1 l2 R E.
  refine (imm_returns OpGetid (fun c v _ _ => v = c) _ _ _ _ s k c v m t l1 l2 R E); try (imm; fail).
  - plainop_tac.
  - auto.
Qed.
(** neco_starterid returns the id of the coroutine that started the caller, 0 for
    the first coroutine of the runtime. *)
Theorem C20_starterid : forall s k c v m t l1 l2, reach s ->
  tr s = l1 ++ TRet k c OpStarterid v m t :: l2 -> In (TStart v c) l2.
Proof.
  intros s k c v m t l1 l2 R E.
  refine (imm_returns OpStarterid (fun c v _ l => In (TStart v c) l) _ _ _ _ s k c v m t l1 l2 R E); try (imm; fail).
  - plainop_tac.
  - intros c0 v0 s0 d RE M CU H. cbn in H. inj H. cbn. right. apply (id_starter _ (reach_idinv _ RE)).
    destruct (reach_full _ RE) as [[SI _] _]. apply (cur_alive _ _ SI CU).
  - intros. right. assumption.
Qed.
(** every coroutine was started by exactly one coroutine, or is the first *)
Theorem C20_one_starter : forall s p p' c, reach s ->
  In (TStart p c) (tr s) -> In (TStart p' c) (tr s) -> p = p' /\ (p = 0 \/ In p (started (tr s))).
Proof.
  intros s p p' c R A B. split; [|eapply (id_par _ (reach_idinv _ R)); exact A].
  pose proof (ti_started _ (reach_tinv _ R)) as ND. revert A B ND. generalize (tr s). clear.
  induction l as [|o l IH]; intros A B ND; [contradiction|].
  assert (NDl : NoDup (started l)).
  { change (started (o :: l)) with (started ([o] ++ l)) in ND. rewrite started_app in ND. apply NoDup_app_r in ND. exact ND. }
  assert (G : forall q, In (TStart q c) l -> In c (started l)).
  { intros q H. apply in_flat_map. exists (TStart q c). split; [exact H | left; reflexivity]. }
  destruct A as [->|A].
  - destruct B as [B|B]; [inversion B; reflexivity|].
    exfalso. cbn in ND. inversion ND; subst. eauto.
  - destruct B as [->|B]; [|auto]. exfalso. cbn in ND. inversion ND; subst. eauto.
Qed.
(** neco_lastid returns the id of the coroutine the caller started last ... *)
Theorem C20_lastid : forall s k c v m t l1 l2, reach s ->
  tr s = l1 ++ TRet k c OpLastid v m t :: l2 -> forall x l, children c l2 = x :: l -> v = x.
Proof.
  intros s k c v m t l1 l2 R E.
  refine (imm_returns OpLastid (fun c v _ t => forall x l, children c t = x :: l -> v = x) _ _ _ _ s k c v m t l1 l2 R E); try (imm; fail).
  - plainop_tac.
  - intros c0 v0 s0 d RE M CU H x l CH. cbn in H. inj H. cbn in CH. eapply (id_last _ (reach_idinv _ RE)); [|exact CH].
    destruct (reach_full _ RE) as [[SI _] _]. apply (cur_alive _ _ SI CU).
  - intros c0 v0 m0 x0 j0 t0 H x l CH. eapply H. exact CH.
Qed.
(** ... and 0 before the caller has started any, as long as no coroutine of the
    runtime has ended yet. *)
Theorem C20_lastid_zero_partial : forall s k c v m t l1 l2, reach s ->
  tr s = l1 ++ TRet k c OpLastid v m t :: l2 -> exited l2 = [] -> children c l2 = [] -> v = 0.
Proof.
  intros s k c v m t l1 l2 R E.
  refine (imm_returns OpLastid (fun c v _ t => exited t = [] -> children c t = [] -> v = 0) _ _ _ _ s k c v m t l1 l2 R E); try (imm; fail).
  - plainop_tac.
  - intros c0 v0 s0 d RE M CU H X CH. cbn in H. inj H. cbn in CH, X.
    destruct (id_pool _ (reach_idinv _ RE) X) as [_ P]. apply P; [|exact CH].
    destruct (reach_full _ RE) as [[SI _] _]. apply (cur_alive _ _ SI CU).
  - intros c0 v0 m0 x0 j0 t0 H X CH. apply H; assumption.
Qed.

(** The full claim "0 before the caller has started any" is false: the record of
    an ended coroutine is recycled with its [lastid]. Coroutine 2 starts 3 and
    both end; later 1 starts 5, which has started nobody but is told 3. *)
Definition stale_lastid : list event :=
  [ECall OpStart; ECall OpStart; ECall OpReturn; ECall OpYield; ECall OpReturn; ECall OpYield; ECall OpYield;
   ECall OpStart; ECall OpReturn; ECall OpStart; ECall OpLastid].
Theorem C20_lastid_zero_refuted : exists s k c v m t l1 l2, reach s /\
  tr s = l1 ++ TRet k c OpLastid v m t :: l2 /\ children c l2 = [] /\ v <> 0.
Proof.
  exists (script stale_lastid), 7%nat, 5, 3, 0, 1000, [], (tl (tr (script stale_lastid))).
  split; [apply script_reach|]. split; [vm_compute; reflexivity|]. split; [vm_compute; reflexivity | discriminate].
Qed.

(** non-trivial case: three generations, all identity calls *)
Definition family : list event :=
  [ECall OpStart; ECall OpStart; ECall OpGetid; ECall OpStarterid; ECall OpLastid; ECall OpYield; ECall OpLastid;
   ECall OpYield; ECall OpLastid; ECall OpStarterid; EOtherId; ECall OpStart].
Example C20_case :
  started (tr (script family)) = [5; 3; 2; 1] /\
  rets (tr (script family)) =
    [(9%nat, 2, OpStarterid, 1); (8%nat, 2, OpLastid, 3); (1%nat, 2, OpStart, 0);
     (6%nat, 1, OpLastid, 2); (0%nat, 1, OpStart, 0); (4%nat, 3, OpLastid, 0); (3%nat, 3, OpStarterid, 2);
     (2%nat, 3, OpGetid, 3)].
Proof. vm_compute. auto. Qed.

(* ------------------------------------------------------------------------ *)
(** * C21 no coroutine is lost or duplicated *)

(** All the places where the scheduler keeps coroutines: the running one, the two
    ready lists, the blocked ones. *)
Definition places (s : sched) : list Z :=
  (match cur s with Some c => [c] | None => [] end) ++ runners s ++ yielders s ++ paused s.

Theorem C21_exactly_one_place : forall s c, reach s ->
  (alive (tr s) c -> count_occ Z.eq_dec (places (sc s)) c = 1%nat) /\
  (~ alive (tr s) c -> count_occ Z.eq_dec (places (sc s)) c = 0%nat).
Proof.
  intros s c R. destruct (reach_full _ R) as [[SI _] _]. pose proof (reach_tinv _ R) as TI.
  change (places (sc s)) with (everyone (sc s)).
  split; intros A.
  - apply (ti_alive _ TI) in A. apply (si_alive _ SI) in A. apply NoDup_count_occ'; [apply (si_nodup _ SI) | exact A].
  - apply count_occ_not_In. intros I. apply A. apply (ti_alive _ TI). apply (si_alive _ SI). exact I.
Qed.
(** The runtime's own counts are exact. *)
Theorem C21_counts : forall s, reach s ->
  nrun (sc s) = Z.of_nat (length (runners (sc s))) /\
  nyld (sc s) = Z.of_nat (length (yielders (sc s))) /\
  npsd (sc s) = Z.of_nat (length (paused (sc s))).
Proof. intros s R. destruct (reach_full _ R) as [[SI _] _]. destruct (si_counts _ SI). auto. Qed.
(** Resuming a blocked coroutine makes it ready exactly once: it leaves the
    blocked ones and joins the back of the ready ones; resuming any other
    coroutine changes nothing. *)
Theorem C21_resume_once : forall s id, reach s ->
  (In id (paused (sc s)) ->
     yielders (wake id (sc s)) = yielders (sc s) ++ [id] /\ runners (wake id (sc s)) = runners (sc s) /\
     ~ In id (paused (wake id (sc s))) /\ wake id (wake id (sc s)) = wake id (sc s) /\
     forall x, x <> id -> (In x (paused (wake id (sc s))) <-> In x (paused (sc s)))) /\
  (~ In id (paused (sc s)) -> wake id (sc s) = sc s).
Proof.
  intros s id R. split.
  - intros I. apply mem_In in I.
    assert (NI : ~ In id (remove1 id (paused (sc s)))) by (rewrite remove1_In; tauto).
    assert (W : wake id (sc s) = push_yielder id (set_npsd (npsd (sc s) - 1) (set_paused (remove1 id (paused (sc s))) (sc s))))
      by (unfold wake; rewrite I; reflexivity).
    rewrite W. repeat split; auto.
    + unfold wake. cbn [paused push_yielder set_nyld set_yielders set_npsd set_paused].
      apply mem_In_false in NI. rewrite NI. reflexivity.
    + cbn. rewrite remove1_In. tauto.
    + cbn. rewrite remove1_In. tauto.
  - intros I. apply mem_In_false in I. unfold wake. rewrite I. reflexivity.
Qed.
(** non-trivial case: running, both ready lists and blocked coroutines at once *)
Example C21_case : let s := sc (script [ECall OpStart; ECall (OpSuspend MAXI); ECall OpStart; ECall OpYield; ECall OpStart; ECall OpStart]) in
  places s = [5; 1; 4; 3; 2] /\ cur s = Some 5 /\ paused s = [2] /\ (nrun s, nyld s, npsd s) = (2, 1, 1).
Proof. vm_compute. auto. Qed.

(* ------------------------------------------------------------------------ *)
(** * C22 first-come first-served *)

(** The ready coroutines in the order in which they will run. *)
Definition ready_order (s : state) : list Z := runners (sc s) ++ yielders (sc s).

(** The ghost log [disp] of the model is faithful: whenever the running coroutine
    changes, it is to the head of the ready order and logged, or a start (the child
    runs at once and its starter is put behind the coroutines due to run), or
    nobody runs. *)
Theorem C22_switch : forall s e, reach s -> cur (sc (step s e)) <> cur (sc s) ->
  (exists c r j, cur (sc (step s e)) = Some c /\ disp (sc (step s e)) = c :: disp (sc s) /\
       ready_order s ++ j = c :: r /\ ready_order (step s e) = r) \/
  (exists p n, cur (sc s) = Some p /\ cur (sc (step s e)) = Some n /\ tr (step s e) = TStart p n :: tl (tr (step s e)) /\
       runners (sc (step s e)) = runners (sc s) ++ [p] /\ yielders (sc (step s e)) = yielders (sc s) /\
       disp (sc (step s e)) = disp (sc s)) \/
  cur (sc (step s e)) = None.
Proof.
  intros s e R.
  assert (SW : forall fm s1 s' m, counts s1 -> sco_switch fm s1 = (s', m) ->
     cur s' = None \/ (exists c r, cur s' = Some c /\ disp s' = c :: disp s1 /\ runners s1 ++ yielders s1 = c :: r /\ runners s' ++ yielders s' = r) \/ cur s' = cur s1).
  { clear. intros fm s1 s' m CT E. destruct CT as [C1 C2 C3]. unfold sco_switch in E.
    destruct (_ && _); [inj E; left; reflexivity|].
    destruct (nrun s1 =? 0) eqn:Z0.
    - apply Z.eqb_eq in Z0. rewrite C1 in Z0. assert (R0 : runners s1 = []) by (destruct (runners s1); [reflexivity | cbn [length] in Z0; lia]).
      cbn [runners set_nyld set_yielders set_nrun set_runners] in E.
      destruct (yielders s1) as [|c r] eqn:Y; inj E.
      + right. right. reflexivity.
      + right. left. exists c, r. cbn. rewrite R0, app_nil_r. auto.
    - destruct (runners s1) as [|c r] eqn:Y; inj E.
      + right. right. reflexivity.
      + right. left. exists c, (r ++ yielders s1). cbn. auto. }
  pose (P := fun s' : state => cur (sc s') <> cur (sc s) ->
    (exists c r j, cur (sc s') = Some c /\ disp (sc s') = c :: disp (sc s) /\
       ready_order s ++ j = c :: r /\ ready_order s' = r) \/
    (exists p n, cur (sc s) = Some p /\ cur (sc s') = Some n /\ tr s' = TStart p n :: tl (tr s') /\
       runners (sc s') = runners (sc s) ++ [p] /\ yielders (sc s') = yielders (sc s) /\
       disp (sc s') = disp (sc s)) \/
    cur (sc s') = None).
  change (P (step s e)).
  assert (SX : forall fm s1 s' m j, counts s1 -> sco_switch fm s1 = (s', m) -> cur s1 = cur (sc s) -> disp s1 = disp (sc s) ->
     runners s1 ++ yielders s1 = ready_order s ++ j -> forall d md nw nc t, P (mkst s' d md nw nc t)).
  { intros fm s1 s' m j CT E CU DI RO d md nw nc t NE. cbn [sc] in NE |- *.
    destruct (SW _ _ _ _ CT E) as [H|[(c & r & A1 & A2 & A3 & A4)|H]].
    - right. right. exact H.
    - left. exists c, r, j. rewrite DI in A2. rewrite RO in A3. auto.
    - exfalso. apply NE. congruence. }
  assert (EX : forall c k st' sch md d nw nc t, cur (sc s) = Some c ->
     exec c k (set_stk st' (sc s)) = (sch, md) -> P (mkst sch d md nw nc (ctl_obs c (nextid (sc s) + 1) k ++ t))).
  { intros c k st' sch md d nw nc t CU X. destruct (reach_full _ R) as [[SI _] _].
    pose proof (counts_set_stk _ st' (si_counts _ SI)) as CT.
    assert (CTY : forall c s1, counts s1 -> counts (push_yielder c s1)) by (intros; apply counts_push_yielder; assumption).
    destruct k; cbn [exec] in X.
    - inj X. intros NE. cbn in NE. congruence.
    - inj X. intros NE. cbn in NE. congruence.
    - eapply (SX _ _ _ _ [c]); [apply CTY; exact CT | exact X | reflexivity | reflexivity |]. unfold ready_order. cbn. rewrite app_assoc. reflexivity.
    - eapply (SX _ _ _ _ []); [|exact X | reflexivity | reflexivity |].
      + destruct CT as [C1 C2 C3]. split; cbn in *; auto. rewrite app_length. cbn [length]. lia.
      + unfold ready_order. cbn. rewrite app_nil_r. reflexivity.
    - destruct (mem id _) eqn:ME; [|inj X; intros NE; cbn in NE; congruence].
      eapply (SX _ _ _ _ [id; c]); [| exact X | | |].
      + apply CTY, wake_counts; [|exact CT]. exact (sinv_parked _ SI).
      + unfold wake. rewrite ME. reflexivity.
      + unfold wake. rewrite ME. reflexivity.
      + unfold wake, ready_order. rewrite ME. cbn. rewrite <- !app_assoc. reflexivity.
    - inj X. intros _. right. left. exists c, (nextid (sc s) + 1). cbn. auto 10.
    - eapply (SX _ _ _ _ []); [|exact X | | |].
      + destruct CT as [C1 C2 C3]. destruct tomain; split; cbn in *; auto.
      + destruct tomain; reflexivity.
      + destruct tomain; reflexivity.
      + unfold ready_order. rewrite app_nil_r. destruct tomain; reflexivity.
    - inj X. intros NE. cbn in NE. congruence. }
  apply (gstep_preserves (fun z => full z /\ z = s) P); try (intros z [F _]; exact F);
    try (split; [apply reach_full; exact R | reflexivity]).
  - intros s1 c o d fs k sch md [_ ->] _ M CU U NR E X. eapply EX; eassumption.
  - intros s1 c v f rest b d fs k sch md [_ ->] _ M CU SK L E X. eapply EX; eassumption.
  - intros s1 d ws sch md ios [F ->] _ M A K X. destruct F as [[SI _] _].
    destruct (wakes_frame ws (sc s)) as (_ & _ & W3 & _). destruct (wakes_ready ws (sc s)) as (j & W5 & W6).
    eapply (SX _ _ _ _ j); [|exact X | exact W3 | exact W6 | exact W5].
    assert (SWI : swinv (sc s)).
    { apply sinv_main_swinv; [exact SI|]. destruct (reach_full _ R) as [[_ MO] _]. rewrite M in MO. apply MO. }
    apply (sw_counts _ (wakes_swinv ws _ SWI)).
  - intros s1 m [_ ->] _ _ NE. cbn in NE. congruence.
  - intros s1 e1 [_ ->] _ HH _ NE. destruct (env_frame s e1 HH) as (_ & EC & _). congruence.
  - intros NE. congruence.
Qed.

(** While no coroutine is started, the coroutines run in exactly the order in which
    they became ready: those ready at the start first, then [joined], the ones that
    became ready later, in the order of joining. [new] are the coroutines switched
    in, oldest first. *)
Theorem C22_fifo : forall es s, reach s -> started (tr (run s es)) = started (tr s) ->
  exists new joined, disp (sc (run s es)) = rev new ++ disp (sc s) /\
     new ++ ready_order (run s es) = ready_order s ++ joined.
Proof. intros es s R. apply run_fifo. apply reach_full. exact R. Qed.

(** In general, a ready coroutine [x] waits for at most those ready before it plus
    one turn per coroutine started meanwhile: as long as it has not run, the number
    of coroutines ahead of it plus the number of turns taken is at most the initial
    number ahead plus the number of starts. *)
Theorem C22_bounded_wait : forall x es s, reach s -> In x (ready_order s) ->
  exists new nst, disp (sc (run s es)) = rev new ++ disp (sc s) /\
    started (tr (run s es)) = nst ++ started (tr s) /\
    (~ In x new -> In x (ready_order (run s es)) /\
       (ahead x (ready_order (run s es)) + length new <= ahead x (ready_order s) + length nst)%nat).
Proof. intros x es s R. apply ready_wait. apply reach_full. exact R. Qed.

(** The scheduler loop runs the first ready coroutine whenever there is one. *)
Theorem C22_loop_dispatches : forall s ios c r, reach s -> mode s = MMain -> ready_order s = c :: r ->
  (exists n, mode (step s (EMain ios)) = MKilled n) \/
  (cur (sc (step s (EMain ios))) = Some c /\ mode (step s (EMain ios)) = MRet 0).
Proof.
  intros s ios c r R M RO. rewrite step_main, M. destruct (reach_full _ R) as [[SI MO] _]. rewrite M in MO.
  destruct MO as (CU & RU & EQ). unfold ready_order in RO. rewrite RU in RO. cbn in RO.
  destruct (si_counts _ SI) as [C1 C2 C3].
  Transparent do_main. unfold do_main. Opaque do_main.
  assert (AC : active (sc s) = true).
  { unfold active. rewrite C2, C1, C3, RO, CU. cbn [length]. apply Z.ltb_lt. lia. }
  rewrite AC. cbn [negb].
  destruct (if 0 <? npsd (sc s) then _ else _) as [[d ws] kill]. destruct kill as [n|]; [left; exists n; reflexivity|].
  right. destruct (wakes_frame ws (sc s)) as (W1 & W2 & W3 & W4 & W5).
  destruct (wakes_ready ws (sc s)) as (j & W6 & W7).
  assert (SWI : swinv (fold_left (fun a id => wake id a) ws (sc s))) by (apply wakes_swinv, sinv_main_swinv; assumption).
  set (s1 := fold_left (fun a id => wake id a) ws (sc s)) in *.
  destruct (sw_counts _ SWI) as [D1 D2 D3].
  unfold ready in W6. rewrite W4, RU, RO in W6. cbn in W6.
  unfold sco_switch. rewrite W5, C1, RU. cbn [length Z.of_nat]. rewrite Z.eqb_refl. cbn [andb].
  rewrite D2, W6. cbn [length app]. rewrite (proj2 (Z.eqb_neq _ 0)) by lia. cbn [orb negb andb].
  assert (EX : exitreq s1 = exitreq (sc s)).
  { subst s1. clear. generalize (sc s). induction ws as [|w ws IH]; intros a; [reflexivity|]. cbn. rewrite IH.
    unfold wake. destruct (mem _ _); reflexivity. }
  rewrite EX, EQ. cbn. auto.
Qed.

(** Starts break strict first-come first-served: a coroutine that keeps starting
    others is put in front of the yielders again each time. Here coroutine 2 is
    ready from the beginning, coroutine 1 repeats "start a coroutine that returns at
    once", and for every [n] there is a history in which 1 runs [n] more times and 2
    never does. *)
Definition starve0 : state := script [ECall OpStart; ECall OpYield].
Definition starve_round : list event := [ECall OpStart; ECall OpReturn; ETick true; ETick true].
Fixpoint starve (n : nat) : list event := match n with O => [] | S n => starve_round ++ starve n end.

Definition starving (s : state) : Prop :=
  (exists nid st dsp, sc s = mksched [] [2] [] 0 1 0 (Some 1) false nid st dsp /\ 2 <= nid /\ st 1 = [FEntry]) /\
  mode s = MUser /\
  (forall x, q (dt s) (QCancel x) = [] /\ q (dt s) (QJoin x) = []) /\
  (forall x, In x (q (dt s) QPool) -> gen (cof (dt s) (node_co x)) = None).

Lemma spawn_q : forall p n d k, k <> QPool -> q (spawn_dat p n false d) k = q d k.
Proof.
  intros p n d k N. unfold spawn_dat, popq. destruct (q d QPool) eqn:Q; destruct p; cbn; try reflexivity;
    apply qupd_neq; exact N.
Qed.
Lemma starve_step : forall s, starving s ->
  starving (run s starve_round) /\ disp (sc (run s starve_round)) = 1 :: disp (sc s).
Proof.
  intros [sc0 d md nw nc t] ((nid & st & dsp & E & NI & S1) & M & Q & G). cbn in E, M, Q, G. subst sc0 md.
  set (s0 := mkst _ _ _ _ _ _). set (n := nid + 1) in *.
  set (d1 := spawn_dat (Some 1) n false d).
  set (d2 := set_allcount (allcount d1 - 1) (set_all (remove1 n (all d1)) d1)).
  set (st1 := zupd (zupd st 1 (FApi nc OpStart :: st 1)) n [FEntry]).
  Transparent do_call do_tick.
  assert (A1 : exists t1, step s0 (ECall OpStart) = mkst (mksched [1] [2] [] 1 1 0 (Some n) false n st1 dsp) d1 MUser nw (S nc) t1).
  { eexists. reflexivity. }
  destruct A1 as (t1 & A1).
  set (s1 := mkst (mksched [1] [2] [] 1 1 0 (Some n) false n st1 dsp) d1 MUser nw (S nc) t1) in *.
  assert (A2 : step s1 (ECall OpReturn) = set_mode (MRet 0) s1) by reflexivity.
  assert (Q1 : forall x, q d1 (QCancel x) = [] /\ q d1 (QJoin x) = []).
  { intros x. unfold d1. rewrite !spawn_q by discriminate. apply Q. }
  assert (G1 : gen (cof d1 n) = None).
  { unfold d1, spawn_dat, popq. destruct (q d QPool) as [|p l] eqn:P; cbn; rewrite zupd_eq; cbn; [reflexivity|].
    apply G. left. reflexivity. }
  assert (G2 : forall x, In x (q d1 QPool) -> node_co x <> n -> gen (cof d1 (node_co x)) = None).
  { intros x I NE. unfold d1. rewrite spawn_cof by exact NE.
    assert (I' : In x (q d QPool)).
    { revert I. unfold d1, spawn_dat, popq. destruct (q d QPool) as [|p l] eqn:P; cbn; auto. rewrite P. auto. }
    specialize (G x I'). destruct (_ =? _); cbn; exact G. }
  assert (CE : coexit_rest n false d1 = (d2, [], CFinal false)).
  { unfold coexit_rest. fold d2.
    assert (emptyq (QCancel n) d2 = true /\ emptyq (QJoin n) d2 = true) as [-> ->].
    { unfold emptyq, d2. cbn. destruct (Q1 n) as [-> ->]. auto. }
    cbn [andb negb]. destruct (Q1 n) as [E1 E2].
    assert (q d2 (QCancel n) = []) as -> by exact E1. cbn [length resume_all].
    assert (q d2 (QJoin n) = []) as -> by exact E2. cbn [length resume_all].
    assert (gen (cof d2 n) = None) as -> by exact G1. reflexivity. }
  assert (N1 : st1 n = [FEntry]) by (apply zupd_eq).
  assert (A3 : exists t2, step (set_mode (MRet 0) s1) (ETick true) =
     mkst (mksched [] [2] [] 0 1 0 (Some 1) false n (zupd (zupd st1 n []) n []) (1 :: dsp)) (final_dat n d2) (MRet 0) nw (S nc) t2).
  { rewrite step_tick. cbn [mode set_mode sc cur stk s1]. rewrite N1. unfold do_tick.
    cbn [hret dt s1 set_mode]. rewrite CE. eexists. reflexivity. }
  destruct A3 as (t2 & A3).
  set (st2 := zupd (zupd st1 n []) n []) in *.
  set (s2 := mkst (mksched [] [2] [] 0 1 0 (Some 1) false n st2 (1 :: dsp)) (final_dat n d2) (MRet 0) nw (S nc) t2) in *.
  assert (N2 : st2 1 = [FApi nc OpStart; FEntry]).
  { unfold st2, st1. rewrite !zupd_neq by lia. rewrite zupd_eq, S1. reflexivity. }
  assert (A4 : exists t3, step s2 (ETick true) =
     mkst (mksched [] [2] [] 0 1 0 (Some 1) false n (zupd st2 1 [FEntry]) (1 :: dsp)) (final_dat n d2) MUser nw (S nc) t3).
  { rewrite step_tick. cbn [mode sc cur stk s2]. rewrite N2. unfold do_tick. eexists. reflexivity. }
  destruct A4 as (t3 & A4). Opaque do_call do_tick.
  assert (RR : run s0 starve_round = step (step (step (step s0 (ECall OpStart)) (ECall OpReturn)) (ETick true)) (ETick true)) by reflexivity.
  rewrite RR, A1, A2, A3, A4. split; [|reflexivity].
  split; [|split; [reflexivity|]].
  - exists n, (zupd st2 1 [FEntry]), (1 :: dsp). split; [reflexivity|]. split; [lia | apply zupd_eq].
  - split.
    + intros x. destruct (Q1 x) as [E1 E2]. cbn [dt]. unfold final_dat, pushq, rmq. cbn. rewrite E1, E2. auto.
    + intros x. cbn [dt]. unfold final_dat, pushq, rmq. cbn. rewrite in_app_iff, filter_In.
      intros [[I NE]|[<-|[]]]; [|exact G1].
      destruct (Z.eq_dec (node_co x) n) as [EQ|NQ]; [rewrite EQ; exact G1 | apply G2; assumption].
Qed.

Theorem C22_start_overtakes_refuted : forall n, exists es,
  reach starve0 /\ In 2 (ready_order starve0) /\
  (exists new, length new = n /\ disp (sc (run starve0 es)) = new ++ disp (sc starve0) /\ ~ In 2 new) /\
  In 2 (ready_order (run starve0 es)).
Proof.
  assert (G : forall n s, starving s -> starving (run s (starve n)) /\ disp (sc (run s (starve n))) = repeat 1 n ++ disp (sc s)).
  { induction n as [|n IH]; intros s H; [split; [exact H | reflexivity]|].
    cbn [starve]. unfold run. rewrite fold_left_app. fold (run s starve_round). fold (run (run s starve_round) (starve n)).
    destruct (starve_step s H) as [H1 D1]. destruct (IH _ H1) as [H2 D2]. split; [exact H2|].
    rewrite D2, D1. change (1 :: disp (sc s)) with ([1] ++ disp (sc s)). rewrite app_assoc.
    rewrite <- (repeat_cons n 1). reflexivity. }
  intros n. exists (starve n).
  assert (S0 : starving starve0).
  { split; [|split; [vm_compute; reflexivity|]].
    - exists 2, (stk (sc starve0)), (disp (sc starve0)). split; [vm_compute; reflexivity | split; [lia | vm_compute; reflexivity]].
    - split; [|vm_compute; contradiction]. intros x. vm_compute. auto. }
  destruct (G n _ S0) as [((nid & st & dsp & E & _) & _) D].
  split; [apply script_reach|]. split; [vm_compute; auto|]. split.
  - exists (repeat 1 n). split; [apply repeat_length|]. split; [exact D|]. intros I. apply repeat_spec in I. discriminate.
  - unfold ready_order. rewrite E. cbn. auto.
Qed.

(** non-trivial case for the two positive theorems: three coroutines are ready when
    1 yields; they run in order 2, 3, 4 and then 1 again *)
Definition three_ready : state := script [ECall OpStart; ECall OpYield; ECall OpStart; ECall OpYield; ECall OpStart; ECall OpYield].
Definition everyone_yields : list event := scr [ECall OpYield; ECall OpYield; ECall OpYield; ECall OpYield].
Example C22_case :
  ready_order three_ready = [2; 3; 4] /\
  started (tr (run three_ready everyone_yields)) = started (tr three_ready) /\
  disp (sc (run three_ready everyone_yields)) = rev [2; 3; 4; 1] ++ disp (sc three_ready) /\
  ready_order (run three_ready everyone_yields) = [2; 3; 4].
Proof. vm_compute. auto. Qed.
Example C22_loop_case : exists s, reach s /\ mode s = MMain /\ ready_order s = [2; 1].
Proof.
  exists (run (init g0) (scr [ECall OpStart; ECall (OpSuspend MAXI); ECall OpStart; ECall (OpSuspend MAXI)] ++ [ECall (OpResume 2)])).
  split; [exists g0; eexists; split; [exact g0_ok | reflexivity]|]. split; vm_compute; reflexivity.
Qed.

(* ------------------------------------------------------------------------ *)
(** * C23 end of the runtime *)

(** neco_start (the first on the thread) returns only when every coroutine that was
    started has terminated ... *)
Theorem C23_returns_only_at_end : forall s c, reach s -> mode s = MDone ->
  In c (started (tr s)) -> In c (exited (tr s)).
Proof.
  intros s c R M I. destruct (in_dec Z.eq_dec c (exited (tr s))) as [H|H]; [exact H|]. exfalso.
  destruct (reach_full _ R) as [[SI MO] _]. rewrite M in MO. cbn in MO.
  assert (A : alive (tr s) c) by (split; assumption).
  apply (ti_alive _ (reach_tinv _ R)) in A. apply (si_alive _ SI) in A. rewrite MO in A. exact A.
Qed.
(** ... and returns at the next turn of the loop once they all have. *)
Theorem C23_returns_at_end : forall s ios, reach s ->
  (forall c, In c (started (tr s)) -> In c (exited (tr s))) ->
  match mode s with
  | MDone | MKilled _ | MUB => True
  | MMain => mode (step s (EMain ios)) = MDone
  | _ => False
  end.
Proof.
  intros s ios R H. destruct (reach_full _ R) as [[SI MO] _].
  assert (EV : everyone (sc s) = []).
  { destruct (everyone (sc s)) as [|x l] eqn:E; [reflexivity|]. exfalso.
    assert (A : In x (everyone (sc s))) by (rewrite E; left; reflexivity).
    apply (si_alive _ SI) in A. apply (ti_alive _ (reach_tinv _ R)) in A. destruct A as [A B]. apply B, H, A. }
  destruct (mode s) eqn:M; auto.
  - destruct MO as (c & CU). unfold everyone, curl in EV. rewrite CU in EV. discriminate.
  - destruct MO as (c & CU). unfold everyone, curl in EV. rewrite CU in EV. discriminate.
  - rewrite step_main, M. Transparent do_main. unfold do_main. Opaque do_main.
    assert (AC : active (sc s) = false).
    { unfold everyone, parked, curl in EV. destruct (cur (sc s)) eqn:CU; [discriminate|]. cbn in EV.
      apply app_eq_nil in EV. destruct EV as [E1 EV]. apply app_eq_nil in EV. destruct EV as [E2 E3].
      destruct (si_counts _ SI) as [C1 C2 C3]. unfold active. rewrite C1, C2, C3, E1, E2, E3, CU. reflexivity. }
    rewrite AC. reflexivity.
Qed.
(** As long as the runtime has not ended, control is always somewhere: a coroutine
    is running, or the scheduler loop is; and the loop is only left for good when no
    coroutine is alive. When the running coroutine blocks, yields or ends and no
    coroutine is ready, control is back in the loop. *)
Theorem C23_control : forall s, reach s ->
  match mode s with
  | MUser | MRet _ => exists c, cur (sc s) = Some c /\ alive (tr s) c
  | MMain => cur (sc s) = None /\ runners (sc s) = []
  | MDone => forall c, ~ alive (tr s) c
  | _ => True
  end.
Proof.
  intros s R. destruct (reach_full _ R) as [[SI MO] _]. pose proof (reach_tinv _ R) as TI.
  destruct (mode s) eqn:M; cbn in MO; auto.
  - destruct MO as (c & CU). exists c. split; [exact CU|]. apply (ti_alive _ TI). apply (cur_alive _ _ SI CU).
  - destruct MO as (c & CU). exists c. split; [exact CU|]. apply (ti_alive _ TI). apply (cur_alive _ _ SI CU).
  - tauto.
  - intros c [A B]. apply B. eapply C23_returns_only_at_end; eassumption.
Qed.
Theorem C23_back_to_loop : forall s c e, reach s -> cur (sc s) = Some c -> ready_order s = [] ->
  In c (paused (sc (step s e))) \/ In c (exited (tr (step s e))) -> mode (step s e) = MMain.
Proof.
  intros s c e R CU RO.
  destruct (reach_full _ R) as [[SI MO] _]. pose proof (reach_tinv _ R) as TI.
  destruct (cur_alive _ _ SI CU) as [AL _].
  assert (NP : ~ In c (paused (sc s)) /\ ~ In c (exited (tr s))).
  { split; [|apply (ti_alive _ TI) in AL; apply AL]. intros I. pose proof (si_nodup _ SI) as ND.
    unfold everyone, curl, parked in ND. rewrite CU in ND. cbn in ND. inversion ND; subst. apply H1. rewrite !in_app_iff. auto. }
  destruct NP as [NP NE].
  assert (R0 : runners (sc s) = [] /\ yielders (sc s) = []) by (apply app_eq_nil; exact RO). destruct R0 as [R0 Y0].
  destruct (si_counts _ SI) as [C1 C2 C3].
  rewrite R0 in C1. rewrite Y0 in C2. cbn in C1, C2.
  pose (P := fun s' : state => In c (paused (sc s')) \/ In c (exited (tr s')) -> mode s' = MMain).
  change (P (step s e)).
  assert (EX : forall k st' sch md d nw nc t, exited t = [] ->
     exec c k (set_stk st' (sc s)) = (sch, md) -> P (mkst sch d md nw nc (ctl_obs c (nextid (sc s) + 1) k ++ t ++ tr s))).
  { intros k st' sch md d nw nc t T X. unfold P. cbn [sc tr mode]. rewrite !exited_app, exited_ctl, T. cbn [app].
    rewrite in_app_iff.
    assert (B : forall p, ~ In c p -> (In c p \/ In c [] \/ In c (exited (tr s))) -> md = MMain) by (cbn; tauto).
    destruct k; cbn [exec] in X; cbn [ended].
    - inj X. apply B, NP.
    - inj X. apply B, NP.
    - apply sco_switch_frame in X. destruct X as (_ & _ & PA & _). rewrite PA. cbn. apply B, NP.
    - intros _. unfold sco_switch in X. cbn [nrun nyld npsd set_npsd set_paused set_stk] in X. rewrite C1, C2 in X. cbn in X. inj X. reflexivity.
    - destruct (mem id _) eqn:ME; [|inj X; apply B, NP]. apply sco_switch_frame in X. destruct X as (_ & _ & PA & _).
      rewrite PA. unfold wake. rewrite ME. cbn [push_yielder set_nyld set_yielders set_npsd set_paused set_stk paused]. apply B. rewrite remove1_In. tauto.
    - inj X. apply B, NP.
    - intros _. unfold sco_switch in X. destruct tomain; cbn [nrun nyld npsd set_exitreq set_stk] in X; rewrite C1, C2 in X; cbn in X; inj X; reflexivity.
    - inj X. apply B, NP. }
  apply (gstep_preserves (fun z => full z /\ z = s) P); try (intros z [F _]; exact F);
    try (split; [apply reach_full; exact R | reflexivity]).
  - intros s1 c1 o d fs k sch md [_ ->] _ M CU1 U NR E X. rewrite CU in CU1. inj CU1. rewrite (app_assoc (handler_obs _ _ _ _)).
    eapply EX; [|exact X]. rewrite exited_app, exited_handler, exited_call. reflexivity.
  - intros s1 c1 v f rest b d fs k sch md [_ ->] _ M CU1 SK L E X. rewrite CU in CU1. inj CU1. rewrite (app_assoc (handler_obs _ _ _ _)).
    eapply EX; [|exact X]. rewrite exited_app, exited_handler, exited_ret. reflexivity.
  - intros s1 d ws sch md ios [F ->] _ M A K X. exfalso. rewrite M in MO. destruct MO. congruence.
  - intros s1 m [_ ->] _ _ HH. cbn in HH. tauto.
  - intros s1 e1 [_ ->] _ HH _. destruct (env_frame s e1 HH) as (_ & _ & _ & _ & EP). unfold P. rewrite EP.
    destruct (env_tr s e1 HH) as [Q|(y & Q)]; rewrite Q; cbn; tauto.
  - unfold P. tauto.
Qed.

(** non-trivial case: three coroutines, one blocked until the last moment *)
Definition whole_life : list event :=
  [ECall OpStart; ECall (OpSleep 5000); ECall OpStart; ECall OpReturn; ECall OpReturn; EAdv 6000; EMain []; ECall OpReturn].
Example C23_case :
  mode (script whole_life) = MDone /\ started (tr (script whole_life)) = [3; 2; 1] /\
  exited (tr (script whole_life)) = [2; 1; 3].
Proof. vm_compute. auto. Qed.
Example C23_case_before : (* one turn earlier: everybody has ended, the loop has not noticed *)
  exists s, reach s /\ mode s = MMain /\ started (tr s) = [2; 1] /\ exited (tr s) = [1; 2].
Proof.
  exists (run (init g0) [ECall OpStart; ECall OpReturn; ETick true; ETick true; ECall OpReturn; ETick true]).
  split; [exists g0; eexists; split; [exact g0_ok | reflexivity]|]. vm_compute. auto.
Qed.

(* ------------------------------------------------------------------------ *)
(** * Undefined behaviour *)

(** A history can reach undefined behaviour of the C code only by popping a cleanup
    handler that was not pushed, by overflowing the counter of a wait group, or by a
    background job that finishes after its neco_work call is gone. *)
Definition int_ok (n : Z) : Prop := -2147483648 <= n <= 2147483647.

Lemma first_ready_take : forall chs i d ch j, first_ready chs i d = Some (ch, j) -> rclosed (chn d ch) = false -> take ch d <> None.
Proof.
  induction chs as [|c chs IH]; intros i d ch j E RC; cbn in E; [discriminate|].
  destruct (_ || _) eqn:C; [|eapply IH; eassumption].
  inj E. unfold take. unfold emptyq in C. rewrite RC, orb_false_r in C.
  destruct (buf (chn d ch)); [|destruct (popq _ _) as [[?|] ?]; discriminate].
  cbn in C. rewrite orb_false_r in C. unfold popq.
  destruct (q d (QChan ch)); [discriminate|]. cbn in C. destruct (qrecv (chn d ch)); [discriminate|]. discriminate.
Qed.

Ltac noub E :=
  match type of E with
  | copause _ _ _ _ = _ => apply copause_cases in E; destruct E as [(E & _)|(E & _)]; discriminate
  | yfsr _ _ = _ => apply yfsr_cases in E; destruct E as (_ & E & _); discriminate
  | fastunlock _ _ _ = _ => apply fastunlock_cases in E; destruct E as [(_ & E)|(E & _)]; discriminate
  | (_, _, _) = (_, _, _) => inversion E; fail
  | coyield _ _ = _ => unfold coyield in E; inversion E; fail
  | (if ?x then _ else _) = _ => destruct x; noub E
  | context [checkdl ?a ?b ?c ?d] => destruct (checkdl a b c d); noub E
  | context [check_mu ?a ?b] => destruct (check_mu a b); noub E
  | context [check_wg ?a ?b] => destruct (check_wg a b); noub E
  | context [check_cv ?a ?b] => destruct (check_cv a b); noub E
  | context [if ?x then _ else _] => destruct x; noub E
  end.

Lemma send_noub : forall c ch m dl d d' fs, do_send c ch m dl d = (d', fs, CUB) -> False.
Proof.
  intros c ch m dl d d' fs E. unfold do_send in E. destruct (negb _); [noub E|]. destruct (sclosed _); [noub E|].
  destruct (canceled _); [noub E|]. destruct (send_loop _ _ _ _) as [[r|] d1]; noub E.
Qed.
Lemma recv_noub : forall c ch t dl d d' fs, do_recv c ch t dl d = (d', fs, CUB) -> False.
Proof.
  intros c ch t dl d d' fs E. unfold do_recv in E. destruct (negb _); [noub E|]. destruct (rclosed _); [noub E|].
  destruct (canceled _); [noub E|]. destruct (take _ _) as [[[m [r|]] d1]|]; noub E.
Qed.
Lemma select_noub : forall c chs t dl d d' fs, do_select c chs t dl d = (d', fs, CUB) -> False.
Proof.
  intros c chs t dl d d' fs E. unfold do_select in E. destruct (negb _); [noub E|].
  destruct (canceled _); [noub E|]. destruct (first_ready chs 0 d) as [[ch i]|] eqn:FR; [|noub E].
  destruct (rclosed _) eqn:RC; [noub E|]. pose proof (first_ready_take _ _ _ _ _ FR RC) as T.
  destruct (take _ _) as [[[m [r|]] d1]|]; try (noub E). contradiction.
Qed.
Lemma close_noub : forall ch d d' fs, do_close ch d = (d', fs, CUB) -> False.
Proof. intros ch d d' fs E. apply do_close_cases in E. destruct E as [[_ (v & E)]|[E _]]; discriminate. Qed.
Lemma coexit_rest_noub : forall c a d d' fs, coexit_rest c a d = (d', fs, CUB) -> False.
Proof.
  intros c a d d' fs E. unfold coexit_rest in E.
  match type of E with context [gen (cof ?x c)] => set (dd := x) in E end.
  destruct (gen (cof dd c)).
  - destruct (do_close n dd) as [[d1 f1] k1] eqn:C. inversion E; subst. eapply close_noub; exact C.
  - destruct (negb _); noub E.
Qed.
Lemma coexit_async_noub : forall c d d' fs, coexit_async c d = (d', fs, CUB) -> False.
Proof. intros c d d' fs E. unfold coexit_async in E. destruct (cleanups _); [eapply coexit_rest_noub; exact E | discriminate]. Qed.
Lemma cancel_noub : forall c id dl nw d d' fs, do_cancel c id dl nw d = (d', fs, CUB) -> False.
Proof. intros c id dl nw d d' fs E. unfold do_cancel in E. noub E. Qed.
Lemma relock_noub : forall c m r nw d d' fs, cv_relock c m r nw d = (d', fs, CUB) -> False.
Proof.
  intros c m r nw d d' fs E. unfold cv_relock, finish_lock in E. destruct (negb _); [noub E|].
  destruct (mu_trylock _ _ _ _ _ _). noub E.
Qed.

Lemma hcall_ub : forall c o nw d d' fs, hcall c o nw d = (d', fs, CUB) ->
  (exists b, o = OpCleanupPop b /\ cleanups (cof d c) = []) \/
  (exists w n, o = OpWgAdd w n /\ (~ int_ok (wcount (wgx d w) + n) \/ (wrt (wgx d w) = 0 /\ ~ int_ok n))).
Proof.
  intros c o nw d d' fs E. destruct o; cbn [hcall] in E; try (exfalso; noub E; fail).
  - exfalso. unfold do_sleep in E. noub E.
  - exfalso. eapply cancel_noub; exact E.
  - exfalso. unfold do_sigwatch in E. noub E.
  - exfalso. unfold do_sigunwatch in E. noub E.
  - exfalso. unfold do_sigwait in E. noub E.
  - exfalso. unfold do_wait in E. noub E.
  - exfalso. unfold do_chmake in E. destruct (_ || _); [noub E|]. destruct (new_chan _ _). noub E.
  - exfalso. eapply send_noub; exact E.
  - exfalso. unfold do_bcast in E. destruct (negb _); [noub E|]. destruct (sclosed _); [noub E|]. destruct (bcast_loop _ _ _ _ _). noub E.
  - exfalso. eapply recv_noub; exact E.
  - exfalso. eapply recv_noub; exact E.
  - exfalso. eapply close_noub; exact E.
  - exfalso. eapply select_noub; exact E.
  - exfalso. eapply select_noub; exact E.
  - exfalso. unfold do_case in E. noub E.
  - exfalso. unfold do_genyield in E. destruct (gen _); [eapply send_noub; exact E | noub E].
  - exfalso. unfold do_trylock in E. destruct (check_mu _ _). destruct (negb _); [noub E|]. destruct (mu_trylock _ _ _ _ _ _). noub E.
  - exfalso. unfold do_trylock in E. destruct (check_mu _ _). destruct (negb _); [noub E|]. destruct (mu_tryrdlock _ _ _ _ _ _). noub E.
  - exfalso. unfold do_lock, finish_lock in E. destruct (check_mu _ _). destruct (negb _); [noub E|]. destruct (mu_trylock _ _ _ _ _ _). noub E.
  - exfalso. unfold do_lock, finish_lock in E. destruct (check_mu _ _). destruct (negb _); [noub E|]. destruct (mu_tryrdlock _ _ _ _ _ _). noub E.
  - exfalso. unfold do_unlock in E. noub E.
  - exfalso. unfold do_mudestroy in E. noub E.
  - right. exists w, d0. split; [reflexivity|]. unfold do_wgadd in E. destruct (check_wg w d) as [v d1] eqn:CW.
    destruct (negb _) eqn:NV; [noub E|].
    destruct (_ || _) eqn:OV; [|noub E]. unfold int_ok.
    assert (O : ~ int_ok (wcount (wgx d1 w) + d0)).
    { unfold int_ok. apply orb_true_iff in OV. destruct OV as [O|O]; apply Z.ltb_lt in O; lia. }
    unfold check_wg in CW. destruct (wrt (wgx d w) =? 0) eqn:WZ.
    + inj CW. right. apply Z.eqb_eq in WZ. split; [exact WZ|]. unfold wg_init in O. cbn in O. rewrite nupd_eq in O. exact O.
    + destruct (negb _); inj CW; left; exact O.
  - exfalso. unfold do_wgdone in E. destruct (check_wg w d). destruct (negb _); [noub E|]. destruct (_ =? _); [noub E|].
    destruct (negb _); [noub E|]. match type of E with context [match ?x with _ => _ end] => destruct x as [|? [|]] end; noub E.
  - exfalso. unfold do_wgwait in E. noub E.
  - exfalso. unfold do_cvsignal in E. destruct (check_cv v d). destruct (negb _); [noub E|]. destruct (popq _ _) as [[?|] ?]; noub E.
  - exfalso. unfold do_cvbcast in E. noub E.
  - exfalso. unfold do_cvwait in E. noub E.
  - exfalso. unfold do_join in E. noub E.
  - exfalso. unfold do_suspend in E. noub E.
  - exfalso. unfold do_resume in E. noub E.
  - exfalso. unfold do_work, work_submit in E. noub E.
  - left. exists exec. split; [reflexivity|]. unfold do_cleanup_pop in E. destruct (cleanups _); [reflexivity|]. exfalso. noub E.
  - exfalso. eapply coexit_async_noub; exact E.
Qed.
Lemma hret_noub : forall c f v b nw d d' fs, hret c f v b nw d = (d', fs, CUB) -> False.
Proof.
  intros c f v b nw d d' fs E. destruct f; cbn [hret] in E; try (noub E; fail).
  - eapply coexit_rest_noub; exact E.
  - destruct (_ && _); [eapply coexit_async_noub; exact E | noub E].
  - destruct (_ && _); [eapply coexit_async_noub; exact E | noub E].
  - unfold sleep_end in E. noub E.
  - eapply cancel_noub; exact E.
  - unfold sigwait_end in E. noub E.
  - unfold wait_end in E. noub E.
  - unfold send_end in E. noub E.
  - unfold recv_end in E. noub E.
  - unfold select_end in E. noub E.
  - unfold lock_end in E. noub E.
  - unfold wgwait_end in E. noub E.
  - unfold cvwait_unlocked in E. noub E.
  - unfold cvwait_end in E. destruct (checkdl _ _ _ _). eapply relock_noub; exact E.
  - destruct (_ =? _); [noub E|]. destruct (_ && _); [eapply coexit_async_noub; exact E | eapply relock_noub; exact E].
  - unfold join_end in E. noub E.
  - unfold suspend_end in E. noub E.
  - unfold work_submit in E. noub E.
  - eapply coexit_async_noub; exact E.
  - unfold exit_gen in E. noub E.
Qed.

Theorem C21_ub_sources : forall s e, reach s -> mode s <> MUB -> mode (step s e) = MUB ->
  (exists b c, e = ECall (OpCleanupPop b) /\ cur (sc s) = Some c /\ cleanups (cof (dt s) c) = []) \/
  (exists w n, e = ECall (OpWgAdd w n) /\
     (~ int_ok (wcount (wgx (dt s) w) + n) \/ (wrt (wgx (dt s) w) = 0 /\ ~ int_ok n))) \/
  (exists c, e = EWorkDone c /\ In c (inflight (dt s)) /\ forall l, stk (sc s) c <> FWork :: l).
Proof.
  intros s e R NM. destruct (reach_full _ R) as [[SI MO] [B1 B2]].
  assert (XU : forall c k fs rest sch, cur (sc s) = Some c -> (not_final k -> stack_ok (fs ++ rest) = true) ->
     exec c k (set_stk (zupd (stk (sc s)) c (fs ++ rest)) (sc s)) = (sch, MUB) -> k = CUB).
  { intros c k fs rest sch CU SO X. pose proof (exec_inv c k _ _ _ (xinv_of c k _ _ SI CU SO) X) as (_ & _ & H).
    destruct k; try reflexivity; exfalso; (apply H; [discriminate | reflexivity]). }
  destruct e.
  - rewrite step_call. destruct (mode s) eqn:M; try congruence. destruct (cur (sc s)) as [c|] eqn:CU; [|congruence].
    assert (G : o <> OpReturn -> mode (do_call s c o) = MUB ->
      (exists b c0, ECall o = ECall (OpCleanupPop b) /\ Some c = Some c0 /\ cleanups (cof (dt s) c0) = []) \/
      (exists w n, ECall o = ECall (OpWgAdd w n) /\
       (~ int_ok (wcount (wgx (dt s) w) + n) \/ (wrt (wgx (dt s) w) = 0 /\ ~ int_ok n))) \/
      (exists c0, ECall o = EWorkDone c0 /\ In c0 (inflight (dt s)) /\ forall l, stk (sc s) c0 <> FWork :: l)).
    { intros NR. Transparent do_call. unfold do_call, apply_res. Opaque do_call.
      destruct (hcall c o (now s) (dt s)) as [[d fs] k] eqn:E.
      destruct (exec c k _) as [sch md] eqn:X. cbn. intros ->.
      apply XU in X; [|reflexivity|].
      - subst k. apply hcall_ub in E. destruct E as [(b & -> & H)|(w & n & -> & H)]; eauto 10.
      - intros _. apply stack_ok_app. pose proof (si_stack _ SI c (proj1 (cur_alive _ _ SI CU))) as SO.
        destruct (stk (sc s) c) eqn:SK; [discriminate|]. exact SO. }
    destruct o; try (apply G; discriminate). cbn. intros; congruence.
  - rewrite step_tick. destruct (mode s) eqn:M; try congruence. destruct (cur (sc s)) as [c|] eqn:CU; [|congruence].
    destruct (stk (sc s) c) as [|f rest] eqn:SK.
    { exfalso. destruct (cur_alive _ _ SI CU) as [A _]. congruence. }
    Transparent do_tick. unfold do_tick, apply_res. Opaque do_tick.
    destruct (hret c f v b (now s) (dt s)) as [[d fs] k] eqn:E.
    destruct (exec c k _) as [sch md] eqn:X. cbn. intros ->. exfalso.
    apply XU in X; [|reflexivity|].
    + subst k. eapply hret_noub; exact E.
    + intros NF. eapply hret_stack; [exact E | | exact NF]. rewrite <- SK. apply (si_stack _ SI). rewrite SK. discriminate.
  - rewrite step_main. destruct (mode s) eqn:M; try congruence.
    Transparent do_main. unfold do_main. Opaque do_main.
    destruct (negb _); [cbn; congruence|].
    destruct (if 0 <? npsd (sc s) then _ else _) as [[d ws] kill].
    destruct kill as [n|]; [cbn; congruence|].
    destruct (sco_switch true _) as [sch md] eqn:X. cbn. intros ->. exfalso.
    apply sco_switch_inv in X; [|apply wakes_swinv, sinv_main_swinv; [exact SI | apply MO]].
    destruct X as (_ & _ & [X|X]); discriminate.
  - cbn. destruct (_ <? _); cbn; congruence.
  - cbn. destruct (mode s) eqn:M; cbn; try congruence;
      (destruct (_ || _); [congruence|]; destruct (_ =? _); cbn; [destruct (_ =? _); cbn; congruence | congruence]).
  - cbn. destruct (mode s) eqn:M; try congruence;
      (destruct (mem c _) eqn:ME; [|congruence]; apply mem_In in ME;
       destruct (stk (sc s) c) as [|f l] eqn:SK; [intros _; right; right; exists c; split; [reflexivity|]; split; [exact ME | intros; congruence]|];
       destruct f; try (intros _; right; right; exists c; split; [reflexivity|]; split; [exact ME | intros; congruence]); cbn; congruence).
  - cbn. congruence.
  - cbn. destruct (_ =? _); cbn; congruence.
  - cbn. congruence.
  - cbn. destruct (_ =? _); cbn; congruence.
  - cbn. destruct (_ =? _); cbn; congruence.
Qed.

Print Assumptions C20_ids_increase.
Print Assumptions C20_ids_across_runtimes.
Print Assumptions C20_getid.
Print Assumptions C20_starterid.
Print Assumptions C20_one_starter.
Print Assumptions C20_lastid.
Print Assumptions C20_lastid_zero_partial.
Print Assumptions C20_lastid_zero_refuted.
Print Assumptions C21_exactly_one_place.
Print Assumptions C21_counts.
Print Assumptions C21_resume_once.
Print Assumptions C21_ub_sources.
Print Assumptions C22_switch.
Print Assumptions C22_fifo.
Print Assumptions C22_bounded_wait.
Print Assumptions C22_loop_dispatches.
Print Assumptions C22_start_overtakes_refuted.
Print Assumptions C23_returns_only_at_end.
Print Assumptions C23_returns_at_end.
Print Assumptions C23_control.
Print Assumptions C23_back_to_loop.
