(** The scheduler invariant: proved once for any handler result, so it does not
    depend on what the synchronisation primitives do. *)
From Coq Require Import List ZArith Bool Lia Permutation.
From Verif Require Import Util Runtime.
Import ListNotations.
Local Open Scope Z_scope.

Definition curl (s : sched) : list Z := match cur s with Some c => [c] | None => [] end.
Definition parked (s : sched) : list Z := runners s ++ yielders s ++ paused s.
(** every coroutine the scheduler knows *)
Definition everyone (s : sched) : list Z := curl s ++ parked s.

Definition base_frame (f : frame) : bool :=
  match f with FEntry | FExitLoop | FExitGen _ _ | FExitFin _ => true | _ => false end.
(** a live stack ends in a frame that finishes the coroutine *)
Fixpoint stack_ok (l : list frame) : bool :=
  match l with [] => false | [f] => base_frame f | _ :: l => stack_ok l end.

Record counts (s : sched) : Prop := {
  ct_run : nrun s = Z.of_nat (length (runners s));
  ct_yld : nyld s = Z.of_nat (length (yielders s));
  ct_psd : npsd s = Z.of_nat (length (paused s)) }.

Record sinv (s : sched) : Prop := {
  si_counts : counts s;
  si_nodup : NoDup (everyone s);
  si_alive : forall c, In c (everyone s) <-> stk s c <> [];
  si_stack : forall c, stk s c <> [] -> stack_ok (stk s c) = true;
  si_ids : forall c, stk s c <> [] -> c <= nextid s }.

Definition mode_ok (s : sched) (m : emode) : Prop :=
  match m with
  | MUser | MRet _ => exists c, cur s = Some c
  | MMain => cur s = None /\ runners s = [] /\ exitreq s = false
  | MDone => everyone s = []
  | _ => True
  end.

Lemma stack_ok_nonnil : forall l, stack_ok l = true -> l <> [].
Proof. destruct l; [discriminate | congruence]. Qed.

Lemma stack_ok_app : forall a b, stack_ok b = true -> stack_ok (a ++ b) = true.
Proof.
  induction a as [|f a IH]; intros b H; [exact H|].
  cbn [app stack_ok]. specialize (IH b H).
  destruct (a ++ b) eqn:E; [discriminate IH | exact IH].
Qed.

Lemma mem_In : forall x l, mem x l = true <-> In x l.
Proof.
  intros x l. unfold mem. rewrite existsb_exists. split.
  - intros (y & Hy & E). apply Z.eqb_eq in E. subst. exact Hy.
  - intros H. exists x. split; [exact H | apply Z.eqb_refl].
Qed.
Lemma mem_In_false : forall x l, mem x l = false <-> ~ In x l.
Proof.
  intros x l. rewrite <- mem_In. destruct (mem x l); split; congruence.
Qed.

Lemma remove1_In : forall x l y, In y (remove1 x l) <-> In y l /\ y <> x.
Proof.
  intros x l y. unfold remove1. rewrite filter_In. split.
  - intros [H E]. split; [exact H|]. intros ->. rewrite Z.eqb_refl in E. discriminate.
  - intros [H N]. split; [exact H|]. destruct (Z.eqb_spec x y); [congruence | reflexivity].
Qed.
Lemma remove1_notin : forall x l, ~ In x l -> remove1 x l = l.
Proof.
  intros x l. unfold remove1. induction l as [|y l IH]; intros H; [reflexivity|].
  cbn. destruct (Z.eqb_spec x y) as [->|N].
  - exfalso. apply H. left. reflexivity.
  - cbn. rewrite IH; [reflexivity|]. intros I. apply H. right. exact I.
Qed.
Lemma remove1_perm : forall x l, NoDup l -> In x l -> Permutation l (x :: remove1 x l).
Proof.
  intros x l. induction l as [|y l IH]; intros ND I; [contradiction|].
  inversion ND as [|? ? N1 N2]; subst. unfold remove1; cbn.
  destruct (Z.eqb_spec x y) as [->|N]; cbn.
  - fold (remove1 y l). rewrite remove1_notin by exact N1. reflexivity.
  - fold (remove1 x l). destruct I as [->|I]; [congruence|].
    rewrite perm_swap. apply perm_skip. apply IH; assumption.
Qed.
Lemma remove1_NoDup : forall x l, NoDup l -> NoDup (remove1 x l).
Proof. intros. apply NoDup_filter. assumption. Qed.

(** ** sco_switch *)

(** what holds when the running coroutine has been put somewhere (or is gone) and
    a switch is due *)
Record swinv (s : sched) : Prop := {
  sw_counts : counts s;
  sw_nodup : NoDup (parked s);
  sw_alive : forall c, In c (parked s) <-> stk s c <> [];
  sw_stack : forall c, stk s c <> [] -> stack_ok (stk s c) = true;
  sw_ids : forall c, stk s c <> [] -> c <= nextid s }.

Lemma sco_switch_inv : forall fm s s' m,
  swinv s -> sco_switch fm s = (s', m) ->
  sinv s' /\ mode_ok s' m /\ (m = MMain \/ m = MRet 0).
Proof.
  intros fm s s' m [[C1 C2 C3] ND AL ST ID] E. unfold sco_switch in E.
  destruct (nrun s =? 0) eqn:R0; cbn [andb] in E.
  - apply Z.eqb_eq in R0. rewrite C1 in R0.
    assert (RN : runners s = []) by (destruct (runners s); [reflexivity | cbn in R0; lia]).
    destruct ((nyld s =? 0) || exitreq s || negb fm && (0 <? npsd s)) eqn:Y.
    + inversion E; subst. split; [|split; [|left; reflexivity]].
      * split; cbn; auto. split; cbn; assumption.
      * split; cbn; [reflexivity | split; [exact RN | reflexivity]].
    + apply orb_false_iff in Y. destruct Y as [Y _]. apply orb_false_iff in Y. destruct Y as [Y _].
      apply Z.eqb_neq in Y. rewrite C2 in Y.
      cbn in E. destruct (yielders s) as [|c r] eqn:YL; [cbn in Y; lia|].
      inversion E; subst. split; [|split; [|right; reflexivity]].
      * assert (EQ : everyone (set_disp (c :: disp s) (set_cur (Some c)
           (set_nrun (nyld s - 1) (set_runners r
             (set_nyld 0 (set_yielders [] (set_nrun (nyld s) (set_runners (c :: r) s)))))))) = parked s).
        { unfold everyone, parked, curl; cbn. rewrite RN, YL. cbn. reflexivity. }
        split; try (rewrite EQ); cbn [stk nextid set_disp set_cur set_nrun set_runners set_nyld set_yielders]; auto.
        split; cbn; [cbn in C2; lia | lia | exact C3].
      * cbn. exists c. reflexivity.
  - cbn in E. destruct (runners s) as [|c r] eqn:RL.
    + apply Z.eqb_neq in R0. rewrite C1 in R0. cbn in R0. lia.
    + inversion E; subst. split; [|split; [|right; reflexivity]].
      * assert (EQ : everyone (set_disp (c :: disp s) (set_cur (Some c) (set_nrun (nrun s - 1) (set_runners r s)))) = parked s).
        { unfold everyone, parked, curl; cbn. rewrite RL. reflexivity. }
        split; try (rewrite EQ); cbn [stk nextid set_disp set_cur set_nrun set_runners]; auto.
        split; cbn; [cbn in C1; lia | exact C2 | exact C3].
      * cbn. exists c. reflexivity.
Qed.

Lemma sco_switch_frame : forall fm s s' m, sco_switch fm s = (s', m) ->
  stk s' = stk s /\ nextid s' = nextid s /\ paused s' = paused s /\ npsd s' = npsd s.
Proof.
  intros fm s s' m E. unfold sco_switch in E.
  destruct (_ && _); [inversion E; subst; cbn; auto|].
  destruct (nrun s =? 0); cbn in E.
  - destruct (yielders s); inversion E; subst; cbn; auto.
  - destruct (runners s); inversion E; subst; cbn; auto.
Qed.

(** ** wake *)
Lemma wake_perm : forall id s, NoDup (parked s) -> Permutation (parked (wake id s)) (parked s).
Proof.
  intros id s ND. unfold wake. destruct (mem id (paused s)) eqn:M; [|reflexivity].
  apply mem_In in M. unfold parked in *; cbn.
  apply Permutation_app_head.
  assert (NDp : NoDup (paused s)).
  { apply NoDup_app_r in ND. apply NoDup_app_r in ND. exact ND. }
  rewrite <- app_assoc. apply Permutation_app_head. cbn.
  symmetry. apply remove1_perm; assumption.
Qed.
Lemma wake_counts : forall id s, NoDup (parked s) -> counts s -> counts (wake id s).
Proof.
  intros id s ND [C1 C2 C3]. unfold wake. destruct (mem id (paused s)) eqn:M; [|split; assumption].
  apply mem_In in M.
  assert (NDp : NoDup (paused s)).
  { apply NoDup_app_r in ND. apply NoDup_app_r in ND. exact ND. }
  pose proof (Permutation_length (remove1_perm id _ NDp M)) as L. cbn in L.
  split; cbn; [exact C1 | rewrite app_length; cbn; lia | lia].
Qed.
Lemma wake_frame : forall id s,
  stk (wake id s) = stk s /\ nextid (wake id s) = nextid s /\ cur (wake id s) = cur s /\
  runners (wake id s) = runners s /\ nrun (wake id s) = nrun s.
Proof. intros. unfold wake. destruct (mem id (paused s)); cbn; auto. Qed.

Lemma push_yielder_perm : forall c s, Permutation (parked (push_yielder c s)) (c :: parked s).
Proof.
  intros. unfold parked; cbn. rewrite <- app_assoc. cbn.
  rewrite app_assoc. rewrite <- Permutation_middle. rewrite app_assoc. reflexivity.
Qed.

(** ** exec *)

(** Hypothesis on the running coroutine when its handler has just finished. *)
Record xinv (c : Z) (k : ctl) (s : sched) : Prop := {
  x_cur : cur s = Some c;
  x_counts : counts s;
  x_nodup : NoDup (everyone s);
  x_alive : forall x, x <> c -> (In x (everyone s) <-> stk s x <> []);
  x_stack : forall x, x <> c -> stk s x <> [] -> stack_ok (stk s x) = true;
  x_own : (forall b, k <> CFinal b) -> stack_ok (stk s c) = true;
  x_ids : forall x, x <> c -> stk s x <> [] -> x <= nextid s;
  x_id : c <= nextid s }.

Lemma exec_inv : forall c k s s' m,
  xinv c k s -> exec c k s = (s', m) ->
  sinv s' /\ mode_ok s' m /\ (k <> CUB -> m <> MUB).
Proof.
  intros c k s s' m [CU CT ND AL ST OWN IDS ID] E.
  assert (EV : everyone s = c :: parked s) by (unfold everyone, curl; rewrite CU; reflexivity).
  rewrite EV in *.
  inversion ND as [|? ? NI NDP]; subst.
  assert (ALL : (forall b, k <> CFinal b) -> forall x, In x (c :: parked s) <-> stk s x <> []).
  { intros NF x. destruct (Z.eq_dec x c) as [->|N]; [|apply AL; exact N].
    split; [intros _; apply stack_ok_nonnil, OWN, NF | left; reflexivity]. }
  assert (STK : (forall b, k <> CFinal b) -> forall x, stk s x <> [] -> stack_ok (stk s x) = true).
  { intros NF x H. destruct (Z.eq_dec x c) as [->|N]; [apply OWN, NF | apply ST; assumption]. }
  assert (IDA : forall x, stk s x <> [] -> x <= nextid s).
  { intros x H. destruct (Z.eq_dec x c) as [->|N]; [exact ID | apply IDS; assumption]. }
  assert (SW : forall fm p s', swinv p -> sco_switch fm p = (s', m) -> sinv s' /\ mode_ok s' m /\ (k <> CUB -> m <> MUB)).
  { intros fm p s'' W E'. destruct (sco_switch_inv _ _ _ _ W E') as (A & B & D).
    split; [exact A|split; [exact B|]]. intros _. destruct D; subst; discriminate. }
  destruct k as [v| | | |id|g|b|]; cbn [exec] in E.
  - inversion E; subst. split; [|split; [exists c; exact CU | discriminate]].
    split; auto; try (intros x; rewrite EV); try (rewrite EV); auto; try (apply ALL; discriminate).
    apply STK; discriminate.
  - inversion E; subst. split; [|split; [exists c; exact CU | discriminate]].
    split; auto; try (intros x; rewrite EV); try (rewrite EV); auto; try (apply ALL; discriminate).
    apply STK; discriminate.
  - eapply SW; [|exact E]. assert (P : Permutation (parked (push_yielder c s)) (c :: parked s)).
    { apply push_yielder_perm. }
    destruct CT as [C1 C2 C3].
    split; cbn [stk nextid push_yielder set_nyld set_yielders]; auto.
    + split; cbn; [exact C1 | rewrite app_length; cbn; lia | exact C3].
    + apply (Permutation_NoDup (Permutation_sym P)). exact ND.
    + intros x. rewrite <- (ALL ltac:(discriminate)).
      split; intros H; [apply (Permutation_in _ P H) | apply (Permutation_in _ (Permutation_sym P) H)].
    + apply STK; discriminate.
  - eapply SW; [|exact E].
    assert (P : Permutation (parked (set_npsd (npsd s + 1) (set_paused (paused s ++ [c]) s))) (c :: parked s)).
    { unfold parked; cbn. rewrite !app_assoc. rewrite <- Permutation_cons_append. reflexivity. }
    destruct CT as [C1 C2 C3].
    split; cbn [stk nextid set_npsd set_paused]; auto.
    + split; cbn; [exact C1 | exact C2 | rewrite app_length; cbn; lia].
    + apply (Permutation_NoDup (Permutation_sym P)). exact ND.
    + intros x. rewrite <- (ALL ltac:(discriminate)).
      split; intros H; [apply (Permutation_in _ P H) | apply (Permutation_in _ (Permutation_sym P) H)].
    + apply STK; discriminate.
  - destruct (mem id (paused s)) eqn:M.
    + eapply SW; [|exact E].
      pose proof (wake_perm id s NDP) as WP. pose proof (wake_counts id s NDP CT) as WC.
      destruct (wake_frame id s) as (W1 & W2 & W3 & W4 & W5).
      set (w := wake id s) in *.
      assert (P : Permutation (parked (push_yielder c w)) (c :: parked s)).
      { rewrite <- WP. apply push_yielder_perm. }
      destruct WC as [C1 C2 C3].
      split; cbn [stk nextid push_yielder set_nyld set_yielders]; rewrite ?W1, ?W2; auto.
      * split; cbn; [exact C1 | rewrite app_length; cbn; lia | exact C3].
      * apply (Permutation_NoDup (Permutation_sym P)). exact ND.
      * intros x. rewrite <- (ALL ltac:(discriminate)).
        split; intros H; [apply (Permutation_in _ P H) | apply (Permutation_in _ (Permutation_sym P) H)].
      * apply STK; discriminate.
    + inversion E; subst. split; [|split; [exists c; exact CU | discriminate]].
      split; auto; try (intros x; rewrite EV); try (rewrite EV); auto; try (apply ALL; discriminate).
      apply STK; discriminate.
  - inversion E; subst. split; [|split; [eexists; reflexivity | discriminate]].
    set (n := nextid s + 1).
    assert (NN : stk s n = []).
    { destruct (stk s n) eqn:Q; [reflexivity|]. exfalso.
      assert (stk s n <> []) by (rewrite Q; discriminate). apply IDA in H. unfold n in H. lia. }
    assert (P : Permutation ((n :: (runners s ++ [c]) ++ yielders s ++ paused s)) (n :: c :: parked s)).
    { apply perm_skip. unfold parked. rewrite <- app_assoc. cbn. rewrite <- Permutation_middle. reflexivity. }
    destruct CT as [C1 C2 C3].
    split; cbn [stk nextid set_disp set_cur set_stk set_nrun set_runners set_nextid].
    + split; cbn; [rewrite app_length; cbn; lia | exact C2 | exact C3].
    + unfold everyone, curl, parked; cbn. apply (Permutation_NoDup (Permutation_sym P)).
      constructor; [|exact ND]. intros I. apply (ALL ltac:(discriminate)) in I. congruence.
    + intros x. unfold everyone, curl, parked; cbn. unfold zupd.
      destruct (Z.eqb_spec x n) as [->|N].
      * split; [intros _; discriminate | left; reflexivity].
      * rewrite <- (ALL ltac:(discriminate)). split; intros H.
        -- apply (Permutation_in _ P) in H. destruct H; [congruence | exact H].
        -- apply (Permutation_in _ (Permutation_sym P)). right. exact H.
    + intros x. unfold zupd. destruct (Z.eqb_spec x n) as [->|N]; [reflexivity|]. apply STK; discriminate.
    + intros x. unfold zupd. destruct (Z.eqb_spec x n) as [->|N]; [intros _; unfold n; lia|].
      intros H. apply IDA in H. lia.
  - assert (W : swinv (set_stk (zupd (stk s) c []) s)).
    { split; cbn [stk nextid set_stk]; auto.
      - split; destruct CT; cbn; assumption.
      - intros x. unfold parked; cbn. fold (parked s). unfold zupd.
        destruct (Z.eqb_spec x c) as [->|N].
        + split; [intros H; contradiction | congruence].
        + rewrite <- (AL x N). split; [intros H; right; exact H | intros [H|H]; [congruence | exact H]].
      - intros x. unfold zupd. destruct (Z.eqb_spec x c) as [->|N]; [congruence | apply ST; exact N].
      - intros x. unfold zupd. destruct (Z.eqb_spec x c) as [->|N]; [congruence | apply IDA]. }
    eapply SW; [|exact E]. destruct b; [|exact W].
    destruct W as [[C1 C2 C3] W2 W3 W4 W5]. split; auto. split; assumption.
  - inversion E; subst. split; [|split; [exact I | congruence]].
    split; auto; try (intros x; rewrite EV); try (rewrite EV); auto; try (apply ALL; discriminate).
    apply STK; discriminate.
Qed.
