(** C59: the stack of an ended coroutine is given back exactly once, at once,
    and never while somebody runs on it. *)
From Coq Require Import List Bool PeanoNat Lia.
From Verif Require Import Llco LlcoLemmas.
Import ListNotations.

(** llco_current names the coroutine on whose stack the caller runs, and is
    NULL exactly on the thread's own stack. *)
Theorem C59_current : forall ops, md (run ops) = Ok ->
  current (run ops) = match phys (run ops) with Thread => None | Co n => Some (Co n) end.
Proof.
  intros ops M. destruct (run_good ops M) as (_ & _ & C & _). unfold current.
  destruct C as [->|[-> ->]]; [|reflexivity]. destruct (phys (run ops)); reflexivity.
Qed.

(** A start runs the new coroutine at once, with the descriptor it was given. *)
Theorem C59_starts : forall ops d final,
  md (run (ops ++ [OStart d true final])) = Ok ->
  exists n l, phys (run (ops ++ [OStart d true final])) = Co n /\
    log (run (ops ++ [OStart d true final])) = EUser (Co n) :: EStart n d :: l.
Proof.
  intros ops d final. unfold run. rewrite fold_left_app. cbn [fold_left].
  intros M. assert (M0 : md (fold_left step ops init) = Ok).
  { destruct (md (fold_left step ops init)) eqn:E; [reflexivity| | |];
      rewrite step_stuck in M by congruence; congruence. }
  destruct (start_log _ d final (run_good ops M0) M0 M) as (l & E & P). eauto.
Qed.

(** In the history (newest event first): once a coroutine that was started with
    a clean-up function is left for good, the very next thing that happens is
    the call of that function for its stack, on somebody else's stack. *)
Theorem C59_cleaned_at_once : forall ops, md (run ops) = Ok ->
  forall l1 n l2 d, log (run ops) = l1 ++ EFinal n :: l2 ->
  In (EStart n d) l2 -> d_cleanup d <> None ->
  exists l3 p, l1 = l3 ++ [EClean (d_stack d) p] /\ p <> Co n.
Proof.
  intros ops M. destruct (run_good ops M) as (_ & _ & _ & _ & H).
  revert H. generalize (log (run ops)), (live (run ops)), (nxt (run ops)),
    (descs (run ops)). intros l V N D H. clear M ops.
  induction H as [|D N V l p H IH U|D N V l d0 H IH|D N V l m c p H IH I E X
    |D N V l m H IH I E]; intros l1 n l2 d EQ IN DC.
  - destruct l1; discriminate EQ.
  - destruct l1 as [|e l1]; [discriminate EQ|]. injection EQ as <- EQ.
    destruct (IH l1 n l2 d EQ IN DC) as (l3 & q & -> & NE).
    exists (EUser p :: l3), q. split; [reflexivity|exact NE].
  - destruct l1 as [|e l1]; [discriminate EQ|]. injection EQ as <- EQ.
    destruct (IH l1 n l2 d EQ IN DC) as (l3 & q & -> & NE).
    exists (EStart N d0 :: l3), q. split; [reflexivity|exact NE].
  - destruct l1 as [|e l1]; [discriminate EQ|]. injection EQ as <- EQ.
    destruct l1 as [|e l1].
    + injection EQ as -> ->. exists [], p.
      destruct (hist_start _ _ _ _ H n d IN) as [_ ->]. split; [reflexivity|exact X].
    + injection EQ as <- EQ. destruct (IH l1 n l2 d EQ IN DC) as (l3 & q & -> & NE).
      eexists (_ :: _ :: l3), q. split; [reflexivity|exact NE].
  - destruct l1 as [|e l1].
    + injection EQ as -> ->. destruct (hist_start _ _ _ _ H n d IN) as [_ ED].
      rewrite ED in E. contradiction.
    + injection EQ as <- EQ. destruct (IH l1 n l2 d EQ IN DC) as (l3 & q & -> & NE).
      eexists (_ :: l3), q. split; [reflexivity|exact NE].
Qed.

(** And the clean-up function is called at no other time: each call follows
    directly on the end of a coroutine that was started on this stack. *)
Theorem C59_cleaned_only_then : forall ops, md (run ops) = Ok ->
  forall l1 k p l2, log (run ops) = l1 ++ EClean k p :: l2 ->
  exists n d l3, l2 = EFinal n :: l3 /\ In (EStart n d) l3 /\ d_stack d = k /\
    d_cleanup d <> None /\ p <> Co n.
Proof.
  intros ops M. destruct (run_good ops M) as (_ & _ & _ & _ & H).
  revert H. generalize (log (run ops)), (live (run ops)), (nxt (run ops)),
    (descs (run ops)). intros l V N D H. clear M ops.
  induction H as [|D N V l p H IH U|D N V l d0 H IH|D N V l m c p H IH I E X
    |D N V l m H IH I E]; intros l1 k q l2 EQ.
  - destruct l1; discriminate EQ.
  - destruct l1 as [|e l1]; [discriminate EQ|]. injection EQ as <- EQ. eauto.
  - destruct l1 as [|e l1]; [discriminate EQ|]. injection EQ as <- EQ. eauto.
  - destruct l1 as [|e l1].
    + injection EQ as <- <- <-. exists m, (find_desc D m), l.
      destruct (hist_live _ _ _ _ H m I) as (_ & _ & S1).
      split; [reflexivity|]. split; [exact S1|]. split; [reflexivity|].
      split; [rewrite E; discriminate|exact X].
    + injection EQ as <- EQ. destruct l1 as [|e l1]; [discriminate EQ|].
      injection EQ as <- EQ. eauto.
  - destruct l1 as [|e l1]; [discriminate EQ|]. injection EQ as <- EQ. eauto.
Qed.

(** A coroutine is left for good at most once, was started before, and nothing
    of the user runs on its stack afterwards. *)
Theorem C59_final_is_final : forall ops, md (run ops) = Ok ->
  forall l1 n l2, log (run ops) = l1 ++ EFinal n :: l2 ->
  ~ In (EFinal n) l1 /\ ~ In (EFinal n) l2 /\ ~ In (EUser (Co n)) l1 /\
  exists d, In (EStart n d) l2.
Proof.
  intros ops M. destruct (run_good ops M) as (_ & _ & _ & _ & H).
  revert H. generalize (log (run ops)), (live (run ops)), (nxt (run ops)),
    (descs (run ops)). intros l V N D H. clear M ops.
  induction H as [|D N V l p H IH U|D N V l d0 H IH|D N V l m c p H IH I E X
    |D N V l m H IH I E]; intros l1 n l2 EQ.
  - destruct l1; discriminate EQ.
  - destruct l1 as [|e l1]; [discriminate EQ|]. injection EQ as <- EQ.
    destruct (IH l1 n l2 EQ) as (A & B & C & Z).
    split; [intros [Q|Q]; [discriminate Q|auto]|]. split; [exact B|].
    split; [|exact Z]. intros [Q|Q]; [|auto]. injection Q as ->.
    specialize (U n eq_refl). destruct (hist_live _ _ _ _ H n U) as (_ & F & _).
    apply F. rewrite EQ. apply in_or_app. right. left. reflexivity.
  - destruct l1 as [|e l1]; [discriminate EQ|]. injection EQ as <- EQ.
    destruct (IH l1 n l2 EQ) as (A & B & C & Z).
    split; [intros [Q|Q]; [discriminate Q|auto]|]. split; [exact B|].
    split; [|exact Z]. intros [Q|Q]; [discriminate Q|auto].
  - destruct (hist_live _ _ _ _ H m I) as (_ & F & S1).
    destruct l1 as [|e l1]; [discriminate EQ|]. injection EQ as <- EQ.
    destruct l1 as [|e l1].
    + injection EQ as -> ->. split; [intros [Q|[]]; discriminate Q|].
      split; [exact F|]. split; [intros [Q|[]]; discriminate Q|]. eauto.
    + injection EQ as <- EQ. destruct (IH l1 n l2 EQ) as (A & B & C & Z).
      split.
      { intros [Q|[Q|Q]]; [discriminate Q| |auto]. injection Q as ->. apply F.
        rewrite EQ. apply in_or_app. right. left. reflexivity. }
      split; [exact B|]. split; [|exact Z].
      intros [Q|[Q|Q]]; [discriminate Q|discriminate Q|auto].
  - destruct (hist_live _ _ _ _ H m I) as (_ & F & S1).
    destruct l1 as [|e l1].
    + injection EQ as -> ->. split; [intros []|].
      split; [exact F|]. split; [intros []|]. eauto.
    + injection EQ as <- EQ. destruct (IH l1 n l2 EQ) as (A & B & C & Z).
      split.
      { intros [Q|Q]; [|auto]. injection Q as ->. apply F.
        rewrite EQ. apply in_or_app. right. left. reflexivity. }
      split; [exact B|]. split; [|exact Z].
      intros [Q|Q]; [discriminate Q|auto].
Qed.

(** Who hands out stacks only if nobody was started on them since they were
    cleaned up, gets every stack back unused: when a stack is cleaned up, every
    coroutine that was ever started on it has ended. *)
Definition handed_out_ok (l : list ev) : Prop :=
  forall l1 n d l2, l = l1 ++ EStart n d :: l2 ->
  forall l3 n' d' l4, l2 = l3 ++ EStart n' d' :: l4 -> d_stack d' = d_stack d ->
  exists p, In (EClean (d_stack d) p) l3.

Theorem C59_stack_unused_when_cleaned : forall ops, md (run ops) = Ok ->
  handed_out_ok (log (run ops)) ->
  forall l1 k p l2, log (run ops) = l1 ++ EClean k p :: l2 ->
  forall n d, In (EStart n d) l2 -> d_stack d = k -> In (EFinal n) l2.
Proof.
  intros ops M HO.
  assert (K : forall j l1 k p l2, length l2 <= j ->
    log (run ops) = l1 ++ EClean k p :: l2 ->
    forall n d, In (EStart n d) l2 -> d_stack d = k -> In (EFinal n) l2).
  2:{ intros l1 k p l2. apply (K (length l2)). lia. }
  induction j as [|j IH]; intros l1 k p l2 LE EQ n d IN DS.
  { destruct l2; [destruct IN|cbn in LE; lia]. }
  destruct (C59_cleaned_only_then ops M l1 k p l2 EQ)
    as (n1 & d1 & l3 & -> & IN1 & DS1 & _ & _).
  destruct IN as [Q|IN]; [discriminate Q|].
  destruct (Nat.eq_dec n n1) as [->|NE]; [left; reflexivity|]. right.
  apply in_split in IN1 as (a1 & b1 & E1).
  assert (C : In (EStart n d) a1 \/ In (EStart n d) b1).
  { rewrite E1 in IN. apply in_app_or in IN. destruct IN as [IN|[Q|IN]]; auto.
    injection Q as -> _. contradiction. }
  destruct C as [C|C].
  - (* n was started after n1: the stack was cleaned in between, but n1 is left
       for good only afterwards *)
    apply in_split in C as (a2 & b2 & E2).
    destruct (HO (l1 ++ EClean k p :: EFinal n1 :: a2) n d (b2 ++ EStart n1 d1 :: b1))
      with (l3 := b2) (n' := n1) (d' := d1) (l4 := b1) as (q & IQ).
    { rewrite EQ, E1, E2. rewrite <- !app_assoc. reflexivity. }
    { reflexivity. }
    { congruence. }
    apply in_split in IQ as (a3 & b3 & E3).
    (* at this clean-up, n1 had been started and so has ended: contradiction *)
    assert (X : In (EFinal n1) (b3 ++ EStart n1 d1 :: b1)).
    { refine (IH (l1 ++ EClean k p :: EFinal n1 :: a2 ++ EStart n d :: a3)
        (d_stack d) q (b3 ++ EStart n1 d1 :: b1) _ _ n1 d1 _ _).
      - rewrite E1, E2, E3 in LE. cbn in LE.
        repeat (rewrite app_length in LE || cbn in LE).
        rewrite app_length. cbn. lia.
      - rewrite EQ, E1, E2, E3.
        repeat (rewrite <- !app_assoc; cbn [app]). reflexivity.
      - apply in_or_app. right. left. reflexivity.
      - congruence. }
    destruct (C59_final_is_final ops M (l1 ++ [EClean k p]) n1 l3) as (_ & F & _).
    { rewrite EQ, <- app_assoc. reflexivity. }
    exfalso. apply F. rewrite E1, E2, E3. apply in_or_app. left.
    apply in_or_app. right. right. apply in_app_or in X.
    destruct X as [X|X].
    + apply in_or_app. right. right. exact X.
    + exfalso. destruct X as [X|X]; [discriminate X|].
      apply F. rewrite E1. apply in_or_app. right. right. exact X.
  - (* n was started before n1: cleaned in between *)
    apply in_split in C as (a2 & b2 & E2).
    destruct (HO (l1 ++ EClean k p :: EFinal n1 :: a1) n1 d1 b1)
      with (l3 := a2) (n' := n) (d' := d) (l4 := b2) as (q & IQ).
    { rewrite EQ, E1. rewrite <- !app_assoc. reflexivity. }
    { exact E2. }
    { congruence. }
    apply in_split in IQ as (a3 & b3 & E3).
    assert (X : In (EFinal n) (b3 ++ EStart n d :: b2)).
    { refine (IH (l1 ++ EClean k p :: EFinal n1 :: a1 ++ EStart n1 d1 :: a3)
        (d_stack d1) q (b3 ++ EStart n d :: b2) _ _ n d _ _).
      - rewrite E1, E2, E3 in LE. cbn in LE.
        repeat (rewrite app_length in LE || cbn in LE).
        rewrite app_length. cbn. lia.
      - rewrite EQ, E1, E2, E3.
        repeat (rewrite <- !app_assoc; cbn [app]). reflexivity.
      - apply in_or_app. right. left. reflexivity.
      - congruence. }
    rewrite E1, E2, E3. apply in_or_app. right. right.
    rewrite <- app_assoc. apply in_or_app. right. right. exact X.
Qed.

(** No function of llco can be used in a clean-up function: the process is
    aborted.  (Neco's own clean-up function only puts the stack into a pool.) *)
Theorem C59_no_calls_in_cleanup : forall ops n d co,
  md (run ops) = Ok -> phys (run ops) = Co n ->
  In (EStart n d) (log (run ops)) -> d_cleanup d = Some true ->
  co <> Some (Co n) ->
  md (step (run ops) (OSwitch co true)) = Aborted \/
  (* the target has ended already *)
  exists k, co = Some (Co k) /\ ~ In k (live (run ops)).
Proof.
  intros ops n d co M P IN DC NE.
  exact (no_calls (run ops) n d co (run_good ops M) M P IN DC NE).
Qed.

(** The thread starts a coroutine on stack 7, which starts a second one on stack
    8; that one returns to the first for good, the first to the thread; the
    thread starts a third one on stack 8 again. *)
Definition ex_ops : list op :=
  [ OStart (mkd 7 (Some false)) true false;
    OStart (mkd 8 (Some false)) true false;
    OSwitch (Some (Co 0)) true;
    OStart (mkd 8 (Some false)) true false;
    OSwitch (Some (Co 0)) false;
    OSwitch None true ].

Example C59_example :
  md (run ex_ops) = Ok /\ phys (run ex_ops) = Thread /\
  log (run ex_ops) =
    [EUser Thread; EClean 7 Thread; EFinal 0;
     EUser (Co 0);
     EUser (Co 2); EStart 2 (mkd 8 (Some false));
     EUser (Co 0); EClean 8 (Co 0); EFinal 1;
     EUser (Co 1); EStart 1 (mkd 8 (Some false));
     EUser (Co 0); EStart 0 (mkd 7 (Some false))] /\
  live (run ex_ops) = [2].
Proof. repeat split; vm_compute; reflexivity. Qed.

(** Stack 8 is handed out twice, but cleaned up in between. *)
Example C59_handed_out_example : handed_out_ok (log (run ex_ops)).
Proof.
  destruct C59_example as (_ & _ & -> & _). intros l1 n d l2 E l3 n' d' l4 E' DS.
  repeat (destruct l1 as [|? l1]; cbn in E;
    [first [discriminate E | injection E as <- <- <-]
    |first [discriminate E | injection E as _ E]]);
  repeat (destruct l3 as [|? l3]; cbn in E';
    [first [discriminate E' | injection E' as <- <- <-]
    |first [discriminate E' | injection E' as <- E']]);
  try discriminate DS;
  try (eexists; cbn; tauto).
Qed.

(** A clean-up function that calls llco. *)
Example C59_abort_example :
  let ops := [OStart (mkd 7 (Some true)) true false] in
  md (run ops) = Ok /\ phys (run ops) = Co 0 /\
  In (EStart 0 (mkd 7 (Some true))) (log (run ops)) /\
  md (run (ops ++ [OSwitch None true])) = Aborted.
Proof. cbn zeta. repeat split; vm_compute; tauto. Qed.

Print Assumptions C59_current.
Print Assumptions C59_starts.
Print Assumptions C59_cleaned_at_once.
Print Assumptions C59_cleaned_only_then.
Print Assumptions C59_final_is_final.
Print Assumptions C59_stack_unused_when_cleaned.
Print Assumptions C59_no_calls_in_cleanup.
