(** Coroutines waiting in neco_chan_select: what the steps of the others do to them. *)
From Coq Require Import List ZArith Bool Lia.
From Verif Require Import AATreeSpec AATreeHist Util Runtime SchedInv StepInv StackShape RuntimeSpec TraceInv Immediate Prims StaticInv Footprint QueueInv OwnInv WaitInv CallInv SpecInv TraceStep Wake Awake DeadlineInv AllInv PausedInv ResultInv JoinInv WaiterInv DldInv CancelInv CancelSt MutexEff MutexTok MutexRt MutexOrd AtCall WgInv ChanShape ChanSpec ChanLists ChanEff ChanQuiet ChanFifo ChanStatic GenInv ChanOrder BlockSpec Handed RecvQ.
Import ListNotations.
Local Open Scope Z_scope.

Definition ccase (y i : Z) (g : nat) (d : dat) : Prop := In (NCase y i) (q d (QChan g)).
Definition same_slot (g : nat) (d d' : dat) : Prop := slot (chn d' g) = slot (chn d g) /\ lok (chn d' g) = lok (chn d g).
(** a step of [c], seen by the selecting coroutines [P] *)
Record slr (c : Z) (P : Z -> Prop) (d d' : dat) : Prop := {
  sr_in : forall y i g, ccase y i g d' -> ccase y i g d;
  sr_co : forall x, x <> c -> P x ->
    (retidx (cof d' x) = retidx (cof d x) /\ (retidx (cof d x) = -1 -> forall i g, ccase x i g d -> ccase x i g d')) \/
    (retidx (cof d x) = -1 /\ exists i g, ccase x i g d /\ retidx (cof d' x) = i);
  sr_slot : forall g, (g < nchan d)%nat -> (forall y i, ccase y i g d -> y <> c /\ P y /\ retidx (cof d y) <> -1) -> same_slot g d d';
  sr_n : (nchan d <= nchan d')%nat }.
Lemma same_slot_refl : forall g d, same_slot g d d. Proof. split; reflexivity. Qed.
Lemma slr_trans : forall c P a b d, slr c P a b -> slr c P b d -> slr c P a d.
Proof.
  intros c P a b d [I1 C1 S1 N1] [I2 C2 S2 N2]. constructor.
  - intros. apply I1, I2. assumption.
  - intros x NX PX. destruct (C1 x NX PX) as [[A1 B1]|(A1 & i & g & A2 & A3)].
    + destruct (C2 x NX PX) as [[D1 E1]|(D1 & i & g & D2 & D3)].
      * left. split; [congruence|]. intros R i g H. apply E1; [congruence|]. apply B1; assumption.
      * right. split; [congruence|]. exists i, g. auto.
    + destruct (C2 x NX PX) as [[D1 E1]|(D1 & j & h & D2 & D3)]; right; (split; [exact A1|]).
      * exists i, g. split; [exact A2 | congruence].
      * exists j, h. auto.
  - intros g LT H. destruct (S1 g LT H) as [Q1 Q2]. destruct (S2 g) as [Q3 Q4]; [lia| |split; congruence].
    intros y i J. apply I1 in J. destruct (H y i J) as (H1 & H2 & H3). split; [exact H1|]. split; [exact H2|]. destruct (C1 y H1 H2) as [[A _]|[A _]]; congruence.
  - lia.
Qed.
(** updates that do not concern selecting coroutines *)
Lemma slr_easy : forall c (P : Z -> Prop) d d', (forall y i g, ccase y i g d' <-> ccase y i g d) -> (forall x, x <> c -> P x -> retidx (cof d' x) = retidx (cof d x)) ->
  (forall g, (g < nchan d)%nat -> same_slot g d d') -> (nchan d <= nchan d')%nat -> slr c P d d'.
Proof.
  intros c P d d' A B C D. constructor; auto.
  - intros. apply A. assumption.
  - intros x NX PX. left. split; [auto|]. intros _ i g H. apply A, H.
Qed.
Lemma slr_refl : forall c P d, slr c P d d. Proof. intros. apply slr_easy; auto; [reflexivity | intros; split; reflexivity]. Qed.
Lemma slr_core : forall c (P : Z -> Prop) d d', core d' = core d -> slr c P d d'.
Proof.
  intros c P d d' H. apply fps_core_q in H. destruct H as (H1 & H2 & H3 & _ & _ & _ & H4 & _). apply slr_easy; unfold ccase, same_slot; rewrite ?H1, ?H2, ?H3, ?H4; auto. reflexivity.
Qed.
Lemma slr_own : forall c P f d, slr c P d (upco c f d).
Proof. intros. apply slr_easy; auto; [reflexivity | intros x NX _; rewrite upco_neq by exact NX; reflexivity | intros; split; reflexivity]. Qed.
Lemma slr_rbuf : forall c P y f d, (forall r, retidx (f r) = retidx r) -> slr c P d (upco y f d).
Proof.
  intros c P y f d H. apply slr_easy; auto; [reflexivity | | intros; split; reflexivity].
  intros x NX _. destruct (Z.eq_dec x y) as [->|N]; [rewrite upco_eq; apply H | rewrite upco_neq by exact N; reflexivity].
Qed.
Lemma slr_rm : forall c P y d, slr c P d (rmq (NCo y) d).
Proof.
  intros. apply slr_easy; auto; [|intros; split; reflexivity]. intros z i g. unfold ccase. rewrite In_rmq. split; [tauto|]. intros H. split; [exact H | discriminate].
Qed.
Lemma slr_push : forall c P k y d, slr c P d (pushq k (NCo y) d).
Proof.
  intros. apply slr_easy; auto; [|intros; split; reflexivity]. intros z i g. unfold ccase. rewrite In_pushq. split.
  - intros [[H _]|[_ D]]; [exact H | discriminate D].
  - intros H. left. split; [exact H | discriminate].
Qed.
Lemma slr_resume : forall c P r d, slr c P d (sched_resume r d).
Proof.
  intros. apply slr_easy; auto; [|intros; split; reflexivity]. intros z i g. unfold ccase. rewrite In_sched_resume. destruct (node_eqb_spec (NCase z i) (NCo r)); [discriminate|].
  cbn. tauto.
Qed.
Lemma slr_ch : forall c P ch f d, (forall r, slot (f r) = slot r /\ lok (f r) = lok r) -> slr c P d (upch ch f d).
Proof.
  intros c P ch f d H. apply slr_easy; auto; [reflexivity|]. intros g _. unfold same_slot. destruct (Nat.eq_dec g ch) as [->|N]; [rewrite upch_eq; apply H | rewrite upch_neq by exact N; split; reflexivity].
Qed.
Lemma slr_setq : forall c P k l d, (forall g, k <> QChan g) -> slr c P d (set_q (qupd (q d) k l) d).
Proof.
  intros c P k l d H. apply slr_easy; auto; [|intros; split; reflexivity]. intros z i g. unfold ccase. cbn. rewrite qupd_neq by (intros E; apply (H g); congruence). reflexivity.
Qed.
Lemma slr_popq : forall c P k d n d', (forall g, k <> QChan g) -> popq k d = (n, d') -> slr c P d d'.
Proof. intros c P k d n d' H E. unfold popq in E. destruct (q d k); injection E as <- <-; [apply slr_refl | apply slr_setq, H]. Qed.
Lemma slr_resume_all : forall c P k n d, (forall g, k <> QChan g) -> slr c P d (resume_all k n d).
Proof.
  intros c P k n. induction n as [|n IH]; intros d H; cbn [resume_all]; [apply slr_refl|]. destruct (popq k d) as [[y|] d1] eqn:E.
  - eapply slr_trans; [eapply slr_popq; eassumption|]. eapply slr_trans; [apply slr_resume | apply IH, H].
  - eapply slr_popq; eassumption.
Qed.
(** the popped node is the head; its coroutine is told, or has been told already *)
Lemma slr_deliver : forall c P ch m n l d, q d (QChan ch) = n :: l -> 
  match deliver ch m n (set_q (qupd (q d) (QChan ch) l) d) with None => slr c P d (set_q (qupd (q d) (QChan ch) l) d) | Some (_, d') => slr c P d d' end.
Proof.
  intros c P ch m n l d Q. set (d1 := set_q (qupd (q d) (QChan ch) l) d).
  assert (IN : forall y i g, ccase y i g d1 -> ccase y i g d).
  { intros y i g. unfold ccase, d1. cbn. destruct (Nat.eq_dec g ch) as [->|N]; [rewrite qupd_eq, Q; right; assumption | rewrite qupd_neq by congruence; auto]. }
  assert (KE : forall y i g, ccase y i g d -> ccase y i g d1 \/ n = NCase y i).
  { intros y i g. unfold ccase, d1. cbn. destruct (Nat.eq_dec g ch) as [->|N]; [rewrite qupd_eq, Q; intros [->|H]; auto | rewrite qupd_neq by congruence; auto]. }
  unfold deliver. destruct n as [r|r i].
  - eapply slr_trans; [|apply slr_rbuf; reflexivity]. apply slr_easy; auto; [|intros; split; reflexivity]. intros y i g. split; [apply IN|]. intros H. destruct (KE _ _ _ H) as [K|K]; [exact K | discriminate K].
  - assert (C1 : cof d1 = cof d) by reflexivity. rewrite C1. destruct (Z.eqb_spec (retidx (cof d r)) (-1)) as [RI|RI]; cbn [negb].
    + constructor; [exact IN | | |reflexivity].
      * intros x NX PX. destruct (Z.eq_dec x r) as [->|N].
        -- right. split; [exact RI|]. exists i, ch. split; [unfold ccase; rewrite Q; left; reflexivity|]. cbn. rewrite zupd_eq. reflexivity.
        -- left. split; [cbn; rewrite zupd_neq by exact N; reflexivity|]. intros _ j g H. destruct (KE _ _ _ H) as [K|K]; [exact K | injection K as -> _; contradiction].
      * intros g LT H. destruct (Nat.eq_dec g ch) as [->|N]; [|split; cbn; rewrite nupd_neq by exact N; reflexivity].
        exfalso. destruct (H r i) as (_ & _ & D); [unfold ccase; rewrite Q; left; reflexivity | contradiction].
    + constructor; [exact IN | | intros; split; reflexivity | reflexivity].
      intros x NX PX. left. split; [reflexivity|]. intros R j g H. destruct (KE _ _ _ H) as [K|K]; [exact K|]. injection K as -> _. contradiction.
Qed.
Lemma slr_send_loop : forall c P ch m n d r d', send_loop ch m n d = (r, d') -> slr c P d d'.
Proof.
  intros c P ch m n. induction n as [|n IH]; intros d r d' E; cbn [send_loop] in E; [injection E as <- <-; apply slr_refl|].
  unfold popq in E. destruct (q d (QChan ch)) as [|y l] eqn:Q; [injection E as <- <-; apply slr_refl|]. pose proof (slr_deliver c P ch m y l d Q) as H.
  destruct (deliver ch m y _) as [[x d2]|]; [injection E as <- <-; exact H | eapply slr_trans; [exact H | eapply IH, E]].
Qed.
Lemma slr_bcast_loop : forall c P ch m n t d r d', bcast_loop ch m n t d = (r, d') -> slr c P d d'.
Proof.
  intros c P ch m n. induction n as [|n IH]; intros t d r d' E; cbn [bcast_loop] in E; [injection E as <- <-; apply slr_refl|].
  unfold popq in E. destruct (q d (QChan ch)) as [|y l] eqn:Q; [injection E as <- <-; apply slr_refl|]. pose proof (slr_deliver c P ch m y l d Q) as H.
  destruct (deliver ch m y _) as [[x d2]|]; [eapply slr_trans; [exact H|]; eapply slr_trans; [apply slr_resume | eapply IH, E] | eapply slr_trans; [exact H | eapply IH, E]].
Qed.
Lemma slr_close_loop : forall c P ch n d, slr c P d (close_loop ch n d).
Proof.
  intros c P ch n. induction n as [|n IH]; intros d; cbn [close_loop]; [apply slr_refl|].
  unfold popq. destruct (q d (QChan ch)) as [|y l] eqn:Q; [apply slr_refl|]. set (d1 := set_q (qupd (q d) (QChan ch) l) d).
  assert (IN : forall y i g, ccase y i g d1 -> ccase y i g d).
  { intros z i g. unfold ccase, d1. cbn. destruct (Nat.eq_dec g ch) as [->|N]; [rewrite qupd_eq, Q; right; assumption | rewrite qupd_neq by congruence; auto]. }
  assert (KE : forall z i g, ccase z i g d -> ccase z i g d1 \/ y = NCase z i).
  { intros z i g. unfold ccase, d1. cbn. destruct (Nat.eq_dec g ch) as [->|N]; [rewrite qupd_eq, Q; intros [->|H]; auto | rewrite qupd_neq by congruence; auto]. }
  destruct y as [r|r i].
  - eapply slr_trans; [|eapply slr_trans; [apply (slr_rbuf c P r (set_cclosed true)); reflexivity | eapply slr_trans; [apply slr_resume | apply IH]]].
    apply slr_easy; auto; [|intros; split; reflexivity]. intros z i g. split; [apply IN|]. intros H. destruct (KE _ _ _ H) as [K|K]; [exact K | discriminate K].
  - assert (C1 : cof d1 = cof d) by reflexivity. rewrite C1. destruct (Z.eqb_spec (retidx (cof d r)) (-1)) as [RI|RI]; cbn [negb]; [eapply slr_trans; [|eapply slr_trans; [apply slr_resume | apply IH]] | eapply slr_trans; [|apply IH]].
    + constructor; [exact IN | | |reflexivity].
      * intros x NX PX. destruct (Z.eq_dec x r) as [->|N].
        -- right. split; [exact RI|]. exists i, ch. split; [unfold ccase; rewrite Q; left; reflexivity|]. cbn. rewrite zupd_eq. reflexivity.
        -- left. split; [cbn; rewrite zupd_neq by exact N; reflexivity|]. intros _ j g H. destruct (KE _ _ _ H) as [K|K]; [exact K | injection K as -> _; contradiction].
      * intros g LT H. destruct (Nat.eq_dec g ch) as [->|N]; [|split; cbn; rewrite nupd_neq by exact N; reflexivity].
        exfalso. destruct (H r i) as (_ & _ & D); [unfold ccase; rewrite Q; left; reflexivity | contradiction].
    + constructor; [exact IN | | intros; split; reflexivity | reflexivity].
      intros x NX PX. left. split; [reflexivity|]. intros R j g H. destruct (KE _ _ _ H) as [K|K]; [exact K|]. injection K as -> _. contradiction.
Qed.
(** senders and select cases are never in one queue *)
Definition selq (d : dat) : Prop := forall y i g, ccase y i g d -> qrecv (chn d g) = true /\ buf (chn d g) = [].
Lemma slr_drained : forall c P ch d, slr c P d (close_if_drained ch d).
Proof. intros. unfold close_if_drained. destruct (_ && _); [apply slr_ch; intros; split; reflexivity | apply slr_refl]. Qed.
Lemma slr_take : forall c P ch d m s d', selq d -> take ch d = Some (m, s, d') -> slr c P d d'.
Proof.
  intros c P ch d m s d' SQ E. unfold take in E.
  assert (POP : forall d0 n l, (forall y i, ~ ccase y i ch d0) -> q d0 (QChan ch) = n :: l -> slr c P d0 (set_q (qupd (q d0) (QChan ch) l) d0)).
  { intros d0 n l NC Q. apply slr_easy; auto; [|intros; split; reflexivity]. intros y i g. unfold ccase. cbn. destruct (Nat.eq_dec g ch) as [->|N]; [|rewrite qupd_neq by congruence; reflexivity].
    rewrite qupd_eq. split; intros H; exfalso; apply (NC y i); unfold ccase; rewrite Q; [right; exact H | rewrite Q in H; exact H]. }
  destruct (buf (chn d ch)) as [|b0 bl] eqn:B.
  - destruct (qrecv (chn d ch)) eqn:QR; [discriminate E|]. unfold popq in E. destruct (q d (QChan ch)) as [|n l] eqn:Q; [discriminate E|]. injection E as <- <- <-.
    eapply slr_trans; [apply (POP d n l); [intros y i H; destruct (SQ _ _ _ H); congruence | exact Q] | apply slr_drained].
  - set (d1 := upch ch (set_buf bl) d) in E. assert (S1 : slr c P d d1) by (apply slr_ch; intros; split; reflexivity). eapply slr_trans; [exact S1|].
    assert (Q1 : q d1 = q d) by reflexivity. unfold popq in E. destruct (q d1 (QChan ch)) as [|n l] eqn:Q; injection E as <- <- <-; [apply slr_drained|].
    eapply slr_trans; [apply (POP d1 n l); [intros y i H; destruct (SQ y i ch); [unfold ccase in *; rewrite <- Q1; exact H | congruence] | exact Q]|].
    eapply slr_trans; [|apply slr_drained]. rewrite <- Q1. apply slr_ch. intros; split; reflexivity.
Qed.
Lemma slr_copause : forall c P dl fs d d' fs' k, copause c dl fs d = (d', fs', k) -> slr c P d d'.
Proof.
  intros c P dl fs d d' fs' k E. unfold copause in E. destruct (_ || _); [inj E; apply slr_refl|].
  destruct (_ <? _); inj E; [|apply slr_own]. eapply slr_trans; [apply (slr_own c P (set_deadline dl)) | apply slr_core; reflexivity].
Qed.
Lemma slr_yfsr : forall c P fs d d' fs' k, yfsr fs d = (d', fs', k) -> slr c P d d'.
Proof. intros c P fs d d' fs' k E. apply yfsr_cases in E. destruct E as (-> & _). apply slr_refl. Qed.
Lemma slr_do_close : forall c P ch d d' fs k, do_close ch d = (d', fs, k) -> slr c P d d'.
Proof.
  intros c P ch d d' fs k E. unfold do_close in E. destruct (negb _); [inj E; apply slr_refl|]. destruct (sclosed _); [inj E; apply slr_refl|].
  eapply slr_trans; [apply (slr_ch c P ch (set_sclosed true)); intros; split; reflexivity|]. set (d1 := upch ch (set_sclosed true) d) in *.
  destruct (_ || _); [inj E; apply slr_refl|]. eapply slr_trans; [apply slr_close_loop|]. eapply slr_trans; [|eapply slr_yfsr, E]. apply slr_ch; intros; split; reflexivity.
Qed.
Lemma slr_do_send : forall c P ch m dl d d' fs k, do_send c ch m dl d = (d', fs, k) -> slr c P d d'.
Proof.
  intros c P ch m dl d d' fs k E. unfold do_send in E. destruct (negb _); [inj E; apply slr_refl|]. destruct (sclosed _); [inj E; apply slr_refl|]. destruct (canceled _); [inj E; apply slr_own|].
  destruct (send_loop ch m (recvn ch d) d) as [[r|] d1] eqn:SL; apply (slr_send_loop c P) in SL; (eapply slr_trans; [exact SL|]); [inj E; apply slr_refl|].
  destruct (_ <? _); [inj E; apply slr_ch; intros; split; reflexivity|].
  eapply slr_trans; [apply (slr_push c P (QChan ch) c)|]. eapply slr_trans; [apply (slr_ch c P ch (set_qrecv false)); intros; split; reflexivity|].
  eapply slr_trans; [apply (slr_own c P (set_smsg m))|]. eapply slr_trans; [|eapply slr_copause, E]. apply slr_core. reflexivity.
Qed.
Lemma slr_do_bcast : forall c P ch m d d' fs k, do_bcast ch m d = (d', fs, k) -> slr c P d d'.
Proof.
  intros c P ch m d d' fs k E. unfold do_bcast in E. destruct (negb _); [inj E; apply slr_refl|]. destruct (sclosed _); [inj E; apply slr_refl|].
  destruct (bcast_loop ch m (recvn ch d) 0 d) as [r d1] eqn:BL. apply (slr_bcast_loop c P) in BL. eapply slr_trans; [exact BL | eapply slr_yfsr, E].
Qed.
Lemma slr_do_recv : forall c P ch t dl d d' fs k, selq d -> do_recv c ch t dl d = (d', fs, k) -> slr c P d d'.
Proof.
  intros c P ch t dl d d' fs k SQ E. unfold do_recv in E. destruct (negb _); [inj E; apply slr_refl|]. destruct (rclosed _); [inj E; apply slr_refl|]. destruct (canceled _); [inj E; apply slr_own|].
  destruct (take ch d) as [[[m [s|]] d1]|] eqn:T.
  - inj E. eapply slr_trans; [eapply slr_take; eassumption | apply slr_own].
  - inj E. eapply slr_trans; [eapply slr_take; eassumption | apply slr_own].
  - destruct t; [inj E; apply slr_refl|]. eapply slr_trans; [apply (slr_push c P (QChan ch) c)|]. eapply slr_trans; [apply (slr_ch c P ch (set_qrecv true)); intros; split; reflexivity|].
    eapply slr_trans; [apply (slr_own c P (set_cclosed false))|]. eapply slr_trans; [|eapply slr_copause, E]. apply slr_core. reflexivity.
Qed.
Lemma slr_coexit_rest : forall c P a d d' fs k, coexit_rest c a d = (d', fs, k) -> slr c P d d'.
Proof.
  intros c P a d d' fs k E. unfold coexit_rest in E. set (d1 := set_allcount _ _) in E. assert (S1 : slr c P d d1) by (apply slr_core; reflexivity).
  eapply slr_trans; [exact S1|]. eapply slr_trans; [apply (slr_resume_all c P (QCancel c) (length (q d1 (QCancel c)))); discriminate|]. set (d2 := resume_all (QCancel c) _ d1) in *.
  eapply slr_trans; [apply (slr_resume_all c P (QJoin c) (length (q d2 (QJoin c)))); discriminate|]. set (d3 := resume_all (QJoin c) _ d2) in *.
  destruct (gen (cof d3 c)); [|destruct (negb _); [eapply slr_yfsr, E | inj E; apply slr_refl]].
  destruct (do_close n d3) as [[d4 fs4] k4] eqn:DC. injection E as <- <- <-. eapply slr_do_close, DC.
Qed.
Lemma slr_coexit_async : forall c P d d' fs k, coexit_async c d = (d', fs, k) -> slr c P d d'.
Proof. intros c P d d' fs k E. unfold coexit_async in E. destruct (cleanups _); [eapply slr_coexit_rest, E | inj E; apply slr_own]. Qed.
(** ** One step *)
(** [x] waits in neco_chan_select *)
Definition selx (s : state) (x : Z) : Prop := exists w k chs dl, at_call s x w k (OpSelect chs dl) /\ In (FSelWait (Z.of_nat (length chs))) w.
Lemma sel_frames : forall o w n, shape o w -> In (FSelWait n) w -> (exists chs dl, o = OpSelect chs dl /\ n = Z.of_nat (length chs)) /\ (w = [FSelWait n] \/ w = [FPause; FSelWait n]).
Proof.
  intros o w n SH IF. inversion SH; subst; try (match goal with H : pz _ _ |- _ => inversion H; subst end); try (match goal with H : yf _ _ |- _ => inversion H; subst end); cbn in IF;
    repeat (destruct IF as [IF|IF]; try discriminate IF; try contradiction); try contradiction; try (injection IF as <-; split; eauto; fail).
Qed.
Lemma fps_case : forall c KP KW d R P d', fps c KP KW d R P d' -> forall x i g, x <> c -> ~ KP (QChan g) -> ccase x i g d -> ccase x i g d'.
Proof.
  intros c KP KW d R P d' F x i g N NK. unfold ccase. induction F; intros I0; auto.
  - apply fps_core_q in H. destruct H as (H & _). rewrite H. auto.
  - apply In_rmq. split; [auto|]. intros <-. cbn in H. congruence.
  - apply In_pushq. left. split; [auto|]. intros <-. cbn in H. congruence.
  - cbn. rewrite qupd_neq by congruence. auto.
  - apply In_sched_resume. destruct (node_eqb_spec (NCase x i) (NCo r)); [discriminate|]. cbn. tauto.
  - cbn. subst f. rewrite qupd_neq by (intros <-; destruct H0). auto.
Qed.
Lemma slr_leave : forall f c P d, slr c P d (leave f c d).
Proof.
  intros f c P d. destruct (leave_chn f c d) as (A & B & C). constructor.
  - intros y i g. apply leave_in.
  - intros x NX PX. left. rewrite B. split; [reflexivity|]. intros _ i g H. unfold ccase in *. assert (J : In (NCase x i) (others c (q (leave f c d) (QChan g)))).
    { rewrite leave_others. unfold others. apply filter_In. split; [exact H|]. cbn. destruct (Z.eqb_spec x c); [contradiction | reflexivity]. }
    unfold others in J. apply filter_In in J. apply J.
  - intros g _ _. unfold same_slot. rewrite A. auto.
  - rewrite C. reflexivity.
Qed.
Lemma slr_fps : forall s c KP KW R P d0 d, reach s -> fps c KP KW d0 R P d -> (forall g, ~ KP (QChan g)) -> (forall g n, ~ KW (QChan g) n) ->
  (forall n k, In n (q d0 k) -> In n (q (dt s) k)) -> slr c (selx s) d0 d.
Proof.
  intros s c KP KW R P d0 d RE FP NK NW SUB. constructor.
  - intros y i g H. destruct (fps_q_in _ _ _ _ _ _ _ FP _ (QChan g) Logic.I H) as [I0|[_ D]]; [exact I0 | destruct (NW _ _ D)].
  - intros x NX (w & k & chs & dl & (st & SX & SH) & IF). left. split; [|intros _ i g; apply (fps_case _ _ _ _ _ _ _ FP x i g NX (NK g))].
    assert (NR : ~ In x R).
    { intros IR. destruct (fps_R _ _ _ _ _ _ _ FP x IR) as [?|(k' & n & K' & PK & NC & IN')]; [contradiction|].
      pose proof (reach_qloc _ RE n k' (popq_waitq _ PK) (SUB _ _ IN')) as M. rewrite NC in M. unfold matched in M. destruct (sel_frames _ _ _ SH IF) as [_ TW].
      assert (exists g, k' = QChan g) as (g & ->) by (destruct TW as [-> | ->]; rewrite SX in M; cbn in M; destruct M as (i & g & _ & _ & ->); eauto). exact (NK g K'). }
    destruct (fps_cof _ _ _ _ _ _ _ FP x NX NR) as [-> | ->]; reflexivity.
  - intros g LT _. unfold same_slot. rewrite (fps_chn _ _ _ _ _ _ _ FP g (NK g) LT). auto.
  - eapply fps_nchan, FP.
Qed.
Lemma reach_selq : forall s, reach s -> selq (dt s).
Proof.
  intros s RE y i g H. assert (QR : qrecv (chn (dt s) g) = true).
  { pose proof (reach_qloc _ RE _ (QChan g) Logic.I H) as M. pose proof (proj2 (reach_chinv _ RE) g _ H) as SD. cbn [node_co] in *. unfold matched in M. unfold sdir in SD.
    destruct (top (stk (sc s) y)) as [|f r]; [destruct M|]. destruct f; try contradiction; try (destruct M as [D _]; discriminate D). injection SD as <-. reflexivity. }
  split; [exact QR|]. apply (ck_recv _ _ (proj1 (proj1 (reach_chinv _ RE)) g)); [intros Q; unfold ccase in H; rewrite Q in H; destruct H | exact QR].
Qed.
(** the channels a call selects on *)
Definition selon (o : op) (g : nat) : Prop := match o with OpSelect chs _ | OpTrySelect chs => In g chs | _ => False end.
(** the same for a step that may itself be a select on [T] *)
Record slw (c : Z) (P : Z -> Prop) (T : nat -> Prop) (d d' : dat) : Prop := {
  sw_in : forall y i g, ccase y i g d' -> ccase y i g d \/ (y = c /\ T g);
  sw_co : forall x, x <> c -> P x ->
    (retidx (cof d' x) = retidx (cof d x) /\ (retidx (cof d x) = -1 -> forall i g, ccase x i g d -> ccase x i g d')) \/
    (retidx (cof d x) = -1 /\ exists i g, ccase x i g d /\ retidx (cof d' x) = i);
  sw_slot : forall g, (g < nchan d)%nat -> ~ T g -> (forall y i, ccase y i g d -> y <> c /\ P y /\ retidx (cof d y) <> -1) -> same_slot g d d';
  sw_n : (nchan d <= nchan d')%nat }.
Lemma slr_slw : forall c P T d d', slr c P d d' -> slw c P T d d'.
Proof. intros c P T d d' [A B C D]. constructor; auto. Qed.
Lemma first_ready_in : forall chs i d ch j, first_ready chs i d = Some (ch, j) -> exists n, nth_error chs n = Some ch /\ j = i + Z.of_nat n.
Proof.
  induction chs as [|g chs IH]; intros i d ch j E; [discriminate E|]. cbn [first_ready] in E. destruct (_ || _ || _); [injection E as <- <-; exists 0%nat; split; [reflexivity | lia]|].
  destruct (IH _ _ _ _ E) as (n & A & B). exists (S n). split; [exact A | lia].
Qed.
Lemma push_cases_eff : forall c chs i d, let d' := push_cases c chs i d in
  (forall y j g, ccase y j g d -> y <> c -> ccase y j g d') /\ (forall y j g, ccase y j g d' -> ccase y j g d \/ (y = c /\ In g chs)) /\
  cof d' = cof d /\ nchan d' = nchan d /\ forall g, same_slot g d d'.
Proof.
  intros c chs. induction chs as [|h chs IH]; intros i d; cbn [push_cases]; [split; [auto|]; split; [auto|]; split; [reflexivity|]; split; [reflexivity|]; intros; split; reflexivity|].
  set (d1 := upch h (set_qrecv true) (pushq (QChan h) (NCase c i) d)). destruct (IH (i + 1) d1) as (A & B & C & D & E).
  assert (S1 : forall g, same_slot g d d1).
  { intros g. unfold same_slot, d1. destruct (Nat.eq_dec g h) as [->|N]; [rewrite upch_eq; split; reflexivity | rewrite upch_neq by exact N; split; reflexivity]. }
  split; [|split; [|split; [|split]]].
  - intros y j g H N. apply A; [|exact N]. unfold ccase, d1. cbn -[pushq]. apply In_pushq. left. split; [exact H|]. intros Q. injection Q as -> _. contradiction.
  - intros y j g H. destruct (B _ _ _ H) as [H1|[-> H1]]; [|right; split; [reflexivity | right; exact H1]]. unfold ccase, d1 in H1. cbn -[pushq] in H1. apply In_pushq in H1.
    destruct H1 as [[H1 _]|[Q1 Q2]]; [left; exact H1 | right; injection Q1 as ->; injection Q2 as -> _; split; [reflexivity | left; reflexivity]].
  - rewrite C. reflexivity.
  - rewrite D. reflexivity.
  - intros g. destruct (E g), (S1 g). split; congruence.
Qed.
Lemma slw_select : forall c P chs t dl d d' fs k, selq d -> do_select c chs t dl d = (d', fs, k) -> slw c P (fun g => In g chs) d d'.
Proof.
  intros c P chs t dl d d' fs k SQ E. unfold do_select in E. destruct (negb _); [inj E; apply slr_slw, slr_refl|]. destruct (canceled _); [inj E; apply slr_slw, slr_own|].
  destruct (first_ready chs 0 d) as [[ch i]|] eqn:FR.
  - destruct (rclosed _); [inj E; apply slr_slw, slr_refl|]. destruct (first_ready_in _ _ _ _ _ FR) as (n & NE & _). apply nth_error_In in NE.
    assert (H : forall m s d1, take ch d = Some (m, s, d1) -> slw c P (fun g => In g chs) d (upch ch (set_slot m) d1)).
    { intros m s d1 T. destruct (slr_take c P _ _ _ _ _ SQ T) as [A B C D]. constructor; cbn; auto.
      intros g LT NI HY. destruct (C g LT HY) as [Q1 Q2]. assert (g <> ch) by congruence. unfold same_slot. cbn. rewrite nupd_neq by assumption. auto. }
    destruct (take ch d) as [[[m [s|]] d1]|] eqn:T; [inj E; eapply H; reflexivity | inj E; eapply H; reflexivity | inj E; apply slr_slw, slr_refl].
  - destruct t; [inj E; apply slr_slw, slr_refl|]. set (d1 := upco c (set_retidx (-1)) d) in E. pose proof (push_cases_eff c chs 0 d1) as (A & B & C & D & F). set (d2 := push_cases c chs 0 d1) in *.
    assert (S3 : slr c P d2 d') by (eapply slr_trans; [|eapply slr_copause, E]; apply slr_core; reflexivity). destruct S3 as [I3 C3 S3 N3].
    assert (Q1 : q d1 = q d) by reflexivity.
    constructor.
    + intros y i g H. apply I3, B in H. exact H.
    + intros x NX PX. destruct (C3 x NX PX) as [[R1 K1]|(R1 & i & g & K1 & K2)].
      * left. rewrite R1, C. unfold d1. rewrite upco_neq by exact NX. split; [reflexivity|]. intros R i g H. apply K1; [rewrite C; unfold d1; rewrite upco_neq by exact NX; exact R|]. apply A; [exact H | exact NX].
      * right. rewrite C in R1. unfold d1 in R1. rewrite upco_neq in R1 by exact NX. split; [exact R1|]. exists i, g. destruct (B _ _ _ K1) as [K3|[-> _]]; [auto | contradiction].
    + intros g LT NI HY. destruct (F g) as [F1 F2]. destruct (S3 g) as [G1 G2]; [rewrite D; exact LT | |split; [rewrite G1, F1 | rewrite G2, F2]; reflexivity].
      intros y i H. destruct (B _ _ _ H) as [H1|[_ H1]]; [|contradiction]. destruct (HY y i H1) as (H2 & H3 & H4). split; [exact H2|]. split; [exact H3|]. rewrite C. unfold d1. rewrite upco_neq by exact H2. exact H4.
    + rewrite D in N3. exact N3.
Qed.
Lemma hcall_slw : forall s c o d fs k, reach s -> hcall c o (now s) (dt s) = (d, fs, k) -> slw c (selx s) (selon o) (dt s) d.
Proof.
  intros s c o d fs k RE E. pose proof (reach_selq _ RE) as SQ.
  assert (NK : (forall g, ~ kcall c (dt s) o (QChan g)) -> (forall g, ~ wcall c (dt s) o (QChan g)) -> slw c (selx s) (selon o) (dt s) d).
  { intros N1 N2. destruct (hcall_fp _ _ _ _ _ _ _ (ncalls s) (stk (sc s) c) E) as (R & P & FP & _). apply slr_slw. eapply (slr_fps _ _ _ _ _ _ _ _ RE FP); [exact N1 | | auto]. cbn. intros g n [_ H]. exact (N2 g H). }
  destruct o; try (apply NK; intros g H; cbn in H; try contradiction; try discriminate H; try (destruct H; discriminate); fail); cbn [hcall] in E.
  - eapply slr_slw, slr_do_send, E.
  - eapply slr_slw, slr_do_bcast, E.
  - eapply slr_slw, slr_do_recv; eassumption.
  - eapply slr_slw, slr_do_recv; eassumption.
  - eapply slr_slw, slr_do_close, E.
  - eapply slw_select; eassumption.
  - eapply slw_select; eassumption.
  - unfold do_case in E. destruct (negb _); [inj E; apply slr_slw, slr_refl|]. destruct (negb _); [inj E; apply slr_slw, slr_refl|]. inj E. apply slr_slw, slr_own.
  - unfold do_genyield in E. destruct (gen _); [eapply slr_slw, slr_do_send, E | inj E; apply slr_slw, slr_refl].
  - eapply slr_slw, slr_coexit_async, E.
Qed.
Definition selret (f : frame) (g : nat) : Prop := match f with FSelRecv ch _ => g = ch | _ => False end.
Definition isx (f : frame) : bool := match f with FEntry | FApi _ _ | FCoyield | FExitLoop | FCvRelock _ _ => true | _ => false end.
Lemma hret_slr0 : forall s c f v b d fs k rest, reach s -> isx f = false -> (forall ch i, f <> FSelRecv ch i) -> hret c f v b (now s) (dt s) = (d, fs, k) ->
  stk (sc s) c = f :: rest -> slr c (selx s) (dt s) d /\ (forall g, (g < nchan (dt s))%nat -> same_slot g (dt s) d).
Proof.
  intros s c f v b d fs k rest RE NX NS E SK. destruct (hret_fp _ _ _ _ _ _ _ _ _ rest E) as (R & P & FP & _).
  assert (N1 : forall g, ~ kret c (dt s) f (QChan g)) by (intros g H; destruct f; cbn in NX, H; try discriminate NX; try contradiction; try discriminate H; exact (NS _ _ eq_refl)). split.
  - eapply slr_trans; [apply (slr_leave f)|]. eapply (slr_fps _ _ _ _ _ _ _ _ RE FP); [exact N1 | | intros n kk; apply leave_in]. cbn. intros g n [_ H]. destruct f; cbn in H; try contradiction; discriminate H.
  - intros g LT. destruct (leave_chn f c (dt s)) as (A & B & C). unfold same_slot. rewrite (fps_chn _ _ _ _ _ _ _ FP g (N1 g)) by (rewrite C; exact LT). rewrite A. auto.
Qed.
Lemma hret_slrx : forall s c f v b d fs k, reach s -> isx f = true -> hret c f v b (now s) (dt s) = (d, fs, k) -> slr c (selx s) (dt s) d.
Proof.
  intros s c f v b d fs k RE NX E. destruct f; try discriminate NX; cbn [hret] in E.
  - eapply slr_coexit_rest, E.
  - destruct (_ && _); [eapply slr_coexit_async, E | inj E; apply slr_refl].
  - destruct (_ && _); [eapply slr_coexit_async, E | inj E; apply slr_refl].
  - destruct (v =? OK); [inj E; apply slr_refl|]. destruct (_ && _); [eapply slr_coexit_async, E|].
    destruct (fh_cv_relock c (fun k => k = QMu m) (fun k n => k = QMu m) _ _ _ _ _ _ _ (fun _ => False) eq_refl (fun _ => eq_refl) E) as (R & P & FP & _). eapply (slr_fps _ _ _ _ _ _ _ _ RE FP); [discriminate | discriminate | auto].
  - eapply slr_coexit_async, E.
Qed.
Lemma hret_slw : forall s c f v b d fs k rest, reach s -> hret c f v b (now s) (dt s) = (d, fs, k) -> stk (sc s) c = f :: rest -> slw c (selx s) (selret f) (dt s) d.
Proof.
  intros s c f v b d fs k rest RE E SK. destruct (isx f) eqn:X; [eapply slr_slw, hret_slrx; eassumption|].
  destruct f; try (eapply slr_slw, hret_slr0; [eassumption | exact X | discriminate | exact E | exact SK]; fail). cbn [hret] in E. inj E. constructor; cbn; auto.
  intros g LT NI _. unfold same_slot. cbn. rewrite nupd_neq by congruence. auto.
Qed.
(** ** A coroutine whose select has been decided is about to be resumed *)
Definition ri (x : Z) (d d' : dat) : Prop := retidx (cof d' x) = retidx (cof d x) \/ In (NCo x) (q d' QRes).
Definition rk (x : Z) (d d' : dat) : Prop := In (NCo x) (q d QRes) -> In (NCo x) (q d' QRes).
Lemma ri_trans : forall x a b c, ri x a b -> rk x b c -> ri x b c -> ri x a c.
Proof. intros x a b c [A|A] K [B|B]; unfold ri; auto. left. congruence. Qed.
Lemma ri_same : forall x d d', retidx (cof d' x) = retidx (cof d x) -> ri x d d'. Proof. left. assumption. Qed.
Lemma deliver_other : forall ch m n d r d' x, deliver ch m n d = Some (r, d') -> x <> r -> retidx (cof d' x) = retidx (cof d x).
Proof. intros ch m [y|y i] d r d' x E N; cbn [deliver] in E; [|destruct (negb _); [discriminate E|]]; injection E as <- <-; cbn; rewrite zupd_neq by exact N; reflexivity. Qed.
Lemma deliver_q : forall ch m n d r d', deliver ch m n d = Some (r, d') -> q d' = q d.
Proof. intros ch m [y|y i] d r d' E; cbn [deliver] in E; [|destruct (negb _); [discriminate E|]]; injection E as <- <-; reflexivity. Qed.
Lemma send_loop_ri : forall ch m n d r d' x, send_loop ch m n d = (r, d') -> r <> Some x -> retidx (cof d' x) = retidx (cof d x).
Proof.
  intros ch m n. induction n as [|n IH]; intros d r d' x E N; cbn [send_loop] in E; [injection E as <- <-; reflexivity|].
  unfold popq in E. destruct (q d (QChan ch)) as [|y l]; [injection E as <- <-; reflexivity|]. destruct (deliver ch m y _) as [[z d2]|] eqn:D; [|apply (IH _ _ _ x E N)].
  injection E as <- <-. rewrite (deliver_other _ _ _ _ _ _ x D) by congruence. reflexivity.
Qed.
Lemma rk_resume : forall x r d, rk x d (sched_resume r d).
Proof. intros x r d H. apply In_sched_resume. destruct (Z.eq_dec x r) as [->|N]; [auto|]. left. split; [exact H | congruence]. Qed.
Lemma bcast_loop_ri : forall ch m n t d r d' x, bcast_loop ch m n t d = (r, d') -> rk x d d' /\ ri x d d'.
Proof.
  intros ch m n. induction n as [|n IH]; intros t d r d' x E; cbn [bcast_loop] in E; [injection E as <- <-; split; [intros H; exact H | left; reflexivity]|].
  unfold popq in E. destruct (q d (QChan ch)) as [|y l]; [injection E as <- <-; split; [intros H; exact H | left; reflexivity]|]. destruct (deliver ch m y _) as [[z d2]|] eqn:D; [|exact (IH _ _ _ _ x E)].
  destruct (IH _ _ _ _ x E) as [A B]. assert (K : rk x d (sched_resume z d2)).
  { intros H. apply rk_resume. rewrite (deliver_q _ _ _ _ _ _ D). exact H. }
  split; [intros H; apply A, K, H|]. eapply ri_trans; [|exact A | exact B]. destruct (Z.eq_dec x z) as [->|N]; [right; apply In_sched_resume; auto|].
  left. cbn -[sched_resume]. change (cof (sched_resume z d2)) with (cof d2). rewrite (deliver_other _ _ _ _ _ _ x D N). reflexivity.
Qed.
Lemma close_loop_ri : forall ch n d x, rk x d (close_loop ch n d) /\ ri x d (close_loop ch n d).
Proof.
  intros ch n. induction n as [|n IH]; intros d x; cbn [close_loop]; [split; [intros H; exact H | left; reflexivity]|].
  unfold popq. destruct (q d (QChan ch)) as [|y l]; [split; [intros H; exact H | left; reflexivity]|]. set (d1 := set_q _ d).
  assert (K1 : rk x d d1) by (intros H; exact H).
  assert (G : forall z d2, q d2 = q d1 -> (x <> z -> retidx (cof d2 x) = retidx (cof d x)) -> rk x d (close_loop ch n (sched_resume z d2)) /\ ri x d (close_loop ch n (sched_resume z d2))).
  { intros z d2 Q H. destruct (IH (sched_resume z d2) x) as [A B]. split.
    - intros J. apply A, rk_resume. rewrite Q. apply K1, J.
    - eapply ri_trans; [|exact A | exact B]. destruct (Z.eq_dec x z) as [->|N]; [right; apply In_sched_resume; auto | left; exact (H N)]. }
  destruct y as [z|z i].
  - apply G; [reflexivity|]. intros N. cbn. rewrite zupd_neq by exact N. reflexivity.
  - destruct (negb _); [destruct (IH d1 x) as [A B]; split; [intros J; apply A, K1, J | exact B]|]. apply G; [reflexivity|]. intros N. cbn. rewrite zupd_neq by exact N. reflexivity.
Qed.
Lemma copause_cof : forall c dl fs d d' fs' k x, copause c dl fs d = (d', fs', k) -> x <> c -> cof d' x = cof d x.
Proof. intros c dl fs d d' fs' k x E N. unfold copause in E. destruct (_ || _); [inj E; reflexivity|]. destruct (_ <? _); inj E; cbn; rewrite zupd_neq by exact N; reflexivity. Qed.
Lemma take_cof : forall ch d m s d', take ch d = Some (m, s, d') -> cof d' = cof d.
Proof.
  intros ch d m s d' E. unfold take, popq, close_if_drained in E. destruct (buf _); [destruct (qrecv _); [discriminate E|]|]; cbn [q upch set_chn] in E; destruct (q d (QChan ch)); try discriminate E; injection E as <- <- <-;
    match goal with |- cof (if ?b then _ else _) = _ => destruct b end; reflexivity.
Qed.
Lemma do_close_ri : forall ch d d' fs k x, do_close ch d = (d', fs, k) -> ri x d d'.
Proof.
  intros ch d d' fs k x E. unfold do_close in E. destruct (negb _); [inj E; left; reflexivity|]. destruct (sclosed _); [inj E; left; reflexivity|]. set (d1 := upch ch (set_sclosed true) d) in *.
  destruct (_ || _); [inj E; left; reflexivity|]. apply yfsr_cases in E. destruct E as (-> & _). destruct (close_loop_ri ch (length (q d1 (QChan ch))) d1 x) as [_ B]. exact B.
Qed.
Lemma do_send_ri : forall c ch m dl d d' fs k x, x <> c -> do_send c ch m dl d = (d', fs, k) -> ri x d d' \/ k = CResume x.
Proof.
  intros c ch m dl d d' fs k x NX E. unfold do_send in E. destruct (negb _); [inj E; left; left; reflexivity|]. destruct (sclosed _); [inj E; left; left; reflexivity|].
  destruct (canceled _); [inj E; left; left; rewrite upco_neq by exact NX; reflexivity|]. destruct (send_loop ch m (recvn ch d) d) as [[r|] d1] eqn:SL.
  - inj E. destruct (Z.eq_dec r x) as [->|N]; [auto|]. left; left. eapply send_loop_ri; [exact SL | congruence].
  - pose proof (send_loop_ri _ _ _ _ _ _ x SL ltac:(discriminate)) as H. left; left. destruct (_ <? _); [inj E; exact H|]. rewrite (copause_cof _ _ _ _ _ _ _ x E NX). cbn -[pushq]. rewrite zupd_neq by exact NX. exact H.
Qed.
Lemma resume_all_cof : forall k n d, cof (resume_all k n d) = cof d.
Proof. intros k n. induction n as [|n IH]; intros d; cbn [resume_all]; [reflexivity|]. unfold popq. destruct (q d k); [reflexivity|]. rewrite IH. reflexivity. Qed.
Lemma coexit_async_ri : forall c d d' fs k x, x <> c -> coexit_async c d = (d', fs, k) -> ri x d d'.
Proof.
  intros c d d' fs k x NX E. unfold coexit_async in E. destruct (cleanups _); [|inj E; left; rewrite upco_neq by exact NX; reflexivity].
  unfold coexit_rest in E. set (d1 := set_allcount _ _) in E. set (d2 := resume_all (QCancel c) _ d1) in E. set (d3 := resume_all (QJoin c) _ d2) in E.
  assert (C3 : cof d3 = cof d) by (unfold d3, d2; rewrite !resume_all_cof; reflexivity). destruct (gen (cof d3 c)).
  - destruct (do_close n d3) as [[d4 fs4] k4] eqn:DC. injection E as <- <- <-. apply (do_close_ri _ _ _ _ _ x) in DC. unfold ri in *. rewrite <- C3. exact DC.
  - left. destruct (negb _); [apply yfsr_cases in E; destruct E as (-> & _) | inj E]; rewrite C3; reflexivity.
Qed.
Lemma coexit_rest_ri : forall c a d d' fs k x, coexit_rest c a d = (d', fs, k) -> ri x d d'.
Proof.
  intros c a d d' fs k x E. unfold coexit_rest in E. set (d1 := set_allcount _ _) in E. set (d2 := resume_all (QCancel c) _ d1) in E. set (d3 := resume_all (QJoin c) _ d2) in E.
  assert (C3 : cof d3 = cof d) by (unfold d3, d2; rewrite !resume_all_cof; reflexivity). destruct (gen (cof d3 c)).
  - destruct (do_close n d3) as [[d4 fs4] k4] eqn:DC. injection E as <- <- <-. apply (do_close_ri _ _ _ _ _ x) in DC. unfold ri in *. rewrite <- C3. exact DC.
  - left. destruct (negb _); [apply yfsr_cases in E; destruct E as (-> & _) | inj E]; rewrite C3; reflexivity.
Qed.
Lemma ri_fps : forall s c KP KW R P d0 d x, reach s -> fps c KP KW d0 R P d -> (forall g, ~ KP (QChan g)) -> (forall g n, ~ KW (QChan g) n) ->
  (forall n k, In n (q d0 k) -> In n (q (dt s) k)) -> cof d0 = cof (dt s) -> x <> c -> selx s x -> ri x (dt s) d.
Proof.
  intros s c KP KW R P d0 d x RE FP NK NW SUB C0 NX SX. destruct (slr_fps _ _ _ _ _ _ _ _ RE FP NK NW SUB) as [_ H _ _]. destruct (H x NX SX) as [[A _]|(A & i & g & B & D)]; [left; congruence|].
  left. exfalso. destruct SX as (w & k & chs & dl & (st & SX & SH) & IF). 
  assert (NR : ~ In x R).
  { intros IR. destruct (fps_R _ _ _ _ _ _ _ FP x IR) as [?|(k' & n & K' & PK & NC & IN')]; [contradiction|].
    pose proof (reach_qloc _ RE n k' (popq_waitq _ PK) (SUB _ _ IN')) as M. rewrite NC in M. unfold matched in M. destruct (sel_frames _ _ _ SH IF) as [_ TW].
    assert (exists g, k' = QChan g) as (g' & ->) by (destruct TW as [-> | ->]; rewrite SX in M; cbn in M; destruct M as (i' & g' & _ & _ & ->); eauto). exact (NK g' K'). }
  pose proof (reach_qloc _ RE (NCase x i) (QChan g) Logic.I (SUB _ _ B)) as M. cbn in M. unfold matched in M. destruct (sel_frames _ _ _ SH IF) as [_ TW].
  assert (0 <= i) by (destruct TW as [-> | ->]; rewrite SX in M; cbn in M; destruct M as (j & g' & E & _); injection E as ->; lia).
  destruct (fps_cof _ _ _ _ _ _ _ FP x NX NR) as [Q|Q]; rewrite Q in D; cbn in D; lia.
Qed.
Lemma hcall_ri : forall s c o d fs k x, reach s -> hcall c o (now s) (dt s) = (d, fs, k) -> x <> c -> selx s x -> ri x (dt s) d \/ k = CResume x.
Proof.
  intros s c o d fs k x RE E NX SX.
  assert (NK : (forall g, ~ kcall c (dt s) o (QChan g)) -> (forall g, ~ wcall c (dt s) o (QChan g)) -> ri x (dt s) d).
  { intros N1 N2. destruct (hcall_fp _ _ _ _ _ _ _ (ncalls s) (stk (sc s) c) E) as (R & P & FP & _). eapply (ri_fps _ _ _ _ _ _ _ _ _ RE FP); auto. cbn. intros g n [_ H]. exact (N2 g H). }
  assert (RCV : forall ch t dl, do_recv c ch t dl (dt s) = (d, fs, k) -> ri x (dt s) d).
  { clear E NK. intros ch t dl E. left. unfold do_recv in E. destruct (negb _); [inj E; reflexivity|]. destruct (rclosed _); [inj E; reflexivity|]. destruct (canceled _); [inj E; rewrite upco_neq by exact NX; reflexivity|].
    destruct (take ch (dt s)) as [[[m [y|]] d1]|] eqn:T; [inj E; rewrite upco_neq, (take_cof _ _ _ _ _ T) by exact NX; reflexivity..|]. destruct t; [inj E; reflexivity|].
    rewrite (copause_cof _ _ _ _ _ _ _ x E NX). cbn -[pushq]. rewrite zupd_neq by exact NX. reflexivity. }
  assert (SEL : forall chs t dl, do_select c chs t dl (dt s) = (d, fs, k) -> ri x (dt s) d).
  { clear E NK RCV. intros chs t dl E. left. unfold do_select in E. destruct (negb _); [inj E; reflexivity|]. destruct (canceled _); [inj E; rewrite upco_neq by exact NX; reflexivity|].
    destruct (first_ready chs 0 (dt s)) as [[ch i]|].
    - destruct (rclosed _); [inj E; reflexivity|]. destruct (take ch (dt s)) as [[[m [y|]] d1]|] eqn:T; [inj E; cbn; rewrite (take_cof _ _ _ _ _ T); reflexivity..|inj E; reflexivity].
    - destruct t; [inj E; reflexivity|]. set (d1 := upco c (set_retidx (-1)) (dt s)) in E. pose proof (push_cases_eff c chs 0 d1) as (_ & _ & C & _). cbn zeta in C.
      rewrite (copause_cof _ _ _ _ _ _ _ x E NX). cbn -[push_cases]. rewrite C. unfold d1. rewrite upco_neq by exact NX. reflexivity. }
  destruct o; try (left; apply NK; intros g H; cbn in H; try contradiction; try discriminate H; try (destruct H; discriminate); fail); cbn [hcall] in E.
  - eapply do_send_ri; eassumption.
  - left. unfold do_bcast in E. destruct (negb _); [inj E; left; reflexivity|]. destruct (sclosed _); [inj E; left; reflexivity|].
    destruct (bcast_loop ch m (recvn ch (dt s)) 0 (dt s)) as [r d1] eqn:BL. apply yfsr_cases in E. destruct E as (-> & _). eapply bcast_loop_ri, BL.
  - left. eapply RCV, E.
  - left. eapply RCV, E.
  - left. eapply do_close_ri, E.
  - left. eapply SEL, E.
  - left. eapply SEL, E.
  - left; left. unfold do_case in E. destruct (negb _); [inj E; reflexivity|]. destruct (negb _); inj E; [reflexivity|]. rewrite upco_neq by exact NX. reflexivity.
  - unfold do_genyield in E. destruct (gen _); [eapply do_send_ri; eassumption | inj E; left; left; reflexivity].
  - left. eapply coexit_async_ri; eassumption.
Qed.
Lemma hret_ri : forall s c f v b d fs k x rest, reach s -> hret c f v b (now s) (dt s) = (d, fs, k) -> stk (sc s) c = f :: rest -> x <> c -> selx s x -> ri x (dt s) d.
Proof.
  intros s c f v b d fs k x rest RE E SK NX SX. destruct (isx f) eqn:IX.
  - destruct f; try discriminate IX; cbn [hret] in E.
    + eapply coexit_rest_ri, E.
    + destruct (_ && _); [eapply coexit_async_ri; eassumption | inj E; left; reflexivity].
    + destruct (_ && _); [eapply coexit_async_ri; eassumption | inj E; left; reflexivity].
    + destruct (v =? OK); [inj E; left; reflexivity|]. destruct (_ && _); [eapply coexit_async_ri; eassumption|].
      destruct (fh_cv_relock c (fun k => k = QMu m) (fun k n => k = QMu m) _ _ _ _ _ _ _ (fun _ => False) eq_refl (fun _ => eq_refl) E) as (R & P & FP & _). eapply (ri_fps _ _ _ _ _ _ _ _ _ RE FP); auto; discriminate.
    + eapply coexit_async_ri; eassumption.
  - destruct (hret_fp _ _ _ _ _ _ _ _ _ rest E) as (R & P & FP & _).
    assert (G : (forall ch i, f <> FSelRecv ch i) -> ri x (dt s) d).
    { intros NS. eapply (ri_fps _ _ _ _ _ _ _ _ _ RE FP); auto; [| |intros n kk; apply leave_in | apply leave_cof].
      - intros g H; destruct f; cbn in IX, H; try discriminate IX; try contradiction; try discriminate H; exact (NS _ _ eq_refl).
      - cbn. intros g n [_ H]. destruct f; cbn in H; try contradiction; discriminate H. }
    destruct f; try (apply G; discriminate). cbn [hret] in E. inj E. left. reflexivity.
Qed.
