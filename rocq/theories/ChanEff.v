(** What sending, receiving and closing do to a channel on which nobody selects
    and nothing is canceled or timed out. *)
From Coq Require Import List ZArith Bool Lia.
From Verif Require Import Util Runtime SchedInv StepInv StackShape Prims StaticInv Footprint TraceInv QueueInv SpecInv MutexEff MutexRt ChanShape.
Import ListNotations.
Local Open Scope Z_scope.

Definition allnco (l : list node) : Prop := forall n, In n l -> n = NCo (node_co n).
Definition same3 (a b : corec) : Prop := rbuf b = rbuf a /\ smsg b = smsg a /\ cclosed b = cclosed a.
Lemma same3_refl : forall a, same3 a a.
Proof. intros. repeat split. Qed.

(** a channel closed for senders still has something to give, or is closed for
    receivers too *)
Definition clo (ch : nat) (d : dat) : Prop :=
  sclosed (chn d ch) = true -> rclosed (chn d ch) = true \/ buf (chn d ch) <> [] \/ (q d (QChan ch) <> [] /\ qrecv (chn d ch) = false).
(** the channel did not change *)
Definition quietc (ch : nat) (d d' : dat) : Prop :=
  buf (chn d' ch) = buf (chn d ch) /\ q d' (QChan ch) = q d (QChan ch) /\
  (q d (QChan ch) <> [] -> qrecv (chn d' ch) = qrecv (chn d ch)) /\
  rclosed (chn d' ch) = rclosed (chn d ch) /\ (nchan d <= nchan d')%nat /\ (clo ch d -> clo ch d').
Lemma quietc_refl : forall ch d, quietc ch d d.
Proof. intros. repeat split; auto. Qed.

Lemma copause_max : forall c fs d d' fs' k, canceled (cof d c) = false -> deadlined (cof d c) = false -> copause c MAXI fs d = (d', fs', k) ->
  d' = upco c (set_deadline MAXI) d /\ fs' = FPause :: fs /\ k = CPause.
Proof.
  intros c fs d d' fs' k C D E. unfold copause in E. rewrite C, D in E. cbn [orb] in E. rewrite Z.ltb_irrefl in E. injection E as <- <- <-. auto.
Qed.
Lemma push_new : forall k n d, ~ In n (q d k) -> q (pushq k n d) k = q d k ++ [n].
Proof.
  intros k n d N. unfold pushq. cbn. rewrite qupd_eq. f_equal. apply filter_all. intros x IN. destruct (node_eqb_spec n x) as [->|]; [contradiction | reflexivity].
Qed.

Inductive send_out (c : Z) (ch : nat) (m : Z) (d d' : dat) (fs : list frame) (k : ctl) : Prop :=
| so_rej r : d' = d -> fs = [] -> k = CRet r -> r <> OK -> r <> ECANCELED -> send_out c ch m d d' fs k
| so_hand r l : sclosed (chn d ch) = false -> (ch < nchan d)%nat -> q d (QChan ch) = NCo r :: l -> qrecv (chn d ch) = true -> q d' (QChan ch) = l -> chn d' ch = chn d ch ->
    (forall x, x <> r -> cof d' x = cof d x) -> cof d' r = set_rbuf m (cof d r) -> nchan d' = nchan d ->
    fs = [FSendResumed] -> k = CResume r -> send_out c ch m d d' fs k
| so_buf : sclosed (chn d ch) = false -> (ch < nchan d)%nat -> q d (QChan ch) = [] -> q d' (QChan ch) = [] -> Z.of_nat (length (buf (chn d ch))) < bufcap (chn d ch) ->
    buf (chn d' ch) = buf (chn d ch) ++ [m] -> cof d' = cof d -> nchan d' = nchan d -> sclosed (chn d' ch) = false -> fs = [] -> k = CRet OK -> send_out c ch m d d' fs k
| so_wait : sclosed (chn d ch) = false -> (ch < nchan d)%nat -> (q d (QChan ch) = [] \/ qrecv (chn d ch) = false) -> Z.of_nat (length (buf (chn d ch))) = bufcap (chn d ch) ->
    q d' (QChan ch) = q d (QChan ch) ++ [NCo c] -> qrecv (chn d' ch) = false ->
    buf (chn d' ch) = buf (chn d ch) -> (forall x, x <> c -> cof d' x = cof d x) -> smsg (cof d' c) = m -> nchan d' = nchan d -> sclosed (chn d' ch) = false ->
    fs = [FPause; FSendWait ch] -> k = CPause -> send_out c ch m d d' fs k.

Lemma chk_valid : forall ch d, chd d -> negb (chk_chan ch d =? OK) = false -> (ch < nchan d)%nat.
Proof.
  intros ch d (_ & D2 & D3) E. destruct (Nat.lt_ge_cases ch (nchan d)) as [L|L]; [exact L|]. apply D2 in L. apply chk_ok in E; [|exact D3]. lia.
Qed.
Lemma chk_chan_rej : forall ch d, negb (chk_chan ch d =? OK) = true -> chk_chan ch d <> OK /\ chk_chan ch d <> ECANCELED.
Proof.
  intros ch d H. unfold chk_chan in *. destruct (crt (chn d ch) =? 0); [split; discriminate|]. destruct (negb (crt (chn d ch) =? rtid d)); [split; discriminate | discriminate H].
Qed.

(** a wait that a flag left over from before ends at once *)
Definition cut (c : Z) (f : frame) (d d' : dat) (fs : list frame) (k : ctl) : Prop :=
  deadlined (cof d c) = true /\ fs = [f] /\ k = CRet 0 /\ deadlined (cof d' c) = true.
Lemma copause_eff : forall c dl fs d d' fs' k, canceled (cof d c) = false -> copause c dl fs d = (d', fs', k) ->
  (deadlined (cof d c) = true /\ d' = d /\ fs' = fs /\ k = CRet 0) \/
  (fs' = FPause :: fs /\ k = CPause /\ q d' = q d /\ chn d' = chn d /\ nchan d' = nchan d /\ (forall x, x <> c -> cof d' x = cof d x) /\ cof d' c = set_deadline dl (cof d c)).
Proof.
  intros c dl fs d d' fs' k CA E. unfold copause in E. rewrite CA in E. cbn [orb] in E. destruct (deadlined (cof d c)); [injection E as <- <- <-; auto|]. right.
  injection E as <- <- <-. destruct (dl <? MAXI); cbn; unfold upco; cbn; rewrite zupd_eq; (repeat split; auto); intros x N; rewrite zupd_neq by exact N; reflexivity.
Qed.
Lemma send_eff : forall c ch m dl d d' fs k, chd d -> allnco (q d (QChan ch)) -> ~ In (NCo c) (q d (QChan ch)) ->
  canceled (cof d c) = false \/ ~ (fs = [] /\ k = CRet ECANCELED) -> do_send c ch m dl d = (d', fs, k) -> send_out c ch m d d' fs k \/ cut c (FSendWait ch) d d' fs k.
Proof.
  intros c ch m dl d d' fs k D AN NI CAN E. unfold do_send in E.
  destruct (negb (chk_chan ch d =? OK)) eqn:CK; [injection E as <- <- <-; destruct (chk_chan_rej _ _ CK); left; eapply so_rej; eauto|].
  pose proof (chk_valid _ _ D CK) as LT.
  destruct (sclosed (chn d ch)) eqn:SC; [injection E as <- <- <-; left; eapply so_rej; eauto; discriminate|].
  destruct (canceled (cof d c)) eqn:CA; [exfalso; injection E as _ <- <-; destruct CAN as [CAN|CAN]; [discriminate CAN | apply CAN; auto]|]. clear CAN.
  destruct (proj1 D ch) as [K1 K2 K3 K4 K5].
  assert (B : (exists r l, q d (QChan ch) = NCo r :: l /\ qrecv (chn d ch) = true /\ send_loop ch m (recvn ch d) d = (Some r, upco r (set_rbuf m) (set_q (qupd (q d) (QChan ch) l) d))) \/
    ((q d (QChan ch) = [] \/ qrecv (chn d ch) = false) /\ send_loop ch m (recvn ch d) d = (None, d))).
  { unfold recvn. destruct (qrecv (chn d ch)) eqn:QR; [|right; split; [auto|]; reflexivity].
    destruct (q d (QChan ch)) as [|n l] eqn:QQ; [right; split; [auto|]; reflexivity|]. left. pose proof (AN n (or_introl eq_refl)) as EN. destruct n as [r|]; [|discriminate EN]. exists r, l.
    split; [reflexivity|]. split; [reflexivity|]. cbn [length send_loop]. unfold popq. rewrite QQ. reflexivity. }
  destruct B as [(r & l & QQ & QR & SL)|(QQ & SL)]; rewrite SL in E; clear SL.
  - injection E as <- <- <-. left; eapply so_hand; try eassumption; try reflexivity.
    + cbn. apply qupd_eq.
    + intros x N. rewrite upco_neq by exact N. reflexivity.
    + rewrite upco_eq. reflexivity.
  - destruct (Z.ltb_spec (Z.of_nat (length (buf (chn d ch)))) (bufcap (chn d ch))) as [LB|LB].
    + injection E as <- <- <-. assert (QN : q d (QChan ch) = []). { destruct QQ as [QQ|QQ]; [exact QQ|]. destruct (q d (QChan ch)) eqn:Q0; [reflexivity|]. rewrite K3 in LB; [lia | discriminate | exact QQ]. }
      left; eapply so_buf; try eassumption; try reflexivity; cbn; rewrite nupd_eq; [reflexivity | exact SC].
    + apply copause_eff in E; [| cbn; rewrite zupd_eq; exact CA].
      destruct E as [(DE & -> & -> & ->)|(-> & -> & E1 & E2 & E3 & E4 & E5)].
      { right. cbn in DE. rewrite zupd_eq in DE. split; [exact DE|]. split; [reflexivity|]. split; [reflexivity|]. cbn. rewrite zupd_eq. exact DE. }
      left. eapply so_wait; try eassumption; try reflexivity; rewrite ?E1, ?E2, ?E3, ?E5.
      * lia.
      * change (q (pushq (QChan ch) (NCo c) d) (QChan ch) = q d (QChan ch) ++ [NCo c]). apply push_new, NI.
      * cbn. rewrite nupd_eq. reflexivity.
      * cbn. rewrite nupd_eq. reflexivity.
      * intros x N. rewrite E4 by exact N. cbn. rewrite zupd_neq by exact N. reflexivity.
      * cbn. rewrite zupd_eq. reflexivity.
      * cbn. rewrite nupd_eq. exact SC.
Qed.

Inductive recv_out (c : Z) (ch : nat) (d d' : dat) (fs : list frame) (k : ctl) : Prop :=
| ro_rej r : d' = d -> fs = [] -> k = CRet r -> r <> OK -> r <> ECANCELED -> recv_out c ch d d' fs k
| ro_take m l : (ch < nchan d)%nat -> rclosed (chn d ch) = false -> (q d (QChan ch) = [] \/ qrecv (chn d ch) = false) ->
    buf (chn d ch) ++ map (fun n => smsg (cof d (node_co n))) (q d (QChan ch)) = m :: l ->
    buf (chn d' ch) ++ map (fun n => smsg (cof d (node_co n))) (q d' (QChan ch)) = l ->
    (forall x, x <> c -> cof d' x = cof d x) -> (forall n, In n (q d' (QChan ch)) -> In n (q d (QChan ch))) ->
    (q d' (QChan ch) = [] \/ qrecv (chn d' ch) = false) ->
    rbuf (cof d' c) = m -> nchan d' = nchan d -> clo ch d' ->
    ((fs = [] /\ k = CRet OK) \/ (fs = [FRecvResumed] /\ exists y, k = CResume y)) -> recv_out c ch d d' fs k
| ro_wait : (ch < nchan d)%nat -> rclosed (chn d ch) = false -> buf (chn d ch) = [] -> (q d (QChan ch) = [] \/ qrecv (chn d ch) = true) ->
    q d' (QChan ch) = q d (QChan ch) ++ [NCo c] -> qrecv (chn d' ch) = true -> buf (chn d' ch) = [] ->
    (forall x, x <> c -> cof d' x = cof d x) -> cclosed (cof d' c) = false -> nchan d' = nchan d -> sclosed (chn d' ch) = sclosed (chn d ch) ->
    fs = [FPause; FRecvWait ch] -> k = CPause -> recv_out c ch d d' fs k.

Lemma drained : forall ch d, buf (chn (close_if_drained ch d) ch) = buf (chn d ch) /\ q (close_if_drained ch d) = q d /\ cof (close_if_drained ch d) = cof d /\
  nchan (close_if_drained ch d) = nchan d /\ qrecv (chn (close_if_drained ch d) ch) = qrecv (chn d ch).
Proof. intros ch d. unfold close_if_drained. destruct (_ && _ && _); cbn; rewrite ?nupd_eq; auto. Qed.

Lemma drained_clo : forall ch d, q d (QChan ch) = [] \/ qrecv (chn d ch) = false -> clo ch (close_if_drained ch d).
Proof.
  intros ch d H. unfold clo. pose proof (drained ch d) as (-> & -> & _ & _ & ->). unfold close_if_drained, emptyq. destruct (sclosed (chn d ch)) eqn:SC; [|cbn; congruence]. intros _.
  destruct (q d (QChan ch)) eqn:Q; destruct (buf (chn d ch)) eqn:B; cbn; rewrite ?nupd_eq; cbn; auto; right; try (left; discriminate). right. split; [discriminate|]. destruct H as [H|H]; [discriminate H | exact H].
Qed.
Lemma recv_eff : forall c ch try dl d d' fs k, chd d -> ~ In (NCo c) (q d (QChan ch)) ->
  canceled (cof d c) = false \/ ~ (fs = [] /\ k = CRet ECANCELED) -> do_recv c ch try dl d = (d', fs, k) -> recv_out c ch d d' fs k \/ cut c (FRecvWait ch) d d' fs k.
Proof.
  intros c ch try dl d d' fs k D NI CAN E. unfold do_recv in E.
  destruct (negb (chk_chan ch d =? OK)) eqn:CK; [injection E as <- <- <-; destruct (chk_chan_rej _ _ CK); left; eapply ro_rej; eauto|].
  pose proof (chk_valid _ _ D CK) as LT.
  destruct (rclosed (chn d ch)) eqn:RC; [injection E as <- <- <-; left; eapply ro_rej; eauto; discriminate|].
  destruct (canceled (cof d c)) eqn:CA; [exfalso; injection E as _ <- <-; destruct CAN as [CAN|CAN]; [discriminate CAN | apply CAN; auto]|]. clear CAN.
  destruct (proj1 D ch) as [K1 K2 K3 K4 K5].
  destruct (take ch d) as [[[m s] d1]|] eqn:TK.
  - assert (R : exists l, (q d (QChan ch) = [] \/ qrecv (chn d ch) = false) /\
      buf (chn d ch) ++ map (fun n => smsg (cof d (node_co n))) (q d (QChan ch)) = m :: l /\
      buf (chn d1 ch) ++ map (fun n => smsg (cof d (node_co n))) (q d1 (QChan ch)) = l /\ cof d1 = cof d /\ (forall n, In n (q d1 (QChan ch)) -> In n (q d (QChan ch))) /\
      (q d1 (QChan ch) = [] \/ qrecv (chn d1 ch) = false) /\ nchan d1 = nchan d /\ clo ch d1).
    { unfold take in TK. destruct (buf (chn d ch)) as [|m0 b] eqn:BF.
      - destruct (qrecv (chn d ch)) eqn:QR; [discriminate|]. unfold popq in TK. destruct (q d (QChan ch)) as [|n l] eqn:QQ; [discriminate|].
        injection TK as <- _ <-. exists (map (fun n => smsg (cof d (node_co n))) l). rewrite (proj1 (drained _ _)), (proj1 (proj2 (drained _ _))), (proj1 (proj2 (proj2 (drained _ _)))).
        rewrite (proj1 (proj2 (proj2 (proj2 (drained _ _))))), (proj2 (proj2 (proj2 (proj2 (drained _ _))))). cbn. rewrite qupd_eq, BF. repeat split; auto. apply drained_clo. cbn. auto.
      - assert (QD : q d (QChan ch) = [] \/ qrecv (chn d ch) = false).
        { destruct (q d (QChan ch)) eqn:QQ; [auto|]. right. destruct (qrecv (chn d ch)) eqn:QR; [|reflexivity]. discriminate (K2 ltac:(discriminate) eq_refl). }
        unfold popq in TK. cbn [upch q set_chn] in TK. destruct (q d (QChan ch)) as [|n l] eqn:QQ; injection TK as <- _ <-.
        + exists b. rewrite (proj1 (drained _ _)), (proj1 (proj2 (drained _ _))), (proj1 (proj2 (proj2 (drained _ _)))).
          rewrite (proj1 (proj2 (proj2 (proj2 (drained _ _))))). cbn. rewrite nupd_eq, QQ. cbn. rewrite !app_nil_r. repeat split; auto. apply drained_clo. cbn. auto.
        + exists (b ++ map (fun n => smsg (cof d (node_co n))) (n :: l)). rewrite (proj1 (drained _ _)), (proj1 (proj2 (drained _ _))), (proj1 (proj2 (proj2 (drained _ _)))).
          rewrite (proj1 (proj2 (proj2 (proj2 (drained _ _))))), (proj2 (proj2 (proj2 (proj2 (drained _ _))))). cbn. rewrite !nupd_eq, qupd_eq. cbn. rewrite <- app_assoc. cbn.
          assert (QR : qrecv (chn d ch) = false) by (destruct QD as [QD|QD]; [discriminate QD | exact QD]). repeat split; auto. apply drained_clo. cbn. rewrite !nupd_eq. auto. }
    destruct R as (l & R1 & R2 & R3 & R4 & R5 & R6 & R7 & R8).
    destruct s as [s|]; injection E as <- <- <-; (left; eapply (ro_take _ _ _ _ _ _ m l); try eassumption; try (cbn; assumption);
      [intros x N; rewrite upco_neq by exact N; congruence | rewrite upco_eq; reflexivity |]).
    + right. eauto.
    + left. auto.
  - destruct try; [injection E as <- <- <-; left; eapply ro_rej; eauto; discriminate|]. destruct (take_none _ _ D TK) as [BF QD].
    apply copause_eff in E; [| cbn; rewrite zupd_eq; exact CA].
    destruct E as [(DE & -> & -> & ->)|(-> & -> & E1 & E2 & E3 & E4 & E5)].
    { right. cbn in DE. rewrite zupd_eq in DE. split; [exact DE|]. split; [reflexivity|]. split; [reflexivity|]. cbn. rewrite zupd_eq. exact DE. }
    left. eapply ro_wait; try eassumption; try reflexivity; rewrite ?E1, ?E2, ?E3, ?E5.
    + change (q (pushq (QChan ch) (NCo c) d) (QChan ch) = q d (QChan ch) ++ [NCo c]). apply push_new, NI.
    + cbn. rewrite nupd_eq. reflexivity.
    + cbn. rewrite nupd_eq. exact BF.
    + intros x N. rewrite E4 by exact N. cbn. rewrite zupd_neq by exact N. reflexivity.
    + cbn. rewrite !zupd_eq. reflexivity.
    + cbn. rewrite nupd_eq. reflexivity.
Qed.

Inductive close_out (ch : nat) (d d' : dat) : Prop :=
| co_quiet : quietc ch d d' -> cof d' = cof d -> nchan d' = nchan d -> close_out ch d d'
| co_close : (ch < nchan d)%nat -> buf (chn d ch) = [] -> (q d (QChan ch) = [] \/ qrecv (chn d ch) = true) ->
    q d' (QChan ch) = [] -> buf (chn d' ch) = [] -> rclosed (chn d' ch) = true -> nchan d' = nchan d ->
    (forall x, In (NCo x) (q d (QChan ch)) -> cof d' x = set_cclosed true (cof d x)) ->
    (forall x, ~ In (NCo x) (q d (QChan ch)) -> cof d' x = cof d x) -> close_out ch d d'.
Lemma close_loop_eff : forall ch n d, length (q d (QChan ch)) = n -> NoDup (q d (QChan ch)) -> allnco (q d (QChan ch)) ->
  let d' := close_loop ch n d in
  q d' (QChan ch) = [] /\ chn d' = chn d /\ nchan d' = nchan d /\
  (forall x, In (NCo x) (q d (QChan ch)) -> cof d' x = set_cclosed true (cof d x)) /\
  (forall x, ~ In (NCo x) (q d (QChan ch)) -> cof d' x = cof d x).
Proof.
  intros ch n. induction n as [|n IH]; intros d LE ND AN; cbn [close_loop]; cbv zeta.
  - destruct (q d (QChan ch)) as [|y l] eqn:Q; [|discriminate LE]. repeat split; auto. intros x [].
  - unfold popq. destruct (q d (QChan ch)) as [|y l] eqn:Q; [discriminate LE|]. injection LE as LE. apply NoDup_cons_iff in ND. destruct ND as [N1 N2].
    pose proof (AN y (or_introl eq_refl)) as EY. destruct y as [r|]; [|discriminate EY]. clear EY.
    set (d1 := set_q (qupd (q d) (QChan ch) l) d). set (d2 := sched_resume r (upco r (set_cclosed true) d1)).
    assert (Q2 : q d2 (QChan ch) = l).
    { unfold d2. rewrite sched_resume_other; [unfold d1; cbn; apply qupd_eq | discriminate|]. unfold d1. cbn. rewrite qupd_eq. exact N1. }
    assert (C2 : cof d2 = zupd (cof d) r (set_cclosed true (cof d r))) by reflexivity.
    assert (H2 : chn d2 = chn d /\ nchan d2 = nchan d) by (split; reflexivity). destruct H2 as [H2 H3]. clearbody d2.
    destruct (IH d2) as (A & B & C & D & F); [rewrite Q2; exact LE | rewrite Q2; exact N2 | rewrite Q2; intros z IZ; apply AN; right; exact IZ|].
    rewrite Q2, C2 in *. split; [exact A|]. split; [congruence|]. split; [congruence|]. split.
    + intros x [IX|IX].
      * injection IX as ->. rewrite F by exact N1. rewrite zupd_eq. reflexivity.
      * rewrite D by exact IX. rewrite zupd_neq; [reflexivity|]. intros ->. contradiction.
    + intros x IX. rewrite F by (intros I0; apply IX; right; exact I0). rewrite zupd_neq; [reflexivity|]. intros ->. apply IX. left. reflexivity.
Qed.
Lemma close_eff : forall ch d d' fs k, (negb (chk_chan ch d =? OK) = false -> (ch < nchan d)%nat) -> NoDup (q d (QChan ch)) -> allnco (q d (QChan ch)) -> do_close ch d = (d', fs, k) -> close_out ch d d'.
Proof.
  intros ch d d' fs k D ND AN E. unfold do_close in E.
  destruct (negb (chk_chan ch d =? OK)) eqn:CK in E; [injection E as <- <- <-; apply co_quiet; auto; apply quietc_refl|].
  destruct (sclosed (chn d ch)) eqn:SC; [injection E as <- <- <-; apply co_quiet; auto; apply quietc_refl|].
  pose proof (D CK) as LT.
  set (d1 := upch ch (set_sclosed true) d) in E. assert (C1 : chn d1 ch = set_sclosed true (chn d ch)) by (unfold d1; cbn; apply nupd_eq).
  assert (Q1 : q d1 = q d) by reflexivity. assert (F1 : cof d1 = cof d) by reflexivity. assert (N1 : nchan d1 = nchan d) by reflexivity.
  clearbody d1.
  destruct (_ || _) eqn:B.
  - injection E as <- <- <-. apply co_quiet; [|exact F1 | exact N1]. unfold quietc, clo. rewrite C1, Q1, N1. repeat split; auto. intros _ _. right. cbn [buf qrecv set_sclosed].
    rewrite C1 in B. unfold emptyq in B. rewrite Q1 in B. cbn [buf qrecv set_sclosed] in B. destruct (buf (chn d ch)); [|left; discriminate]. cbn in B. right. destruct (q d (QChan ch)); [discriminate B|]. split; [discriminate|]. destruct (qrecv (chn d ch)); [discriminate B | reflexivity].
  - apply orb_false_iff in B. destruct B as [B1 B2]. rewrite C1 in B1, B2. unfold emptyq in B2. rewrite Q1 in B2. cbn [buf qrecv set_sclosed] in B1, B2.
    assert (BF : buf (chn d ch) = []) by (destruct (buf (chn d ch)); [reflexivity | discriminate B1]).
    assert (QD : q d (QChan ch) = [] \/ qrecv (chn d ch) = true) by (destruct (q d (QChan ch)); [auto | right; destruct (qrecv (chn d ch)); [reflexivity | discriminate B2]]).
    apply yfsr_d in E. subst d'. destruct (close_loop_eff ch (length (q d1 (QChan ch))) d1 eq_refl) as (A & B & C & X & Y); [rewrite Q1; exact ND | rewrite Q1; exact AN|].
    set (d2 := close_loop ch _ d1) in *. clearbody d2. rewrite Q1, F1 in *. apply co_close; auto.
    + cbn. rewrite nupd_eq. cbn. rewrite B, C1. exact BF.
    + cbn. rewrite nupd_eq. reflexivity.
    + cbn. congruence.
Qed.
Lemma resume_all_keep : forall k n d ch, k <> QRes -> k <> QChan ch -> (forall y, In y (q d k) -> ~ In (NCo (node_co y)) (q d (QChan ch))) ->
  let d' := resume_all k n d in
  q d' (QChan ch) = q d (QChan ch) /\ cof d' = cof d /\ chn d' = chn d /\ nchan d' = nchan d /\ rtid d' = rtid d /\ (forall k' y, In y (q d' k') -> k' <> QRes -> In y (q d k')).
Proof.
  intros k n. induction n as [|n IH]; intros d ch NR NK H; cbn [resume_all]; cbv zeta; [repeat split; auto|].
  unfold popq. destruct (q d k) as [|y l] eqn:Q; [repeat split; auto|].
  set (d1 := sched_resume (node_co y) (set_q (qupd (q d) k l) d)).
  assert (Q1 : q d1 (QChan ch) = q d (QChan ch)).
  { unfold d1. rewrite sched_resume_other; [cbn; apply qupd_neq; congruence | discriminate|]. cbn. rewrite qupd_neq by congruence. apply H. left. reflexivity. }
  assert (S1 : forall k' z, In z (q d1 k') -> k' <> QRes -> In z (q d k') /\ (k' = k -> In z l)).
  { intros k' z IZ NR0. unfold d1 in IZ. apply In_sched_resume in IZ. destruct IZ as [[IZ _]|[D _]]; [|contradiction]. cbn [q set_q] in IZ. unfold qupd in IZ.
    destruct (qid_eqb_spec k' k) as [->|N]; [split; [rewrite Q; right; exact IZ | intros _; exact IZ] | split; [exact IZ | intros D; contradiction]]. }
  assert (C1 : cof d1 = cof d /\ chn d1 = chn d /\ nchan d1 = nchan d /\ rtid d1 = rtid d) by (repeat split). destruct C1 as (C1 & C2 & C3 & C4). clearbody d1.
  destruct (IH d1 ch NR NK) as (A & B & C & D & D2 & F).
  { intros z IZ. destruct (S1 k z IZ NR) as [_ I2]. rewrite Q1. apply H. right. apply I2. reflexivity. }
  split; [congruence|]. split; [congruence|]. split; [congruence|]. split; [congruence|]. split; [congruence|]. intros k' z IZ N0. apply (S1 k' z); auto.
Qed.
