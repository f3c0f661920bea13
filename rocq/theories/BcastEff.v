(** What a broadcast does to the coroutines queued on the channel. *)
From Coq Require Import List ZArith Bool Lia.
From Verif Require Import Util Runtime SchedInv StepInv StackShape Prims StaticInv Footprint TraceInv QueueInv SpecInv MutexEff MutexRt ChanShape ChanEff.
Import ListNotations.
Local Open Scope Z_scope.

(** no coroutine is queued both as a receiver and as a selector, and the positions of
    the cases are natural numbers *)
Definition sorted_out (l : list node) : Prop := (forall x i, In (NCo x) l -> ~ In (NCase x i) l) /\ forall x i, In (NCase x i) l -> 0 <= i.
Record bcast_did (ch : nat) (m : Z) (d d' : dat) (W : list Z) : Prop := {
  bd_nd : NoDup W;
  bd_q : q d' (QChan ch) = [];
  bd_res : forall x, In x W -> In (NCo x) (q d' QRes);
  bd_res0 : forall n, In n (q d QRes) -> In n (q d' QRes);
  bd_recv : forall x, In (NCo x) (q d (QChan ch)) -> In x W;
  bd_sel : forall x i, In (NCase x i) (q d (QChan ch)) -> retidx (cof d x) = -1 -> In x W;
  bd_who : forall x, In x W -> (In (NCo x) (q d (QChan ch)) /\ cof d' x = set_rbuf m (cof d x)) \/
    (exists j, In (NCase x j) (q d (QChan ch)) /\ retidx (cof d x) = -1 /\ cof d' x = set_retidx j (cof d x));
  bd_other : forall x, ~ In x W -> cof d' x = cof d x;
  bd_slot : chn d' ch = chn d ch \/ (lok (chn d' ch) = true /\ slot (chn d' ch) = m);
  bd_case : forall x j, In x W -> In (NCase x j) (q d (QChan ch)) -> lok (chn d' ch) = true /\ slot (chn d' ch) = m;
  bd_buf : buf (chn d' ch) = buf (chn d ch);
  bd_chn : forall g, g <> ch -> chn d' g = chn d g }.
Lemma sorted_out_tl : forall n l, sorted_out (n :: l) -> sorted_out l.
Proof. intros n l [A B]. split; intros; [intros D; eapply A; right; eassumption | eapply B; right; eassumption]. Qed.
Lemma bcast_loop_eff : forall ch m n t d r d', length (q d (QChan ch)) = n -> NoDup (q d (QChan ch)) -> sorted_out (q d (QChan ch)) ->
  bcast_loop ch m n t d = (r, d') -> exists W, r = t + Z.of_nat (length W) /\ bcast_did ch m d d' W.
Proof.
  intros ch m n. induction n as [|n IH]; intros t d r d' LE ND SO E; cbn [bcast_loop] in E.
  - injection E as <- <-. destruct (q d (QChan ch)) as [|y l] eqn:Q; [|discriminate LE]. exists []. split; [cbn; lia|]. constructor; rewrite ?Q; auto; try solve [intros x [] | intros x i [] | constructor].
  - unfold popq in E. destruct (q d (QChan ch)) as [|y l] eqn:Q; [discriminate LE|]. injection LE as LE. apply NoDup_cons_iff in ND. destruct ND as [N1 N2]. pose proof (sorted_out_tl _ _ SO) as SL.
    set (d1 := set_q (qupd (q d) (QChan ch) l) d) in E. assert (Q1 : q d1 (QChan ch) = l) by (cbn; apply qupd_eq). assert (QR1 : q d1 QRes = q d QRes) by reflexivity.
    destruct (deliver ch m y d1) as [[x d2]|] eqn:D.
    + assert (D2 : q d2 = q d1 /\ x = node_co y /\ cof d2 = zupd (cof d) x (match y with NCo _ => set_rbuf m (cof d x) | NCase _ i => set_retidx i (cof d x) end) /\ (forall j, y = NCase x j -> retidx (cof d x) = -1) /\
        (chn d2 ch = chn d ch \/ (lok (chn d2 ch) = true /\ slot (chn d2 ch) = m)) /\ (forall j, y = NCase x j -> lok (chn d2 ch) = true /\ slot (chn d2 ch) = m) /\ buf (chn d2 ch) = buf (chn d ch) /\ forall g, g <> ch -> chn d2 g = chn d g).
      { unfold deliver in D. destruct y as [z|z i]; [injection D as <- <-; cbn; split; [reflexivity|]; split; [reflexivity|]; split; [reflexivity|]; split; [intros j H; discriminate H|]; split; [auto | split; [intros j H; discriminate H | split; reflexivity]]|].
        destruct (Z.eqb_spec (retidx (cof d1 z)) (-1)) as [RI|]; [|discriminate D]. cbn in D. injection D as <- <-. cbn. split; [reflexivity|]. split; [reflexivity|]. split; [reflexivity|]. split; [intros; exact RI|].
        split; [right; rewrite nupd_eq; split; reflexivity|]. split; [intros _ _; rewrite nupd_eq; split; reflexivity|]. split; [rewrite nupd_eq; reflexivity|]. intros g NG. rewrite nupd_neq by exact NG. reflexivity. }
      destruct D2 as (D2 & -> & C2 & RI & S2 & S3 & BU & G2). set (x := node_co y) in *. set (d3 := sched_resume x d2) in E.
      assert (NX : ~ In (NCo x) l).
      { intros IN. unfold x in *. destruct y as [z|z i]; cbn in *; [contradiction|]. destruct (proj1 SO z i); [right; exact IN | left; reflexivity]. }
      assert (Q3 : q d3 (QChan ch) = l) by (unfold d3; rewrite sched_resume_other; rewrite ?D2, ?Q1; [reflexivity | discriminate | exact NX]).
      assert (C3 : cof d3 = cof d2) by reflexivity. assert (H3 : chn d3 = chn d2) by reflexivity.
      assert (R3 : forall z, In z (q d3 QRes) <-> In z (q d QRes) \/ z = NCo x).
      { intros z. unfold d3. rewrite In_sched_resume, D2, QR1. destruct (node_eqb_spec z (NCo x)); intuition congruence. }
      clearbody d3. destruct (IH (t + 1) d3 r d') as (W & RW & BD); [congruence | congruence | congruence | exact E|].
      assert (XW : ~ In x W).
      { intros IW. destruct (bd_who _ _ _ _ _ BD _ IW) as [[H _]|(j & H & RJ & _)]; rewrite Q3 in H; [contradiction|]. rewrite C3, C2, zupd_eq in RJ. unfold x in *. destruct y as [z|z i]; cbn in *.
        - apply (proj1 SO z j); [left; reflexivity | right; exact H].
        - pose proof (proj2 SO z i (or_introl eq_refl)). lia. }
      assert (CX : cof d' x = cof d3 x) by (apply (bd_other _ _ _ _ _ BD), XW).
      exists (x :: W). split; [cbn [length]; lia|]. constructor; rewrite ?Q.
      * constructor; [exact XW | apply BD].
      * apply BD.
      * intros z [<-|IZ]; [apply (bd_res0 _ _ _ _ _ BD), R3; auto | apply (bd_res _ _ _ _ _ BD), IZ].
      * intros z IZ. apply (bd_res0 _ _ _ _ _ BD), R3. auto.
      * intros z [EZ|IZ]; [left; unfold x; rewrite EZ; reflexivity | right; apply (bd_recv _ _ _ _ _ BD); rewrite Q3; exact IZ].
      * intros z i [EZ|IZ] RZ; [left; unfold x; rewrite EZ; reflexivity|]. destruct (Z.eq_dec z x) as [->|NZ]; [left; reflexivity|]. right. apply (bd_sel _ _ _ _ _ BD z i); [rewrite Q3; exact IZ|]. rewrite C3, C2, zupd_neq by exact NZ. exact RZ.
      * intros z [<-|IZ].
        -- rewrite CX, C3, C2, zupd_eq. unfold x. destruct y as [w|w i]; cbn; [left; auto | right]. exists i. split; [auto|]. split; [apply (RI i); reflexivity | reflexivity].
        -- assert (NZ : z <> x) by (intros ->; contradiction). destruct (bd_who _ _ _ _ _ BD _ IZ) as [[H CZ]|(j & H & RJ & CZ)]; rewrite Q3 in H; rewrite C3, C2, !zupd_neq in * by exact NZ; [left; split; [right; exact H | exact CZ] | right; exists j; split; [right; exact H | auto]].
      * intros z NZ. rewrite (bd_other _ _ _ _ _ BD) by (intros H; apply NZ; right; exact H). rewrite C3, C2, zupd_neq; [reflexivity | intros ->; apply NZ; left; reflexivity].
      * destruct (bd_slot _ _ _ _ _ BD) as [H|H]; [|auto]. rewrite H, H3. exact S2.
      * intros z j [<-|IZ] [EZ|IQ].
        -- destruct (bd_slot _ _ _ _ _ BD) as [H|H]; [rewrite H, H3; apply (S3 j); rewrite EZ; reflexivity | exact H].
        -- assert (YC : exists i, y = NCase x i) by (unfold x in *; destruct y as [w|w i]; cbn in *; [destruct (proj1 SO w j); [left; reflexivity | right; exact IQ] | eauto]). destruct YC as (i & YC).
           destruct (bd_slot _ _ _ _ _ BD) as [H|H]; [rewrite H, H3; apply (S3 i YC) | exact H].
        -- exfalso. apply XW. unfold x. rewrite EZ. exact IZ.
        -- apply (bd_case _ _ _ _ _ BD z j IZ). rewrite Q3. exact IQ.
      * rewrite (bd_buf _ _ _ _ _ BD), H3. exact BU.
      * intros g NG. rewrite (bd_chn _ _ _ _ _ BD) by exact NG. rewrite H3. apply G2, NG.
    + assert (exists z i, y = NCase z i /\ retidx (cof d z) <> -1) as (z & i & -> & RZ).
      { unfold deliver in D. destruct y as [z|z i]; [discriminate D|]. exists z, i. split; [reflexivity|]. destruct (Z.eqb_spec (retidx (cof d1 z)) (-1)) as [RI|RI]; [discriminate D | exact RI]. }
      destruct (IH t d1 r d') as (W & RW & BD); [congruence | congruence | congruence | exact E|]. assert (C1 : cof d1 = cof d) by reflexivity. assert (H1 : chn d1 = chn d) by reflexivity. clearbody d1.
      exists W. split; [exact RW|]. constructor; rewrite ?Q.
      * apply BD.
      * apply BD.
      * apply BD.
      * intros y IY. apply (bd_res0 _ _ _ _ _ BD). rewrite QR1. exact IY.
      * intros y [D1|IY]; [discriminate D1|]. apply (bd_recv _ _ _ _ _ BD). rewrite Q1. exact IY.
      * intros y j [D1|IY] RY; [injection D1 as -> ->; contradiction|]. apply (bd_sel _ _ _ _ _ BD y j); [rewrite Q1; exact IY | rewrite C1; exact RY].
      * intros y IY. destruct (bd_who _ _ _ _ _ BD _ IY) as [[H CZ]|(j & H & RJ & CZ)]; rewrite Q1 in H; rewrite C1 in *; [left; split; [right; exact H | exact CZ] | right; exists j; split; [right; exact H | auto]].
      * intros y NY. rewrite (bd_other _ _ _ _ _ BD) by exact NY. rewrite C1. reflexivity.
      * rewrite <- H1. apply (bd_slot _ _ _ _ _ BD).
      * intros y j IY [D1|IQ]; [|apply (bd_case _ _ _ _ _ BD y j IY); rewrite Q1; exact IQ]. injection D1 as -> ->. exfalso.
        destruct (bd_who _ _ _ _ _ BD _ IY) as [[H _]|(j' & _ & RJ & _)]; [rewrite Q1 in H; destruct (proj1 SO y j); [right; exact H | left; reflexivity] | rewrite C1 in RJ; contradiction].
      * rewrite <- H1. apply (bd_buf _ _ _ _ _ BD).
      * rewrite <- H1. apply (bd_chn _ _ _ _ _ BD).
Qed.

(** What a plain send does when receivers wait. *)
Record send_did (ch : nat) (m : Z) (d d' : dat) (x : Z) : Prop := {
  sd_q : forall k, k <> QChan ch -> q d' k = q d k;
  sd_qsub : forall n, In n (q d' (QChan ch)) -> In n (q d (QChan ch));
  sd_who : (In (NCo x) (q d (QChan ch)) /\ ~ In (NCo x) (q d' (QChan ch)) /\ cof d' x = set_rbuf m (cof d x) /\ chn d' ch = chn d ch) \/
    (exists j, In (NCase x j) (q d (QChan ch)) /\ retidx (cof d x) = -1 /\ cof d' x = set_retidx j (cof d x) /\ lok (chn d' ch) = true /\ slot (chn d' ch) = m);
  sd_other : forall z, z <> x -> cof d' z = cof d z;
  sd_buf : buf (chn d' ch) = buf (chn d ch);
  sd_chn : forall g, g <> ch -> chn d' g = chn d g }.
Lemma send_loop_eff : forall ch m n d r d', length (q d (QChan ch)) = n -> NoDup (q d (QChan ch)) -> send_loop ch m n d = (r, d') ->
  match r with
  | Some x => send_did ch m d d' x
  | None => forall z, In z (q d (QChan ch)) -> exists x j, z = NCase x j /\ retidx (cof d x) <> -1
  end.
Proof.
  intros ch m n. induction n as [|n IH]; intros d r d' LE ND E; cbn [send_loop] in E.
  - injection E as <- <-. destruct (q d (QChan ch)); [intros z [] | discriminate LE].
  - unfold popq in E. destruct (q d (QChan ch)) as [|y l] eqn:Q; [discriminate LE|]. injection LE as LE. apply NoDup_cons_iff in ND. destruct ND as [N1 N2].
    set (d1 := set_q (qupd (q d) (QChan ch) l) d) in E. assert (Q1 : q d1 (QChan ch) = l) by (cbn; apply qupd_eq).
    assert (QO : forall k, k <> QChan ch -> q d1 k = q d k) by (intros k NK; cbn; apply qupd_neq, NK).
    destruct (deliver ch m y d1) as [[x d2]|] eqn:D.
    + injection E as <- <-. unfold deliver in D. destruct y as [z|z i].
      * injection D as <- <-. constructor; auto.
        -- intros k IK. rewrite Q. right. change (In k (q d1 (QChan ch))) in IK. rewrite Q1 in IK. exact IK.
        -- left. rewrite Q. split; [left; reflexivity|]. split; [|split; [cbn; rewrite zupd_eq; reflexivity | reflexivity]]. change (~ In (NCo z) (q d1 (QChan ch))). rewrite Q1. exact N1.
        -- intros z0 NZ. cbn. apply zupd_neq, NZ.
      * destruct (Z.eqb_spec (retidx (cof d1 z)) (-1)) as [RI|]; [|discriminate D]. cbn [negb] in D. injection D as <- <-. constructor.
        -- intros k NK. apply QO, NK.
        -- intros k IK. rewrite Q. right. change (In k (q d1 (QChan ch))) in IK. rewrite Q1 in IK. exact IK.
        -- right. exists i. rewrite Q. split; [left; reflexivity|]. split; [exact RI|]. split; [cbn; rewrite zupd_eq; reflexivity|]. cbn. rewrite nupd_eq. split; reflexivity.
        -- intros z0 NZ. cbn. apply zupd_neq, NZ.
        -- cbn. rewrite nupd_eq. reflexivity.
        -- intros g NG. cbn. rewrite nupd_neq by exact NG. reflexivity.
    + assert (exists z i, y = NCase z i /\ retidx (cof d z) <> -1) as (z & i & -> & RZ).
      { unfold deliver in D. destruct y as [z|z i]; [discriminate D|]. exists z, i. split; [reflexivity|]. destruct (Z.eqb_spec (retidx (cof d1 z)) (-1)) as [RI|RI]; [discriminate D | exact RI]. }
      specialize (IH d1 r d'). rewrite Q1 in IH. specialize (IH LE N2 E). destruct r as [x|].
      * destruct IH as [I1 I2 I3 I4 I5 I6]. constructor.
        -- intros k NK. rewrite I1 by exact NK. apply QO, NK.
        -- intros k IK. rewrite Q. right. rewrite <- Q1. apply I2, IK.
        -- rewrite Q. rewrite Q1 in I3. destruct I3 as [(A & B)|(j & A & B)]; [left; split; [right; exact A | exact B] | right; exists j; split; [right; exact A | exact B]].
        -- exact I4.
        -- exact I5.
        -- exact I6.
      * intros z0 [<-|IZ]; [eauto|]. destruct (IH z0 IZ) as (x & j & -> & R). exists x, j. split; [reflexivity | exact R].
Qed.

(** What closing does to the coroutines queued on the channel. *)
Record close_did (ch : nat) (d d' : dat) (W : list Z) : Prop := {
  cd_nd : NoDup W;
  cd_q : q d' (QChan ch) = [];
  cd_res : forall x, In x W -> In (NCo x) (q d' QRes);
  cd_res0 : forall n, In n (q d QRes) -> In n (q d' QRes);
  cd_recv : forall x, In (NCo x) (q d (QChan ch)) -> In x W;
  cd_sel : forall x i, In (NCase x i) (q d (QChan ch)) -> retidx (cof d x) = -1 -> In x W;
  cd_who : forall x, In x W -> (In (NCo x) (q d (QChan ch)) /\ cof d' x = set_cclosed true (cof d x)) \/
    (exists j, In (NCase x j) (q d (QChan ch)) /\ retidx (cof d x) = -1 /\ retidx (cof d' x) = j /\ lok (chn d' ch) = false);
  cd_other : forall x, ~ In x W -> cof d' x = cof d x;
  cd_lok : lok (chn d' ch) = lok (chn d ch) \/ lok (chn d' ch) = false;
  cd_slot : slot (chn d' ch) = slot (chn d ch);
  cd_buf : buf (chn d' ch) = buf (chn d ch);
  cd_chn : forall g, g <> ch -> chn d' g = chn d g }.
Lemma close_loop_did : forall ch n d, length (q d (QChan ch)) = n -> NoDup (q d (QChan ch)) -> sorted_out (q d (QChan ch)) -> exists W, close_did ch d (close_loop ch n d) W.
Proof.
  intros ch n. induction n as [|n IH]; intros d LE ND SO; cbn [close_loop].
  - destruct (q d (QChan ch)) as [|y l] eqn:Q; [|discriminate LE]. exists []. constructor; rewrite ?Q; auto; try (intros x []); try (intros x i []). constructor.
  - unfold popq. destruct (q d (QChan ch)) as [|y l] eqn:Q; [discriminate LE|]. injection LE as LE. apply NoDup_cons_iff in ND. destruct ND as [N1 N2]. pose proof (sorted_out_tl _ _ SO) as SL.
    set (d1 := set_q (qupd (q d) (QChan ch) l) d). assert (Q1 : q d1 (QChan ch) = l) by (cbn; apply qupd_eq). assert (QR1 : q d1 QRes = q d QRes) by reflexivity.
    assert (GO : forall x d2, x = node_co y -> q d2 = q d1 -> (forall z, z <> x -> cof d2 z = cof d z) -> (forall g, g <> ch -> chn d2 g = chn d g) -> slot (chn d2 ch) = slot (chn d ch) -> buf (chn d2 ch) = buf (chn d ch) ->
      ((y = NCo x /\ cof d2 x = set_cclosed true (cof d x) /\ chn d2 ch = chn d ch) \/ exists j, y = NCase x j /\ 0 <= j /\ retidx (cof d x) = -1 /\ retidx (cof d2 x) = j /\ lok (chn d2 ch) = false) ->
      exists W, close_did ch d (close_loop ch n (sched_resume x d2)) W).
    { intros x d2 EX QE CO GE SE BE WH. set (d3 := sched_resume x d2).
      assert (NX : ~ In (NCo x) l).
      { intros IN. destruct WH as [(-> & _)|(j & -> & _)]; [contradiction|]. destruct (proj1 SO x j); [right; exact IN | left; reflexivity]. }
      assert (Q3 : q d3 (QChan ch) = l) by (unfold d3; rewrite sched_resume_other; rewrite ?QE, ?Q1; [reflexivity | discriminate | exact NX]).
      assert (C3 : cof d3 = cof d2) by reflexivity. assert (H3 : chn d3 = chn d2) by reflexivity.
      assert (R3 : forall z, In z (q d3 QRes) <-> In z (q d QRes) \/ z = NCo x).
      { intros z. unfold d3. rewrite In_sched_resume, QE, QR1. destruct (node_eqb_spec z (NCo x)); intuition congruence. }
      clearbody d3. destruct (IH d3) as (W & BD); [congruence | congruence | congruence|].
      assert (XW : ~ In x W).
      { intros IW. destruct (cd_who _ _ _ _ BD _ IW) as [[H _]|(j & H & RJ & _)]; rewrite Q3 in H; [contradiction|]. rewrite C3 in RJ. destruct WH as [(-> & _)|(j' & -> & P & _ & R & _)]; [|lia].
        apply (proj1 SO x j); [left; reflexivity | right; exact H]. }
      assert (CX : cof (close_loop ch n d3) x = cof d2 x) by (rewrite <- C3; apply (cd_other _ _ _ _ BD), XW).
      exists (x :: W). constructor; rewrite ?Q.
      - constructor; [exact XW | apply BD].
      - apply BD.
      - intros z [<-|IZ]; [apply (cd_res0 _ _ _ _ BD), R3; auto | apply (cd_res _ _ _ _ BD), IZ].
      - intros z IZ. apply (cd_res0 _ _ _ _ BD), R3. auto.
      - intros z [EZ|IZ]; [left; rewrite EX, EZ; reflexivity | right; apply (cd_recv _ _ _ _ BD); rewrite Q3; exact IZ].
      - intros z i [EZ|IZ] RZ; [left; rewrite EX, EZ; reflexivity|]. destruct (Z.eq_dec z x) as [->|NZ]; [left; reflexivity|]. right. apply (cd_sel _ _ _ _ BD z i); [rewrite Q3; exact IZ|]. rewrite C3, CO by exact NZ. exact RZ.
      - intros z [<-|IZ].
        + destruct WH as [(-> & A & B)|(j & -> & _ & A & B & C)]; [left; split; [left; reflexivity | congruence]|]. right. exists j. split; [left; reflexivity|]. split; [exact A|]. split; [congruence|].
          destruct (cd_lok _ _ _ _ BD) as [H|H]; [rewrite H, H3; exact C | exact H].
        + assert (NZ : z <> x) by (intros ->; contradiction). destruct (cd_who _ _ _ _ BD _ IZ) as [[H CZ]|(j & H & RJ & CZ & LZ)]; rewrite Q3 in H; rewrite C3, CO in * by exact NZ; [left; split; [right; exact H | exact CZ] | right; exists j; split; [right; exact H | auto]].
      - intros z NZ. rewrite (cd_other _ _ _ _ BD) by (intros H; apply NZ; right; exact H). rewrite C3. apply CO. intros ->; apply NZ; left; reflexivity.
      - destruct (cd_lok _ _ _ _ BD) as [H|H]; [|auto]. rewrite H, H3. destruct WH as [(_ & _ & ->)|(j & _ & _ & _ & _ & C)]; auto.
      - rewrite (cd_slot _ _ _ _ BD), H3. exact SE.
      - rewrite (cd_buf _ _ _ _ BD), H3. exact BE.
      - intros g NG. rewrite (cd_chn _ _ _ _ BD) by exact NG. rewrite H3. apply GE, NG. }
    destruct y as [z|z i].
    + apply GO; cbn; auto; [intros z0 NZ; apply zupd_neq, NZ | left; rewrite zupd_eq; auto].
    + destruct (Z.eqb_spec (retidx (cof d1 z)) (-1)) as [RI|RI]; cbn [negb].
      * apply GO; cbn; auto; try (rewrite nupd_eq; reflexivity); [intros z0 NZ; apply zupd_neq, NZ | intros g NG; rewrite nupd_neq by exact NG; reflexivity|].
        right. exists i. rewrite zupd_eq, nupd_eq. split; [reflexivity|]. split; [apply (proj2 SO z i); left; reflexivity|]. split; [exact RI|]. split; reflexivity.
      * clear GO. destruct (IH d1) as (W & BD); [congruence | congruence | congruence|]. assert (C1 : cof d1 = cof d) by reflexivity. assert (H1 : chn d1 = chn d) by reflexivity. clearbody d1.
        exists W. constructor; rewrite ?Q.
        -- apply BD.
        -- apply BD.
        -- apply BD.
        -- intros y IY. apply (cd_res0 _ _ _ _ BD). rewrite QR1. exact IY.
        -- intros y [D1|IY]; [discriminate D1|]. apply (cd_recv _ _ _ _ BD). rewrite Q1. exact IY.
        -- intros y j [D1|IY] RY; [injection D1 as -> ->; congruence|]. apply (cd_sel _ _ _ _ BD y j); [rewrite Q1; exact IY | rewrite C1; exact RY].
        -- intros y IY. destruct (cd_who _ _ _ _ BD _ IY) as [[H CZ]|(j & H & RJ & CZ)]; rewrite Q1 in H; rewrite C1 in *; [left; split; [right; exact H | exact CZ] | right; exists j; split; [right; exact H | auto]].
        -- intros y NY. rewrite (cd_other _ _ _ _ BD) by exact NY. rewrite C1. reflexivity.
        -- rewrite <- H1. apply (cd_lok _ _ _ _ BD).
        -- rewrite <- H1. apply (cd_slot _ _ _ _ BD).
        -- rewrite <- H1. apply (cd_buf _ _ _ _ BD).
        -- rewrite <- H1. apply (cd_chn _ _ _ _ BD).
Qed.
