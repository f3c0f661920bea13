(** Where a pending cancellation comes from. *)
From Coq Require Import List ZArith Bool Lia.
From Verif Require Import AATreeSpec AATreeHist Util Runtime SchedInv StepInv StackShape RuntimeSpec TraceInv Immediate Prims StaticInv Footprint QueueInv OwnInv WaitInv CallInv SpecInv TraceStep Wake Awake AllInv PausedInv.
Import ListNotations.
Local Open Scope Z_scope.

Lemma rest_cn : forall c a d d' fs k x, coexit_rest c a d = (d', fs, k) -> canceled (cof d' x) = true -> canceled (cof d x) = true.
Proof.
  intros c a d d' fs k x E C. destruct (coexit_rest_sp _ _ _ _ _ _ E) as [_ _ S3 S4]. destruct (Z.eq_dec x c) as [->|N]; [apply S4, C | rewrite S3 in C by exact N; exact C].
Qed.
Lemma hcall_cn : forall c o nw d d' fs k x, hcall c o nw d = (d', fs, k) -> canceled (cof d' x) = true ->
  canceled (cof d x) = true \/ (exists dl, o = OpCancel x dl) /\ cenabled (cof d x) = true.
Proof.
  intros c o nw d d' fs k x E C.
  assert (SP : sp c d d' -> canceled (cof d x) = true) by (intros [_ _ S3 S4]; destruct (Z.eq_dec x c) as [->|N]; [auto | rewrite <- S3; auto]).
  assert (UP : forall f, d' = upco c f d -> canceled (f (cof d c)) = canceled (cof d c) -> canceled (cof d x) = true).
  { intros f -> HF. destruct (Z.eq_dec x c) as [->|N]; [rewrite upco_eq in C; congruence | rewrite upco_neq in C by exact N; exact C]. }
  assert (EX : exits c d d' fs k -> canceled (cof d x) = true).
  { intros [h l CL ED EF EK|a ER]; [eapply UP; [exact ED | reflexivity]|]. eapply rest_cn; eassumption. }
  destruct (special o) eqn:SO; [|left; apply SP; eapply hcall_sp; eassumption].
  pose proof (hcall_special _ _ _ _ _ _ _ E SO) as H. destruct o; try discriminate SO; auto;
    try (left; destruct H as (H & _); eapply UP; [exact H | reflexivity]).
  - destruct (do_cancel_sp _ _ _ _ _ _ _ _ H) as [[S _]|(_ & d1 & [S1 S2 S3 S4] & CE & -> & _ & ->)]; [auto|].
    destruct (Z.eq_dec x id) as [->|NN]; [right; split; [eauto | specialize (S2 id); unfold spc in S2; congruence]|]. rewrite upco_neq in C by assumption. left.
    destruct (Z.eq_dec x c) as [->|N]; [auto | rewrite <- S3; auto].
  - left. unfold do_sigwatch in H. repeat match type of H with context [if ?b then _ else _] => destruct b end; inj H; auto; cbn in C; unfold zupd in C; destruct (Z.eqb_spec x c) as [->|]; exact C.
  - left. unfold do_sigunwatch in H. repeat match type of H with context [if ?b then _ else _] => destruct b end; inj H; auto; cbn in C; unfold zupd in C; destruct (Z.eqb_spec x c) as [->|]; exact C.
  - left. unfold do_cleanup_pop in H. destruct (cleanups (cof d c)); [inj H; auto|]. destruct exec; inj H; (eapply UP; [reflexivity | reflexivity]).
Qed.
Lemma hret_cn : forall c f v b nw d d' fs k x, hret c f v b nw d = (d', fs, k) -> canceled (cof d' x) = true ->
  canceled (cof d x) = true \/ (exists dl, f = FCancelWait x dl) /\ cenabled (cof d x) = true.
Proof.
  intros c f v b nw d d' fs k x E C.
  assert (SP : sp c d d' -> canceled (cof d x) = true) by (intros [_ _ S3 S4]; destruct (Z.eq_dec x c) as [->|N]; [auto | rewrite <- S3; auto]).
  assert (UP : forall f, d' = upco c f d -> canceled (f (cof d c)) = canceled (cof d c) -> canceled (cof d x) = true).
  { intros f0 -> HF. destruct (Z.eq_dec x c) as [->|N]; [rewrite upco_eq in C; congruence | rewrite upco_neq in C by exact N; exact C]. }
  assert (EX : exits c d d' fs k -> canceled (cof d x) = true).
  { intros [h l CL ED EF EK|a ER]; [eapply UP; [exact ED | reflexivity]|]. eapply rest_cn; eassumption. }
  pose proof (hret_sp _ _ _ _ _ _ _ _ _ E) as H. destruct f; auto; try (destruct H as [H|(_ & _ & H)]; auto; fail).
  - left. eapply rest_cn; eassumption.
  - destruct (do_cancel_sp _ _ _ _ _ _ _ _ H) as [[[_ _ S3 S4] _]|(_ & d1 & [S1 S2 S3 S4] & CE & -> & _ & ->)].
    + left. destruct (Z.eq_dec x c) as [->|N]; [apply S4; exact C | rewrite S3 in C by exact N; exact C].
    + destruct (Z.eq_dec x id) as [->|NN]; [right; split; [eauto | specialize (S2 id); unfold spc in S2; cbn [rmq cof set_q] in S2; congruence]|]. rewrite upco_neq in C by assumption. left.
      destruct (Z.eq_dec x c) as [->|N]; [apply S4; exact C | rewrite S3 in C by exact N; exact C].
  - destruct H as (H & _). left. eapply UP; [exact H | reflexivity].
  - destruct H as (-> & _). auto.
Qed.
Lemma cancel_open : forall s c id dl rest, reach s -> stk (sc s) c = FCancelWait id dl :: rest -> exists k t, In (TCall k c (OpCancel id dl) t) (tr s).
Proof.
  intros s c id dl rest RE SX.
  assert (L : lstack (FCancelWait id dl :: rest)) by (rewrite <- SX; apply live_lstack; [apply reach_full, RE | rewrite SX; discriminate]).
  assert (H : exists k, In (FApi k (OpCancel id dl)) (stk (sc s) c)).
  { inversion L as [s0 U EQ|k0 o w s0 U SH EQ|w s0 ES EQ].
    - inversion U.
    - destruct w as [|g w]; cbn in EQ; [discriminate EQ|]. injection EQ as -> <-. exists k0. rewrite SX.
      assert (o = OpCancel id dl); [|subst o; right; apply in_or_app; right; left; reflexivity].
      inversion SH; subst; try (match goal with H : pz _ _ |- _ => inversion H; subst end);
      try (match goal with H : yf _ _ |- _ => inversion H; subst end); try reflexivity; try discriminate.
    - destruct (exit_shape_hd _ ES) as (f & t & -> & H). cbn in EQ. injection EQ as -> _. destruct H. }
  destruct H as (k & IN). destruct (ci_open _ (reach_cinv _ RE) _ _ _ IN) as (t & IT & _). eauto.
Qed.

(** pooled records belong to coroutines that have exited *)
Definition poolx (s : state) : Prop := forall x, In (NCo x) (q (dt s) QPool) -> In x (exited (tr s)).
Lemma exited_In : forall t c, In c (exited t) <-> In (TExit c) t.
Proof.
  intros t c. unfold exited. rewrite in_flat_map. split.
  - intros (o & I & H). destruct o; try destruct H; try contradiction. subst. exact I.
  - intros I. exists (TExit c). split; [exact I | left; reflexivity].
Qed.
Theorem reach_poolx : forall s, reach s -> poolx s.
Proof.
  apply rrun_preserves.
  - intros s c o d fs k sch md RE I M CU U NR E X x IN. cbn [dt tr] in *. apply exited_In. apply ctl_sysq in IN; [|exact Logic.I].
    destruct IN as [IN|(_ & Q & (b & ->))].
    + eapply prims_sysq in IN; [|eapply hcall_prims; exact E | exact Logic.I]. destruct IN as [IN|(D & _)]; [|discriminate D].
      apply call_tr_old, exited_In, I, IN.
    + injection Q as ->. unfold call_tr. left. reflexivity.
  - intros s c v f rest b d fs k sch md RE I M CU SK L E X x IN. cbn [dt tr] in *. apply exited_In. apply ctl_sysq in IN; [|exact Logic.I].
    destruct IN as [IN|(_ & Q & (b0 & ->))].
    + eapply prims_sysq in IN; [|eapply hret_prims; exact E | exact Logic.I]. destruct IN as [IN|(D & _)]; [|discriminate D].
      apply tick_tr_old, exited_In, I, IN.
    + injection Q as ->. unfold tick_tr. left. reflexivity.
  - intros s d ws sch md ios RE I M A K X x IN. cbn [dt tr] in *. eapply mprims_sysq in IN; [|eapply mp_main; exact K | exact Logic.I]. apply I, IN.
  - intros s m RE I HM x IN. apply I, IN.
  - intros s e RE I H M x IN. apply exited_In, env_tr_old; [exact H|]. apply exited_In, I. destruct (env_q s e H) as [Q|(c & _ & _ & _ & Q)]; rewrite Q in IN; [exact IN|].
    apply In_pushq in IN. destruct IN as [[IN _]|[D _]]; [exact IN | discriminate D].
  - intros g O x IN. cbn in IN. destruct IN.
Qed.

(** a pending cancellation was asked for: by neco_cancel of this coroutine, or of an
    exited one whose record has been reused *)
Definition asked (t : list obs) (x : Z) : Prop :=
  exists k c id dl tm, In (TCall k c (OpCancel id dl) tm) t /\ (id = x \/ In id (exited t)).
Lemma asked_mono : forall t t' x, (forall z, In z t -> In z t') -> asked t x -> asked t' x.
Proof.
  intros t t' x S (k & c & id & dl & tm & A & B). exists k, c, id, dl, tm. split; [auto|]. destruct B as [B|B]; [auto|]. right. rewrite exited_In in *. auto.
Qed.
Definition cn (s : state) : Prop := forall x, canceled (cof (dt s) x) = true -> asked (tr s) x.
Lemma cn_ctl : forall s c d k T, reach s -> cn s -> prims c (dt s) d -> (forall z, In z (tr s) -> In z T) ->
  (forall x, canceled (cof d x) = true -> asked T x) -> forall x, canceled (cof (ctl_dat c (nextid (sc s) + 1) k d) x) = true -> asked T x.
Proof.
  intros s c d k T RE I P SUB H x C. destruct (Z.eq_dec x (nextid (sc s) + 1)) as [NX|NX]; [|rewrite (proj1 (ctl_flags c (nextid (sc s) + 1) k d x NX)) in C; auto].
  destruct k; cbn [ctl_dat] in C; auto. subst x.
  destruct (spawn_new (Some c) (nextid (sc s) + 1) isgen d) as [(_ & _ & _ & Q)|(y & l & QP & _ & _ & Q)]; [congruence|]. rewrite Q in C.
  assert (IN : In y (q d QPool)) by (rewrite QP; left; reflexivity).
  eapply prims_sysq in IN; [|exact P|exact Logic.I]. destruct IN as [IN|(D & _)]; [|discriminate D].
  destruct (so_nco _ _ (reach_sysok _ RE) _ QPool Logic.I IN) as (z & ->). cbn [node_co] in C.
  apply (reach_poolx _ RE) in IN. destruct (H z C) as (k & c' & id & dl & tm & A & B). exists k, c', id, dl, tm. split; [exact A|]. right.
  destruct B as [->|B]; [|exact B]. rewrite exited_In in *. auto.
Qed.
Theorem reach_cn : forall s, reach s -> cn s.
Proof.
  apply rrun_preserves.
  - intros s c o d fs k sch md RE I M CU U NR E X. unfold cn. cbn [dt tr]. apply cn_ctl; auto.
    + eapply hcall_prims; exact E.
    + intros z. apply (call_tr_old s c o fs k).
    + intros x C. destruct (hcall_cn _ _ _ _ _ _ _ _ E C) as [C0|[(dl & ->) _]].
      * eapply asked_mono; [|apply I, C0]. intros z. apply (call_tr_old s c o fs k).
      * exists (ncalls s), c, x, dl, (now s). split; [apply call_tr_new | auto].
  - intros s c v f rest b d fs k sch md RE I M CU SK L E X. unfold cn. cbn [dt tr]. apply cn_ctl; auto.
    + eapply hret_prims; exact E.
    + intros z. apply (tick_tr_old s c v f d fs k).
    + intros x C. destruct (hret_cn _ _ _ _ _ _ _ _ _ _ E C) as [C0|[(dl & ->) _]].
      * eapply asked_mono; [|apply I, C0]. intros z. apply (tick_tr_old s c v f d fs k).
      * destruct (cancel_open _ _ _ _ _ RE SK) as (k0 & t & IT). exists k0, c, x, dl, t. split; [apply tick_tr_old, IT | auto].
  - intros s d ws sch md ios RE I M A K X x C. cbn [dt tr] in *. destruct (mprims_flags _ _ x (mp_main _ _ _ _ _ _ _ K)) as [F1 _]. rewrite F1 in C. apply I, C.
  - intros s m RE I HM x C. apply (I x C).
  - intros s e RE I H M x C. rewrite (env_cof s e H) in C. eapply asked_mono; [|apply I, C]. intros z. apply env_tr_old, H.
  - intros g O x C. exfalso. cbn in C. unfold zupd in C. destruct (_ =? _) in C; discriminate C.
Qed.
(** nobody canceled anybody *)
Definition nocancel (t : list obs) : Prop := forall k c id dl tm, ~ In (TCall k c (OpCancel id dl) tm) t.
Lemma nocancel_flag : forall s, reach s -> nocancel (tr s) -> forall x, canceled (cof (dt s) x) = false.
Proof.
  intros s RE NC x. destruct (canceled (cof (dt s) x)) eqn:C; [|reflexivity]. destruct (reach_cn _ RE x C) as (k & c & id & dl & tm & A & _). destruct (NC _ _ _ _ _ A).
Qed.
