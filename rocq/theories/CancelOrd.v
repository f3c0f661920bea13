(** Where a pending cancellation comes from, with the order of events: a coroutine whose
    record was free when it began may take over the cancellation of an earlier owner. *)
From Coq Require Import List ZArith Bool Lia.
From Verif Require Import AATreeSpec AATreeHist Util Runtime SchedInv StepInv StackShape RuntimeSpec TraceInv Immediate Prims StaticInv Footprint QueueInv OwnInv WaitInv CallInv SpecInv TraceStep Wake Awake AllInv PausedInv CancelInv.
Import ListNotations.
Local Open Scope Z_scope.

(** ** Specification *)
(** [y] had ended when [x] was started *)
Definition ended_before (t : list obs) (y x : Z) : Prop := exists t1 t2 p, t = t1 ++ TStart p x :: t2 /\ In (TExit y) t2.
(** no cancel was aimed at [x], nor at a coroutine that had ended when [x] was started *)
Definition spared (t : list obs) (x : Z) : Prop :=
  forall k c id dl tm, In (TCall k c (OpCancel id dl) tm) t -> id <> x /\ ~ ended_before t id x.

(** ** Proof *)
Lemma ended_mono : forall p t y x, ended_before t y x -> ended_before (p ++ t) y x.
Proof. intros p t y x (t1 & t2 & q & -> & IN). exists (p ++ t1), t2, q. split; [apply app_assoc | exact IN]. Qed.
Lemma spared_old : forall p t x, spared (p ++ t) x -> spared t x.
Proof.
  intros p t x H k c id dl tm IN. destruct (H k c id dl tm) as [A B]; [apply in_or_app; auto|]. split; [exact A|]. intros E. apply B, ended_mono, E.
Qed.
Lemma nocancel_spared : forall t x, nocancel t -> spared t x.
Proof. intros t x N k c id dl tm IN. destruct (N _ _ _ _ _ IN). Qed.
Lemma never_ended_spared : forall t x, (forall k c id dl tm, In (TCall k c (OpCancel id dl) tm) t -> id <> x /\ ~ In id (exited t)) -> spared t x.
Proof.
  intros t x H k c id dl tm IN. destruct (H _ _ _ _ _ IN) as [A B]. split; [exact A|]. intros (t1 & t2 & p & -> & IX). apply B, exited_In, in_or_app. right. right. exact IX.
Qed.

Definition aimed (t : list obs) (x : Z) : Prop :=
  exists k c id dl tm, In (TCall k c (OpCancel id dl) tm) t /\ (id = x \/ ended_before t id x).
Lemma aimed_mono : forall p t x, aimed t x -> aimed (p ++ t) x.
Proof.
  intros p t x (k & c & id & dl & tm & A & B). exists k, c, id, dl, tm. split; [apply in_or_app; auto|]. destruct B as [B|B]; [auto | right; apply ended_mono, B].
Qed.
Lemma ended_exit : forall t y x, ended_before t y x -> In (TExit y) t.
Proof. intros t y x (t1 & t2 & p & -> & IN). apply in_or_app. right. right. exact IN. Qed.
Definition aim (s : state) : Prop := forall x, canceled (cof (dt s) x) = true -> aimed (tr s) x.
Lemma aim_ctl : forall s c d k T, reach s -> prims c (dt s) d -> (forall z, In z (tr s) -> In z T) ->
  (forall x, canceled (cof d x) = true -> aimed (ctl_obs c (nextid (sc s) + 1) k ++ T) x) ->
  forall x, canceled (cof (ctl_dat c (nextid (sc s) + 1) k d) x) = true -> aimed (ctl_obs c (nextid (sc s) + 1) k ++ T) x.
Proof.
  intros s c d k T RE P SUB H x C. destruct (Z.eq_dec x (nextid (sc s) + 1)) as [NX|NX]; [|rewrite (proj1 (ctl_flags c (nextid (sc s) + 1) k d x NX)) in C; auto].
  destruct k; cbn [ctl_dat] in C; auto. subst x.
  destruct (spawn_new (Some c) (nextid (sc s) + 1) isgen d) as [(_ & _ & _ & Q)|(y & l & QP & _ & _ & Q)]; [congruence|]. rewrite Q in C.
  assert (IN : In y (q d QPool)) by (rewrite QP; left; reflexivity).
  eapply prims_sysq in IN; [|exact P|exact Logic.I]. destruct IN as [IN|(D & _)]; [|discriminate D].
  destruct (so_nco _ _ (reach_sysok _ RE) _ QPool Logic.I IN) as (z & ->). cbn [node_co] in C.
  apply (reach_poolx _ RE) in IN. rewrite exited_In in IN. destruct (H z C) as (k & c' & id & dl & tm & A & B). exists k, c', id, dl, tm. split; [exact A|]. right.
  cbn [ctl_obs app] in *. exists [], T, c. split; [reflexivity|]. destruct B as [->|B]; [apply SUB, IN|]. apply ended_exit in B. destruct B as [B|B]; [discriminate B | exact B].
Qed.
Theorem reach_aim : forall s, reach s -> aim s.
Proof.
  apply rrun_preserves.
  - intros s c o d fs k sch md RE I M CU U NR E X. unfold aim. cbn [dt tr]. unfold call_tr. apply aim_ctl; auto.
    + eapply hcall_prims; exact E.
    + intros z IN. rewrite !in_app_iff. auto.
    + intros x C. destruct (hcall_cn _ _ _ _ _ _ _ _ E C) as [C0|[(dl & ->) _]].
      * do 3 apply aimed_mono. apply I, C0.
      * exists (ncalls s), c, x, dl, (now s). split; [apply (call_tr_new s c) | auto].
  - intros s c v f rest b d fs k sch md RE I M CU SK L E X. unfold aim. cbn [dt tr]. unfold tick_tr. apply aim_ctl; auto.
    + eapply hret_prims; exact E.
    + intros z IN. rewrite !in_app_iff. auto.
    + intros x C. destruct (hret_cn _ _ _ _ _ _ _ _ _ _ E C) as [C0|[(dl & ->) _]].
      * do 3 apply aimed_mono. apply I, C0.
      * destruct (cancel_open _ _ _ _ _ RE SK) as (k0 & t & IT). exists k0, c, x, dl, t. split; [rewrite !in_app_iff; auto | auto].
  - intros s d ws sch md ios RE I M A K X x C. cbn [dt tr] in *. destruct (mprims_flags _ _ x (mp_main _ _ _ _ _ _ _ K)) as [F1 _]. rewrite F1 in C. apply I, C.
  - intros s m RE I HM x C. apply (I x C).
  - intros s e RE I H M x C. rewrite (env_cof s e H) in C. apply I in C. destruct (env_tr s e H) as [Q|(y & Q)]; rewrite Q; [exact C|]. apply (aimed_mono [_]), C.
  - intros g O x C. exfalso. cbn in C. unfold zupd in C. destruct (_ =? _) in C; discriminate C.
Qed.
Theorem spared_flag : forall s x, reach s -> spared (tr s) x -> canceled (cof (dt s) x) = false.
Proof.
  intros s x RE SP. destruct (canceled (cof (dt s) x)) eqn:C; [|reflexivity]. exfalso. destruct (reach_aim _ RE x C) as (k & c & id & dl & tm & A & B).
  destruct (SP _ _ _ _ _ A) as [N1 N2]. destruct B as [B|B]; [exact (N1 B) | exact (N2 B)].
Qed.

(** ** Deciding [spared] of a given trace *)
Fixpoint endedb (t : list obs) (y x : Z) : bool :=
  match t with
  | [] => false
  | TStart _ x' :: r => (x' =? x) && existsb (fun z => match z with TExit y' => y' =? y | _ => false end) r || endedb r y x
  | _ :: r => endedb r y x
  end.
Lemma endedb_ok : forall t y x, ended_before t y x -> endedb t y x = true.
Proof.
  intros t y x (t1 & t2 & p & -> & IN). induction t1 as [|z t1 IH]; cbn.
  - apply orb_true_iff. left. rewrite Z.eqb_refl. cbn. apply existsb_exists. exists (TExit y). split; [exact IN | apply Z.eqb_refl].
  - destruct z; try exact IH. rewrite IH. apply orb_true_r.
Qed.
Definition sparedb (t : list obs) (x : Z) : bool :=
  forallb (fun z => match z with TCall _ _ (OpCancel id _) _ => negb (id =? x) && negb (endedb t id x) | _ => true end) t.
Lemma sparedb_ok : forall t x, sparedb t x = true -> spared t x.
Proof.
  intros t x H k c id dl tm IN. unfold sparedb in H. rewrite forallb_forall in H. specialize (H _ IN). cbn in H. apply andb_true_iff in H. destruct H as [A B].
  apply negb_true_iff in A, B. split; [apply Z.eqb_neq, A|]. intros E. apply endedb_ok in E. congruence.
Qed.
