(** The order of the messages on a channel in every reachable state, and which
    channel a generator feeds. *)
From Coq Require Import List ZArith Bool Lia.
From Verif Require Import AATreeSpec AATreeHist Util Runtime SchedInv StepInv StackShape RuntimeSpec TraceInv Immediate Prims StaticInv Footprint QueueInv OwnInv WaitInv CallInv SpecInv TraceStep Wake Awake DeadlineInv AllInv PausedInv ResultInv JoinInv WaiterInv DldInv CancelInv CancelOrd CancelSt MutexEff MutexTok MutexRt MutexOrd AtCall WgInv ChanShape ChanSpec ChanLists ChanEff ChanQuiet ChanFifo ChanLeak ChanProv ChanStatic GenInv.
Import ListNotations.
Local Open Scope Z_scope.

Lemma fi_still : forall G s s' ch, reach s -> ~ over (mode s) -> plain_on ch (tr s) -> fi G ch s ->
  (forall x w k o, at_call s x w k o <-> at_call s' x w k o) -> (forall x, same3 (cof (dt s) x) (cof (dt s') x)) -> quietc ch (dt s) (dt s') ->
  (mode s' = mode s \/ forall v, mode s <> MRet v) -> (forall z, In z (tr s) -> In z (tr s')) ->
  (forall (A : Type) (sel : Z -> op -> option A), live sel (tr s') = live sel (tr s)) -> fi G ch s'.
Proof.
  intros G s s' ch RE NO SI FI AT S3 QC MD TR LV. unfold fi. rewrite !LV.
  rewrite <- (filter_keepall _ (fun _ => true) (live (recv_of ch) (tr s))) by auto. rewrite <- (filter_keepall _ (fun _ => true) (live (put_of G ch) (tr s))) by auto.
  assert (IQ : forall x, inq s' ch x <-> inq s ch x) by (intros x; unfold inq; destruct QC as (_ & -> & _); tauto).
  assert (RC : rclosed (chn (dt s') ch) = rclosed (chn (dt s) ch)) by apply QC.
  assert (NIL : forall x kk o, at_call s x [] kk o -> ~ handing o -> mode s' = mode s).
  { intros x kk o AC NH. destruct MD as [MD|MD]; [exact MD|]. destruct (at_ret _ _ _ _ RE AC NH NO) as (_ & v & MV). destruct (MD _ MV). }
  apply (fi_quiet G s s' ch _ _ (fun _ => true)); [exact FI | eapply chan_nco; eassumption | exact QC | intros x _; apply S3 | | | | |].
  - intros p v SA. split; [|reflexivity]. destruct SA as [o t IN|w o AC IS RB MW FW]; [eapply sat_done; apply TR, IN|].
    eapply sat_pend; [apply AT; exact AC | exact IS | destruct (S3 (snd p)) as (-> & _); exact RB | |].
    + intros ->. rewrite (NIL _ _ _ AC (isr_hand _ _ IS)). auto.
    + intros I0. destruct (FW I0) as [N C]. rewrite IQ. destruct (S3 (snd p)) as (_ & _ & ->). auto.
  - intros p (w & o & AC & IS & I0 & C) _. split; [|reflexivity]. exists w, o. destruct (S3 (snd p)) as (_ & _ & ->). rewrite <- AT. auto.
  - intros p (w & o & AC & IS & H) _. exists w, o. rewrite <- AT. split; [exact AC|]. split; [exact IS|]. destruct H as [[-> H]|(H1 & H2 & H3 & H4)].
    + left. rewrite (NIL _ _ _ AC (isr_hand _ _ IS)). auto.
    + right. rewrite IQ, RC. destruct (S3 (snd p)) as (_ & _ & ->). auto.
  - intros p (x & o & m & AC & PU & H) _. exists x, o, m. rewrite <- AT, (NIL _ _ _ AC (put_hand _ _ _ _ _ PU)). auto.
  - intros p IN AK. split; [|reflexivity]. intros x o AC. apply AT in AC. pose proof (AK _ _ AC) as MO. destruct MD as [MD|MD]; [congruence | destruct (MD _ MO)].
Qed.

(** what the trace alone says then *)
Definition ordered (G : Z -> option nat) (ch : nat) (t : list obs) : Prop :=
  forall k c o v tm, In (TRet k c o OK v tm) t -> isr ch o = true ->
    exists n j, nth_error (live (recv_of ch) t) n = Some (k, c) /\ nth_error (live (put_of G ch) t) n = Some (j, v).

Lemma ret_unique : forall s k c o r v t c' o' r' v' t', reach s -> In (TRet k c o r v t) (tr s) -> In (TRet k c' o' r' v' t') (tr s) -> r = r' /\ v = v'.
Proof.
  intros s k c o r v t c' o' r' v' t' RE I1 I2. apply in_split in I1. destruct I1 as (l1 & l2 & E1). pose proof (ci_ret _ (reach_cinv _ RE)) as CR.
  destruct (CR _ _ _ _ _ _ _ _ E1) as (_ & N1 & _). rewrite E1 in I2. apply in_app_or in I2. destruct I2 as [I2|[I2|I2]].
  - apply in_split in I2. destruct I2 as (m1 & m2 & ->). rewrite <- app_assoc in E1. cbn in E1. destruct (CR _ _ _ _ _ _ _ _ E1) as (_ & N2 & _).
    destruct N2. do 5 eexists. apply in_or_app. right. left. reflexivity.
  - inversion I2. auto.
  - destruct N1. do 5 eexists. exact I2.
Qed.
Lemma nth_map_inv : forall A B (f : A -> B) l n b, nth_error (map f l) n = Some b -> exists a, nth_error l n = Some a /\ f a = b.
Proof. induction l as [|x l IH]; intros [|n] b H; cbn in H; try discriminate H; [injection H as <-; exists x; split; reflexivity | apply IH, H]. Qed.
Lemma Forall2_nth : forall A B (P : A -> B -> Prop) l l' n a, Forall2 P l l' -> nth_error l n = Some a -> exists b, nth_error l' n = Some b /\ P a b.
Proof.
  intros A B P l l' n a F. revert n. induction F as [|x y l l' PX F IH]; intros [|n] H; cbn in H; try discriminate H; [injection H as <-; exists y; auto | apply IH, H].
Qed.
Lemma isr_recv : forall ch x o, isr ch o = true -> recv_of ch x o = Some x.
Proof. intros ch x o H. destruct o; try discriminate H; cbn in *; rewrite H; reflexivity. Qed.
Lemma live_of : forall A (sel : Z -> op -> option A) s k c o a v t, reach s -> In (TRet k c o OK v t) (tr s) -> sel c o = Some a -> In (k, a) (live sel (tr s)).
Proof.
  intros A sel s k c o a v t RE IN SE. pose proof IN as IR. apply in_split in IN. destruct IN as (l1 & l2 & E1).
  destruct (ci_ret _ (reach_cinv _ RE) _ _ _ _ _ _ _ _ E1) as ((t0 & IC & _) & _). unfold live. apply filter_In. split.
  - assert (IC' : In (TCall k c o t0) (tr s)) by (rewrite E1; apply in_or_app; right; right; exact IC). clear -IC' SE. induction (tr s) as [|z l IH]; [destruct IC'|].
    destruct IC' as [->|IC']; [cbn; rewrite SE; apply in_or_app; right; left; reflexivity|]. destruct z; cbn; try (apply IH, IC'). apply in_or_app. left. apply IH, IC'.
  - cbn [fst]. destruct (failed (tr s) k) eqn:FA; [|reflexivity]. exfalso. unfold failed in FA. apply existsb_exists in FA. destruct FA as (z & IZ & HZ). destruct z; try discriminate HZ.
    apply andb_true_iff in HZ. destruct HZ as [H1 H2]. apply Nat.eqb_eq in H1. subst k0. destruct (ret_unique _ _ _ _ _ _ _ _ _ _ _ _ RE IR IZ) as [<- _]. discriminate H2.
Qed.
Lemma fi_ordered : forall G ch s, reach s -> fi G ch s -> ordered G ch (tr s).
Proof.
  intros G ch s RE (V & Rsat & Rq & Rx & Sacc & Sx & F) k c o v tm IN IS. pose proof (live_of _ _ _ _ _ _ _ _ _ RE IN (isr_recv _ c _ IS)) as IL.
  assert (NP : forall w o', ~ at_call s c w k o').
  { intros w o' (st & SX & _). apply (ci_pend _ (reach_cinv _ RE) c k o'); [rewrite SX; apply in_or_app; right; left; reflexivity | do 5 eexists; exact IN]. }
  pose proof (f_r _ _ _ _ _ _ _ _ _ _ _ F) as FR. rewrite FR in IL. apply in_app_or in IL. destruct IL as [IL|IL].
  - apply In_nth_error in IL. destruct IL as (n & NE). destruct (Forall2_nth _ _ _ _ _ _ _ (f_sat _ _ _ _ _ _ _ _ _ _ _ F) NE) as (v' & NV & SA).
    assert (v' = v) as ->. { destruct SA as [o' t' I'|w o' AC]; [|destruct (NP _ _ AC)]. cbn [fst snd] in I'. destruct (ret_unique _ _ _ _ _ _ _ _ _ _ _ _ RE I' IN). auto. }
    assert (NS : nth_error (map snd Sacc) n = Some v) by (rewrite (f_v _ _ _ _ _ _ _ _ _ _ _ F), nth_error_app1; [exact NV | apply nth_error_Some; congruence]).
    apply nth_map_inv in NS. destruct NS as ([j v0] & NS & EV). cbn in EV. subst v0. exists n, j. split.
    + rewrite FR, nth_error_app1; [exact NE | apply nth_error_Some; congruence].
    + rewrite (f_s _ _ _ _ _ _ _ _ _ _ _ F), nth_error_app1; [exact NS | apply nth_error_Some; congruence].
  - exfalso. apply in_app_or in IL. destruct IL as [IL|IL].
    + pose proof (proj1 (Forall_forall _ _) (f_wt _ _ _ _ _ _ _ _ _ _ _ F) _ IL) as (w & o' & AC & _). exact (NP _ _ AC).
    + pose proof (proj1 (Forall_forall _ _) (f_x _ _ _ _ _ _ _ _ _ _ _ F) _ IL) as (w & o' & AC & _). exact (NP _ _ AC).
Qed.

(** ** Which coroutine feeds which channel *)
Definition made (G : Z -> option nat) (d : dat) (v : Z) : Prop := exists g, v = Z.of_nat g /\ (g < nchan d)%nat /\ forall x, G x <> Some g.
(** [y] is the coroutine started by call [k] of [c] to neco_gen_start *)
Definition started_by (t : list obs) (k : nat) (c y : Z) : Prop := exists l1 l2 tm, t = l1 ++ TStart c y :: TCall k c OpGenStart tm :: l2.
Definition feeds (G : Z -> option nat) (t : list obs) (k : nat) (p v : Z) : Prop := exists g y, v = Z.of_nat g /\ G y = Some g /\ started_by t k p y.
Definition fed (s : state) (x : Z) (g : nat) : Prop :=
  In x (started (tr s)) /\ isch (dt s) g /\ (gen (cof (dt s) x) = Some g \/ shut (dt s) g) /\ forall a b, In (FExitGen a b) (stk (sc s) x) -> shut (dt s) g.
Record ginv (G : Z -> option nat) (s : state) : Prop := {
  g1 : forall x g, gen (cof (dt s) x) = Some g -> G x = Some g;
  g2 : forall x g, G x = Some g -> (g < nchan (dt s))%nat;
  g3 : forall k c cap v t, In (TRet k c (OpChMake cap) OK v t) (tr s) -> made G (dt s) v;
  g3p : forall c k cap, at_call s c [] k (OpChMake cap) -> mode s = MRet OK -> made G (dt s) (rbuf (cof (dt s) c));
  g4 : gyw G s;
  g5 : forall k c v t, In (TRet k c OpGenStart OK v t) (tr s) -> feeds G (tr s) k c v;
  g5p : forall c k, at_call s c [] k OpGenStart -> feeds G (tr s) k c (rbuf (cof (dt s) c));
  g6 : forall x y g, G x = Some g -> G y = Some g -> x = y;
  g7 : forall x g, G x = Some g -> fed s x g }.

Lemma prims_nchan : forall c d d', prims c d d' -> (nchan d <= nchan d')%nat.
Proof. intros c d d' P. induction P as [|d1 d2 P IH H]; [lia|]. inversion H; subst; cbn; lia. Qed.

Lemma spawn_nchan : forall p n g d, (nchan d <= nchan (spawn_dat p n g d))%nat.
Proof.
  intros p n g d. unfold spawn_dat. destruct (popq QPool d) as [pp d1] eqn:P.
  assert (C1 : nchan d1 = nchan d) by (unfold popq in P; destruct (q d QPool); injection P as <- <-; reflexivity).
  destruct pp as [pn|], g; cbn [new_chan]; destruct p; cbn; rewrite ?C1; lia.
Qed.
Lemma spawn_genstart : forall c n d, c <> n -> rbuf (cof (spawn_dat (Some c) n true d) c) = Z.of_nat (nchan d) /\ gen (cof (spawn_dat (Some c) n true d) n) = Some (nchan d).
Proof.
  intros c n d N. split; [rewrite spawn_cof by exact N; rewrite Z.eqb_refl; reflexivity|]. unfold spawn_dat. destruct (popq QPool d) as [pp d1] eqn:P.
  assert (C1 : nchan d1 = nchan d) by (unfold popq in P; destruct (q d QPool); injection P as <- <-; reflexivity).
  destruct pp as [pn|]; cbn; rewrite ?zupd_eq, ?C1; reflexivity.
Qed.

(** the next map *)
Definition grow (G : Z -> option nat) (d : dat) (x : Z) : option nat := match gen (cof d x) with Some g => Some g | None => G x end.
Section Grow.
Context (G : Z -> option nat) (s s' : state) (n : Z).
Hypothesis GI : ginv G s.
Hypothesis HG : forall x g, x <> n -> gen (cof (dt s') x) = Some g -> gen (cof (dt s) x) = Some g.
Hypothesis HF : forall g, G n <> Some g.
Hypothesis HN : forall g, gen (cof (dt s') n) = Some g -> (nchan (dt s) <= g < nchan (dt s'))%nat.
Hypothesis HM : (nchan (dt s) <= nchan (dt s'))%nat.
Lemma grow_eq : forall x, x <> n -> grow G (dt s') x = G x.
Proof. intros x N. unfold grow. destruct (gen (cof (dt s') x)) as [g|] eqn:E; [|reflexivity]. symmetry. eapply g1; [exact GI | eapply HG; eassumption]. Qed.
Lemma grow_1 : forall x g, gen (cof (dt s') x) = Some g -> grow G (dt s') x = Some g.
Proof. intros x g E. unfold grow. rewrite E. reflexivity. Qed.
Lemma grow_cases : forall x g, grow G (dt s') x = Some g -> (x <> n /\ G x = Some g) \/ (x = n /\ gen (cof (dt s') n) = Some g /\ (nchan (dt s) <= g < nchan (dt s'))%nat).
Proof.
  intros x g E. destruct (Z.eq_dec x n) as [->|N]; [|rewrite grow_eq in E by exact N; eauto]. unfold grow in E. destruct (gen (cof (dt s') n)) as [g'|] eqn:EG; [|destruct (HF _ E)]. injection E as ->.
  right. auto.
Qed.
Lemma grow_6 : forall x y g, grow G (dt s') x = Some g -> grow G (dt s') y = Some g -> x = y.
Proof.
  intros x y g E1 E2. destruct (grow_cases _ _ E1) as [(N1 & H1)|(-> & _ & H1)], (grow_cases _ _ E2) as [(N2 & H2)|(-> & _ & H2)]; [eapply g6; eassumption | | | reflexivity].
  - pose proof (g2 _ _ GI _ _ H1). lia.
  - pose proof (g2 _ _ GI _ _ H2). lia.
Qed.
Lemma grow_2 : forall x g, grow G (dt s') x = Some g -> (g < nchan (dt s'))%nat.
Proof. intros x g E. destruct (grow_cases _ _ E) as [(_ & H)|(_ & _ & H)]; [pose proof (g2 _ _ GI _ _ H); lia | lia]. Qed.
Lemma grow_made : forall v, made G (dt s) v -> made (grow G (dt s')) (dt s') v.
Proof.
  intros v (g & -> & LT & NG). exists g. split; [reflexivity|]. split; [lia|]. intros x E. destruct (grow_cases _ _ E) as [(_ & H)|(_ & _ & H)]; [exact (NG _ H) | lia].
Qed.
Lemma grow_feeds : forall t t' k p v, (forall y, In (TStart p y) t -> y <> n) -> (exists l, t' = l ++ t) -> feeds G t k p v -> feeds (grow G (dt s')) t' k p v.
Proof.
  intros t t' k p v H [l ->] (g & y & -> & GY & (l1 & l2 & tm & EQ)). exists g, y. split; [reflexivity|]. split; [rewrite grow_eq; [exact GY|]; apply H; rewrite EQ; apply in_or_app; right; left; reflexivity|].
  exists (l ++ l1), l2, tm. rewrite EQ, app_assoc. reflexivity.
Qed.
End Grow.

Lemma put_ext : forall G G' ch x o, G x = G' x -> put_of G ch x o = put_of G' ch x o.
Proof. intros G G' ch x o E. destruct o; try reflexivity. cbn. rewrite E. reflexivity. Qed.
Lemma calls_of_ext : forall A (sel sel' : Z -> op -> option A) t, (forall k c o tm, In (TCall k c o tm) t -> sel c o = sel' c o) -> calls_of sel t = calls_of sel' t.
Proof.
  intros A sel sel' t. induction t as [|z t IH]; intros H; [reflexivity|]. assert (H' : forall k c o tm, In (TCall k c o tm) t -> sel c o = sel' c o) by (intros; eapply H; right; eassumption).
  destruct z; cbn; try (apply IH, H'). rewrite (IH H'), (H k c o t0 (or_introl eq_refl)). reflexivity.
Qed.
Lemma live_ext : forall A (sel sel' : Z -> op -> option A) t, (forall k c o tm, In (TCall k c o tm) t -> sel c o = sel' c o) -> live sel t = live sel' t.
Proof. intros A sel sel' t H. unfold live. rewrite (calls_of_ext _ _ _ _ H). reflexivity. Qed.
Lemma simple_ext : forall G G' ch t, (forall k c o tm, In (TCall k c o tm) t -> G c = G' c) -> simple_on G ch t -> simple_on G' ch t.
Proof.
  intros G G' ch t H [[N0 N1] N2]. split.
  { split; [exact N0|]. intros k c o tm IN U. eapply N1; [exact IN|]. destruct o; try exact U. cbn in *. rewrite (H _ _ _ _ IN). exact U. }
  intros k c o tm IN. specialize (N2 _ _ _ _ IN). destruct o; try exact N2. rewrite <- (H _ _ _ _ IN). exact N2.
Qed.
Lemma at_called : forall s x w k o, reach s -> at_call s x w k o -> exists tm, In (TCall k x o tm) (tr s).
Proof. intros s x w k o RE (st & SX & _). destruct (ci_open _ (reach_cinv _ RE) x k o) as (t & IN & _); [rewrite SX; apply in_or_app; right; left; reflexivity | eauto]. Qed.
Lemma fi_ext : forall G G' ch s, reach s -> (forall k c o tm, In (TCall k c o tm) (tr s) -> G c = G' c) -> fi G ch s -> fi G' ch s.
Proof.
  intros G G' ch s RE H (V & Rsat & Rq & Rx & Sacc & Sx & F). unfold fi. rewrite <- (live_ext _ (put_of G ch) (put_of G' ch)) by (intros; apply put_ext; eapply H; eassumption).
  exists V, Rsat, Rq, Rx, Sacc, Sx. destruct F as [F1 F2 F3 F4 F5 F6 F7 F8 F9 F10 F11]. constructor; auto.
  eapply Forall_impl; [|exact F8]. intros p (x & o & m & AC & PU & R). destruct (at_called _ _ _ _ _ RE AC) as (tm & IC). exists x, o, m. rewrite <- (put_ext G G') by (eapply H; exact IC). auto.
Qed.
Lemma ordered_ext : forall G G' ch t, (forall k c o tm, In (TCall k c o tm) t -> G c = G' c) -> ordered G ch t -> ordered G' ch t.
Proof. intros G G' ch t H O k c o v tm IN IS. rewrite <- (live_ext _ (put_of G ch) (put_of G' ch)) by (intros; apply put_ext; eapply H; eassumption). eapply O; eassumption. Qed.

Lemma ctl_grow : forall s c n k d, reach s -> prims c (dt s) d -> gen (cof (dt s) n) = None ->
  (forall x g, x <> n -> gen (cof (ctl_dat c n k d) x) = Some g -> gen (cof (dt s) x) = Some g) /\
  (forall g, gen (cof (ctl_dat c n k d) n) = Some g -> (nchan (dt s) <= g < nchan (ctl_dat c n k d))%nat /\ isch (ctl_dat c n k d) g /\ k = CSpawn true) /\
  (nchan (dt s) <= nchan (ctl_dat c n k d))%nat.
Proof.
  intros s c n k d RE P GN. pose proof (prims_nchan _ _ _ P) as N. pose proof (prims_gen _ _ _ P) as HP.
  assert (GD : gen (cof d n) = None) by (eapply gen_none; eassumption).
  destruct k; cbn [ctl_dat]; try (split; [intros x g _; apply HP | split; [intros g H; change (gen (cof d n) = Some g) in H; congruence | exact N]]).
  - pose proof (spawn_nchan (Some c) n isgen d). split; [|split; [|lia]].
    + intros x g NE. rewrite spawn_cof by exact NE. intros H0. apply HP. destruct (x =? c), isgen; exact H0.
    + intros g H0. destruct (spawn_gen2 _ _ _ _ _ _ RE P H0) as (-> & -> & H1). repeat split; [exact N | apply H1 | apply H1 | apply H1].
Qed.
(** what is fed stays fed *)
Lemma fed_exec : forall s c d fs rest k sch md nc N x g, reach s -> fed s x g -> cur (sc s) = Some c -> prims c (dt s) d ->
  (forall a b, In (FExitGen a b) fs -> forall g, gen (cof (dt s) c) = Some g -> isch (dt s) g -> shut d g) /\ (forall x, gen (cof d x) = gen (cof (dt s) x)) \/ (exists a t, In (FExitGen a t) (stk (sc s) c) /\ (forall x, x <> c -> gen (cof d x) = gen (cof (dt s) x)) /\ forall a0 b0, ~ In (FExitGen a0 b0) fs) ->
  (forall a b, In (FExitGen a b) rest -> In (FExitGen a b) (stk (sc s) c)) -> (forall z, In z (started (tr s)) -> In z (started N)) ->
  exec c k (set_stk (zupd (stk (sc s)) c (fs ++ rest)) (sc s)) = (sch, md) ->
  fed (mkst sch (ctl_dat c (nextid (sc s) + 1) k d) md (now s) nc N) x g.
Proof.
  intros s c d fs rest k sch md nc N x g RE (ST & IC & GS & FX) CU P GO SUB SN X. pose proof (reach_full _ RE) as F. pose proof (cur_notfresh _ _ F CU) as NC.
  assert (XN : x <> nextid (sc s) + 1) by (apply (ti_ids _ (reach_tinv _ RE)) in ST; lia).
  assert (KC : keepch (dt s) (ctl_dat c (nextid (sc s) + 1) k d)) by (eapply keepch_trans; [eapply prims_keepch, P | apply ctl_keepch]).
  unfold fed. cbn [sc dt tr]. split; [auto|]. split; [eapply keep_isch; eassumption|]. rewrite ctl_gen by exact XN. split.
  - destruct GS as [GS|GS]; [|right; eapply keep_shut; eassumption]. destruct GO as [GO|(a & t & IN & OT & _)]; [left; rewrite (proj2 GO); exact GS|].
    destruct (Z.eq_dec x c) as [->|NE]; [|left; rewrite OT by exact NE; exact GS]. right. eapply keep_shut; [exact KC | eapply FX, IN].
  - intros a b IN. destruct (exec_stk_cases _ _ _ _ _ X NC x) as [(-> & Q)|[(_ & H & _)|(NE & Q & NS)]]; [| destruct (XN H) | ]; rewrite Q in IN.
    + assert (IN' : In (FExitGen a b) (fs ++ rest)) by (destruct k; try (cbn in IN; rewrite zupd_eq in IN; exact IN); destruct IN).
      apply in_app_or in IN'. destruct IN' as [I1|I1]; [|eapply keep_shut; [exact KC | eapply FX, SUB, I1]].
      destruct GO as [GO|(a0 & t & _ & _ & NO)]; [|destruct (NO _ _ I1)]. destruct GS as [GS|GS]; [|eapply keep_shut; eassumption].
      eapply keep_shut; [apply ctl_keepch | eapply (proj1 GO); eassumption].
    + cbn in IN. rewrite zupd_neq in IN by exact NE. eapply keep_shut; [exact KC | eapply FX, IN].
Qed.
Lemma fed_new : forall s c n k d sch md nc N g, gen (cof (ctl_dat c n k d) n) = Some g -> isch (ctl_dat c n k d) g -> In n (started N) -> ~ (exists a b, In (FExitGen a b) (stk sch n)) ->
  fed (mkst sch (ctl_dat c n k d) md (now s) nc N) n g.
Proof. intros s c n k d sch md nc N g G I ST NX. unfold fed. cbn [sc dt tr]. split; [exact ST|]. split; [exact I|]. split; [auto|]. intros a b IN. destruct NX. eauto. Qed.
(** somebody whose call has nothing left to do but return is not touched *)
Lemma idle_rbuf : forall s c KP KW d0 R P d x kk o, reach s -> fps c KP KW d0 R P d -> (forall n k, In n (q d0 k) -> In n (q (dt s) k)) -> cof d0 = cof (dt s) ->
  x <> c -> at_call s x [] kk o -> rbuf (cof d x) = rbuf (cof (dt s) x).
Proof.
  intros s c KP KW d0 R P d x kk o RE F Q0 C0 NE (st & SX & _). assert (NR : ~ In x R).
  { intros IN. destruct (fps_R _ _ _ _ _ _ _ F _ IN) as [E|(k & n & _ & PO & NC & IQ)]; [exact (NE E)|]. pose proof (reach_qloc _ RE n k (popq_waitq _ PO) (Q0 _ _ IQ)) as MA.
    rewrite NC in MA. unfold matched in MA. rewrite SX in MA. exact MA. }
  destruct (fps_cof _ _ _ _ _ _ _ F x NE NR) as [H|H]; rewrite H, C0; reflexivity.
Qed.
Lemma ctl_rbuf : forall c n k d x, x <> n -> x <> c -> rbuf (cof (ctl_dat c n k d) x) = rbuf (cof d x).
Proof. intros c n k d x N1 N2. destruct k; try reflexivity. cbn [ctl_dat]. rewrite spawn_cof by exact N1. apply Z.eqb_neq in N2. rewrite N2. reflexivity. Qed.
Lemma at_notfresh : forall s x w kk o, full s -> at_call s x w kk o -> x <> nextid (sc s) + 1.
Proof. intros s x w kk o F (st & SX & _) ->. rewrite (stk_fresh _ F) in SX. destruct w; discriminate SX. Qed.
Lemma start_old : forall s p y, reach s -> In (TStart p y) (tr s) -> y <> nextid (sc s) + 1.
Proof.
  intros s p y RE IN ->. assert (H : In (nextid (sc s) + 1) (started (tr s))) by (clear -IN; induction (tr s) as [|z l IH]; [destruct IN|]; destruct IN as [->|IN]; [left; reflexivity|]; destruct z; cbn; auto).
  apply (ti_ids _ (reach_tinv _ RE)) in H. lia.
Qed.
Lemma nochmake : forall w cap, shape (OpChMake cap) w -> w = [].
Proof. intros w cap SH. inversion SH. reflexivity. Qed.
Lemma nogenstart : forall w, shape OpGenStart w -> w = [].
Proof. intros w SH. inversion SH. reflexivity. Qed.

Lemma good_ext : forall G G' ch s, reach s -> (forall k c o tm, In (TCall k c o tm) (tr s) -> G c = G' c) -> good G' ch s -> good G ch s.
Proof.
  intros G G' ch s RE H [SI|(NO & PL & NH)]; [left; eapply simple_ext; [intros; symmetry; eapply H; eassumption | exact SI] | right].
  split; [exact NO|]. split; [exact PL|]. intros HU. apply NH. eapply hurt_ext; eassumption.
Qed.
Lemma call_good : forall G s c o d fs k sch md ch, reach s -> mode s = MUser -> cur (sc s) = Some c -> ustack (stk (sc s) c) -> hcall c o (now s) (dt s) = (d, fs, k) ->
  exec c k (set_stk (zupd (stk (sc s)) c (fs ++ FApi (ncalls s) o :: stk (sc s) c)) (sc s)) = (sch, md) -> good G ch (callst s c o d fs k sch md) ->
  good G ch s /\ (uses G ch c o -> canceled (cof (dt s) c) = false \/ ~ (fs = [] /\ k = CRet ECANCELED)) /\
  (uses G ch c o -> forall f, f = FSendWait ch \/ f = FRecvWait ch -> ~ cut c f (dt s) d fs k).
Proof.
  intros G s c o d fs k sch md ch RE M CU U E X [SI|(NO & PL & NH)].
  - assert (SI1 : simple_on G ch (tr s)) by (cbn [callst tr] in SI; do 3 apply simple_old in SI; exact SI).
    split; [left; exact SI1|]. split.
    + intros US. left. apply spared_flag; [exact RE|]. pose proof (proj2 (proj1 SI) _ _ _ _ (call_tr_new s c o fs k) US) as SP. cbn [callst tr] in SP. unfold call_tr in SP. do 3 apply spared_old in SP. exact SP.
    + intros _ f _ (DE & _). destruct (reach_dld _ RE (proj1 (proj1 SI1)) c DE) as (g & rest & TP & WF & _).
      inversion U as [EQ|k0 st U0 EQ|st EQ]; rewrite <- EQ in TP; cbn in TP; injection TP as <- _; discriminate WF.
  - split.
    + right. split; [rewrite M; exact (fun z => z)|]. split; [cbn [callst tr] in PL; do 3 apply plain_old in PL; exact PL|]. intros HU. apply NH. eapply hurt_call; eassumption.
    + split; [intros US; right; eapply sound_entry; eassumption | intros _; eapply sound_cut; eassumption].
Qed.
Lemma tick_good : forall G s c v f rest b d fs k sch md ch, reach s -> gyw G s -> mode s = MRet v -> cur (sc s) = Some c -> stk (sc s) c = f :: rest -> lstack (f :: rest) ->
  hret c f v b (now s) (dt s) = (d, fs, k) -> exec c k (set_stk (zupd (stk (sc s)) c (fs ++ rest)) (sc s)) = (sch, md) -> good G ch (tickst s c v f d fs k sch md) -> good G ch s.
Proof.
  intros G s c v f rest b d fs k sch md ch RE GY M CU SK L E X [SI|(NO & PL & NH)].
  - left. cbn [tickst tr] in SI. do 3 apply simple_old in SI. exact SI.
  - right. split; [rewrite M; exact (fun z => z)|]. split; [cbn [tickst tr] in PL; do 3 apply plain_old in PL; exact PL|]. intros HU. apply NH. eapply hurt_tick; eassumption.
Qed.

Definition chans_ok (s : state) : Prop :=
  exists G, ginv G s /\ (forall ch, good G ch s -> ordered G ch (tr s) /\ (~ over (mode s) -> fi G ch s)) /\
    (forall ch, plain_on ch (tr s) -> covered G ch (tr s) /\ (~ over (mode s) -> pv G ch s)).
Lemma given_ext : forall G G' ch t, (forall k c o tm, In (TCall k c o tm) t -> G c = G' c) -> given G ch t = given G' ch t.
Proof. intros G G' ch t H. unfold given. rewrite (calls_of_ext _ (put_of G ch) (put_of G' ch)); [reflexivity|]. intros. apply put_ext. eapply H; eassumption. Qed.

Lemma call_chans : forall s c o d fs k sch md, reach s -> chans_ok s -> mode s = MUser -> cur (sc s) = Some c -> ustack (stk (sc s) c) ->
  hcall c o (now s) (dt s) = (d, fs, k) -> exec c k (set_stk (zupd (stk (sc s)) c (fs ++ FApi (ncalls s) o :: stk (sc s) c)) (sc s)) = (sch, md) ->
  reach (callst s c o d fs k sch md) -> chans_ok (callst s c o d fs k sch md).
Proof.
  intros s c o d fs k sch md RE (G & GI & FI & FPV) M CU U E X RE'. set (s' := callst s c o d fs k sch md) in *. set (n := nextid (sc s) + 1).
  pose proof (reach_full _ RE) as F. pose proof (cur_notfresh _ _ F CU) as NC. fold n in NC. pose proof (hcall_prims _ _ _ _ _ _ _ E) as PR. assert (NO : ~ over (mode s)) by (rewrite M; exact (fun z => z)).
  assert (HF : forall g, G n <> Some g) by (intros g EG; destruct (g7 _ _ GI _ _ EG) as (H & _); apply (ti_ids _ (reach_tinv _ RE)) in H; unfold n in H; lia).
  assert (GN : gen (cof (dt s) n) = None) by (destruct (gen (cof (dt s) n)) as [g|] eqn:EG; [|reflexivity]; apply (g1 _ _ GI) in EG; exfalso; apply (HF _ EG)).
  destruct (ctl_grow s c n k _ RE PR GN) as (HG & HN2 & HM). assert (HN : forall g, gen (cof (ctl_dat c n k d) n) = Some g -> (nchan (dt s) <= g < nchan (ctl_dat c n k d))%nat) by (intros g EG; apply HN2, EG). change (ctl_dat c n k d) with (dt s') in *.
  assert (CA : forall j y p tm, In (TCall j y p tm) (tr s') -> G y = grow G (dt s') y).
  { intros j y p tm IN. symmetry. apply (grow_eq G s s' n GI HG). intros ->. apply call_tr_calls in IN. destruct IN as [(_ & H & _)|IN]; [congruence | exact (nocalls_new _ RE _ _ _ IN)]. }
  assert (OLD : forall z, In z (tr s) -> In z (tr s')) by (intros z; apply call_tr_old).
  assert (TE : exists l, tr s' = l ++ tr s) by (unfold s', callst, call_tr; cbn [tr]; eexists; rewrite !app_assoc; reflexivity).
  assert (NIL : forall x kk p, at_call s x [] kk p -> ~ handing p -> False).
  { intros x kk p AC NH. destruct (at_ret _ _ _ _ RE AC NH NO) as (_ & v & MV). congruence. }
  exists (grow G (dt s')). split; [|split].
  - constructor.
    + intros x g. apply grow_1.
    + exact (grow_2 G s s' n GI HG HF HN HM).
    + intros kk cc cap v t IN. apply call_tr_rets in IN. apply (grow_made G s s' n GI HG HF HN HM). eapply g3; eassumption.
    + intros x kk cap AC MD. destruct (call_at _ _ _ _ _ _ _ _ _ _ _ _ F CU U E X AC) as [(-> & EF & -> & <- & SH & NF)|(NE & A0)]; [|destruct (NIL _ _ _ A0 (fun z => z))].
      cbn [hcall] in E. unfold do_chmake in E. destruct (_ || _); injection E as <- <- <-.
      * cbn in X. injection X as <- <-. discriminate MD.
      * exists (nchan (dt s)). split; [cbn; unfold upco; cbn; rewrite zupd_eq; reflexivity|]. split; [cbn; lia|]. intros x EQ. unfold grow in EQ. destruct (gen (cof (dt s') x)) as [g|] eqn:EG.
        -- injection EQ as ->. assert (EG0 : gen (cof (dt s) x) = Some (nchan (dt s))) by (eapply prims_gen; [exact PR | exact EG]). apply (g1 _ _ GI) in EG0. apply (g2 _ _ GI) in EG0. lia.
        -- apply (g2 _ _ GI) in EQ. lia.
    + intros x w kk m dl ch AC IW. rewrite (grow_eq G s s' n GI HG). 2:{ intros ->. destruct (call_at _ _ _ _ _ _ _ _ _ _ _ _ F CU U E X AC) as [(H & _)|(NE & A0)]; [congruence | exact (at_notfresh _ _ _ _ _ F A0 eq_refl)]. }
      destruct (call_at _ _ _ _ _ _ _ _ _ _ _ _ F CU U E X AC) as [(-> & -> & -> & <- & SH & NF)|(NE & A0)]; [|eapply (g4 _ _ GI); eassumption].
      cbn [hcall] in E. unfold do_genyield in E. destruct (gen (cof (dt s) c)) as [g|] eqn:EG; [|injection E as <- <- <-; destruct IW]. rewrite (g1 _ _ GI _ _ EG).
      unfold do_send in E. repeat match type of E with (if ?b then _ else _) = _ => destruct b; [injection E as <- <- <-; destruct IW|] end.
      destruct (send_loop g m _ (dt s)) as [[r|] d1]; [injection E as <- <- <-; destruct IW as [D|[]]; discriminate D|]. destruct (_ <? _); [injection E as <- <- <-; destruct IW|].
      destruct (copause_cases _ _ _ _ _ _ _ E) as [HP|HP]; intuition (subst; cbn in *; intuition congruence).
    + intros kk cc v t IN. apply call_tr_rets in IN. eapply (grow_feeds G s s' n GI HG); [intros y; apply start_old; exact RE | exact TE | eapply g5; eassumption].
    + intros x kk AC. destruct (call_at _ _ _ _ _ _ _ _ _ _ _ _ F CU U E X AC) as [(-> & EF & -> & <- & SH & NF)|(NE & A0)].
      * cbn [hcall] in E. injection E as <- <- <-. destruct (spawn_genstart c n (dt s)) as [S1 S2]; [congruence|]. exists (nchan (dt s)), n. split; [exact S1|]. split; [apply grow_1; exact S2|]. exists [], (tr s), (now s). reflexivity.
      * destruct (hcall_fp _ _ _ _ _ _ _ (ncalls s) (stk (sc s) c) E) as (R & P & FP & _). pose proof (idle_rbuf _ _ _ _ _ _ _ _ _ _ _ RE FP (fun _ _ H => H) eq_refl NE A0) as RB.
        assert (RB' : rbuf (cof (dt s') x) = rbuf (cof (dt s) x)) by (rewrite <- RB; apply ctl_rbuf; [exact (at_notfresh _ _ _ _ _ F A0) | exact NE]).
        rewrite RB'. eapply (grow_feeds G s s' n GI HG); [intros y; apply start_old; exact RE | exact TE | eapply g5p; eassumption].
    + exact (grow_6 G s s' n GI HG HF HN HM).
    + intros x g EG. destruct (grow_cases G s s' n GI HG HF HN _ _ EG) as [(NE & H)|(-> & H & _)].
      * eapply (fed_exec s c d fs (FApi (ncalls s) o :: stk (sc s) c)); [exact RE | exact (g7 _ _ GI _ _ H) | exact CU | exact PR | left; destruct (hcall_gout _ _ _ _ _ _ _ (proj1 (reach_chinv _ RE)) E); split; assumption | | | exact X].
        -- intros a b [D|IN]; [discriminate D | exact IN].
        -- intros z IZ. rewrite ?started_calls, ?started_tick. apply in_or_app. auto.
      * destruct (HN2 _ H) as (_ & H2 & H3). apply fed_new; [exact H | exact H2 | subst k; left; reflexivity|].
        intros (a & b & IN). destruct (exec_stk_cases _ _ _ _ _ X NC n) as [(D & _)|[(_ & _ & _ & Q)|(_ & _ & NS)]]; [congruence | rewrite Q in IN; destruct IN as [D|[]]; discriminate D | eapply NS; [exact H3 | reflexivity]].
  - intros ch SI. assert (SI0 : good G ch s') by (eapply good_ext; eassumption).
    destruct (call_good _ _ _ _ _ _ _ _ _ _ RE M CU U E X SI0) as (SI1 & CN & HD).
    assert (FF : fi G ch s') by (eapply call_fi; try eassumption; [eapply good_unhurt; try eassumption; [apply (g4 _ _ GI) | congruence] | apply (good_plain _ _ _ SI0) | intros g; apply (g1 _ _ GI) | apply (g4 _ _ GI) | apply FI; assumption]).
    assert (FF' : fi (grow G (dt s')) ch s') by (eapply fi_ext; eassumption). split; [apply fi_ordered; assumption | intros _; exact FF'].
  - intros ch PL. assert (PV : pv G ch s') by (eapply call_pv; try eassumption; [intros g; apply (g1 _ _ GI) | apply FPV; [|exact NO]]; intros j y p tm IN; apply (PL j y p tm); apply OLD, IN).
    apply (pv_given G (grow G (dt s'))) in PV; [|apply given_ext; exact CA]. split; [apply pv_covered, PV | intros _; exact PV].
Qed.

Lemma tick_chans : forall s c v f rest b d fs k sch md, reach s -> chans_ok s -> mode s = MRet v -> cur (sc s) = Some c -> stk (sc s) c = f :: rest -> lstack (f :: rest) ->
  hret c f v b (now s) (dt s) = (d, fs, k) -> exec c k (set_stk (zupd (stk (sc s)) c (fs ++ rest)) (sc s)) = (sch, md) ->
  reach (tickst s c v f d fs k sch md) -> chans_ok (tickst s c v f d fs k sch md).
Proof.
  intros s c v f rest b d fs k sch md RE (G & GI & FI & FPV) M CU SK L E X RE'. set (s' := tickst s c v f d fs k sch md) in *. set (n := nextid (sc s) + 1).
  pose proof (reach_full _ RE) as F. pose proof (cur_notfresh _ _ F CU) as NC. fold n in NC. pose proof (hret_prims _ _ _ _ _ _ _ _ _ E) as PR. assert (NO : ~ over (mode s)) by (rewrite M; exact (fun z => z)).
  assert (HF : forall g, G n <> Some g) by (intros g EG; destruct (g7 _ _ GI _ _ EG) as (H & _); apply (ti_ids _ (reach_tinv _ RE)) in H; unfold n in H; lia).
  assert (GN : gen (cof (dt s) n) = None) by (destruct (gen (cof (dt s) n)) as [g|] eqn:EG; [|reflexivity]; apply (g1 _ _ GI) in EG; exfalso; apply (HF _ EG)).
  destruct (ctl_grow s c n k _ RE PR GN) as (HG & HN2 & HM). assert (HN : forall g, gen (cof (ctl_dat c n k d) n) = Some g -> (nchan (dt s) <= g < nchan (ctl_dat c n k d))%nat) by (intros g EG; apply HN2, EG). change (ctl_dat c n k d) with (dt s') in *.
  assert (CA : forall j y p tm, In (TCall j y p tm) (tr s') -> G y = grow G (dt s') y).
  { intros j y p tm IN. symmetry. apply (grow_eq G s s' n GI HG). intros ->. apply tick_tr_calls in IN. exact (nocalls_new _ RE _ _ _ IN). }
  assert (OLD : forall z, In z (tr s) -> In z (tr s')) by (intros z; apply tick_tr_old).
  assert (TE : exists l, tr s' = l ++ tr s) by (unfold s', tickst, tick_tr; cbn [tr]; eexists; rewrite !app_assoc; reflexivity).
  assert (NIL : forall x kk p, x <> c -> at_call s x [] kk p -> ~ handing p -> False).
  { intros x kk p NE AC NH. destruct (at_ret _ _ _ _ RE AC NH NO) as (CX & _). congruence. }
  assert (API : forall kk p, f = FApi kk p -> at_call s c [] kk p) by (intros kk p ->; exists rest; split; [exact SK | constructor]).
  exists (grow G (dt s')). split; [|split].
  - constructor.
    + intros x g. apply grow_1.
    + exact (grow_2 G s s' n GI HG HF HN HM).
    + intros kk cc cap w t IN. apply (grow_made G s s' n GI HG HF HN HM). apply tick_tr_rets in IN. destruct IN as [IN|(EF & -> & <- & -> & _)]; [eapply g3; eassumption|].
      eapply g3p; [exact GI | apply API, EF | exact M].
    + intros x kk cap AC MD. destruct (tick_at _ _ _ _ _ _ _ _ _ _ _ _ _ _ _ F CU SK L E X AC) as [(-> & NF & w1 & EF & SH & A0)|[(-> & _ & _ & D)|(NE & A0)]]; [|discriminate D | destruct (NIL _ _ _ NE A0 (fun z => z))].
      destruct A0 as (st & _ & SH0). apply nochmake in SH0. discriminate SH0.
    + intros x w kk m dl ch AC IW. rewrite (grow_eq G s s' n GI HG). 2:{ intros ->. destruct (tick_at _ _ _ _ _ _ _ _ _ _ _ _ _ _ _ F CU SK L E X AC) as [(H & _)|[(H & _)|(NE & A0)]]; [congruence | congruence | exact (at_notfresh _ _ _ _ _ F A0 eq_refl)]. }
      destruct (tick_at _ _ _ _ _ _ _ _ _ _ _ _ _ _ _ F CU SK L E X AC) as [(-> & NF & w1 & -> & SH & A0)|[(-> & _ & _ & D)|(NE & A0)]]; [|discriminate D | eapply (g4 _ _ GI); eassumption].
      assert (FS : fs = []). { destruct A0 as (st & _ & SH0). inversion SH0 as [| | | | | | | | | | |? ? ? ? PZ| | | | | | | | | | | | | | | | | | | | | | | | | | |]; subst; [|inversion PZ; subst]; cbn [hret] in E; unfold send_end in E; clear -E;
          try (destruct (checkdl _ _ _ _) as [v0 d0]); injection E as <- <- <-; reflexivity. }
      subst fs. cbn [app] in IW. eapply (g4 _ _ GI); [exact A0 | right; exact IW].
    + intros kk cc w t IN. apply tick_tr_rets in IN. eapply (grow_feeds G s s' n GI HG); [intros y; apply start_old; exact RE | exact TE|]. destruct IN as [IN|(EF & -> & <- & -> & _)]; [eapply g5; eassumption|].
      eapply g5p; [exact GI | apply API, EF].
    + intros x kk AC. destruct (tick_at _ _ _ _ _ _ _ _ _ _ _ _ _ _ _ F CU SK L E X AC) as [(-> & NF & w1 & EF & SH & A0)|[(-> & _ & _ & D)|(NE & A0)]]; [|discriminate D|].
      * destruct A0 as (st & _ & SH0). apply nogenstart in SH0. discriminate SH0.
      * destruct (hret_fp _ _ _ _ _ _ _ _ _ [] E) as (R & P & FP & _). pose proof (idle_rbuf _ _ _ _ _ _ _ _ _ _ _ RE FP (fun m0 k0 => leave_in f c (dt s) k0 m0) (proj1 (proj2 (leave_chn _ _ _))) NE A0) as RB.
        assert (RB' : rbuf (cof (dt s') x) = rbuf (cof (dt s) x)) by (rewrite <- RB; apply ctl_rbuf; [exact (at_notfresh _ _ _ _ _ F A0) | exact NE]).
        rewrite RB'. eapply (grow_feeds G s s' n GI HG); [intros y; apply start_old; exact RE | exact TE | eapply g5p; eassumption].
    + exact (grow_6 G s s' n GI HG HF HN HM).
    + intros x g EG. destruct (grow_cases G s s' n GI HG HF HN _ _ EG) as [(NE & H)|(-> & H & _)].
      * eapply (fed_exec s c d fs rest); [exact RE | exact (g7 _ _ GI _ _ H) | exact CU | exact PR | | | | exact X].
        -- destruct (hret_gout _ _ _ _ _ _ _ _ _ (proj1 (reach_chinv _ RE)) E) as [GO|[(a & t & -> & _ & OT & NX)|(a & -> & -> & ->)]]; [left; destruct GO; split; assumption | right; exists a, t; split; [rewrite SK; left; reflexivity | auto]|].
           left. split; [intros a0 b0 [] | reflexivity].
        -- intros a b0 IN. rewrite SK. right. exact IN.
        -- intros z IZ. rewrite ?started_calls, ?started_tick. apply in_or_app. auto.
      * destruct (HN2 _ H) as (_ & H2 & H3). apply fed_new; [exact H | exact H2 | subst k; left; reflexivity|].
        intros (a & b0 & IN). destruct (exec_stk_cases _ _ _ _ _ X NC n) as [(D & _)|[(_ & _ & _ & Q)|(_ & _ & NS)]]; [congruence | rewrite Q in IN; destruct IN as [D|[]]; discriminate D | eapply NS; [exact H3 | reflexivity]].
  - intros ch SI. assert (SI0 : good G ch s') by (eapply good_ext; eassumption).
    assert (SI1 : good G ch s) by (eapply tick_good; try eassumption; apply (g4 _ _ GI)).
    assert (FF : fi G ch s') by (eapply tick_fi; try eassumption; [eapply good_unhurt; try eassumption; [apply (g4 _ _ GI) | congruence] | apply (g4 _ _ GI) | apply FI; assumption]).
    assert (FF' : fi (grow G (dt s')) ch s') by (eapply fi_ext; eassumption). split; [apply fi_ordered; assumption | intros _; exact FF'].
  - intros ch PL. assert (PL0 : plain_on ch (tr s)) by (intros j y p tm IN; apply (PL j y p tm); apply OLD, IN).
    assert (PV : pv G ch s') by (eapply tick_pv; try eassumption; [apply (g4 _ _ GI) | apply FPV; assumption]).
    apply (pv_given G (grow G (dt s'))) in PV; [|apply given_ext; exact CA]. split; [apply pv_covered, PV | intros _; exact PV].
Qed.

Lemma ginv_same : forall G s s', ginv G s -> (forall x w k o, at_call s' x w k o -> at_call s x w k o) -> (forall x, gen (cof (dt s') x) = gen (cof (dt s) x) /\ rbuf (cof (dt s') x) = rbuf (cof (dt s) x)) ->
  (nchan (dt s) <= nchan (dt s'))%nat -> (mode s' = mode s \/ forall x k cap, ~ at_call s x [] k (OpChMake cap)) ->
  (forall k c o r v t, In (TRet k c o r v t) (tr s') -> In (TRet k c o r v t) (tr s)) -> (exists l, tr s' = l ++ tr s) -> stk (sc s') = stk (sc s) -> keepch (dt s) (dt s') -> ginv G s'.
Proof.
  intros G s s' [G1 G2 G3 G3P G4 G5 G5P G6 G7] AT CO N MD TR [l0 OLD] SK KC. assert (MA : forall v, made G (dt s) v -> made G (dt s') v) by (intros v (g & -> & LT & NG); exists g; repeat split; [lia | exact NG]).
  assert (FE : forall k p v, feeds G (tr s) k p v -> feeds G (tr s') k p v) by (intros k p v (g & y & -> & GY & l1 & l2 & tm & EQ); exists g, y; repeat split; [exact GY|]; exists (l0 ++ l1), l2, tm; rewrite OLD, EQ, app_assoc; reflexivity).
  constructor.
  - intros x g E. apply G1. rewrite <- E. symmetry. apply CO.
  - intros x g E. apply G2 in E. lia.
  - intros k c cap v t IN. apply MA. eapply G3, TR, IN.
  - intros c k cap AC MV. apply AT in AC. destruct MD as [MD|MD]; [|destruct (MD _ _ _ AC)]. rewrite (proj2 (CO c)). apply MA. eapply G3P; [exact AC | congruence].
  - intros x w k m dl ch AC. apply AT in AC. eapply G4, AC.
  - intros k c v t IN. apply FE. eapply G5, TR, IN.
  - intros c k AC. apply AT in AC. rewrite (proj2 (CO c)). apply FE. eapply G5P, AC.
  - exact G6.
  - intros x g E. destruct (G7 _ _ E) as (A1 & A2 & A3 & A4). unfold fed. rewrite (proj1 (CO x)), SK. split; [rewrite OLD, started_app; apply in_or_app; auto|]. split; [eapply keep_isch; eassumption|].
    split; [destruct A3 as [A3|A3]; [auto | right; eapply keep_shut; eassumption]|]. intros a b IN. eapply keep_shut; [exact KC | eapply A4, IN].
Qed.
Lemma env_chan : forall s e ch, reach s -> match e with ECall _ | ETick _ | EMain _ => False | _ => True end -> newok ch (dt s) -> quietc ch (dt s) (dt (step s e)).
Proof.
  intros s e ch RE H NW. assert (QQ : q (dt (step s e)) (QChan ch) = q (dt s) (QChan ch)).
  { destruct (env_q s e H) as [Q|(c & _ & _ & (w0 & SX0) & Q)]; rewrite Q; [reflexivity|]. unfold pushq, rmq. cbn. unfold qupd. cbn. apply filter_keepall. intros n IN.
    pose proof (reach_qloc _ RE n (QChan ch) Logic.I IN) as MA. unfold matched in MA. unfold node_eqb. destruct n as [x|]; [|reflexivity]. destruct (Z.eqb_spec c x) as [->|]; [|reflexivity]. cbn in MA. rewrite SX0 in MA. destruct MA. }
  assert (NIL : (nchan (dt s) <= ch)%nat -> q (dt s) (QChan ch) = []) by (intros LE; apply (ck_nil _ _ (proj1 (proj1 (reach_chinv _ RE)) ch)); apply (proj1 (proj2 (proj1 (reach_chinv _ RE)))); exact LE).
  unfold quietc, clo. rewrite QQ. clear QQ.
  assert (C : (chn (dt (step s e)) ch = chn (dt s) ch /\ nchan (dt (step s e)) = nchan (dt s)) \/ (nchan (dt s) <= ch /\ buf (chn (dt (step s e)) ch) = [] /\ rclosed (chn (dt (step s e)) ch) = false /\ sclosed (chn (dt (step s e)) ch) = false /\ nchan (dt s) <= nchan (dt (step s e)))%nat \/ (chn (dt (step s e)) ch = chn (dt s) ch /\ nchan (dt s) <= nchan (dt (step s e)))%nat).
  { destruct e; try contradiction; cbn [step]; unfold set_now, set_dt;
      repeat match goal with |- context [if ?b then _ else _] => destruct b eqn:? | |- context [match mode ?z with _ => _ end] => destruct (mode z) | |- context [match stk (sc ?z) ?c with _ => _ end] => destruct (stk (sc z) c) as [|[] ?] end; auto.
    right. cbn. unfold nupd. destruct (Nat.eqb_spec ch (nchan (dt s))) as [->|]; cbn; [left; repeat split; lia | right; auto]. }
  destruct C as [[-> ->]|[(LE & B & R & SC & N)|[-> N]]]; [repeat split; auto | | repeat split; auto]. destruct (NW LE) as [NB NR]. rewrite B, R, SC, NB, NR, (NIL LE). repeat split; auto; congruence.
Qed.

Theorem reach_chans : forall s, reach s -> chans_ok s.
Proof.
  intros s RE. enough (H : reach s -> chans_ok s) by (apply H, RE). revert s RE. apply (rrun_preserves (fun s => reach s -> chans_ok s)).
  - intros s c o d fs k sch md RE I M CU U NR E X RE'. exact (call_chans _ _ _ _ _ _ _ _ RE (I RE) M CU U E X RE').
  - intros s c v f rest b d fs k sch md RE I M CU SK L E X RE'. exact (tick_chans _ _ _ _ _ _ _ _ _ _ _ RE (I RE) M CU SK L E X RE').
  - intros s d ws sch md ios RE I M A K X RE'. destruct (I RE) as (G & GI & FI & FPV). clear I. pose proof (mp_main _ _ _ _ _ _ _ K) as MP. destruct (mprims_chn _ _ MP) as (E1 & E2 & E3).
    apply sco_switch_frame in X. destruct X as (X1 & _). destruct (wakes_frame ws (sc s)) as (W0 & _). set (s' := mkst _ _ _ _ _ _) in *.
    assert (SK : stk (sc s') = stk (sc s)) by (cbn; congruence). assert (NO : ~ over (mode s)) by (rewrite M; exact (fun z => z)).
    assert (AT : forall x w k o, at_call s x w k o <-> at_call s' x w k o) by (intros; unfold at_call; rewrite SK; tauto).
    assert (CO : forall x, (gen (cof (dt s') x), rbuf (cof (dt s') x), smsg (cof (dt s') x), cclosed (cof (dt s') x)) = (gen (cof (dt s) x), rbuf (cof (dt s) x), smsg (cof (dt s) x), cclosed (cof (dt s) x))).
    { intros x. cbn [dt s']. eapply (mprims_const _ (fun d0 => (gen (cof d0 x), rbuf (cof d0 x), smsg (cof d0 x), cclosed (cof d0 x)))); [|exact MP]. intros a b H. inversion H; subst; cbn; try reflexivity; unfold upco; cbn; unfold zupd; destruct (_ =? _) eqn:EQ; try reflexivity; apply Z.eqb_eq in EQ; subst; reflexivity. }
    assert (QC : forall ch, quietc ch (dt s) (dt s')) by (intros ch; unfold quietc, clo; cbn [dt s']; rewrite E1, E2, (mprims_wq _ _ _ MP) by exact Logic.I; repeat split; auto).
    exists G. split; [|split; [intros ch SI0 | intros ch PL]].
    + eapply ginv_same; [exact GI | intros; apply AT; assumption | intros x; specialize (CO x); injection CO as C1 C2 _ _; auto | cbn [dt s']; lia | | auto | exists []; reflexivity | exact SK | apply mprims_keepch, MP].
      right. intros x k cap AC. destruct (at_ret _ _ _ _ RE AC (fun z => z) NO) as (_ & v & MV). congruence.
    + assert (SI : good G ch s).
      { destruct SI0 as [SI|(_ & PL & NH)]; [left; exact SI | right]. split; [exact NO|]. split; [exact PL|]. intros HU. apply NH. eapply hurt_main; [exact M | exact SK | reflexivity | exact HU]. }
      split; [apply FI; exact SI|]. intros _. apply (fi_still G s); [exact RE | exact NO | eapply good_plain; exact SI | apply FI; assumption | exact AT | intros x; specialize (CO x); injection CO as _ C2 C3 C4; repeat split; assumption | apply QC | right; congruence | auto | auto].
    + split; [apply (FPV ch PL)|]. intros _. apply (pv_still G s); [exact RE | exact NO | exact PL | apply FPV; assumption | exact AT | intros x; specialize (CO x); injection CO as _ C2 C3 C4; repeat split; assumption | apply QC | right; congruence | reflexivity | reflexivity].
  - intros s m RE I HM RE'. destruct (I RE) as (G & GI & FI & FPV). exists G. assert (NR : mode (set_mode m s) = MRet OK -> mode s = MUser) by (intros MD; cbn in MD; subst m; destruct HM as [[_ HM]|[(HM & _)|[(j & HM)|HM]]]; try discriminate HM; exact HM).
    split; [|split; [intros ch SI0 | intros ch PL]].
    + destruct GI as [G1 G2 G3 G3P G4 G5 G5P G6 G7]. constructor; auto. intros c k cap AC MD. exfalso. apply NR in MD. destruct (at_ret s _ _ _ RE AC (fun z => z)) as (_ & v & MV); [rewrite MD; exact (fun z => z) | congruence].
    + assert (SI : good G ch s).
      { destruct SI0 as [SI|(NO & PL & NH)]; [left; exact SI | right]. destruct HM as [[EM HM]|[(-> & _)|[(j & ->)| ->]]]; try (destruct (NO Logic.I)).
        split; [rewrite HM; exact (fun z => z)|]. split; [exact PL|]. intros HU. apply NH. eapply hurt_mode; [exact HM | rewrite EM; discriminate | exact HU]. }
      split; [apply FI; exact SI|]. intros NU. destruct HM as [[EM HM]|[(-> & _)|[(j & ->)| ->]]]; try (destruct (NU Logic.I)). assert (NO : ~ over (mode s)) by (rewrite HM; exact (fun z => z)).
      apply (fi_still G s); [exact RE | exact NO | eapply good_plain; exact SI | apply FI; assumption | intros; tauto | intros; apply same3_refl | apply quietc_refl | right; congruence | auto | auto].
    + split; [apply (FPV ch PL)|]. intros NU. destruct HM as [[EM HM]|[(-> & _)|[(j & ->)| ->]]]; try (destruct (NU Logic.I)). assert (NO : ~ over (mode s)) by (rewrite HM; exact (fun z => z)).
      apply (pv_still G s); [exact RE | exact NO | exact PL | apply FPV; assumption | intros; tauto | intros; apply same3_refl | apply quietc_refl | right; congruence | reflexivity | reflexivity].
  - intros s e RE I H M RE'. destruct (I RE) as (G & GI & FI & FPV). destruct (env_frame s e H) as (E1 & _). exists G.
    assert (AT : forall x w k o, at_call s x w k o <-> at_call (step s e) x w k o) by (intros; unfold at_call; rewrite E1; tauto).
    assert (TR : forall k c o r v t, In (TRet k c o r v t) (tr (step s e)) -> In (TRet k c o r v t) (tr s)) by (intros k c o r v t IN; apply env_tr_in in IN; [|exact H]; destruct IN as [IN|(y & j & D)]; [exact IN | discriminate D]).
    pose proof (fun z => env_tr_old s e z H) as OLD.
    split; [|split; [intros ch SI | intros ch PL]].
    + eapply ginv_same; [exact GI | intros; apply AT; assumption | intros x; rewrite (env_cof s e H); auto | | auto | exact TR | destruct (env_tr s e H) as [Q|(y & Q)]; [exists [] | eexists [_]]; exact Q | exact E1 | apply env_keepch, H].
      clear -H M. destruct e; try contradiction; cbn [step]; unfold set_now, set_dt;
      repeat match goal with |- context [if ?b then _ else _] => destruct b eqn:? | |- context [match mode ?z with _ => _ end] => destruct (mode z) | |- context [match stk (sc ?z) ?c with _ => _ end] => destruct (stk (sc z) c) as [|[] ?] end; cbn; auto.
    + assert (SI0 : good G ch s).
      { destruct SI as [SI|(NO & PL & NH)]; [left | right].
        - destruct (env_tr s e H) as [Q|(y & Q)]; rewrite Q in SI; [exact SI | apply (simple_old _ _ [_]) in SI; exact SI].
        - rewrite M in NO. split; [exact NO|]. split; [destruct (env_tr s e H) as [Q|(y & Q)]; rewrite Q in PL; [exact PL | apply (plain_old _ [_]) in PL; exact PL]|].
          intros HU. apply NH. apply hurt_env; assumption. }
      destruct (FI ch SI0) as [OR FF]. split.
      * intros k c o v t IN IS. rewrite !live_env by exact H. eapply OR; [apply TR, IN | exact IS].
      * rewrite M. intros NU. apply (fi_still G s); [exact RE | exact NU | eapply good_plain; exact SI0 | auto | exact AT | intros x; rewrite (env_cof s e H); apply same3_refl | | auto | exact OLD | intros; apply live_env, H].
        apply env_chan; [exact RE | exact H|]. destruct (FF NU) as (V & Rs & Rq & Rx & Sa & Sx & FW). apply (f_new _ _ _ _ _ _ _ _ _ _ _ FW).
    + destruct (env_got G ch s e H) as [EG EP]. assert (PL0 : plain_on ch (tr s)) by (intros j y p tm IN; apply (PL j y p tm); apply OLD, IN). destruct (FPV ch PL0) as [CV PV]. split; [unfold covered; rewrite EG, EP; exact CV|].
      rewrite M. intros NU. apply (pv_still G s); [exact RE | exact NU | exact PL0 | auto | exact AT | intros x; rewrite (env_cof s e H); apply same3_refl | | auto | exact EG | exact EP].
      apply env_chan; [exact RE | exact H | apply (proj1 (PV NU))].
  - intros g O RE'. exists (fun _ => None). assert (NA : forall x w k o, ~ at_call (init g) x w k o).
    { intros x w k o (st & SX & _). cbn in SX. unfold zupd in SX. destruct (_ =? _); destruct w as [|? [|? ?]]; discriminate SX. }
    assert (FF : forall ch, fi (fun _ => None) ch (init g)).
    { intros ch. exists [], [], [], [], [], []. constructor; try constructor; cbn; auto. intros; contradiction. }
    assert (PV : forall ch, pv (fun _ => None) ch (init g)).
    { intros ch. split; [intros _; split; reflexivity|]. exists [], []. split; [intros x w k o A; destruct (NA _ _ _ _ A) | constructor]. }
    split; [|split; [intros ch SI; split; [apply fi_ordered; auto | auto] | intros ch _; split; [apply pv_covered, PV | auto]]]. constructor.
    + intros x gg. cbn. unfold zupd. destruct (_ =? _); discriminate.
    + discriminate.
    + intros k c cap v t [D|[]]; discriminate D.
    + intros c k cap AC; destruct (NA _ _ _ _ AC).
    + intros x w k m dl ch AC; destruct (NA _ _ _ _ AC).
    + intros k c v t [D|[]]; discriminate D.
    + intros c k AC; destruct (NA _ _ _ _ AC).
    + discriminate.
    + discriminate.
Qed.
