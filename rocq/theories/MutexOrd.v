(** The queue of a mutex is in arrival order, and nobody overtakes it. *)
From Coq Require Import List ZArith Bool Lia Sorting.Sorted.
From Verif Require Import AATreeSpec AATreeHist Util Runtime SchedInv StepInv StackShape RuntimeSpec TraceInv Immediate Prims StaticInv Footprint QueueInv OwnInv WaitInv DeadlineInv CallInv SpecInv TraceStep Wake Awake AllInv PausedInv ResultInv JoinInv PairedInv WaiterInv DldInv MutexSpec MutexW MutexEff MutexTok MutexRt MutexStep MutexInv.
Import ListNotations.
Local Open Scope Z_scope.

Definition lockb (o : op) (m : nat) : bool :=
  match o with OpTryLock m' | OpLock m' _ | OpTryRdLock m' | OpRdLock m' _ => Nat.eqb m' m | _ => false end.
Lemma lockb_lockop : forall o m, lockb o m = true <-> exists rd, lockop o m rd.
Proof.
  intros o m. destruct o; cbn; try (split; [discriminate | intros (rd & [])]); rewrite Nat.eqb_eq; (split; [intros ->; eexists; split; reflexivity | intros (rd & -> & _); reflexivity]).
Qed.
(** the number of the lock call a coroutine is in *)
Definition ck (m : nat) (st : list frame) : option nat :=
  match top st with
  | FLock m' :: FApi k o :: _ => if Nat.eqb m' m && lockb o m then Some k else None
  | FApi k o :: _ => if lockb o m then Some k else None
  | _ => None
  end.
(** lock calls that have returned NECO_OK *)
Definition won (m : nat) (T : list obs) (j : nat) : Prop := exists c o mm tm, In (TRet j c o OK mm tm) T /\ lockb o m = true.

Definition le1 (K : Z -> option nat) (a b : node) : Prop := forall i j, K (node_co a) = Some i -> K (node_co b) = Some j -> (i < j)%nat.
Record ord (Q : list node) (p : Z -> option bool) (K : Z -> option nat) (W : nat -> Prop) : Prop := {
  or_s : StronglySorted (le1 K) Q;
  or_p : forall x i, In (NCo x) Q -> K x = Some i -> forall y j, p y <> None -> K y = Some j -> (j < i)%nat;
  or_w : forall x i, In (NCo x) Q -> K x = Some i -> forall j, W j -> (j < i)%nat }.

Lemma ss_filter : forall A (R : A -> A -> Prop) f l, StronglySorted R l -> StronglySorted R (filter f l).
Proof.
  intros A R f l H. induction H as [|a l H IH F]; [constructor|]. cbn. destruct (f a); [|exact IH]. constructor; [exact IH|].
  rewrite Forall_forall in *. intros x IN. apply filter_In in IN. apply F, IN.
Qed.
Lemma ss_ext : forall A (R R' : A -> A -> Prop) l, StronglySorted R l -> (forall a b, In a l -> In b l -> R a b -> R' a b) -> StronglySorted R' l.
Proof.
  intros A R R' l H. induction H as [|a l H IH F]; intros E; [constructor|]. constructor; [apply IH; intros; apply E; try (right; assumption); assumption|].
  rewrite Forall_forall in *. intros x IN. apply E; [left; reflexivity | right; exact IN | auto].
Qed.
Lemma ss_app : forall A (R : A -> A -> Prop) l1 l2, StronglySorted R (l1 ++ l2) -> StronglySorted R l2 /\ forall a b, In a l1 -> In b l2 -> R a b.
Proof.
  intros A R l1 l2. induction l1 as [|x l1 IH]; cbn; intros H; [split; [exact H | intros a b []]|].
  apply StronglySorted_inv in H. destruct H as [H F]. destruct (IH H) as [S1 S2]. split; [exact S1|]. rewrite Forall_forall in F.
  intros a b [<-|IA] IB; [apply F, in_or_app; auto | auto].
Qed.
Lemma ss_snoc : forall A (R : A -> A -> Prop) l x, StronglySorted R l -> (forall a, In a l -> R a x) -> StronglySorted R (l ++ [x]).
Proof.
  intros A R l x H. induction H as [|a l H IH F]; intros E; cbn; [constructor; [constructor | constructor]|].
  constructor; [apply IH; intros; apply E; right; assumption|]. rewrite Forall_forall in *. intros y IN. apply in_app_or in IN. destruct IN as [IN|[<-|[]]]; [auto|]. apply E. left; reflexivity.
Qed.

Section OStep.
Variables (c : Z) (Q : list node) (p : Z -> option bool) (K : Z -> option nat) (W : nat -> Prop).
Variables (Q' : list node) (p' : Z -> option bool) (K' : Z -> option nat) (W' : nat -> Prop).
Hypothesis ND : forall n, In n Q -> n = NCo (node_co n).
Hypothesis OK0 : forall x, x <> c -> K' x = K x.
(** where the new queue comes from *)
Inductive qmove : list node -> Prop :=
| qm_same : Q' = Q -> K' c = K c -> qmove []
| qm_gone : Q' = filter (fun n => negb (node_eqb (NCo c) n)) Q -> qmove []
| qm_push : Q' = filter (fun n => negb (node_eqb (NCo c) n)) Q ++ [NCo c] -> p' c = None ->
    (forall i, K' c = Some i -> (forall x j, K x = Some j -> (j < i)%nat) /\ forall j, W j -> (j < i)%nat) -> qmove []
| qm_pop P : Q = P ++ Q' -> ~ In (NCo c) Q -> qmove P.
Lemma ord_step : forall P, ord Q p K W -> qmove P ->
  (forall y, y <> c -> p' y <> None -> p y <> None \/ In (NCo y) P) ->
  (forall j, p' c <> None -> K' c = Some j -> (p c <> None /\ K c = Some j) \/ Q' = []) ->
  (forall j, W' j -> W j \/ (p c <> None /\ K c = Some j)) -> ord Q' p' K' W'.
Proof.
  intros P [S1 S2 S3] QM PO PC WW.
  assert (KQ : forall n, n = NCo (node_co n) -> n <> NCo c -> K' (node_co n) = K (node_co n)) by (intros n -> H; apply OK0; cbn; congruence).
  assert (LE : forall l, (forall n, In n l -> In n Q /\ n <> NCo c) -> StronglySorted (le1 K) l -> StronglySorted (le1 K') l).
  { intros l SUB H. eapply ss_ext; [exact H|]. intros a b IA IB H1. destruct (SUB a IA) as [A1 A2]. destruct (SUB b IB) as [B1 B2]. unfold le1. rewrite !KQ by auto. exact H1. }
  assert (FI : forall n, In n (filter (fun n => negb (node_eqb (NCo c) n)) Q) <-> In n Q /\ n <> NCo c).
  { intros n. rewrite filter_In. destruct (node_eqb_spec (NCo c) n) as [<-|N]; cbn; intuition congruence. }
  assert (OLD : forall x i, In (NCo x) Q -> K x = Some i -> ~ In (NCo x) P -> (forall n, In n P -> le1 K n (NCo x)) ->
     Q' <> [] -> (forall y j, p' y <> None -> K' y = Some j -> (j < i)%nat) /\ forall j, W' j -> (j < i)%nat).
  { intros x i IN KX NP LP NE. split.
    - intros y j PY KY. destruct (Z.eq_dec y c) as [->|N].
      + destruct (PC j PY KY) as [[A B]|A]; [eapply S2; eassumption | contradiction].
      + rewrite OK0 in KY by exact N. destruct (PO y N PY) as [A|A]; [eapply S2; eassumption | eapply (LP _ A); cbn; eassumption].
    - intros j WJ. destruct (WW j WJ) as [A|[A B]]; [eapply S3; eassumption | eapply S2; eassumption]. }
  destruct QM as [EQ KC|EQ|EQ PN NW|P EQ NC].
  - assert (KA : forall x, K' x = K x) by (intros x; destruct (Z.eq_dec x c) as [->|N]; auto).
    assert (NE : forall x, In (NCo x) Q' -> Q' <> []) by (intros x IN H; rewrite H in IN; exact IN).
    constructor.
    + rewrite EQ. eapply ss_ext; [exact S1|]. intros a b _ _ H. unfold le1. rewrite !KA. exact H.
    + intros x i IN KX. pose proof (NE _ IN) as N0. rewrite EQ in IN. rewrite KA in KX. refine (proj1 (OLD x i IN KX (fun z => z) _ N0)); intros n [].
    + intros x i IN KX. pose proof (NE _ IN) as N0. rewrite EQ in IN. rewrite KA in KX. refine (proj2 (OLD x i IN KX (fun z => z) _ N0)); intros n [].
  - assert (NE : forall x, In (NCo x) Q' -> Q' <> []) by (intros x IN H; rewrite H in IN; exact IN).
    constructor.
    + rewrite EQ. apply LE; [intros n IN; apply FI, IN | apply ss_filter, S1].
    + intros x i IN KX. pose proof (NE _ IN) as N0. rewrite EQ in IN. apply FI in IN. destruct IN as [IN N]. rewrite OK0 in KX by congruence. refine (proj1 (OLD x i IN KX (fun z => z) _ N0)); intros n [].
    + intros x i IN KX. pose proof (NE _ IN) as N0. rewrite EQ in IN. apply FI in IN. destruct IN as [IN N]. rewrite OK0 in KX by congruence. refine (proj2 (OLD x i IN KX (fun z => z) _ N0)); intros n [].
  - assert (NE : Q' <> []) by (rewrite EQ; destruct (filter _ Q); discriminate).
    assert (NWW : forall i, K' c = Some i -> forall j, W' j -> (j < i)%nat).
    { intros i KX j WJ. destruct (NW i KX) as [A B]. destruct (WW j WJ) as [C|[_ C]]; [auto | eapply A; exact C]. }
    constructor.
    + rewrite EQ. apply ss_snoc; [apply LE; [intros n IN; apply FI, IN | apply ss_filter, S1]|]. intros n IN. apply FI in IN. destruct IN as [IN N].
      intros i j KI KJ. cbn in KJ. rewrite KQ in KI by auto. destruct (NW j KJ) as [A _]. eapply A; exact KI.
    + intros x i IN KX y j PY KY. rewrite EQ in IN. apply in_app_or in IN. destruct IN as [IN|[IN|[]]].
      * apply FI in IN. destruct IN as [IN N]. rewrite OK0 in KX by congruence. refine (proj1 (OLD x i IN KX (fun z => z) _ NE) y j PY KY); intros n [].
      * injection IN as <-. destruct (Z.eq_dec y c) as [->|N]; [contradiction|]. rewrite OK0 in KY by exact N. destruct (NW i KX) as [A _]. eapply A; exact KY.
    + intros x i IN KX j WJ. rewrite EQ in IN. apply in_app_or in IN. destruct IN as [IN|[IN|[]]].
      * apply FI in IN. destruct IN as [IN N]. rewrite OK0 in KX by congruence. refine (proj2 (OLD x i IN KX (fun z => z) _ NE) j WJ); intros n [].
      * injection IN as <-. eapply NWW; eassumption.
  - assert (NE : forall x, In (NCo x) Q' -> Q' <> []) by (intros x IN H; rewrite H in IN; exact IN).
    assert (SUB : forall n, In n Q' -> In n Q) by (intros n IN; rewrite EQ; apply in_or_app; auto).
    assert (S4 := S1). rewrite EQ in S4. apply ss_app in S4. destruct S4 as [S4 S5].
    constructor.
    + apply LE; [|exact S4]. intros n IN. split; [auto|]. intros ->. apply NC, SUB, IN.
    + intros x i IN KX. pose proof (NE _ IN) as N0. assert (N : x <> c) by (intros ->; apply NC, SUB, IN). rewrite OK0 in KX by exact N.
      intros y j PY KY. destruct (Z.eq_dec y c) as [->|NY].
      { destruct (PC j PY KY) as [[A B]|A]; [eapply S2; eauto | contradiction]. }
      rewrite OK0 in KY by exact NY. destruct (PO y NY PY) as [A|A]; [eapply S2; eauto | eapply (S5 _ _ A IN); cbn; eassumption].
    + intros x i IN KX j WJ. assert (N : x <> c) by (intros ->; apply NC, SUB, IN). rewrite OK0 in KX by exact N.
      destruct (WW j WJ) as [A|[A B]]; [eapply S3; eauto | eapply S2; eauto].
Qed.
End OStep.

(** ** Queues along steps *)
Lemma leave_others : forall f c d k, others c (q (leave f c d) k) = others c (q d k).
Proof.
  intros f c d k. assert (RC : forall n d, others c (q (rm_cases c n d) k) = others c (q d k)) by (induction n as [|n IH]; intros d0; cbn [rm_cases]; [reflexivity|]; rewrite IH; apply others_rmq; reflexivity).
  destruct f; cbn [leave]; try reflexivity; try (apply others_rmq; reflexivity); apply RC.
Qed.
Lemma quiet_others : forall s c KP KW d0 R P d k, reach s -> fps c KP KW d0 R P d -> objq k -> ~ KP k -> (forall n kk, In n (q d0 kk) -> In n (q (dt s) kk)) ->
  others c (q d k) = others c (q d0 k).
Proof.
  intros s c KP KW d0 R P d k RE FP OQ NK SUB. pose proof (reach_qloc _ RE) as QL.
  assert (WQ : waitq k) by (destruct k; try destruct OQ; exact I).
  assert (SEP : forall r, In r R -> r <> c -> ~ In (NCo r) (q d0 k)).
  { intros r IR NE IN. destruct (fps_R _ _ _ _ _ _ _ FP r IR) as [?|(k' & n & K' & PK & NC & IN')]; [contradiction|].
    apply SUB in IN. apply SUB in IN'. pose proof (QL _ _ WQ IN) as M1. pose proof (QL _ _ (popq_waitq _ PK) IN') as M2. rewrite NC in M2. cbn [node_co] in M1.
    destruct (matched_cases _ _ _ M1) as [(f & rest & TP & W & _)|(N & j & chs & dl & st' & TP)]; [destruct k; try destruct OQ; exact I | |].
    - destruct (matched_cases _ _ _ M2 PK) as [(f2 & rest2 & TP2 & W2 & _)|(N & j & chs & dl & st' & TP2)]; [congruence|]. rewrite TP in TP2. injection TP2 as -> _. destruct k; discriminate W.
    - unfold matched in M1. rewrite TP in M1. destruct M1 as (i & ch & D & _). discriminate D. }
  exact (fps_others _ _ _ _ _ _ _ FP k WQ NK SEP).
Qed.
Lemma call_others : forall s c o d fs k kk, reach s -> hcall c o (now s) (dt s) = (d, fs, k) -> objq kk -> ~ kcall c (dt s) o kk ->
  others c (q d kk) = others c (q (dt s) kk).
Proof.
  intros s c o d fs k kk RE E OQ NK. destruct (hcall_fp _ _ _ _ _ _ _ (ncalls s) (stk (sc s) c) E) as (R & P & FP & _).
  eapply quiet_others; try eassumption; auto.
Qed.
Lemma tick_others : forall s c f v b d fs k kk, reach s -> hret c f v b (now s) (dt s) = (d, fs, k) -> objq kk -> ~ kret c (dt s) f kk ->
  others c (q d kk) = others c (q (dt s) kk).
Proof.
  intros s c f v b d fs k kk RE E OQ NK. destruct (hret_fp _ _ _ _ _ _ _ _ _ [] E) as (R & P & FP & _).
  rewrite <- (leave_others f c (dt s) kk). eapply quiet_others; try eassumption; auto. intros n k2. apply leave_in.
Qed.
Lemma objq_node : forall s k n, reach s -> objq k -> In n (q (dt s) k) -> n = NCo (node_co n).
Proof.
  intros s k n RE OQ IN. assert (WQ : waitq k) by (destruct k; try destruct OQ; exact I). assert (PK : popq_ok k) by (destruct k; try destruct OQ; exact I).
  apply (reach_qloc _ RE) in IN; [|exact WQ]. destruct (matched_cases _ _ _ IN PK) as [(f & rest & TP & W & D)|(N & j & chs & dl & st' & TP)]; [exact D|].
  unfold matched in IN. rewrite TP in IN. destruct IN as (i & ch & _ & _ & D). subst k. destruct OQ.
Qed.
Lemma others_f : forall c l, (forall n, In n l -> n = NCo (node_co n)) -> others c l = filter (fun n => negb (node_eqb (NCo c) n)) l.
Proof.
  intros c l. unfold others. induction l as [|a l IH]; intros H; [reflexivity|]. cbn. rewrite IH by (intros n IN; apply H; right; exact IN).
  assert (Q : (node_co a =? c) = node_eqb (NCo c) a).
  { rewrite (H a) by (left; reflexivity). cbn [node_co]. destruct (node_eqb_spec (NCo c) (NCo (node_co a))) as [E|N]; [injection E as <-; apply Z.eqb_refl | apply Z.eqb_neq; congruence]. }
  rewrite Q. reflexivity.
Qed.
Lemma others_id : forall c l, (forall n, In n l -> n = NCo (node_co n)) -> ~ In (NCo c) l -> others c l = l.
Proof.
  intros c l H N. apply filter_all. intros n IN. destruct (Z.eqb_spec (node_co n) c) as [E|]; [|reflexivity]. exfalso. apply N. rewrite <- E, <- (H n IN). exact IN.
Qed.
Lemma ctl_objq : forall c n k d kk, objq kk -> ~ In (NCo c) (q d kk) -> q (ctl_dat c n k d) kk = q d kk.
Proof.
  intros c n k d kk OQ N. destruct k; cbn [ctl_dat]; try reflexivity; [apply spawn_q_eq; intros ->; destruct OQ|].
  unfold final_dat. unfold pushq. cbn [q set_npool set_q]. rewrite qupd_neq by (intros ->; destruct OQ). apply rmq_notin, N.
Qed.
(** a queue nothing was taken from or added to, except the running coroutine *)
Lemma quiet_gone : forall s c k n d kk, reach s -> objq kk -> others c (q d kk) = others c (q (dt s) kk) -> (forall n, In n (q d kk) -> In n (q (dt s) kk)) -> ~ In (NCo c) (q d kk) ->
  q (ctl_dat c n k d) kk = filter (fun n => negb (node_eqb (NCo c) n)) (q (dt s) kk).
Proof.
  intros s c k n d kk RE OQ OT SUB N. rewrite ctl_objq by assumption. rewrite <- others_f by (intros; eapply objq_node; eassumption). rewrite <- OT.
  symmetry. apply others_id; [|exact N]. intros x IN. eapply objq_node; eauto.
Qed.

(** ** The invariant *)
Definition mord (s : state) (m : nat) : Prop := ord (q (dt s) (QMu m)) (ptok s m) (fun x => ck m (stk (sc s) x)) (won m (tr s)).
Lemma ck_tk : forall m st j b, ck m st = Some j -> exists t, tk m st false b (Some OK) = Some t.
Proof.
  intros m st j b C. unfold ck, tk in *. destruct (top st) as [|[] r]; try discriminate C.
  - destruct (lockb o m) eqn:L; [|discriminate C]. destruct o; try discriminate L; cbn in L |- *; rewrite L; cbn; eauto.
  - destruct r as [|[] r]; try discriminate C. destruct (Nat.eqb m0 m); [cbn; eauto | discriminate C].
Qed.
Lemma ck_none : forall m st, (forall a b r, tk m st a b r = None) -> ck m st = None.
Proof. intros m st H. destruct (ck m st) as [j|] eqn:C; [|reflexivity]. destruct (ck_tk _ _ _ false C) as (t & Q). rewrite H in Q. discriminate Q. Qed.
Lemma ck_other : forall s c k fs st' sch md m x, reach s -> cur (sc s) = Some c -> x <> c ->
  exec c k (set_stk (zupd (stk (sc s)) c (fs ++ st')) (sc s)) = (sch, md) -> ck m (stk sch x) = ck m (stk (sc s) x).
Proof.
  intros s c k fs st' sch md m x RE CU NE X. pose proof (reach_full _ RE) as F. pose proof (cur_notfresh _ _ F CU) as NFR.
  destruct (exec_stk_cases _ _ _ _ _ X NFR x) as [[-> _]|[(_ & -> & (g & ->) & QQ)|(_ & QQ & NS)]]; [congruence | |]; rewrite QQ.
  - cbn [set_stk nextid]. rewrite (stk_fresh _ F). reflexivity.
  - cbn [set_stk stk]. rewrite zupd_neq by exact NE. reflexivity.
Qed.
Lemma ck_own : forall s c k fs st' sch md m j, reach s -> cur (sc s) = Some c ->
  exec c k (set_stk (zupd (stk (sc s)) c (fs ++ st')) (sc s)) = (sch, md) -> ck m (stk sch c) = Some j -> (forall e, k <> CFinal e) /\ ck m (fs ++ st') = Some j.
Proof.
  intros s c k fs st' sch md m j RE CU X C. pose proof (reach_full _ RE) as F. pose proof (cur_notfresh _ _ F CU) as NFR.
  destruct (exec_stk_cases _ _ _ _ _ X NFR c) as [[_ QQ]|[(N & _)|(N & _)]]; try congruence. rewrite QQ in C. cbn [set_stk stk] in C. rewrite zupd_eq in C.
  destruct k; try (split; [discriminate | exact C]). discriminate C.
Qed.
Lemma ck_lt : forall s x j m, reach s -> ck m (stk (sc s) x) = Some j -> (j < ncalls s)%nat.
Proof.
  intros s x j m RE C. assert (H : exists o, In (FApi j o) (stk (sc s) x)).
  { unfold ck in C. assert (IT : forall f, In f (top (stk (sc s) x)) -> In f (stk (sc s) x)) by (intros f; destruct (stk (sc s) x) as [|[] r]; cbn; auto).
    destruct (top (stk (sc s) x)) as [|[] r]; try discriminate C.
    - destruct (lockb o m); [|discriminate C]. injection C as <-. exists o. apply IT. left; reflexivity.
    - destruct r as [|[] r]; try discriminate C. destruct (_ && _); [|discriminate C]. injection C as <-. exists o. apply IT. right; left; reflexivity. }
  destruct H as (o & IN). destruct (ci_open _ (reach_cinv _ RE) _ _ _ IN) as (t & IT & _). apply (ci_lt _ (reach_cinv _ RE)) in IT. apply IT.
Qed.
Lemma won_lt : forall s m j, reach s -> won m (tr s) j -> (j < ncalls s)%nat.
Proof.
  intros s m j RE (c & o & mm & tm & IN & _). apply in_split in IN. destruct IN as (l1 & l2 & EQ). destruct (ci_ret _ (reach_cinv _ RE) _ _ _ _ _ _ _ _ EQ) as ((t0 & IT & _) & _).
  assert (IN : In (TCall j c o t0) (tr s)) by (rewrite EQ; apply in_or_app; right; right; exact IT). apply (ci_lt _ (reach_cinv _ RE)) in IN. apply IN.
Qed.

Section Call.
Variables (s : state) (c : Z) (o : op) (d : dat) (fs : list frame) (k : ctl) (sch : sched) (md : emode) (m : nat).
Hypothesis RE : reach s.
Hypothesis MU : mode s = MUser.
Hypothesis CU : cur (sc s) = Some c.
Hypothesis US : ustack (stk (sc s) c).
Hypothesis E : hcall c o (now s) (dt s) = (d, fs, k).
Hypothesis X : exec c k (set_stk (zupd (stk (sc s)) c (fs ++ FApi (ncalls s) o :: stk (sc s) c)) (sc s)) = (sch, md).
Hypothesis TI : tidy (call_tr s c o fs k).
Hypothesis PR : proper (call_tr s c o fs k).
Let s' := mkst sch (ctl_dat c (nextid (sc s) + 1) k d) md (now s) (S (ncalls s)) (call_tr s c o fs k).
Hypothesis OKM : mok s m.
Hypothesis ORD : mord s m.

Lemma oc_notin : ~ In (NCo c) (q (dt s) (QMu m)).
Proof. eapply call_notin; try eassumption. exact I. Qed.
Lemma oc_step : forall P, 
  qmove c (q (dt s) (QMu m)) (fun x => ck m (stk (sc s) x)) (won m (tr s)) (q (dt s') (QMu m)) (ptok s' m) (fun x => ck m (stk sch x)) P ->
  (forall y, y <> c -> ptok s' m y <> None -> ptok s m y <> None \/ In (NCo y) P) ->
  (ptok s' m c <> None -> ck m (stk sch c) = None \/ q (dt s') (QMu m) = []) -> mord s' m.
Proof.
  intros P QM PO PC. unfold mord. cbn [sc tr s'].
  eapply (ord_step c (q (dt s) (QMu m)) (ptok s m) (fun x => ck m (stk (sc s) x)) (won m (tr s))); try eassumption.
  - intros n IN. eapply objq_node; try eassumption. exact I.
  - intros x N. eapply ck_other; eassumption.
  - intros j H C. right. destruct (PC H) as [C0|Q0]; [congruence | exact Q0].
  - intros j (c' & o' & mm & tm & IN & L). left. exists c', o', mm, tm. split; [|exact L]. eapply call_tr_rets; exact IN.
Qed.
Lemma oc_ck : ~ locks o m -> ck m (stk sch c) = None.
Proof.
  intros NL. destruct (ck m (stk sch c)) as [j|] eqn:C; [|reflexivity]. destruct (ck_own _ _ _ _ _ _ _ _ _ RE CU X C) as [NF C0].
  rewrite ck_none in C0; [discriminate C0|]. intros a b r. eapply call_tok; eassumption.
Qed.
Lemma oc_same : q d (QMu m) = q (dt s) (QMu m) -> (ptok s' m c <> None -> ck m (stk sch c) = None \/ q (dt s') (QMu m) = []) -> mord s' m.
Proof.
  intros Q0 PC. apply (oc_step []); [|intros y N H; left|exact PC].
  - apply qm_gone. cbn [dt s']. apply quiet_gone; try assumption; try exact I; rewrite Q0; auto. apply oc_notin.
  - intros P0. apply H. rewrite <- P0. eapply call_p; try eassumption. intros x _. rewrite Q0. reflexivity.
Qed.
Lemma oc_release : forall gs d1, mux d1 m = mux (dt s) m -> q d1 (QMu m) = q (dt s) (QMu m) -> cof d1 = cof (dt s) ->
  fastunlock m gs d1 = (d, fs, k) -> ptok s' m c = None -> mord s' m.
Proof.
  intros gs d1 M1 Q1 C1 FU PC. pose proof (reach_uniq _ RE) as [UQ _].
  assert (ND : forall n, In n (q (dt s) (QMu m)) -> n = NCo (node_co n)) by (intros n IN; eapply objq_node; try eassumption; exact I).
  destruct (fastunlock_eff m gs d1 d fs k) as (UE & CO & _); [rewrite Q1; apply UQ | rewrite Q1; exact ND | exact FU |].
  assert (NF : forall e, k <> CFinal e) by (destruct UE as [? ? ? ->|? ? ? ? ? ? ->|? ? ? ? ? ? ? ->|? ? ? ? ? ? ? -> ?]; discriminate).
  assert (Q0 : q (dt s') (QMu m) = q d (QMu m)) by (unfold s'; cbn [dt]; apply ctl_qmu, NF).
  destruct UE as [L1 D1 F1 K1|L1 R1 L2 R2 Q2 F1 K1|L1 R1 L2 R2 Q2 Q3 F1 K1|P L1 R1 L2 Q2 G R2 K1 F1].
  - apply oc_same; [rewrite D1; exact Q1 | contradiction].
  - apply oc_same; [rewrite Q2; exact Q1 | contradiction].
  - apply oc_same; [rewrite Q3, <- Q1, Q2; reflexivity | contradiction].
  - rewrite Q1 in Q2. apply (oc_step P); [apply qm_pop; [rewrite Q0; exact Q2 | apply oc_notin] | | contradiction].
    intros y N H. destruct (memn (NCo y) P) eqn:MP; [right; apply memn_In, MP|]. apply memn_false in MP. left. intros P0. apply H. rewrite <- P0.
    unfold s'. erewrite ptok_other; try eassumption; [|rewrite MU; exact (fun z => z) | eapply call_rl; eassumption].
    rewrite (ptok_idle _ _ _ RE) with (rv := None) by (try congruence; rewrite MU; exact (fun z => z)). f_equal. apply memn_iff. rewrite Q2, in_app_iff. tauto.
Qed.
Lemma call_mord : mord s' m.
Proof.
  destruct (kcall_mu_dec c (dt s) o m) as [KC|KC].
  2:{ destruct (call_queue _ _ _ _ _ _ (QMu m) RE E I KC) as [A B].
      assert (NL : ~ locks o m) by (intros LK; apply KC; destruct o; cbn in *; subst; auto; try contradiction).
      apply (oc_step []); [|intros y N H; left|intros _; left; apply oc_ck, NL].
      - apply qm_gone. cbn [dt s']. apply quiet_gone; try assumption; try exact I; [eapply call_others; try eassumption; exact I|]. intros IN. apply oc_notin, B, IN.
      - intros P0. apply H. rewrite <- P0. eapply call_p; eassumption. }
  assert (NX : o <> OpExit) by (intros EO; rewrite EO in KC; exact (exitk_mu _ _ _ KC)).
  destruct (kcall_mu_cases _ _ _ _ KC NX) as [(rd & LO)|[EO|[EO|[EO|(v & dl & EO)]]]].
  - assert (F0 : free0 m (dt s)) by (eapply call_free0; eassumption).
    pose proof (hcall_lock_eff _ _ _ _ _ _ _ _ _ LO F0 oc_notin E) as LE.
    assert (Q0 : q (dt s') (QMu m) = q d (QMu m)) by (unfold s'; cbn [dt]; apply ctl_qmu; destruct LE as [v ? ? ? ? ? -> ?|? ? ? ? ? -> |? ? ? ? ? ? [[-> _]|[-> _]]]; discriminate).
    destruct LE as [v Q1 L1 R1 T1 F1 K1 N1|Q1 D1 L1 T1 F1 K1|Q1 L1 R1 W1 T1 RL1 FK].
    + apply oc_same; [exact Q1|]. intros H. exfalso. apply H. unfold s'. erewrite ptok_own_ret; try eassumption. rewrite F1. unfold tk. cbn.
      destruct o; try destruct LO; cbn [gives]; destruct (Z.eqb_spec v OK); try contradiction; rewrite andb_false_r; reflexivity.
    + apply oc_same; [exact Q1|]. intros _. right. rewrite Q0, Q1. destruct rd; destruct D1 as [D1 D2]; [exact D1|]. apply (ok_free _ _ _ _ OKM D1).
    + assert (IN : memn (NCo c) (q d (QMu m)) = true) by (apply memn_In; rewrite Q1; apply in_or_app; right; left; reflexivity).
      assert (NF : forall e, k <> CFinal e) by (destruct FK as [(-> & _)|(-> & _)]; discriminate).
      assert (PC : ptok s' m c = None).
      { unfold s'. edestruct ptok_own_any as (rv & ->); try eassumption. rewrite IN. unfold tk.
        destruct FK as [(_ & ->)|(_ & ->)]; cbn; rewrite andb_false_r; reflexivity. }
      apply (oc_step []); [|intros y N H; left|rewrite PC; contradiction].
      * apply qm_push; [|exact PC|].
        -- rewrite Q0, Q1. f_equal. symmetry. apply filter_all. intros n IN2. destruct (node_eqb_spec (NCo c) n) as [<-|]; [destruct (oc_notin IN2) | reflexivity].
        -- intros i C. destruct (ck_own _ _ _ _ _ _ _ _ _ RE CU X C) as [_ C0].
           assert (i = ncalls s) as ->.
           { destruct FK as [(_ & ->)|(_ & ->)]; unfold ck in C0; cbn in C0; destruct (_ && _) in C0; congruence. }
           split; [intros x j; apply ck_lt, RE | intros j; apply won_lt, RE].
      * intros P0. apply H. rewrite <- P0. eapply call_p; try eassumption. intros x N2. rewrite Q1, in_app_iff. cbn. intuition congruence.
  - assert (PC0 : hold m c (tr s) <> HNone) by (destruct (proper_call _ _ _ _ _ PR) as [_ PC0]; rewrite EO in PC0; exact PC0).
    assert (LK : mlocked (mux (dt s) m) = true) by (eapply held_locked; eassumption).
    assert (CMU : check_mu m (dt s) = (OK, dt s)) by (eapply call_mu_ok; eassumption).
    pose proof E as E0. rewrite EO in E0. cbn [hcall] in E0. unfold do_unlock in E0. rewrite CMU in E0.
    change (negb (OK =? OK)) with false in E0. cbn match in E0.
    eapply (oc_release [FUnlock] (dt s)); auto. eapply call_own_none; try eassumption. rewrite EO. exact (fun z => z).
  - pose proof E as E0. rewrite EO in E0. cbn [hcall] in E0. injection E0 as E1 E2 E3.
    assert (QN : q (dt s') (QMu m) = []) by (cbn [dt s']; rewrite <- E3; cbn [ctl_dat]; rewrite <- E1; unfold mu_init; cbn; apply qupd_eq).
    unfold mord. rewrite QN. constructor; [constructor | intros x i [] | intros x i []].
  - pose proof E as E0. rewrite EO in E0. cbn [hcall] in E0. unfold do_mudestroy in E0. destruct (check_mu m (dt s)) as [e0 d0] eqn:CM.
    assert (NL : ~ locks o m) by (rewrite EO; exact (fun z => z)).
    assert (F0 : free0 m (dt s)) by (eapply call_free0; eassumption).
    destruct (check_mu_eff _ _ _ _ F0 CM) as (A1 & A2 & A3 & A4 & A5 & _).
    destruct (negb (e0 =? OK)); [injection E0 as E1 E2 E3; apply oc_same; [rewrite <- E1; exact A3 | intros _; left; apply oc_ck, NL]|].
    destruct (mlocked (mux d0 m)); [injection E0 as E1 E2 E3; apply oc_same; [rewrite <- E1; exact A3 | intros _; left; apply oc_ck, NL]|].
    injection E0 as E1 E2 E3.
    assert (QN : q (dt s') (QMu m) = []) by (cbn [dt s']; rewrite <- E3; cbn [ctl_dat]; rewrite <- E1; cbn; apply qupd_eq).
    unfold mord. rewrite QN. constructor; [constructor | intros x i [] | intros x i []].
  - assert (CKN : ck m (stk sch c) = None).
    { destruct (ck m (stk sch c)) as [j|] eqn:C; [|reflexivity]. destruct (ck_own _ _ _ _ _ _ _ _ _ RE CU X C) as [NF C0].
      destruct (hcall_next _ _ _ _ _ _ _ E) as [CN|[(h & D & _)|(D & _)]]; [|rewrite EO in D; discriminate D..].
      assert (SH : shape o fs) by (destruct k; cbn in CN; try contradiction; exact CN). rewrite EO in SH, C0.
      inversion SH; subst; try (match goal with H : pz _ _ |- _ => inversion H; subst end); try (match goal with H : yf _ _ |- _ => inversion H; subst end); discriminate C0. }
    pose proof E as E0. rewrite EO in E0. cbn [hcall] in E0. unfold do_cvwait in E0. destruct (check_cv v (dt s)) as [e0 d0] eqn:C0.
    destruct (check_cv_mu _ _ _ _ C0) as (CM & CR & CC & CQ).
    destruct (negb (e0 =? OK)); [injection E0 as E1 E2 E3; apply oc_same; [rewrite <- E1; apply CQ | auto]|].
    assert (PC0 : hold m c (tr s) <> HNone) by (destruct (proper_call _ _ _ _ _ PR) as [_ PC0]; rewrite EO in PC0; congruence).
    assert (LK : mlocked (mux (dt s) m) = true) by (eapply held_locked; eassumption).
    assert (CMU : check_mu m d0 = (OK, d0)).
    { assert (W : mrt (mux (dt s) m) = rtid (dt s)) by (apply (reach_mw _ RE (tidy_call _ _ _ _ _ TI) m (or_introl LK))). pose proof (reach_rt _ RE). unfold check_mu. rewrite CM, CR, W.
      destruct (Z.eqb_spec (rtid (dt s)) 0); [lia|]. rewrite Z.eqb_refl. reflexivity. }
    rewrite CMU in E0. change (negb (OK =? OK)) with false in E0. cbn match in E0.
    destruct (canceled (cof d0 c)); [injection E0 as E1 E2 E3; apply oc_same; [rewrite <- E1; cbn [q upco set_cof]; apply CQ | auto]|].
    eapply (oc_release _ d0); try eassumption.
    + rewrite CM. reflexivity.
    + apply CQ.
    + pose proof (fastunlock_cases _ _ _ _ _ _ E0) as FC.
      assert (NF : forall e, k <> CFinal e) by (decompose [and or] FC; subst; discriminate).
      unfold s'. edestruct ptok_own_any as (rv & ->); try eassumption. unfold tk. decompose [and or] FC; subst fs; reflexivity.
Qed.
End Call.

Section Tick.
Variables (s : state) (c v : Z) (f : frame) (rest : list frame) (b : bool) (d : dat) (fs : list frame) (k : ctl) (sch : sched) (md : emode) (m : nat).
Hypothesis RE : reach s.
Hypothesis MU : mode s = MRet v.
Hypothesis CU : cur (sc s) = Some c.
Hypothesis SK : stk (sc s) c = f :: rest.
Hypothesis LS : lstack (f :: rest).
Hypothesis E : hret c f v b (now s) (dt s) = (d, fs, k).
Hypothesis X : exec c k (set_stk (zupd (stk (sc s)) c (fs ++ rest)) (sc s)) = (sch, md).
Let s' := mkst sch (ctl_dat c (nextid (sc s) + 1) k d) md (now s) (ncalls s) (tick_tr s c v f d fs k).
Hypothesis OKM : mok s m.
Hypothesis ORD : mord s m.
Notation rem := (filter (fun n => negb (node_eqb (NCo c) n)) (q (dt s) (QMu m))).

Lemma ot_won : forall j, won m (tick_tr s c v f d fs k) j -> won m (tr s) j \/ (ptok s m c <> None /\ ck m (stk (sc s) c) = Some j).
Proof.
  intros j (c' & o' & mm & tm & IN & L). apply tick_tr_rets in IN. destruct IN as [IN|(QF & _ & QV & _)]; [left; exists c', o', mm, tm; auto|]. right.
  split; [|rewrite SK, QF; unfold ck; cbn; rewrite L; reflexivity].
  rewrite (tick_before s c v f rest m MU CU SK), QF, <- QV. unfold tk. cbn. destruct o'; try discriminate L; cbn in L |- *; rewrite L; discriminate.
Qed.
Lemma ot_step : qmove c (q (dt s) (QMu m)) (fun x => ck m (stk (sc s) x)) (won m (tr s)) (q (dt s') (QMu m)) (ptok s' m) (fun x => ck m (stk sch x)) [] ->
  (forall x, x <> c -> In (NCo x) (q d (QMu m)) <-> In (NCo x) (q (dt s) (QMu m))) ->
  (forall j, ptok s' m c <> None -> ck m (stk sch c) = Some j -> ptok s m c <> None /\ ck m (stk (sc s) c) = Some j) -> mord s' m.
Proof.
  intros QM A PC. unfold mord. cbn [sc tr s'].
  eapply (ord_step c (q (dt s) (QMu m)) (ptok s m) (fun x => ck m (stk (sc s) x)) (won m (tr s))); try eassumption.
  - intros n IN. eapply objq_node; try eassumption. exact I.
  - intros x N. eapply ck_other; eassumption.
  - intros y N H. left. intros P0. apply H. rewrite <- P0. eapply tick_oth; eassumption.
  - intros j H C. left. apply PC; assumption.
  - apply ot_won.
Qed.
Lemma ot_top : In (NCo c) (q (dt s) (QMu m)) -> exists r, top (stk (sc s) c) = FLock m :: r.
Proof.
  intros IN. apply (reach_qloc _ RE) in IN; [|exact I]. cbn [node_co] in IN. destruct (matched_cases _ _ _ IN I) as [(g & r & TP & W & _)|(N & j & chs & dl & st' & TP)].
  - exists r. rewrite TP. destruct g; try discriminate W. injection W as ->. reflexivity.
  - unfold matched in IN. rewrite TP in IN. destruct IN as (i & ch & D & _). discriminate D.
Qed.
Lemma ot_quiet : f <> FPause -> (forall kk o, f <> FApi kk o) -> ~ carry f m -> mord s' m.
Proof.
  intros NP NA NC.
  assert (NK : ~ kret c (dt s) f (QMu m)).
  { intros K. destruct (kret_mu _ _ _ _ K) as [(vv & QF)|(r & QF)]; rewrite QF in NC; apply NC; reflexivity. }
  assert (NW : ~ wret f (QMu m)).
  { intros W. apply NC. destruct f; cbn in *; try discriminate W; try contradiction; try congruence. }
  destruct (tick_queue _ _ _ _ _ _ _ _ (QMu m) RE E I NK NW) as [A B].
  assert (CKN : ck m (stk sch c) = None).
  { destruct (ck m (stk sch c)) as [j|] eqn:C; [|reflexivity]. destruct (ck_own _ _ _ _ _ _ _ _ _ RE CU X C) as [NF C0].
    rewrite ck_none in C0; [discriminate C0|]. intros a b0 r. eapply tick_tok; eassumption. }
  assert (NI : ~ In (NCo c) (q d (QMu m))).
  { intros IN. apply B in IN. apply ot_top in IN. destruct IN as (r & TP). rewrite SK in TP. destruct f; try discriminate TP; [apply NP; reflexivity|]. injection TP as -> _. apply NC. reflexivity. }
  apply ot_step; [|exact A|rewrite CKN; discriminate].
  apply qm_gone. cbn [dt s']. apply quiet_gone; try assumption; try exact I. eapply tick_others; try eassumption. exact I.
Qed.
Lemma ot_pause : f = FPause -> mord s' m.
Proof.
  intros QF. pose proof E as E0. rewrite QF in E0. cbn [hret] in E0. injection E0 as E1 E2 E3.
  assert (PQ : q d (QMu m) = q (dt s) (QMu m)) by (rewrite <- E1; unfold pause_end; destruct (_ <? _); reflexivity).
  assert (PL : rlocked (cof d c) = rlocked (cof (dt s) c)) by (rewrite <- E1; unfold pause_end; rewrite upco_eq; destruct (_ <? _); reflexivity).
  assert (KC : ck m (stk sch c) = ck m (stk (sc s) c)).
  { pose proof (reach_full _ RE) as F. pose proof (cur_notfresh _ _ F CU) as NFR. destruct (exec_stk_cases _ _ _ _ _ X NFR c) as [[_ QQ]|[(N & _)|(N & _)]]; try congruence.
    rewrite QQ, <- E3, <- E2, SK, QF. cbn [set_stk stk]. rewrite zupd_eq. cbn [app]. pose proof LS as L0. rewrite QF in L0. destruct (pause_rest _ L0) as (g & r & -> & NP & _).
    unfold ck. destruct g; try reflexivity. destruct (NP eq_refl). }
  assert (PC : ptok s' m c = ptok s m c).
  { rewrite (tick_before s c v f rest m MU CU SK). unfold s'. erewrite ptok_own_ret; try eassumption; [|symmetry; exact E3]. rewrite <- E2, QF, PQ, PL. cbn [app]. apply pause_tk. rewrite <- QF. exact LS. }
  apply ot_step; [|intros x _; rewrite PQ; reflexivity|intros j P0 C; rewrite PC in P0; rewrite KC in C; auto].
  apply qm_same; [|exact KC]. cbn [dt s']. rewrite <- E3. exact PQ.
Qed.
Lemma ot_api : forall kk o, f = FApi kk o -> mord s' m.
Proof.
  intros kk o QF.
  assert (NK : ~ kret c (dt s) f (QMu m)) by (rewrite QF; apply exitk_mu).
  assert (NW : ~ wret f (QMu m)) by (rewrite QF; exact (fun z => z)).
  destruct (tick_queue _ _ _ _ _ _ _ _ (QMu m) RE E I NK NW) as [A B].
  assert (NI : ~ In (NCo c) (q d (QMu m))).
  { intros IN. apply B, ot_top in IN. destruct IN as (r & TP). rewrite SK, QF in TP. discriminate TP. }
  assert (PC : ptok s' m c = None).
  { destruct (final_dec k) as [(e & K)|NF]; [eapply ptok_own_fin; eassumption|]. unfold s'. edestruct ptok_own_any as (rv & ->); try eassumption.
    pose proof E as E0. rewrite QF in E0. cbn [hret] in E0. destruct (is_async o && (v =? ECANCELED) && casync (cof (dt s) c)); [eapply async_tk; eassumption|].
    injection E0 as E1 E2 E3. rewrite <- E2. cbn [app]. apply tk_ustack. eapply api_below. rewrite <- QF. exact LS. }
  apply ot_step; [|exact A|rewrite PC; contradiction].
  apply qm_gone. cbn [dt s']. apply quiet_gone; try assumption; try exact I. eapply tick_others; try eassumption. exact I.
Qed.
Lemma ot_lock : f = FLock m -> mord s' m.
Proof.
  intros QF. pose proof E as E0. rewrite QF in E0. cbn [hret] in E0. unfold lock_end in E0.
  destruct (checkdl c MAXI (now s) _) as [w d1] eqn:CK. injection E0 as E1 E2 E3. rewrite E1 in CK. clear d1 E1.
  destruct (checkdl_eff _ _ _ _ _ _ CK) as (CQ & CM & _ & _ & _ & CO).
  assert (QQ : q d (QMu m) = rem) by (rewrite CQ; reflexivity).
  assert (SUB : forall n, In n (q d (QMu m)) <-> In n (q (dt s) (QMu m)) /\ n <> NCo c).
  { intros n. rewrite QQ, filter_In. destruct (node_eqb_spec (NCo c) n) as [<-|N]; cbn; intuition congruence. }
  pose proof LS as L0. rewrite QF in L0. destruct (lock_rest _ _ L0) as (kk & st & LR).
  apply ot_step.
  - apply qm_gone. cbn [dt s']. rewrite <- E3. exact QQ.
  - intros x N. rewrite SUB. intuition congruence.
  - intros j PN C. destruct (ck_own _ _ _ _ _ _ _ _ _ RE CU X C) as [_ C0]. rewrite <- E2 in C0. cbn [app] in C0. split.
    + rewrite (tick_before s c v f rest m MU CU SK), QF. unfold tk. cbn [top]. rewrite Nat.eqb_refl. cbn [andb].
      destruct (memn (NCo c) (q (dt s) (QMu m))) eqn:MM; [|discriminate]. exfalso. apply memn_In in MM. apply PN.
      unfold s'. erewrite ptok_own_ret; try eassumption; [|symmetry; exact E3]. rewrite <- E2. cbn [app].
      destruct (Z.eqb_spec w OK) as [QW|NW].
      * exfalso. rewrite QW in CK. apply checkdl_ok in CK. rewrite upco_eq in CK. destruct CK as [K1 K2]. cbn in K1, K2.
        destruct (reach_awake _ RE c (FLock m) rest) as [H|[H|[H|H]]]; [rewrite SK, QF; reflexivity | reflexivity | | congruence | congruence | exact (H MM)].
        exact (cur_notpaused _ _ (reach_full _ RE) CU H).
      * destruct (Z.eqb_spec w OK) as [|_]; [contradiction|]. destruct LR as [(dl & ->)|[(dl & ->)|(cv & dl & ret & ->)]]; unfold tk; cbn [top gives]; 
          (destruct (Z.eqb_spec w OK) as [|_]; [contradiction|]); rewrite ?andb_false_r; reflexivity.
    + rewrite SK, QF. destruct LR as [(dl & LR)|[(dl & LR)|(cv & dl & ret & LR)]]; rewrite LR in C0 |- *; unfold ck in *; cbn in *; rewrite ?Nat.eqb_refl in *; cbn; auto.
Qed.
Lemma ot_again : forall kk cv dl st ret d1, rest = FApi kk (OpCvWait cv m dl) :: st -> 
  q d1 (QMu m) = rem -> 
  cv_relock c m ret (now s) d1 = (d, fs, k) -> mord s' m.
Proof.
  intros kk cv dl st ret d1 QR Q1 RL. 
  assert (SUB : forall n, In n (q d1 (QMu m)) <-> In n (q (dt s) (QMu m)) /\ n <> NCo c).
  { intros n. rewrite Q1, filter_In. destruct (node_eqb_spec (NCo c) n) as [<-|N]; cbn; intuition congruence. }
  assert (NI : ~ In (NCo c) (q d1 (QMu m))) by (intros IN; apply SUB in IN; destruct IN as [_ []]; reflexivity).
  destruct (cv_relock_eff _ _ _ _ _ _ _ _ NI RL) as (RF & _).
  assert (CKN : ck m (stk sch c) = None).
  { destruct (ck m (stk sch c)) as [j|] eqn:C; [|reflexivity]. destruct (ck_own _ _ _ _ _ _ _ _ _ RE CU X C) as [NF C0].
    destruct RF as [L1 L2 R1 Q2 F1 K1|w L1 M2 Q2 F1 K1 NW|L1 M2 Q2 RL2 FK]; [rewrite F1, QR in C0; discriminate C0 | rewrite F1 in C0; discriminate C0 |].
    destruct FK as [[_ F1]|[_ F1]]; rewrite F1 in C0; discriminate C0. }
  destruct RF as [L1 L2 R1 Q2 F1 K1|w L1 M2 Q2 F1 K1 NW|L1 M2 Q2 RL2 FK].
  - apply ot_step; [|intros x N; rewrite Q2, SUB; intuition congruence|rewrite CKN; discriminate]. apply qm_gone. cbn [dt s']. rewrite K1. cbn [ctl_dat]. rewrite Q2. exact Q1.
  - apply ot_step; [|intros x N; rewrite Q2, SUB; intuition congruence|rewrite CKN; discriminate]. apply qm_gone. cbn [dt s']. rewrite K1. cbn [ctl_dat]. rewrite Q2. exact Q1.
  - assert (NF : forall e, k <> CFinal e) by (destruct FK as [[-> _]|[-> _]]; discriminate).
    apply ot_step; [|intros x N; rewrite Q2, in_app_iff, SUB; cbn; intuition congruence|rewrite CKN; discriminate]. apply qm_push.
    + cbn [dt s']. rewrite ctl_qmu by exact NF. rewrite Q2, Q1. reflexivity.
    + unfold s'. edestruct ptok_own_any as (rv & ->); try eassumption. assert (IN : memn (NCo c) (q d (QMu m)) = true) by (apply memn_In; rewrite Q2; apply in_or_app; right; left; reflexivity).
      rewrite IN. unfold tk. destruct FK as [[_ ->]|[_ ->]]; cbn; rewrite andb_false_r; reflexivity.
    + rewrite CKN. discriminate.
Qed.
Lemma ot_cvwait : forall cv, f = FCvWait cv m -> mord s' m.
Proof.
  intros cv QF. pose proof E as E0. rewrite QF in E0. cbn [hret] in E0. unfold cvwait_end in E0.
  destruct (checkdl c MAXI (now s) _) as [w d1] eqn:CK. destruct (checkdl_eff _ _ _ _ _ _ CK) as (CQ & CM & _).
  pose proof LS as L0. rewrite QF in L0. destruct (cvw_rest _ _ _ L0) as (kk & dl & st & QR).
  eapply (ot_again kk cv dl st w d1); try eassumption. rewrite CQ. reflexivity.
Qed.
Lemma ot_relocked : forall ret, f = FCvRelock m ret -> mord s' m.
Proof.
  intros ret QF. pose proof E as E0. rewrite QF in E0. cbn [hret] in E0.
  pose proof LS as L0. rewrite QF in L0. destruct (cvr_rest _ _ _ L0) as (kk & cv & dl & st & QR).
  assert (NI : ~ In (NCo c) (q (dt s) (QMu m))).
  { intros IN. apply (reach_qloc _ RE) in IN; [|exact I]. unfold matched in IN. cbn [node_co] in IN. rewrite SK, QF in IN. exact IN. }
  assert (RM : q (dt s) (QMu m) = rem).
  { symmetry. apply filter_all. intros n IN. destruct (node_eqb_spec (NCo c) n) as [<-|]; [contradiction | reflexivity]. }
  destruct (v =? OK) eqn:VO.
  - injection E0 as E1 E2 E3.
    apply ot_step; [|intros x N; rewrite <- E1; reflexivity|].
    + apply qm_gone. cbn [dt s']. rewrite <- E3. cbn [ctl_dat]. rewrite <- E1. exact RM.
    + intros j _ C. destruct (ck_own _ _ _ _ _ _ _ _ _ RE CU X C) as [_ C0]. rewrite <- E2, QR in C0. discriminate C0.
  - destruct ((v =? ECANCELED) && casync (cof (dt s) c)) eqn:AS; [|eapply (ot_again kk cv dl st ret (dt s)); eassumption].
    assert (E2 : hret c (FApi O (OpLock O 0)) v b (now s) (dt s) = (d, fs, k)) by (cbn [hret is_async]; rewrite <- andb_assoc, AS; exact E0).
    destruct (tick_queue _ _ _ _ _ _ _ _ (QMu m) RE E2 I (exitk_mu _ _ _) (fun z => z)) as [A B].
    apply ot_step; [|exact A|].
    + apply qm_gone. cbn [dt s']. apply quiet_gone; try assumption; try exact I; [|intros IN; apply NI, B, IN]. eapply tick_others; try eassumption; [exact I|]. apply exitk_mu.
    + intros j _ C. destruct (ck_own _ _ _ _ _ _ _ _ _ RE CU X C) as [NF C0]. rewrite ck_none in C0; [discriminate C0|]. intros. eapply async_tk; eassumption.
Qed.
Lemma tick_mord : mord s' m.
Proof.
  assert (D : f = FPause \/ (exists kk o, f = FApi kk o) \/ carry f m \/ (f <> FPause /\ (forall kk o, f <> FApi kk o) /\ ~ carry f m)).
  { destruct f; eauto; cbn [carry]; try (do 3 right; repeat split; auto; discriminate); destruct (Nat.eq_dec m0 m); auto; do 3 right; repeat split; auto; discriminate. }
  destruct D as [D|[(kk & o & D)|[D|(D1 & D2 & D3)]]].
  - exact (ot_pause D).
  - exact (ot_api kk o D).
  - destruct (carry_cases _ _ D) as [D1|[(cv & D1)|(r & D1)]]; [exact (ot_lock D1) | exact (ot_cvwait cv D1) | exact (ot_relocked r D1)].
  - exact (ot_quiet D1 D2 D3).
Qed.
End Tick.

Theorem reach_mord : forall s, reach s -> tidy (tr s) -> proper (tr s) -> forall m, mord s m.
Proof.
  apply (rrun_preserves (fun s => tidy (tr s) -> proper (tr s) -> forall m, mord s m)).
  - intros s c o d fs k sch md RE I M CU U NR E X T P m. cbn [tr] in T, P. pose proof (tidy_call _ _ _ _ _ T) as T1. pose proof (proj1 (proper_call _ _ _ _ _ P)) as P1.
    specialize (I T1 P1 m). eapply call_mord; try eassumption. apply reach_mok; assumption.
  - intros s c v f rest b d fs k sch md RE I M CU SK L E X T P m. cbn [tr] in T, P. pose proof (tidy_tick _ _ _ _ _ _ _ T) as T1. pose proof (proper_tick _ _ _ _ _ _ _ P) as P1.
    specialize (I T1 P1 m). eapply tick_mord; eassumption.
  - intros s d ws sch md ios RE I M A K X T P m. specialize (I T P m). destruct (main_same _ _ _ _ _ _ RE M K X) as [_ QP]. destruct (QP m) as [QQ PP].
    apply sco_switch_frame in X. destruct X as (X1 & _). destruct (wakes_frame ws (sc s)) as (W1 & _).
    destruct I as [I1 I2 I3]. constructor; cbn [tr]; rewrite QQ; cbn [sc]; rewrite X1, W1; auto. intros x i IN C y j PY. rewrite PP in PY. eauto.
  - intros s md RE I HM T P m. specialize (I T P m). destruct I as [I1 I2 I3]. constructor; cbn [tr dt set_mode sc]; auto.
    intros x i IN C y j PY. destruct (mode_ptok s md RE HM m y) as [Q|[_ Q]]; rewrite Q in PY; [eauto | contradiction].
  - intros s e RE I H M T P m. apply tidy_env in T; [|exact H]. apply proper_env in P; [|exact H]. specialize (I T P m).
    destruct (env_same s e RE H M m) as (_ & _ & _ & D). destruct (env_frame s e H) as (E1 & _).
    assert (QQ : q (dt (step s e)) (QMu m) = q (dt s) (QMu m)).
    { destruct (env_q s e H) as [->|(c & _ & _ & (w & SX) & ->)]; [reflexivity|]. unfold pushq. cbn [q set_q]. rewrite qupd_neq by discriminate. apply rmq_notin.
      intros IN. apply (reach_qloc _ RE) in IN; [|exact Logic.I]. unfold matched in IN. cbn [node_co] in IN. rewrite SX in IN. exact IN. }
    destruct I as [I1 I2 I3]. constructor; rewrite QQ, E1; auto.
    + intros x i IN C y j PY. rewrite (proj2 (D y)) in PY. eauto.
    + intros x i IN C j (c & o & mm & tm & IW & L). apply (I3 x i IN C). apply env_tr_in in IW; [|exact H]. destruct IW as [IW|(? & ? & W)]; [|discriminate W]. exists c, o, mm, tm. auto.
  - intros g O T P m. unfold mord. cbn. constructor; [constructor | intros x i [] | intros x i []].
Qed.
