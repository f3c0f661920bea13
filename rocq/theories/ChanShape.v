(** The structure of channels: a buffer never exceeds its capacity, coroutines
    wait to receive only while nothing is buffered, to send only while the buffer
    is full, and a channel that reports CLOSED to receivers is closed, empty and
    has no waiters. *)
From Coq Require Import List ZArith Bool Lia.
From Verif Require Import Util Runtime SchedInv StepInv StackShape Prims StaticInv Footprint TraceInv QueueInv.
Import ListNotations.
Local Open Scope Z_scope.

Record chok (x : chrec) (l : list node) : Prop := {
  ck_cap : 0 <= bufcap x /\ Z.of_nat (length (buf x)) <= bufcap x;
  ck_recv : l <> [] -> qrecv x = true -> buf x = [];
  ck_send : l <> [] -> qrecv x = false -> Z.of_nat (length (buf x)) = bufcap x;
  ck_rc : rclosed x = true -> sclosed x = true /\ buf x = [] /\ l = [];
  ck_nil : crt x = 0 -> l = [] }.
Definition chd (d : dat) : Prop :=
  (forall ch, chok (chn d ch) (q d (QChan ch))) /\
  (forall ch, (nchan d <= ch)%nat -> crt (chn d ch) = 0) /\ 0 < rtid d.

(** does this stack wait to send or to receive? *)
Definition sdir (st : list frame) : option bool :=
  match top st with
  | FSendWait _ :: _ => Some false
  | FRecvWait _ :: _ | FSelWait _ :: _ => Some true
  | _ => None
  end.
Definition noown (c : Z) (d : dat) : Prop := forall ch n, In n (q d (QChan ch)) -> node_co n <> c.
Definition qdir (c : Z) (fs : list frame) (d d' : dat) : Prop :=
  forall ch n, In n (q d' (QChan ch)) ->
    (In n (q d (QChan ch)) /\ node_co n <> c /\ qrecv (chn d' ch) = qrecv (chn d ch)) \/
    (node_co n = c /\ sdir fs = Some (qrecv (chn d' ch))).
Definition chres (c : Z) (fs : list frame) (d d' : dat) : Prop := chd d' /\ qdir c fs d d'.

(** updates that take waiters away at most *)
Definition chlike (x y : chrec) : Prop := y = set_lok (lok y) (set_slot (slot y) x).
Definition csub (d d' : dat) : Prop :=
  nchan d' = nchan d /\ rtid d' = rtid d /\ (forall ch, chlike (chn d ch) (chn d' ch)) /\
  (forall ch n, In n (q d' (QChan ch)) -> In n (q d (QChan ch))).

Lemma chlike_refl : forall x, chlike x x.
Proof. intros []. reflexivity. Qed.
Lemma chlike_trans : forall x y z, chlike x y -> chlike y z -> chlike x z.
Proof. unfold chlike. intros x y z -> ->. destruct x; reflexivity. Qed.
Lemma chlike_fields : forall x y, chlike x y ->
  crt y = crt x /\ sclosed y = sclosed x /\ rclosed y = rclosed x /\ qrecv y = qrecv x /\ bufcap y = bufcap x /\ buf y = buf x.
Proof. unfold chlike. intros x y ->. destruct x; cbn; auto 10. Qed.
Lemma csub_refl : forall d, csub d d.
Proof. intros d. repeat split; auto using chlike_refl. Qed.
Lemma csub_trans : forall a b c, csub a b -> csub b c -> csub a c.
Proof.
  intros a b c (A1 & A2 & A3 & A4) (B1 & B2 & B3 & B4). repeat split; try congruence; eauto using chlike_trans.
Qed.
Lemma chok_sub : forall x y l l', chlike x y -> (forall n, In n l' -> In n l) -> chok x l -> chok y l'.
Proof.
  intros x y l l' L S [A B C D E]. apply chlike_fields in L. destruct L as (L1 & L2 & L3 & L4 & L5 & L6).
  assert (N : l = [] -> l' = []). { intros ->. destruct l' as [|n l']; [reflexivity|]. destruct (S n). left. reflexivity. }
  assert (N2 : l' <> [] -> l <> []) by tauto.
  constructor; rewrite ?L1, ?L2, ?L3, ?L4, ?L5, ?L6; auto. intros R. destruct (D R) as (D1 & D2 & D3). auto.
Qed.
Lemma chd_sub : forall d d', csub d d' -> chd d -> chd d'.
Proof.
  intros d d' (S1 & S2 & S3 & S4) (A & B & C). split; [|split].
  - intros ch. eapply chok_sub; [apply S3 | apply S4 | apply A].
  - intros ch L. destruct (chlike_fields _ _ (S3 ch)) as (-> & _). apply B. lia.
  - rewrite S2. exact C.
Qed.
Lemma noown_sub : forall c d d', csub d d' -> noown c d -> noown c d'.
Proof. intros c d d' (_ & _ & _ & S) N ch n I. eapply N, S, I. Qed.
Lemma csub_res : forall c fs d d', chd d -> noown c d -> csub d d' -> chres c fs d d'.
Proof.
  intros c fs d d' A N S. split; [eapply chd_sub; eassumption|]. intros ch n I. left. destruct S as (_ & _ & S3 & S4).
  destruct (chlike_fields _ _ (S3 ch)) as (_ & _ & _ & -> & _). repeat split; auto. eapply N, S4, I.
Qed.
Lemma chres_pre : forall c fs d d1 d', csub d d1 -> chres c fs d1 d' -> chres c fs d d'.
Proof.
  intros c fs d d1 d' (_ & _ & S3 & S4) [A B]. split; [exact A|]. intros ch n I. destruct (B ch n I) as [(B1 & B2 & B3)|B1]; [left|auto].
  destruct (chlike_fields _ _ (S3 ch)) as (_ & _ & _ & Q & _). repeat split; auto; congruence.
Qed.
Lemma chres_post : forall c fs d d1 d', chres c fs d d1 -> csub d1 d' -> chres c fs d d'.
Proof.
  intros c fs d d1 d' [A B] S. split; [eapply chd_sub; eassumption|]. destruct S as (_ & _ & S3 & S4).
  intros ch n I. destruct (chlike_fields _ _ (S3 ch)) as (_ & _ & _ & Q & _). rewrite Q. apply B, S4, I.
Qed.
Lemma chres_fs : forall c fs fs' d d', sdir fs' = sdir fs -> chres c fs d d' -> chres c fs' d d'.
Proof. intros c fs fs' d d' E [A B]. split; [exact A|]. intros ch n I. rewrite E. apply B, I. Qed.

(** ** Pieces *)
Lemma cs_eq : forall d d', q d' = q d -> chn d' = chn d -> nchan d' = nchan d -> rtid d' = rtid d -> csub d d'.
Proof. intros d d' A B C D. unfold csub. rewrite A, B, C, D. repeat split; auto using chlike_refl. Qed.
Lemma cs_rmq : forall n d, csub d (rmq n d).
Proof. intros n d. repeat split; auto using chlike_refl. intros ch x I. apply In_rmq in I. apply I. Qed.
Lemma cs_pushq : forall k n d, (forall ch, k <> QChan ch) -> csub d (pushq k n d).
Proof.
  intros k n d N. repeat split; auto using chlike_refl. intros ch x I. apply In_pushq in I. destruct I as [[I _]|[E _]]; [exact I|].
  destruct (N ch). congruence.
Qed.
Lemma cs_resume : forall r d, csub d (sched_resume r d).
Proof. intros r d. apply (csub_trans _ (pushq QRes (NCo r) d)); [apply cs_pushq; discriminate | apply cs_eq; reflexivity]. Qed.
Lemma cs_popq : forall k d x d', popq k d = (x, d') -> csub d d'.
Proof.
  intros k d x d' E. unfold popq in E. destruct (q d k) as [|y l] eqn:Q; inj E; [apply csub_refl|].
  repeat split; auto using chlike_refl. intros ch n. eapply In_qupd_tl. exact Q.
Qed.
Lemma cs_upch : forall ch f d, (forall x, chlike x (f x)) -> csub d (upch ch f d).
Proof.
  intros ch f d H. unfold upch. repeat split; auto. intros ch'. cbn. unfold nupd. destruct (Nat.eqb_spec ch' ch) as [->|];
    [apply H | apply chlike_refl].
Qed.
Lemma cs_deliver : forall ch m n d r d', deliver ch m n d = Some (r, d') -> csub d d'.
Proof.
  intros ch m n d r d' E. unfold deliver in E. destruct n as [x|x i]; [inj E; apply cs_eq; reflexivity|].
  destruct (negb _); inj E. eapply csub_trans; [|apply cs_upch]; [apply cs_eq; reflexivity | intros []; reflexivity].
Qed.
Lemma cs_send_loop : forall ch m n d r d', send_loop ch m n d = (r, d') -> csub d d'.
Proof.
  intros ch m n. induction n as [|n IH]; intros d r d' E; cbn in E; [inj E; apply csub_refl|].
  destruct (popq (QChan ch) d) as [[x|] d1] eqn:P.
  - apply cs_popq in P. destruct (deliver ch m x d1) as [[r1 d2]|] eqn:D.
    + inj E. eapply csub_trans; [exact P | eapply cs_deliver; exact D].
    + eapply csub_trans; [exact P | eapply IH; exact E].
  - inj E. eapply cs_popq; exact P.
Qed.
Lemma cs_bcast_loop : forall ch m n sent d r d', bcast_loop ch m n sent d = (r, d') -> csub d d'.
Proof.
  intros ch m n. induction n as [|n IH]; intros sent d r d' E; cbn in E; [inj E; apply csub_refl|].
  destruct (popq (QChan ch) d) as [[x|] d1] eqn:P.
  - apply cs_popq in P. destruct (deliver ch m x d1) as [[r1 d2]|] eqn:D.
    + eapply csub_trans; [exact P|]. eapply csub_trans; [eapply cs_deliver; exact D|]. eapply csub_trans; [apply cs_resume | eapply IH; exact E].
    + eapply csub_trans; [exact P | eapply IH; exact E].
  - inj E. eapply cs_popq; exact P.
Qed.
Lemma cs_close_loop : forall ch n d, csub d (close_loop ch n d).
Proof.
  intros ch n. induction n as [|n IH]; intros d; cbn [close_loop]; [apply csub_refl|].
  destruct (popq (QChan ch) d) as [[[x|x i]|] d1] eqn:P; apply cs_popq in P.
  - eapply csub_trans; [exact P|]. eapply csub_trans; [|apply IH]. eapply csub_trans; [|apply cs_resume]. apply cs_eq; reflexivity.
  - destruct (negb _); [eapply csub_trans; [exact P | apply IH]|].
    eapply csub_trans; [exact P|]. eapply csub_trans; [|apply IH]. eapply csub_trans; [|apply cs_resume].
    eapply csub_trans; [|apply cs_upch; intros []; reflexivity]. apply cs_eq; reflexivity.
  - exact P.
Qed.
Lemma cs_resume_all : forall k n d, csub d (resume_all k n d).
Proof.
  intros k n. induction n as [|n IH]; intros d; cbn; [apply csub_refl|].
  destruct (popq k d) as [[x|] d1] eqn:P; apply cs_popq in P; [|exact P].
  eapply csub_trans; [exact P|]. eapply csub_trans; [apply cs_resume | apply IH].
Qed.
Lemma cs_copause : forall c dl fs d d' fs' k, copause c dl fs d = (d', fs', k) -> csub d d'.
Proof.
  intros c dl fs d d' fs' k E. unfold copause in E. destruct (_ || _); [inj E; apply csub_refl|].
  destruct (_ <? _); inj E; apply cs_eq; reflexivity.
Qed.
Lemma cs_yfsr : forall fs d d' fs' k, yfsr fs d = (d', fs', k) -> csub d d'.
Proof. intros fs d d' fs' k E. apply yfsr_cases in E. destruct E as (-> & _). apply csub_refl. Qed.
Lemma cs_core : forall d d', core d' = core d -> csub d d'.
Proof. intros d d' E. apply fps_core_q in E. apply cs_eq; apply E. Qed.

Lemma fps_csub : forall c KP KW d R P d', fps c KP KW d R P d' -> (forall ch, ~ KP (QChan ch)) -> ~ KP QPool ->
  (forall ch n, ~ KW (QChan ch) n) -> csub d d'.
Proof.
  intros c KP KW d R P d' F HP HN HW. induction F; try (eapply csub_trans; [exact IHF|]).
  - apply csub_refl.
  - apply cs_eq; reflexivity.
  - apply cs_core, H.
  - apply cs_rmq.
  - apply cs_pushq. intros ch ->. eapply HW; eassumption.
  - eapply (cs_popq k). unfold popq. rewrite H1. reflexivity.
  - apply cs_eq; reflexivity.
  - apply cs_resume.
  - apply cs_eq; reflexivity.
  - destruct (HP _ H).
  - contradiction.
  - apply cs_eq; reflexivity.
  - apply cs_eq; reflexivity.
  - apply cs_eq; reflexivity.
  - repeat split; auto using chlike_refl. intros ch n. apply In_qupd_nil. exact H1.
  - apply csub_refl.
Qed.

(** ** The loops empty the queue of receivers *)
Lemma popq_len : forall k d x d', popq k d = (Some x, d') -> length (q d k) = S (length (q d' k)).
Proof.
  intros k d x d' E. unfold popq in E. destruct (q d k) as [|y l] eqn:Q; inj E. cbn. rewrite qupd_eq. reflexivity.
Qed.
Lemma deliver_q : forall ch m n d r d', deliver ch m n d = Some (r, d') -> q d' = q d.
Proof. intros ch m n d r d' E. unfold deliver in E. destruct n; [inj E; reflexivity|]. destruct (negb _); inj E. reflexivity. Qed.
Lemma filter_len : forall A (f : A -> bool) l, (length (filter f l) <= length l)%nat.
Proof. intros A f l. induction l as [|x l IH]; cbn [filter length]; [lia|]. destruct (f x); cbn [length]; lia. Qed.
Lemma resume_q : forall r d k, (length (q (sched_resume r d) (QChan k)) <= length (q d (QChan k)))%nat.
Proof.
  intros r d k. unfold sched_resume, pushq. cbn [q set_q set_nresumers]. rewrite qupd_neq by discriminate. apply filter_len.
Qed.
Lemma popq_none_nil : forall k d d', popq k d = (None, d') -> q d' k = [].
Proof. intros k d d' E. apply popq_none in E. destruct E as [-> E]. exact E. Qed.
Lemma send_loop_none : forall ch m n d d', send_loop ch m n d = (None, d') -> (length (q d (QChan ch)) <= n)%nat -> q d' (QChan ch) = [].
Proof.
  intros ch m n. induction n as [|n IH]; intros d d' E L; cbn in E.
  - inj E. destruct (q d' (QChan ch)); [reflexivity | cbn in L; lia].
  - destruct (popq (QChan ch) d) as [[x|] d1] eqn:P.
    + apply popq_len in P. destruct (deliver ch m x d1) as [[r1 d2]|] eqn:D; [discriminate|]. eapply IH; [exact E | lia].
    + inj E. eapply popq_none_nil; exact P.
Qed.
Lemma bcast_loop_nil : forall ch m n sent d r d', bcast_loop ch m n sent d = (r, d') -> (length (q d (QChan ch)) <= n)%nat -> q d' (QChan ch) = [].
Proof.
  intros ch m n. induction n as [|n IH]; intros sent d r d' E L; cbn in E.
  - inj E. destruct (q d' (QChan ch)); [reflexivity | cbn in L; lia].
  - destruct (popq (QChan ch) d) as [[x|] d1] eqn:P.
    + apply popq_len in P. destruct (deliver ch m x d1) as [[r1 d2]|] eqn:D.
      * eapply IH; [exact E|]. apply deliver_q in D. pose proof (resume_q r1 d2 ch). rewrite D in H. lia.
      * eapply IH; [exact E | lia].
    + inj E. eapply popq_none_nil; exact P.
Qed.
Lemma close_loop_nil : forall ch n d, (length (q d (QChan ch)) <= n)%nat -> q (close_loop ch n d) (QChan ch) = [].
Proof.
  intros ch n. induction n as [|n IH]; intros d L; cbn [close_loop].
  - destruct (q d (QChan ch)); [reflexivity | cbn in L; lia].
  - destruct (popq (QChan ch) d) as [[[x|x i]|] d1] eqn:P.
    + apply popq_len in P. apply IH. pose proof (resume_q x (upco x (set_cclosed true) d1) ch). cbn [upco q set_cof] in H. lia.
    + apply popq_len in P. destruct (negb _); [apply IH; lia|]. apply IH.
      match goal with |- (length (q (sched_resume ?r ?y) _) <= _)%nat => pose proof (resume_q r y ch) as H end.
      cbn [upco upch q set_cof set_chn] in H. lia.
    + eapply popq_none_nil; exact P.
Qed.

(** ** Channel operations *)
Lemma upch_eq : forall ch f d, chn (upch ch f d) ch = f (chn d ch).
Proof. intros. unfold upch. cbn. apply nupd_eq. Qed.
Lemma upch_neq : forall ch f d x, x <> ch -> chn (upch ch f d) x = chn d x.
Proof. intros. unfold upch. cbn. apply nupd_neq. assumption. Qed.

(** one channel changes, the other queues at most shrink *)
Lemma chres_one : forall c fs d d' ch, chd d -> noown c d -> nchan d' = nchan d -> rtid d' = rtid d ->
  (forall x, x <> ch -> chlike (chn d x) (chn d' x) /\ forall n, In n (q d' (QChan x)) -> In n (q d (QChan x))) ->
  crt (chn d' ch) = crt (chn d ch) -> chok (chn d' ch) (q d' (QChan ch)) ->
  (forall n, In n (q d' (QChan ch)) -> (In n (q d (QChan ch)) /\ qrecv (chn d' ch) = qrecv (chn d ch)) \/
     (node_co n = c /\ sdir fs = Some (qrecv (chn d' ch)))) ->
  chres c fs d d'.
Proof.
  intros c fs d d' ch (A & B & R) N E1 E2 O E3 K Q. split; [split; [|split]|].
  - intros x. destruct (Nat.eq_dec x ch) as [->|NE]; [exact K|]. destruct (O x NE) as [O1 O2]. eapply chok_sub; [exact O1 | exact O2 | apply A].
  - intros x L. rewrite E1 in L. destruct (Nat.eq_dec x ch) as [->|NE]; [rewrite E3; auto|].
    destruct (O x NE) as [O1 _]. destruct (chlike_fields _ _ O1) as (-> & _). auto.
  - rewrite E2. exact R.
  - intros x n I. destruct (Nat.eq_dec x ch) as [->|NE].
    + destruct (Q n I) as [[H1 H2]|H]; [left|auto]. split; [exact H1|]. split; [eapply N; exact H1 | exact H2].
    + destruct (O x NE) as [O1 O2]. left. destruct (chlike_fields _ _ O1) as (_ & _ & _ & -> & _). split; [auto|]. split; [|reflexivity].
      eapply N, O2, I.
Qed.

Lemma chk_ok : forall ch d, 0 < rtid d -> negb (chk_chan ch d =? OK) = false -> crt (chn d ch) = rtid d.
Proof.
  intros ch d R E. unfold chk_chan in E. destruct (crt (chn d ch) =? 0); [discriminate|].
  destruct (Z.eqb_spec (crt (chn d ch)) (rtid d)); [assumption | discriminate].
Qed.

Lemma others_pushq : forall ch c d x n, x <> ch -> In n (q (pushq (QChan ch) (NCo c) d) (QChan x)) -> In n (q d (QChan x)).
Proof. intros ch c d x n NE I. apply In_pushq in I. destruct I as [[I _]|[E _]]; [exact I | congruence]. Qed.

Ltac sdir_top T := unfold sdir; rewrite T; reflexivity.

Lemma cr_do_send : forall c ch m dl d d' fs k, chd d -> noown c d -> do_send c ch m dl d = (d', fs, k) -> chres c fs d d'.
Proof.
  intros c ch m dl d d' fs k D N E. unfold do_send in E.
  destruct (negb _) eqn:CK; [inj E; apply csub_res; auto using csub_refl|]. apply chk_ok in CK; [|apply D].
  destruct (sclosed _) eqn:SC; [inj E; apply csub_res; auto using csub_refl|].
  destruct (canceled _); [inj E; apply csub_res; auto; apply cs_eq; reflexivity|].
  destruct (send_loop _ _ _ _) as [[r|] d1] eqn:S.
  - inj E. apply cs_send_loop in S. apply csub_res; auto.
  - pose proof S as S0. apply cs_send_loop in S0. eapply chres_pre; [exact S0|].
    assert (Q0 : q d1 (QChan ch) = [] \/ qrecv (chn d1 ch) = false).
    { unfold recvn in S. destruct (qrecv (chn d ch)) eqn:QR.
      - left. eapply send_loop_none; [exact S | lia].
      - right. destruct S0 as (_ & _ & S3 & _). destruct (chlike_fields _ _ (S3 ch)) as (_ & _ & _ & -> & _). exact QR. }
    assert (SC1 : sclosed (chn d1 ch) = false).
    { destruct S0 as (_ & _ & S3 & _). destruct (chlike_fields _ _ (S3 ch)) as (_ & -> & _). exact SC. }
    assert (CK1 : crt (chn d1 ch) <> 0).
    { destruct S0 as (_ & _ & S3 & _). destruct (chlike_fields _ _ (S3 ch)) as (-> & _). rewrite CK. apply Z.neq_sym, Z.lt_neq, D. }
    pose proof (chd_sub _ _ S0 D) as D1. pose proof (noown_sub _ _ _ S0 N) as N1. clear S S0 D N CK SC.
    destruct (proj1 D1 ch) as [K1 K2 K3 K4 K5].
    destruct (_ <? _) eqn:LT.
    + apply Z.ltb_lt in LT.
      assert (Q1 : q d1 (QChan ch) = []).
      { destruct Q0 as [Q0|Q0]; [exact Q0|]. destruct (q d1 (QChan ch)); [reflexivity|]. assert (n :: l <> []) by discriminate. specialize (K3 H Q0). lia. }
      inj E. apply chres_one with (ch := ch); auto.
      * intros x NE. rewrite upch_neq by exact NE. split; [apply chlike_refl | auto].
      * rewrite upch_eq. reflexivity.
      * rewrite upch_eq. cbn [upch q set_chn]. rewrite Q1. constructor; cbn; try congruence; auto.
        -- rewrite app_length, Nat2Z.inj_add. cbn. lia.
        -- intros RC. destruct (K4 RC) as (K41 & _). congruence.
      * cbn [upch q set_chn]. rewrite Q1. intros n [].
    + apply Z.ltb_ge in LT. pose proof E as T. apply copause_top in T; [destruct T as [T _] | discriminate].
      apply cs_copause in E. eapply chres_post; [|exact E]. clear E.
      apply (chres_post _ _ _ (upch ch (set_qrecv false) (pushq (QChan ch) (NCo c) d1))); [|apply cs_eq; reflexivity].
      apply chres_one with (ch := ch); auto.
      * intros x NE. rewrite upch_neq by exact NE. split; [apply chlike_refl|]. intros n. apply others_pushq; exact NE.
      * rewrite upch_eq. reflexivity.
      * rewrite upch_eq. change (chn (pushq (QChan ch) (NCo c) d1) ch) with (chn d1 ch). constructor; cbn; auto; try congruence.
        -- lia.
        -- intros RC. destruct (K4 RC) as (K41 & _). congruence.
      * intros n I. rewrite upch_eq. cbn [qrecv set_qrecv]. change (chn (pushq (QChan ch) (NCo c) d1) ch) with (chn d1 ch).
        cbn [upch q set_chn] in I. apply In_pushq in I. destruct I as [[I _]|[_ ->]].
        -- left. split; [exact I|]. destruct Q0 as [Q0|Q0]; [rewrite Q0 in I; destruct I | rewrite Q0; reflexivity].
        -- right. split; [reflexivity|]. sdir_top T.
Qed.

Lemma cr_do_bcast : forall c ch m d d' fs k, chd d -> noown c d -> do_bcast ch m d = (d', fs, k) -> chres c fs d d'.
Proof.
  intros c ch m d d' fs k D N E. unfold do_bcast in E.
  destruct (negb _); [inj E; apply csub_res; auto using csub_refl|].
  destruct (sclosed _); [inj E; apply csub_res; auto using csub_refl|].
  destruct (bcast_loop _ _ _ _ _) as [n d1] eqn:B. apply cs_bcast_loop in B. apply cs_yfsr in E.
  apply csub_res; auto. eapply csub_trans; eassumption.
Qed.

Lemma cr_do_close : forall c ch fs0 d d' fs k, chd d -> noown c d -> do_close ch d = (d', fs, k) -> chres c fs0 d d'.
Proof.
  intros c ch fs0 d d' fs k D N E. unfold do_close in E.
  destruct (negb _) eqn:CK; [inj E; apply csub_res; auto using csub_refl|]. apply chk_ok in CK; [|apply D].
  destruct (sclosed _); [inj E; apply csub_res; auto using csub_refl|].
  assert (R1 : chres c fs0 d (upch ch (set_sclosed true) d)).
  { destruct (proj1 D ch) as [K1 K2 K3 K4 K5]. apply chres_one with (ch := ch); auto.
    - intros x NE. rewrite upch_neq by exact NE. split; [apply chlike_refl | auto].
    - rewrite upch_eq. reflexivity.
    - rewrite upch_eq. constructor; cbn; auto. intros RC. destruct (K4 RC) as (_ & K4b). auto.
    - intros n I. left. rewrite upch_eq. auto. }
  destruct (negb _ || _) eqn:BR; [inj E; exact R1|].
  apply orb_false_iff in BR. destruct BR as [BR1 BR2]. rewrite upch_eq in BR1, BR2. cbn [buf qrecv set_sclosed] in BR1, BR2.
  destruct (buf (chn d ch)) eqn:BF; [clear BR1|discriminate].
  set (dd := upch ch (set_sclosed true) d) in *.
  set (dl := close_loop ch (length (q dd (QChan ch))) dd) in *.
  assert (Q : q dl (QChan ch) = []) by (apply close_loop_nil; lia).
  assert (SB : csub dd dl) by apply cs_close_loop.
  apply cs_yfsr in E. eapply chres_post; [|exact E]. clear E.
  pose proof (chd_sub _ _ SB (proj1 R1)) as D2.
  destruct SB as (S1 & S2 & S3 & S4).
  pose proof (chlike_fields _ _ (S3 ch)) as (F1 & F2 & F3 & F4 & F5 & F6). unfold dd in F1, F2, F3, F4, F5, F6. rewrite upch_eq in F1, F2, F3, F4, F5, F6. cbn in F1, F2, F3, F4, F5, F6.
  apply chres_one with (ch := ch); auto.
  - intros x NE. rewrite upch_neq by exact NE. split.
    + replace (chn d x) with (chn dd x) by (apply upch_neq; exact NE). apply S3.
    + intros n I. apply (S4 x n) in I. exact I.
  - rewrite upch_eq. cbn. exact F1.
  - rewrite upch_eq. cbn [upch q set_chn]. rewrite Q. destruct (proj1 D2 ch) as [K1 K2 K3 K4 K5].
    constructor; cbn; auto; try congruence.
    intros _. split; [exact F2|]. split; [rewrite F6; exact BF | reflexivity].
  - cbn [upch q set_chn]. rewrite Q. intros n [].
Qed.

(** the non-waiting part of a receive *)
Lemma take_res : forall c fs ch d m s d', chd d -> noown c d -> crt (chn d ch) <> 0 -> rclosed (chn d ch) = false ->
  take ch d = Some (m, s, d') -> chres c fs d d'.
Proof.
  intros c fs ch d m s d' D N CK RC E. unfold take in E. destruct (proj1 D ch) as [K1 K2 K3 K4 K5].
  assert (CID : forall y, q y (QChan ch) = q y (QChan ch) -> chres c fs d y -> rclosed (chn y ch) = false ->
    chres c fs d (close_if_drained ch y)).
  { intros y _ Y RY. unfold close_if_drained. destruct (sclosed (chn y ch)) eqn:SY; [|exact Y].
    destruct (emptyq (QChan ch) y) eqn:EY; [|exact Y]. destruct (buf (chn y ch)) eqn:BY; [|exact Y]. cbn [andb].
    assert (QY : q y (QChan ch) = []) by (unfold emptyq in EY; destruct (q y (QChan ch)); [reflexivity | discriminate]).
    destruct Y as [Y1 Y2]. split.
    - destruct Y1 as (A & B & C). split; [|split]; [| |exact C].
      + intros x. destruct (Nat.eq_dec x ch) as [->|NE]; [|rewrite upch_neq by exact NE; apply A].
        rewrite upch_eq. change (q (upch ch (set_rclosed true) y) (QChan ch)) with (q y (QChan ch)). rewrite QY.
        destruct (A ch). constructor; cbn; auto; congruence.
      + intros x L. destruct (Nat.eq_dec x ch) as [->|NE]; [rewrite upch_eq; apply B, L | rewrite upch_neq by exact NE; apply B, L].
    - intros x n I. destruct (Nat.eq_dec x ch) as [->|NE]; [|rewrite upch_neq by exact NE; apply Y2, I].
      rewrite upch_eq. apply Y2, I. }
  destruct (buf (chn d ch)) as [|m0 b] eqn:BF.
  - destruct (qrecv (chn d ch)) eqn:QR; [discriminate|].
    destruct (popq (QChan ch) d) as [[x|] d1] eqn:P; [|discriminate]. apply cs_popq in P. inj E.
    apply CID; [reflexivity | apply csub_res; auto|]. destruct P as (_ & _ & P3 & _).
    destruct (chlike_fields _ _ (P3 ch)) as (_ & _ & -> & _). exact RC.
  - unfold popq in E. cbn [upch q set_chn] in E. destruct (q d (QChan ch)) as [|y l] eqn:Q.
    + inj E. apply CID; [reflexivity| |rewrite upch_eq; exact RC].
      apply chres_one with (ch := ch); auto.
      * intros x NE. rewrite upch_neq by exact NE. split; [apply chlike_refl | auto].
      * rewrite upch_eq. reflexivity.
      * rewrite upch_eq. cbn [upch q set_chn]. rewrite Q. constructor; cbn; auto; try congruence. cbn [length] in K1. lia.
      * cbn [upch q set_chn]. rewrite Q. intros n [].
    + inj E. apply CID; [reflexivity| |].
      * assert (QR : qrecv (chn d ch) = false). { destruct (qrecv (chn d ch)); [|reflexivity]. specialize (K2 ltac:(discriminate) eq_refl). discriminate. }
        apply chres_one with (ch := ch); auto.
        -- intros x NE. rewrite upch_neq by exact NE. cbn. rewrite nupd_neq by exact NE. split; [apply chlike_refl|].
           rewrite qupd_neq by congruence. auto.
        -- rewrite upch_eq. cbn. rewrite nupd_eq. reflexivity.
        -- rewrite upch_eq. cbn. rewrite nupd_eq, qupd_eq. cbn. specialize (K3 ltac:(discriminate) QR). cbn [length] in K1, K3.
           constructor; cbn; rewrite ?QR, ?app_length; cbn; try congruence; try lia.
        -- intros n. rewrite upch_eq. cbn. rewrite nupd_eq, qupd_eq. cbn. intros I. left. rewrite Q. cbn. auto.
      * rewrite upch_eq. cbn. rewrite nupd_eq. exact RC.
Qed.
Lemma take_none : forall ch d, chd d -> take ch d = None -> buf (chn d ch) = [] /\ (q d (QChan ch) = [] \/ qrecv (chn d ch) = true).
Proof.
  intros ch d D E. unfold take in E. destruct (buf (chn d ch)) as [|m b].
  - split; [reflexivity|]. destruct (qrecv (chn d ch)); [auto|]. unfold popq in E. destruct (q d (QChan ch)); [auto | discriminate].
  - unfold popq in E. cbn [upch q set_chn] in E. destruct (q d (QChan ch)); discriminate.
Qed.

Lemma cr_do_recv : forall c ch t dl d d' fs k, chd d -> noown c d -> do_recv c ch t dl d = (d', fs, k) -> chres c fs d d'.
Proof.
  intros c ch t dl d d' fs k D N E. unfold do_recv in E.
  destruct (negb _) eqn:CK; [inj E; apply csub_res; auto using csub_refl|]. apply chk_ok in CK; [|apply D].
  assert (CK1 : crt (chn d ch) <> 0) by (rewrite CK; apply Z.neq_sym, Z.lt_neq, D).
  destruct (rclosed _) eqn:RC; [inj E; apply csub_res; auto using csub_refl|].
  destruct (canceled _); [inj E; apply csub_res; auto; apply cs_eq; reflexivity|].
  destruct (take ch d) as [[[m s] d1]|] eqn:T.
  - eapply (take_res c fs) in T; auto.
    destruct s; inj E; (eapply chres_post; [exact T | apply cs_eq; reflexivity]).
  - apply take_none in T; [|exact D]. destruct T as [BF QQ]. destruct t; [inj E; apply csub_res; auto using csub_refl|].
    pose proof E as T. apply copause_top in T; [destruct T as [T _] | discriminate].
    apply cs_copause in E. eapply chres_post; [|exact E]. clear E.
    apply (chres_post _ _ _ (upch ch (set_qrecv true) (pushq (QChan ch) (NCo c) d))); [|apply cs_eq; reflexivity].
    destruct (proj1 D ch) as [K1 K2 K3 K4 K5].
    apply chres_one with (ch := ch); auto.
    + intros x NE. rewrite upch_neq by exact NE. split; [apply chlike_refl|]. intros n. apply others_pushq; exact NE.
    + rewrite upch_eq. reflexivity.
    + rewrite upch_eq. change (chn (pushq (QChan ch) (NCo c) d) ch) with (chn d ch). constructor; cbn; auto; congruence.
    + intros n I. rewrite upch_eq. cbn [qrecv set_qrecv]. change (chn (pushq (QChan ch) (NCo c) d) ch) with (chn d ch).
      cbn [upch q set_chn] in I. apply In_pushq in I. destruct I as [[I _]|[_ ->]].
      * left. split; [exact I|]. destruct QQ as [QQ|QQ]; [rewrite QQ in I; destruct I | rewrite QQ; reflexivity].
      * right. split; [reflexivity|]. sdir_top T.
Qed.

Lemma chk_chans_ok : forall chs d, 0 < rtid d -> negb (chk_chans chs d =? OK) = false -> forall ch, In ch chs -> crt (chn d ch) = rtid d.
Proof.
  induction chs as [|x chs IH]; intros d R E ch I; [destruct I|]. cbn [chk_chans] in E. destruct (chk_chan x d =? OK) eqn:CX.
  - destruct I as [<-|I]; [apply chk_ok; [exact R | rewrite CX; reflexivity] | apply IH; assumption].
  - rewrite CX in E. discriminate.
Qed.
Lemma first_ready_none : forall chs i d, first_ready chs i d = None -> forall ch, In ch chs ->
  buf (chn d ch) = [] /\ rclosed (chn d ch) = false /\ (q d (QChan ch) = [] \/ qrecv (chn d ch) = true).
Proof.
  induction chs as [|x chs IH]; intros i d E ch I; [destruct I|]. cbn [first_ready] in E. destruct (_ || _) eqn:B; [discriminate|].
  destruct I as [<-|I]; [|eapply IH; eassumption]. apply orb_false_iff in B. destruct B as [B B3]. apply orb_false_iff in B. destruct B as [B1 B2].
  destruct (buf (chn d x)); [|discriminate]. repeat split; [exact B3|]. unfold emptyq in B1. destruct (q d (QChan x)); [auto|].
  destruct (qrecv (chn d x)); [auto | discriminate].
Qed.

(** entering several queues of receivers *)
Lemma push_cases_res : forall c fs chs i d0 d, sdir fs = Some true -> chres c fs d0 d ->
  (forall ch, In ch chs -> crt (chn d ch) <> 0 /\ buf (chn d ch) = [] /\ rclosed (chn d ch) = false /\
     (q d (QChan ch) = [] \/ qrecv (chn d ch) = true)) ->
  chres c fs d0 (push_cases c chs i d).
Proof.
  intros c fs chs. induction chs as [|ch chs IH]; intros i d0 d SD R H; [exact R|]. cbn [push_cases].
  destruct (H ch (or_introl eq_refl)) as (H1 & H2 & H3 & H4).
  set (d1 := upch ch (set_qrecv true) (pushq (QChan ch) (NCase c i) d)).
  assert (C1 : forall x, x <> ch -> chn d1 x = chn d x) by (intros x NE; unfold d1; rewrite upch_neq by exact NE; reflexivity).
  assert (C2 : chn d1 ch = set_qrecv true (chn d ch)) by (unfold d1; rewrite upch_eq; reflexivity).
  assert (Q1 : forall x n, In n (q d1 (QChan x)) <-> (In n (q d (QChan x)) /\ n <> NCase c i) \/ (x = ch /\ n = NCase c i)).
  { intros x n. unfold d1. cbn [upch q set_chn]. rewrite In_pushq. split; intros [A|[A B]]; auto; right; split; auto; congruence. }
  apply IH; [exact SD| |].
  - destruct R as [(A & B & C) QD]. split; [split; [|split]|].
    + intros x. destruct (Nat.eq_dec x ch) as [->|NE].
      * rewrite C2. destruct (A ch) as [K1 K2 K3 K4 K5]. constructor; cbn; auto; congruence.
      * rewrite C1 by exact NE. eapply chok_sub; [apply chlike_refl| |apply A]. intros n I. apply Q1 in I. destruct I as [[I _]|[E _]]; [exact I | contradiction].
    + intros x L. destruct (Nat.eq_dec x ch) as [->|NE]; [rewrite C2; apply B, L | rewrite C1 by exact NE; apply B, L].
    + exact C.
    + intros x n I. apply Q1 in I. destruct I as [[I _]|[-> ->]].
      * destruct (Nat.eq_dec x ch) as [->|NE]; [|rewrite C1 by exact NE; apply QD, I].
        rewrite C2. cbn [qrecv set_qrecv]. destruct H4 as [H4|H4]; [rewrite H4 in I; destruct I|].
        destruct (QD ch n I) as [(X1 & X2 & X3)|[X1 X2]]; [left; repeat split; auto; congruence | right; split; congruence].
      * right. rewrite C2. split; [reflexivity | exact SD].
  - intros x I. destruct (H x (or_intror I)) as (G1 & G2 & G3 & G4). destruct (Nat.eq_dec x ch) as [->|NE].
    + rewrite C2. cbn. repeat split; auto.
    + rewrite C1 by exact NE. repeat split; auto. destruct G4 as [G4|G4]; [left|auto].
      destruct (q d1 (QChan x)) as [|n l] eqn:Q; [reflexivity|]. assert (I2 : In n (q d1 (QChan x))) by (rewrite Q; left; reflexivity).
      apply Q1 in I2. rewrite G4 in I2. destruct I2 as [[[] _]|[E _]]. contradiction.
Qed.

Lemma cr_do_select : forall c chs t dl d d' fs k, chd d -> noown c d -> do_select c chs t dl d = (d', fs, k) -> chres c fs d d'.
Proof.
  intros c chs t dl d d' fs k D N E. unfold do_select in E.
  destruct (negb _) eqn:CK; [inj E; apply csub_res; auto using csub_refl|].
  pose proof (chk_chans_ok _ _ (proj2 (proj2 D)) CK) as CK1. clear CK.
  assert (CK2 : forall ch, In ch chs -> crt (chn d ch) <> 0) by (intros ch I; rewrite CK1 by exact I; apply Z.neq_sym, Z.lt_neq, D).
  destruct (canceled _); [inj E; apply csub_res; auto; apply cs_eq; reflexivity|].
  destruct (first_ready chs 0 d) as [[ch i]|] eqn:FR.
  - pose proof (first_ready_in _ _ _ _ _ FR) as IN. destruct (rclosed _) eqn:RC; [inj E; apply csub_res; auto using csub_refl|].
    destruct (take ch d) as [[[m s] d1]|] eqn:T; [|inj E; apply csub_res; auto using csub_refl].
    eapply (take_res c fs) in T; auto.
    destruct s; inj E; (eapply chres_post; [exact T | apply cs_upch; intros []; reflexivity]).
  - destruct t; [inj E; apply csub_res; auto using csub_refl|].
    pose proof E as T. apply copause_top in T; [destruct T as [T _] | discriminate].
    apply cs_copause in E. eapply chres_post; [|exact E]. clear E.
    apply (chres_post _ _ _ (push_cases c chs 0 (upco c (set_retidx (-1)) d))); [|apply cs_eq; reflexivity].
    apply push_cases_res; [sdir_top T| |].
    + apply csub_res; auto. apply cs_eq; reflexivity.
    + intros ch IN. destruct (first_ready_none _ _ _ FR ch IN) as (F1 & F2 & F3). cbn [upco chn q set_cof]. auto.
Qed.

Lemma chd_new : forall cap d, 0 <= cap -> chd d -> chd (snd (new_chan cap d)) /\
  forall x n, In n (q (snd (new_chan cap d)) (QChan x)) -> In n (q d (QChan x)) /\ qrecv (chn (snd (new_chan cap d)) x) = qrecv (chn d x).
Proof.
  intros cap d L (A & B & C). unfold new_chan. cbn [snd].
  assert (Q : q d (QChan (nchan d)) = []) by (apply (ck_nil _ _ (A (nchan d))), B; lia).
  split; [split; [|split]|].
  - intros x. cbn. destruct (Nat.eq_dec x (nchan d)) as [->|NE].
    + rewrite nupd_eq, Q. constructor; cbn; auto; try congruence.
    + rewrite nupd_neq by exact NE. apply A.
  - intros x X. cbn in X |- *. rewrite nupd_neq by lia. apply B. lia.
  - exact C.
  - intros x n I. cbn in I |- *. destruct (Nat.eq_dec x (nchan d)) as [->|NE]; [rewrite Q in I; destruct I|].
    rewrite nupd_neq by exact NE. auto.
Qed.
Lemma cr_new_chan : forall c fs cap d, 0 <= cap -> chd d -> noown c d -> chres c fs d (snd (new_chan cap d)).
Proof.
  intros c fs cap d L D N. destruct (chd_new cap d L D) as [A B]. split; [exact A|].
  intros x n I. left. destruct (B x n I) as [B1 B2]. split; [exact B1|]. split; [eapply N; exact B1 | exact B2].
Qed.

Lemma cr_coexit_rest : forall c a d d' fs k, chd d -> noown c d -> coexit_rest c a d = (d', fs, k) -> chres c fs d d'.
Proof.
  intros c a d d' fs k D N E. unfold coexit_rest in E.
  match type of E with context [gen (cof ?x c)] => assert (P : csub d x); [|set (dd := x) in *] end.
  { eapply csub_trans; [|apply cs_resume_all]. eapply csub_trans; [|apply cs_resume_all]. apply cs_eq; reflexivity. }
  eapply chres_pre; [exact P|]. pose proof (chd_sub _ _ P D) as D1. pose proof (noown_sub _ _ _ P N) as N1.
  destruct (gen (cof dd c)) as [g|].
  - destruct (do_close g dd) as [[d1 fs1] k1] eqn:C. inj E. eapply cr_do_close; eassumption.
  - destruct (negb _); [apply cs_yfsr in E | inj E]; apply csub_res; auto using csub_refl.
Qed.
Lemma cr_coexit_async : forall c d d' fs k, chd d -> noown c d -> coexit_async c d = (d', fs, k) -> chres c fs d d'.
Proof.
  intros c d d' fs k D N E. unfold coexit_async in E. destruct (cleanups (cof d c)); [eapply cr_coexit_rest; eassumption|].
  inj E. apply csub_res; auto. apply cs_eq; reflexivity.
Qed.

Theorem hcall_ch : forall c o nw d d' fs k, chd d -> noown c d -> hcall c o nw d = (d', fs, k) -> chres c fs d d'.
Proof.
  intros c o nw d d' fs k D N E.
  assert (FR : (forall ch, ~ kcall c d o (QChan ch)) -> ~ kcall c d o QPool -> (forall ch, ~ wcall c d o (QChan ch)) -> chres c fs d d').
  { intros H1 H2 H3. destruct (hcall_fp _ _ _ _ _ _ _ 0%nat [] E) as (R & P & F & _). apply csub_res; auto.
    eapply fps_csub; [exact F | exact H1 | exact H2|]. intros ch n [_ H]. eapply H3; exact H. }
  destruct o; try (apply FR; cbn; intuition congruence); clear FR; cbn [hcall] in E.
  - unfold do_chmake in E. destruct (_ || _) eqn:B; [inj E; apply csub_res; auto using csub_refl|].
    destruct (new_chan cap d) as [ch d1] eqn:NC. inj E. apply (chres_post _ _ _ d1); [|apply cs_eq; reflexivity].
    replace d1 with (snd (new_chan cap d)) by (rewrite NC; reflexivity). apply cr_new_chan; auto.
    apply orb_false_iff in B. destruct B as [B _]. apply Z.ltb_ge in B. exact B.
  - eapply cr_do_send; eassumption.
  - eapply cr_do_bcast; eassumption.
  - eapply cr_do_recv; eassumption.
  - eapply cr_do_recv; eassumption.
  - eapply cr_do_close; eassumption.
  - eapply cr_do_select; eassumption.
  - eapply cr_do_select; eassumption.
  - unfold do_case in E. destruct (negb _); [inj E; apply csub_res; auto using csub_refl|].
    destruct (negb _); inj E; apply csub_res; auto using csub_refl. apply cs_eq; reflexivity.
  - unfold do_genyield in E. destruct (gen _); [eapply cr_do_send; eassumption | inj E; apply csub_res; auto using csub_refl].
  - eapply cr_coexit_async; eassumption.
Qed.
Lemma cs_leave : forall f c d, csub d (leave f c d).
Proof.
  intros f c d. destruct f; cbn [leave]; try apply csub_refl; try apply cs_rmq.
  generalize d. induction (Z.to_nat n) as [|m IH]; intros d0; cbn [rm_cases]; [apply csub_refl|].
  eapply csub_trans; [apply cs_rmq | apply IH].
Qed.
Theorem hret_ch : forall c f v b nw d d' fs k rest, chd d -> noown c (leave f c d) -> hret c f v b nw d = (d', fs, k) ->
  lstack (f :: rest) -> chres c fs (leave f c d) d'.
Proof.
  intros c f v b nw d d' fs k rest D N E L. pose proof (chd_sub _ _ (cs_leave f c d) D) as D1.
  assert (FR : (forall ch, ~ kret c d f (QChan ch)) -> ~ kret c d f QPool -> (forall ch, ~ wret f (QChan ch)) -> chres c fs (leave f c d) d').
  { intros H1 H2 H3. destruct (hret_fp _ _ _ _ _ _ _ _ _ rest E) as (R & P & F & _). apply csub_res; auto.
    eapply fps_csub; [exact F | exact H1 | exact H2|]. intros ch n [_ H]. eapply H3; exact H. }
  destruct f; try (apply FR; cbn; intuition congruence); clear FR; cbn [hret leave] in *.
  - eapply cr_coexit_rest; eassumption.
  - destruct (_ && _); [eapply cr_coexit_async; eassumption | inj E; apply csub_res; auto using csub_refl].
  - destruct (_ && _); [eapply cr_coexit_async; eassumption | inj E; apply csub_res; auto using csub_refl].
  - inj E. apply csub_res; auto. apply cs_upch. intros []; reflexivity.
  - destruct (_ =? _); [inj E; apply csub_res; auto using csub_refl|].
    destruct (_ && _); [eapply cr_coexit_async; eassumption|].
    eapply (fh_cv_relock c (fun k => k = QMu m) (fun k _ => k = QMu m) _ _ _ _ _ _ _ (fun _ => False)) in E; [|reflexivity | reflexivity].
    destruct E as (R & P & F & _). apply csub_res; auto. eapply fps_csub; [exact F | | |]; congruence.
  - eapply cr_coexit_async; eassumption.
Qed.

(** ** Every reachable state *)
Definition chinv (s : state) : Prop :=
  chd (dt s) /\ forall ch n, In n (q (dt s) (QChan ch)) -> sdir (stk (sc s) (node_co n)) = Some (qrecv (chn (dt s) ch)).

Lemma sdir_app : forall fs rest b, sdir fs = Some b -> sdir (fs ++ rest) = Some b.
Proof.
  intros fs rest b E. unfold sdir in *. destruct fs as [|f fs]; [discriminate|].
  destruct f; cbn in E |- *; try discriminate; try exact E.
  destruct fs as [|[] fs]; cbn in E |- *; try discriminate; exact E.
Qed.
Lemma ctl_ch : forall c n k d, chd d -> chd (ctl_dat c n k d) /\
  forall ch x, In x (q (ctl_dat c n k d) (QChan ch)) -> In x (q d (QChan ch)) /\ qrecv (chn (ctl_dat c n k d) ch) = qrecv (chn d ch).
Proof.
  intros c n k d D. assert (SUB : forall d', csub d d' -> chd d' /\ forall ch x, In x (q d' (QChan ch)) -> In x (q d (QChan ch)) /\ qrecv (chn d' ch) = qrecv (chn d ch)).
  { intros d' S. split; [eapply chd_sub; eassumption|]. destruct S as (_ & _ & S3 & S4). intros ch x I. split; [apply S4, I|].
    destruct (chlike_fields _ _ (S3 ch)) as (_ & _ & _ & -> & _). reflexivity. }
  destruct k; try (apply SUB, csub_refl); cbn [ctl_dat].
  - set (m := if isgen then snd (new_chan 0 d) else d).
    assert (E : q (spawn_dat (Some c) n isgen d) = q m \/ exists l y, q d QPool = y :: l /\ q (spawn_dat (Some c) n isgen d) = qupd (q m) QPool l).
    { unfold spawn_dat, popq, m. destruct (q d QPool) as [|y l]; destruct isgen; cbn; eauto. }
    assert (E2 : chn (spawn_dat (Some c) n isgen d) = chn m) by (unfold spawn_dat, popq, m; destruct (q d QPool), isgen; reflexivity).
    assert (E3 : nchan (spawn_dat (Some c) n isgen d) = nchan m) by (unfold spawn_dat, popq, m; destruct (q d QPool), isgen; reflexivity).
    assert (E4 : rtid (spawn_dat (Some c) n isgen d) = rtid m) by (unfold spawn_dat, popq, m; destruct (q d QPool), isgen; reflexivity).
    assert (E5 : forall ch, q (spawn_dat (Some c) n isgen d) (QChan ch) = q m (QChan ch)).
    { intros ch. destruct E as [->|(l & y & _ & ->)]; [reflexivity | rewrite qupd_neq by discriminate; reflexivity]. }
    assert (M : chd m /\ forall ch x, In x (q m (QChan ch)) -> In x (q d (QChan ch)) /\ qrecv (chn m ch) = qrecv (chn d ch)).
    { unfold m. destruct isgen; [|split; auto]. apply chd_new; [lia | exact D]. }
    destruct M as [M1 M2]. split.
    + destruct M1 as (A & B & C). split; [|split]; intros; rewrite ?E2, ?E3, ?E4, ?E5 in *; auto.
    + intros ch x. rewrite E2, E5. apply M2.
  - apply SUB. unfold final_dat. eapply csub_trans; [apply (cs_pushq QPool (NCo c)); discriminate | apply cs_eq; reflexivity].
Qed.

Lemma chinv_exec : forall s c k fs rest d1 d sch md n0,
  full s -> cur (sc s) = Some c -> n0 = nextid (sc s) + 1 ->
  exec c k (set_stk (zupd (stk (sc s)) c (fs ++ rest)) (sc s)) = (sch, md) ->
  (forall b, k = CFinal b -> fs = []) ->
  (forall ch n, In n (q d1 (QChan ch)) -> sdir (stk (sc s) (node_co n)) = Some (qrecv (chn d1 ch))) ->
  chres c fs d1 d ->
  chd (ctl_dat c n0 k d) /\ forall ch n, In n (q (ctl_dat c n0 k d) (QChan ch)) -> sdir (stk sch (node_co n)) = Some (qrecv (chn (ctl_dat c n0 k d) ch)).
Proof.
  intros s c k fs rest d1 d sch md n0 F CU N0 X FIN S0 [D QD]. destruct (ctl_ch c n0 k d D) as [D2 Q2]. split; [exact D2|].
  intros ch n I. destruct (Q2 ch n I) as [I2 ->]. apply exec_stk in X. rewrite X.
  pose proof (cur_notfresh s c F CU) as NF. pose proof (stk_fresh s F) as SF.
  destruct (QD ch n I2) as [(I3 & NE & ->)|(E & SD)].
  - specialize (S0 ch n I3). assert (NN : node_co n <> n0). { intros B. rewrite B, N0, SF in S0. discriminate. }
    destruct k; cbn; rewrite ?zupd_neq by (try exact NE; rewrite <- N0; exact NN); exact S0.
  - rewrite E. apply (sdir_app _ rest) in SD. destruct k; cbn; rewrite ?zupd_eq; try exact SD.
    + rewrite zupd_neq by auto. rewrite zupd_eq. exact SD.
    + rewrite (FIN tomain eq_refl) in SD. destruct (QD ch n I2) as [(_ & NE & _)|(_ & SD2)]; [contradiction|]. rewrite (FIN tomain eq_refl) in SD2. discriminate.
Qed.
Lemma mprim_chn : forall d d', mprim d d' -> chn d' = chn d /\ nchan d' = nchan d /\ rtid d' = rtid d.
Proof. intros d d' P. inversion P; subst; auto. Qed.
Lemma mprims_chn : forall d d', mprims d d' -> chn d' = chn d /\ nchan d' = nchan d /\ rtid d' = rtid d.
Proof. intros d d' P. induction P; [auto|]. apply mprim_chn in H. intuition congruence. Qed.

Theorem reach_chinv : forall s, reach s -> chinv s.
Proof.
  apply rrun_preserves.
  - intros s c o d fs k sch md RE [I1 I2] M CU U NR E X. unfold chinv. cbn [sc dt].
    eapply (chinv_exec s c k fs _ (dt s)); [apply reach_full, RE | exact CU | reflexivity | exact X | | exact I2|].
    + intros b ->. eapply hcall_final; exact E.
    + eapply hcall_ch; [exact I1| |exact E]. intros ch n IN EQ.
      apply (ustack_top _ n (QChan ch) U). rewrite <- EQ. apply (reach_qloc _ RE); [exact I | exact IN].
  - intros s c v f rest b d fs k sch md RE [I1 I2] M CU SK L E X. unfold chinv. cbn [sc dt].
    assert (P : f = FPause \/ f <> FPause) by (destruct f; auto; right; discriminate).
    destruct P as [->|P].
    { cbn [hret] in E. inj E. cbn [app ctl_dat] in *. cbn in X. inj X. cbn [stk set_stk].
      assert (S : csub (dt s) (pause_end c (dt s))). { unfold pause_end. destruct (_ <? _); apply cs_eq; reflexivity. }
      split; [eapply chd_sub; eassumption|]. intros ch n IN. destruct S as (_ & _ & S3 & S4).
      destruct (chlike_fields _ _ (S3 ch)) as (_ & _ & _ & -> & _). specialize (I2 ch n (S4 _ _ IN)).
      destruct (Z.eq_dec (node_co n) c) as [EQ|NE]; [|rewrite zupd_neq by exact NE; exact I2].
      rewrite EQ, zupd_eq. rewrite EQ, SK in I2. unfold sdir in I2 |- *. cbn [top] in I2.
      destruct rest as [|[] rest]; cbn in I2 |- *; try discriminate; exact I2. }
    eapply (chinv_exec s c k fs _ (leave f c (dt s))); [apply reach_full, RE | exact CU | reflexivity | exact X | | |].
    + intros x ->. eapply hret_final; exact E.
    + intros ch n IN. destruct (cs_leave f c (dt s)) as (_ & _ & S3 & S4). destruct (chlike_fields _ _ (S3 ch)) as (_ & _ & _ & -> & _).
      apply I2, S4, IN.
    + eapply hret_ch; [exact I1| |exact E | exact L]. intros ch n IN EQ.
      assert (M0 : matched (f :: rest) n (QChan ch)). { rewrite <- SK, <- EQ. apply (reach_qloc _ RE); [exact I | eapply leave_in; exact IN]. }
      eapply leave_gone; eassumption.
  - intros s d ws sch md ios RE [I1 I2] M A K X. unfold chinv. cbn [sc dt].
    assert (MP : mprims (dt s) (rc_step (now s) d)) by (eapply mp_main; exact K).
    apply sco_switch_frame in X. destruct X as (X1 & _). destruct (wakes_frame ws (sc s)) as (W1 & _). rewrite X1, W1.
    destruct (mprims_chn _ _ MP) as (E1 & E2 & E3).
    assert (EQ : forall ch, q (rc_step (now s) d) (QChan ch) = q (dt s) (QChan ch)) by (intros; apply mprims_wq; [exact MP | exact I]).
    split; [|intros ch n; rewrite E1, EQ; apply I2]. destruct I1 as (A1 & B1 & C1).
    split; [|split]; intros; rewrite ?E1, ?E2, ?E3, ?EQ in *; auto.
  - intros s m RE I _. exact I.
  - intros s e RE [I1 I2] H M. unfold chinv. destruct (env_frame s e H) as (E1 & _). rewrite E1.
    assert (Q : forall ch n, In n (q (dt (step s e)) (QChan ch)) -> In n (q (dt s) (QChan ch))).
    { intros ch n. destruct (env_q s e H) as [->|(c & _ & _ & _ & ->)]; [auto|]. rewrite In_pushq. intros [[IN _]|[B _]]; [exact IN | discriminate]. }
    destruct e; try contradiction.
    + cbn. destruct (_ <? _); split; auto.
    + cbn. destruct (mode s); try (split; assumption); (destruct (_ || _); [split; assumption|]; destruct (_ =? _); [destruct (_ =? _); split; assumption|]; split; assumption).
    + assert (S : csub (dt s) (dt (step s (EWorkDone c)))).
      { split; [|split; [|split]]; [| | |exact Q].
        - cbn. destruct (mode s); auto; (destruct (mem _ _); auto; destruct (stk (sc s) c) as [|[] ?]; auto).
        - cbn. destruct (mode s); auto; (destruct (mem _ _); auto; destruct (stk (sc s) c) as [|[] ?]; auto).
        - intros ch. cbn. destruct (mode s); auto using chlike_refl; (destruct (mem _ _); auto using chlike_refl; destruct (stk (sc s) c) as [|[] ?]; auto using chlike_refl). }
      split; [eapply chd_sub; eassumption|]. intros ch n IN. destruct S as (_ & _ & S3 & S4).
      destruct (chlike_fields _ _ (S3 ch)) as (_ & _ & _ & -> & _). apply I2, S4, IN.
    + split; assumption.
    + cbn. destruct (_ =? _); split; assumption.
    + destruct I1 as (A1 & B1 & C1). cbn.
      assert (QN : q (dt s) (QChan (nchan (dt s))) = []) by (apply (ck_nil _ _ (A1 _)), B1; lia).
      split; [split; [|split]|].
      * intros ch. cbn. destruct (Nat.eq_dec ch (nchan (dt s))) as [->|NE]; [|rewrite nupd_neq by exact NE; apply A1].
        rewrite nupd_eq, QN. constructor; cbn; try congruence; auto. lia.
      * intros ch L. cbn in L |- *. rewrite nupd_neq by lia. apply B1. lia.
      * exact C1.
      * intros ch n IN. cbn in IN |- *. destruct (Nat.eq_dec ch (nchan (dt s))) as [->|NE]; [rewrite QN in IN; destruct IN|].
        rewrite nupd_neq by exact NE. apply I2, IN.
    + cbn. destruct (_ =? _); split; assumption.
    + cbn. destruct (_ =? _); split; assumption.
  - intros g O. split.
    + split; [|split].
      * intros ch. cbn. constructor; cbn; try congruence; auto. lia.
      * intros ch _. reflexivity.
      * apply O.
    + intros ch n IN. cbn in IN. destruct IN.
Qed.
