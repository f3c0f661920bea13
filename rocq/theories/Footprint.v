(** Footprints: which queues, objects and coroutine records a handler can touch.
    A handler run by coroutine [c] performs a sequence of updates; it takes
    waiters only from the queues [KP] its operation is about, enters itself only
    into queues it is then waiting in ([KW]), and writes only to its own record
    and to the records of the waiters [R] it took. *)
From Coq Require Import List ZArith Bool Lia.
From Verif Require Import Util AATreeSpec AATreeHist Runtime SchedInv StepInv StackShape Prims.
Import ListNotations.
Local Open Scope Z_scope.

(** the part of the data state that the queues and objects live in *)
Definition core (d : dat) :=
  (q d, cof d, chn d, mux d, wgx d, cvx d, (nchan d, rtid d, env_async d, env_enabled d, mainthread d),
   (sigq d, sigm d, nresumers d, npool d)).

(** a record update that can only change what a waker hands to a waiter *)
Definition handover (g : corec -> corec) : Prop :=
  forall r, g r = set_cclosed (cclosed (g r)) (set_retidx (retidx (g r)) (set_rbuf (rbuf (g r)) r)).

(** the coroutine of a node that is not a select case *)
Definition nco (n : node) : list Z := match n with NCo x => [x] | NCase _ _ => [] end.
Definition rmz (r : Z) (l : list Z) : list Z := filter (fun x => negb (x =? r)) l.

(** [fps c KP KW d R P d']: [d'] arises from [d] by such updates; [R]: coroutines
    taken off a queue; [P]: those of them not (yet) scheduled to resume. *)
Inductive fps (c : Z) (KP : qid -> Prop) (KW : qid -> node -> Prop) (d : dat) : list Z -> list Z -> dat -> Prop :=
| fp_nil : fps c KP KW d [] [] d
| fp_own f R P d1 : fps c KP KW d R P d1 -> fps c KP KW d R P (upco c f d1)
| fp_misc R P d1 d2 : fps c KP KW d R P d1 -> core d2 = core d1 -> fps c KP KW d R P d2
| fp_rm n R P d1 : fps c KP KW d R P d1 -> node_co n = c -> fps c KP KW d R P (rmq n d1)
| fp_push k n R P d1 : fps c KP KW d R P d1 -> node_co n = c -> waitq k -> KW k n -> fps c KP KW d R P (pushq k n d1)
| fp_pop k n l R P d1 : fps c KP KW d R P d1 -> KP k -> popq_ok k -> q d1 k = n :: l ->
    fps c KP KW d (node_co n :: R) (nco n ++ P) (set_q (qupd (q d1) k l) d1)
| fp_hand r g R P d1 : fps c KP KW d R P d1 -> In r R -> handover g -> fps c KP KW d R P (upco r g d1)
| fp_res r R P d1 : fps c KP KW d R P d1 -> In r R -> fps c KP KW d R (rmz r P) (sched_resume r d1)
| fp_cancel id R P d1 : fps c KP KW d R P d1 -> fps c KP KW d R P (upco id (set_canceled true) d1)
| fp_ch ch f R P d1 : fps c KP KW d R P d1 -> KP (QChan ch) -> fps c KP KW d R P (upch ch f d1)
| fp_newch cap R P d1 : fps c KP KW d R P d1 -> KP QPool -> fps c KP KW d R P (snd (new_chan cap d1))
| fp_mu m r R P d1 : fps c KP KW d R P d1 -> KP (QMu m) -> fps c KP KW d R P (set_mux (nupd (mux d1) m r) d1)
| fp_wg w r R P d1 : fps c KP KW d R P d1 -> KP (QWg w) -> fps c KP KW d R P (set_wgx (nupd (wgx d1) w r) d1)
| fp_cv v r R P d1 : fps c KP KW d R P d1 -> KP (QCv v) -> fps c KP KW d R P (set_cvx (nupd (cvx d1) v r) d1)
| fp_clear k f R P d1 : fps c KP KW d R P d1 -> KP k -> objq k -> f = q d1 -> fps c KP KW d R P (set_q (qupd f k []) d1)
| fp_wk R P P' d1 : fps c KP KW d R P d1 -> incl P P' -> fps c KP KW d R P' d1.

Lemma rmz_In : forall r l x, In x (rmz r l) <-> In x l /\ x <> r.
Proof. intros. unfold rmz. rewrite filter_In. destruct (Z.eqb_spec x r); cbn; intuition congruence. Qed.

Lemma fps_trans : forall c KP KW d R1 P1 d1 R2 P2 d2, fps c KP KW d R1 P1 d1 -> fps c KP KW d1 R2 P2 d2 -> fps c KP KW d (R2 ++ R1) (P2 ++ P1) d2.
Proof.
  intros c KP KW d R1 P1 d1 R2 P2 d2 A B. induction B; cbn [app]; [exact A| | | | | | | | | | | | | | |].
  - apply fp_own, IHB.
  - eapply fp_misc; [exact IHB | assumption].
  - apply fp_rm; assumption.
  - apply fp_push; assumption.
  - rewrite <- app_assoc. eapply fp_pop; eassumption.
  - apply fp_hand; [assumption | apply in_or_app; left; assumption | assumption].
  - eapply fp_wk; [apply fp_res; [exact IHB | apply in_or_app; left; assumption]|]. intros x I. apply rmz_In in I. destruct I as [I N].
    apply in_or_app. apply in_app_or in I. destruct I; [left; apply rmz_In; auto | auto].
  - apply fp_cancel, IHB.
  - apply fp_ch; assumption.
  - apply fp_newch; assumption.
  - apply fp_mu; assumption.
  - apply fp_wg; assumption.
  - apply fp_cv; assumption.
  - apply fp_clear; assumption.
  - eapply fp_wk; [exact IHB|]. apply incl_app; [apply incl_appl; assumption | apply incl_appr, incl_refl].
Qed.

Lemma fps_trans0 : forall c KP KW d R1 d1 R2 d2, fps c KP KW d R1 [] d1 -> fps c KP KW d1 R2 [] d2 -> fps c KP KW d (R2 ++ R1) [] d2.
Proof. intros c KP KW d R1 d1 R2 d2 A B. exact (fps_trans c KP KW d R1 [] d1 R2 [] d2 A B). Qed.

(** weakening *)
Lemma fps_mono : forall c (KP KP' : qid -> Prop) (KW KW' : qid -> node -> Prop) d R P d',
  fps c KP KW d R P d' -> (forall k, KP k -> KP' k) -> (forall k n, KW k n -> KW' k n) -> fps c KP' KW' d R P d'.
Proof.
  intros c KP KP' KW KW' d R P d' F HP HW. induction F.
  - apply fp_nil.
  - apply fp_own; assumption.
  - eapply fp_misc; eassumption.
  - apply fp_rm; assumption.
  - apply fp_push; auto.
  - eapply fp_pop; eauto.
  - apply fp_hand; auto.
  - apply fp_res; auto.
  - apply fp_cancel; auto.
  - apply fp_ch; auto.
  - apply fp_newch; auto.
  - apply fp_mu; auto.
  - apply fp_wg; auto.
  - apply fp_cv; auto.
  - apply fp_clear; auto.
  - eapply fp_wk; eassumption.
Qed.

Lemma handover_rbuf : forall m, handover (set_rbuf m).
Proof. intros m r. destruct r; reflexivity. Qed.
Lemma handover_retidx : forall i, handover (set_retidx i).
Proof. intros m r. destruct r; reflexivity. Qed.
Lemma handover_cclosed : handover (set_cclosed true).
Proof. intros r. destruct r; reflexivity. Qed.
Lemma handover_sel : forall i, handover (fun x => set_cclosed true (set_retidx i x)).
Proof. intros i r. destruct r; reflexivity. Qed.
#[export] Hint Resolve handover_rbuf handover_retidx handover_cclosed handover_sel : fp.

(** one update, read off the outermost constructor of the goal *)
Ltac f1 :=
  first
  [ apply fp_nil | assumption
  | match goal with
    | |- fps ?c _ _ _ _ _ (upco ?c _ _) => apply fp_own
    | |- fps ?c _ _ _ _ _ (upco _ (set_canceled true) _) => apply fp_cancel
    | |- fps _ _ _ _ _ _ (rmq _ _) => apply fp_rm; [|reflexivity]
    | |- fps _ _ _ _ _ _ (pushq _ _ _) => apply fp_push; [|reflexivity | exact I | ]
    | |- fps _ _ _ _ _ _ (upch _ _ _) => apply fp_ch
    | |- fps _ _ _ _ _ _ (upmu _ _ _) => unfold upmu; apply fp_mu
    | |- fps _ _ _ _ _ _ (upwg _ _ _) => unfold upwg; apply fp_wg
    | |- fps _ _ _ _ _ _ (set_mux _ _) => apply fp_mu
    | |- fps _ _ _ _ _ _ (set_wgx _ _) => apply fp_wg
    | |- fps _ _ _ _ _ _ (set_cvx _ _) => apply fp_cv
    | |- fps _ _ _ _ _ _ (set_q (qupd _ _ []) _) => apply fp_clear; [| |exact I|reflexivity]
    | |- fps _ _ _ _ _ _ (_ ?d1) => eapply (fp_misc _ _ _ _ _ _ d1); [|reflexivity]
    end ].
Ltac fk := repeat (f1; cbn beta); auto with fp.

(** ** Pieces *)
Section Pieces.
  Variables (c : Z) (KP : qid -> Prop) (KW : qid -> node -> Prop).
  Notation FPS := (fps c KP KW).
  (** nobody taken off a queue is left behind *)
  Notation FPD := (fun d d' => exists R, FPS d R [] d').

  Lemma fp_copause : forall dl fs d d' fs' k, copause c dl fs d = (d', fs', k) -> FPS d [] [] d'.
  Proof.
    intros dl fs d d' fs' k E. unfold copause in E. destruct (_ || _); [inj E; fk|].
    destruct (_ <? _); inj E; fk.
  Qed.
  Lemma fp_checkdl : forall dl nw d v d', checkdl c dl nw d = (v, d') -> FPS d [] [] d'.
  Proof. intros dl nw d v d' E. unfold checkdl in E. destruct (_ && _); inj E; fk. Qed.
  Lemma fp_pause_end : forall d, FPS d [] [] (pause_end c d).
  Proof. intros. unfold pause_end. destruct (_ <? _); fk. Qed.
  Lemma fp_yfsr : forall fs d d' fs' k, yfsr fs d = (d', fs', k) -> d' = d.
  Proof. intros fs d d' fs' k E. apply yfsr_cases in E. apply E. Qed.

  Lemma fp_popq : forall k d x d', KP k -> popq_ok k -> popq k d = (Some x, d') -> FPS d [node_co x] (nco x) d'.
  Proof.
    intros k d x d' K O E. unfold popq in E. destruct (q d k) as [|y l] eqn:Q; inj E.
    rewrite <- (app_nil_r (nco x)). eapply fp_pop; [apply fp_nil | exact K | exact O | exact Q].
  Qed.
  Lemma popq_none : forall k d d', popq k d = (None, d') -> d' = d /\ q d k = [].
  Proof. intros k d d' E. unfold popq in E. destruct (q d k) as [|y l] eqn:Q; inj E; auto. Qed.
  Lemma rmz_nco : forall x, rmz (node_co x) (nco x) = [].
  Proof. intros [y|y i]; cbn; [rewrite Z.eqb_refl|]; reflexivity. Qed.

  Lemma fp_deliver : forall ch m n d r d', KP (QChan ch) -> deliver ch m n d = Some (r, d') ->
    r = node_co n /\ forall R P d0, FPS d0 R P d -> In r R -> FPS d0 R P d'.
  Proof.
    intros ch m n d r d' K E. unfold deliver in E. destruct n as [x|x i].
    - inj E. split; [reflexivity|]. intros R P d0 F I0. apply fp_hand; auto with fp.
    - destruct (negb _); [discriminate|]. inj E. split; [reflexivity|]. intros R P d0 F I0.
      apply fp_ch; [|exact K]. apply fp_hand; auto with fp.
  Qed.
  Lemma deliver_none : forall ch m n d, deliver ch m n d = None -> nco n = [].
  Proof. intros ch m [x|x i] d E; [discriminate | reflexivity]. Qed.
  Lemma fp_send_loop : forall ch m n d r d', KP (QChan ch) -> send_loop ch m n d = (r, d') ->
    exists R P, FPS d R P d' /\ (forall x, r = Some x -> In x R) /\ (forall x, In x P -> r = Some x).
  Proof.
    intros ch m n. induction n as [|n IH]; intros d r d' K E; cbn in E.
    - inj E. exists [], []. split; [fk|]. split; [discriminate | intros x []].
    - destruct (popq (QChan ch) d) as [[x|] d1] eqn:P.
      + apply fp_popq in P; [|exact K | exact I].
        destruct (deliver ch m x d1) as [[r1 d2]|] eqn:D.
        * inj E. destruct (fp_deliver _ _ _ _ _ _ K D) as (-> & H).
          exists [node_co x], (nco x). split; [apply H; [exact P | left; reflexivity]|]. split.
          -- intros y Y. inj Y. left. reflexivity.
          -- intros y Y. destruct x; [destruct Y as [<-|[]]; reflexivity | destruct Y].
        * apply deliver_none in D. rewrite D in P.
          destruct (IH _ _ _ K E) as (R & P2 & F & S1 & S2). exists (R ++ [node_co x]), (P2 ++ []). split; [eapply fps_trans; eassumption|].
          split; [intros y Y; apply in_or_app; left; apply S1, Y | rewrite app_nil_r; exact S2].
      + apply popq_none in P. destruct P as [-> _]. inj E. exists [], []. split; [fk|]. split; [discriminate | intros y []].
  Qed.
  Lemma fpd_res : forall d x d1 d2, FPS d [node_co x] (nco x) d1 -> FPD (sched_resume (node_co x) d1) d2 -> FPD d d2.
  Proof.
    intros d x d1 d2 F (R & G). exists (R ++ [node_co x]). apply (fps_trans c KP KW d [node_co x] [] (sched_resume (node_co x) d1) R [] d2); [|exact G].
    pose proof (fp_res c KP KW d (node_co x) _ _ _ F (or_introl eq_refl)) as H. rewrite rmz_nco in H. exact H.
  Qed.
  Lemma fpd_pre : forall d R d1 d2, FPS d R [] d1 -> FPD d1 d2 -> FPD d d2.
  Proof. intros d R d1 d2 F (R2 & G). exists (R2 ++ R). apply (fps_trans c KP KW d R [] d1 R2 [] d2); assumption. Qed.
  Lemma fp_bcast_loop : forall ch m n sent d r d', KP (QChan ch) -> bcast_loop ch m n sent d = (r, d') -> FPD d d'.
  Proof.
    intros ch m n. induction n as [|n IH]; intros sent d r d' K E; cbn in E.
    - inj E. exists []. fk.
    - destruct (popq (QChan ch) d) as [[x|] d1] eqn:P.
      + apply fp_popq in P; [|exact K | exact I].
        destruct (deliver ch m x d1) as [[r1 d2]|] eqn:D.
        * destruct (fp_deliver _ _ _ _ _ _ K D) as (-> & H).
          eapply fpd_res; [apply H; [exact P | left; reflexivity]|]. eapply IH; eassumption.
        * apply deliver_none in D. rewrite D in P. eapply fpd_pre; [exact P|]. eapply IH; eassumption.
      + apply popq_none in P. destruct P as [-> _]. inj E. exists []. fk.
  Qed.
  Lemma fp_close_loop : forall ch n d, KP (QChan ch) -> FPD d (close_loop ch n d).
  Proof.
    intros ch n. induction n as [|n IH]; intros d K; cbn [close_loop].
    - exists []. fk.
    - destruct (popq (QChan ch) d) as [[[x|x i]|] d1] eqn:P.
      + apply fp_popq in P; [|exact K | exact I].
        eapply (fpd_res _ (NCo x)); [|apply IH, K]. apply fp_hand; [exact P | left; reflexivity | auto with fp].
      + apply fp_popq in P; [|exact K | exact I]. destruct (negb _).
        * eapply fpd_pre; [exact P | apply IH, K].
        * eapply (fpd_res _ (NCase x i)); [|apply IH, K]. apply fp_ch; [|exact K]. apply fp_hand; [exact P | left; reflexivity | auto with fp].
      + apply popq_none in P. destruct P as [-> _]. exists []. fk.
  Qed.
  Lemma fp_resume_all : forall k n d, KP k -> popq_ok k -> FPD d (resume_all k n d).
  Proof.
    intros k n. induction n as [|n IH]; intros d K O; cbn [resume_all].
    - exists []. fk.
    - destruct (popq k d) as [[x|] d1] eqn:P.
      + apply fp_popq in P; [|exact K | exact O]. eapply fpd_res; [exact P | apply IH; assumption].
      + apply popq_none in P. destruct P as [-> _]. exists []. fk.
  Qed.
  Lemma fp_grant : forall m n d, KP (QMu m) -> FPD d (grant m n d).
  Proof.
    intros m n. induction n as [|n IH]; intros d K; cbn [grant].
    - exists []. fk.
    - destruct (popq (QMu m) d) as [[x|] d1] eqn:P.
      + apply fp_popq in P; [|exact K | exact I].
        eapply fpd_res; [exact P|].
        destruct (rlocked _); [|exists []; fk].
        match goal with |- context [grant m n ?y] => assert (P3 : FPS (sched_resume (node_co x) d1) [] [] y); [|set (d2 := y) in *] end.
        { unfold upmu. apply fp_mu; [apply fp_nil | exact K]. }
        destruct (q d2 (QMu m)) as [|n2 l2]; [exists []; exact P3|]. destruct (rlocked _); [|exists []; exact P3].
        eapply fpd_pre; [exact P3 | apply IH, K].
      + apply popq_none in P. destruct P as [-> _]. exists []. fk.
  Qed.
  Lemma fp_close_if_drained : forall ch d, KP (QChan ch) -> FPS d [] [] (close_if_drained ch d).
  Proof. intros. unfold close_if_drained. destruct (_ && _); fk. Qed.
  Lemma nco_in : forall x y, In y (nco x) -> node_co x = y.
  Proof. intros [a|a i] y I; [destruct I as [<-|[]]; reflexivity | destruct I]. Qed.
  Lemma fp_take : forall ch d m s d', KP (QChan ch) -> take ch d = Some (m, s, d') ->
    exists R P, FPS d R P d' /\ (forall x, s = Some x -> In x R) /\ (forall x, In x P -> s = Some x).
  Proof.
    intros ch d m s d' K E. unfold take in E. destruct (buf (chn d ch)) as [|m0 b].
    - destruct (qrecv _); [discriminate|].
      destruct (popq (QChan ch) d) as [[x|] d1] eqn:P; [|discriminate]. apply fp_popq in P; [|exact K | exact I]. inj E.
      exists [node_co x], (nco x). split; [apply (fps_trans _ _ _ _ _ _ _ [] [] _ P), fp_close_if_drained, K|]. split.
      + intros y Y. inj Y. left. reflexivity.
      + intros y Y. apply nco_in in Y. rewrite Y. reflexivity.
    - destruct (popq (QChan ch) _) as [[x|] d1] eqn:P.
      + apply fp_popq in P; [|exact K | exact I]. inj E. exists [node_co x], (nco x). split; [|split].
        * apply (fps_trans c KP KW d [node_co x] (nco x) (upch ch (fun x0 => set_buf (buf x0 ++ [smsg (cof d1 (node_co x))]) x0) d1) [] []); [|apply fp_close_if_drained, K].
          apply fp_ch; [|exact K]. rewrite <- (app_nil_r (nco x)). apply (fps_trans _ _ _ _ [] [] (upch ch (set_buf b) d) [node_co x]); [|exact P]. fk.
        * intros y Y. inj Y. left. reflexivity.
        * intros y Y. apply nco_in in Y. rewrite Y. reflexivity.
      + apply popq_none in P. destruct P as [-> _]. inj E. exists [], []. split; [|split; [discriminate | intros y []]].
        eapply (fps_trans _ _ _ _ [] [] _ [] [] _); [|apply fp_close_if_drained, K]. fk.
  Qed.
  Lemma fp_check_mu : forall m d v d', KP (QMu m) -> check_mu m d = (v, d') -> FPS d [] [] d'.
  Proof.
    intros m d v d' K E. unfold check_mu, mu_init in E. repeat match type of E with context [if ?x then _ else _] => destruct x end; inj E; fk.
  Qed.
  Lemma fp_check_wg : forall m d v d', KP (QWg m) -> check_wg m d = (v, d') -> FPS d [] [] d'.
  Proof.
    intros m d v d' K E. unfold check_wg, wg_init in E. repeat match type of E with context [if ?x then _ else _] => destruct x end; inj E; fk.
  Qed.
  Lemma fp_check_cv : forall m d v d', KP (QCv m) -> check_cv m d = (v, d') -> FPS d [] [] d'.
  Proof.
    intros m d v d' K E. unfold check_cv, cv_init in E. repeat match type of E with context [if ?x then _ else _] => destruct x end; inj E; fk.
  Qed.
  Lemma fp_trylock : forall m t dl nw d v d', KP (QMu m) -> mu_trylock c m t dl nw d = (v, d') -> FPS d [] [] d'.
  Proof.
    intros m t dl nw d v d' K E. unfold mu_trylock in E.
    destruct (if t then _ else _) as [v1 d1] eqn:C.
    assert (P : FPS d [] [] d1) by (destruct t; [inj C; fk | eapply fp_checkdl; exact C]).
    destruct (negb _); [inj E; exact P|]. destruct (mlocked _); inj E; [exact P|]. fk.
  Qed.
  Lemma fp_tryrdlock : forall m t dl nw d v d', KP (QMu m) -> mu_tryrdlock c m t dl nw d = (v, d') -> FPS d [] [] d'.
  Proof.
    intros m t dl nw d v d' K E. unfold mu_tryrdlock in E.
    destruct (if t then _ else _) as [v1 d1] eqn:C.
    assert (P : FPS d [] [] d1) by (destruct t; [inj C; fk | eapply fp_checkdl; exact C]).
    destruct (negb _); [inj E; exact P|]. destruct (_ || _); inj E; [exact P|]. fk.
  Qed.
  Lemma fp_fastunlock : forall m fs d d' fs' k, KP (QMu m) -> fastunlock m fs d = (d', fs', k) -> FPD d d'.
  Proof.
    intros m fs d d' fs' k K E. unfold fastunlock in E. destruct (negb _); [inj E; exists []; fk|].
    destruct (0 <? mrl (mux d m)); cbn [andb] in E.
    - destruct (0 <? _); [inj E; exists []; fk|]. destruct (emptyq _ _); [inj E; exists []; fk|].
      apply fp_yfsr in E. subst d'. eapply (fpd_pre _ []); [|apply fp_grant, K]. fk.
    - destruct (emptyq _ _); [inj E; exists []; fk|]. apply fp_yfsr in E. subst d'. apply fp_grant, K.
  Qed.
  Lemma fp_do_close : forall ch d d' fs k, KP (QChan ch) -> do_close ch d = (d', fs, k) -> FPD d d'.
  Proof.
    intros ch d d' fs k K E. unfold do_close in E.
    destruct (negb _); [inj E; exists []; fk|]. destruct (sclosed _); [inj E; exists []; fk|].
    destruct (_ || _); [inj E; exists []; fk|]. apply fp_yfsr in E. subst d'.
    match goal with |- context [close_loop ch ?n ?y] => destruct (fp_close_loop ch n y K) as (R & F) end.
    exists (R ++ []). apply fp_ch; [|exact K]. eapply (fps_trans _ _ _ _ [] [] _ R []); [|exact F]. fk.
  Qed.
End Pieces.

(** ** Which queues an operation is about *)
Definition exitk (c : Z) (d : dat) (k : qid) : Prop :=
  k = QCancel c \/ k = QJoin c \/ exists g, gen (cof d c) = Some g /\ k = QChan g.
Definition kcall (c : Z) (d : dat) (o : op) (k : qid) : Prop :=
  match o with
  | OpSend ch _ _ | OpBcast ch _ | OpRecv ch _ | OpTryRecv ch | OpClose ch | OpCase ch => k = QChan ch
  | OpSelect chs _ | OpTrySelect chs => exists ch, In ch chs /\ k = QChan ch
  | OpGenYield _ _ => exists g, gen (cof d c) = Some g /\ k = QChan g
  | OpMuInit m | OpTryLock m | OpTryRdLock m | OpLock m _ | OpRdLock m _ | OpUnlock m | OpMuDestroy m => k = QMu m
  | OpWgInit w | OpWgAdd w _ | OpWgDone w | OpWgWait w _ | OpWgDestroy w => k = QWg w
  | OpCvInit v | OpCvSignal v | OpCvBcast v | OpCvDestroy v => k = QCv v
  | OpCvWait v m _ => k = QCv v \/ k = QMu m
  | OpExit => exitk c d k
  | OpChMake _ => k = QPool (* stands for: takes a new channel record *)
  | _ => False
  end.
Definition kret (c : Z) (d : dat) (f : frame) (k : qid) : Prop :=
  match f with
  | FEntry | FApi _ _ | FCoyield | FExitLoop => exitk c d k
  | FSelRecv ch _ => k = QChan ch
  | FCvWait _ m => k = QMu m
  | FCvRelock m _ => k = QMu m \/ exitk c d k
  | _ => False
  end.
(** which queues the operation may enter *)
Definition wcall (c : Z) (d : dat) (o : op) (k : qid) : Prop :=
  match o with
  | OpCancel id _ => k = QCancel id
  | OpJoin id _ => k = QJoin id
  | OpSigWait _ => k = QSig
  | _ => kcall c d o k
  end.
Definition wret (f : frame) (k : qid) : Prop :=
  match f with
  | FCancelWait id _ => k = QCancel id
  | FCvUnlocked v _ _ => k = QCv v
  | FCvWait _ m | FCvRelock m _ => k = QMu m
  | _ => False
  end.
(** the waiter that coroutine [c] with stack [st] is, and where *)
Definition top (st : list frame) : list frame := match st with FPause :: r => r | _ => st end.
Definition matched (st : list frame) (n : node) (k : qid) : Prop :=
  match top st with
  | FSendWait ch :: _ | FRecvWait ch :: _ => n = NCo (node_co n) /\ k = QChan ch
  | FSelWait _ :: FApi _ (OpSelect chs _) :: _ =>
      exists i ch, n = NCase (node_co n) (Z.of_nat i) /\ nth_error chs i = Some ch /\ k = QChan ch
  | FLock m :: _ => n = NCo (node_co n) /\ k = QMu m
  | FWgWait w :: _ => n = NCo (node_co n) /\ k = QWg w
  | FCvWait v _ :: _ => n = NCo (node_co n) /\ k = QCv v
  | FJoin id :: _ => n = NCo (node_co n) /\ k = QJoin id
  | FCancelWait id _ :: _ => n = NCo (node_co n) /\ k = QCancel id
  | FSigWait :: _ => n = NCo (node_co n) /\ k = QSig
  | _ => False
  end.
(** what a waiter does first when it continues: leave its queues *)
Definition leave (f : frame) (c : Z) (d : dat) : dat :=
  match f with
  | FSelWait n => rm_cases c (Z.to_nat n) d
  | FSendWait _ | FRecvWait _ | FLock _ | FWgWait _ | FCvWait _ _ | FJoin _ | FCancelWait _ _ | FSigWait => rmq (NCo c) d
  | _ => d
  end.
(** whom a control action resumes *)
Definition resumes (k : ctl) : list Z := match k with CResume id => [id] | _ => [] end.

(** ** Handlers *)
Definition hres (c : Z) KP KW (d d' : dat) (k : ctl) (X : Z -> Prop) : Prop :=
  exists R P, fps c KP KW d R P d' /\ (forall id, k = CResume id -> In id R \/ X id) /\ (forall x, In x P -> k = CResume x).

Lemma hres_pre : forall c KP KW d R d1 d' k X, fps c KP KW d R [] d1 -> hres c KP KW d1 d' k X -> hres c KP KW d d' k X.
Proof.
  intros c KP KW d R d1 d' k X F (R2 & P & G & H & HP). exists (R2 ++ R), (P ++ []). split; [eapply fps_trans; eassumption|].
  rewrite app_nil_r. split; [|exact HP]. intros id E. destruct (H id E); [left; apply in_or_app; auto | auto].
Qed.
Lemma hres_ret : forall c KP KW d R d' k X, fps c KP KW d R [] d' -> (forall id, k <> CResume id) -> hres c KP KW d d' k X.
Proof. intros. exists R, []. split; [assumption|]. split; [|intros x []]. intros id E. destruct (H0 id E). Qed.
Lemma copause_top : forall c dl fs d d' fs' k, copause c dl fs d = (d', fs', k) -> hd FEntry fs <> FPause ->
  top fs' = fs /\ forall id, k <> CResume id.
Proof.
  intros c dl fs d d' fs' k E N. destruct (copause_cases _ _ _ _ _ _ _ E) as [(-> & -> & _)|(-> & -> & _)];
    (split; [|congruence]); [|reflexivity]. destruct fs as [|[]]; try reflexivity. destruct N. reflexivity.
Qed.

(** follow a handler *)
Ltac fh E :=
  match type of E with
  | copause _ _ ?fs _ = (_, ?fs', _) =>
      let T := fresh "T" in let NR := fresh "NR" in
      pose proof E as T; apply copause_top in T; [destruct T as [T NR] | discriminate];
      eapply fp_copause in E; eapply hres_pre; [|eapply hres_ret; [exact E | exact NR]]; fk
  | yfsr _ _ = _ =>
      let NR := fresh "NR" in pose proof (yfsr_cases _ _ _ _ _ E) as NR; destruct NR as (-> & -> & _);
      eapply hres_ret; [fk | discriminate]
  | (_, _, _) = (_, _, _) => inj E; eapply hres_ret; [fk | discriminate]
  | coyield _ _ = _ => unfold coyield in E; inj E; eapply hres_ret; [fk | discriminate]
  | fastunlock ?m ?fs ?x = _ =>
      let P := fresh "P" in let R := fresh "R" in
      pose proof (fastunlock_cases _ _ _ _ _ _ E) as P;
      eapply fp_fastunlock in E; [destruct E as (R & E); eapply hres_pre; [|eapply hres_ret; [exact E | ] ] | ]
  | (if ?x then _ else _) = _ => destruct x; fh E
  | context [checkdl ?a ?b ?c ?d] => let P := fresh "P" in destruct (checkdl a b c d) eqn:P; eapply fp_checkdl in P;
       eapply hres_pre; [eapply fps_trans0; [|exact P]; solve [fk]|]; clear P; fh E
  | context [check_mu ?a ?b] => let P := fresh "P" in destruct (check_mu a b) eqn:P; match goal with |- hres ?c0 ?KP0 ?KW0 _ _ _ _ => eapply (fp_check_mu c0 KP0 KW0) in P end; [|solve [auto]];
       eapply hres_pre; [eapply fps_trans0; [|exact P]; solve [fk]|]; clear P; fh E
  | context [check_wg ?a ?b] => let P := fresh "P" in destruct (check_wg a b) eqn:P; match goal with |- hres ?c0 ?KP0 ?KW0 _ _ _ _ => eapply (fp_check_wg c0 KP0 KW0) in P end; [|solve [auto]];
       eapply hres_pre; [eapply fps_trans0; [|exact P]; solve [fk]|]; clear P; fh E
  | context [check_cv ?a ?b] => let P := fresh "P" in destruct (check_cv a b) eqn:P; match goal with |- hres ?c0 ?KP0 ?KW0 _ _ _ _ => eapply (fp_check_cv c0 KP0 KW0) in P end; [|solve [auto]];
       eapply hres_pre; [eapply fps_trans0; [|exact P]; solve [fk]|]; clear P; fh E
  | context [if ?x then _ else _] => destruct x; fh E
  end.

Section Handlers.
  Variables (c : Z) (KP : qid -> Prop) (KW : qid -> node -> Prop).
  Notation HR := (hres c KP KW).

  Lemma fh_do_send : forall ch m dl d d' fs k, KP (QChan ch) -> (top fs = [FSendWait ch] -> KW (QChan ch) (NCo c)) ->
    do_send c ch m dl d = (d', fs, k) -> HR d d' k (fun _ => False).
  Proof.
    intros ch m dl d d' fs k K W E. unfold do_send in E.
    destruct (negb _); [fh E|]. destruct (sclosed _); [fh E|]. destruct (canceled _); [fh E|].
    destruct (send_loop _ _ _ _) as [[r|] d1] eqn:S; eapply (fp_send_loop c KP KW) in S; try exact K; destruct S as (R & P & F & IN & PI).
    - inj E. exists R, P. split; [exact F|]. split; [intros id X; inj X; left; apply IN; reflexivity | intros x X; apply PI in X; inj X; reflexivity].
    - assert (P = []) by (destruct P as [|p P]; [reflexivity | specialize (PI p (or_introl eq_refl)); discriminate]). subst P.
      eapply hres_pre; [exact F|]. clear F. destruct (_ <? _); [fh E|]. fh E.
  Qed.
  Lemma fh_do_close : forall ch d d' fs k, KP (QChan ch) -> do_close ch d = (d', fs, k) -> HR d d' k (fun _ => False).
  Proof.
    intros ch d d' fs k K E. pose proof (do_close_cases _ _ _ _ _ E) as C. eapply fp_do_close in E; [|exact K].
    destruct E as (R & F). eapply hres_ret; [exact F|]. destruct C as [(_ & v & ->)|(-> & _)]; discriminate.
  Qed.
  Lemma fh_coexit_rest : forall a d d' fs k, (forall x, exitk c d x -> KP x) -> coexit_rest c a d = (d', fs, k) ->
    HR d d' k (fun _ => False).
  Proof.
    intros a d d' fs k K E. unfold coexit_rest in E.
    match type of E with context [gen (cof ?x c)] => assert (P : exists R, fps c KP KW d R [] x); [|set (dd := x) in *] end.
    { match goal with |- context [resume_all (QJoin c) ?n ?y] => destruct (fp_resume_all c KP KW (QJoin c) n y) as (R2 & F2) end;
        [apply K; right; left; reflexivity | exact I|].
      match type of F2 with context [resume_all (QCancel c) ?n ?y] => destruct (fp_resume_all c KP KW (QCancel c) n y) as (R1 & F1) end;
        [apply K; left; reflexivity | exact I|].
      exists (R2 ++ (R1 ++ [])). eapply fps_trans0; [|exact F2]. eapply fps_trans0; [|exact F1]. fk. }
    assert (G : gen (cof dd c) = gen (cof d c)).
    { unfold dd. assert (RA : forall k n d0, cof (resume_all k n d0) = cof d0).
      { intros k0 n0. induction n0 as [|n0 IH]; intros d0; [reflexivity|]. cbn. unfold popq. destruct (q d0 k0); [reflexivity|].
        rewrite IH. reflexivity. }
      rewrite !RA. reflexivity. }
    destruct P as (R & P). eapply hres_pre; [exact P|]. clear P.
    destruct (gen (cof dd c)) as [g|].
    - destruct (do_close g dd) as [[d1 fs1] k1] eqn:C. inj E. eapply fh_do_close; [|exact C]. apply K. right. right. exists g. auto.
    - destruct (negb _); fh E.
  Qed.
  Lemma fh_coexit_async : forall d d' fs k, (forall x, exitk c d x -> KP x) -> coexit_async c d = (d', fs, k) ->
    HR d d' k (fun _ => False).
  Proof.
    intros d d' fs k K E. unfold coexit_async in E. destruct (cleanups (cof d c)) eqn:CL.
    - eapply fh_coexit_rest; eassumption.
    - fh E.
  Qed.
  Lemma fh_do_cancel : forall id dl nw d d' fs k, (top fs = [FCancelWait id dl] -> KW (QCancel id) (NCo c)) ->
    do_cancel c id dl nw d = (d', fs, k) -> HR d d' k (fun x => x = id /\ canceled (cof d' x) = true).
  Proof.
    intros id dl nw d d' fs k W E. unfold do_cancel in E. destruct (negb _); [fh E|].
    destruct (checkdl _ _ _ _) as [v d1] eqn:P; eapply fp_checkdl in P. eapply hres_pre; [exact P|]. clear P.
    destruct (negb _); [fh E|]. destruct (cenabled _); [|fh E].
    inj E. exists [], []. split; [apply fp_cancel, fp_nil|]. split; [|intros x []]. intros x X. inj X. right. split; [reflexivity|].
    unfold upco. cbn. rewrite zupd_eq. reflexivity.
  Qed.
  Lemma fh_cv_relock : forall m ret nw d d' fs k X, KP (QMu m) -> (top fs = [FLock m; FCvRelock m ret] -> KW (QMu m) (NCo c)) ->
    cv_relock c m ret nw d = (d', fs, k) -> HR d d' k X.
  Proof.
    intros m ret nw d d' fs k X K W E. unfold cv_relock in E. destruct (negb _); [fh E|].
    destruct (mu_trylock c m false MAXI nw d) as [v d1] eqn:T. eapply fp_trylock in T; [|exact K].
    eapply hres_pre; [exact T|]. clear T. unfold finish_lock in E. fh E.
  Qed.
  Lemma fh_do_recv : forall ch t dl d d' fs k, KP (QChan ch) -> (top fs = [FRecvWait ch] -> KW (QChan ch) (NCo c)) ->
    do_recv c ch t dl d = (d', fs, k) -> HR d d' k (fun _ => False).
  Proof.
    intros ch t dl d d' fs k K W E. unfold do_recv in E.
    destruct (negb _); [fh E|]. destruct (rclosed _); [fh E|]. destruct (canceled _); [fh E|].
    destruct (take ch d) as [[[m [s|]] d1]|] eqn:T.
    - eapply (fp_take c KP KW) in T; [|exact K]. destruct T as (R & P & F & IN & PI). inj E. exists R, P. split; [fk|].
      split; [intros x X; inj X; left; apply IN; reflexivity | intros x X; apply PI in X; inj X; reflexivity].
    - eapply (fp_take c KP KW) in T; [|exact K]. destruct T as (R & P & F & IN & PI).
      assert (P = []) by (destruct P as [|p P]; [reflexivity | specialize (PI p (or_introl eq_refl)); discriminate]). subst P. eapply hres_pre; [exact F|]. fh E.
    - fh E.
  Qed.
  Lemma fp_push_cases : forall chs i d, (forall ch, In ch chs -> KP (QChan ch)) ->
    (forall j ch, nth_error chs j = Some ch -> KW (QChan ch) (NCase c (i + Z.of_nat j))) ->
    fps c KP KW d [] [] (push_cases c chs i d).
  Proof.
    induction chs as [|ch chs IH]; intros i d K W; cbn [push_cases]; [fk|].
    eapply (fps_trans0 _ _ _ _ [] _ []); [|apply IH].
    - apply fp_ch; [|apply K; left; reflexivity]. apply fp_push; [apply fp_nil | reflexivity | exact I|].
      replace i with (i + Z.of_nat 0) by lia. apply (W 0%nat ch). reflexivity.
    - intros x IN. apply K. right. exact IN.
    - intros j x N. replace (i + 1 + Z.of_nat j) with (i + Z.of_nat (Datatypes.S j)) by lia. apply W. exact N.
  Qed.
  Lemma first_ready_in : forall chs i d ch j, first_ready chs i d = Some (ch, j) -> In ch chs.
  Proof.
    induction chs as [|x chs IH]; intros i d ch j E; cbn in E; [discriminate|].
    destruct (_ || _); [inj E; left; reflexivity | right; eapply IH; exact E].
  Qed.
  Lemma fh_do_select : forall chs t dl d d' fs k, (forall ch, In ch chs -> KP (QChan ch)) ->
    (t = false -> top fs = [FSelWait (Z.of_nat (length chs))] ->
      forall j ch, nth_error chs j = Some ch -> KW (QChan ch) (NCase c (Z.of_nat j))) ->
    do_select c chs t dl d = (d', fs, k) -> HR d d' k (fun _ => False).
  Proof.
    intros chs t dl d d' fs k K W E. unfold do_select in E.
    destruct (negb _); [fh E|]. destruct (canceled _); [fh E|].
    destruct (first_ready chs 0 d) as [[ch i]|] eqn:FR.
    - pose proof (K _ (first_ready_in _ _ _ _ _ FR)) as Kc.
      destruct (rclosed _); [fh E|]. destruct (take ch d) as [[[m [s|]] d1]|] eqn:T.
      + eapply (fp_take c KP KW) in T; [|exact Kc]. destruct T as (R & P & F & IN & PI). inj E. exists R, P. split; [fk|].
        split; [intros x X; inj X; left; apply IN; reflexivity | intros x X; apply PI in X; inj X; reflexivity].
      + eapply (fp_take c KP KW) in T; [|exact Kc]. destruct T as (R & P & F & IN & PI).
      assert (P = []) by (destruct P as [|p P]; [reflexivity | specialize (PI p (or_introl eq_refl)); discriminate]). subst P. eapply hres_pre; [exact F|]. fh E.
      + fh E.
    - destruct t; [fh E|].
      pose proof E as T. apply copause_top in T; [destruct T as [T NR] | discriminate].
      eapply fp_copause in E. eapply hres_pre; [|eapply hres_ret; [exact E | exact NR]].
      eapply (fp_misc _ _ _ _ _ _ (push_cases c chs 0 (upco c (set_retidx (-1)) d))); [|reflexivity].
      eapply (fps_trans0 _ _ _ _ [] _ []); [|apply fp_push_cases]; [fk | exact K|].
      intros j ch N. apply (W eq_refl T j ch N).
  Qed.
End Handlers.

Lemma top_app : forall fs f l rest, top fs = f :: l -> f <> FPause -> top (fs ++ rest) = f :: l ++ rest.
Proof.
  intros fs f l rest T N. destruct fs as [|x fs]; [discriminate T|]. destruct x; cbn in T |- *; try (inj T; reflexivity);
    try (rewrite T; reflexivity).
Qed.
Ltac mt := intros T; unfold matched; rewrite (top_app _ _ _ _ T ltac:(discriminate)); cbn; auto.

(** what allows a resumption other than taking a waiter off a queue *)
Definition xcall (o : op) (d d' : dat) (x : Z) : Prop :=
  match o with
  | OpCancel id _ => x = id /\ canceled (cof d' x) = true
  | OpResume id => x = id /\ suspended (cof d x) = true
  | _ => False
  end.
Definition xret (f : frame) (d' : dat) (x : Z) : Prop :=
  match f with FCancelWait id _ => x = id /\ canceled (cof d' x) = true | _ => False end.

Ltac wm HW := apply HW; [intros ->; discriminate| |cbn; eauto]; unfold matched;
  match goal with T : top _ = _ |- _ => rewrite (top_app _ _ _ _ T ltac:(discriminate)) end; cbn; auto.

Lemma hcall_fp0 : forall c (KP : qid -> Prop) (KW : qid -> node -> Prop) o nw d d' fs k j st, hcall c o nw d = (d', fs, k) ->
  (forall x, kcall c d o x -> KP x) -> (forall x n, fs <> [] -> matched (fs ++ FApi j o :: st) n x -> wcall c d o x -> KW x n) ->
  hres c KP KW d d' k (xcall o d d').
Proof.
  intros c KP KW o nw d d' fs k j st E HK HW.
  destruct o; cbn [hcall kcall xcall] in *; try (pose proof (HK _ eq_refl) as K0); try (fh E; fail).
  - unfold do_sleep in E. fh E.
  - eapply fh_do_cancel; [|exact E]. intros T. wm HW.
  - unfold do_sigwatch in E. fh E.
  - unfold do_sigunwatch in E. fh E.
  - unfold do_sigwait in E. fh E. wm HW.
  - unfold do_wait in E. fh E.
  - unfold do_chmake in E. destruct (_ || _); [fh E|]. destruct (new_chan cap d) as [ch d1] eqn:N.
    inj E. replace d1 with (snd (new_chan cap d)) by (rewrite N; reflexivity).
    eapply hres_ret; [|discriminate]. apply fp_own, fp_newch; [apply fp_nil | exact K0].
  - eapply fh_do_send; [exact K0| |exact E]. intros T. wm HW.
  - unfold do_bcast in E. destruct (negb _); [fh E|]. destruct (sclosed _); [fh E|].
    destruct (bcast_loop _ _ _ _ _) as [n d1] eqn:B. eapply (fp_bcast_loop c KP KW) in B; [|auto]. destruct B as (R & F).
    eapply hres_pre; [exact F|]. fh E.
  - eapply fh_do_recv; [exact K0| |exact E]. intros T. wm HW.
  - eapply fh_do_recv; [exact K0| |exact E]. intros T. wm HW.
  - eapply fh_do_close; [exact K0|exact E].
  - eapply fh_do_select; [| |exact E].
    + intros ch0 IN. apply HK. exists ch0. auto.
    + intros _ T i ch0 N. apply HW; [intros ->; discriminate| |exists ch0; split; [eapply nth_error_In; exact N | reflexivity]]. unfold matched. rewrite (top_app _ _ _ _ T ltac:(discriminate)). cbn. exists i, ch0. auto.
  - eapply fh_do_select; [| |exact E].
    + intros ch0 IN. apply HK. exists ch0. auto.
    + discriminate.
  - unfold do_case in E. fh E.
  - unfold do_genyield in E. destruct (gen (cof d c)) as [g|] eqn:G; [|fh E].
    eapply fh_do_send; [|  |exact E]; [apply HK; exists g; auto|]. intros T. wm HW.
  - eapply hres_ret; [|inj E; discriminate]. inj E. unfold mu_init. fk.
  - unfold do_trylock in E. destruct (check_mu m d) as [v d1] eqn:C. eapply (fp_check_mu c KP KW) in C; [|auto].
    eapply hres_pre; [exact C|]. destruct (negb _); [fh E|].
    destruct (mu_trylock _ _ _ _ _ _) as [v2 d2] eqn:T. eapply (fp_trylock c KP KW) in T; [|auto]. eapply hres_pre; [exact T|]. fh E.
  - unfold do_trylock in E. destruct (check_mu m d) as [v d1] eqn:C. eapply (fp_check_mu c KP KW) in C; [|auto].
    eapply hres_pre; [exact C|]. destruct (negb _); [fh E|].
    destruct (mu_tryrdlock _ _ _ _ _ _) as [v2 d2] eqn:T. eapply (fp_tryrdlock c KP KW) in T; [|auto]. eapply hres_pre; [exact T|]. fh E.
  - unfold do_lock in E. destruct (check_mu m d) as [v d1] eqn:C. eapply (fp_check_mu c KP KW) in C; [|auto].
    eapply hres_pre; [exact C|]. clear C. destruct (negb _); [fh E|].
    destruct (mu_trylock _ _ _ _ _ _) as [v2 d2] eqn:T. eapply (fp_trylock c KP KW) in T; [|auto].
    eapply hres_pre; [exact T|]. clear T. unfold finish_lock in E. destruct (_ =? _); [|fh E]. fh E. wm HW.
  - unfold do_lock in E. destruct (check_mu m d) as [v d1] eqn:C. eapply (fp_check_mu c KP KW) in C; [|auto].
    eapply hres_pre; [exact C|]. clear C. destruct (negb _); [fh E|].
    destruct (mu_tryrdlock _ _ _ _ _ _) as [v2 d2] eqn:T. eapply (fp_tryrdlock c KP KW) in T; [|auto].
    eapply hres_pre; [exact T|]. clear T. unfold finish_lock in E. destruct (_ =? _); [|fh E]. fh E. wm HW.
  - unfold do_unlock in E. destruct (check_mu m d) as [v d1] eqn:C. eapply (fp_check_mu c KP KW) in C; [|auto].
    eapply hres_pre; [exact C|]. clear C. destruct (negb _); [fh E|].
    fh E; [apply fp_nil | destruct P as [(_ & ->)|(-> & _)]; discriminate | exact K0].
  - unfold do_mudestroy in E. fh E.
  - eapply hres_ret; [|inj E; discriminate]. inj E. unfold wg_init. fk.
  - unfold do_wgadd in E. fh E.
  - unfold do_wgdone in E. destruct (check_wg w d) as [v d1] eqn:C. eapply (fp_check_wg c KP KW) in C; [|auto].
    eapply hres_pre; [exact C|]. clear C. destruct (negb _); [fh E|].
    destruct (_ =? _); [fh E|].
    match type of E with context [q ?x (QWg w)] => assert (P : fps c KP KW d1 [] [] x) by fk; set (dd := x) in * end.
    eapply hres_pre; [exact P|]. clear P.
    destruct (negb _); [fh E|]. destruct (q dd (QWg w)) as [|n1 [|n2 l]] eqn:Q.
    + fh E.
    + inj E. exists [node_co n1], (nco n1 ++ []). split; [exact (fp_pop c KP KW dd (QWg w) n1 [] [] [] dd (fp_nil _ _ _ _) K0 I Q)|].
      split; [intros x X; inj X; left; left; reflexivity|]. rewrite app_nil_r. intros x X. apply nco_in in X. rewrite X. reflexivity.
    + match type of E with yfsr _ (resume_all ?kk ?n ?y) = _ => destruct (fp_resume_all c KP KW kk n y) as (R & F) end; [exact K0 | exact I|].
      eapply hres_pre; [exact F|]. fh E.
  - unfold do_wgwait in E. fh E. wm HW.
  - eapply hres_ret; [|inj E; discriminate]. inj E. unfold cv_init. fk.
  - unfold do_cvsignal in E. destruct (check_cv v d) as [e d1] eqn:C. eapply (fp_check_cv c KP KW) in C; [|auto].
    eapply hres_pre; [exact C|]. clear C. destruct (negb _); [fh E|].
    destruct (popq (QCv v) d1) as [[x|] d2] eqn:P.
    + eapply (fp_popq c KP KW) in P; [|auto|exact I]. inj E. exists [node_co x], (nco x). split; [exact P|].
      split; [intros y Y; inj Y; left; left; reflexivity|]. intros y X. apply nco_in in X. rewrite X. reflexivity.
    + apply popq_none in P. destruct P as [-> _]. fh E.
  - unfold do_cvbcast in E. destruct (check_cv v d) as [e d1] eqn:C. eapply (fp_check_cv c KP KW) in C; [|auto].
    eapply hres_pre; [exact C|]. clear C. destruct (negb _); [fh E|].
    match type of E with yfsr _ (resume_all ?kk ?n ?y) = _ => destruct (fp_resume_all c KP KW kk n y) as (R & F) end; [exact K0 | exact I|].
    eapply hres_pre; [exact F|]. fh E.
  - unfold do_cvwait in E. destruct (check_cv v d) as [e d1] eqn:C. eapply (fp_check_cv c KP KW) in C; [|auto].
    eapply hres_pre; [exact C|]. clear C. destruct (negb _); [fh E|].
    destruct (check_mu m d1) as [e2 d2] eqn:C. eapply (fp_check_mu c KP KW) in C; [|auto].
    eapply hres_pre; [exact C|]. clear C. destruct (negb _); [fh E|]. destruct (canceled _); [fh E|].
    fh E; [apply fp_nil | destruct P as [(_ & ->)|(-> & _)]; discriminate | auto].
  - unfold do_join in E. fh E. wm HW.
  - unfold do_suspend in E. fh E.
  - unfold do_resume in E. destruct (negb (mem _ _)); [fh E|]. destruct (suspended (cof d id)) eqn:SU; cbn [negb] in E; [|fh E].
    inj E. exists [], []. split; [fk|]. split; [|intros x []]. intros x X. inj X. right. cbn. auto.
  - unfold do_work, work_submit in E. fh E.
  - unfold do_cleanup_pop in E. destruct (cleanups (cof d c)) as [|h r] eqn:CL; [fh E|]. fh E.
  - eapply fh_coexit_async; [|exact E]. exact HK.
Qed.
Theorem hcall_fp : forall c o nw d d' fs k j st, hcall c o nw d = (d', fs, k) ->
  hres c (kcall c d o) (fun k n => (fs <> [] /\ matched (fs ++ FApi j o :: st) n k) /\ wcall c d o k) d d' k (xcall o d d').
Proof. intros c o nw d d' fs k j st E. exact (hcall_fp0 c _ _ o nw d d' fs k j st E (fun _ H => H) (fun _ _ A H B => conj (conj A H) B)). Qed.

(** removing nodes depends on the queues only *)
Lemma core_rmq : forall n d1 d2, core d1 = core d2 -> core (rmq n d1) = core (rmq n d2).
Proof. intros n d1 d2 E. unfold core in *. cbn. inversion E. congruence. Qed.
Lemma core_rm_cases : forall c n d1 d2, core d1 = core d2 -> core (rm_cases c n d1) = core (rm_cases c n d2).
Proof. intros c n. induction n as [|n IH]; intros d1 d2 E; [exact E|]. cbn [rm_cases]. apply IH, core_rmq, E. Qed.

Lemma hret_fp0 : forall c (KP : qid -> Prop) (KW : qid -> node -> Prop) f v b nw d d' fs k rest, hret c f v b nw d = (d', fs, k) ->
  (forall x, kret c d f x -> KP x) -> (forall x n, fs <> [] -> matched (fs ++ rest) n x -> wret f x -> KW x n) ->
  hres c KP KW (leave f c d) d' k (xret f d').
Proof.
  intros c KP KW f v b nw d d' fs k rest E HK HW.
  destruct f; cbn [hret kret xret leave] in *; try (pose proof (HK _ eq_refl) as K0); try (fh E; fail).
  - eapply fh_coexit_rest; [|exact E]. exact HK.
  - destruct (_ && _); [eapply fh_coexit_async; [|exact E]; exact HK | fh E].
  - destruct (_ && _); [eapply fh_coexit_async; [|exact E]; exact HK | fh E].
  - inj E. eapply hres_ret; [apply fp_pause_end | discriminate].
  - unfold sleep_end in E. fh E.
  - eapply fh_do_cancel; [|exact E]. intros T. wm HW.
  - unfold sigwait_end in E. fh E.
  - unfold wait_end in E. fh E.
  - unfold send_end in E. destruct (checkdl _ _ _ _) as [v1 d1] eqn:P. inj E. apply (fp_checkdl c KP KW) in P.
    eapply hres_ret; [|discriminate]. eapply (fps_trans0 _ _ _ _ [] _ []); [|exact P]. eapply fp_misc; [apply fp_nil | reflexivity].
  - unfold recv_end in E. destruct (checkdl _ _ _ _) as [v1 d1] eqn:P. apply (fp_checkdl c KP KW) in P.
    eapply hres_pre; [eapply (fps_trans0 _ _ _ _ [] _ []); [|exact P]; eapply fp_misc; [apply fp_nil | reflexivity]|]. fh E.
  - unfold select_end in E. destruct (checkdl c MAXI nw _) as [v1 d1] eqn:C. inj E. apply (fp_checkdl c KP KW) in C.
    eapply hres_ret; [|discriminate]. eapply (fps_trans0 _ _ _ _ [] _ []); [|exact C].
    eapply fp_misc; [apply fp_nil|]. apply core_rm_cases. reflexivity.
  - unfold lock_end in E. destruct (checkdl _ _ _ _) as [v1 d1] eqn:P. inj E. apply (fp_checkdl c KP KW) in P.
    eapply hres_ret; [|discriminate]. eapply (fps_trans0 _ _ _ _ [] _ []); [|exact P]. apply fp_own. eapply fp_misc; [apply fp_nil | reflexivity].
  - unfold wgwait_end in E. destruct (checkdl _ _ _ _) as [v1 d1] eqn:P. inj E. apply (fp_checkdl c KP KW) in P.
    eapply hres_ret; [|discriminate]. eapply (fps_trans0 _ _ _ _ [] _ []); [|exact P]. eapply fp_misc; [apply fp_nil | reflexivity].
  - unfold cvwait_unlocked in E. fh E. wm HW.
  - unfold cvwait_end in E. destruct (checkdl c MAXI nw _) as [v1 d1] eqn:C. apply (fp_checkdl c KP KW) in C.
    eapply hres_pre; [eapply (fps_trans0 _ _ _ _ [] _ []); [|exact C]; eapply fp_misc; [apply fp_nil | reflexivity]|].
    eapply fh_cv_relock; [exact K0 | |exact E]. intros T. wm HW.
  - destruct (_ =? _); [fh E|]. destruct (_ && _); [eapply fh_coexit_async; [|exact E]; auto|].
    eapply fh_cv_relock; [auto | |exact E]. intros T. wm HW.
  - unfold join_end in E. fh E.
  - unfold suspend_end in E. fh E.
  - unfold work_submit in E. fh E.
  - eapply fh_coexit_async; [|exact E]. exact HK.
  - unfold exit_gen in E. fh E.
Qed.
Theorem hret_fp : forall c f v b nw d d' fs k rest, hret c f v b nw d = (d', fs, k) ->
  hres c (kret c d f) (fun k n => (fs <> [] /\ matched (fs ++ rest) n k) /\ wret f k) (leave f c d) d' k (xret f d').
Proof. intros c f v b nw d d' fs k rest E. exact (hret_fp0 c _ _ f v b nw d d' fs k rest E (fun _ H => H) (fun _ _ A H B => conj (conj A H) B)). Qed.
