(** Every handler changes the data state by a sequence of primitive updates. This
    file lists the primitives once; facts of the form "nothing changes X except
    ..." are then proved by looking at the primitives instead of at every
    handler. *)
From Coq Require Import List ZArith Bool Lia.
From Verif Require Import Util AATreeSpec AATreeHist Runtime SchedInv StepInv StackShape.
Import ListNotations.
Local Open Scope Z_scope.

(** queues that client objects own *)
Definition objq (k : qid) : Prop := match k with QMu _ | QWg _ | QCv _ => True | _ => False end.
(** queues a coroutine enters by itself *)
Definition waitq (k : qid) : Prop :=
  match k with QChan _ | QMu _ | QWg _ | QCv _ | QJoin _ | QCancel _ | QSig => True | _ => False end.
(** queues from which somebody else takes a waiter *)
Definition popq_ok (k : qid) : Prop :=
  match k with QChan _ | QMu _ | QWg _ | QCv _ | QJoin _ | QCancel _ => True | _ => False end.

(** one update made on behalf of the running coroutine [c] *)
Inductive prim (c : Z) : dat -> dat -> Prop :=
| p_deadline v d : prim c d (upco c (set_deadline v) d)
| p_clear d : prim c d (upco c (fun r => set_deadlined false (set_canceled false r)) d)
| p_uncancel d : prim c d (upco c (set_canceled false) d)
| p_smsg v d : prim c d (upco c (set_smsg v) d)
| p_cclosed0 d : prim c d (upco c (set_cclosed false) d)
| p_recvclosed d : prim c d (upco c (fun r => set_rbuf 0 (set_cclosed false r)) d)
| p_retidx0 d : prim c d (upco c (set_retidx (-1)) d)
| p_rlocked b d : prim c d (upco c (set_rlocked b) d)
| p_susp b d : prim c d (upco c (set_suspended b) d)
| p_sigwatch n d : prim c d (upco c (fun r => set_sigwatch (Z.lor (sigwatch r) (Z.shiftl 1 n)) r) d)
| p_sigunwatch n d : prim c d (upco c (fun r => set_sigwatch (Z.ldiff (sigwatch r) (Z.shiftl 1 n)) r) d)
| p_sigmask d : prim c d (upco c (fun r => set_sigmask (sigwatch r) r) d)
| p_sigmask0 d : prim c d (upco c (set_sigmask 0) d)
| p_ev fd k d : prim c d (upco c (fun r => set_evkind k (set_evfd fd r)) d)
| p_cleanpush h d : prim c d (upco c (fun r => set_cleanups (h :: cleanups r) r) d)
| p_cleanpop h l d : cleanups (cof d c) = h :: l -> prim c d (upco c (set_cleanups l) d)
| p_casync b d : prim c d (upco c (set_casync b) d)
| p_cenabled b d : prim c d (upco c (set_cenabled b) d)
| p_gen0 d : prim c d (upco c (set_gen None) d)
| p_rbuf r m d : prim c d (upco r (set_rbuf m) d)
| p_retidx r i d : prim c d (upco r (set_retidx i) d)
| p_cclosed r d : prim c d (upco r (set_cclosed true) d)
| p_selclosed r i d : prim c d (upco r (fun x => set_cclosed true (set_retidx i x)) d)
| p_cancel id d : prim c d (upco id (set_canceled true) d)
| p_rm n d : node_co n = c -> prim c d (rmq n d)
| p_push k n d : node_co n = c -> waitq k -> prim c d (pushq k n d)
| p_res r d : prim c d (sched_resume r d)
| p_pop k n l d : popq_ok k -> q d k = n :: l -> prim c d (set_q (qupd (q d) k l) d)
| p_objclear k f d : objq k -> f = q d -> prim c d (set_q (qupd f k []) d)
| p_dls l d : prim c d (set_dls l d)
| p_ndls v d : prim c d (set_ndls v d)
| p_evs l d : prim c d (set_evs l d)
| p_nevs v d : prim c d (set_nevs v d)
| p_armed v d : prim c d (set_armed v d)
| p_nsleepers v d : prim c d (set_nsleepers v d)
| p_nlocked v d : prim c d (set_nlocked v d)
| p_nreceivers v d : prim c d (set_nreceivers v d)
| p_nsenders v d : prim c d (set_nsenders v d)
| p_nwgs v d : prim c d (set_nwgs v d)
| p_ncvs v d : prim c d (set_ncvs v d)
| p_nsusp v d : prim c d (set_nsusp v d)
| p_nsigs v d : prim c d (set_nsigs v d)
| p_niow v d : prim c d (set_niow v d)
| p_inflight v d : prim c d (set_inflight v d)
| p_sigw v d : prim c d (set_sigw v d)
| p_buf ch b d : prim c d (upch ch (set_buf b) d)
| p_bufadd ch m d : prim c d (upch ch (fun x => set_buf (buf x ++ [m]) x) d)
| p_qrecv ch b d : prim c d (upch ch (set_qrecv b) d)
| p_slot ch m d : prim c d (upch ch (set_slot m) d)
| p_slotok ch m d : prim c d (upch ch (fun x => set_slot m (set_lok true x)) d)
| p_lok ch b d : prim c d (upch ch (set_lok b) d)
| p_sclosed ch d : prim c d (upch ch (set_sclosed true) d)
| p_rclosed ch d : prim c d (upch ch (set_rclosed true) d)
| p_rclosed2 ch d : prim c d (upch ch (fun x => set_qrecv false (set_rclosed true x)) d)
| p_chmake cap d : prim c d (snd (new_chan cap d))
| p_munew m r d : prim c d (set_mux (nupd (mux d) m r) d)
| p_mu m f d : prim c d (upmu m f d)
| p_wgnew w r d : prim c d (set_wgx (nupd (wgx d) w r) d)
| p_wg w f d : prim c d (upwg w f d)
| p_cv v r d : prim c d (set_cvx (nupd (cvx d) v r) d)
| p_all x d : prim c d (set_all (remove1 x (all d)) d)
| p_allcount v d : prim c d (set_allcount v d).

(** sequences of updates *)
Inductive prims (c : Z) (d : dat) : dat -> Prop :=
| ps_nil : prims c d d
| ps_snoc d1 d2 : prims c d d1 -> prim c d1 d2 -> prims c d d2.

Lemma prims_trans : forall c d d1 d2, prims c d d1 -> prims c d1 d2 -> prims c d d2.
Proof. intros c d d1 d2 A B. induction B; [exact A|]. eapply ps_snoc; eassumption. Qed.

(** a property that every primitive preserves *)
Lemma prims_ind_pres : forall c (P : dat -> Prop),
  (forall d d', prim c d d' -> P d -> P d') -> forall d d', prims c d d' -> P d -> P d'.
Proof. intros c P H d d' S. induction S; intros A; [exact A|]. eapply H; eauto. Qed.
(** a quantity that no primitive changes *)
Lemma prims_const : forall c (A : Type) (f : dat -> A),
  (forall d d', prim c d d' -> f d' = f d) -> forall d d', prims c d d' -> f d' = f d.
Proof. intros c A f H d d' S. induction S; [reflexivity|]. rewrite (H _ _ H0). exact IHS. Qed.

#[export] Hint Constructors prim : prm.
Ltac peel := first [ apply ps_nil | assumption | eapply ps_snoc; [| solve [constructor; cbn; auto; fail] ] ].
Ltac pr := repeat peel.

(** ** Pieces *)
Lemma pr_copause : forall c dl fs d d' fs' k, copause c dl fs d = (d', fs', k) -> prims c d d'.
Proof.
  intros c dl fs d d' fs' k E. unfold copause in E. destruct (_ || _); [inj E; pr|].
  destruct (_ <? _); inj E; pr.
Qed.
Lemma pr_checkdl : forall c dl nw d v d', checkdl c dl nw d = (v, d') -> prims c d d'.
Proof. intros c dl nw d v d' E. unfold checkdl in E. destruct (_ && _); inj E; pr. Qed.
Lemma pr_yfsr : forall c fs d d' fs' k, yfsr fs d = (d', fs', k) -> prims c d d'.
Proof. intros c fs d d' fs' k E. apply yfsr_cases in E. destruct E as (-> & _). pr. Qed.
Lemma pr_pause_end : forall c d, prims c d (pause_end c d).
Proof. intros. unfold pause_end. destruct (_ <? _); pr. Qed.
Lemma pr_deliver : forall c ch m n d r d', deliver ch m n d = Some (r, d') -> prims c d d'.
Proof. intros c ch m n d r d' E. unfold deliver in E. destruct n; [inj E; pr|]. destruct (negb _); [discriminate|]. inj E; pr. Qed.
Lemma pr_pop : forall c k n l d, popq_ok k -> q d k = n :: l -> prims c d (set_q (qupd (q d) k l) d).
Proof. intros. eapply ps_snoc; [apply ps_nil|]. eapply p_pop; eassumption. Qed.

Lemma pr_popq : forall c k d n d', popq_ok k -> popq k d = (n, d') -> prims c d d'.
Proof.
  intros c k d n d' K E. unfold popq in E. destruct (q d k) as [|x l] eqn:Q; inj E; [pr|].
  eapply pr_pop; eassumption.
Qed.

Lemma pr_send_loop : forall c ch m n d r d', send_loop ch m n d = (r, d') -> prims c d d'.
Proof.
  intros c ch m. induction n as [|n IH]; intros d r d' E; cbn in E; [inj E; pr|].
  destruct (popq (QChan ch) d) as [[x|] d1] eqn:P; apply (pr_popq c) in P; try exact I.
  - destruct (deliver ch m x d1) as [[r1 d2]|] eqn:D.
    + inj E. eapply prims_trans; [exact P | eapply pr_deliver; exact D].
    + eapply prims_trans; [exact P | eapply IH; exact E].
  - inj E. exact P.
Qed.
Lemma pr_bcast_loop : forall c ch m n sent d r d', bcast_loop ch m n sent d = (r, d') -> prims c d d'.
Proof.
  intros c ch m. induction n as [|n IH]; intros sent d r d' E; cbn in E; [inj E; pr|].
  destruct (popq (QChan ch) d) as [[x|] d1] eqn:P; apply (pr_popq c) in P; try exact I.
  - destruct (deliver ch m x d1) as [[r1 d2]|] eqn:D.
    + eapply prims_trans; [exact P|]. eapply prims_trans; [eapply pr_deliver; exact D|].
      eapply prims_trans; [|eapply IH; exact E]. pr.
    + eapply prims_trans; [exact P | eapply IH; exact E].
  - inj E. exact P.
Qed.
Lemma pr_close_loop : forall c ch n d, prims c d (close_loop ch n d).
Proof.
  intros c ch. induction n as [|n IH]; intros d; cbn; [pr|].
  destruct (popq (QChan ch) d) as [[[x|x i]|] d1] eqn:P; apply (pr_popq c) in P; try exact I.
  - eapply prims_trans; [exact P|]. eapply prims_trans; [|apply IH]. pr.
  - destruct (negb _).
    + eapply prims_trans; [exact P | apply IH].
    + eapply prims_trans; [exact P|]. eapply prims_trans; [|apply IH]. pr.
  - exact P.
Qed.
Lemma pr_resume_all : forall c k n d, popq_ok k -> prims c d (resume_all k n d).
Proof.
  intros c k n d K. revert d. induction n as [|n IH]; intros d; cbn; [pr|].
  destruct (popq k d) as [[x|] d1] eqn:P; apply (pr_popq c) in P; try exact K.
  - eapply prims_trans; [exact P|]. eapply prims_trans; [|apply IH]. pr.
  - exact P.
Qed.
Lemma pr_grant : forall c m n d, prims c d (grant m n d).
Proof.
  intros c m. induction n as [|n IH]; intros d; cbn [grant]; [pr|].
  destruct (popq (QMu m) d) as [[x|] d1] eqn:P; apply (pr_popq c) in P; try exact I; [|exact P].
  eapply prims_trans; [exact P|]. clear P. destruct (rlocked _); [|pr].
  match goal with |- context [grant m n ?x] => assert (P : prims c d1 x) by pr; set (d2 := x) in * end.
  destruct (q d2 (QMu m)); [exact P|]. destruct (rlocked _); [|exact P].
  eapply prims_trans; [exact P | apply IH].
Qed.
Lemma pr_push_cases : forall c chs i d, prims c d (push_cases c chs i d).
Proof.
  intros c. induction chs as [|ch chs IH]; intros i d; cbn; [pr|].
  eapply prims_trans; [|apply IH]. pr.
Qed.
Lemma pr_rm_cases : forall c n d, prims c d (rm_cases c n d).
Proof. intros c. induction n as [|n IH]; intros d; cbn; [pr|]. eapply prims_trans; [|apply IH]. pr. Qed.
Lemma pr_close_if_drained : forall c ch d, prims c d (close_if_drained ch d).
Proof. intros. unfold close_if_drained. destruct (_ && _); pr. Qed.
Lemma pr_take : forall c ch d m s d', take ch d = Some (m, s, d') -> prims c d d'.
Proof.
  intros c ch d m s d' E. unfold take in E. destruct (buf (chn d ch)) as [|m0 b].
  - destruct (qrecv _); [discriminate|].
    destruct (popq (QChan ch) d) as [[x|] d1] eqn:P; apply (pr_popq c) in P; try exact I; [|discriminate].
    inj E. eapply prims_trans; [exact P | apply pr_close_if_drained].
  - destruct (popq (QChan ch) _) as [[x|] d1] eqn:P; apply (pr_popq c) in P; try exact I; inj E.
    + eapply prims_trans; [|apply pr_close_if_drained]. eapply ps_snoc; [|apply p_bufadd].
      eapply prims_trans; [|exact P]. pr.
    + eapply prims_trans; [|apply pr_close_if_drained]. eapply prims_trans; [|exact P]. pr.
Qed.
Lemma pr_check_mu : forall c m d v d', check_mu m d = (v, d') -> prims c d d'.
Proof.
  intros c m d v d' E. unfold check_mu, mu_init in E. repeat match type of E with context [if ?x then _ else _] => destruct x end; inj E; pr.
Qed.
Lemma pr_check_wg : forall c m d v d', check_wg m d = (v, d') -> prims c d d'.
Proof.
  intros c m d v d' E. unfold check_wg, wg_init in E. repeat match type of E with context [if ?x then _ else _] => destruct x end; inj E; pr.
Qed.
Lemma pr_check_cv : forall c m d v d', check_cv m d = (v, d') -> prims c d d'.
Proof.
  intros c m d v d' E. unfold check_cv, cv_init in E. repeat match type of E with context [if ?x then _ else _] => destruct x end; inj E; pr.
Qed.
Lemma pr_trylock : forall c m t dl nw d v d', mu_trylock c m t dl nw d = (v, d') -> prims c d d'.
Proof.
  intros c m t dl nw d v d' E. unfold mu_trylock in E.
  destruct (if t then _ else _) as [v1 d1] eqn:C.
  assert (P : prims c d d1) by (destruct t; [inj C; pr | eapply pr_checkdl; exact C]).
  destruct (negb _); [inj E; exact P|]. destruct (mlocked _); inj E; [exact P|]. pr.
Qed.
Lemma pr_tryrdlock : forall c m t dl nw d v d', mu_tryrdlock c m t dl nw d = (v, d') -> prims c d d'.
Proof.
  intros c m t dl nw d v d' E. unfold mu_tryrdlock in E.
  destruct (if t then _ else _) as [v1 d1] eqn:C.
  assert (P : prims c d d1) by (destruct t; [inj C; pr | eapply pr_checkdl; exact C]).
  destruct (negb _); [inj E; exact P|]. destruct (_ || _); inj E; [exact P|]. pr.
Qed.
Lemma pr_fastunlock : forall c m fs d d' fs' k, fastunlock m fs d = (d', fs', k) -> prims c d d'.
Proof.
  intros c m fs d d' fs' k E. unfold fastunlock in E. destruct (negb _); [inj E; pr|].
  destruct (0 <? mrl (mux d m)); cbn [andb] in E.
  - destruct (0 <? _); [inj E; pr|]. destruct (emptyq _ _); [inj E; pr|].
    apply (pr_yfsr c) in E. eapply prims_trans; [|exact E]. eapply prims_trans; [|apply pr_grant]. pr.
  - destruct (emptyq _ _); [inj E; pr|].
    apply (pr_yfsr c) in E. eapply prims_trans; [|exact E]. apply pr_grant.
Qed.

(** Follow a handler: split its conditionals, collect the pieces. *)
Ltac prh E :=
  match type of E with
  | copause _ _ _ ?x = _ => apply pr_copause in E; eapply prims_trans; [|exact E]; pr
  | yfsr _ ?x = _ => eapply pr_yfsr in E; eapply prims_trans; [|exact E]; pr
  | fastunlock _ _ ?x = _ => eapply pr_fastunlock in E; eapply prims_trans; [|exact E]; pr
  | (_, _, _) = (_, _, _) => inj E; pr
  | coyield _ _ = _ => unfold coyield in E; inj E; pr
  | (if ?x then _ else _) = _ => destruct x; prh E
  | context [checkdl ?a ?b ?c ?d] => let P := fresh "P" in destruct (checkdl a b c d) eqn:P; apply pr_checkdl in P;
       eapply prims_trans; [eapply prims_trans; [|exact P]; solve [pr]|]; clear P; prh E
  | context [check_mu ?a ?b] => let P := fresh "P" in destruct (check_mu a b) eqn:P; eapply pr_check_mu in P;
       eapply prims_trans; [eapply prims_trans; [|exact P]; solve [pr]|]; clear P; prh E
  | context [check_wg ?a ?b] => let P := fresh "P" in destruct (check_wg a b) eqn:P; eapply pr_check_wg in P;
       eapply prims_trans; [eapply prims_trans; [|exact P]; solve [pr]|]; clear P; prh E
  | context [check_cv ?a ?b] => let P := fresh "P" in destruct (check_cv a b) eqn:P; eapply pr_check_cv in P;
       eapply prims_trans; [eapply prims_trans; [|exact P]; solve [pr]|]; clear P; prh E
  | context [if ?x then _ else _] => destruct x; prh E
  end.

Lemma pr_do_send : forall c ch m dl d d' fs k, do_send c ch m dl d = (d', fs, k) -> prims c d d'.
Proof.
  intros c ch m dl d d' fs k E. unfold do_send in E.
  destruct (negb _); [prh E|]. destruct (sclosed _); [prh E|]. destruct (canceled _); [prh E|].
  destruct (send_loop _ _ _ _) as [[r|] d1] eqn:S; apply (pr_send_loop c) in S.
  - inj E. exact S.
  - eapply prims_trans; [exact S|]. clear S. prh E.
Qed.
Lemma pr_do_close : forall c ch d d' fs k, do_close ch d = (d', fs, k) -> prims c d d'.
Proof.
  intros c ch d d' fs k E. unfold do_close in E.
  destruct (negb _); [prh E|]. destruct (sclosed _); [prh E|]. destruct (_ || _); [prh E|].
  eapply pr_yfsr in E. eapply prims_trans; [|exact E]. eapply ps_snoc; [|apply p_rclosed2].
  eapply prims_trans; [|apply pr_close_loop]. pr.
Qed.
Lemma pr_coexit_rest : forall c a d d' fs k, coexit_rest c a d = (d', fs, k) -> prims c d d'.
Proof.
  intros c a d d' fs k E. unfold coexit_rest in E.
  match type of E with context [gen (cof ?x c)] => assert (P : prims c d x); [|set (dd := x) in *] end.
  { eapply prims_trans; [|apply pr_resume_all; exact I]. eapply prims_trans; [|apply pr_resume_all; exact I]. pr. }
  eapply prims_trans; [exact P|]. clear P.
  destruct (gen (cof dd c)).
  - destruct (do_close n dd) as [[d1 fs1] k1] eqn:C. inj E. eapply pr_do_close; exact C.
  - destruct (negb _); prh E.
Qed.
Lemma pr_coexit_async : forall c d d' fs k, coexit_async c d = (d', fs, k) -> prims c d d'.
Proof.
  intros c d d' fs k E. unfold coexit_async in E. destruct (cleanups (cof d c)) eqn:CL.
  - eapply pr_coexit_rest; exact E.
  - inj E. eapply ps_snoc; [apply ps_nil | eapply p_cleanpop; exact CL].
Qed.
Lemma pr_do_cancel : forall c id dl nw d d' fs k, do_cancel c id dl nw d = (d', fs, k) -> prims c d d'.
Proof. intros c id dl nw d d' fs k E. unfold do_cancel in E. destruct (negb _); prh E. Qed.
Lemma pr_cv_relock : forall c m ret nw d d' fs k, cv_relock c m ret nw d = (d', fs, k) -> prims c d d'.
Proof.
  intros c m ret nw d d' fs k E. unfold cv_relock in E. destruct (negb _); [prh E|].
  destruct (mu_trylock c m false MAXI nw d) as [v d1] eqn:T. apply pr_trylock in T.
  eapply prims_trans; [exact T|]. clear T. unfold finish_lock in E. prh E.
Qed.
Lemma pr_do_recv : forall c ch t dl d d' fs k, do_recv c ch t dl d = (d', fs, k) -> prims c d d'.
Proof.
  intros c ch t dl d d' fs k E. unfold do_recv in E.
  destruct (negb _); [prh E|]. destruct (rclosed _); [prh E|]. destruct (canceled _); [prh E|].
  destruct (take ch d) as [[[m [s|]] d1]|] eqn:T.
  - apply (pr_take c) in T. eapply prims_trans; [exact T|]. prh E.
  - apply (pr_take c) in T. eapply prims_trans; [exact T|]. prh E.
  - prh E.
Qed.
Lemma pr_do_select : forall c chs t dl d d' fs k, do_select c chs t dl d = (d', fs, k) -> prims c d d'.
Proof.
  intros c chs t dl d d' fs k E. unfold do_select in E.
  destruct (negb _); [prh E|]. destruct (canceled _); [prh E|].
  destruct (first_ready chs 0 d) as [[ch i]|].
  - destruct (rclosed _); [prh E|]. destruct (take ch d) as [[[m [s|]] d1]|] eqn:T.
    + apply (pr_take c) in T. eapply prims_trans; [exact T|]. prh E.
    + apply (pr_take c) in T. eapply prims_trans; [exact T|]. prh E.
    + prh E.
  - destruct t; [prh E|]. apply pr_copause in E. eapply prims_trans; [|exact E].
    eapply ps_snoc; [|apply p_nreceivers]. eapply prims_trans; [|apply pr_push_cases]. pr.
Qed.

Theorem hcall_prims : forall c o nw d d' fs k, hcall c o nw d = (d', fs, k) -> prims c d d'.
Proof.
  intros c o nw d d' fs k E. destruct o; cbn [hcall] in E; try (prh E; fail).
  - unfold do_sleep in E. prh E.
  - eapply pr_do_cancel; exact E.
  - unfold do_sigwatch in E. prh E.
  - unfold do_sigunwatch in E. prh E.
  - unfold do_sigwait in E. prh E.
  - unfold do_wait in E. prh E.
  - unfold do_chmake in E. destruct (_ || _); [prh E|]. destruct (new_chan cap d) as [ch d1] eqn:N.
    inj E. eapply ps_snoc; [|apply p_rbuf]. replace d1 with (snd (new_chan cap d)) by (rewrite N; reflexivity). pr.
  - eapply pr_do_send; exact E.
  - unfold do_bcast in E. destruct (negb _); [prh E|]. destruct (sclosed _); [prh E|].
    destruct (bcast_loop _ _ _ _ _) as [n d1] eqn:B. apply (pr_bcast_loop c) in B.
    eapply prims_trans; [exact B|]. prh E.
  - eapply pr_do_recv; exact E.
  - eapply pr_do_recv; exact E.
  - eapply pr_do_close; exact E.
  - eapply pr_do_select; exact E.
  - eapply pr_do_select; exact E.
  - unfold do_case in E. prh E.
  - unfold do_genyield in E. destruct (gen (cof d c)); [eapply pr_do_send; exact E | prh E].
  - unfold do_trylock in E. destruct (check_mu m d) as [v d1] eqn:C. apply (pr_check_mu c) in C.
    eapply prims_trans; [exact C|]. destruct (negb _); [prh E|].
    destruct (mu_trylock _ _ _ _ _ _) as [v2 d2] eqn:T. apply pr_trylock in T. inj E. exact T.
  - unfold do_trylock in E. destruct (check_mu m d) as [v d1] eqn:C. apply (pr_check_mu c) in C.
    eapply prims_trans; [exact C|]. destruct (negb _); [prh E|].
    destruct (mu_tryrdlock _ _ _ _ _ _) as [v2 d2] eqn:T. apply pr_tryrdlock in T. inj E. exact T.
  - unfold do_lock in E. destruct (check_mu m d) as [v d1] eqn:C. apply (pr_check_mu c) in C.
    eapply prims_trans; [exact C|]. clear C. destruct (negb _); [prh E|].
    destruct (mu_trylock _ _ _ _ _ _) as [v2 d2] eqn:T. apply pr_trylock in T.
    eapply prims_trans; [exact T|]. clear T. unfold finish_lock in E. prh E.
  - unfold do_lock in E. destruct (check_mu m d) as [v d1] eqn:C. apply (pr_check_mu c) in C.
    eapply prims_trans; [exact C|]. clear C. destruct (negb _); [prh E|].
    destruct (mu_tryrdlock _ _ _ _ _ _) as [v2 d2] eqn:T. apply pr_tryrdlock in T.
    eapply prims_trans; [exact T|]. clear T. unfold finish_lock in E. prh E.
  - unfold do_unlock in E. prh E.
  - unfold do_mudestroy in E. prh E.
  - unfold do_wgadd in E. prh E.
  - unfold do_wgdone in E. destruct (check_wg w d) as [v d1] eqn:C. apply (pr_check_wg c) in C.
    eapply prims_trans; [exact C|]. clear C. destruct (negb _); [prh E|].
    destruct (_ =? _); [prh E|].
    match type of E with context [q ?x (QWg w)] => assert (P : prims c d1 x) by pr; set (dd := x) in * end.
    eapply prims_trans; [exact P|]. clear P.
    destruct (negb _); [prh E|]. destruct (q dd (QWg w)) as [|n1 [|n2 l]] eqn:Q.
    + prh E.
    + inj E. apply (pr_pop c (QWg w) n1 [] dd I Q).
    + eapply pr_yfsr in E. eapply prims_trans; [|exact E]. apply pr_resume_all. exact I.
  - unfold do_wgwait in E. prh E.
  - unfold do_cvsignal in E. destruct (check_cv v d) as [e d1] eqn:C. apply (pr_check_cv c) in C.
    eapply prims_trans; [exact C|]. clear C. destruct (negb _); [prh E|].
    destruct (popq (QCv v) d1) as [[x|] d2] eqn:P; apply (pr_popq c) in P; try exact I; inj E; exact P.
  - unfold do_cvbcast in E. destruct (check_cv v d) as [e d1] eqn:C. apply (pr_check_cv c) in C.
    eapply prims_trans; [exact C|]. clear C. destruct (negb _); [prh E|].
    eapply pr_yfsr in E. eapply prims_trans; [|exact E]. apply pr_resume_all. exact I.
  - unfold do_cvwait in E. prh E.
  - unfold do_join in E. prh E.
  - unfold do_suspend in E. prh E.
  - unfold do_resume in E. prh E.
  - unfold do_work, work_submit in E. prh E.
  - unfold do_cleanup_pop in E. destruct (cleanups (cof d c)) as [|h r] eqn:CL; [prh E|].
    destruct exec; inj E; (eapply ps_snoc; [apply ps_nil | eapply p_cleanpop; exact CL]).
  - eapply pr_coexit_async; exact E.
Qed.

Theorem hret_prims : forall c f v b nw d d' fs k, hret c f v b nw d = (d', fs, k) -> prims c d d'.
Proof.
  intros c f v b nw d d' fs k E. destruct f; cbn [hret] in E; try (prh E; fail).
  - eapply pr_coexit_rest; exact E.
  - destruct (_ && _); [eapply pr_coexit_async; exact E | prh E].
  - destruct (_ && _); [eapply pr_coexit_async; exact E | prh E].
  - inj E. apply pr_pause_end.
  - unfold sleep_end in E. prh E.
  - apply pr_do_cancel in E. eapply prims_trans; [|exact E]. pr.
  - unfold sigwait_end in E. prh E.
  - unfold wait_end in E. prh E.
  - unfold send_end in E. prh E.
  - unfold recv_end in E. prh E.
  - unfold select_end in E. destruct (checkdl c MAXI nw _) as [v1 d1] eqn:C. inj E. apply pr_checkdl in C.
    eapply prims_trans; [|exact C]. eapply prims_trans; [|apply pr_rm_cases]. pr.
  - unfold lock_end in E. prh E.
  - unfold wgwait_end in E. prh E.
  - unfold cvwait_unlocked in E. prh E.
  - unfold cvwait_end in E. destruct (checkdl c MAXI nw _) as [v1 d1] eqn:C. apply pr_checkdl in C.
    apply pr_cv_relock in E. eapply prims_trans; [|exact E]. eapply prims_trans; [|exact C]. pr.
  - destruct (_ =? _); [prh E|]. destruct (_ && _); [eapply pr_coexit_async; exact E | eapply pr_cv_relock; exact E].
  - unfold join_end in E. prh E.
  - unfold suspend_end in E. prh E.
  - unfold work_submit in E. prh E.
  - eapply pr_coexit_async; exact E.
  - unfold exit_gen in E. prh E.
Qed.

(** ** The scheduler loop *)
Inductive mprim : dat -> dat -> Prop :=
| m_res d : mprim d (set_q (qupd (q d) QRes []) d)
| m_io d : mprim d (set_q (qupd (q d) QIo []) d)
| m_nres v d : mprim d (set_nresumers v d)
| m_armed v d : mprim d (set_armed v d)
| m_deadlined c d : mprim d (upco c (set_deadlined true) d)
| m_sigmask c n d : mprim d (upco c (set_sigmask n) d)
| m_sigq v d : mprim d (set_sigq v d)
| m_sigm v d : mprim d (set_sigm v d)
| m_poolts c v d : mprim d (upco c (set_pool_ts v) d)
| m_pool a l f d : f = q d -> f QPool = a ++ l -> mprim d (set_q (qupd f QPool l) d)
| m_npool v d : mprim d (set_npool v d).
Inductive mprims (d : dat) : dat -> Prop :=
| ms_nil : mprims d d
| ms_snoc d1 d2 : mprims d d1 -> mprim d1 d2 -> mprims d d2.
Lemma mprims_trans : forall d d1 d2, mprims d d1 -> mprims d1 d2 -> mprims d d2.
Proof. intros d d1 d2 A B. induction B; [exact A|]. eapply ms_snoc; eassumption. Qed.
Lemma mprims_ind_pres : forall (P : dat -> Prop),
  (forall d d', mprim d d' -> P d -> P d') -> forall d d', mprims d d' -> P d -> P d'.
Proof. intros P H d d' S. induction S; intros A; [exact A|]. eapply H; eauto. Qed.
Lemma mprims_const : forall (A : Type) (f : dat -> A),
  (forall d d', mprim d d' -> f d' = f d) -> forall d d', mprims d d' -> f d' = f d.
Proof. intros A f H d d' S. induction S; [reflexivity|]. rewrite (H _ _ H0). exact IHS. Qed.
Ltac mpeel := first [ apply ms_nil | assumption | eapply ms_snoc; [| solve [constructor; cbn; auto; fail] ] ].
Ltac mpr := repeat mpeel.

Lemma mp_event_step1 : forall io d d' w, event_step1 d io = (d', w) -> mprims d d'.
Proof.
  intros [[fd r] w0] d d' w E. unfold event_step1 in E. destruct (armed d fd). destruct (_ || _); inj E; mpr.
Qed.
Lemma mp_event_step : forall ios d d' w, event_step d ios = (d', w) -> mprims d d'.
Proof.
  induction ios as [|io ios IH]; intros d d' w E; cbn in E; [inj E; mpr|].
  destruct (event_step1 d io) as [d1 w1] eqn:E1. destruct (event_step d1 ios) as [d2 w2] eqn:E2. inj E.
  eapply mprims_trans; [eapply mp_event_step1; exact E1 | eapply IH; exact E2].
Qed.
Lemma mp_signal_step : forall d d' w k, signal_step d = (d', w, k) -> mprims d d'.
Proof.
  intros d d' w k E. unfold signal_step, dec_sigq in E. destruct (find _ signos) as [n|]; [|inj E; mpr].
  destruct (sigw d n =? 0).
  - destruct (_ =? 0); inj E; mpr.
  - destruct (find _ (q d QSig)); [|inj E; mpr]. destruct (_ =? 0); inj E; mpr.
Qed.
Lemma mp_dl_step : forall l nw d d' w, dl_step l nw d = (d', w) -> mprims d d'.
Proof.
  induction l as [|[dl c] l IH]; intros nw d d' w E; cbn in E; [inj E; mpr|].
  destruct (_ <? _); [|inj E; mpr].
  destruct (dl_step l nw _) as [d1 w1] eqn:D. inj E. eapply mprims_trans; [|eapply IH; exact D]. mpr.
Qed.
Lemma mp_paused_step : forall nw ios d d' w k, paused_step nw ios d = (d', w, k) -> mprims d d'.
Proof.
  intros nw ios d d' w k E. unfold paused_step in E.
  set (d1 := set_nresumers _ _) in E.
  assert (P1 : mprims d d1) by (unfold d1; mpr).
  set (d2 := if 0 <? niow d1 then set_q _ d1 else d1) in E.
  assert (P2 : mprims d d2) by (unfold d2; destruct (0 <? niow d1); mpr).
  destruct (if 0 <? nevs d2 then _ else _) as [d3 w3] eqn:E3.
  assert (P3 : mprims d d3).
  { destruct (0 <? nevs d2); [|inj E3; exact P2]. eapply mprims_trans; [exact P2 | eapply mp_event_step; exact E3]. }
  destruct (if negb (sigm d3 =? 0) then _ else _) as [[d4 w4] kill] eqn:E4.
  assert (P4 : mprims d d4).
  { destruct (negb _); [|inj E4; exact P3]. eapply mprims_trans; [exact P3 | eapply mp_signal_step; exact E4]. }
  destruct (dl_step (dls d4) nw d4) as [d5 w5] eqn:E5. inj E.
  eapply mprims_trans; [exact P4 | eapply mp_dl_step; exact E5].
Qed.
Lemma mp_stamp : forall l nw d, mprims d (stamp l nw d).
Proof.
  induction l as [|n l IH]; intros nw d; cbn; [mpr|]. destruct (_ =? _); [|mpr].
  eapply mprims_trans; [|apply IH]. mpr.
Qed.
Lemma drop_old_suffix : forall l nw d, exists a, l = a ++ drop_old l nw d.
Proof.
  induction l as [|n l IH]; intros nw d; [exists []; reflexivity|]. cbn.
  destruct (_ <? _); [exists []; reflexivity|]. destruct (IH nw d) as (a & E).
  exists (n :: a). cbn. rewrite <- E. reflexivity.
Qed.
Lemma stamp_q : forall l nw d, q (stamp l nw d) = q d.
Proof. induction l as [|n l IH]; intros nw d; cbn; [reflexivity|]. destruct (_ =? _); [rewrite IH|]; reflexivity. Qed.
Lemma mp_rc_step : forall nw d, mprims d (rc_step nw d).
Proof.
  intros nw d. unfold rc_step. destruct (0 <? npool d); [|mpr].
  eapply ms_snoc; [|apply m_npool].
  eapply ms_snoc; [apply mp_stamp|].
  destruct (drop_old_suffix (q (stamp (rev (q d QPool)) nw d) QPool) nw (stamp (rev (q d QPool)) nw d)) as (a & E).
  eapply m_pool; [reflexivity | exact E].
Qed.
(** a whole turn of the loop *)
Lemma mp_main : forall (b : bool) nw ios d d' w k,
  (if b then paused_step nw ios d else (d, [], None)) = (d', w, k) -> mprims d (rc_step nw d').
Proof.
  intros b nw ios d d' w k E. eapply mprims_trans; [|apply mp_rc_step].
  destruct b; [eapply mp_paused_step; exact E | inj E; mpr].
Qed.
