(** What a step does to the bookkeeping that is not a wait queue: the blocked
    counters, the event set, the deadline set and the suspended mark. *)
From Coq Require Import List ZArith Bool Lia.
From Verif Require Import AATreeSpec AATreeHist Util Runtime SchedInv StepInv StackShape.
Import ListNotations.
Local Open Scope Z_scope.

(** everything the wake-up loops leave alone *)
Definition own (d : dat) :=
  (dls d, ndls d, evs d, nevs d, (nsleepers d, nlocked d, nreceivers d, nsenders d, nwgs d),
   (ncvs d, nsusp d, nsigs d, niow d), (inflight d, all d, allcount d, armed d),
   (sigw d, sigq d, sigm d, rtid d)).
Definition keep (r : corec) :=
  (deadline r, deadlined r, suspended r, canceled r, (casync r, cenabled r, cleanups r, gen r),
   (sigwatch r, sigmask r, evfd r, evkind r), (rlocked r, smsg r, lastid r, starterid r)).
Record same (d d' : dat) : Prop := mksame {
  sm_own : own d' = own d;
  sm_keep : forall x, keep (cof d' x) = keep (cof d x)
}.
Lemma same_refl : forall d, same d d.
Proof. intro d. split; reflexivity. Qed.
Lemma same_trans : forall a b c, same a b -> same b c -> same a c.
Proof. intros a b c [A1 A2] [B1 B2]. split; [congruence | intro x; congruence]. Qed.
Lemma same_q : forall k v d, same d (set_q (qupd (q d) k v) d).
Proof. intros. split; reflexivity. Qed.
Lemma same_upco : forall c f d, (forall r, keep (f r) = keep r) -> same d (upco c f d).
Proof.
  intros c f d H. split; [reflexivity|]. intro x. cbn. unfold zupd. destruct (_ =? _) eqn:E; [|reflexivity].
  apply Z.eqb_eq in E. subst. apply H.
Qed.
Lemma same_popq : forall k d n d', popq k d = (n, d') -> same d d'.
Proof. intros k d n d' E. unfold popq in E. destruct (q d k); inj E; [apply same_refl|apply same_q]. Qed.
Lemma same_sched : forall c d, same d (sched_resume c d).
Proof. intros. split; reflexivity. Qed.
Lemma same_deliver : forall ch m n d r d', deliver ch m n d = Some (r, d') -> same d d'.
Proof.
  intros ch m n d r d' E. destruct n; cbn [deliver] in E.
  - injection E as <- <-. apply same_upco. reflexivity.
  - destruct (negb _); [discriminate|]. injection E as <- <-.
    eapply same_trans; [apply (same_upco c (set_retidx i)); reflexivity|]. split; reflexivity.
Qed.
Lemma same_send_loop : forall ch m n d r d', send_loop ch m n d = (r, d') -> same d d'.
Proof.
  intros ch m n; induction n as [|n IH]; intros d r d' E; cbn [send_loop] in E; [inj E; apply same_refl|].
  destruct (popq (QChan ch) d) as [[x|] d1] eqn:P; apply same_popq in P; [|inj E; exact P].
  destruct (deliver ch m x d1) as [[r1 d2]|] eqn:D.
  - apply same_deliver in D. inj E. eapply same_trans; eauto.
  - apply IH in E. eapply same_trans; eauto.
Qed.
Lemma same_bcast_loop : forall ch m n sent d r d', bcast_loop ch m n sent d = (r, d') -> same d d'.
Proof.
  intros ch m n; induction n as [|n IH]; intros sent d r d' E; cbn [bcast_loop] in E; [inj E; apply same_refl|].
  destruct (popq (QChan ch) d) as [[x|] d1] eqn:P; apply same_popq in P; [|inj E; exact P].
  destruct (deliver ch m x d1) as [[r1 d2]|] eqn:D.
  - apply same_deliver in D. apply IH in E. eapply same_trans; [exact P|]. eapply same_trans; [exact D|].
    eapply same_trans; [apply (same_sched r1)|exact E].
  - apply IH in E. eapply same_trans; eauto.
Qed.
Lemma same_close_loop : forall ch n d, same d (close_loop ch n d).
Proof.
  intros ch n; induction n as [|n IH]; intro d; cbn [close_loop]; [apply same_refl|].
  destruct (popq (QChan ch) d) as [[[r|r i]|] d1] eqn:P; apply same_popq in P; [| |exact P].
  - eapply same_trans; [exact P|]. eapply same_trans; [|apply IH].
    eapply same_trans; [apply (same_upco r (set_cclosed true)); reflexivity|]. apply same_sched.
  - destruct (negb _); [eapply same_trans; [exact P|apply IH]|].
    eapply same_trans; [exact P|]. eapply same_trans; [|apply IH].
    eapply same_trans; [apply (same_upco r (fun x => set_cclosed true (set_retidx i x))); reflexivity|].
    eapply same_trans; [|apply same_sched]. split; reflexivity.
Qed.
Lemma same_drained : forall ch d, same d (close_if_drained ch d).
Proof. intros. unfold close_if_drained. destruct (_ && _); [split; reflexivity|apply same_refl]. Qed.
Lemma same_take : forall ch d m s d', take ch d = Some (m, s, d') -> same d d'.
Proof.
  intros ch d m s d' E. unfold take in E. destruct (buf (chn d ch)).
  - destruct (qrecv _); [discriminate|]. destruct (popq _ d) as [[x|] d1] eqn:P; [|discriminate].
    apply same_popq in P. injection E as <- <- <-. eapply same_trans; [exact P|apply same_drained].
  - destruct (popq _ _) as [[x|] d1] eqn:P; apply same_popq in P; injection E as <- <- <-;
      (eapply same_trans; [|apply same_drained]).
    + eapply same_trans; [|eapply same_trans; [exact P|]]; split; reflexivity.
    + eapply same_trans; [|exact P]; split; reflexivity.
Qed.
Lemma same_grant : forall m n d, same d (grant m n d).
Proof.
  intros m n; induction n as [|n IH]; intro d; cbn [grant]; [apply same_refl|].
  destruct (popq (QMu m) d) as [[x|] d1] eqn:P; apply same_popq in P; [|exact P].
  eapply same_trans; [exact P|]. eapply same_trans; [apply (same_sched (node_co x))|].
  destruct (rlocked _); [|apply same_refl].
  match goal with |- same ?a (match q ?b _ with _ => _ end) => assert (X : same a b) by (split; reflexivity) end.
  destruct (q _ (QMu m)); [exact X|]. destruct (rlocked _); [|exact X]. eapply same_trans; [exact X|apply IH].
Qed.
Lemma same_resume_all : forall k n d, same d (resume_all k n d).
Proof.
  intros k n; induction n as [|n IH]; intro d; cbn [resume_all]; [apply same_refl|].
  destruct (popq k d) as [[x|] d1] eqn:P; apply same_popq in P; [|exact P].
  eapply same_trans; [exact P|]. eapply same_trans; [apply (same_sched (node_co x))|apply IH].
Qed.
Lemma same_push_cases : forall c chs i d, same d (push_cases c chs i d).
Proof.
  intros c chs; induction chs as [|ch chs IH]; intros i d; cbn [push_cases]; [apply same_refl|].
  eapply same_trans; [|apply IH]. split; reflexivity.
Qed.
Lemma same_rm_cases : forall c n d, same d (rm_cases c n d).
Proof.
  intros c n; induction n as [|n IH]; intro d; cbn [rm_cases]; [apply same_refl|].
  eapply same_trans; [|apply IH]. split; reflexivity.
Qed.
Lemma same_check_mu : forall m d v d', check_mu m d = (v, d') -> same d d'.
Proof. intros m d v d' E. unfold check_mu in E. destruct (_ =? 0) in E; [inj E; split; reflexivity|]; destruct (negb _) in E; inj E; apply same_refl. Qed.
Lemma same_check_wg : forall m d v d', check_wg m d = (v, d') -> same d d'.
Proof. intros m d v d' E. unfold check_wg in E. destruct (_ =? 0) in E; [inj E; split; reflexivity|]; destruct (negb _) in E; inj E; apply same_refl. Qed.
Lemma same_check_cv : forall m d v d', check_cv m d = (v, d') -> same d d'.
Proof. intros m d v d' E. unfold check_cv in E. destruct (_ =? 0) in E; [inj E; split; reflexivity|]; destruct (negb _) in E; inj E; apply same_refl. Qed.
Lemma same_new_chan : forall cap d n d', new_chan cap d = (n, d') -> same d d'.
Proof. intros cap d n d' E. unfold new_chan in E. inj E. split; reflexivity. Qed.

(** ** Splitting a handler into its straight-line paths *)
(** checkdl: what it leaves *)
Lemma checkdl_cases : forall c dl nw d v d', checkdl c dl nw d = (v, d') ->
  (d' = d /\ v = OK /\ canceled (cof d c) = false /\ deadlined (cof d c) = false) \/
  d' = upco c (fun r => set_deadlined false (set_canceled false r)) d.
Proof.
  intros c dl nw d v d' E. unfold checkdl in E.
  destruct (canceled (cof d c)) eqn:C; destruct (deadlined (cof d c)) eqn:D; cbn in E;
    try (inj E; right; reflexivity).
  destruct (dl =? MAXI); inj E; [left; auto | right; reflexivity].
Qed.


(** the bookkeeping proper *)
Definition hard (d : dat) :=
  (dls d, ndls d, evs d, nevs d, (nsleepers d, nlocked d, nreceivers d, nsenders d, nwgs d),
   (ncvs d, nsusp d, nsigs d, niow d), inflight d).
Definition hardc (r : corec) := (deadline r, suspended r, evfd r, evkind r).
(** [quiet c d d']: coroutine [c] changed none of it; it may have cleared its own
    expiry mark *)
Record quiet (c : Z) (d d' : dat) : Prop := mkquiet {
  qt_hard : hard d' = hard d;
  qt_co : forall x, hardc (cof d' x) = hardc (cof d x);
  qt_dl : forall x, deadlined (cof d' x) = deadlined (cof d x) \/ (x = c /\ deadlined (cof d' x) = false)
}.
Lemma quiet_refl : forall c d, quiet c d d.
Proof. intros. split; auto. Qed.
Lemma quiet_trans : forall c a b d, quiet c a b -> quiet c b d -> quiet c a d.
Proof.
  intros c a b d [A1 A2 A3] [B1 B2 B3]. split; [congruence | intro x; congruence |].
  intro x. destruct (B3 x) as [E|[E1 E2]]; [|auto]. destruct (A3 x) as [F|[F1 F2]]; [left; congruence|].
  right. split; [exact F1|congruence].
Qed.
Lemma quiet_same : forall c d d', same d d' -> quiet c d d'.
Proof.
  intros c d d' [A B]. unfold own in A. split.
  - unfold hard. injection A; intros. congruence.
  - intro x. specialize (B x). unfold keep in B. unfold hardc. injection B; intros. congruence.
  - intro x. left. specialize (B x). unfold keep in B. injection B; intros. congruence.
Qed.
Lemma quiet_upco : forall c y f d d1, quiet c d d1 ->
  (forall r, hardc (f r) = hardc r) -> (forall r, deadlined (f r) = deadlined r) -> quiet c d (upco y f d1).
Proof.
  intros c y f d d1 Q H1 H2. eapply quiet_trans; [exact Q|]. split; [reflexivity| |].
  - intro x. cbn. unfold zupd. destruct (_ =? _) eqn:E; [|reflexivity]. apply Z.eqb_eq in E. subst. apply H1.
  - intro x. left. cbn. unfold zupd. destruct (_ =? _) eqn:E; [|reflexivity]. apply Z.eqb_eq in E. subst. apply H2.
Qed.
Lemma quiet_clear : forall c d d1, quiet c d d1 ->
  quiet c d (upco c (fun r => set_deadlined false (set_canceled false r)) d1).
Proof.
  intros c d d1 Q. eapply quiet_trans; [exact Q|]. split; [reflexivity| |].
  - intro x. cbn. unfold zupd. destruct (_ =? _) eqn:E; [|reflexivity]. apply Z.eqb_eq in E. subst. reflexivity.
  - intro x. cbn. unfold zupd. destruct (_ =? _) eqn:E; [|auto]. apply Z.eqb_eq in E. subst. right. auto.
Qed.
Lemma quiet_dat : forall c d d1 d2, quiet c d d1 -> hard d2 = hard d1 -> cof d2 = cof d1 -> quiet c d d2.
Proof.
  intros c d d1 d2 Q H1 H2. eapply quiet_trans; [exact Q|]. split; [exact H1 | intro; rewrite H2; reflexivity | intro; rewrite H2; auto].
Qed.
Lemma quiet_checkdl : forall c dl nw d v d', checkdl c dl nw d = (v, d') -> quiet c d d'.
Proof.
  intros c dl nw d v d' E. apply checkdl_cases in E. destruct E as [[-> _] | ->]; [apply quiet_refl|].
  apply quiet_clear, quiet_refl.
Qed.
Lemma quiet_then : forall c d d1 d2, quiet c d d1 -> same d1 d2 -> quiet c d d2.
Proof. intros c d d1 d2 Q S. eapply quiet_trans; [exact Q|apply quiet_same; exact S]. Qed.

(** solve [quiet c d X] for a nest of harmless updates *)
Ltac qt :=
  match goal with
  | |- quiet _ ?a ?a => apply quiet_refl
  | H : quiet ?c ?a ?b |- quiet ?c ?a ?b => exact H
  | |- quiet ?c ?d (upco ?c (fun r => set_deadlined false (set_canceled false r)) ?e) => apply quiet_clear; qt
  | |- quiet ?c ?d (upco ?y ?f ?e) => apply (quiet_upco c y f d e); [qt | reflexivity | reflexivity]
  | |- quiet ?c ?d (sched_resume ?y ?e) => apply (quiet_then c d e); [qt | apply same_sched]
  | |- quiet ?c ?d (resume_all ?k ?n ?e) => apply (quiet_then c d e); [qt | apply same_resume_all]
  | |- quiet ?c ?d (close_loop ?k ?n ?e) => apply (quiet_then c d e); [qt | apply same_close_loop]
  | |- quiet ?c ?d (grant ?k ?n ?e) => apply (quiet_then c d e); [qt | apply same_grant]
  | |- quiet ?c ?d (push_cases ?a ?b ?n ?e) => apply (quiet_then c d e); [qt | apply same_push_cases]
  | |- quiet ?c ?d (rm_cases ?a ?b ?e) => apply (quiet_then c d e); [qt | apply same_rm_cases]
  | |- quiet ?c ?d (close_if_drained ?a ?e) => apply (quiet_then c d e); [qt | apply same_drained]
  | |- quiet ?c ?d (pushq ?a ?b ?e) => apply (quiet_dat c d e); [qt | reflexivity | reflexivity]
  | |- quiet ?c ?d (rmq ?b ?e) => apply (quiet_dat c d e); [qt | reflexivity | reflexivity]
  | |- quiet ?c ?d (upch ?a ?b ?e) => apply (quiet_dat c d e); [qt | reflexivity | reflexivity]
  | |- quiet ?c ?d (upmu ?a ?b ?e) => apply (quiet_dat c d e); [qt | reflexivity | reflexivity]
  | |- quiet ?c ?d (upwg ?a ?b ?e) => apply (quiet_dat c d e); [qt | reflexivity | reflexivity]
  | |- quiet ?c ?d (mu_init ?a ?e) => apply (quiet_dat c d e); [qt | reflexivity | reflexivity]
  | |- quiet ?c ?d (wg_init ?a ?e) => apply (quiet_dat c d e); [qt | reflexivity | reflexivity]
  | |- quiet ?c ?d (cv_init ?a ?e) => apply (quiet_dat c d e); [qt | reflexivity | reflexivity]
  | |- quiet ?c ?d (set_q _ ?e) => apply (quiet_dat c d e); [qt | reflexivity | reflexivity]
  | |- quiet ?c ?d (set_mux _ ?e) => apply (quiet_dat c d e); [qt | reflexivity | reflexivity]
  | |- quiet ?c ?d (set_wgx _ ?e) => apply (quiet_dat c d e); [qt | reflexivity | reflexivity]
  | |- quiet ?c ?d (set_cvx _ ?e) => apply (quiet_dat c d e); [qt | reflexivity | reflexivity]
  | |- quiet ?c ?d (set_sigw _ ?e) => apply (quiet_dat c d e); [qt | reflexivity | reflexivity]
  | |- quiet ?c ?d (set_armed _ ?e) => apply (quiet_dat c d e); [qt | reflexivity | reflexivity]
  | |- quiet ?c ?d (set_all _ ?e) => apply (quiet_dat c d e); [qt | reflexivity | reflexivity]
  | |- quiet ?c ?d (set_allcount _ ?e) => apply (quiet_dat c d e); [qt | reflexivity | reflexivity]
  | |- quiet ?c ?d (set_npool _ ?e) => apply (quiet_dat c d e); [qt | reflexivity | reflexivity]
  | |- quiet ?c ?d (if ?x then _ else _) => destruct x; qt
  | S : same ?e ?g |- quiet ?c ?d ?g => apply (quiet_then c d e); [qt | exact S]
  | S : quiet ?c ?e ?g |- quiet ?c ?d ?g => apply (quiet_trans c d e); [qt | exact S]
  end.

(** ** Entering and leaving a wait *)
Definition enter (c : Z) (f : frame) (d : dat) : dat :=
  match f with
  | FSleep => set_nsleepers (nsleepers d + 1) d
  | FSigWait => set_nsigs (nsigs d + 1) d
  | FEvWait fd kind =>
      let d := upco c (fun r => set_evkind kind (set_evfd fd r)) d in
      let d := set_evs (set_add evcompare (fd, kind, c) (evs d)) d in
      set_nevs (nevs d + 1) d
  | FSendWait _ => set_nsenders (nsenders d + 1) d
  | FRecvWait _ | FSelWait _ => set_nreceivers (nreceivers d + 1) d
  | FLock _ => set_nlocked (nlocked d + 1) d
  | FWgWait _ => set_nwgs (nwgs d + 1) d
  | FCvWait _ _ => set_ncvs (ncvs d + 1) d
  | FSuspend => let d := upco c (set_suspended true) d in set_nsusp (nsusp d + 1) d
  | FWork | FWorkRetry => set_niow (niow d + 1) d
  | _ => d
  end.
Definition lv (c : Z) (f : frame) (d : dat) : dat :=
  match f with
  | FPause => pause_end c d
  | FSleep => set_nsleepers (nsleepers d - 1) d
  | FSigWait => set_nsigs (nsigs d - 1) d
  | FEvWait _ _ =>
      let r := cof d c in
      let d := set_evs (set_del evcompare (evfd r, evkind r, c) (evs d)) d in
      let d := set_nevs (nevs d - 1) d in
      upco c (fun r => set_evkind 0 (set_evfd 0 r)) d
  | FSendWait _ => set_nsenders (nsenders d - 1) d
  | FRecvWait _ | FSelWait _ => set_nreceivers (nreceivers d - 1) d
  | FLock _ => set_nlocked (nlocked d - 1) d
  | FWgWait _ => set_nwgs (nwgs d - 1) d
  | FCvWait _ _ => set_ncvs (ncvs d - 1) d
  | FSuspend => let d := set_nsusp (nsusp d - 1) d in upco c (set_suspended false) d
  | FWork | FWorkRetry => set_niow (niow d - 1) d
  | _ => d
  end.
(** frames in which a coroutine waits under copause *)
Definition waitf (f : frame) : bool :=
  match f with
  | FSleep | FSigWait | FEvWait _ _ | FSendWait _ | FRecvWait _ | FSelWait _ | FLock _ | FWgWait _
  | FCvWait _ _ | FSuspend | FJoin _ | FCancelWait _ _ => true
  | _ => false
  end.
Definition plain (f : frame) : bool :=
  negb (waitf f) && match f with FPause | FWork | FWorkRetry => false | _ => true end.
Definition nowait (fs : list frame) : Prop := forall f, In f fs -> plain f = true.

(** the outcome of a handler from bookkeeping [d]; [W f rest dl]: a wait
    in frame [f] on [rest] with deadline [dl] *)
Inductive outc (c : Z) (W : frame -> list frame -> Z -> Prop) (d d' : dat) (fs : list frame) (k : ctl) : Prop :=
| oc_plain : quiet c d d' -> nowait fs -> k <> CPause -> outc c W d d' fs k
| oc_wait f rest dl d1 : quiet c d d1 -> waitf f = true -> nowait rest -> W f rest dl ->
    copause c dl (f :: rest) (enter c f d1) = (d', fs, k) -> outc c W d d' fs k
| oc_work : d' = set_inflight (inflight d ++ [c]) (enter c FWork d) -> fs = [FWork] -> k = CPause -> outc c W d d' fs k
| oc_retry : d' = enter c FWorkRetry d -> fs = [FWorkRetry] -> k = CYield -> outc c W d d' fs k.

Lemma outc_quiet : forall c W d d1 d' fs k, quiet c d d1 ->
  (forall f, In f fs -> f <> FWork /\ f <> FWorkRetry) -> outc c W d1 d' fs k -> outc c W d d' fs k.
Proof.
  intros c W d d1 d' fs k Q NW [Q2 N K|f rest dl d2 Q2 WF N WD E|E1 E2 E3|E1 E2 E3].
  - apply oc_plain; auto. eapply quiet_trans; eauto.
  - eapply oc_wait; [eapply quiet_trans; [exact Q|exact Q2] | exact WF | exact N | exact WD | exact E].
  - subst fs. destruct (NW FWork); [left; reflexivity|congruence].
  - subst fs. destruct (NW FWorkRetry); [left; reflexivity|congruence].
Qed.
Lemma nowait_nil : nowait [].
Proof. intros f []. Qed.
Lemma nowait_cons : forall f fs, plain f = true -> nowait fs -> nowait (f :: fs).
Proof. intros f fs H N g [<-|I]; auto. Qed.
Ltac nwt := repeat first [apply nowait_nil | apply nowait_cons; [reflexivity|] | assumption].

Lemma yfsr_out : forall (W : frame -> list frame -> Z -> Prop) c fs d d' fs' k d0, yfsr fs d = (d', fs', k) -> quiet c d0 d -> nowait fs -> outc c W d0 d' fs' k.
Proof.
  intros W c fs d d' fs' k d0 E Q N. unfold yfsr, coyield in E. destruct (_ <? _); inj E;
    (apply oc_plain; [exact Q | nwt | discriminate]).
Qed.
Lemma fastunlock_out : forall (W : frame -> list frame -> Z -> Prop) c m fs d d' fs' k d0, fastunlock m fs d = (d', fs', k) -> quiet c d0 d -> nowait fs ->
  outc c W d0 d' fs' k.
Proof.
  intros W c m fs d d' fs' k d0 E Q N. unfold fastunlock in E. cbv zeta in E.
  destruct (negb _); [inj E; apply oc_plain; [exact Q | nwt | discriminate]|].
  match type of E with context [emptyq _ ?x] => assert (Q1 : quiet c d0 x) by qt; set (d1 := x) in * end.
  destruct (_ && _); [inj E; apply oc_plain; [exact Q1 | nwt | discriminate]|].
  destruct (emptyq _ _); [inj E; apply oc_plain; [qt | nwt | discriminate]|].
  eapply yfsr_out; [exact E | qt | nwt].
Qed.

(** follow a handler *)
Ltac oh d0 E :=
  match type of E with
  | (_, _, _) = (_, _, _) => inj E; apply oc_plain; [qt | nwt | discriminate]
  | coyield _ _ = _ => unfold coyield in E; oh d0 E
  | yfsr _ _ = _ => eapply yfsr_out; [exact E | qt | nwt]
  | fastunlock _ _ _ = _ => eapply fastunlock_out; [exact E | qt | nwt]
  | copause ?c ?dl (?f :: ?fs) ?x = _ => eapply (oc_wait c _ d0 _ _ _ f fs dl); [ | reflexivity | nwt | first [assumption | solve [auto] | solve [repeat split; reflexivity]] | exact E ]; qt
  | (if ?x then _ else _) = _ => destruct x; oh d0 E
  | context [match checkdl ?a ?b ?c ?d with _ => _ end] => let P := fresh "CK" in let v := fresh "v" in let dd := fresh "d" in
       destruct (checkdl a b c d) as [v dd] eqn:P; apply quiet_checkdl in P; oh d0 E
  | context [match check_mu ?a ?b with _ => _ end] => let P := fresh "SM" in let v := fresh "v" in let dd := fresh "d" in
       destruct (check_mu a b) as [v dd] eqn:P; apply same_check_mu in P; oh d0 E
  | context [match check_wg ?a ?b with _ => _ end] => let P := fresh "SM" in let v := fresh "v" in let dd := fresh "d" in
       destruct (check_wg a b) as [v dd] eqn:P; apply same_check_wg in P; oh d0 E
  | context [match check_cv ?a ?b with _ => _ end] => let P := fresh "SM" in let v := fresh "v" in let dd := fresh "d" in
       destruct (check_cv a b) as [v dd] eqn:P; apply same_check_cv in P; oh d0 E
  | context [if ?x then _ else _] => destruct x; oh d0 E
  end.
Lemma do_send_out : forall (W : frame -> list frame -> Z -> Prop) c ch m dl d d' fs k, W (FSendWait ch) [] dl -> do_send c ch m dl d = (d', fs, k) -> outc c W d d' fs k.
Proof.
  intros W c ch m dl d d' fs k WW E. unfold do_send in E.
  destruct (negb _); [oh d E|]. destruct (sclosed _); [oh d E|]. destruct (canceled _); [oh d E|].
  destruct (send_loop _ _ _ _) as [[r|] d1] eqn:P; apply same_send_loop in P; [oh d E|].
  destruct (_ <? _); [oh d E|]. cbv zeta in E.
  eapply (oc_wait c _ d _ _ _ (FSendWait ch) [] dl); [|reflexivity|nwt|exact WW|exact E]. qt.
Qed.
Lemma do_recv_out : forall (W : frame -> list frame -> Z -> Prop) c ch t dl d d' fs k, W (FRecvWait ch) [] dl -> do_recv c ch t dl d = (d', fs, k) -> outc c W d d' fs k.
Proof.
  intros W c ch t dl d d' fs k WW E. unfold do_recv in E.
  destruct (negb _); [oh d E|]. destruct (rclosed _); [oh d E|]. destruct (canceled _); [oh d E|].
  destruct (take ch d) as [[[m [s|]] d1]|] eqn:P; [apply same_take in P; oh d E|apply same_take in P; oh d E|].
  destruct t; [oh d E|]. cbv zeta in E. oh d E.
Qed.
Lemma do_close_out : forall (W : frame -> list frame -> Z -> Prop) c ch d d' fs k d0, do_close ch d = (d', fs, k) -> quiet c d0 d -> outc c W d0 d' fs k.
Proof.
  intros W c ch d d' fs k d0 E Q. unfold do_close in E. cbv zeta in E.
  destruct (negb _); [oh d0 E|]. destruct (sclosed _); [oh d0 E|]. destruct (_ || _); oh d0 E.
Qed.
Lemma do_select_out : forall (W : frame -> list frame -> Z -> Prop) c chs t dl d d' fs k, (forall n, W (FSelWait n) [] dl) -> do_select c chs t dl d = (d', fs, k) -> outc c W d d' fs k.
Proof.
  intros W c chs t dl d d' fs k WW E. unfold do_select in E. cbv zeta in E.
  destruct (negb _); [oh d E|]. destruct (canceled _); [oh d E|].
  destruct (first_ready chs 0 d) as [[ch i]|].
  - destruct (rclosed _); [oh d E|].
    destruct (take ch d) as [[[m [s|]] d1]|] eqn:P; [apply same_take in P; oh d E|apply same_take in P; oh d E|oh d E].
  - destruct t; [oh d E|]. oh d E.
Qed.
Lemma coexit_rest_out : forall (W : frame -> list frame -> Z -> Prop) c a d d' fs k d0, coexit_rest c a d = (d', fs, k) -> quiet c d0 d -> outc c W d0 d' fs k.
Proof.
  intros W c a d d' fs k d0 E Q. unfold coexit_rest in E. cbv zeta in E.
  match type of E with context [gen (cof ?x c)] => assert (Q1 : quiet c d0 x) by qt; set (d1 := x) in * end.
  destruct (gen (cof d1 c)).
  - destruct (do_close n d1) as [[d2 fs2] k2] eqn:C. inj E.
    destruct (do_close_out W c n d1 _ _ _ d0 C Q1) as [Q2 N K|f rest dl d3 Q2 WF N WD E|E1 E2 E3|E1 E2 E3].
    + apply oc_plain; auto. intros f I. apply in_app_or in I. destruct I as [I|[<-|[]]]; [auto|reflexivity].
    + exfalso. unfold do_close in C. cbv zeta in C.
      destruct (negb _) in C; [inj C; unfold copause in E; destruct (_ || _) in E; inj E|].
      destruct (sclosed _) in C; [inj C; unfold copause in E; destruct (_ || _) in E; inj E|].
      destruct (_ || _) in C; [inj C; unfold copause in E; destruct (_ || _) in E; inj E|].
      unfold yfsr, coyield in C. destruct (_ <? _) in C; inj C; unfold copause in E; destruct (_ || _) in E; inj E; discriminate.
    + exfalso. subst. unfold do_close in C. cbv zeta in C.
      destruct (negb _) in C; [inj C|]. destruct (sclosed _) in C; [inj C|]. destruct (_ || _) in C; [inj C|].
      unfold yfsr, coyield in C. destruct (_ <? _) in C; inj C.
    + exfalso. subst. unfold do_close in C. cbv zeta in C.
      destruct (negb _) in C; [inj C|]. destruct (sclosed _) in C; [inj C|]. destruct (_ || _) in C; [inj C|].
      unfold yfsr, coyield in C. destruct (_ <? _) in C; inj C.
  - destruct (negb _); oh d0 E.
Qed.
Lemma coexit_async_out : forall (W : frame -> list frame -> Z -> Prop) c d d' fs k d0, coexit_async c d = (d', fs, k) -> quiet c d0 d -> outc c W d0 d' fs k.
Proof.
  intros W c d d' fs k d0 E Q. unfold coexit_async in E. destruct (cleanups (cof d c)) eqn:CL.
  - eapply coexit_rest_out; eauto.
  - oh d0 E.
Qed.
Lemma do_cancel_out : forall (W : frame -> list frame -> Z -> Prop) c id dl nw d d' fs k d0, W (FCancelWait id dl) [] dl -> do_cancel c id dl nw d = (d', fs, k) -> quiet c d0 d -> outc c W d0 d' fs k.
Proof. intros W c id dl nw d d' fs k d0 WW E Q. unfold do_cancel in E. destruct (negb _); oh d0 E. Qed.
Lemma mu_trylock_q : forall c m t dl nw d v d' d0, mu_trylock c m t dl nw d = (v, d') -> quiet c d0 d -> quiet c d0 d'.
Proof.
  intros c m t dl nw d v d' d0 E Q. unfold mu_trylock in E.
  destruct t.
  - destruct (negb _); [inj E; qt|]. destruct (mlocked _); inj E; qt.
  - destruct (checkdl c dl nw d) as [v1 d1] eqn:P. apply quiet_checkdl in P.
    destruct (negb _); [inj E; qt|]. destruct (mlocked _); inj E; qt.
Qed.
Lemma mu_tryrdlock_q : forall c m t dl nw d v d' d0, mu_tryrdlock c m t dl nw d = (v, d') -> quiet c d0 d -> quiet c d0 d'.
Proof.
  intros c m t dl nw d v d' d0 E Q. unfold mu_tryrdlock in E.
  destruct t.
  - destruct (negb _); [inj E; qt|]. destruct (_ || _); inj E; qt.
  - destruct (checkdl c dl nw d) as [v1 d1] eqn:P. apply quiet_checkdl in P.
    destruct (negb _); [inj E; qt|]. destruct (_ || _); inj E; qt.
Qed.
Lemma cv_relock_out : forall (W : frame -> list frame -> Z -> Prop) c m ret nw d d' fs k d0, W (FLock m) [FCvRelock m ret] MAXI -> cv_relock c m ret nw d = (d', fs, k) -> quiet c d0 d -> outc c W d0 d' fs k.
Proof.
  intros W c m ret nw d d' fs k d0 WW E Q. unfold cv_relock in E. destruct (negb _); [oh d0 E|].
  destruct (mu_trylock c m false MAXI nw d) as [v d1] eqn:T. eapply mu_trylock_q in T; [|exact Q].
  unfold finish_lock in E. cbv zeta in E. oh d0 E.
Qed.
(** the deadline argument of an operation *)
Definition op_dl (o : op) : Z :=
  match o with
  | OpSleep dl | OpCancel _ dl | OpSigWait dl | OpWait _ _ dl _ | OpSend _ _ dl | OpRecv _ dl | OpSelect _ dl
  | OpGenYield _ dl | OpLock _ dl | OpRdLock _ dl | OpWgWait _ dl | OpCvWait _ _ dl | OpJoin _ dl | OpSuspend dl => dl
  | _ => MAXI
  end.
(** ... and of a wait that continues one: re-acquiring the mutex of a condition
    variable has none *)
Definition ret_dl (f g : frame) (rest : list frame) (dl : Z) : Prop :=
  match f with
  | FCvUnlocked v m dl0 => g = FCvWait v m /\ rest = [] /\ dl = dl0
  | FCancelWait id dl0 => g = f /\ rest = [] /\ dl = dl0
  | _ => (exists m, g = FLock m) /\ (exists m ret, rest = [FCvRelock m ret]) /\ dl = MAXI
  end.
Theorem hcall_out : forall c o nw d d' fs k, hcall c o nw d = (d', fs, k) -> outc c (fun _ rest dl => rest = [] /\ dl = op_dl o) d d' fs k.
Proof.
  intros c o nw d d' fs k E. destruct o; cbn [hcall] in E; try (oh d E; fail).
  - unfold do_sleep in E. oh d E.
  - eapply do_cancel_out; [repeat split; reflexivity|exact E|qt].
  - unfold do_sigwatch in E. cbv zeta in E. oh d E.
  - unfold do_sigunwatch in E. cbv zeta in E. oh d E.
  - unfold do_sigwait in E. cbv zeta in E. oh d E.
  - unfold do_wait in E. cbv zeta in E. destruct (_ && _); [oh d E|]. destruct fail; [oh d E|].
    eapply (oc_wait c _ d _ _ _ (FEvWait fd kind) [] dl); [|reflexivity|nwt|split; reflexivity|exact E]. qt.
  - unfold do_chmake in E. destruct (_ || _); [oh d E|]. destruct (new_chan cap d) as [ch d1] eqn:P.
    apply same_new_chan in P. oh d E.
  - eapply do_send_out; [split; reflexivity|exact E].
  - unfold do_bcast in E. destruct (negb _); [oh d E|]. destruct (sclosed _); [oh d E|].
    destruct (bcast_loop _ _ _ _ _) as [n d1] eqn:P. apply same_bcast_loop in P. oh d E.
  - eapply do_recv_out; [split; reflexivity|exact E].
  - eapply do_recv_out; [split; reflexivity|exact E].
  - eapply do_close_out; [exact E|qt].
  - eapply do_select_out; [split; reflexivity|exact E].
  - eapply do_select_out; [split; reflexivity|exact E].
  - unfold do_case in E. oh d E.
  - unfold do_genyield in E. destruct (gen (cof d c)); [eapply do_send_out; [split; reflexivity|exact E]|oh d E].
  - unfold do_trylock in E. destruct (check_mu m d) as [v d1] eqn:C. apply same_check_mu in C.
    destruct (negb _); [oh d E|]. destruct (mu_trylock _ _ _ _ _ _) as [v2 d2] eqn:T.
    eapply mu_trylock_q with (d0 := d) in T; [|qt]. oh d E.
  - unfold do_trylock in E. destruct (check_mu m d) as [v d1] eqn:C. apply same_check_mu in C.
    destruct (negb _); [oh d E|]. destruct (mu_tryrdlock _ _ _ _ _ _) as [v2 d2] eqn:T.
    eapply mu_tryrdlock_q with (d0 := d) in T; [|qt]. oh d E.
  - unfold do_lock in E. destruct (check_mu m d) as [v d1] eqn:C. apply same_check_mu in C.
    destruct (negb _); [oh d E|]. destruct (mu_trylock _ _ _ _ _ _) as [v2 d2] eqn:T.
    eapply mu_trylock_q with (d0 := d) in T; [|qt]. unfold finish_lock in E; cbv zeta in E. oh d E.
  - unfold do_lock in E. destruct (check_mu m d) as [v d1] eqn:C. apply same_check_mu in C.
    destruct (negb _); [oh d E|]. destruct (mu_tryrdlock _ _ _ _ _ _) as [v2 d2] eqn:T.
    eapply mu_tryrdlock_q with (d0 := d) in T; [|qt]. unfold finish_lock in E; cbv zeta in E. oh d E.
  - unfold do_unlock in E. oh d E.
  - unfold do_mudestroy in E. oh d E.
  - unfold do_wgadd in E. cbv zeta in E. oh d E.
  - unfold do_wgdone in E. cbv zeta in E. destruct (check_wg w d) as [v d1] eqn:C. apply same_check_wg in C.
    destruct (negb _); [oh d E|]. destruct (_ =? _); [oh d E|]. destruct (negb _); [oh d E|].
    destruct (q _ (QWg w)) as [|n1 [|n2 l]] eqn:Q; oh d E.
  - unfold do_wgwait in E. cbv zeta in E. oh d E.
  - unfold do_cvsignal in E. destruct (check_cv v d) as [e d1] eqn:C. apply same_check_cv in C.
    destruct (negb _); [oh d E|]. destruct (popq _ _) as [[x|] d2] eqn:P; apply same_popq in P; oh d E.
  - unfold do_cvbcast in E. oh d E.
  - unfold do_cvwait in E. oh d E.
  - unfold do_join in E. oh d E.
  - unfold do_suspend in E. cbv zeta in E. oh d E.
  - unfold do_resume in E. oh d E.
  - unfold do_work, work_submit in E. destruct sub; inj E; [apply oc_work | apply oc_retry]; reflexivity.
  - unfold do_cleanup_pop in E. destruct (cleanups (cof d c)) as [|h r] eqn:CL; [oh d E|]. destruct exec; oh d E.
  - eapply coexit_async_out; [exact E|qt].
Qed.
Lemma niow_back : forall d, set_niow (niow d - 1 + 1) (set_niow (niow d - 1) d) = d.
Proof. intro d. rewrite Z.sub_add. destruct d; reflexivity. Qed.
Theorem hret_out : forall c f v b nw d d' fs k, hret c f v b nw d = (d', fs, k) ->
  exists d0, quiet c d d0 /\ outc c (ret_dl f) (lv c f d0) d' fs k.
Proof.
  intros c f v b nw d d' fs k E. destruct f; cbn [hret] in E; try (exists d; split; [qt|]; cbn [lv]; oh d E; fail).
  - exists d. split; [qt|]. cbn [lv]. eapply coexit_rest_out; [exact E|qt].
  - exists d. split; [qt|]. cbn [lv]. destruct (_ && _); [eapply coexit_async_out; [exact E|qt]|oh d E].
  - exists d. split; [qt|]. cbn [lv]. destruct (_ && _); [eapply coexit_async_out; [exact E|qt]|oh d E].
  - exists d. split; [qt|]. unfold sleep_end in E. cbv zeta in E. cbn [lv]. oh (set_nsleepers (nsleepers d - 1) d) E.
  - exists (rmq (NCo c) d). split; [qt|]. cbn [lv]. eapply do_cancel_out; [repeat split; reflexivity|exact E|qt].
  - exists (rmq (NCo c) d). split; [qt|]. unfold sigwait_end in E. cbn [lv]. cbv zeta in E.
    oh (set_nsigs (nsigs (rmq (NCo c) d) - 1) (rmq (NCo c) d)) E.
  - exists d. split; [qt|]. unfold wait_end in E. cbn [lv]. cbv zeta in E |- *.
    match goal with |- outc _ _ ?x _ _ _ => set (dd := x) in * end. oh dd E.
  - exists d. split; [qt|]. unfold send_end in E. cbn [lv]. cbv zeta in E.
    match goal with |- outc _ _ ?x _ _ _ => set (dd := x) in * end. oh dd E.
  - exists d. split; [qt|]. unfold recv_end in E. cbn [lv]. cbv zeta in E.
    match goal with |- outc _ _ ?x _ _ _ => set (dd := x) in * end. oh dd E.
  - exists d. split; [qt|]. unfold select_end in E. cbn [lv]. cbv zeta in E.
    match goal with |- outc _ _ ?x _ _ _ => set (dd := x) in * end. oh dd E.
  - exists d. split; [qt|]. unfold lock_end in E. cbn [lv]. cbv zeta in E.
    match goal with |- outc _ _ ?x _ _ _ => set (dd := x) in * end. oh dd E.
  - exists d. split; [qt|]. unfold wgwait_end in E. cbn [lv]. cbv zeta in E.
    match goal with |- outc _ _ ?x _ _ _ => set (dd := x) in * end. oh dd E.
  - exists d. split; [qt|]. unfold cvwait_unlocked in E. cbn [lv]. cbv zeta in E. oh d E.
  - exists d. split; [qt|]. unfold cvwait_end in E. cbn [lv]. cbv zeta in E.
    match goal with |- outc _ _ ?x _ _ _ => set (dd := x) in * end.
    destruct (checkdl c MAXI nw _) as [v1 d1] eqn:C. apply quiet_checkdl in C. eapply cv_relock_out; [cbn [ret_dl]; eauto 8|exact E|qt].
  - exists d. split; [qt|]. cbn [lv]. destruct (_ =? _); [oh d E|].
    destruct (_ && _); [eapply coexit_async_out; [exact E|qt]|eapply cv_relock_out; [cbn [ret_dl]; eauto 8|exact E|qt]].
  - exists d. split; [qt|]. cbn [lv]. unfold join_end in E. cbv zeta in E. oh d E.
  - exists d. split; [qt|]. unfold suspend_end in E. cbn [lv]. cbv zeta in E.
    match goal with |- outc _ _ ?x _ _ _ => set (dd := x) in * end. oh dd E.
  - exists d. split; [qt|]. cbn [lv]. unfold work_submit in E. destruct b; inj E.
    + apply oc_work; [|reflexivity|reflexivity]. cbn [enter].
      change (niow (set_niow (niow d - 1) d)) with (niow d - 1). rewrite niow_back. reflexivity.
    + apply oc_retry; [|reflexivity|reflexivity]. cbn [enter].
      change (niow (set_niow (niow d' - 1) d')) with (niow d' - 1). rewrite niow_back. reflexivity.
  - exists d. split; [qt|]. cbn [lv]. eapply coexit_async_out; [exact E|qt].
  - exists d. split; [qt|]. cbn [lv]. unfold exit_gen in E. cbv zeta in E. oh d E.
Qed.
