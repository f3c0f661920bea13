(** Which continuation frames can be on a coroutine's stack, and in which order.
    Everything later proofs know about "who is waiting inside which call" comes
    from here. *)
From Coq Require Import List ZArith Bool Lia.
From Verif Require Import Util Runtime SchedInv StepInv.
Import ListNotations.
Local Open Scope Z_scope.

(** frame [f], possibly below the copause that waits for it *)
Inductive pz (f : frame) : list frame -> Prop :=
| pz_0 : pz f [f]
| pz_1 : pz f [FPause; f].
(** frames [fs], possibly below (the rest of) a yield_for_sched_resume *)
Inductive yf (fs : list frame) : list frame -> Prop :=
| yf_0 : yf fs fs
| yf_1 : yf fs (FCoyield :: fs)
| yf_2 : yf fs (FYfsr :: fs)
| yf_3 : yf fs (FCoyield :: FYfsr :: fs).

(** what can lie above the wrapper of an API call *)
Inductive shape : op -> list frame -> Prop :=
| sh_nil o : shape o []
| sh_yield : shape OpYield [FCoyield]
| sh_sleep dl w : pz FSleep w -> shape (OpSleep dl) w
| sh_cancel_wait id dl w : pz (FCancelWait id dl) w -> shape (OpCancel id dl) w
| sh_cancel_go id dl : shape (OpCancel id dl) [FCancelGo]
| sh_cancel_y id dl : shape (OpCancel id dl) [FCoyield]
| sh_sigwait dl w : pz FSigWait w -> shape (OpSigWait dl) w
| sh_wait fd k dl b w : pz (FEvWait fd k) w -> shape (OpWait fd k dl b) w
| sh_send_r ch m dl : shape (OpSend ch m dl) [FSendResumed]
| sh_send_w ch m dl w : pz (FSendWait ch) w -> shape (OpSend ch m dl) w
| sh_gy_r m dl : shape (OpGenYield m dl) [FSendResumed]
| sh_gy_w m dl ch w : pz (FSendWait ch) w -> shape (OpGenYield m dl) w
| sh_bcast ch m n w : yf [FBcast n] w -> shape (OpBcast ch m) w
| sh_recv_r ch dl : shape (OpRecv ch dl) [FRecvResumed]
| sh_recv_w ch dl w : pz (FRecvWait ch) w -> shape (OpRecv ch dl) w
| sh_tryrecv ch : shape (OpTryRecv ch) [FRecvResumed]
| sh_close ch w : yf [FClose] w -> shape (OpClose ch) w
| sh_sel_0 chs dl ch i : shape (OpSelect chs dl) [FSelRecv ch i]
| sh_sel_1 chs dl ch i : shape (OpSelect chs dl) [FRecvResumed; FSelRecv ch i]
| sh_sel_w chs dl w : pz (FSelWait (Z.of_nat (length chs))) w -> shape (OpSelect chs dl) w
| sh_tsel_0 chs ch i : shape (OpTrySelect chs) [FSelRecv ch i]
| sh_tsel_1 chs ch i : shape (OpTrySelect chs) [FRecvResumed; FSelRecv ch i]
| sh_lock m dl w : pz (FLock m) w -> shape (OpLock m dl) w
| sh_rdlock m dl w : pz (FLock m) w -> shape (OpRdLock m dl) w
| sh_unlock m w : yf [FUnlock] w -> shape (OpUnlock m) w
| sh_unlock_y m : shape (OpUnlock m) [FCoyield]
| sh_wgdone w l : yf [FWgDone] l -> shape (OpWgDone w) l
| sh_wgwait_y w dl : shape (OpWgWait w dl) [FCoyield]
| sh_wgwait_w w dl l : pz (FWgWait w) l -> shape (OpWgWait w dl) l
| sh_cvsig v : shape (OpCvSignal v) [FCvSignal]
| sh_cvbc v w : yf [FCvBcast] w -> shape (OpCvBcast v) w
| sh_cv_u v m dl w : yf [FCvUnlocked v m dl] w -> shape (OpCvWait v m dl) w
| sh_cv_w v m dl w : pz (FCvWait v m) w -> shape (OpCvWait v m dl) w
| sh_cv_r v m dl ret : shape (OpCvWait v m dl) [FCvRelock m ret]
| sh_cv_l v m dl ret w : pz (FLock m) w -> shape (OpCvWait v m dl) (w ++ [FCvRelock m ret])
| sh_join id dl w : pz (FJoin id) w -> shape (OpJoin id dl) w
| sh_susp dl w : pz FSuspend w -> shape (OpSuspend dl) w
| sh_work b : shape (OpWork b) [FWork]
| sh_workr b : shape (OpWork b) [FWorkRetry].

(** what can lie on top of a coroutine that is ending *)
Inductive exit_shape : list frame -> Prop :=
| es_gen a s w : yf [FClose] w -> exit_shape (w ++ [FExitGen a s])
| es_gen0 a s : exit_shape [FExitGen a s]
| es_fin a w : yf [FExitFin a] w -> exit_shape w.

(** stacks on which client code runs *)
Inductive ustack : list frame -> Prop :=
| us_entry : ustack [FEntry]
| us_handler k st : ustack st -> ustack (FHandler :: FApi k (OpCleanupPop true) :: st)
| us_exit st : ustack (FExitLoop :: st).
(** stacks inside library code *)
Inductive lstack : list frame -> Prop :=
| ls_user st : ustack st -> lstack st
| ls_call k o w st : ustack st -> shape o w -> lstack (w ++ FApi k o :: st)
| ls_exit w st : exit_shape w -> lstack (w ++ st).

#[export] Hint Constructors pz yf shape exit_shape ustack lstack : shp.

(** what a handler may do next, as a predicate on the frames it pushes *)
Definition next_ok (rest : list frame) (fs : list frame) (k : ctl) : Prop :=
  match k with
  | CUser => ustack (fs ++ rest)
  | CFinal _ => True
  | _ => lstack (fs ++ rest)
  end.

Lemma copause_cases : forall c dl fs d d' fs' k,
  copause c dl fs d = (d', fs', k) ->
  (k = CRet 0 /\ fs' = fs /\ d' = d /\ (canceled (cof d c) = true \/ deadlined (cof d c) = true)) \/
  (k = CPause /\ fs' = FPause :: fs /\ canceled (cof d c) = false /\ deadlined (cof d c) = false).
Proof.
  intros c dl fs d d' fs' k E. unfold copause in E.
  destruct (canceled (cof d c)) eqn:A, (deadlined (cof d c)) eqn:B; cbn in E; inversion E; subst; auto 10.
Qed.

Lemma yfsr_cases : forall fs d d' fs' k,
  yfsr fs d = (d', fs', k) -> d' = d /\ k = CYield /\ (fs' = FCoyield :: FYfsr :: fs \/ fs' = FCoyield :: fs).
Proof.
  intros fs d d' fs' k E. unfold yfsr, coyield in E.
  destruct (0 <? nresumers d); inversion E; subst; auto.
Qed.

Lemma do_close_cases : forall ch d d' fs k,
  do_close ch d = (d', fs, k) ->
  (fs = [] /\ exists v, k = CRet v) \/
  (k = CYield /\ (fs = [FCoyield; FYfsr; FClose] \/ fs = [FCoyield; FClose])).
Proof.
  intros ch d d' fs k E. unfold do_close in E.
  destruct (negb _); [inversion E; subst; left; eauto|].
  destruct (sclosed _); [inversion E; subst; left; eauto|].
  destruct (_ || _); [inversion E; subst; left; eauto|].
  apply yfsr_cases in E. destruct E as (_ & -> & [->| ->]); auto.
Qed.

Lemma coexit_rest_next : forall c a d d' fs k rest,
  coexit_rest c a d = (d', fs, k) -> next_ok rest fs k.
Proof.
  intros c a d d' fs k rest E. unfold coexit_rest in E.
  match type of E with context [gen (cof ?x c)] => set (dd := x) in E end.
  match type of E with context [if ?x then yfsr _ _ else _] => set (sb := x) in E end.
  destruct (gen (cof dd c)) as [g|].
  - destruct (do_close g dd) as [[d1 fs1] k1] eqn:C. inversion E; subst.
    apply do_close_cases in C. destruct C as [(-> & v & ->)|(-> & [->| ->])]; cbn [next_ok app].
    + apply (ls_exit [FExitGen a sb]). constructor.
    + apply (ls_exit ([FCoyield; FYfsr; FClose] ++ [FExitGen a sb])). constructor. constructor.
    + apply (ls_exit ([FCoyield; FClose] ++ [FExitGen a sb])). constructor. constructor.
  - destruct sb.
    + apply yfsr_cases in E. destruct E as (-> & -> & [->| ->]); cbn [next_ok app].
      * apply (ls_exit [FCoyield; FYfsr; FExitFin a]). econstructor. constructor.
      * apply (ls_exit [FCoyield; FExitFin a]). econstructor. constructor.
    + inversion E; subst. exact I.
Qed.

Lemma coexit_async_next : forall c d d' fs k rest,
  coexit_async c d = (d', fs, k) -> next_ok rest fs k.
Proof.
  intros c d d' fs k rest E. unfold coexit_async in E.
  destruct (cleanups (cof d c)); [eapply coexit_rest_next; eassumption|].
  inversion E; subst. constructor.
Qed.

Lemma exit_gen_next : forall c a s d d' fs k rest,
  exit_gen c a s d = (d', fs, k) -> next_ok rest fs k.
Proof.
  intros c a s d d' fs k rest E. unfold exit_gen in E. destruct s.
  - apply yfsr_cases in E. destruct E as (-> & -> & [->| ->]); cbn [next_ok app].
    + apply (ls_exit [FCoyield; FYfsr; FExitFin a]). econstructor. constructor.
    + apply (ls_exit [FCoyield; FExitFin a]). econstructor. constructor.
  - inversion E; subst. exact I.
Qed.

(** a handler that continues inside call [o] *)
Definition call_next (o : op) (fs : list frame) (k : ctl) : Prop :=
  match k with
  | CUser | CFinal _ => False
  | _ => shape o fs
  end.

Ltac inj H := inversion H; subst; clear H.
Ltac fin := cbn [call_next]; eauto with shp.

Lemma call_next_ret : forall o v, call_next o [] (CRet v). Proof. intros. fin. Qed.
#[export] Hint Resolve call_next_ret : shp.

Ltac hstep E :=
  first
   [ apply copause_cases in E; destruct E as [(-> & -> & -> & ?)|(-> & -> & ? & ?)]; fin
   | apply yfsr_cases in E; destruct E as (-> & -> & [-> | ->]); fin
   | (inj E; fin) ].

Lemma do_send_next : forall c ch m dl d d' fs k o,
  (forall w, pz (FSendWait ch) w -> shape o w) -> shape o [FSendResumed] ->
  do_send c ch m dl d = (d', fs, k) -> call_next o fs k.
Proof.
  intros c ch m dl d d' fs k o H1 H2 E. unfold do_send in E.
  destruct (negb _); [hstep E|]. destruct (sclosed _); [hstep E|]. destruct (canceled _); [hstep E|].
  destruct (send_loop _ _ _ _) as [[r|] d1]; [hstep E|].
  destruct (_ <? _); hstep E.
Qed.

Lemma fastunlock_cases : forall m fs d d' fs' k,
  fastunlock m fs d = (d', fs', k) ->
  (fs' = fs /\ k = CRet 0) \/ (k = CYield /\ (fs' = FCoyield :: FYfsr :: fs \/ fs' = FCoyield :: fs)).
Proof.
  intros m fs d d' fs' k E. unfold fastunlock in E.
  destruct (negb _); [inj E; auto|].
  destruct (_ && _); [inj E; auto|]. destruct (emptyq _ _); [inj E; auto|].
  apply yfsr_cases in E. destruct E as (_ & -> & [->| ->]); auto.
Qed.

Lemma do_cancel_next : forall c id dl nw d d' fs k,
  do_cancel c id dl nw d = (d', fs, k) -> call_next (OpCancel id dl) fs k.
Proof.
  intros c id dl nw d d' fs k E. unfold do_cancel in E.
  destruct (negb _); [hstep E|]. destruct (checkdl _ _ _ _) as [v d1].
  destruct (negb _); [hstep E|]. destruct (cenabled _); hstep E.
Qed.

Lemma cv_relock_next : forall c v m dl ret nw d d' fs k,
  cv_relock c m ret nw d = (d', fs, k) -> call_next (OpCvWait v m dl) fs k.
Proof.
  intros c v m dl ret nw d d' fs k E. unfold cv_relock, finish_lock in E.
  destruct (negb _); [hstep E|]. destruct (mu_trylock _ _ _ _ _ _) as [v1 d1].
  destruct (_ =? _); [|hstep E].
  apply copause_cases in E. destruct E as [(-> & -> & -> & _)|(-> & -> & _)]; cbn [call_next].
  - apply (sh_cv_l v m dl ret [FLock m]). constructor.
  - apply (sh_cv_l v m dl ret [FPause; FLock m]). constructor.
Qed.

Lemma hcall_next : forall c o nw d d' fs k,
  hcall c o nw d = (d', fs, k) ->
  call_next o fs k \/ (exists h, o = OpCleanupPop true /\ fs = [FHandler] /\ k = CUser /\ hd_error (cleanups (cof d c)) = Some h) \/
  (o = OpExit /\ forall rest, next_ok rest fs k).
Proof.
  intros c o nw d d' fs k E.
  destruct o; cbn [hcall] in E;
    try (right; right; split; [reflexivity | intros; eapply coexit_async_next; exact E]);
    try (left; hstep E; fail).
  - left. unfold do_sleep in E. destruct (_ <? _); hstep E.
  - left. eapply do_cancel_next; exact E.
  - left. unfold do_sigwatch in E. repeat (destruct (_ : bool) in E); hstep E.
  - left. unfold do_sigunwatch in E. repeat (destruct (_ : bool) in E); hstep E.
  - left. unfold do_sigwait in E. destruct (negb _); [hstep E|]. destruct (_ =? _); [hstep E|].
    destruct (canceled _); hstep E.
  - left. unfold do_wait in E. destruct (_ && _); [hstep E|]. destruct fail; hstep E.
  - left. unfold do_chmake in E. destruct (_ || _); [hstep E|]. destruct (new_chan _ _); hstep E.
  - left. eapply do_send_next; [| |exact E]; intros; fin.
  - left. unfold do_bcast in E. destruct (negb _); [hstep E|]. destruct (sclosed _); [hstep E|].
    destruct (bcast_loop _ _ _ _ _); hstep E.
  - left. unfold do_recv in E. destruct (negb _); [hstep E|]. destruct (rclosed _); [hstep E|].
    destruct (canceled _); [hstep E|]. destruct (take _ _) as [[[? [|]] ?]|]; hstep E.
  - left. unfold do_recv in E. destruct (negb _); [hstep E|]. destruct (rclosed _); [hstep E|].
    destruct (canceled _); [hstep E|]. destruct (take _ _) as [[[? [|]] ?]|]; hstep E.
  - left. apply do_close_cases in E. destruct E as [(-> & v & ->)|(-> & [->| ->])]; fin.
  - left. unfold do_select in E. destruct (negb _); [hstep E|]. destruct (canceled _); [hstep E|].
    destruct (first_ready _ _ _) as [[? ?]|].
    + destruct (rclosed _); [hstep E|]. destruct (take _ _) as [[[? [|]] ?]|]; hstep E.
    + hstep E.
  - left. unfold do_select in E. destruct (negb _); [hstep E|]. destruct (canceled _); [hstep E|].
    destruct (first_ready _ _ _) as [[? ?]|].
    + destruct (rclosed _); [hstep E|]. destruct (take _ _) as [[[? [|]] ?]|]; hstep E.
    + hstep E.
  - left. unfold do_case in E. destruct (negb _); [hstep E|]. destruct (negb _); hstep E.
  - left. unfold do_genyield in E. destruct (gen _) as [g|]; [|hstep E].
    eapply do_send_next; [| |exact E]; intros; fin.
  - left. unfold do_trylock in E. destruct (check_mu _ _). destruct (negb _); [hstep E|].
    destruct (mu_trylock _ _ _ _ _ _); hstep E.
  - left. unfold do_trylock in E. destruct (check_mu _ _). destruct (negb _); [hstep E|].
    destruct (mu_tryrdlock _ _ _ _ _ _); hstep E.
  - left. unfold do_lock, finish_lock in E. destruct (check_mu _ _). destruct (negb _); [hstep E|].
    destruct (mu_trylock _ _ _ _ _ _). destruct (_ =? _); hstep E.
  - left. unfold do_lock, finish_lock in E. destruct (check_mu _ _). destruct (negb _); [hstep E|].
    destruct (mu_tryrdlock _ _ _ _ _ _). destruct (_ =? _); hstep E.
  - left. unfold do_unlock in E. destruct (check_mu _ _). destruct (negb _); [hstep E|].
    apply fastunlock_cases in E. destruct E as [(-> & ->)|(-> & [->| ->])]; fin.
  - left. unfold do_mudestroy in E. destruct (check_mu _ _). destruct (negb _); [hstep E|].
    destruct (mlocked _); hstep E.
  - left. unfold do_wgadd in E. destruct (check_wg _ _). destruct (negb _); [hstep E|].
    destruct (_ || _); [hstep E|]. destruct (_ <? _); hstep E.
  - left. unfold do_wgdone in E. destruct (check_wg _ _) as [v d1]. destruct (negb _); [hstep E|].
    destruct (_ =? _); [hstep E|]. destruct (negb _); [hstep E|].
    match type of E with context [match ?x with [] => _ | _ => _ end] => destruct x as [|n1 [|n2 ?]] end; hstep E.
  - left. unfold do_wgwait in E. destruct (check_wg _ _) as [v d1]. destruct (negb _); [hstep E|].
    destruct (checkdl _ _ _ _). destruct (negb _); [hstep E|]. destruct (_ =? _); hstep E.
  - left. destruct (check_wg _ _). destruct (negb _); hstep E.
  - left. unfold do_cvsignal in E. destruct (check_cv _ _) as [e1 d1]. destruct (negb _); [hstep E|].
    destruct (popq _ _) as [[|] ?]; hstep E.
  - left. unfold do_cvbcast in E. destruct (check_cv _ _) as [e1 d1]. destruct (negb _); hstep E.
  - left. unfold do_cvwait in E. destruct (check_cv _ _) as [e1 d1]. destruct (negb _); [hstep E|].
    destruct (check_mu _ _). destruct (negb _); [hstep E|]. destruct (canceled _); [hstep E|].
    apply fastunlock_cases in E. destruct E as [(-> & ->)|(-> & [->| ->])]; fin.
  - left. destruct (check_cv _ _). destruct (negb _); hstep E.
  - left. unfold do_join in E. destruct (negb _); [hstep E|]. destruct (checkdl _ _ _ _).
    destruct (negb _); [hstep E|]. destruct (_ =? _); hstep E.
  - left. unfold do_resume in E. destruct (negb _); [hstep E|]. destruct (negb _); hstep E.
  - left. unfold do_work, work_submit in E. destruct sub; hstep E.
  - unfold do_cleanup_pop in E. destruct (cleanups _) as [|h r] eqn:CL; [left; hstep E|].
    destruct exec; [|left; hstep E]. inj E. right. left. exists h. auto.
Qed.

Definition cont_ok (k : ctl) : Prop := match k with CUser | CFinal _ => False | _ => True end.

Lemma call_next_next : forall o fs k k0 st,
  call_next o fs k -> ustack st -> next_ok (FApi k0 o :: st) fs k.
Proof.
  intros o fs k k0 st H U. destruct k; cbn in *; try contradiction; auto; apply ls_call; assumption.
Qed.

Lemma exit_next : forall fs k st, cont_ok k -> exit_shape fs -> next_ok st fs k.
Proof. intros fs k st H E. destruct k; cbn in *; try contradiction; auto; apply ls_exit; assumption. Qed.

(** any frame that just yields or returns a value keeps a suffix of its shape *)
Lemma yf_next : forall fs f w, yf fs (f :: w) -> fs <> f :: w ->
  (f = FCoyield /\ (w = fs \/ w = FYfsr :: fs)) \/ (f = FYfsr /\ w = fs).
Proof. intros fs f w H N. inversion H; subst; auto; congruence. Qed.

Lemma shape_next : forall c o f w v b nw d d' fs k,
  shape o (f :: w) -> hret c f v b nw d = (d', fs, k) ->
  call_next o (fs ++ w) k \/ (forall rest, next_ok rest fs k).
Proof.
  intros c o f w v b nw d d' fs k S E.
  assert (YF : forall F, yf [F] (f :: w) -> (forall l, yf [F] l -> shape o l) -> f <> F ->
     call_next o (fs ++ w) k \/ (forall rest, next_ok rest fs k)).
  { intros F Y SH NE. inversion Y; subst; cbn [hret] in E.
    - congruence.
    - destruct (_ && _); [right; intros; eapply coexit_async_next; exact E|].
      left. inj E. cbn. apply SH. constructor.
    - left. inj E. cbn. apply SH. constructor.
    - destruct (_ && _); [right; intros; eapply coexit_async_next; exact E|].
      left. inj E. cbn. apply SH. constructor. }
  assert (CY : f = FCoyield -> w = [] -> call_next o (fs ++ w) k \/ (forall rest, next_ok rest fs k)).
  { intros -> ->. cbn [hret] in E.
    destruct (_ && _); [right; intros; eapply coexit_async_next; exact E|].
    left. inj E. fin. }
  assert (PZ : forall F, pz F (f :: w) -> (forall l, pz F l -> shape o l) ->
      (f = FPause /\ w = [F] /\ call_next o (fs ++ w) k) \/ (f = F /\ w = [])).
  { intros F P SH. inversion P; subst; [right; auto|]. left. cbn [hret] in E. inj E.
    split; [reflexivity|split; [reflexivity|]]. cbn. apply SH. constructor. }
  inversion S; subst;
    try (apply CY; reflexivity);
    try (match goal with H : pz _ _ |- _ =>
           destruct (PZ _ H) as [(-> & -> & ?)|(-> & ->)]; [intros; eauto with shp | left; assumption |] end);
    try (match goal with H : yf [?F] (f :: w) |- _ =>
           let N := fresh in
           assert (N : f = F \/ f <> F) by (inversion H; subst; auto; right; discriminate);
           destruct N as [->|N]; [|eapply (YF F); [exact H | intros; eauto with shp | exact N]] end);
    rewrite ?app_nil_r in *; cbn [hret] in E;
    try (left; unfold sleep_end, sigwait_end, wait_end, send_end, recv_end, select_end, lock_end,
           wgwait_end, join_end, suspend_end in E;
         repeat match type of E with context [checkdl ?a ?b ?c ?d] => destruct (checkdl a b c d) end;
         repeat match type of E with context [if ?x then _ else _] => destruct x end;
         inj E; cbn [app]; fin; fail).
  - left. eapply do_cancel_next. exact E.
  - assert (w = []) as -> by (inversion H; subst; reflexivity). left. inj E. fin.
  - assert (w = []) as -> by (inversion H; subst; reflexivity). left. inj E. fin.
  - assert (w = []) as -> by (inversion H; subst; reflexivity). left. inj E. cbn. fin.
  - assert (w = []) as -> by (inversion H; subst; reflexivity). left. inj E. fin.
  - assert (w = []) as -> by (inversion H; subst; reflexivity). left. inj E. fin.
  - assert (w = []) as -> by (inversion H; subst; reflexivity). left.
    unfold cvwait_unlocked in E. rewrite app_nil_r. hstep E.
  - left. unfold cvwait_end in E. destruct (checkdl _ _ _ _). eapply cv_relock_next. exact E.
  - destruct (_ =? _); [left; inj E; fin|].
    destruct (_ && _); [right; intros; eapply coexit_async_next; exact E|].
    left. eapply cv_relock_next. exact E.
  - left. match goal with H : pz _ _ |- _ => inversion H; subst end.
    + cbn in H. inj H. cbn [hret] in E. unfold lock_end in E. destruct (checkdl _ _ _ _). inj E. cbn. fin.
    + cbn in H. inj H. cbn [hret] in E. inj E. cbn.
      apply (sh_cv_l v0 m dl ret [FLock m]). constructor.
  - left. unfold work_submit in E. destruct b; inj E; fin.
Qed.

Lemma exit_shape_next : forall c f w v b nw d d' fs k,
  exit_shape (f :: w) -> hret c f v b nw d = (d', fs, k) -> forall rest, next_ok (w ++ rest) fs k.
Proof.
  intros c f w v b nw d d' fs k S E rest.
  assert (CO : forall d0, coexit_async c d0 = (d', fs, k) -> forall r, next_ok r fs k).
  { intros d0 H r. eapply coexit_async_next; exact H. }
  inversion S; subst; clear S.
  - inversion H0; subst; cbn in H; inj H; cbn [hret] in E; cbn [app].
    + inj E. cbn. apply (ls_exit [FExitGen a s]). constructor.
    + destruct (_ && _); [eapply CO; exact E|]. inj E. cbn.
      apply (ls_exit ([FClose] ++ [FExitGen a s])). repeat constructor.
    + inj E. cbn. apply (ls_exit ([FCoyield; FClose] ++ [FExitGen a s])). repeat constructor.
    + destruct (_ && _); [eapply CO; exact E|]. inj E. cbn.
      apply (ls_exit ([FYfsr; FClose] ++ [FExitGen a s])). repeat constructor.
  - cbn [hret] in E. cbn [app]. eapply exit_gen_next. exact E.
  - inversion H; subst; cbn [hret] in E; cbn [app].
    + inj E. exact I.
    + destruct (_ && _); [eapply CO; exact E|]. inj E. cbn.
      apply (ls_exit [FExitFin a]). econstructor. constructor.
    + inj E. cbn. apply (ls_exit [FCoyield; FExitFin a]). econstructor. constructor.
    + destruct (_ && _); [eapply CO; exact E|]. inj E. cbn.
      apply (ls_exit [FYfsr; FExitFin a]). econstructor. constructor.
Qed.

Theorem hret_next : forall c f v b nw d d' fs k rest,
  lstack (f :: rest) -> hret c f v b nw d = (d', fs, k) -> next_ok rest fs k.
Proof.
  intros c f v b nw d d' fs k rest L E. inversion L; subst.
  - inversion H; subst; cbn [hret] in E.
    + eapply coexit_rest_next; exact E.
    + inj E. cbn. apply (ls_call k0 (OpCleanupPop true) [] st); [assumption | constructor].
    + eapply coexit_async_next; exact E.
  - destruct w as [|f' w]; cbn in H; inj H.
    + cbn [hret] in E. destruct (_ && _); [eapply coexit_async_next; exact E|]. inj E. exact H0.
    + destruct (shape_next _ _ _ _ _ _ _ _ _ _ _ H1 E) as [N|N]; [|apply N].
      apply (call_next_next o (fs ++ w) k k0 st) in N; [|exact H0].
      destruct k; cbn [next_ok] in *; rewrite <- ?app_assoc in N; cbn [app] in N; auto.
  - destruct w as [|f' w].
    + exfalso. inversion H0 as [a s w0 Y Q| |a w0 Y]; [destruct w0; discriminate Q | inversion Y].
    + cbn in H. inj H. eapply exit_shape_next; eassumption.
Qed.

(** ** The invariant on reachable states *)

Definition binv (s : state) : Prop :=
  (forall c, stk (sc s) c <> [] -> lstack (stk (sc s) c)) /\
  (mode s = MUser -> forall c, cur (sc s) = Some c -> ustack (stk (sc s) c)).

Definition full (s : state) : Prop := inv s /\ binv s.

(** [exec] never changes the stack of anybody except the runner and a new child. *)
Lemma exec_stk : forall c k s s' m, exec c k s = (s', m) ->
  stk s' = match k with
           | CSpawn _ => zupd (stk s) (nextid s + 1) [FEntry]
           | CFinal _ => zupd (stk s) c []
           | _ => stk s
           end.
Proof.
  intros c k s s' m E. destruct k; cbn [exec] in E.
  - inj E. reflexivity.
  - inj E. reflexivity.
  - apply sco_switch_frame in E. destruct E as (-> & _). reflexivity.
  - apply sco_switch_frame in E. destruct E as (-> & _). reflexivity.
  - destruct (mem id (paused s)).
    + apply sco_switch_frame in E. destruct E as (-> & _). cbn.
      apply (wake_frame id s).
    + inj E. reflexivity.
  - inj E. reflexivity.
  - apply sco_switch_frame in E. destruct E as (-> & _). destruct tomain; reflexivity.
  - inj E. reflexivity.
Qed.

Lemma exec_user : forall c k s s' , exec c k s = (s', MUser) ->
  (k = CUser /\ s' = s) \/ (exists g, k = CSpawn g /\ cur s' = Some (nextid s + 1)).
Proof.
  assert (SW : forall fm p q, sco_switch fm p = (q, MUser) -> False).
  { intros fm p q E. unfold sco_switch in E. destruct (_ && _); [discriminate|].
    destruct (nrun p =? 0); cbn in E; [destruct (yielders p) | destruct (runners p)]; discriminate. }
  intros c k s s' E. destruct k; cbn [exec] in E; try discriminate;
    try (exfalso; eapply SW; exact E); try (inj E; auto; fail).
  - destruct (mem id (paused s)); [exfalso; eapply SW; exact E | discriminate].
  - right. exists isgen. inj E. auto.
Qed.

Section Preserve.
  (** [J]: what is already known of the states before the step *)
  Variables J P : state -> Prop.
  (** what has to be shown for an invariant: one obligation per kind of step *)
  Definition gpres_call := forall s c o d fs k sch md,
    J s -> P s -> mode s = MUser -> cur (sc s) = Some c -> ustack (stk (sc s) c) -> o <> OpReturn ->
    hcall c o (now s) (dt s) = (d, fs, k) ->
    exec c k (set_stk (zupd (stk (sc s)) c (fs ++ FApi (ncalls s) o :: stk (sc s) c)) (sc s)) = (sch, md) ->
    P (mkst sch (ctl_dat c (nextid (sc s) + 1) k d) md (now s) (S (ncalls s))
        (ctl_obs c (nextid (sc s) + 1) k ++ handler_obs c fs k (dt s) ++ call_obs c (ncalls s) o s ++ tr s)).
  Definition gpres_tick := forall s c v f rest b d fs k sch md,
    J s -> P s -> mode s = MRet v -> cur (sc s) = Some c -> stk (sc s) c = f :: rest -> lstack (f :: rest) ->
    hret c f v b (now s) (dt s) = (d, fs, k) ->
    exec c k (set_stk (zupd (stk (sc s)) c (fs ++ rest)) (sc s)) = (sch, md) ->
    P (mkst sch (ctl_dat c (nextid (sc s) + 1) k d) md (now s) (ncalls s)
        (ctl_obs c (nextid (sc s) + 1) k ++ handler_obs c fs k (dt s) ++ ret_obs c f v (d, fs, k) s ++ tr s)).
  Definition gpres_main := forall s d ws sch md ios,
    J s -> P s -> mode s = MMain -> active (sc s) = true ->
    (if 0 <? npsd (sc s) then paused_step (now s) ios (dt s) else (dt s, [], None)) = (d, ws, None) ->
    sco_switch true (fold_left (fun a id => wake id a) ws (sc s)) = (sch, md) ->
    P (mkst sch (rc_step (now s) d) md (now s) (ncalls s) (tr s)).
  Definition gpres_mode := forall s m,
    J s -> P s ->
    (m = MRet 0 /\ mode s = MUser) \/ (m = MDone /\ mode s = MMain /\ active (sc s) = false) \/
    ((exists n, m = MKilled n)) \/ (m = MUB) ->
    P (set_mode m s).
  Definition gpres_env := forall s e, J s -> P s ->
    match e with ECall _ | ETick _ | EMain _ => False | _ => True end ->
    mode (step s e) = mode s -> P (step s e).
End Preserve.

Lemma gstep_preserves : forall (J P : state -> Prop), (forall s, J s -> full s) ->
  gpres_call J P -> gpres_tick J P -> gpres_main J P -> gpres_mode J P -> gpres_env J P ->
  forall e s, J s -> P s -> P (step s e).
Proof.
  intros J P JF PC PT PM PO PE e s F H. pose proof (JF _ F) as [[SI MO] [B1 B2]]. destruct e.
  - rewrite step_call. destruct (mode s) eqn:M; auto. destruct (cur (sc s)) as [c|] eqn:CU; auto.
    assert (G : o <> OpReturn -> P (do_call s c o)).
    { intros NR. Transparent do_call. unfold do_call, apply_res. Opaque do_call.
      destruct (hcall c o (now s) (dt s)) as [[d fs] k] eqn:E.
      destruct (exec c k _) as [sch md] eqn:X. cbn [set_ncalls sc dt mode now ncalls tr].
      eapply (PC s c o d fs k sch md); eauto. }
    destruct o; try (apply G; discriminate).
    apply PO; auto.
  - rewrite step_tick. destruct (mode s) eqn:M; auto. destruct (cur (sc s)) as [c|] eqn:CU; auto.
    destruct (stk (sc s) c) as [|f rest] eqn:SK; [apply PO; auto|].
    Transparent do_tick. unfold do_tick, apply_res. Opaque do_tick.
    destruct (hret c f v b (now s) (dt s)) as [[d fs] k] eqn:E.
    destruct (exec c k _) as [sch md] eqn:X.
    eapply (PT s c v f rest b d fs k sch md); eauto. rewrite <- SK. apply B1. rewrite SK. discriminate.
  - rewrite step_main. destruct (mode s) eqn:M; auto.
    Transparent do_main. unfold do_main. Opaque do_main.
    destruct (active (sc s)) eqn:A; cbn [negb]; [|apply PO; auto 10].
    destruct (if 0 <? npsd (sc s) then _ else _) as [[d ws] kill] eqn:K.
    destruct kill as [n|]; [apply PO; eauto 10|].
    destruct (sco_switch true _) as [sch md] eqn:X.
    eapply (PM s d ws sch md ios); eauto.
  - apply PE; auto. cbn. destruct (_ <? _); reflexivity.
  - assert (mode (step s (ESignal n)) = mode s \/ step s (ESignal n) = set_mode (MKilled n) s) as [Q|Q].
    { cbn. destruct (mode s) eqn:M; auto;
      (destruct (negb _ || _); auto; destruct (_ =? 0); auto; destruct (_ =? 13); auto). }
    + apply PE; auto.
    + rewrite Q. apply PO; eauto 10.
  - assert (mode (step s (EWorkDone c)) = mode s \/ step s (EWorkDone c) = set_mode MUB s) as [Q|Q].
    { cbn. destruct (mode s) eqn:M; auto; (destruct (mem _ _); auto; destruct (stk (sc s) c) as [|[] ?]; auto). }
    + apply PE; auto.
    + rewrite Q. apply PO; auto 10.
  - apply PE; auto.
  - apply PE; auto. cbn. destruct (_ =? _); reflexivity.
  - apply PE; auto.
  - apply PE; auto. cbn. destruct (_ =? _); reflexivity.
  - apply PE; auto. cbn. destruct (_ =? _); reflexivity.
Qed.

Definition pres_call := gpres_call full.
Definition pres_tick := gpres_tick full.
Definition pres_main := gpres_main full.
Definition pres_mode := gpres_mode full.
Definition pres_env := gpres_env full.
Lemma step_preserves : forall (P : state -> Prop),
  pres_call P -> pres_tick P -> pres_main P -> pres_mode P -> pres_env P ->
  forall e s, full s -> P s -> P (step s e).
Proof. intros P. apply (gstep_preserves full P); auto. Qed.

(** environment steps leave the stacks and lists alone *)
Lemma env_frame : forall s e,
  match e with ECall _ | ETick _ | EMain _ => False | _ => True end ->
  stk (sc (step s e)) = stk (sc s) /\ cur (sc (step s e)) = cur (sc s) /\
  runners (sc (step s e)) = runners (sc s) /\ yielders (sc (step s e)) = yielders (sc s) /\
  paused (sc (step s e)) = paused (sc s).
Proof.
  intros s e H. destruct e; try contradiction; cbn.
  - destruct (_ <? _); auto 10.
  - destruct (mode s); auto 10; (destruct (_ || _); auto 10; destruct (_ =? _); auto 10; destruct (_ =? _); auto 10).
  - destruct (mode s); auto 10; (destruct (mem _ _); auto 10; destruct (stk (sc s) c) as [|[] ?]; auto 10).
  - auto 10.
  - destruct (_ =? _); auto 10.
  - auto 10.
  - destruct (_ =? _); auto 10.
  - destruct (_ =? _); auto 10.
Qed.

Lemma wakes_frame : forall ws s,
  stk (fold_left (fun a id => wake id a) ws s) = stk s /\
  nextid (fold_left (fun a id => wake id a) ws s) = nextid s /\
  cur (fold_left (fun a id => wake id a) ws s) = cur s /\
  runners (fold_left (fun a id => wake id a) ws s) = runners s /\
  nrun (fold_left (fun a id => wake id a) ws s) = nrun s.
Proof.
  induction ws as [|w ws IH]; intros s; [cbn; auto|]. cbn [fold_left].
  destruct (IH (wake w s)) as (A1 & A2 & A3 & A4 & A5).
  destruct (wake_frame w s) as (W1 & W2 & W3 & W4 & W5).
  rewrite A1, A2, A3, A4, A5. auto.
Qed.

Definition next_ok_stack (k : ctl) (st : list frame) : Prop :=
  match k with CUser => ustack st | CFinal _ => True | _ => lstack st end.
Lemma next_ok_is : forall rest fs k, next_ok rest fs k = next_ok_stack k (fs ++ rest).
Proof. reflexivity. Qed.

Lemma binv_exec : forall c k s0 st' s' m,
  (forall x, stk s0 x <> [] -> lstack (stk s0 x)) ->
  next_ok_stack k st' ->
  exec c k (set_stk (zupd (stk s0) c st') s0) = (s', m) ->
  cur s0 = Some c -> nextid s0 + 1 <> c ->
  (forall x, stk s' x <> [] -> lstack (stk s' x)) /\
  (m = MUser -> forall x, cur s' = Some x -> ustack (stk s' x)).
Proof.
  intros c k s0 st' s' m L N E CU NI. split.
  - intros x. rewrite (exec_stk _ _ _ _ _ E). cbn [stk set_stk nextid].
    assert (A : next_ok_stack k st' -> (forall b, k <> CFinal b) -> zupd (stk s0) c st' x <> [] -> lstack (zupd (stk s0) c st' x)).
    { intros N' NF. unfold zupd. destruct (x =? c); [|apply L].
      intros _. destruct k; cbn in N'; auto. - apply ls_user; assumption. - congruence. }
    destruct k; try (apply A; [exact N | discriminate]).
    + unfold zupd at 1 3. destruct (x =? nextid s0 + 1); [intros _; apply ls_user; constructor | apply A; [exact N | discriminate]].
    + unfold zupd at 1 3. destruct (Z.eqb_spec x c); [congruence|]. rewrite zupd_neq by assumption. apply L.
  - intros -> x CX. pose proof (exec_stk _ _ _ _ _ E) as ES.
    apply exec_user in E. destruct E as [[-> ->]|(g & -> & CN)].
    + cbn in CX. rewrite CU in CX. inj CX. cbn. rewrite zupd_eq. exact N.
    + rewrite CN in CX. inj CX. rewrite ES. cbn [nextid set_stk]. rewrite zupd_eq. constructor.
Qed.

Lemma ustack_nonnil : forall st, ustack st -> st <> [].
Proof. intros st H. inversion H; discriminate. Qed.
Lemma lstack_nonnil : forall st, lstack st -> st <> [].
Proof.
  intros st H. inversion H; subst.
  - apply ustack_nonnil; assumption.
  - destruct w; discriminate.
  - inversion H0 as [a s w0 Y Q| |a w0 Y]; [destruct w0; discriminate | discriminate | inversion Y; discriminate].
Qed.

Lemma cur_alive : forall s c, sinv s -> cur s = Some c -> stk s c <> [] /\ c <= nextid s.
Proof.
  intros s c SI CU.
  assert (A : stk s c <> []) by (apply (si_alive _ SI); unfold everyone, curl; rewrite CU; left; reflexivity).
  split; [exact A | apply (si_ids _ SI); exact A].
Qed.

Lemma binv_step : forall e s, full s -> binv s -> binv (step s e).
Proof.
  apply step_preserves.
  - intros s c o d fs k sch md [[SI MO] [B1 B2]] _ M CU U NR E X.
    destruct (cur_alive _ _ SI CU) as [AL IDB].
    unfold binv; cbn [sc mode]. eapply binv_exec; [exact B1 | | exact X | exact CU | lia].
    rewrite <- next_ok_is. apply hcall_next in E. destruct E as [E|[(h & -> & -> & -> & _)|(-> & E)]].
    + apply call_next_next; assumption.
    + cbn. apply us_handler. assumption.
    + apply E.
  - intros s c v f rest b d fs k sch md [[SI MO] [B1 B2]] _ M CU SK L E X.
    destruct (cur_alive _ _ SI CU) as [AL IDB].
    unfold binv; cbn [sc mode]. eapply binv_exec; [exact B1 | | exact X | exact CU | lia].
    rewrite <- next_ok_is. eapply hret_next; eassumption.
  - intros s d ws sch md ios [[SI MO] [B1 B2]] _ M A K X.
    unfold binv; cbn [sc mode]. pose proof X as X'. apply sco_switch_frame in X. destruct X as (-> & _).
    destruct (wakes_frame ws (sc s)) as (W1 & _ & W3 & W4 & _).
    split; [rewrite W1; exact B1|]. intros ->. exfalso.
    rewrite M in MO. cbn in MO.
    assert (W : swinv (fold_left (fun a id => wake id a) ws (sc s))).
    { apply wakes_swinv, sinv_main_swinv; [exact SI | apply MO]. }
    destruct (sco_switch_inv _ _ _ _ W X') as (_ & _ & [?|?]); discriminate.
  - intros s m _ [B1 B2] H. split; cbn; [exact B1|].
    intros ->. destruct H as [[? _]|[[? _]|[[n ?]|?]]]; discriminate.
  - intros s e _ [B1 B2] H M. destruct (env_frame s e H) as (E1 & E2 & _).
    unfold binv. rewrite E1, E2, M. split; assumption.
Qed.

Theorem full_step : forall e s, full s -> full (step s e).
Proof. intros e s F. split; [apply step_inv, F | apply binv_step; [exact F | apply F]]. Qed.

Lemma full_init : forall g, full (init g).
Proof.
  intros g. split; [apply init_inv|]. split; cbn.
  - intros c. unfold zupd. destruct (_ =? _); [|congruence]. intros _. apply ls_user. constructor.
  - intros _ c H. inj H. rewrite zupd_eq. constructor.
Qed.

Theorem full_run : forall g es, full (run (init g) es).
Proof. intros. apply run_ind; [intros; apply full_step; assumption | apply full_init]. Qed.

(** the way every invariant below is established *)
Lemma run_preserves : forall (P : state -> Prop),
  pres_call P -> pres_tick P -> pres_main P -> pres_mode P -> pres_env P ->
  forall g es, P (init g) -> P (run (init g) es).
Proof.
  intros P A B C D E g es H0.
  assert (Q : full (run (init g) es) /\ P (run (init g) es)).
  { apply run_ind; [|split; [apply full_init | exact H0]].
    intros s e [F H]. split; [apply full_step; exact F | apply step_preserves; assumption]. }
  apply Q.
Qed.

(** the same, with everything known about reachable states at hand *)
Definition reach (s : state) : Prop := exists g es, cfg_ok g /\ s = run (init g) es.
Lemma reach_full : forall s, reach s -> full s.
Proof. intros s (g & es & _ & ->). apply full_run. Qed.
Lemma reach_step : forall s e, reach s -> reach (step s e).
Proof. intros s e (g & es & O & ->). exists g, (es ++ [e]). split; [exact O|]. unfold run. rewrite fold_left_app. reflexivity. Qed.
Lemma reach_run : forall es s, reach s -> reach (run s es).
Proof. induction es as [|e es IH]; intros s R; [exact R|]. apply IH, reach_step, R. Qed.
Lemma rrun_preserves : forall (P : state -> Prop),
  gpres_call reach P -> gpres_tick reach P -> gpres_main reach P -> gpres_mode reach P -> gpres_env reach P ->
  (forall g, cfg_ok g -> P (init g)) -> forall s, reach s -> P s.
Proof.
  intros P A B C D E H0 s (g & es & O & ->).
  assert (Q : reach (run (init g) es) /\ P (run (init g) es)).
  { apply run_ind; [|split; [exists g, []; auto | apply H0, O]].
    intros s e [F H]. split; [apply reach_step; exact F | apply (gstep_preserves reach P reach_full); assumption]. }
  apply Q.
Qed.
