(** C44: objects that belong to another runtime.
    [reach s]: [s] is the state after some history of a freshly started runtime.
    An object carries the id of the runtime that initialised it (struct neco_chan
    5718, neco_mutex 7082, neco_waitgroup 7340, neco_cond 7489); 0 = not yet
    initialised. The events [EForeignCh], [EForeignMu], ... are another runtime
    (another thread) making such an object. *)
From Coq Require Import List ZArith Bool Lia.
From Verif Require Import AATreeSpec AATreeHist Util Runtime SchedInv StepInv StackShape RuntimeSpec TraceInv Immediate Prims StaticInv Footprint QueueInv OwnInv WaitInv CallInv SpecInv TraceStep Wake Awake ResultInv BlockSpec OneStep MutexEff WaiterInv MutexTok MutexRt AtCall WgInv CondInv ChanShape ChanStatic Scripts.
Import ListNotations.
Local Open Scope Z_scope.

(** ** Specification *)
Inductive object := OChan (ch : nat) | OMutex (m : nat) | OWaitGroup (w : nat) | OCond (v : nat).
Definition owner (s : state) (x : object) : Z :=
  match x with
  | OChan ch => crt (chn (dt s) ch)
  | OMutex m => mrt (mux (dt s) m)
  | OWaitGroup w => wrt (wgx (dt s) w)
  | OCond v => cvx (dt s) v
  end.
Definition foreign (s : state) (x : object) : Prop := owner s x <> 0 /\ owner s x <> rtid (dt s).
(** the objects a library call is applied to *)
Definition operands (o : op) : list object :=
  match o with
  | OpSend ch _ _ | OpBcast ch _ | OpRecv ch _ | OpTryRecv ch | OpClose ch | OpCase ch => [OChan ch]
  | OpSelect chs _ | OpTrySelect chs => map OChan chs
  | OpTryLock m | OpTryRdLock m | OpLock m _ | OpRdLock m _ | OpUnlock m | OpMuDestroy m => [OMutex m]
  | OpWgAdd w _ | OpWgDone w | OpWgWait w _ | OpWgDestroy w => [OWaitGroup w]
  | OpCvSignal v | OpCvBcast v | OpCvDestroy v => [OCond v]
  | OpCvWait v m _ => [OCond v; OMutex m]
  | _ => []
  end.
(** neco_mutex_init, neco_waitgroup_init, neco_cond_init *)
Definition initialises (o : op) (x : object) : Prop :=
  match x with OChan _ => False | OMutex m => o = OpMuInit m | OWaitGroup w => o = OpWgInit w | OCond v => o = OpCvInit v end.

(** ** Proofs *)
Lemma check_mu_for : forall m d, mrt (mux d m) <> 0 -> mrt (mux d m) <> rtid d -> check_mu m d = (EPERM, d).
Proof. intros m d A B. unfold check_mu. destruct (Z.eqb_spec (mrt (mux d m)) 0); [contradiction|]. destruct (Z.eqb_spec (rtid d) (mrt (mux d m))); [congruence | reflexivity]. Qed.
Lemma check_wg_for : forall m d, wrt (wgx d m) <> 0 -> wrt (wgx d m) <> rtid d -> check_wg m d = (EPERM, d).
Proof. intros m d A B. unfold check_wg. destruct (Z.eqb_spec (wrt (wgx d m)) 0); [contradiction|]. destruct (Z.eqb_spec (rtid d) (wrt (wgx d m))); [congruence | reflexivity]. Qed.
Lemma check_cv_for : forall m d, cvx d m <> 0 -> cvx d m <> rtid d -> check_cv m d = (EPERM, d).
Proof. intros m d A B. unfold check_cv. destruct (Z.eqb_spec (cvx d m) 0); [contradiction|]. destruct (Z.eqb_spec (rtid d) (cvx d m)); [congruence | reflexivity]. Qed.
Lemma check_cv_own : forall m d, cvx d m = rtid d -> 0 < rtid d -> check_cv m d = (OK, d).
Proof. intros m d A B. unfold check_cv. rewrite A. destruct (Z.eqb_spec (rtid d) 0); [lia|]. rewrite Z.eqb_refl. reflexivity. Qed.
Lemma chk_chan_for : forall ch d, crt (chn d ch) <> 0 -> crt (chn d ch) <> rtid d -> chk_chan ch d = EPERM.
Proof. intros m d A B. unfold chk_chan. destruct (Z.eqb_spec (crt (chn d m)) 0); [contradiction|]. destruct (Z.eqb_spec (crt (chn d m)) (rtid d)); [congruence | reflexivity]. Qed.
Lemma chk_chans_for : forall chs d ch, In ch chs -> crt (chn d ch) <> rtid d -> (forall y, In y chs -> crt (chn d y) <> 0) -> chk_chans chs d = EPERM.
Proof.
  induction chs as [|a chs IH]; intros d ch IN NE NZ; [destruct IN|]. cbn [chk_chans]. destruct (Z.eq_dec (crt (chn d a)) (rtid d)) as [EQ|NQ].
  - unfold chk_chan. destruct (Z.eqb_spec (crt (chn d a)) 0) as [Z0|_]; [destruct (NZ a (or_introl eq_refl) Z0)|]. rewrite EQ, Z.eqb_refl. cbn.
    destruct IN as [->|IN]; [contradiction|]. apply (IH d ch IN NE). intros y IY. apply NZ. right. exact IY.
  - rewrite chk_chan_for; [reflexivity | apply NZ; left; reflexivity | exact NQ].
Qed.

(** the call is answered with NECO_PERM without touching anything *)
Lemma foreign_call : forall s c o x, reach s -> In x (operands o) -> foreign s x -> (forall y, In y (operands o) -> owner s y <> 0) ->
  hcall c o (now s) (dt s) = (dt s, [], CRet EPERM).
Proof.
  intros s c o x RE IN [F1 F2] NZ. pose proof (reach_rt _ RE) as RT.
  destruct o; cbn [operands] in IN; try solve [destruct IN]; try (destruct IN as [<-|IN]; [|solve [destruct IN]]); cbn [owner] in F1, F2; cbn [hcall];
    try (unfold do_send, do_bcast, do_recv, do_close, do_case; rewrite (chk_chan_for _ _ F1 F2); reflexivity);
    try (unfold do_trylock, do_lock, do_unlock, do_mudestroy; rewrite (check_mu_for _ _ F1 F2); reflexivity);
    try (unfold do_wgadd, do_wgdone, do_wgwait; rewrite (check_wg_for _ _ F1 F2); reflexivity);
    try (unfold do_cvsignal, do_cvbcast; rewrite (check_cv_for _ _ F1 F2); reflexivity).
  - apply in_map_iff in IN. destruct IN as (ch & <- & IN). unfold do_select. rewrite (chk_chans_for chs (dt s) ch IN F2); [reflexivity|].
    intros y IY. apply (NZ (OChan y)). cbn [operands]. apply in_map, IY.
  - apply in_map_iff in IN. destruct IN as (ch & <- & IN). unfold do_select. rewrite (chk_chans_for chs (dt s) ch IN F2); [reflexivity|].
    intros y IY. apply (NZ (OChan y)). cbn [operands]. apply in_map, IY.
  - destruct IN as [<-|[<-|[]]]; cbn [owner] in *; [unfold do_cvwait; rewrite (check_cv_for _ _ F1 F2); reflexivity|]. cbn [owner] in *. unfold do_cvwait. pose proof (NZ (OCond v) (or_introl eq_refl)) as NV. cbn [owner] in NV.
    destruct (Z.eq_dec (cvx (dt s) v) (rtid (dt s))) as [EQ|NQ].
    + rewrite (check_cv_own _ _ EQ RT). change (negb (OK =? OK)) with false. cbv iota. rewrite (check_mu_for _ _ F1 F2). reflexivity.
    + rewrite (check_cv_for _ _ NV NQ). reflexivity.
Qed.

(** ** C44: the call returns NECO_PERM at once; every object, every coroutine and the
    rest of the runtime is exactly as before, the calling coroutine goes on. (A NULL
    or never made handle beside the foreign one may be reported first, hence the last
    hypothesis: all operands are made.) *)
Theorem C44_perm : forall s c o x b, reach s -> mode s = MUser -> cur (sc s) = Some c ->
  In x (operands o) -> foreign s x -> (forall y, In y (operands o) -> owner s y <> 0) ->
  let s' := step (step s (ECall o)) (ETick b) in
  dt s' = dt s /\ mode s' = MUser /\ cur (sc s') = Some c /\ ready s' = ready s /\ paused (sc s') = paused (sc s) /\
  exists m, tr s' = TRet (ncalls s) c o EPERM m (now s) :: TCall (ncalls s) c o (now s) :: tr s.
Proof.
  intros s c o x b RE MU CU IN FO NZ s'. pose proof (foreign_call s c o x RE IN FO NZ) as E.
  assert (NO : o <> OpReturn /\ o <> OpStats) by (split; intros ->; destruct IN).
  pose proof (call_returns s c o (dt s) EPERM b RE MU CU NO ltac:(discriminate) E) as K. cbv zeta in K. fold s' in K. clearbody s'.
  destruct K as (K1 & K2 & K3 & K4 & K5 & K6). eauto 10.
Qed.

(** ** What another runtime makes is foreign, and stays so whatever happens in this
    runtime, until this runtime initialises the object anew. *)
Theorem C44_made : forall s, reach s ->
  (crt (chn (dt s) (nchan (dt s))) = 0 /\ foreign (step s EForeignCh) (OChan (nchan (dt s)))) /\
  (forall m, owner s (OMutex m) = 0 -> foreign (step s (EForeignMu m)) (OMutex m)) /\
  (forall w, owner s (OWaitGroup w) = 0 -> foreign (step s (EForeignWg w)) (OWaitGroup w)) /\
  (forall v, owner s (OCond v) = 0 -> foreign (step s (EForeignCv v)) (OCond v)).
Proof.
  intros s RE. pose proof (reach_rt _ RE) as RT. split; [split; [apply (proj1 (reach_chinv _ RE)); lia|]|split; [|split]]; unfold foreign; cbn [owner step].
  - cbn. rewrite nupd_eq. cbn. lia.
  - intros m Z0. rewrite Z0. cbn. rewrite nupd_eq. cbn. lia.
  - intros m Z0. rewrite Z0. cbn. rewrite nupd_eq. cbn. lia.
  - intros m Z0. rewrite Z0. cbn. rewrite nupd_eq. cbn. lia.
Qed.

Lemma ctl_cvx : forall c n k d, cvx (ctl_dat c n k d) = cvx d.
Proof. intros c n k d. destruct k; try reflexivity. cbn [ctl_dat]. unfold spawn_dat, popq, new_chan. destruct (q d QPool), isgen; reflexivity. Qed.
Lemma leave_wc : forall f c d, wgx (leave f c d) = wgx d /\ cvx (leave f c d) = cvx d.
Proof.
  intros f c d. destruct f; cbn [leave]; try (split; reflexivity).
  generalize (Z.to_nat n). intros j. revert d. induction j as [|j IH]; intros d; cbn [rm_cases]; [auto|]. destruct (IH (rmq (NCase c (Z.of_nat j)) d)) as [-> ->]. auto.
Qed.
Lemma exitk_obj : forall c d, (forall m, ~ exitk c d (QMu m)) /\ (forall m, ~ exitk c d (QWg m)) /\ (forall m, ~ exitk c d (QCv m)).
Proof. intros c d. repeat split; intros m H; destruct H as [H|[H|(g & _ & H)]]; discriminate. Qed.
Definition owner_d (d : dat) (x : object) : Z :=
  match x with OChan ch => crt (chn d ch) | OMutex m => mrt (mux d m) | OWaitGroup w => wrt (wgx d w) | OCond v => cvx d v end.

Lemma call_owner : forall c o nw d d' fs k x, (forall ch, (nchan d <= ch)%nat -> crt (chn d ch) = 0) -> hcall c o nw d = (d', fs, k) -> ~ initialises o x -> owner_d d x <> 0 -> owner_d d x <> rtid d -> owner_d d' x = owner_d d x.
Proof.
  intros c o nw d d' fs k x NN E NI F1 F2. destruct (hcall_fp _ _ _ _ _ _ _ 0%nat [] E) as (R & P & FP & _). destruct (exitk_obj c d) as (X1 & X2 & X3).
  destruct x as [ch|m|w|v]; cbn [owner_d initialises] in *.
  - assert (L : (ch < nchan d)%nat) by (destruct (le_lt_dec (nchan d) ch) as [L|L]; [destruct (F1 (NN _ L)) | exact L]).
    destruct (prims_keepch c d d') as (_ & _ & K); [eapply hcall_prims; exact E | apply K, L].
  - assert (NK : kcall c d o (QMu m) -> mux d' m = mux d m).
    { intros K. destruct o; cbn [kcall] in K; try discriminate K; try contradiction; try (destruct K as (? & _ & K); discriminate K); try (destruct (X1 _ K)); try (injection K as <-);
      cbn [hcall] in E; try contradiction; try (unfold do_trylock, do_lock, do_unlock, do_mudestroy in E; rewrite (check_mu_for _ _ F1 F2) in E; injection E as <- <- <-; reflexivity).
      destruct K as [K|K]; [discriminate K|]. injection K as <-. unfold do_cvwait in E. destruct (check_cv v d) as [v0 d0] eqn:C0. destruct (check_cv_mu _ _ _ _ C0) as (M0 & R0 & _).
        destruct (negb _); [injection E as <- <- <-; rewrite M0; reflexivity|]. rewrite check_mu_for in E by (rewrite M0, ?R0; assumption). injection E as <- <- <-. rewrite M0. reflexivity. }
    destruct (kcall_mu_dec c d o m) as [K|K]; [rewrite (NK K); reflexivity|]. rewrite (fps_mux _ _ _ _ _ _ _ FP m K). reflexivity.
  - assert (D : kcall c d o (QWg w) \/ ~ kcall c d o (QWg w)) by (destruct o; cbn [kcall]; auto; try (right; discriminate); try (right; intros (? & _ & D); discriminate D); try (destruct (Nat.eq_dec w0 w) as [->|N]; [left; reflexivity | right; congruence]); try (right; intros [D|D]; discriminate D)).
    destruct D as [K|K]; [|rewrite (fps_wgx _ _ _ _ _ _ _ FP w K); reflexivity].
    destruct o; cbn [kcall] in K; try discriminate K; try contradiction; try (destruct K as (? & _ & K); discriminate K); try (destruct (X2 _ K)); try (destruct K as [K|K]; discriminate K); injection K as <-;
      cbn [hcall] in E; try (destruct (NI eq_refl)); unfold do_wgadd, do_wgdone, do_wgwait in E; rewrite (check_wg_for _ _ F1 F2) in E; injection E as <- <- <-; reflexivity.
  - assert (D : kcall c d o (QCv v) \/ ~ kcall c d o (QCv v)) by (destruct o; cbn [kcall]; auto; try (right; discriminate); try (right; intros (? & _ & D); discriminate D); try (destruct (Nat.eq_dec v0 v) as [->|N]; [left; auto | right; try congruence; intros [D|D]; congruence])).
    destruct D as [K|K]; [|rewrite (fps_cvx _ _ _ _ _ _ _ FP v K); reflexivity].
    destruct o; cbn [kcall] in K; try discriminate K; try contradiction; try (destruct K as (? & _ & K); discriminate K); try (destruct (X3 _ K)); try (destruct K as [K|K]; [|discriminate K]); injection K as <-;
      cbn [hcall] in E; try (destruct (NI eq_refl)); unfold do_cvsignal, do_cvbcast, do_cvwait in E; rewrite (check_cv_for _ _ F1 F2) in E; injection E as <- <- <-; reflexivity.
Qed.
Lemma tick_owner : forall c f v b nw d d' fs k x, (forall ch, (nchan d <= ch)%nat -> crt (chn d ch) = 0) -> hret c f v b nw d = (d', fs, k) -> owner_d d x <> 0 -> owner_d d' x = owner_d d x.
Proof.
  intros c f v b nw d d' fs k x NN E F1. destruct (hret_fp _ _ _ _ _ _ _ _ _ [] E) as (R & P & FP & _). destruct (exitk_obj c d) as (X1 & X2 & X3). destruct (leave_wc f c d) as [L1 L2].
  destruct x as [ch|m|w|u]; cbn [owner_d] in *.
  - assert (L : (ch < nchan d)%nat) by (destruct (le_lt_dec (nchan d) ch) as [L|L]; [destruct (F1 (NN _ L)) | exact L]).
    destruct (prims_keepch c d d') as (_ & _ & K); [eapply hret_prims; exact E | apply K, L].
  - eapply tick_mrt; exact E.
  - rewrite <- L1. f_equal. eapply fps_wgx; [exact FP|]. destruct f; cbn [kret]; try discriminate; auto. intros [D|D]; [discriminate D | exact (X2 _ D)].
  - rewrite <- L2. eapply fps_cvx; [exact FP|]. destruct f; cbn [kret]; try discriminate; auto. intros [D|D]; [discriminate D | exact (X3 _ D)].
Qed.
Definition noinit (n : nat) (x : object) (t : list obs) : Prop := forall k c o w, In (TCall k c o w) t -> initialises o x -> (k < n)%nat.
Lemma noinit_old : forall n x t t', noinit n x t' -> (forall z, In z t -> In z t') -> noinit n x t.
Proof. intros n x t t' H I k c o w IN. apply (H k c o w), I, IN. Qed.
Definition forp (n : nat) (x : object) (s : state) : Prop := (n <= ncalls s)%nat /\ (noinit n x (tr s) -> foreign s x).
Lemma forp_step : forall n x e s, reach s -> forp n x s -> forp n x (step s e).
Proof.
  intros n x e s0 RE0 P0. apply (gstep_preserves reach (forp n x) reach_full); auto; clear.
  - intros s c o d fs k sch md RE [L I] M CU U NR E X. split; [cbn [ncalls]; lia|]. cbn [tr]. intros NI.
    assert (N0 : noinit n x (tr s)) by (eapply noinit_old; [exact NI|]; intros z IZ; apply call_tr_old, IZ).
    destruct (I N0) as [F1 F2]. assert (NO : ~ initialises o x).
    { intros IO. assert (H : (ncalls s < n)%nat) by (apply (NI (ncalls s) c o (now s)); [apply call_tr_new; exact NR | exact IO]). lia. }
    pose proof (call_owner _ _ _ _ _ _ _ x (proj1 (proj2 (proj1 (reach_chinv _ RE)))) E NO F1 F2) as Q.
    assert (RT : rtid d = rtid (dt s)) by (eapply call_rtid; exact E). unfold foreign. cbn [dt]. rewrite ctl_rtid, RT.
    replace (owner _ x) with (owner s x); [split; assumption|]. change (owner s x) with (owner_d (dt s) x). rewrite <- Q. destruct x as [ch|m|w|v]; cbn [owner owner_d dt]; rewrite ?ctl_mux, ?ctl_wgx, ?ctl_cvx; try reflexivity.
    destruct (ctl_keepch c (nextid (sc s) + 1) k d) as (_ & _ & K). symmetry. apply K. destruct (prims_keepch _ _ _ (hcall_prims _ _ _ _ _ _ _ E)) as (K1 & _).
    destruct (le_lt_dec (nchan (dt s)) ch) as [LE|LT]; [|lia]. destruct F1. exact (proj1 (proj2 (proj1 (reach_chinv _ RE))) _ LE).
  - intros s c v f rest b d fs k sch md RE [L I] M CU SK LS E X. split; [exact L|]. cbn [tr]. intros NI.
    assert (N0 : noinit n x (tr s)) by (eapply noinit_old; [exact NI|]; intros z IZ; apply tick_tr_old, IZ).
    destruct (I N0) as [F1 F2]. pose proof (tick_owner _ _ _ _ _ _ _ _ _ x (proj1 (proj2 (proj1 (reach_chinv _ RE)))) E F1) as Q.
    assert (RT : rtid d = rtid (dt s)) by (eapply tick_rtid; exact E). unfold foreign. cbn [dt]. rewrite ctl_rtid, RT.
    replace (owner _ x) with (owner s x); [split; assumption|]. change (owner s x) with (owner_d (dt s) x). rewrite <- Q. destruct x as [ch|m|w|u]; cbn [owner owner_d dt]; rewrite ?ctl_mux, ?ctl_wgx, ?ctl_cvx; try reflexivity.
    destruct (ctl_keepch c (nextid (sc s) + 1) k d) as (_ & _ & K). symmetry. apply K. destruct (prims_keepch _ _ _ (hret_prims _ _ _ _ _ _ _ _ _ E)) as (K1 & _).
    destruct (le_lt_dec (nchan (dt s)) ch) as [LE|LT]; [|lia]. destruct F1. exact (proj1 (proj2 (proj1 (reach_chinv _ RE))) _ LE).
  - intros s d ws sch md ios RE [L I] M A K X. split; [exact L|]. cbn [tr set_sc set_dt set_mode]. intros NI. destruct (I NI) as [F1 F2]. pose proof (mp_main _ _ _ _ _ _ _ K) as MP.
    unfold foreign. cbn [set_sc set_dt set_mode dt]. destruct (mprims_mu _ _ MP) as (MX & RT & _). destruct (mprims_wg _ _ MP) as (MW & _). destruct (mprims_chn _ _ MP) as (MC & _).
    assert (MV : cvx (rc_step (now s) d) = cvx (dt s)) by (eapply mprims_const; [|exact MP]; intros a b H; inversion H; reflexivity).
    rewrite RT. destruct x as [ch|m|w|u]; cbn [owner dt set_sc set_dt set_mode] in *; rewrite ?MX, ?MW, ?MC, ?MV; split; assumption.
  - intros s m RE P HM. exact P.
  - intros s e RE [L I] H M. split.
    + replace (ncalls (step s e)) with (ncalls s); [exact L|]. clear -H. destruct e; try contradiction; cbn [step]; unfold set_now, set_dt;
        repeat match goal with |- context [if ?b then _ else _] => destruct b eqn:? | |- context [match mode ?z with _ => _ end] => destruct (mode z) | |- context [match stk (sc ?z) ?c with _ => _ end] => destruct (stk (sc z) c) as [|[] ?] end; reflexivity.
    + intros NI. assert (N0 : noinit n x (tr s)) by (eapply noinit_old; [exact NI|]; intros z IZ; apply env_tr_old; assumption). destruct (I N0) as [F1 F2].
      assert (Q : owner (step s e) x = owner s x /\ rtid (dt (step s e)) = rtid (dt s)).
      { destruct (env_keepch s e H) as (_ & RT & K). split; [|exact RT]. destruct x as [ch|m|w|v]; cbn [owner] in *.
        - apply K. destruct (le_lt_dec (nchan (dt s)) ch) as [LE|LT]; [|exact LT]. destruct F1. exact (proj1 (proj2 (proj1 (reach_chinv _ RE))) _ LE).
        - clear -F1 H. destruct e; try contradiction; cbn [step]; unfold set_now, set_dt;
            repeat match goal with |- context [if ?b then _ else _] => destruct b eqn:? | |- context [match mode ?z with _ => _ end] => destruct (mode z) | |- context [match stk (sc ?z) ?c with _ => _ end] => destruct (stk (sc z) c) as [|[] ?] end; try reflexivity.
          cbn. unfold nupd. destruct (Nat.eqb_spec m m0) as [->|]; [lia | reflexivity].
        - clear -F1 H. destruct e; try contradiction; cbn [step]; unfold set_now, set_dt;
            repeat match goal with |- context [if ?b then _ else _] => destruct b eqn:? | |- context [match mode ?z with _ => _ end] => destruct (mode z) | |- context [match stk (sc ?z) ?c with _ => _ end] => destruct (stk (sc z) c) as [|[] ?] end; try reflexivity.
          cbn. unfold nupd. destruct (Nat.eqb_spec w w0) as [->|]; [lia | reflexivity].
        - clear -F1 H. destruct e; try contradiction; cbn [step]; unfold set_now, set_dt;
            repeat match goal with |- context [if ?b then _ else _] => destruct b eqn:? | |- context [match mode ?z with _ => _ end] => destruct (mode z) | |- context [match stk (sc ?z) ?c with _ => _ end] => destruct (stk (sc z) c) as [|[] ?] end; try reflexivity.
          cbn. unfold nupd. destruct (Nat.eqb_spec v v0) as [->|]; [lia | reflexivity]. }
      destruct Q as [Q1 Q2]. unfold foreign. rewrite Q1, Q2. auto.
Qed.
Theorem C44_stays_foreign : forall s x es, reach s -> foreign s x ->
  (forall k c o t, In (TCall k c o t) (tr (run s es)) -> initialises o x -> (k < ncalls s)%nat) -> foreign (run s es) x.
Proof.
  intros s x es RE FO. assert (P : forp (ncalls s) x s) by (split; [lia | auto]). revert P. generalize (ncalls s). clear FO. revert s RE.
  induction es as [|e es IH]; intros s RE n P; [apply P|]. cbn [run fold_left]. apply IH; [apply reach_step, RE | apply forp_step; assumption].
Qed.

(** ** Initialising is not checked: mutex_init, waitgroup_init and cond_init0
    overwrite the object whoever owns it (neco.c:7092-7103, 7349-7361, 7497-7502), so
    neco_mutex_init on another runtime's mutex succeeds and takes it over. *)
Definition ex44 : state := script [ECall (OpChMake 1); EForeignCh; EForeignMu 0; EForeignWg 3; EForeignCv 2].
Theorem C44_init_refuted : exists s m c b, reach s /\ mode s = MUser /\ cur (sc s) = Some c /\ foreign s (OMutex m) /\
  let s' := step (step s (ECall (OpMuInit m))) (ETick b) in ~ foreign s' (OMutex m) /\ exists w, hd_error (tr s') = Some (TRet (ncalls s) c (OpMuInit m) OK w (now s)).
Proof.
  exists ex44, 0%nat, 1, false. split; [apply script_reach|]. split; [vm_compute; reflexivity|]. split; [vm_compute; reflexivity|].
  split; [split; vm_compute; discriminate|]. split; [intros [_ H]; apply H; vm_compute; reflexivity|]. exists 0. vm_compute. reflexivity.
Qed.

(** ** Non-vacuity: a channel, a mutex, a wait group and a condition variable of
    another runtime; the calling coroutine is running *)
Example C44_example : reach ex44 /\ mode ex44 = MUser /\ cur (sc ex44) = Some 1 /\
  foreign ex44 (OChan 1) /\ foreign ex44 (OMutex 0) /\ foreign ex44 (OWaitGroup 3) /\ foreign ex44 (OCond 2) /\
  (forall y, In y (operands (OpSelect [0%nat; 1%nat] MAXI)) -> owner ex44 y <> 0) /\ ~ foreign ex44 (OChan 0).
Proof.
  split; [apply script_reach|]. split; [vm_compute; reflexivity|]. split; [vm_compute; reflexivity|].
  do 4 (split; [split; vm_compute; discriminate|]). split.
  - intros y [<-|[<-|[]]]; vm_compute; discriminate.
  - intros [_ H]. apply H. vm_compute. reflexivity.
Qed.
(** ... and two calls on the foreign mutex, neither of which initialises it *)
Example C44_example_later : exists es, es <> [] /\ forall k c o t, In (TCall k c o t) (tr (run ex44 es)) -> ~ initialises o (OMutex 0).
Proof.
  exists [ECall (OpMuDestroy 0); ETick false; ECall (OpLock 0 MAXI); ETick false]. split; [discriminate|].
  assert (B : forallb (fun z => match z with TCall _ _ (OpMuInit _) _ => false | _ => true end) (tr (run ex44 [ECall (OpMuDestroy 0); ETick false; ECall (OpLock 0 MAXI); ETick false])) = true) by (vm_compute; reflexivity).
  intros k c o t IN IO. rewrite forallb_forall in B. apply B in IN. cbn in IO. subst o. discriminate IN.
Qed.

Print Assumptions C44_perm.
Print Assumptions C44_made.
Print Assumptions C44_stays_foreign.
Print Assumptions C44_init_refuted.
