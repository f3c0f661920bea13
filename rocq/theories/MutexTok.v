(** Hand-overs of a mutex: a coroutine inside a locking call that has been given the
    mutex but has not returned to the client yet. *)
From Coq Require Import List ZArith Bool Lia.
From Verif Require Import AATreeSpec AATreeHist Util Runtime SchedInv StepInv StackShape RuntimeSpec TraceInv Immediate Prims StaticInv Footprint QueueInv OwnInv WaitInv CallInv SpecInv TraceStep Wake Awake AllInv PausedInv ResultInv JoinInv PairedInv WaiterInv MutexSpec MutexW MutexEff.
Import ListNotations.
Local Open Scope Z_scope.

(** the hold that a call gives when it returns [v] *)
Definition gives (m : nat) (o : op) (v : Z) : option bool :=
  match o with
  | OpLock m' _ | OpTryLock m' => if Nat.eqb m' m && (v =? OK) then Some false else None
  | OpRdLock m' _ | OpTryRdLock m' => if Nat.eqb m' m && (v =? OK) then Some true else None
  | OpCvWait _ m' _ => if Nat.eqb m' m then Some false else None
  | _ => None
  end.
Definition memn (n : node) (l : list node) : bool := existsb (node_eqb n) l.
Lemma memn_In : forall n l, memn n l = true <-> In n l.
Proof.
  intros n l. unfold memn. rewrite existsb_exists. split.
  - intros (x & I & E). destruct (node_eqb_spec n x); [subst; exact I | discriminate].
  - intros I. exists n. split; [exact I|]. destruct (node_eqb_spec n n); congruence.
Qed.
Lemma memn_false : forall n l, memn n l = false <-> ~ In n l.
Proof. intros. rewrite <- memn_In. destruct (memn n l); intuition congruence. Qed.
Lemma memn_iff : forall n l l', (In n l <-> In n l') -> memn n l = memn n l'.
Proof.
  intros n l l' H. destruct (memn n l) eqn:A; symmetry; [apply memn_In, H, memn_In, A | apply memn_false; rewrite <- H; apply memn_false, A].
Qed.
Definition tk (m : nat) (st : list frame) (inq rl : bool) (rv : option Z) : option bool :=
  match top st with
  | FLock m' :: _ => if Nat.eqb m' m && negb inq then Some rl else None
  | FApi _ o :: _ => match rv with Some v => gives m o v | None => None end
  | FCvRelock m' _ :: _ => match rv with Some v => if Nat.eqb m' m && (v =? OK) then Some false else None | None => None end
  | _ => None
  end.
Definition rvx (s : state) (x : Z) : option Z :=
  match mode s, cur (sc s) with MRet v, Some y => if y =? x then Some v else None | _, _ => None end.
Definition ptok (s : state) (m : nat) (x : Z) : option bool :=
  tk m (stk (sc s) x) (memn (NCo x) (q (dt s) (QMu m))) (rlocked (cof (dt s) x)) (rvx s x).

Lemma tk_ustack : forall m st a b r, ustack st -> tk m st a b r = None.
Proof. intros m st a b r U. inversion U; subst; reflexivity. Qed.
Lemma tk_exit : forall m w st a b r, exit_shape w -> tk m (w ++ st) a b r = None.
Proof. intros m w st a b r E. destruct (exit_shape_hd _ E) as (f & t & -> & H). destruct f; try contradiction; reflexivity. Qed.

(** which frames can be followed by a hand-over of [m] *)
Definition carry (f : frame) (m : nat) : Prop :=
  match f with FLock m' | FCvWait _ m' | FCvRelock m' _ => m' = m | _ => False end.
Definition locks (o : op) (m : nat) : Prop :=
  match o with OpLock m' _ | OpTryLock m' | OpRdLock m' _ | OpTryRdLock m' | OpCvWait _ m' _ => m' = m | _ => False end.
Lemma gives_none : forall m o v, ~ locks o m -> gives m o v = None.
Proof. intros m o v N. destruct o; cbn in *; try reflexivity; destruct (Nat.eqb_spec m0 m); try contradiction; reflexivity. Qed.
Lemma handing_gives : forall m o v, handing o -> gives m o v = None.
Proof. intros m o v H. destruct o; try contradiction; reflexivity. Qed.

Lemma rest_tk : forall m c aa d d' fs k rest a b r, coexit_rest c aa d = (d', fs, k) -> (forall e, k <> CFinal e) -> tk m (fs ++ rest) a b r = None.
Proof.
  intros m c aa d d' fs k rest a b r ER NF. apply coexit_rest_shape in ER. destruct ER as [(_ & ->)|(ES & _)]; [destruct (NF _ eq_refl) | apply tk_exit, ES].
Qed.
Lemma async_tk : forall m c d d' fs k rest a b r, coexit_async c d = (d', fs, k) -> (forall e, k <> CFinal e) -> tk m (fs ++ rest) a b r = None.
Proof.
  intros m c d d' fs k rest a b r E NF. destruct (coexit_async_cases _ _ _ _ _ E) as [(h & l & _ & _ & -> & ->)|(_ & ER)]; [reflexivity|].
  eapply rest_tk; eassumption.
Qed.
Lemma tk_api : forall m kk o st a b r, ~ locks o m -> tk m (FApi kk o :: st) a b r = None.
Proof. intros m kk o st a b r N. unfold tk. cbn. destruct r; [apply gives_none, N | reflexivity]. Qed.
Lemma next_tk : forall m fs k rest a b r, (forall rest, next_ok rest fs k) -> noapi fs -> (forall e, k <> CFinal e) -> tk m (fs ++ rest) a b r = None.
Proof.
  intros m fs k rest a b r N NA NF. specialize (N []). unfold next_ok in N. rewrite app_nil_r in N.
  assert (L : lstack fs) by (destruct k; try exact N; [apply ls_user, N | destruct (NF _ eq_refl)]). clear N.
  inversion L as [s0 U EQ|k0 o w s0 U SH EQ|w s0 ES EQ]; subst.
  - inversion U; subst; reflexivity.
  - exfalso. eapply NA. apply in_or_app. right. left. reflexivity.
  - rewrite <- app_assoc. apply tk_exit, ES.
Qed.
Lemma shape_tk : forall m o w kk st a b r, shape o w -> ~ locks o m -> tk m (w ++ FApi kk o :: st) a b r = None.
Proof.
  intros m o w kk st a b r SH NL. inversion SH; subst; try (match goal with H : pz _ _ |- _ => inversion H; subst end);
    try (match goal with H : yf _ _ |- _ => inversion H; subst end); try (apply tk_api; exact NL); try reflexivity; unfold tk; cbn; cbn in NL;
    (destruct (Nat.eqb_spec m0 m); [contradiction|]); try reflexivity; destruct r; reflexivity.
Qed.
Lemma tick_tok : forall m c f v bb nw d d' fs k rest a b r, lstack (f :: rest) -> hret c f v bb nw d = (d', fs, k) -> (forall e, k <> CFinal e) ->
  f <> FPause -> (forall kk o, f <> FApi kk o) -> ~ carry f m -> tk m (fs ++ rest) a b r = None.
Proof.
  intros m c f v bb nw d d' fs k rest a b r L E NF NP NA NC. pose proof (tick_noapi _ _ _ _ _ _ _ _ _ _ L E) as NOA.
  inversion L as [s0 U EQ|k0 o w s0 U SH EQ|w s0 ES EQ].
  - subst. inversion U; subst; cbn [hret] in E.
    + eapply rest_tk; eassumption.
    + inj E. apply tk_api. exact (fun z => z).
    + eapply async_tk; eassumption.
  - destruct w as [|g w]; cbn in EQ; injection EQ as EQ1 EQ2; [destruct (NA k0 o); auto|]. subst.
    destruct (shape_next _ _ _ _ _ _ _ _ _ _ _ SH E) as [CN|CN]; [|eapply next_tk; eassumption].
    assert (DL : locks o m \/ ~ locks o m) by (destruct o; cbn; auto; decide equality + destruct (Nat.eq_dec m0 m); auto).
    destruct DL as [LK|NL]; [|rewrite app_assoc; apply shape_tk; [destruct k; try exact CN; destruct CN | exact NL]].
    destruct o; try destruct LK; inversion SH; subst; try (match goal with H : pz _ _ |- _ => inversion H; subst; try (destruct NP; reflexivity) end);
      try (match goal with H : yf _ _ |- _ => inversion H; subst end); cbn [hret] in E; try (destruct NC; reflexivity).
    + unfold cvwait_unlocked in E. apply copause_cases in E. destruct E as [(_ & -> & _)|(_ & -> & _)]; reflexivity.
    + destruct (_ && _) in E; [eapply async_tk; [exact E | exact NF] | inj E; reflexivity].
    + unfold coyield in E. inj E. reflexivity.
    + destruct (_ && _) in E; [eapply async_tk; [exact E | exact NF] | inj E; reflexivity].
    + match goal with Q : _ ++ _ = _ :: _ |- _ => cbn in Q; injection Q as <- <- end. destruct NC; reflexivity.
    + match goal with Q : _ ++ _ = _ :: _ |- _ => cbn in Q; injection Q as <- <- end. destruct NP; reflexivity.
  - inversion ES as [a0 sb w0 Y|a0 sb|a0 w0 Y]; subst w; [inversion Y; subst w0 | |inversion Y; subst w0]; cbn in EQ; injection EQ as <- <-; cbn [hret] in E.
    all: try (destruct (_ && _) in E; [eapply async_tk; [exact E | exact NF] | inj E; reflexivity]).
    all: try (unfold coyield in E; inj E; reflexivity).
    all: try (inj E; reflexivity).
    all: try (unfold exit_gen in E; destruct sb; [apply yfsr_cases in E; destruct E as (_ & _ & [-> | ->]); reflexivity | inj E; destruct (NF _ eq_refl)]).
    all: inj E; destruct (NF _ eq_refl).
Qed.
Lemma pause_rest : forall rest, lstack (FPause :: rest) -> exists f r, rest = f :: r /\ f <> FPause /\ (forall kk o, f <> FApi kk o) /\ (forall m v, f <> FCvRelock m v).
Proof.
  intros rest L. inversion L as [s0 U EQ|k0 o w s0 U SH EQ|w s0 ES EQ].
  - inversion U.
  - destruct w as [|g w]; cbn in EQ; [discriminate EQ|]. injection EQ as -> <-.
    inversion SH; subst; try (match goal with H : pz _ _ |- _ => inversion H; subst end);
    try (match goal with H : yf _ _ |- _ => inversion H; subst end); try (do 2 eexists; split; [reflexivity|]; repeat split; discriminate);
    match goal with Q : _ ++ _ = _ :: _ |- _ => cbn in Q; try discriminate Q; injection Q as <- end; do 2 eexists; (split; [reflexivity|]; repeat split; discriminate).
  - destruct (exit_shape_hd _ ES) as (f & t & -> & H). cbn in EQ. injection EQ as -> _. destruct H.
Qed.
Lemma pause_tk : forall m rest a b r r', lstack (FPause :: rest) -> tk m rest a b r = tk m (FPause :: rest) a b r'.
Proof.
  intros m rest a b r r' L. destruct (pause_rest _ L) as (f & t & -> & N1 & N2 & N3). unfold tk. cbn [top].
  destruct f; try reflexivity; try (destruct N1; reflexivity); try (destruct (N2 k o); reflexivity). destruct (N3 m0 ret); reflexivity.
Qed.
Lemma call_tok : forall m c o nw d d' fs k kk st a b r, hcall c o nw d = (d', fs, k) -> (forall e, k <> CFinal e) -> ~ locks o m ->
  tk m (fs ++ FApi kk o :: st) a b r = None.
Proof.
  intros m c o nw d d' fs k kk st a b r E NF NL. destruct (hcall_next _ _ _ _ _ _ _ E) as [CN|[(h & -> & -> & -> & _)|(-> & CN)]].
  - apply shape_tk; [destruct k; try exact CN; destruct CN | exact NL].
  - reflexivity.
  - eapply async_tk; eassumption.
Qed.

(** ** The frames on top of a coroutine that is not running *)
Definition relq (s : state) : Prop := forall x m r rest, stk (sc s) x = FCvRelock m r :: rest ->
  over (mode s) \/ (cur (sc s) = Some x /\ exists v, mode s = MRet v).
Lemma cv_relock_top : forall c m ret nw d d' fs k rest m2 r2 t, cv_relock c m ret nw d = (d', fs, k) ->
  fs ++ rest = FCvRelock m2 r2 :: t -> exists v, k = CRet v.
Proof.
  intros c m ret nw d d' fs k rest m2 r2 t E Q. unfold cv_relock in E. destruct (negb _); [inj E; eauto|].
  destruct (mu_trylock _ _ _ _ _ _) as [v d1]. destruct (_ =? _); [|inj E; eauto].
  unfold finish_lock in E. apply copause_cases in E. destruct E as [(-> & -> & _)|(-> & -> & _)]; [eauto | discriminate Q].
Qed.
Lemma api_below : forall kk o rest, lstack (FApi kk o :: rest) -> ustack rest.
Proof.
  intros kk o rest L. inversion L as [s0 U EQ|k1 o1 w s0 U SH EQ|w s0 ES EQ].
  - inversion U.
  - destruct w as [|g w]; injection EQ; intros; subst; [exact U|]. exfalso. eapply (shape_noapi o1); [exact SH | left; reflexivity].
  - destruct (exit_shape_hd _ ES) as (f & t0 & -> & H). cbn in EQ. injection EQ as -> _. destruct H.
Qed.
Lemma tick_relock : forall c f v bb nw d d' fs k rest m r t, lstack (f :: rest) -> hret c f v bb nw d = (d', fs, k) -> (forall e, k <> CFinal e) ->
  fs ++ rest = FCvRelock m r :: t -> exists v, k = CRet v.
Proof.
  intros c f v bb nw d d' fs k rest m r t L E NF Q.
  assert (TK : tk m (fs ++ rest) false false (Some OK) = Some false) by (rewrite Q; unfold tk; cbn; rewrite Nat.eqb_refl; reflexivity).
  destruct f; try (rewrite (tick_tok m c _ v bb nw d d' fs k rest false false (Some OK) L E NF) in TK; [discriminate TK | discriminate | discriminate | exact (fun z => z)]).
  - cbn [hret] in E. destruct (_ && _); [erewrite async_tk in TK by eassumption; discriminate TK|]. inj E. cbn in TK.
    pose proof (api_below _ _ _ L) as US.
    rewrite tk_ustack in TK by exact US. discriminate TK.
  - exfalso. cbn [hret] in E. inj E. destruct (pause_rest _ L) as (f & t0 & -> & _ & _ & N). cbn in Q. injection Q as -> _. eapply N; reflexivity.
  - cbn [hret] in E. unfold lock_end in E. destruct (checkdl _ _ _ _) as [v1 d1]. inj E. eauto.
  - cbn [hret] in E. unfold cvwait_end in E. destruct (checkdl _ _ _ _) as [v1 d1]. eapply cv_relock_top; eassumption.
  - cbn [hret] in E. destruct (_ =? _); [inj E; eauto|]. destruct (_ && _); [erewrite async_tk in TK by eassumption; discriminate TK|].
    eapply cv_relock_top; eassumption.
Qed.
Lemma call_relock : forall c o nw d d' fs k kk st m r t, hcall c o nw d = (d', fs, k) -> (forall e, k <> CFinal e) -> ustack st ->
  fs ++ FApi kk o :: st = FCvRelock m r :: t -> False.
Proof.
  intros c o nw d d' fs k kk st m r t E NF U Q.
  assert (TK : tk m (fs ++ FApi kk o :: st) false false (Some OK) = Some false) by (rewrite Q; unfold tk; cbn; rewrite Nat.eqb_refl; reflexivity).
  assert (DL : locks o m \/ ~ locks o m) by (destruct o; cbn; auto; destruct (Nat.eq_dec m0 m); auto).
  destruct DL as [LK|NL]; [|rewrite (call_tok _ _ _ _ _ _ _ _ _ _ _ _ _ E NF NL) in TK; discriminate TK].
  assert (FS : forall f w, fs = f :: w -> forall m r, f <> FCvRelock m r).
  { intros f w -> m1 r1 ->. destruct o; try destruct LK; cbn [hcall] in E; unfold do_trylock, do_lock, do_cvwait, finish_lock in E.
    - destruct (check_mu _ _) as [v1 d1]. destruct (negb _); [inj E|]. destruct (mu_trylock _ _ _ _ _ _) as [v2 d2]. inj E.
    - destruct (check_mu _ _) as [v1 d1]. destruct (negb _); [inj E|]. destruct (mu_tryrdlock _ _ _ _ _ _) as [v2 d2]. inj E.
    - destruct (check_mu _ _) as [v1 d1]. destruct (negb _); [inj E|]. destruct (mu_trylock _ _ _ _ _ _) as [v2 d2].
      destruct (_ =? _); [|inj E]. apply copause_cases in E. destruct E as [(_ & E & _)|(_ & E & _)]; discriminate E.
    - destruct (check_mu _ _) as [v1 d1]. destruct (negb _); [inj E|]. destruct (mu_tryrdlock _ _ _ _ _ _) as [v2 d2].
      destruct (_ =? _); [|inj E]. apply copause_cases in E. destruct E as [(_ & E & _)|(_ & E & _)]; discriminate E.
    - destruct (check_cv _ _) as [v1 d1]. destruct (negb _); [inj E|]. destruct (check_mu _ _) as [v2 d2]. destruct (negb _); [inj E|]. destruct (canceled _); [inj E|].
      apply fastunlock_cases in E. decompose [and or] E; try discriminate; congruence. }
  destruct fs as [|f w]; [discriminate Q|]. cbn in Q. injection Q as -> _. eapply FS; reflexivity.
Qed.
Theorem reach_relq : forall s, reach s -> relq s.
Proof.
  apply rrun_preserves.
  - intros s c o d fs k sch md RE I M CU U NR E X x m r rest SX. cbn [sc mode] in *. pose proof (reach_full _ RE) as F. pose proof (cur_notfresh _ _ F CU) as NFR.
    destruct (exec_stk_cases _ _ _ _ _ X NFR x) as [[-> QQ]|[(NE & -> & (g & ->) & QQ)|(NE & QQ & _)]]; rewrite QQ in SX.
    + exfalso. cbn [set_stk stk] in SX. rewrite zupd_eq in SX. assert (NF : forall e, k <> CFinal e) by (intros e ->; discriminate SX).
      assert (SX2 : fs ++ FApi (ncalls s) o :: stk (sc s) c = FCvRelock m r :: rest) by (destruct k; try exact SX; discriminate SX).
      eapply call_relock; eassumption.
    + discriminate SX.
    + exfalso. cbn [set_stk stk] in SX. rewrite zupd_neq in SX by exact NE. destruct (I _ _ _ _ SX) as [H|(H & _)]; [rewrite M in H; destruct H | congruence].
  - intros s c v f rest b d fs k sch md RE I M CU SK L E X x m r t SX. cbn [sc mode] in *. pose proof (reach_full _ RE) as F. pose proof (cur_notfresh _ _ F CU) as NFR.
    destruct (exec_stk_cases _ _ _ _ _ X NFR x) as [[-> QQ]|[(NE & -> & (g & ->) & QQ)|(NE & QQ & _)]]; rewrite QQ in SX.
    + cbn [set_stk stk] in SX. rewrite zupd_eq in SX. assert (NF : forall e, k <> CFinal e) by (intros e ->; discriminate SX).
      assert (SX2 : fs ++ rest = FCvRelock m r :: t) by (destruct k; try exact SX; discriminate SX).
      destruct (tick_relock _ _ _ _ _ _ _ _ _ _ _ _ _ L E NF SX2) as (v2 & ->). cbn [exec] in X. inj X. right. cbn. eauto.
    + discriminate SX.
    + exfalso. cbn [set_stk stk] in SX. rewrite zupd_neq in SX by exact NE. destruct (I _ _ _ _ SX) as [H|(H & _)]; [rewrite M in H; destruct H | congruence].
  - intros s d ws sch md ios RE I M A K X x m r t SX. exfalso. cbn [sc] in SX. apply sco_switch_frame in X. destruct X as (X1 & _).
    destruct (wakes_frame ws (sc s)) as (W1 & _). rewrite X1, W1 in SX. destruct (I _ _ _ _ SX) as [H|(_ & v & H)]; [rewrite M in H; destruct H | congruence].
  - intros s m RE I HM x m0 r t SX. cbn [sc set_mode mode] in *. destruct HM as [[-> HM]|[(-> & _)|[(n & ->)| ->]]]; [|left; exact Logic.I..].
    exfalso. destruct (I _ _ _ _ SX) as [H|(_ & v & H)]; [rewrite HM in H; destruct H | congruence].
  - intros s e RE I H M x m r t SX. destruct (env_frame s e H) as (E1 & E2 & _). rewrite E1 in SX. rewrite E2, M. eapply I; exact SX.
  - intros g O x m r t SX. cbn in SX. unfold zupd in SX. destruct (_ =? _); discriminate.
Qed.

(** the same for the frame of the call itself *)
Lemma reach_apiq : forall s, reach s -> forall x k o st, stk (sc s) x = FApi k o :: st ->
  handing o \/ over (mode s) \/ (cur (sc s) = Some x /\ exists v, mode s = MRet v).
Proof.
  intros s RE x k o st SX.
  pose (Q := fun (_ : nat) (_ : Z) (_ : op) (_ : Z) (_ : Z) (_ : Z) (_ : list obs) => True).
  assert (P : transit (fun _ => True) Q s).
  { refine (proj1 (result_principle (fun _ => True) Q _ _ _ _ s RE)); unfold Q; auto. }
  destruct (P _ _ _ _ SX) as [H|[H|(H & v & MV & _)]]; eauto.
Qed.

(** ** What a waiting coroutine asked for *)
Definition wants (rest : list frame) : bool := match rest with FApi _ (OpRdLock _ _) :: _ => true | _ => false end.
Definition rlinv (s : state) : Prop := forall x m rest, top (stk (sc s) x) = FLock m :: rest -> rlocked (cof (dt s) x) = wants rest.
Lemma still_rl : forall a b, still a b -> rlocked b = rlocked a.
Proof. intros a b [E _]. rewrite E. reflexivity. Qed.
Lemma finish_lock_rl : forall c m rl dl fs d d' fs' k rest, finish_lock c m rl dl fs d = (d', fs', k) ->
  rlocked (cof d' c) = rl /\ top (fs' ++ rest) = FLock m :: fs ++ rest.
Proof.
  intros c m rl dl fs d d' fs' k rest E. unfold finish_lock in E. apply copause_eff in E. destruct E as (_ & _ & _ & RL & K). split.
  - rewrite RL. cbn. rewrite zupd_eq. reflexivity.
  - destruct K as [(_ & -> & _)|(_ & ->)]; reflexivity.
Qed.
Lemma cv_relock_rl : forall c m ret nw d d' fs k rest m2 t, cv_relock c m ret nw d = (d', fs, k) -> (forall m t, top rest <> FLock m :: t) ->
  top (fs ++ rest) = FLock m2 :: t -> rlocked (cof d' c) = false /\ wants t = false.
Proof.
  intros c m ret nw d d' fs k rest m2 t E NR Q. unfold cv_relock in E. destruct (negb _); [inj E; destruct (NR _ _ Q)|].
  destruct (mu_trylock _ _ _ _ _ _) as [v d1]. destruct (_ =? _); [|inj E; discriminate Q].
  destruct (finish_lock_rl _ _ _ _ _ _ _ _ _ rest E) as [A B]. rewrite B in Q. injection Q as _ <-. auto.
Qed.
Lemma tick_toplock : forall c f v bb nw d d' fs k rest m t, lstack (f :: rest) -> hret c f v bb nw d = (d', fs, k) -> (forall e, k <> CFinal e) ->
  top (fs ++ rest) = FLock m :: t -> f = FPause \/ carry f m /\ (forall m', f <> FLock m').
Proof.
  intros c f v bb nw d d' fs k rest m t L E NF Q.
  assert (TK : tk m (fs ++ rest) false false (Some OK) = Some false) by (unfold tk; rewrite Q; rewrite Nat.eqb_refl; reflexivity).
  destruct f; auto; try (rewrite (tick_tok m c _ v bb nw d d' fs k rest false false (Some OK) L E NF) in TK; [discriminate TK | discriminate | discriminate | exact (fun z => z)]).
  - exfalso. cbn [hret] in E. destruct (_ && _); [erewrite async_tk in TK by eassumption; discriminate TK|]. inj E. cbn in TK.
    rewrite tk_ustack in TK by exact (api_below _ _ _ L). discriminate TK.
  - exfalso. cbn [hret] in E. unfold lock_end in E. destruct (checkdl _ _ _ _) as [v1 d1]. inj E. cbn in Q.
    inversion L as [s0 U EQ|k1 o1 w s0 U SH EQ|w s0 ES EQ].
    + inversion U.
    + destruct w as [|g w]; [discriminate EQ|]. injection EQ as -> <-. inversion SH; subst; try (match goal with H : pz _ _ |- _ => inversion H; subst end);
        try (match goal with H : yf _ _ |- _ => inversion H; subst end); try discriminate Q;
        match goal with H : _ ++ _ = _ :: _ |- _ => cbn in H; try discriminate H; injection H as _ <- end; discriminate Q.
    + destruct (exit_shape_hd _ ES) as (f & t0 & -> & H). cbn in EQ. injection EQ as -> _. destruct H.
  - destruct (Nat.eq_dec m0 m) as [->|N]; [right; split; [reflexivity | discriminate]|].
    rewrite (tick_tok m c _ v bb nw d d' fs k rest false false (Some OK) L E NF) in TK; [discriminate TK | discriminate | discriminate | exact N].
  - destruct (Nat.eq_dec m0 m) as [->|N]; [right; split; [reflexivity | discriminate]|].
    rewrite (tick_tok m c _ v bb nw d d' fs k rest false false (Some OK) L E NF) in TK; [discriminate TK | discriminate | discriminate | exact N].
Qed.
Lemma hcall_rl : forall c o nw d d' fs k kk st m t, hcall c o nw d = (d', fs, k) -> (forall e, k <> CFinal e) ->
  top (fs ++ FApi kk o :: st) = FLock m :: t -> rlocked (cof d' c) = wants t.
Proof.
  intros c o nw d d' fs k kk st m t E NF Q.
  assert (TK : tk m (fs ++ FApi kk o :: st) false false (Some OK) = Some false) by (unfold tk; rewrite Q; rewrite Nat.eqb_refl; reflexivity).
  assert (DL : locks o m \/ ~ locks o m) by (destruct o; cbn; auto; destruct (Nat.eq_dec m0 m); auto).
  destruct DL as [LK|NL]; [|rewrite (call_tok _ _ _ _ _ _ _ _ _ _ _ _ _ E NF NL) in TK; discriminate TK].
  destruct o; try destruct LK; cbn [hcall] in E; unfold do_trylock, do_lock, do_cvwait in E.
    - destruct (check_mu _ _) as [v1 d1]. destruct (negb _); [inj E; discriminate Q|]. destruct (mu_trylock _ _ _ _ _ _) as [v2 d2]. inj E. discriminate Q.
    - destruct (check_mu _ _) as [v1 d1]. destruct (negb _); [inj E; discriminate Q|]. destruct (mu_tryrdlock _ _ _ _ _ _) as [v2 d2]. inj E. discriminate Q.
    - destruct (check_mu _ _) as [v1 d1]. destruct (negb _); [inj E; discriminate Q|]. destruct (mu_trylock _ _ _ _ _ _) as [v2 d2].
      destruct (_ =? _); [|inj E; discriminate Q]. destruct (finish_lock_rl _ _ _ _ _ _ _ _ _ (FApi kk (OpLock m0 dl) :: st) E) as [A B]. rewrite B in Q. injection Q as <-. exact A.
    - destruct (check_mu _ _) as [v1 d1]. destruct (negb _); [inj E; discriminate Q|]. destruct (mu_tryrdlock _ _ _ _ _ _) as [v2 d2].
      destruct (_ =? _); [|inj E; discriminate Q]. destruct (finish_lock_rl _ _ _ _ _ _ _ _ _ (FApi kk (OpRdLock m0 dl) :: st) E) as [A B]. rewrite B in Q. injection Q as <-. exact A.
    - destruct (check_cv _ _) as [v1 d1]. destruct (negb _); [inj E; discriminate Q|]. destruct (check_mu _ _) as [v2 d2]. destruct (negb _); [inj E; discriminate Q|].
      destruct (canceled _); [inj E; discriminate Q|]. exfalso. apply fastunlock_cases in E. decompose [and or] E; subst; discriminate.
Qed.
Lemma ctl_rl : forall c n k d x, (forall g, k = CSpawn g -> x <> n) -> rlocked (cof (ctl_dat c n k d) x) = rlocked (cof d x).
Proof.
  intros c n k d x NS. destruct k; cbn [ctl_dat]; try reflexivity. rewrite spawn_cof by (eapply NS; reflexivity).
  destruct (_ =? _); [|reflexivity]. destruct isgen; reflexivity.
Qed.
Lemma ctl_qmu : forall c n k d m, (forall b, k <> CFinal b) -> q (ctl_dat c n k d) (QMu m) = q d (QMu m).
Proof. intros c n k d m NF. destruct k; cbn [ctl_dat]; try reflexivity; [apply spawn_q_eq; discriminate | destruct (NF _ eq_refl)]. Qed.
Lemma ctl_qmu_in : forall c n k d m x, x <> c -> In (NCo x) (q (ctl_dat c n k d) (QMu m)) <-> In (NCo x) (q d (QMu m)).
Proof.
  intros c n k d m x N. destruct k; cbn [ctl_dat]; try tauto; [rewrite spawn_q_eq by discriminate; tauto|]. unfold final_dat.
  cbn [q set_npool]. rewrite In_pushq. intuition congruence.
Qed.
Lemma ctl_mux : forall c n k d, mux (ctl_dat c n k d) = mux d.
Proof. intros c n k d. destruct k; cbn [ctl_dat]; try reflexivity. unfold spawn_dat, popq, new_chan. destruct (q d QPool), isgen; reflexivity. Qed.
Lemma ctl_rtid : forall c n k d, rtid (ctl_dat c n k d) = rtid d.
Proof. intros c n k d. destruct k; cbn [ctl_dat]; try reflexivity. unfold spawn_dat, popq, new_chan. destruct (q d QPool), isgen; reflexivity. Qed.
Lemma mprims_mu : forall d d', mprims d d' -> mux d' = mux d /\ rtid d' = rtid d /\ (forall m, q d' (QMu m) = q d (QMu m)) /\ forall x, rlocked (cof d' x) = rlocked (cof d x).
Proof.
  intros d d' P. split; [|split; [|split]].
  - eapply mprims_const; [|exact P]. intros a b H. inversion H; reflexivity.
  - eapply mprims_const; [|exact P]. intros a b H. inversion H; reflexivity.
  - intros m. apply (mprims_wq _ _ _ P). exact I.
  - intros x. eapply (mprims_const _ (fun d => rlocked (cof d x))); [|exact P]. intros a b H. inversion H; subst; try reflexivity;
      cbn; unfold zupd; destruct (_ =? _) eqn:Q; try reflexivity; apply Z.eqb_eq in Q; subst; reflexivity.
Qed.
Lemma rlinv_exec : forall s c d k fs st' sch md nc T, reach s -> cur (sc s) = Some c -> rlinv s ->
  exec c k (set_stk (zupd (stk (sc s)) c (fs ++ st')) (sc s)) = (sch, md) ->
  (forall x, x <> c -> rlocked (cof d x) = rlocked (cof (dt s) x)) ->
  (forall m t, (forall e, k <> CFinal e) -> top (fs ++ st') = FLock m :: t -> rlocked (cof d c) = wants t) ->
  rlinv (mkst sch (ctl_dat c (nextid (sc s) + 1) k d) md (now s) nc T).
Proof.
  intros s c d k fs st' sch md nc T RE CU I X OT OWN x m t SX. cbn [sc dt] in *. pose proof (reach_full _ RE) as F. pose proof (cur_notfresh _ _ F CU) as NFR.
  destruct (exec_stk_cases _ _ _ _ _ X NFR x) as [[-> QQ]|[(NE & -> & (g & ->) & QQ)|(NE & QQ & NS)]]; rewrite QQ in SX.
  - cbn [set_stk stk] in SX. rewrite zupd_eq in SX. assert (NF : forall e, k <> CFinal e) by (intros e ->; discriminate SX).
    rewrite ctl_rl by (intros g _ EQ; congruence). apply (OWN m t NF). destruct k; try exact SX; discriminate SX.
  - discriminate SX.
  - cbn [set_stk stk] in SX. rewrite zupd_neq in SX by exact NE. rewrite ctl_rl by exact NS. rewrite OT by exact NE. eapply I; exact SX.
Qed.
Theorem reach_rlinv : forall s, reach s -> rlinv s.
Proof.
  apply rrun_preserves.
  - intros s c o d fs k sch md RE I M CU U NR E X. destruct (hcall_fp _ _ _ _ _ _ _ (ncalls s) (stk (sc s) c) E) as (R & P & FP & _).
    eapply rlinv_exec; try eassumption.
    + intros x N. apply still_rl. eapply fps_still; [exact FP | exact N].
    + intros m t NF Q. eapply hcall_rl; eassumption.
  - intros s c v f rest b d fs k sch md RE I M CU SK L E X. destruct (hret_fp _ _ _ _ _ _ _ _ _ rest E) as (R & P & FP & _).
    eapply rlinv_exec; try eassumption.
    + intros x N. rewrite <- (leave_cof f c (dt s)). apply still_rl. eapply fps_still; [exact FP | exact N].
    + intros m t NF Q. destruct (tick_toplock _ _ _ _ _ _ _ _ _ _ _ _ L E NF Q) as [->|[CA NL]].
      * cbn [hret] in E. inj E. cbn [app] in Q. destruct (pause_rest _ L) as (f & t0 & -> & N1 & _). 
        assert (RL : rlocked (cof (pause_end c (dt s)) c) = rlocked (cof (dt s) c)).
        { unfold pause_end. rewrite upco_eq. destruct (_ <? _); reflexivity. }
        rewrite RL. apply (I c m t). rewrite SK. cbn [top]. rewrite <- Q. destruct f; try reflexivity. destruct N1; reflexivity.
      * assert (NTOP : forall m t, top rest <> FLock m :: t).
        { intros m1 t1 TR. inversion L as [s0 U EQ|k1 o1 w s0 U SH EQ|w s0 ES EQ].
          - inversion U; subst; destruct CA.
          - destruct w as [|g w]; [injection EQ as <- <-; destruct CA|]. injection EQ as -> <-.
            inversion SH; subst; try (match goal with H : pz _ _ |- _ => inversion H; subst end);
              try (match goal with H : yf _ _ |- _ => inversion H; subst end); try destruct CA; try discriminate TR.
            all: match goal with H : _ ++ _ = _ :: _ |- _ => cbn in H; injection H as <- _ end; try (eapply NL; reflexivity); destruct CA.
          - destruct (exit_shape_hd _ ES) as (f0 & t0 & -> & H). cbn in EQ. injection EQ as -> _. destruct f; try destruct H; destruct CA. }
        destruct f; try destruct CA; [destruct (NL m0 eq_refl) | |]; cbn [hret] in E.
        -- unfold cvwait_end in E. destruct (checkdl _ _ _ _) as [v1 d1]. destruct (cv_relock_rl _ _ _ _ _ _ _ _ _ _ _ E NTOP Q) as [A B]. congruence.
        -- destruct (_ =? _); [inj E; destruct (NTOP _ _ Q)|]. destruct (_ && _).
           ++ exfalso. assert (TK : tk m0 (fs ++ rest) false false (Some OK) = None) by (eapply async_tk; eassumption).
              unfold tk in TK. rewrite Q, Nat.eqb_refl in TK. discriminate TK.
           ++ destruct (cv_relock_rl _ _ _ _ _ _ _ _ _ _ _ E NTOP Q) as [A B]. congruence.
  - intros s d ws sch md ios RE I M A K X x m t SX. cbn [sc dt] in *. apply sco_switch_frame in X. destruct X as (X1 & _).
    destruct (wakes_frame ws (sc s)) as (W1 & _). rewrite X1, W1 in SX. destruct (mprims_mu _ _ (mp_main _ _ _ _ _ _ _ K)) as (_ & _ & _ & RL).
    rewrite RL. eapply I; exact SX.
  - intros s m RE I HM. exact I.
  - intros s e RE I H M x m t SX. destruct (env_frame s e H) as (E1 & _). rewrite E1 in SX. rewrite (env_cof s e H). eapply I; exact SX.
  - intros g O x m t SX. cbn in SX. unfold zupd in SX. destruct (_ =? _); discriminate.
Qed.
