(** Histories in which coroutine functions pop their cleanup handlers before they
    return, with any cancellation type: a coroutine that has begun to terminate
    makes no further call and runs no further handler. *)
From Coq Require Import List ZArith Bool Lia.
From Verif Require Import Util Runtime SchedInv StepInv StackShape RuntimeSpec TraceInv Immediate Prims StaticInv Footprint QueueInv OwnInv WaitInv CallInv SpecInv TraceStep Wake Awake AllInv ResultInv JoinInv.
Import ListNotations.
Local Open Scope Z_scope.

(** at the moment a coroutine function has returned, its handlers have been popped *)
Definition popped (s : state) : Prop := forall c v, mode s = MRet v -> cur (sc s) = Some c -> stk (sc s) c = [FEntry] ->
  cleanups (cof (dt s) c) = [].
(** the states reached when client code keeps to that *)
Inductive preach : state -> Prop :=
| pr_init g : cfg_ok g -> preach (init g)
| pr_step s e : preach s -> popped s -> preach (step s e).
Lemma preach_reach : forall s, preach s -> reach s.
Proof. intros s P. induction P as [g O|s e P IH _]; [exists g, []; auto | apply reach_step, IH]. Qed.
Definition pj (s : state) : Prop := preach s /\ popped s.
Lemma pj_reach : forall s, pj s -> reach s. Proof. intros s [P _]. apply preach_reach, P. Qed.
Lemma prun_preserves : forall P : state -> Prop,
  gpres_call pj P -> gpres_tick pj P -> gpres_main pj P -> gpres_mode pj P -> gpres_env pj P ->
  (forall g, cfg_ok g -> P (init g)) -> forall s, preach s -> P s.
Proof.
  intros P A B C D E H0 s R. induction R as [g O|s e R IH PO]; [apply H0, O|].
  apply (gstep_preserves pj P (fun z Z => reach_full _ (pj_reach _ Z))); auto. split; assumption.
Qed.

Definition exok2 (st : list frame) : Prop := noexit st \/ exists w base, st = w ++ base /\ exit_shape w.
Record dy (s : state) : Prop := {
  dy_ex : forall x, exok2 (stk (sc s) x);
  dy_in : forall x, In x (all (dt s)) <-> stk (sc s) x <> [] /\ noexit (stk (sc s) x);
  dy_cl : forall x, ~ noexit (stk (sc s) x) -> cleanups (cof (dt s) x) = [] }.
Lemma ustack_noexit2 : forall st, ustack st -> exok2 st -> noexit st.
Proof.
  intros st U [N|(w & base & -> & E)]; [exact N|]. exfalso. destruct (exit_shape_hd _ E) as (f & r & -> & H).
  cbn in U. inversion U; subst; exact H.
Qed.
Lemma noexit_dec : forall st, noexit st \/ ~ noexit st.
Proof.
  induction st as [|f st IH]; [left; apply noexit_nil|]. destruct (exitf f) eqn:X.
  - right. intros N. specialize (N f (or_introl eq_refl)). congruence.
  - destruct IH as [IH|IH]; [left; apply noexit_cons; assumption | right; intros N; apply IH; eapply noexit_tl; exact N].
Qed.
Lemma prims_cleanups : forall c d d', prims c d d' -> forall x, x <> c -> cleanups (cof d' x) = cleanups (cof d x).
Proof.
  intros c d d' P x NE. induction P; [reflexivity|]. rewrite <- IHP. destruct H; cbn; auto; unfold zupd;
    match goal with |- context [x =? ?y] => destruct (Z.eqb_spec x y) as [->|]; cbn; auto; congruence end.
Qed.
Lemma spawn_cleanups : forall p n g d x, x <> n -> cleanups (cof (spawn_dat p n g d) x) = cleanups (cof d x).
Proof. intros p n g d x NE. rewrite spawn_cof by exact NE. destruct p; [destruct (_ =? _); destruct g|]; reflexivity. Qed.
Lemma coexit_async_cases : forall c d d' fs k, coexit_async c d = (d', fs, k) ->
  (exists h l, cleanups (cof d c) = h :: l /\ d' = upco c (set_cleanups l) d /\ fs = [FExitLoop] /\ k = CUser) \/
  (cleanups (cof d c) = [] /\ coexit_rest c true d = (d', fs, k)).
Proof.
  intros c d d' fs k E. unfold coexit_async in E. destruct (cleanups (cof d c)) as [|h l] eqn:CL; [auto|].
  inj E. left. exists h, l. auto.
Qed.
Lemma sp_cl : forall c d d', sp c d d' -> forall x, cleanups (cof d' x) = cleanups (cof d x).
Proof. intros c d d' [_ C _ _] x. specialize (C x). unfold spc in C. injection C; auto. Qed.
Lemma coexit_rest_cl : forall c a d d' fs k, coexit_rest c a d = (d', fs, k) -> cleanups (cof d' c) = cleanups (cof d c).
Proof. intros c a d d' fs k E. apply coexit_rest_sp in E. apply (sp_cl _ _ _ E c). Qed.

Lemma dy_exec : forall s c d k st' sch md nw nc T,
  full s -> cur (sc s) = Some c -> dy s ->
  exec c k (set_stk (zupd (stk (sc s)) c st') (sc s)) = (sch, md) ->
  (forall x, x <> c -> (In x (all d) <-> In x (all (dt s)))) ->
  (forall x, x <> c -> cleanups (cof d x) = cleanups (cof (dt s) x)) ->
  ((exists b, k = CFinal b) /\ ~ In c (all d) \/
   (forall b, k <> CFinal b) /\ st' <> [] /\ exok2 st' /\ (In c (all d) <-> noexit st') /\ (~ noexit st' -> cleanups (cof d c) = [])) ->
  dy (mkst sch (ctl_dat c (nextid (sc s) + 1) k d) md nw nc T).
Proof.
  intros s c d k st' sch md nw nc T F CU [I1 I2 I3] X AD CD H.
  pose proof (cur_notfresh _ _ F CU) as NFR. set (n := nextid (sc s) + 1) in *.
  assert (FR : ~ In n (all (dt s))). { intros IN. apply I2 in IN. destruct IN as [IN _]. apply IN, stk_fresh, F. }
  pose proof (exec_stk_cases _ _ _ _ _ X NFR) as ST. cbn [set_stk stk nextid] in ST. fold n in ST.
  assert (STc : stk sch c = match k with CFinal _ => [] | _ => st' end).
  { destruct (ST c) as [[_ Q]|[(? & _)|(? & _)]]; [|contradiction|contradiction]. rewrite Q, zupd_eq. reflexivity. }
  assert (STo : forall x, x <> c -> (exists g, k = CSpawn g) /\ x = n /\ stk sch x = [FEntry] \/ stk sch x = stk (sc s) x /\ forall g, k = CSpawn g -> x <> n).
  { intros x NE. destruct (ST x) as [[? _]|[(_ & -> & G & Q)|(_ & Q & G)]]; [contradiction|left; auto|right]. rewrite zupd_neq in Q by exact NE. auto. }
  assert (AX : forall x, In x (all (ctl_dat c n k d)) <-> In x (all d) \/ ((exists g, k = CSpawn g) /\ x = n)).
  { intros x. destruct k; cbn [ctl_dat]; try (split; [auto | intros [A|[(g & A) _]]; [exact A | discriminate A]]; fail).
    destruct (spawn_all (Some c) n isgen d) as (A & _). rewrite A, in_app_iff. cbn. split; [intros [B|[B|[]]]; eauto | intros [B|[_ B]]; auto]. }
  assert (CX : forall x, x <> n -> cleanups (cof (ctl_dat c n k d) x) = cleanups (cof d x)).
  { intros x NE. destruct k; cbn [ctl_dat]; try reflexivity. apply spawn_cleanups, NE. }
  split; cbn [sc dt].
  - intros x. destruct (Z.eq_dec x c) as [->|NE].
    + rewrite STc. destruct H as [[(b & ->) _]|(NK & _ & E & _)]; [left; apply noexit_nil|]. destruct k; try exact E. left. apply noexit_nil.
    + destruct (STo x NE) as [(_ & _ & ->)|(-> & _)]; [left; nx | apply I1].
  - intros x. rewrite AX. destruct (Z.eq_dec x c) as [->|NE].
    + rewrite STc. assert (NC : ~ ((exists g, k = CSpawn g) /\ c = n)) by (intros [_ Q]; congruence).
      destruct H as [[(b & ->) NI]|(NK & NN & _ & E & _)]; [tauto|].
      assert (Q : match k with CFinal _ => [] | _ => st' end = st') by (destruct k; try reflexivity; destruct (NK tomain eq_refl)). rewrite Q. tauto.
    + rewrite (AD x NE). destruct (STo x NE) as [(G & -> & ->)|(-> & G)].
      * split; [|auto]. intros _. split; [discriminate | nx].
      * rewrite I2. split; [intros [A|[(g & A) B]]; [exact A | destruct (G g A B)] | auto].
  - intros x NX. destruct (Z.eq_dec x n) as [->|NN].
    { exfalso. apply NX. destruct (STo n NFR) as [(_ & _ & ->)|(-> & _)]; [nx|]. rewrite stk_fresh by exact F. apply noexit_nil. }
    rewrite CX by exact NN. destruct (Z.eq_dec x c) as [->|NE].
    + rewrite STc in NX. destruct H as [[(b & ->) _]|(NK & _ & _ & _ & E)]; [exfalso; apply NX, noexit_nil|]. apply E. intros N. apply NX. destruct k; try exact N. apply noexit_nil.
    + destruct (STo x NE) as [(_ & _ & Q)|(Q & _)]; rewrite Q in NX; [exfalso; apply NX; nx|]. rewrite CD by exact NE. apply I3, NX.
Qed.
Lemma remove1_other : forall c l x, x <> c -> (In x (remove1 c l) <-> In x l).
Proof. intros c l x NE. rewrite remove1_In. intuition. Qed.
Lemma hcall_all2 : forall c o nw d d' fs k, hcall c o nw d = (d', fs, k) -> o <> OpExit -> all d' = all d.
Proof.
  intros c o nw d d' fs k E N1. destruct (special o) eqn:S.
  - pose proof (hcall_special _ _ _ _ _ _ _ E S) as H. destruct o; try discriminate S; try congruence.
    + destruct (do_cancel_all _ _ _ _ _ _ _ _ H) as (A & _). exact A.
    + destruct H as (-> & _). reflexivity.
    + destruct H as (-> & _). reflexivity.
    + unfold do_sigwatch in H. repeat match type of H with context [if ?b then _ else _] => destruct b end; inj H; reflexivity.
    + unfold do_sigunwatch in H. repeat match type of H with context [if ?b then _ else _] => destruct b end; inj H; reflexivity.
    + destruct H as (-> & _). reflexivity.
    + unfold do_cleanup_pop in H. destruct (cleanups (cof d c)); [inj H; reflexivity|]. destruct exec; inj H; reflexivity.
  - apply hcall_sp in E; [|exact S]. apply sp_env in E. apply E.
Qed.
(** frames other than the ones that can end the coroutine *)
Definition endf (f : frame) : bool := match f with FEntry | FExitLoop | FCoyield | FApi _ _ | FCvRelock _ _ => true | _ => false end.
Lemma hret_noexit2 : forall c f v b nw d d' fs k, hret c f v b nw d = (d', fs, k) -> endf f = false -> exitf f = false ->
  noexit fs /\ (forall b, k <> CFinal b) /\ all d' = all d.
Proof.
  intros c f v b nw d d' fs k E NE N3. assert (A : all d' = all d).
  { apply hret_sp in E. destruct f; try discriminate NE; try discriminate N3; try (apply sp_env in E; apply E). apply do_cancel_all in E. cbn in E. apply E. }
  rewrite <- and_assoc. split; [|exact A]. clear A.
  destruct f; cbn [hret] in E; try discriminate NE; try (nox E; fail); try discriminate N3.
  - unfold sleep_end in E. nox E.
  - unfold do_cancel in E. nox E.
  - unfold sigwait_end in E. nox E.
  - unfold wait_end in E. nox E.
  - unfold send_end in E. nox E.
  - unfold recv_end in E. nox E.
  - unfold select_end in E. nox E.
  - unfold lock_end in E. nox E.
  - unfold wgwait_end in E. nox E.
  - unfold cvwait_unlocked in E. nox E.
  - unfold cvwait_end, cv_relock, finish_lock in E. nox E.
  - unfold join_end in E. nox E.
  - unfold suspend_end in E. nox E.
  - unfold work_submit in E. nox E.
Qed.
(** what the frames that can end the coroutine do *)
Lemma hret_endf : forall c f v b nw d d' fs k, hret c f v b nw d = (d', fs, k) -> endf f = true -> f <> FEntry ->
  coexit_async c d = (d', fs, k) \/ (noexit fs /\ (forall b, k <> CFinal b) /\ all d' = all d /\ f <> FExitLoop).
Proof.
  intros c f v b nw d d' fs k E EF NE.
  destruct f; try discriminate EF; try congruence; cbn [hret] in E.
  - destruct (is_async o && _ && _); [auto|]. right. inj E. split; [nx|]. split; [discriminate|]. split; [reflexivity | discriminate].
  - destruct (canceled _ && _); [auto|]. right. inj E. split; [nx|]. split; [discriminate|]. split; [reflexivity | discriminate].
  - destruct (v =? OK); [right; inj E; split; [nx|]; split; [discriminate|]; split; [reflexivity | discriminate]|].
    destruct (_ && _); [auto|]. right. assert (S : sp c d d') by (eapply sp_cv_relock; exact E). apply sp_env in S. destruct S as (A & _).
    rewrite <- and_assoc. split; [|split; [exact A | discriminate]]. unfold cv_relock, finish_lock in E. nox E.
  - auto.
Qed.
Lemma entry_only : forall rest, lstack (FEntry :: rest) -> rest = [].
Proof.
  intros rest L. inversion L as [st U|k o w st U S Q|w st S Q]; subst.
  - inversion U; reflexivity.
  - exfalso. destruct w as [|g w]; [discriminate Q|]. cbn in Q. injection Q as -> _. inversion S; subst; try (match goal with H : pz _ _ |- _ => inversion H; subst end); try (match goal with H : yf _ _ |- _ => inversion H; subst end); try discriminate;
      match goal with H : _ ++ _ = _ |- _ => cbn in H; discriminate H end.
  - exfalso. destruct (exit_shape_hd _ S) as (g & r & -> & H). cbn in Q. injection Q as -> _. exact H.
Qed.
Theorem preach_dy : forall s, preach s -> dy s.
Proof.
  apply (prun_preserves dy).
  - intros s c o d fs k sch md RE I M CU U NR E X. pose proof (reach_full _ (pj_reach _ RE)) as F.
    pose proof (ustack_noexit2 _ U (dy_ex _ I c)) as NX. pose proof (hcall_prims _ _ _ _ _ _ _ E) as PR.
    assert (IC : In c (all (dt s))) by (apply (dy_in _ I); split; [inversion U; discriminate | exact NX]).
    assert (DO : o = OpExit \/ o <> OpExit) by (destruct o; auto; right; discriminate).
    eapply (dy_exec s c); try eassumption.
    + intros x NE. destruct DO as [->|NO]; [|rewrite (hcall_all2 _ _ _ _ _ _ _ E NO); tauto].
      cbn [hcall] in E. destruct (coexit_async_cases _ _ _ _ _ E) as [(h & l & _ & -> & _)|(_ & ER)]; [tauto|].
      rewrite (coexit_rest_all _ _ _ _ _ _ ER). apply remove1_other, NE.
    + intros x NE. eapply prims_cleanups; eassumption.
    + destruct DO as [->|NO].
      * cbn [hcall] in E. destruct (coexit_async_cases _ _ _ _ _ E) as [(h & l & _ & -> & -> & ->)|(CL & ER)].
        -- right. assert (NN : noexit ([FExitLoop] ++ FApi (ncalls s) OpExit :: stk (sc s) c)) by (cbn; apply noexit_cons; [reflexivity|]; apply noexit_cons; [reflexivity | exact NX]).
           split; [discriminate|]. split; [discriminate|]. split; [left; exact NN|]. split; [cbn; tauto | tauto].
        -- pose proof (exit_join _ _ _ _ _ _ ER) as NI. destruct (coexit_rest_shape _ _ _ _ _ _ ER) as [(-> & ->)|(ES & K)]; [left; eauto | right].
           split; [intros b ->; destruct K as [K|(v & K)]; discriminate|].
           pose proof (exit_shape_not _ (FApi (ncalls s) OpExit :: stk (sc s) c) ES) as NN.
           split; [destruct fs; discriminate|]. split; [right; eauto|]. split; [tauto|]. intros _. rewrite (coexit_rest_cl _ _ _ _ _ _ ER). exact CL.
      * destruct (hcall_noexit _ _ _ _ _ _ _ E NO) as [NF NK]. right. split; [exact NK|]. split; [destruct fs; discriminate|].
        assert (NN : noexit (fs ++ FApi (ncalls s) o :: stk (sc s) c)) by (apply noexit_app; [exact NF | apply noexit_cons; [reflexivity | exact NX]]).
        split; [left; exact NN|]. rewrite (hcall_all2 _ _ _ _ _ _ _ E NO). tauto.
  - intros s c v f rest b d fs k sch md RE I M CU SK L E X. pose proof (reach_full _ (pj_reach _ RE)) as F. pose proof (hret_prims _ _ _ _ _ _ _ _ _ E) as PR.
    assert (EXF : fs ++ rest <> [] \/ exists b0, k = CFinal b0).
    { pose proof (hret_next _ _ _ _ _ _ _ _ _ _ L E) as N. destruct k; cbn in N; try (left; apply lstack_nonnil; exact N);
        try (right; eauto; fail). left. apply lstack_nonnil, ls_user. exact N. }
    assert (MAIN : forall A : Prop, (all d = all (dt s) \/ all d = remove1 c (all (dt s))) ->
      ((exists b, k = CFinal b) /\ ~ In c (all d) \/
       (forall b, k <> CFinal b) /\ fs ++ rest <> [] /\ exok2 (fs ++ rest) /\ (In c (all d) <-> noexit (fs ++ rest)) /\ (~ noexit (fs ++ rest) -> cleanups (cof d c) = [])) ->
      dy (mkst sch (ctl_dat c (nextid (sc s) + 1) k d) md (now s) (ncalls s) (tick_tr s c v f d fs k))).
    { intros _ HA H. eapply (dy_exec s c); try eassumption; [|intros x NE; eapply prims_cleanups; eassumption].
      intros x NE. destruct HA as [HA|HA]; rewrite HA; [tauto | apply remove1_other, NE]. }
    assert (REST : forall a, cleanups (cof (dt s) c) = [] -> coexit_rest c a (dt s) = (d, fs, k) ->
      dy (mkst sch (ctl_dat c (nextid (sc s) + 1) k d) md (now s) (ncalls s) (tick_tr s c v f d fs k))).
    { intros a CL ER. apply (MAIN True); [right; eapply coexit_rest_all; exact ER|].
      pose proof (exit_join _ _ _ _ _ _ ER) as NI. destruct (coexit_rest_shape _ _ _ _ _ _ ER) as [(-> & ->)|(ES & K)]; [left; eauto | right].
      split; [intros b0 ->; destruct K as [K|(v0 & K)]; discriminate|].
      pose proof (exit_shape_not _ rest ES) as NN. split; [destruct EXF as [H|(b0 & ->)]; [exact H | destruct K as [K|(v0 & K)]; discriminate]|].
      split; [right; eauto|]. split; [tauto|]. intros _. rewrite (coexit_rest_cl _ _ _ _ _ _ ER). exact CL. }
    assert (KEEP : noexit (f :: rest) -> noexit fs -> (forall b, k <> CFinal b) -> all d = all (dt s) ->
      dy (mkst sch (ctl_dat c (nextid (sc s) + 1) k d) md (now s) (ncalls s) (tick_tr s c v f d fs k))).
    { intros NX NF NK A. apply (MAIN True); [auto|]. right. split; [exact NK|]. assert (NN : noexit (fs ++ rest)) by (apply noexit_app; [exact NF | eapply noexit_tl; exact NX]).
      split; [destruct EXF as [H|(b0 & H)]; [exact H | destruct (NK b0 H)]|]. split; [left; exact NN|]. rewrite A, (dy_in _ I), SK. split; [|tauto].
      split; [tauto|]. intros _. split; [discriminate | exact NX]. }
    assert (ASY : coexit_async c (dt s) = (d, fs, k) ->
      dy (mkst sch (ctl_dat c (nextid (sc s) + 1) k d) md (now s) (ncalls s) (tick_tr s c v f d fs k))).
    { intros EA. destruct (coexit_async_cases _ _ _ _ _ EA) as [(h & l & CL & -> & -> & ->)|(CL & ER)]; [|eapply REST; eassumption].
      assert (NX : noexit (f :: rest)). { rewrite <- SK. destruct (noexit_dec (stk (sc s) c)) as [N|N]; [exact N|]. rewrite (dy_cl _ I c N) in CL. discriminate CL. }
      apply KEEP; [exact NX | nx | discriminate | reflexivity]. }
    destruct (noexit_dec (f :: rest)) as [NX|NX].
    + destruct (endf f) eqn:EF.
      * destruct f; try discriminate EF;
          try (destruct (hret_endf _ _ _ _ _ _ _ _ _ E EF ltac:(discriminate)) as [EA|(NF & NK & A & _)]; [apply ASY, EA | apply KEEP; assumption]).
        apply (REST false); [|exact E]. destruct RE as [_ PO]. eapply PO; [exact M | exact CU|]. rewrite SK, (entry_only _ L). reflexivity.
      * assert (XF : exitf f = false) by (apply NX; left; reflexivity).
        destruct (hret_noexit2 _ _ _ _ _ _ _ _ _ E EF XF) as (NF & NK & A). apply KEEP; assumption.
    + assert (NI : ~ In c (all (dt s))) by (rewrite (dy_in _ I), SK; tauto).
      assert (CLN : cleanups (cof (dt s) c) = []) by (apply (dy_cl _ I); rewrite SK; exact NX).
      destruct (dy_ex _ I c) as [NN|(w & base & SW & ES)]; rewrite SK in *; [contradiction|].
      assert (STAY : forall w', all d = all (dt s) -> cleanups (cof d c) = cleanups (cof (dt s) c) -> exit_shape w' -> fs ++ rest = w' ++ base -> (forall b0, k <> CFinal b0) ->
         dy (mkst sch (ctl_dat c (nextid (sc s) + 1) k d) md (now s) (ncalls s) (tick_tr s c v f d fs k))).
      { intros w' A D ES' Q NK. apply (MAIN True); [auto|]. right. assert (NXw : ~ noexit (w' ++ base)) by (apply exit_shape_not; exact ES').
        rewrite Q, A, D. split; [exact NK|]. split; [destruct w'; [destruct (exit_shape_hd _ ES') as (? & ? & ? & _); discriminate | discriminate]|].
        split; [right; eauto|]. split; [tauto|]. auto. }
      assert (FIN : all d = all (dt s) -> (exists b0, k = CFinal b0) ->
         dy (mkst sch (ctl_dat c (nextid (sc s) + 1) k d) md (now s) (ncalls s) (tick_tr s c v f d fs k))).
      { intros A K. apply (MAIN True); [auto|]. left. rewrite A. auto. }
      inversion ES as [a sb w0 Y|a sb|a w0 Y]; subst w; [inversion Y; subst w0 | |inversion Y; subst w0]; cbn in SW; injection SW as -> ->;
        cbn [hret] in E; try (destruct (canceled _ && _); [exact (ASY E)|]).
      * inj E. apply (STAY [FExitGen a sb]); auto; try discriminate. constructor.
      * inj E. apply (STAY ([FClose] ++ [FExitGen a sb])); auto; try discriminate. constructor. constructor.
      * unfold coyield in E. inj E. apply (STAY ([FCoyield; FClose] ++ [FExitGen a sb])); auto; try discriminate. constructor. constructor.
      * inj E. apply (STAY ([FYfsr; FClose] ++ [FExitGen a sb])); auto; try discriminate. constructor. constructor.
      * unfold exit_gen in E. cbv zeta in E. destruct sb; [|inj E; apply FIN; eauto]. apply yfsr_cases in E. destruct E as (-> & -> & [->| ->]).
        -- apply (STAY [FCoyield; FYfsr; FExitFin a]); auto; try discriminate; [cbn; rewrite zupd_eq; reflexivity|]. apply (es_fin a). constructor.
        -- apply (STAY [FCoyield; FExitFin a]); auto; try discriminate; [cbn; rewrite zupd_eq; reflexivity|]. apply (es_fin a). constructor.
      * inj E. apply FIN; eauto.
      * inj E. apply (STAY [FExitFin a]); auto; try discriminate. apply (es_fin a). constructor.
      * unfold coyield in E. inj E. apply (STAY [FCoyield; FExitFin a]); auto; try discriminate. apply (es_fin a). constructor.
      * inj E. apply (STAY [FYfsr; FExitFin a]); auto; try discriminate. apply (es_fin a). constructor.
  - intros s d ws sch md ios RE I M A K X. pose proof (mp_main _ _ _ _ _ _ _ K) as MP.
    assert (C : forall dd d', mprims dd d' -> forall x, cleanups (cof d' x) = cleanups (cof dd x)).
    { clear. intros dd d' P x. induction P; [auto|]. rewrite <- IHP. destruct H; cbn; auto; unfold zupd; destruct (Z.eqb_spec x c); subst; reflexivity. }
    apply sco_switch_frame in X. destruct X as (X1 & _). destruct (wakes_frame ws (sc s)) as (W1 & _).
    destruct I as [I1 I2 I3]. split; cbn [set_sc set_dt set_mode sc dt]; rewrite ?(mprims_all _ _ MP), ?X1, ?W1; auto. intros x. rewrite (C _ _ MP). apply I3.
  - intros s m RE I _. destruct I; split; assumption.
  - intros s e RE I H M. destruct (env_frame s e H) as (E1 & _). destruct I as [I1 I2 I3]. split; rewrite ?(env_all s e H), ?E1; auto. intros x. rewrite (env_cof s e H). apply I3.
  - intros g O. split; cbn [init dt sc].
    + intros x. cbn. unfold zupd. destruct (_ =? _); left; nx.
    + intros x. cbn. unfold zupd. destruct (Z.eqb_spec x (cfg_lastid g + 1)) as [->|N].
      * split; [intros _; split; [discriminate | nx] | auto].
      * split; [intros [H|[]]; congruence | intros [H _]; congruence].
    + intros x NX. exfalso. apply NX. cbn. unfold zupd. destruct (_ =? _); nx.
Qed.

(** a handler to run is on the list *)
Lemma tick_handler : forall c f v b nw d d' fs k z, hret c f v b nw d = (d', fs, k) -> In z (handler_obs c fs k d) -> cleanups (cof d c) <> [].
Proof.
  intros c f v b nw d d' fs k z _ I CL. unfold handler_obs in I. rewrite CL in I. destruct k; try destruct I. destruct fs as [|[] ?]; destruct I.
Qed.
Lemma jpast_exec2 : forall s c d k st' sch md nw nc T N, reach s -> jpast s -> cur (sc s) = Some c ->
  exec c k (set_stk (zupd (stk (sc s)) c st') (sc s)) = (sch, md) -> T = N ++ tr s ->
  (forall y, In y (all d) -> In y (all (dt s))) ->
  (forall z y, In z N -> acts y z -> In y (all (dt s))) ->
  (forall kk x id dl m t, In (TRet kk x (OpJoin id dl) OK m t) N -> N = [TRet kk x (OpJoin id dl) OK m t] /\ ~ In id (all (dt s)) /\ k = CUser) ->
  jpast (mkst sch (ctl_dat c (nextid (sc s) + 1) k d) md nw nc T).
Proof.
  intros s c d k st' sch md nw nc T N RE I CU X -> AM NA NR l1 l2 kk x id dl m t Q IS. cbn [tr dt] in *.
  assert (AL : In id (started (tr s)) -> ~ In id (all d) -> ~ In id (all (ctl_dat c (nextid (sc s) + 1) k d))).
  { intros IST NI J. destruct k; cbn [ctl_dat] in J; try contradiction. destruct (spawn_all (Some c) (nextid (sc s) + 1) isgen d) as (A & _). rewrite A in J.
    apply in_app_or in J. destruct J as [J|[J|[]]]; [contradiction|]. apply (ti_ids _ (reach_tinv _ RE)) in IST. lia. }
  destruct (app_eq_app _ _ _ _ Q) as (l & [[EN EL]|[EN EL]]).
  - destruct l as [|z l].
    + cbn in EL. rewrite app_nil_r in EN. subst l1. symmetry in EL. destruct (I [] l2 _ _ _ _ _ _ EL IS) as [A B].
      split; [apply AL; [rewrite EL; exact IS | auto]|]. intros z J AC. exact (A (NA z id J AC)).
    + cbn in EL. injection EL as <- ->. destruct (NR kk x id dl m t) as (N1 & NI & ->); [rewrite EN; apply in_or_app; right; left; reflexivity|].
      rewrite N1 in EN. destruct l1 as [|z1 l1]; [|destruct l1; discriminate EN]. cbn in EN. injection EN as <-. cbn in IS.
      split; [apply AL; auto | intros z []].
  - destruct (I l l2 _ _ _ _ _ _ EL IS) as [A B]. split.
    + apply AL; [|auto]. rewrite EL. unfold started. rewrite flat_map_app. apply in_or_app. right. exact IS.
    + intros z J AC. rewrite EN in J. apply in_app_or in J. destruct J as [J|J]; [exact (A (NA z id J AC)) | eapply B; eassumption].
Qed.
Theorem preach_jpast : forall s, preach s -> jpast s.
Proof.
  apply (prun_preserves jpast).
  - intros s c o d fs k sch md RE I M CU U NR E X. pose proof (preach_dy _ (proj1 RE)) as AL. apply pj_reach in RE.
    assert (CA : In c (all (dt s))). { apply (dy_in _ AL). split; [inversion U; discriminate | apply ustack_noexit2; [exact U | apply (dy_ex _ AL)]]. }
    eapply (jpast_exec2 s c) with (N := ctl_obs c (nextid (sc s) + 1) k ++ handler_obs c fs k (dt s) ++ call_obs c (ncalls s) o s); try eassumption.
    + rewrite <- !app_assoc. reflexivity.
    + eapply prims_all, hcall_prims, E.
    + intros z y J A. assert (y = c); [|subst; exact CA]. apply in_app_or in J. destruct J as [J|J]; [|apply in_app_or in J; destruct J as [J|J]].
      * destruct k; cbn in J; intuition (subst; contradiction).
      * eapply handler_acts; eassumption.
      * destruct o; cbn in J; intuition (subst; cbn in A; congruence || contradiction).
    + intros kk x id dl m t J. exfalso. apply in_app_or in J. destruct J as [J|J]; [eapply ctl_obs_noret; exact J|].
      apply in_app_or in J. destruct J as [J|J]; [eapply handler_obs_noret; exact J | eapply call_obs_noret; exact J].
  - intros s c v f rest b d fs k sch md RE I M CU SK L E X. pose proof (preach_dy _ (proj1 RE)) as AL. apply pj_reach in RE.
    eapply (jpast_exec2 s c) with (N := ctl_obs c (nextid (sc s) + 1) k ++ handler_obs c fs k (dt s) ++ ret_obs c f v (d, fs, k) s); try eassumption.
    + rewrite <- !app_assoc. reflexivity.
    + eapply prims_all, hret_prims, E.
    + intros z y J A. apply in_app_or in J. destruct J as [J|J]; [|apply in_app_or in J; destruct J as [J|J]].
      * destruct k; cbn in J; intuition (subst; contradiction).
      * assert (y = c) by (eapply handler_acts; eassumption). subst y. apply (tick_handler _ _ _ _ _ _ _ _ _ _ E) in J.
        apply (dy_in _ AL). split; [rewrite SK; discriminate|]. destruct (noexit_dec (stk (sc s) c)) as [N|N]; [exact N|]. destruct (J (dy_cl _ AL c N)).
      * exfalso. destruct f; cbn in J; try destruct J. destruct fs; [|destruct J]. destruct k; try destruct J as [<-|[]]; try destruct J; exact A.
    + intros kk x id dl m t J. apply in_app_or in J. destruct J as [J|J]; [exfalso; eapply ctl_obs_noret; exact J|].
      apply in_app_or in J. destruct J as [J|J]; [exfalso; eapply handler_obs_noret; exact J|].
      destruct f; try destruct J. destruct fs; [|destruct J]. destruct k; try (destruct J; fail); cbn in J; destruct J as [J|[]]. cbn.
      injection J as -> -> -> -> <- <-. split; [reflexivity|]. split; [|reflexivity]. eapply (reach_jdone _ RE); try eassumption. reflexivity.
  - intros s d ws sch md ios RE I M A K X. pose proof (mp_main _ _ _ _ _ _ _ K) as MP.
    intros l1 l2 k x id dl m t Q IS. cbn [set_sc set_dt set_mode sc dt tr] in *. rewrite (mprims_all _ _ MP). eapply I; eassumption.
  - intros s m RE I _. exact I.
  - intros s e RE I H M. intros l1 l2 k x id dl m t Q IS.
    rewrite (env_all s e H). destruct (env_tr s e H) as [T|(w & T)]; rewrite T in Q; [eapply I; eassumption|].
    destruct l1 as [|z l1]; [discriminate Q|]. injection Q as <- Q. destruct (I _ _ _ _ _ _ _ _ Q IS) as [A B]. split; [exact A|].
    intros z [<-|J]; [exact (fun A => A) | apply B, J].
  - intros g O l1 l2 k x id dl m t Q IS. cbn in Q. destruct l1 as [|? [|? ?]]; discriminate Q.
Qed.
