(** The set of live coroutines, as long as nobody uses asynchronous cancellation. *)
From Coq Require Import List ZArith Bool Lia.
From Verif Require Import AATreeSpec AATreeHist Util Runtime SchedInv StepInv StackShape RuntimeSpec TraceInv Immediate Prims StaticInv QueueInv OwnInv WaitInv SpecInv TraceStep.
Import ListNotations.
Local Open Scope Z_scope.

(** asynchronous cancellation is never enabled *)
Definition deferred (s : state) : Prop :=
  env_async (dt s) = false /\ forall k c t, ~ In (TCall k c (OpSetType true) t) (tr s).

Definition exitf (f : frame) : bool := match f with FExitGen _ _ | FExitFin _ => true | _ => false end.
Definition noexit (st : list frame) : Prop := forall f, In f st -> exitf f = false.
Definition exok (st : list frame) : Prop := noexit st \/ exists w base, st = w ++ base /\ exit_shape w /\ noexit base.

Lemma noexit_app : forall a b, noexit a -> noexit b -> noexit (a ++ b).
Proof. intros a b A B f I. apply in_app_or in I. destruct I; auto. Qed.
Lemma noexit_cons : forall f a, exitf f = false -> noexit a -> noexit (f :: a).
Proof. intros f a F A g [<-|I]; auto. Qed.
Lemma noexit_nil : noexit []. Proof. intros f []. Qed.
Lemma noexit_tl : forall f a, noexit (f :: a) -> noexit a.
Proof. intros f a N g I. apply N. right. exact I. Qed.
Lemma exit_shape_not : forall w base, exit_shape w -> ~ noexit (w ++ base).
Proof.
  intros w base E N. assert (H : exists f, In f w /\ exitf f = true).
  { inversion E as [a s w0 Y|a s|a w0 Y]; subst.
    - exists (FExitGen a s). split; [apply in_or_app; right; left; reflexivity | reflexivity].
    - exists (FExitGen a s). split; [left; reflexivity | reflexivity].
    - exists (FExitFin a). split; [inversion Y; subst; cbn; auto | reflexivity]. }
  destruct H as (f & I & F). specialize (N f). rewrite N in F; [discriminate | apply in_or_app; auto].
Qed.
Lemma exit_shape_hd : forall w, exit_shape w -> exists f r, w = f :: r /\
  match f with FCoyield | FYfsr | FClose | FExitGen _ _ | FExitFin _ => True | _ => False end.
Proof.
  intros w E. inversion E as [a s w0 Y|a s|a w0 Y]; subst; try (inversion Y; subst); cbn; do 2 eexists; split; try reflexivity; exact I.
Qed.
Lemma ustack_noexit : forall st, ustack st -> exok st -> noexit st.
Proof.
  intros st U [N|(w & base & -> & E & N)]; [exact N|]. exfalso. destruct (exit_shape_hd _ E) as (f & r & -> & H).
  cbn in U. inversion U; subst; exact H.
Qed.
Ltac nx := intros ? ?; cbn in *; intuition (subst; reflexivity).
Lemma pz_noexit : forall f w, pz f w -> exitf f = false -> noexit w.
Proof. intros f w P F. inversion P; subst; intros g I; cbn in I; intuition (subst; auto). Qed.
Lemma yf_noexit : forall l w, yf l w -> noexit l -> noexit w.
Proof. intros l w P F. inversion P; subst; repeat apply noexit_cons; auto. Qed.
Lemma shape_noexit : forall o w, shape o w -> noexit w.
Proof.
  intros o w S. inversion S; subst; try (eapply pz_noexit; [eassumption | reflexivity]);
    try (eapply yf_noexit; [eassumption|]; apply noexit_cons; [reflexivity | apply noexit_nil]);
    repeat (apply noexit_cons; [reflexivity|]); try apply noexit_nil.
  apply noexit_app; [eapply pz_noexit; [eassumption | reflexivity]|]. apply noexit_cons; [reflexivity | apply noexit_nil].
Qed.
Lemma hcall_noexit : forall c o nw d d' fs k, hcall c o nw d = (d', fs, k) -> o <> OpExit ->
  noexit fs /\ forall b, k <> CFinal b.
Proof.
  intros c o nw d d' fs k E NO. split; [|intros b ->; apply NO; destruct (hcall_next _ _ _ _ _ _ _ E) as [[]|[(h & _ & _ & H & _)|(-> & _)]]; [discriminate | reflexivity]].
  destruct (hcall_next _ _ _ _ _ _ _ E) as [N|[(h & -> & -> & -> & _)|(-> & _)]]; [| |contradiction].
  - destruct k; cbn in N; try contradiction; try (eapply shape_noexit; exact N).
  - apply noexit_cons; [reflexivity | apply noexit_nil].
Qed.
Lemma coexit_rest_shape : forall c a d d' fs k, coexit_rest c a d = (d', fs, k) ->
  (fs = [] /\ k = CFinal a) \/ (exit_shape fs /\ (k = CYield \/ exists v, k = CRet v)).
Proof.
  intros c a d d' fs k E. unfold coexit_rest in E.
  match type of E with context [gen (cof ?x c)] => set (dd := x) in E end.
  match type of E with context [if ?x then yfsr _ _ else _] => set (sb := x) in E end.
  destruct (gen (cof dd c)) as [g|].
  - destruct (do_close g dd) as [[d1 fs1] k1] eqn:C. inj E.
    apply do_close_cases in C. destruct C as [(-> & v & ->)|(-> & [->| ->])]; right; split; eauto.
    + apply es_gen0.
    + apply (es_gen a sb [FCoyield; FYfsr; FClose]). constructor.
    + apply (es_gen a sb [FCoyield; FClose]). constructor.
  - destruct sb; [|inj E; auto]. apply yfsr_cases in E. destruct E as (-> & -> & [->| ->]); right; split; eauto.
    + eapply es_fin. apply yf_3.
    + eapply es_fin. apply yf_1.
Qed.
(** continuations other than exits push no exit frames *)
Ltac nox E :=
  match type of E with
  | copause _ _ _ _ = _ => apply copause_cases in E; destruct E as [(-> & -> & _)|(-> & -> & _)]; (split; [nx | discriminate])
  | yfsr _ _ = _ => apply yfsr_cases in E; destruct E as (_ & -> & [->| ->]); (split; [nx | discriminate])
  | (_, _, _) = _ => inj E; split; [nx | discriminate]
  | coyield _ _ = _ => unfold coyield in E; inj E; split; [nx | discriminate]
  | context [checkdl ?a ?b ?c ?d] => destruct (checkdl a b c d); nox E
  | context [mu_trylock ?a ?b ?c ?d ?e ?f] => destruct (mu_trylock a b c d e f); nox E
  | context [if ?x then _ else _] => destruct x; nox E
  end.
Lemma hret_noexit : forall c f v b nw d d' fs k, hret c f v b nw d = (d', fs, k) ->
  casync (cof d c) = false -> f <> FEntry -> f <> FExitLoop -> exitf f = false -> noexit fs /\ forall b, k <> CFinal b.
Proof.
  intros c f v b nw d d' fs k E CA N1 N2 N3. destruct f; cbn [hret] in E; rewrite ?CA, ?andb_false_r in E; try congruence; try (nox E; fail); try discriminate N3.
  - unfold sleep_end in E. nox E.
  - unfold do_cancel in E. nox E.
  - unfold sigwait_end in E. nox E.
  - unfold wait_end in E. nox E.
  - unfold send_end in E. nox E.
  - unfold recv_end in E. nox E.
  - unfold select_end in E. nox E.
  - unfold lock_end in E. nox E.
  - unfold wgwait_end in E. nox E.
  - unfold cvwait_unlocked in E. nox E.
  - unfold cvwait_end, cv_relock, finish_lock in E. nox E.
  - destruct (_ =? _); [nox E|]. unfold cv_relock, finish_lock in E. nox E.
  - unfold join_end in E. nox E.
  - unfold suspend_end in E. nox E.
  - unfold work_submit in E. nox E.
Qed.

Record alli (s : state) : Prop := {
  al_async : forall x, casync (cof (dt s) x) = false;
  al_ex : forall x, exok (stk (sc s) x);
  al_nd : NoDup (all (dt s));
  al_cnt : allcount (dt s) = Z.of_nat (length (all (dt s)));
  al_in : forall x, In x (all (dt s)) <-> stk (sc s) x <> [] /\ noexit (stk (sc s) x)
}.

Lemma remove1_len : forall x l, NoDup l -> In x l -> Z.of_nat (length (remove1 x l)) = Z.of_nat (length l) - 1.
Proof.
  intros x l ND. induction ND as [|y l NI ND IH]; intros I; [destruct I|]. unfold remove1 in *. cbn [filter length]. destruct (Z.eqb_spec x y) as [->|N]; cbn [negb length].
  - rewrite Nat2Z.inj_succ. assert (E : filter (fun z => negb (y =? z)) l = l).
    { apply filter_all. intros z J. destruct (Z.eqb_spec y z) as [->|]; [contradiction | reflexivity]. }
    rewrite E. lia.
  - destruct I as [->|I]; [congruence|]. specialize (IH I). lia.
Qed.
Lemma spawn_all : forall p n g d, all (spawn_dat p n g d) = all d ++ [n] /\ allcount (spawn_dat p n g d) = allcount d + 1 /\ env_async (spawn_dat p n g d) = env_async d.
Proof.
  intros p n g d. unfold spawn_dat, popq, new_chan. destruct (q d QPool), g, p; cbn; auto.
Qed.
Lemma spawn_casync : forall p n g d, casync (cof (spawn_dat p n g d) n) = env_async d.
Proof.
  intros p n g d. unfold spawn_dat, popq, new_chan. destruct (q d QPool), g, p; cbn; rewrite zupd_eq; reflexivity.
Qed.

(** one step of [c], with what it does to the set *)
Lemma alli_exec : forall s c d k st' sch md nw nc T,
  full s -> cur (sc s) = Some c -> alli s ->
  exec c k (set_stk (zupd (stk (sc s)) c st') (sc s)) = (sch, md) -> env_async (dt s) = false -> env_async d = env_async (dt s) ->
  (forall x, casync (cof d x) = false) ->
  (all d = all (dt s) /\ allcount d = allcount (dt s) /\ (noexit st' <-> noexit (stk (sc s) c)) /\ exok st' /\ st' <> [] /\ (forall b, k <> CFinal b)) \/
  (all d = all (dt s) /\ allcount d = allcount (dt s) /\ ~ noexit (stk (sc s) c) /\ (exists b, k = CFinal b)) \/
  (all d = remove1 c (all (dt s)) /\ allcount d = allcount (dt s) - 1 /\ noexit (stk (sc s) c) /\ ((exists b, k = CFinal b) \/ ((forall b, k <> CFinal b) /\ (forall g, k <> CSpawn g) /\ exok st' /\ ~ noexit st'))) ->
  alli (mkst sch (ctl_dat c (nextid (sc s) + 1) k d) md nw nc T).
Proof.
  intros s c d k st' sch md nw nc T F CU [I1 I2 I3 I4 I5] X EA EA2 CA H.
  pose proof (cur_notfresh _ _ F CU) as NFR. set (n := nextid (sc s) + 1) in *.
  assert (AL : stk (sc s) c <> []) by (destruct F as [[SI _] _]; apply cur_alive; assumption).
  assert (FR : ~ In n (all (dt s))). { intros IN. apply I5 in IN. destruct IN as [IN _]. apply IN, stk_fresh, F. }
  pose proof (exec_stk_cases _ _ _ _ _ X NFR) as ST. cbn [set_stk stk nextid] in ST. fold n in ST.
  assert (STc : stk sch c = match k with CFinal _ => [] | _ => st' end).
  { destruct (ST c) as [[_ Q]|[(? & _)|(? & _)]]; [|contradiction|contradiction]. rewrite Q, zupd_eq. reflexivity. }
  assert (STo : forall x, x <> c -> (exists g, k = CSpawn g) /\ x = n /\ stk sch x = [FEntry] \/ stk sch x = stk (sc s) x /\ forall g, k = CSpawn g -> x <> n).
  { intros x NE. destruct (ST x) as [[? _]|[(_ & -> & G & Q)|(_ & Q & G)]]; [contradiction|left; auto|right]. rewrite zupd_neq in Q by exact NE. auto. }
  assert (ALL2 : (forall g, k <> CSpawn g) /\ all (ctl_dat c n k d) = all d /\ allcount (ctl_dat c n k d) = allcount d \/
     (exists g, k = CSpawn g) /\ all (ctl_dat c n k d) = all d ++ [n] /\ allcount (ctl_dat c n k d) = allcount d + 1).
  { destruct k; try (left; split; [discriminate|]; auto; fail). right. split; [eauto|]. cbn [ctl_dat]. destruct (spawn_all (Some c) n isgen d) as (A & B & _). auto. }
  split; cbn [sc dt].
  - intros x. destruct k; cbn [ctl_dat]; try apply CA. destruct (Z.eq_dec x n) as [->|NE]; [rewrite spawn_casync; congruence|].
    rewrite spawn_cof by exact NE. destruct (x =? c); destruct isgen; try apply CA; cbn; apply CA.
  - intros x. destruct (Z.eq_dec x c) as [->|NE].
    + rewrite STc. destruct k; try (destruct H as [(_ & _ & _ & E & _)|[(_ & _ & _ & (b & Q))|(_ & _ & _ & [(b & Q)|(_ & _ & E & _)])]]; try discriminate Q; exact E).
      left. apply noexit_nil.
    + destruct (STo x NE) as [(_ & _ & ->)|(-> & _)]; [left; nx | apply I2].
  - assert (ND : NoDup (all d) /\ ~ In n (all d)).
    { destruct H as [(E & _)|[(E & _)|(E & _)]]; rewrite E; auto. split; [apply NoDup_filter, I3 | intros IN; apply remove1_In in IN; tauto]. }
    destruct ALL2 as [(_ & -> & _)|(_ & -> & _)]; [apply ND | apply NoDup_snoc; apply ND].
  - assert (LN : allcount d = Z.of_nat (length (all d))).
    { destruct H as [(E1 & E2 & _)|[(E1 & E2 & _)|(E1 & E2 & NX & _)]]; rewrite E1, E2; auto. rewrite remove1_len; [lia | exact I3 | apply I5; auto]. }
    destruct ALL2 as [(_ & -> & ->)|(_ & -> & ->)]; [exact LN | rewrite app_length; cbn; lia].
  - intros x.
    assert (AX : In x (all (ctl_dat c n k d)) <-> In x (all d) \/ ((exists g, k = CSpawn g) /\ x = n)).
    { destruct ALL2 as [(G & -> & _)|(G & -> & _)]; [|rewrite in_app_iff; cbn; intuition].
      split; [auto|]. intros [A|[(g & A) _]]; [exact A | destruct (G g A)]. }
    rewrite AX. destruct (Z.eq_dec x c) as [->|NE].
    + rewrite STc. assert (NC : ~ ((exists g, k = CSpawn g) /\ c = n)) by (intros [_ Q]; congruence).
      destruct H as [(E & _ & NX & _ & NN & NF)|[(E & _ & NX & (b & ->))|(E & _ & NX & [(b & ->)|(NF & NS & _ & NX2)])]]; rewrite E.
      * rewrite I5. assert (Q : match k with CFinal _ => [] | _ => st' end = st') by (destruct k; try reflexivity; destruct (NF tomain eq_refl)).
        rewrite Q. tauto.
      * rewrite I5. tauto.
      * split; [intros [A|A]; [apply remove1_In in A; tauto | tauto] | tauto].
      * assert (Q : match k with CFinal _ => [] | _ => st' end = st') by (destruct k; try reflexivity; destruct (NF tomain eq_refl)).
        rewrite Q. split; [intros [A|A]; [apply remove1_In in A; tauto | tauto] | tauto].
    + assert (AD : In x (all d) <-> In x (all (dt s))).
      { destruct H as [(E & _)|[(E & _)|(E & _)]]; rewrite E; try tauto. rewrite remove1_In. intuition congruence. }
      rewrite AD. destruct (STo x NE) as [(G & -> & ->)|(-> & G)].
      * split; [|auto]. intros _. split; [discriminate | nx].
      * rewrite I5. split; [intros [A|[(g & A) B]]; [exact A | destruct (G g A B)] | auto].
Qed.

Lemma sp_env : forall c d d', sp c d d' -> all d' = all d /\ allcount d' = allcount d /\ env_async d' = env_async d /\ forall x, casync (cof d' x) = casync (cof d x).
Proof.
  intros c d d' [G C _ _]. unfold spg in G. injection G; intros. repeat split; auto. intros x. specialize (C x). unfold spc in C. injection C; auto.
Qed.
Lemma do_cancel_all : forall c id dl nw d d' fs k, do_cancel c id dl nw d = (d', fs, k) ->
  all d' = all d /\ allcount d' = allcount d /\ env_async d' = env_async d /\ forall x, casync (cof d' x) = casync (cof d x).
Proof.
  intros c id dl nw d d' fs k E. destruct (do_cancel_sp _ _ _ _ _ _ _ _ E) as [[S _]|(_ & d1 & S & _ & -> & _)]; [eapply sp_env; exact S|].
  apply sp_env in S. destruct S as (A & B & C & D). cbn. repeat split; auto. intros x. unfold zupd. destruct (Z.eqb_spec x id) as [->|]; cbn; auto.
Qed.
Lemma hcall_all : forall c o nw d d' fs k, hcall c o nw d = (d', fs, k) -> o <> OpExit -> o <> OpSetType true ->
  (forall x, casync (cof d x) = false) ->
  all d' = all d /\ allcount d' = allcount d /\ env_async d' = env_async d /\ forall x, casync (cof d' x) = false.
Proof.
  intros c o nw d d' fs k E N1 N2 CA. destruct (special o) eqn:S.
  - pose proof (hcall_special _ _ _ _ _ _ _ E S) as H. destruct o; try discriminate S; try congruence.
    + destruct (do_cancel_all _ _ _ _ _ _ _ _ H) as (A & B & C & D). repeat split; auto. intros x. rewrite D. apply CA.
    + destruct H as (-> & _). destruct async; [congruence|]. cbn. repeat split; auto. intros x. unfold zupd. destruct (x =? c); [reflexivity | apply CA].
    + destruct H as (-> & _). cbn. repeat split; auto. intros x. unfold zupd. destruct (x =? c); apply CA.
    + unfold do_sigwatch in H. repeat match type of H with context [if ?b then _ else _] => destruct b end; inj H; cbn; repeat split; auto; intros x; unfold zupd; destruct (x =? c); apply CA.
    + unfold do_sigunwatch in H. repeat match type of H with context [if ?b then _ else _] => destruct b end; inj H; cbn; repeat split; auto; intros x; unfold zupd; destruct (x =? c); apply CA.
    + destruct H as (-> & _). cbn. repeat split; auto. intros x. unfold zupd. destruct (x =? c); apply CA.
    + unfold do_cleanup_pop in H. destruct (cleanups (cof d c)); [inj H; auto|]. destruct exec; inj H; cbn; repeat split; auto; intros x; unfold zupd; destruct (x =? c); apply CA.
  - apply hcall_sp in E; [|exact S]. apply sp_env in E. destruct E as (A & B & C & D). repeat split; auto. intros x. rewrite D. apply CA.
Qed.
Lemma noexit_iff : forall a b, noexit a -> noexit b -> (noexit a <-> noexit b).
Proof. tauto. Qed.
Theorem reach_alli : forall s, reach s -> deferred s -> alli s.
Proof.
  apply (rrun_preserves (fun s => deferred s -> alli s)).
  - intros s c o d fs k sch md RE I M CU U NR E X [DE DT]. cbn [dt tr] in DE, DT. pose proof (reach_full _ RE) as F.
    assert (TO : forall kk cc tt, ~ In (TCall kk cc (OpSetType true) tt) (tr s)) by (intros kk cc tt H; eapply DT; apply call_tr_old; exact H).
    assert (NS : o <> OpSetType true) by (intros ->; eapply DT; apply call_tr_new).
    assert (EE : env_async d = env_async (dt s) /\ env_async (dt s) = false).
    { assert (Q : env_async d = env_async (dt s)).
      { eapply (prims_const c bool env_async); [|eapply hcall_prims; exact E]. intros a b PP; destruct PP; reflexivity. }
      split; [exact Q|]. rewrite <- Q. rewrite <- DE. destruct k; try reflexivity. cbn [ctl_dat]. symmetry. apply spawn_all. }
    destruct EE as [EE1 EE2]. specialize (I (conj EE2 TO)). pose proof (ustack_noexit _ U (al_ex _ I c)) as NX.
    assert (DO : o = OpExit \/ o <> OpExit) by (destruct o; auto; right; discriminate).
    destruct DO as [->|NO].
    + pose proof (hcall_special _ _ _ _ _ _ _ E eq_refl) as EX. cbn in EX.
      destruct EX as [h l CL -> -> ->|a ER].
      * eapply (alli_exec s c); try eassumption.
        -- intros x. cbn. unfold zupd. destruct (x =? c); apply (al_async _ I).
        -- left. cbn. repeat split; auto; try discriminate; [intros _; apply noexit_cons; [reflexivity|]; apply noexit_cons; [reflexivity | exact NX] |].
           left. apply noexit_cons; [reflexivity|]; apply noexit_cons; [reflexivity | exact NX].
      * pose proof (coexit_rest_sp _ _ _ _ _ _ ER) as S. apply sp_env in S. cbn in S. destruct S as (A & B & _ & D).
        eapply (alli_exec s c); try eassumption.
        -- intros x. rewrite D. apply (al_async _ I).
        -- right; right. repeat split; auto. destruct (coexit_rest_shape _ _ _ _ _ _ ER) as [(-> & ->)|(ES & K)]; [left; eauto | right].
           split; [intros b ->; destruct K as [K|(v & K)]; discriminate|]. split; [intros g ->; destruct K as [K|(v & K)]; discriminate|].
           split; [|apply exit_shape_not; exact ES]. right. exists fs, (FApi (ncalls s) OpExit :: stk (sc s) c). repeat split; auto.
           apply noexit_cons; [reflexivity | exact NX].
    + destruct (hcall_all _ _ _ _ _ _ _ E NO NS (al_async _ I)) as (A & B & _ & D). destruct (hcall_noexit _ _ _ _ _ _ _ E NO) as [NF NK].
      eapply (alli_exec s c); try eassumption.
      assert (NN : noexit (fs ++ FApi (ncalls s) o :: stk (sc s) c)) by (apply noexit_app; [exact NF | apply noexit_cons; [reflexivity | exact NX]]).
      left. repeat split; auto; [left; exact NN | destruct fs; discriminate].
  - intros s c v f rest b d fs k sch md RE I M CU SK L E X [DE DT]. cbn [dt tr] in DE, DT. pose proof (reach_full _ RE) as F.
    assert (TO : forall kk cc tt, ~ In (TCall kk cc (OpSetType true) tt) (tr s)) by (intros kk cc tt H; eapply DT; apply (tick_tr_old s c v f d fs k); exact H).
    assert (EE : env_async d = env_async (dt s) /\ env_async (dt s) = false).
    { assert (Q : env_async d = env_async (dt s)).
      { eapply (prims_const c bool env_async); [|eapply hret_prims; exact E]. intros x y PP; destruct PP; reflexivity. }
      split; [exact Q|]. rewrite <- Q. rewrite <- DE. destruct k; try reflexivity. cbn [ctl_dat]. symmetry. apply spawn_all. }
    destruct EE as [EE1 EE2]. specialize (I (conj EE2 TO)). pose proof (al_async _ I c) as CA.
    pose proof (hret_sp _ _ _ _ _ _ _ _ _ E) as S.
    assert (EXR : forall d0, d0 = dt s -> noexit (f :: rest) -> (exists a, coexit_rest c a d0 = (d, fs, k)) ->
      alli (mkst sch (ctl_dat c (nextid (sc s) + 1) k d) md (now s) (ncalls s) (tick_tr s c v f d fs k))).
    { intros d0 -> NX (a & ER). pose proof (coexit_rest_sp _ _ _ _ _ _ ER) as S2. apply sp_env in S2. cbn in S2. destruct S2 as (A & B & _ & D).
      eapply (alli_exec s c); try eassumption.
      - intros x. rewrite D. apply (al_async _ I).
      - right; right. rewrite SK. repeat split; auto. destruct (coexit_rest_shape _ _ _ _ _ _ ER) as [(-> & ->)|(ES & K)]; [left; eauto | right].
        split; [intros b0 ->; destruct K as [K|(v0 & K)]; discriminate|]. split; [intros g ->; destruct K as [K|(v0 & K)]; discriminate|].
        split; [|apply exit_shape_not; exact ES]. right. exists fs, rest. repeat split; auto. eapply noexit_tl; exact NX. }
    assert (EXF : fs ++ rest <> [] \/ exists b0, k = CFinal b0).
    { pose proof (hret_next _ _ _ _ _ _ _ _ _ _ L E) as N. destruct k; cbn in N; try (left; apply lstack_nonnil; exact N);
        try (right; eauto; fail). left. apply lstack_nonnil, ls_user. exact N. }
    destruct (al_ex _ I c) as [NX|(w & base & SW & ES & NB)]; rewrite SK in *.
    + assert (D1 : f = FEntry \/ f = FExitLoop \/ (f <> FEntry /\ f <> FExitLoop)) by (destruct f; auto; right; right; split; discriminate).
      destruct D1 as [->|[->|(N1 & N2)]].
      * eapply EXR; [reflexivity | exact NX | eauto].
      * destruct S as [h l CL -> -> ->|a ER]; [|eapply EXR; [reflexivity | exact NX | eauto]].
        eapply (alli_exec s c); try eassumption.
        -- intros x. cbn. unfold zupd. destruct (x =? c); apply (al_async _ I).
        -- left. rewrite SK. cbn. repeat split; auto; try discriminate. left. exact NX.
      * assert (XF : exitf f = false) by (apply NX; left; reflexivity).
        destruct (hret_noexit _ _ _ _ _ _ _ _ _ E CA N1 N2 XF) as [NF NK].
        assert (SPE : all d = all (dt s) /\ allcount d = allcount (dt s) /\ env_async d = env_async (dt s) /\ forall x, casync (cof d x) = casync (cof (dt s) x)).
        { destruct f; try congruence; try discriminate XF; try (eapply sp_env; exact S);
            try (destruct S as [S|(_ & S & _)]; [eapply sp_env; exact S | congruence]).
          apply do_cancel_all in S. cbn in S. exact S. }
        destruct SPE as (A & B & _ & D).
        eapply (alli_exec s c); try eassumption.
        -- intros x. rewrite D. apply (al_async _ I).
        -- left. rewrite SK. assert (NN : noexit (fs ++ rest)) by (apply noexit_app; [exact NF | eapply noexit_tl; exact NX]).
           repeat split; auto; [left; exact NN|]. destruct EXF as [H|(b0 & H)]; [exact H | destruct (NK b0 H)].
    + assert (NXs : ~ noexit (stk (sc s) c)) by (rewrite SK, SW; apply exit_shape_not; exact ES).
      assert (STAY : forall w', all d = all (dt s) -> allcount d = allcount (dt s) -> (forall x, casync (cof d x) = casync (cof (dt s) x)) ->
         exit_shape w' -> fs ++ rest = w' ++ base -> (forall b0, k <> CFinal b0) ->
         alli (mkst sch (ctl_dat c (nextid (sc s) + 1) k d) md (now s) (ncalls s) (tick_tr s c v f d fs k))).
      { intros w' A B D ES' Q NK. eapply (alli_exec s c); try eassumption.
        - intros x. rewrite D. apply (al_async _ I).
        - left. rewrite Q. assert (NXw : ~ noexit (w' ++ base)) by (apply exit_shape_not; exact ES').
          repeat split; auto; try tauto; [right; eauto | destruct w'; [destruct (exit_shape_hd _ ES') as (? & ? & ? & _); discriminate | discriminate]]. }
      assert (FIN : all d = all (dt s) -> allcount d = allcount (dt s) -> (forall x, casync (cof d x) = casync (cof (dt s) x)) -> (exists b0, k = CFinal b0) ->
         alli (mkst sch (ctl_dat c (nextid (sc s) + 1) k d) md (now s) (ncalls s) (tick_tr s c v f d fs k))).
      { intros A B D K. eapply (alli_exec s c); try eassumption; [intros x; rewrite D; apply (al_async _ I)|]. right; left. auto. }
      assert (GN : forall x, casync (cof (upco c (set_gen None) (dt s)) x) = casync (cof (dt s) x)).
      { intros x. cbn. unfold zupd. destruct (Z.eqb_spec x c) as [->|]; reflexivity. }
      inversion ES as [a sb w0 Y|a sb|a w0 Y]; subst w; [inversion Y; subst w0 | |inversion Y; subst w0]; cbn in SW; injection SW as -> ->;
        cbn [hret] in E; rewrite ?CA, ?andb_false_r in E.
      * inj E. apply (STAY [FExitGen a sb]); auto; try discriminate. constructor.
      * inj E. apply (STAY ([FClose] ++ [FExitGen a sb])); auto; try discriminate. constructor. constructor.
      * unfold coyield in E. inj E. apply (STAY ([FCoyield; FClose] ++ [FExitGen a sb])); auto; try discriminate. constructor. constructor.
      * inj E. apply (STAY ([FYfsr; FClose] ++ [FExitGen a sb])); auto; try discriminate. constructor. constructor.
      * destruct S as (-> & [(-> & ->)|Y2]); [apply FIN; eauto|]. apply yfsr_cases in Y2. destruct Y2 as (_ & -> & [->| ->]).
        -- apply (STAY [FCoyield; FYfsr; FExitFin a]); auto; try discriminate. apply (es_fin a). constructor.
        -- apply (STAY [FCoyield; FExitFin a]); auto; try discriminate. apply (es_fin a). constructor.
      * inj E. apply FIN; eauto.
      * inj E. apply (STAY [FExitFin a]); auto; try discriminate. apply (es_fin a). constructor.
      * unfold coyield in E. inj E. apply (STAY [FCoyield; FExitFin a]); auto; try discriminate. apply (es_fin a). constructor.
      * inj E. apply (STAY [FYfsr; FExitFin a]); auto; try discriminate. apply (es_fin a). constructor.
  - intros s d ws sch md ios RE I M A K X D. pose proof (mp_main _ _ _ _ _ _ _ K) as MP.
    assert (C : forall dd d', mprims dd d' -> all d' = all dd /\ allcount d' = allcount dd /\ env_async d' = env_async dd /\ forall x, casync (cof d' x) = casync (cof dd x)).
    { clear. intros dd d' P. induction P; [auto|]. destruct IHP as (A & B & C & D).
      assert (G : all d2 = all d1 /\ allcount d2 = allcount d1 /\ env_async d2 = env_async d1 /\ forall x, casync (cof d2 x) = casync (cof d1 x)).
      { destruct H; cbn; repeat split; auto; intros x; unfold zupd; destruct (Z.eqb_spec x c); subst; reflexivity. }
      destruct G as (G1 & G2 & G3 & G4). repeat split; try congruence. }
    destruct (C _ _ MP) as (C1 & C2 & C3 & C4). destruct D as [DE DT]. cbn in DE, DT. rewrite C3 in DE. specialize (I (conj DE DT)).
    apply sco_switch_frame in X. destruct X as (X1 & _). destruct (wakes_frame ws (sc s)) as (W1 & _).
    destruct I as [I1 I2 I3 I4 I5]. split; cbn [set_sc set_dt set_mode sc dt]; rewrite ?C1, ?C2, ?X1, ?W1; auto. intros x. rewrite C4. apply I1.
  - intros s m RE I _ D. specialize (I D). destruct I; split; assumption.
  - intros s e RE I H M [DE DT].
    assert (C : all (dt (step s e)) = all (dt s) /\ allcount (dt (step s e)) = allcount (dt s) /\ env_async (dt (step s e)) = env_async (dt s)).
    { destruct e; try contradiction; cbn;
      repeat match goal with |- context [if ?b then _ else _] => destruct b | |- context [match mode ?z with _ => _ end] => destruct (mode z)
        | |- context [match stk (sc ?z) ?c with _ => _ end] => destruct (stk (sc z) c) as [|[] ?] end; cbn; auto. }
    destruct C as (C1 & C2 & C3). destruct (env_frame s e H) as (E1 & _).
    assert (D : deferred s) by (split; [congruence | intros kk cc tt HH; eapply DT; apply env_tr_old; [exact H | exact HH]]).
    destruct (I D) as [I1 I2 I3 I4 I5]. split; rewrite ?C1, ?C2, ?E1; auto. intros x. rewrite (env_cof s e H). apply I1.
  - intros g O [DE DT]. cbn [init dt] in DE. split; cbn [init dt sc].
    + intros x. destruct (Z.eq_dec x (cfg_lastid g + 1)) as [->|N]; [rewrite spawn_casync; cbn | rewrite spawn_cof by exact N; reflexivity].
      destruct (spawn_all None (cfg_lastid g + 1) false (dat0 g)) as (_ & _ & Q). rewrite Q in DE. exact DE.
    + intros x. cbn. unfold zupd. destruct (_ =? _); left; nx.
    + cbn. repeat constructor; intros [].
    + reflexivity.
    + intros x. cbn. unfold zupd. destruct (Z.eqb_spec x (cfg_lastid g + 1)) as [->|N].
      * split; [intros _; split; [discriminate | nx] | auto].
      * split; [intros [H|[]]; congruence | intros [H _]; congruence].
Qed.
