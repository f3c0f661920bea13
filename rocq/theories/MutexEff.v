(** What each mutex operation does to its mutex. *)
From Coq Require Import List ZArith Bool Lia.
From Verif Require Import AATreeSpec AATreeHist Util Runtime SchedInv StepInv StackShape RuntimeSpec Prims Footprint QueueInv OwnInv.
Import ListNotations.
Local Open Scope Z_scope.

(** unused mutex memory: nobody is queued *)
Definition free0 (m : nat) (d : dat) : Prop := mrt (mux d m) = 0 -> mlocked (mux d m) = false /\ mrl (mux d m) = 0 /\ q d (QMu m) = [].

Lemma upmu_eq : forall m f d, mux (upmu m f d) m = f (mux d m).
Proof. intros. unfold upmu. cbn. apply nupd_eq. Qed.
Lemma mu_init_eq : forall m d, mux (mu_init m d) m = mkmu (rtid d) false 0 /\ q (mu_init m d) (QMu m) = [] /\ cof (mu_init m d) = cof d /\ rtid (mu_init m d) = rtid d.
Proof. intros. unfold mu_init. cbn. rewrite nupd_eq, qupd_eq. auto. Qed.
Lemma check_mu_eff : forall m d v d1, free0 m d -> check_mu m d = (v, d1) ->
  cof d1 = cof d /\ rtid d1 = rtid d /\ q d1 (QMu m) = q d (QMu m) /\ mlocked (mux d1 m) = mlocked (mux d m) /\ mrl (mux d1 m) = mrl (mux d m) /\
  ((v = OK /\ mrt (mux d1 m) = rtid d) \/ (v = EPERM /\ d1 = d /\ mrt (mux d m) <> rtid d /\ mrt (mux d m) <> 0)).
Proof.
  intros m d v d1 F E. unfold check_mu in E. destruct (Z.eqb_spec (mrt (mux d m)) 0) as [Z0|NZ].
  - inj E. destruct (F Z0) as (A & B & C). destruct (mu_init_eq m d) as (M & Q & CO & RT). rewrite M, Q, CO, RT, A, B, C. cbn. auto 10.
  - destruct (Z.eqb_spec (rtid d) (mrt (mux d m))) as [R|R]; cbn in E; inj E; auto 10.
Qed.
Lemma checkdl_eff : forall c dl nw d v d', checkdl c dl nw d = (v, d') ->
  q d' = q d /\ mux d' = mux d /\ rtid d' = rtid d /\ (forall x, rlocked (cof d' x) = rlocked (cof d x)) /\
  (v = OK \/ v = ECANCELED \/ v = ETIMEDOUT) /\ (canceled (cof d c) = false -> deadlined (cof d c) = false -> dl = MAXI -> v = OK).
Proof.
  intros c dl nw d v d' E. unfold checkdl in E.
  assert (RL : forall x, rlocked (cof (upco c (fun r => set_deadlined false (set_canceled false r)) d) x) = rlocked (cof d x)).
  { intros x. destruct (Z.eq_dec x c) as [->|N]; [rewrite upco_eq; reflexivity | rewrite upco_neq by exact N; reflexivity]. }
  destruct (canceled (cof d c)) eqn:C; destruct (deadlined (cof d c)) eqn:D; cbn in E.
  1,2,3: inj E; split; [reflexivity|]; split; [reflexivity|]; split; [reflexivity|]; split; [exact RL|]; split; [auto | discriminate].
  destruct (Z.eqb_spec dl MAXI) as [->|N].
  - inj E. auto 10.
  - inj E. split; [reflexivity|]; split; [reflexivity|]; split; [reflexivity|]; split; [exact RL|]. split; [|congruence]. destruct (_ && _); auto.
Qed.
Lemma copause_eff : forall c dl fs d d' fs' k, copause c dl fs d = (d', fs', k) ->
  q d' = q d /\ mux d' = mux d /\ rtid d' = rtid d /\ (forall x, rlocked (cof d' x) = rlocked (cof d x)) /\
  ((k = CRet 0 /\ fs' = fs /\ (canceled (cof d c) = true \/ deadlined (cof d c) = true)) \/ (k = CPause /\ fs' = FPause :: fs)).
Proof.
  intros c dl fs d d' fs' k E. pose proof (copause_cases _ _ _ _ _ _ _ E) as C.
  assert (RL : forall x, rlocked (cof (upco c (set_deadline dl) d) x) = rlocked (cof d x)).
  { intros x. destruct (Z.eq_dec x c) as [->|N]; [rewrite upco_eq; reflexivity | rewrite upco_neq by exact N; reflexivity]. }
  assert (A : q d' = q d /\ mux d' = mux d /\ rtid d' = rtid d /\ (forall x, rlocked (cof d' x) = rlocked (cof d x))).
  { unfold copause in E. destruct (_ || _); [inj E; auto|]. destruct (_ <? _); inj E; cbn; auto. }
  destruct A as (A1 & A2 & A3 & A4). split; [exact A1|]. split; [exact A2|]. split; [exact A3|]. split; [exact A4|].
  destruct C as [(-> & -> & _ & C)|(-> & -> & _)]; auto.
Qed.
(** nodes of a queue other than the runner's survive its entering the queue *)
Lemma pushq_fresh : forall k n d, ~ In n (q d k) -> q (pushq k n d) k = q d k ++ [n].
Proof.
  intros k n d N. unfold pushq. cbn. rewrite qupd_eq. f_equal. apply filter_all. intros x I.
  destruct (node_eqb_spec n x) as [->|]; [contradiction | reflexivity].
Qed.
Lemma finish_lock_eff : forall c m rl dl fs d d' fs' k, ~ In (NCo c) (q d (QMu m)) -> finish_lock c m rl dl fs d = (d', fs', k) ->
  q d' (QMu m) = q d (QMu m) ++ [NCo c] /\ mux d' = mux d /\ rtid d' = rtid d /\ rlocked (cof d' c) = rl /\
  (forall x, x <> c -> rlocked (cof d' x) = rlocked (cof d x)) /\
  ((k = CRet 0 /\ fs' = FLock m :: fs /\ (canceled (cof d c) = true \/ deadlined (cof d c) = true)) \/ (k = CPause /\ fs' = FPause :: FLock m :: fs)).
Proof.
  intros c m rl dl fs d d' fs' k N E. unfold finish_lock in E. apply copause_eff in E. destruct E as (Q & M & R & RL & K).
  rewrite Q, M, R, RL. cbn [q set_nlocked mux rtid cof].
  split; [rewrite pushq_fresh by exact N; reflexivity|]. split; [reflexivity|]. split; [reflexivity|].
  split; [cbn; rewrite zupd_eq; reflexivity|]. split; [intros x NE; rewrite RL; cbn; rewrite zupd_neq by exact NE; reflexivity|].
  change (cof (set_nlocked (nlocked (pushq (QMu m) (NCo c) (upco c (set_rlocked rl) d)) + 1) (pushq (QMu m) (NCo c) (upco c (set_rlocked rl) d))) c) with (cof (upco c (set_rlocked rl) d) c) in K.
  rewrite upco_eq in K. exact K.
Qed.

(** lock, rdlock and their try forms on mutex [m] *)
Definition lockop (o : op) (m : nat) (rd : bool) : Prop :=
  match o with
  | OpTryLock m' | OpLock m' _ => m' = m /\ rd = false
  | OpTryRdLock m' | OpRdLock m' _ => m' = m /\ rd = true
  | _ => False
  end.
Definition lockdl (o : op) : Z := match o with OpLock _ dl | OpRdLock _ dl => dl | _ => MAXI end.
Inductive lock_eff (c : Z) (m : nat) (rd : bool) (o : op) (d d' : dat) (fs : list frame) (k : ctl) : Prop :=
| le_fail v : q d' (QMu m) = q d (QMu m) -> mlocked (mux d' m) = mlocked (mux d m) -> mrl (mux d' m) = mrl (mux d m) ->
    (mrt (mux d' m) = mrt (mux d m) \/ mrt (mux d' m) = rtid d) -> fs = [] -> k = CRet v -> v <> OK -> lock_eff c m rd o d d' fs k
| le_take : q d' (QMu m) = q d (QMu m) -> (if rd then q d (QMu m) = [] /\ (mlocked (mux d m) = false \/ mrl (mux d m) <> 0) /\ mrl (mux d' m) = mrl (mux d m) + 1
                             else mlocked (mux d m) = false /\ mrl (mux d' m) = mrl (mux d m)) ->
    mlocked (mux d' m) = true -> mrt (mux d' m) = rtid d -> fs = [] -> k = CRet OK -> lock_eff c m rd o d d' fs k
| le_wait : q d' (QMu m) = q d (QMu m) ++ [NCo c] -> mlocked (mux d' m) = mlocked (mux d m) -> mrl (mux d' m) = mrl (mux d m) ->
    (mlocked (mux d m) = true \/ q d (QMu m) <> []) -> mrt (mux d' m) = rtid d -> rlocked (cof d' c) = rd ->
    ((k = CRet 0 /\ fs = [FLock m]) \/ (k = CPause /\ fs = [FPause; FLock m])) -> lock_eff c m rd o d d' fs k.
Lemma try_eff : forall c m (rd : bool) t dl nw d v d', (if rd then mu_tryrdlock else mu_trylock) c m t dl nw d = (v, d') ->
  q d' = q d /\ rtid d' = rtid d /\ (forall x, rlocked (cof d' x) = rlocked (cof d x)) /\ mrt (mux d' m) = mrt (mux d m) /\
  ((v = OK /\ mlocked (mux d' m) = true /\
    (if rd then q d (QMu m) = [] /\ (mlocked (mux d m) = false \/ mrl (mux d m) <> 0) /\ mrl (mux d' m) = mrl (mux d m) + 1
     else mlocked (mux d m) = false /\ mrl (mux d' m) = mrl (mux d m))) \/
   (v <> OK /\ mux d' m = mux d m /\ (v = EBUSY -> mlocked (mux d m) = true \/ q d (QMu m) <> []) /\ (t = true -> v = EBUSY))).
Proof.
  intros c m rd t dl nw d v d' E.
  assert (PRE : exists v1 d1, (if t then (OK, d) else checkdl c dl nw d) = (v1, d1) /\
    q d1 = q d /\ mux d1 = mux d /\ rtid d1 = rtid d /\ (forall x, rlocked (cof d1 x) = rlocked (cof d x)) /\ (v1 = OK \/ v1 = ECANCELED \/ v1 = ETIMEDOUT) /\ (t = true -> v1 = OK)).
  { destruct t; [exists OK, d; auto 10|]. destruct (checkdl c dl nw d) as [v1 d1] eqn:C. exists v1, d1. split; [reflexivity|].
    destruct (checkdl_eff _ _ _ _ _ _ C) as (A1 & A2 & A3 & A4 & A5 & _). repeat split; auto. discriminate. }
  destruct PRE as (v1 & d1 & P1 & Q1 & M1 & R1 & L1 & V1 & T1).
  destruct rd; [unfold mu_tryrdlock in E | unfold mu_trylock in E]; rewrite P1 in E.
  - destruct (Z.eqb_spec v1 OK) as [->|NV]; cbn [negb] in E.
    2:{ inj E. rewrite Q1, R1, M1. repeat split; auto. right. repeat split; auto; intros; [destruct V1 as [?|[?|?]]; subst; discriminate | exfalso; auto]. }
    unfold emptyq in E. rewrite Q1, M1 in E. destruct (q d (QMu m)) as [|n l] eqn:QQ; cbn [negb orb] in E.
    + destruct ((mrl (mux d m) =? 0) && mlocked (mux d m)) eqn:B.
      * inj E. rewrite Q1, R1, M1. repeat split; auto. right. apply andb_true_iff in B. repeat split; auto; try discriminate. intros _. left. apply B.
      * inj E. rewrite upmu_eq. unfold upmu. cbn [q rtid cof set_mux]. rewrite Q1, R1, M1. repeat split; auto. left. repeat split; auto.
        apply andb_false_iff in B. destruct B as [B|B]; [apply Z.eqb_neq in B; auto | auto].
    + inj E. rewrite Q1, R1, M1. repeat split; auto. right. repeat split; auto; try discriminate. intros _. right. discriminate.
  - destruct (Z.eqb_spec v1 OK) as [->|NV]; cbn [negb] in E.
    2:{ inj E. rewrite Q1, R1, M1. repeat split; auto. right. repeat split; auto; intros; [destruct V1 as [?|[?|?]]; subst; discriminate | exfalso; auto]. }
    rewrite M1 in E. destruct (mlocked (mux d m)) eqn:ML.
    + inj E. rewrite Q1, R1, M1. repeat split; auto. right. repeat split; auto; discriminate.
    + inj E. rewrite upmu_eq. unfold upmu. cbn [q rtid cof set_mux]. rewrite Q1, R1, M1. repeat split; auto.
Qed.
Lemma hcall_lock_eff : forall c m rd o nw d d' fs k, lockop o m rd -> free0 m d -> ~ In (NCo c) (q d (QMu m)) -> hcall c o nw d = (d', fs, k) ->
  lock_eff c m rd o d d' fs k.
Proof.
  assert (TR : forall c m rd nw d d' fs k o, free0 m d -> do_trylock c m rd nw d = (d', fs, k) -> lock_eff c m rd o d d' fs k).
  { intros c m rd nw d d' fs k o F E. unfold do_trylock in E. destruct (check_mu m d) as [v d1] eqn:C.
    destruct (check_mu_eff _ _ _ _ F C) as (C1 & C2 & C3 & C4 & C5 & [(-> & C6)|(-> & -> & _)]); cbn [negb] in E.
    - change (negb (OK =? OK)) with false in E. cbn match in E. destruct ((if rd then mu_tryrdlock else mu_trylock) c m true 0 nw d1) as [v2 d2] eqn:T. inj E.
      destruct (try_eff _ _ _ _ _ _ _ _ _ T) as (T1 & T2 & T3 & T4 & [(-> & T5 & T6)|(T5 & T6 & _)]).
      + apply le_take; auto; [rewrite T1; auto | rewrite C3, C4, C5 in T6; exact T6 | congruence].
      + eapply le_fail; eauto; [rewrite T1; auto | congruence | congruence | right; congruence].
    - change (negb (EPERM =? OK)) with true in E. cbn match in E. inj E. eapply le_fail; eauto. discriminate. }
  assert (LK : forall c m rd dl nw d d' fs k o, free0 m d -> ~ In (NCo c) (q d (QMu m)) -> do_lock c m rd dl nw d = (d', fs, k) -> lock_eff c m rd o d d' fs k).
  { intros c m rd dl nw d d' fs k o F N E. unfold do_lock in E. destruct (check_mu m d) as [v d1] eqn:C.
    destruct (check_mu_eff _ _ _ _ F C) as (C1 & C2 & C3 & C4 & C5 & [(-> & C6)|(-> & -> & _)]); cbn [negb] in E.
    - change (negb (OK =? OK)) with false in E. cbn match in E. destruct ((if rd then mu_tryrdlock else mu_trylock) c m false dl nw d1) as [v2 d2] eqn:T.
      destruct (try_eff _ _ _ _ _ _ _ _ _ T) as (T1 & T2 & T3 & T4 & [(-> & T5 & T6)|(T5 & T6 & T7 & _)]).
      + change (OK =? EBUSY) with false in E. cbn match in E. inj E. apply le_take; auto; [rewrite T1; auto | rewrite C3, C4, C5 in T6; exact T6 | congruence].
      + destruct (Z.eqb_spec v2 EBUSY) as [->|NB].
        * apply finish_lock_eff in E; [|rewrite T1, C3; exact N]. destruct E as (E1 & E2 & E3 & E4 & E5 & E6).
          apply le_wait; auto; [rewrite E1, T1, C3; reflexivity | rewrite E2, T6, C4; reflexivity | rewrite E2, T6, C5; reflexivity | rewrite <- C4, <- C3; apply T7; reflexivity | rewrite E2, T4; exact C6 |].
          destruct E6 as [(-> & -> & _)|(-> & ->)]; auto.
        * inj E. eapply le_fail; eauto; [rewrite T1; auto | congruence | congruence | right; congruence].
    - change (negb (EPERM =? OK)) with true in E. cbn match in E. inj E. eapply le_fail; eauto. discriminate. }
  intros c m rd o nw d d' fs k L F N E. destruct o; cbn in L; try contradiction; destruct L as [-> ->]; cbn [hcall] in E; eauto.
Qed.

(** ** Unlocking *)
Lemma rmq_notin : forall n d k, ~ In n (q d k) -> q (rmq n d) k = q d k.
Proof. intros n d k N. cbn. apply filter_all. intros x I. destruct (node_eqb_spec n x) as [->|]; [contradiction | reflexivity]. Qed.
Lemma sched_resume_other : forall r d k, k <> QRes -> ~ In (NCo r) (q d k) -> q (sched_resume r d) k = q d k.
Proof. intros r d k NK N. unfold sched_resume, pushq. cbn [q set_q set_nresumers]. rewrite qupd_neq by exact NK. apply rmq_notin, N. Qed.
(** the waiters that get the mutex are a prefix of the queue: one writer, or readers
    up to the next writer *)
Definition granted (d : dat) (P Q' : list node) : Prop :=
  (exists n, P = [n] /\ rlocked (cof d (node_co n)) = false) \/
  (P <> [] /\ (forall n, In n P -> rlocked (cof d (node_co n)) = true) /\ (forall n r, Q' = n :: r -> rlocked (cof d (node_co n)) = false)).
Lemma grant_eff : forall m n d, n = length (q d (QMu m)) -> NoDup (q d (QMu m)) -> q d (QMu m) <> [] ->
  (forall x, In x (q d (QMu m)) -> x = NCo (node_co x)) ->
  exists P, q d (QMu m) = P ++ q (grant m n d) (QMu m) /\ cof (grant m n d) = cof d /\ rtid (grant m n d) = rtid d /\
    granted d P (q (grant m n d) (QMu m)) /\ mlocked (mux (grant m n d) m) = mlocked (mux d m) /\ mrt (mux (grant m n d) m) = mrt (mux d m) /\
    mrl (mux (grant m n d) m) = mrl (mux d m) + (if rlocked (cof d (node_co (hd (NCo 0) P))) then Z.of_nat (length P) else 0).
Proof.
  intros m n. induction n as [|n IH]; intros d LN ND NE NC.
  - destruct (q d (QMu m)); [congruence | discriminate].
  - cbn [grant]. unfold popq. destruct (q d (QMu m)) as [|x l] eqn:Q; [congruence|]. apply NoDup_cons_iff in ND. destruct ND as [NI ND].
    set (d1 := set_q (qupd (q d) (QMu m) l) d).
    assert (Q1 : q (sched_resume (node_co x) d1) (QMu m) = l).
    { rewrite sched_resume_other; [unfold d1; cbn; apply qupd_eq | discriminate|]. unfold d1. cbn. rewrite qupd_eq.
      rewrite <- (NC x) by (left; reflexivity). exact NI. }
    assert (CO : cof (sched_resume (node_co x) d1) = cof d) by reflexivity.
    assert (MX : mux (sched_resume (node_co x) d1) = mux d) by reflexivity.
    assert (RT : rtid (sched_resume (node_co x) d1) = rtid d) by reflexivity.
    set (d2 := sched_resume (node_co x) d1) in *. clearbody d2. cbv zeta. rewrite CO.
    destruct (rlocked (cof d (node_co x))) eqn:RL.
    2:{ exists [x]. rewrite Q1, CO, MX, RT. cbn [hd length app]. rewrite RL. repeat split; auto; [left; eauto | lia]. }
    set (d3 := upmu m (fun x0 => set_mrl (mrl x0 + 1) x0) d2).
    assert (Q3 : q d3 (QMu m) = l) by exact Q1. assert (C3 : cof d3 = cof d) by exact CO. assert (R3 : rtid d3 = rtid d) by exact RT.
    assert (M3 : mux d3 m = set_mrl (mrl (mux d m) + 1) (mux d m)) by (unfold d3; rewrite upmu_eq, MX; reflexivity).
    clearbody d3. rewrite Q3. destruct l as [|n2 l].
    + exists [x]. rewrite Q3, C3, R3, M3. cbn [hd length app]. rewrite RL. cbn. repeat split; auto. right. repeat split; [discriminate | intros n0 [<-|[]]; exact RL | discriminate].
    + rewrite C3. destruct (rlocked (cof d (node_co n2))) eqn:RL2.
      * destruct (IH d3) as (P & A1 & A2 & A3 & A4 & A5 & A6 & A7); [rewrite Q3; cbn in LN |- *; lia | rewrite Q3; exact ND | rewrite Q3; discriminate | rewrite Q3; intros y IY; apply NC; right; exact IY|].
        rewrite Q3 in A1. set (g := grant m n d3) in *. clearbody g.
        assert (HP : P <> []). { destruct A4 as [(n0 & -> & _)|(H & _)]; [discriminate | exact H]. }
        assert (HD : hd (NCo 0) P = n2) by (destruct P; [congruence | injection A1 as -> _; reflexivity]).
        rewrite HD, C3, RL2, M3 in A7. cbn [mrl set_mrl] in A7. rewrite M3 in A5, A6. cbn in A5, A6.
        exists (x :: P). cbn [app hd length]. rewrite RL, A1, A2, A3, A5, A6, A7, C3, R3. repeat split; auto; [|lia].
        right. split; [discriminate|]. destruct A4 as [(n0 & -> & H)|(_ & H1 & H2)].
        -- cbn in HD. subst n0. rewrite C3 in H. congruence.
        -- rewrite C3 in H1, H2. split; [intros n0 [<-|I0]; [exact RL | apply H1, I0] | exact H2].
      * exists [x]. rewrite Q3, C3, R3, M3. cbn [hd length app]. rewrite RL. cbn. repeat split; auto. right. repeat split; [discriminate | intros n0 [<-|[]]; exact RL|].
        intros n0 r H. injection H as <- <-. exact RL2.
Qed.
Inductive unlock_eff (m : nat) (gs : list frame) (d d' : dat) (fs : list frame) (k : ctl) : Prop :=
| ue_none : mlocked (mux d m) = false -> d' = d -> fs = gs -> k = CRet 0 -> unlock_eff m gs d d' fs k
| ue_dec : mlocked (mux d m) = true -> 2 <= mrl (mux d m) -> mlocked (mux d' m) = true -> mrl (mux d' m) = mrl (mux d m) - 1 ->
    q d' (QMu m) = q d (QMu m) -> fs = gs -> k = CRet 0 -> unlock_eff m gs d d' fs k
| ue_free : mlocked (mux d m) = true -> mrl (mux d m) <= 1 -> mlocked (mux d' m) = false -> (0 <= mrl (mux d m) -> mrl (mux d' m) = 0) ->
    q d (QMu m) = [] -> q d' (QMu m) = [] -> fs = gs -> k = CRet 0 -> unlock_eff m gs d d' fs k
| ue_grant P : mlocked (mux d m) = true -> mrl (mux d m) <= 1 -> mlocked (mux d' m) = true -> q d (QMu m) = P ++ q d' (QMu m) ->
    granted d P (q d' (QMu m)) ->
    (0 <= mrl (mux d m) -> mrl (mux d' m) = if rlocked (cof d (node_co (hd (NCo 0) P))) then Z.of_nat (length P) else 0) ->
    k = CYield -> (fs = FCoyield :: FYfsr :: gs \/ fs = FCoyield :: gs) -> unlock_eff m gs d d' fs k.
Lemma fastunlock_eff : forall m gs d d' fs k, NoDup (q d (QMu m)) -> (forall x, In x (q d (QMu m)) -> x = NCo (node_co x)) ->
  fastunlock m gs d = (d', fs, k) -> unlock_eff m gs d d' fs k /\ cof d' = cof d /\ rtid d' = rtid d /\ mrt (mux d' m) = mrt (mux d m).
Proof.
  intros m gs d d' fs k ND NC E. unfold fastunlock in E. destruct (mlocked (mux d m)) eqn:ML; cbn [negb] in E.
  2:{ inj E. split; [apply ue_none; auto | auto]. }
  cbv zeta in E. destruct (Z.ltb_spec 0 (mrl (mux d m))) as [L0|L0]; cbn [andb] in E.
  - destruct (Z.ltb_spec 0 (mrl (mux d m) - 1)) as [L1|L1].
    + inj E. rewrite upmu_eq. split; [apply ue_dec; auto; [lia | rewrite upmu_eq; exact ML | rewrite upmu_eq; reflexivity] | auto].
    + unfold emptyq in E. change (q (upmu m (set_mrl (mrl (mux d m) - 1)) d) (QMu m)) with (q d (QMu m)) in E.
      destruct (q d (QMu m)) as [|n l] eqn:Q.
      * inj E. rewrite !upmu_eq. split; [apply ue_free; auto; [lia | rewrite !upmu_eq; reflexivity | intros _; rewrite !upmu_eq; cbn; lia] | auto].
      * apply yfsr_cases in E. destruct E as (-> & -> & FS).
        destruct (grant_eff m (length (n :: l)) (upmu m (set_mrl (mrl (mux d m) - 1)) d)) as (P & A1 & A2 & A3 & A4 & A5 & A6 & A7).
        { change (length (n :: l) = length (q d (QMu m))). rewrite Q. reflexivity. }
        { change (NoDup (q d (QMu m))). rewrite Q. exact ND. }
        { change (q d (QMu m) <> []). rewrite Q. discriminate. }
        { change (forall x, In x (q d (QMu m)) -> x = NCo (node_co x)). rewrite Q. exact NC. }
        rewrite upmu_eq in A5, A6, A7. cbn [mlocked mrt mrl set_mrl] in A5, A6, A7.
        split; [|rewrite A2, A3, A6; auto].
        apply (ue_grant m gs d _ fs _ P); auto; [lia | congruence |]. intros _. rewrite A7. cbn [cof upmu set_mux]. lia.
  - unfold emptyq in E. destruct (q d (QMu m)) as [|n l] eqn:Q.
    * inj E. rewrite !upmu_eq. split; [apply ue_free; auto; [lia | rewrite !upmu_eq; reflexivity | intros ?; rewrite !upmu_eq; cbn; lia] | auto].
    * apply yfsr_cases in E. destruct E as (-> & -> & FS).
      destruct (grant_eff m (length (n :: l)) d) as (P & A1 & A2 & A3 & A4 & A5 & A6 & A7); [rewrite Q; reflexivity | rewrite Q; exact ND | rewrite Q; discriminate | rewrite Q; exact NC|].
      split; [|rewrite A2, A3, A6; auto]. apply (ue_grant m gs d _ fs _ P); auto; [lia | congruence |]. intros ?. rewrite A7. lia.
Qed.

(** ** Taking the mutex back at the end of a cond_wait *)
Inductive relock_eff (c : Z) (m : nat) (ret : Z) (d d' : dat) (fs : list frame) (k : ctl) : Prop :=
| re_take : mlocked (mux d m) = false -> mlocked (mux d' m) = true -> mrl (mux d' m) = mrl (mux d m) -> q d' (QMu m) = q d (QMu m) ->
    fs = [] -> k = CRet ret -> relock_eff c m ret d d' fs k
| re_again v : mlocked (mux d m) = true -> mux d' m = mux d m -> q d' (QMu m) = q d (QMu m) -> fs = [FCvRelock m ret] -> k = CRet v -> v <> OK ->
    relock_eff c m ret d d' fs k
| re_wait : mlocked (mux d m) = true -> mux d' m = mux d m -> q d' (QMu m) = q d (QMu m) ++ [NCo c] -> rlocked (cof d' c) = false ->
    ((k = CRet 0 /\ fs = [FLock m; FCvRelock m ret]) \/ (k = CPause /\ fs = [FPause; FLock m; FCvRelock m ret])) -> relock_eff c m ret d d' fs k.
Lemma cv_relock_eff : forall c m ret nw d d' fs k, ~ In (NCo c) (q d (QMu m)) -> cv_relock c m ret nw d = (d', fs, k) ->
  relock_eff c m ret d d' fs k /\ rtid d' = rtid d /\ mrt (mux d' m) = mrt (mux d m).
Proof.
  intros c m ret nw d d' fs k N E. unfold cv_relock in E. destruct (mlocked (mux d m)) eqn:ML; cbn [negb] in E.
  - destruct (mu_trylock c m false MAXI nw d) as [v d1] eqn:T.
    destruct (try_eff _ _ false _ _ _ _ _ _ T) as (T1 & T2 & T3 & T4 & [(-> & T5 & T6 & _)|(T5 & T6 & T7 & _)]); [congruence|].
    destruct (Z.eqb_spec v EBUSY) as [->|NB].
    + apply finish_lock_eff in E; [|rewrite T1; exact N]. destruct E as (E1 & E2 & E3 & E4 & E5 & E6).
      split; [|split; [congruence | congruence]]. apply re_wait; auto; [congruence | rewrite E1, T1; reflexivity|].
      destruct E6 as [(-> & -> & _)|(-> & ->)]; auto.
    + inj E. split; [|auto]. eapply re_again; eauto. rewrite T1. reflexivity.
  - inj E. rewrite upmu_eq. split; [|auto]. apply re_take; auto; rewrite upmu_eq; reflexivity.
Qed.
