(** The wait group counter follows the history, and a waiter that left the queue
    other than by cancellation or deadline saw it at zero. *)
From Coq Require Import List ZArith Bool Lia.
From Verif Require Import AATreeSpec AATreeHist Util Runtime SchedInv StepInv StackShape RuntimeSpec TraceInv Immediate Prims StaticInv Footprint QueueInv OwnInv WaitInv CallInv SpecInv TraceStep Wake Awake DeadlineInv AllInv PausedInv ResultInv JoinInv WaiterInv CancelSt MutexSpec MutexEff MutexTok MutexRt MutexInv MutexOrd AtCall WgSpec.
Import ListNotations.
Local Open Scope Z_scope.

(** ** The specification under events *)
Definition quiet_obs (z : obs) : Prop := match z with TCall _ _ _ _ => False | _ => True end.
Lemma count_skip : forall w N T, (forall z, In z N -> quiet_obs z) -> wg_count w (N ++ T) = wg_count w T.
Proof.
  intros w N T. induction N as [|z N IH]; intros H; [reflexivity|]. pose proof (H z (or_introl eq_refl)) as Z. cbn [app wg_count].
  destruct z; try destruct Z; apply IH; intros y IY; apply H; right; exact IY.
Qed.
Definition eff (w : nat) (o : op) (n : Z) : Z :=
  match o with
  | OpWgInit w' | OpWgDestroy w' => if Nat.eqb w' w then 0 else n
  | OpWgAdd w' a => if Nat.eqb w' w then (if n + a <? 0 then n else n + a) else n
  | OpWgDone w' => if Nat.eqb w' w then (if n =? 0 then 0 else n - 1) else n
  | _ => n
  end.
Lemma ctl_q0 : forall c n k d fs z, In z (ctl_obs c n k ++ handler_obs c fs k d) -> quiet_obs z.
Proof.
  intros c n k d fs z IZ. apply in_app_or in IZ. destruct IZ as [IZ|IZ]; [apply ctl_quiet in IZ; destruct IZ as [(? & ? & ->)|(? & ->)]; exact Logic.I|].
  apply handler_quiet in IZ. destruct IZ as (h & ->). exact Logic.I.
Qed.
Lemma count_call : forall w s c o fs k, wg_count w (call_tr s c o fs k) = eff w o (wg_count w (tr s)).
Proof.
  intros w s c o fs k. unfold call_tr. rewrite app_assoc, count_skip by (intros z; apply ctl_q0).
  destruct o; try reflexivity.
Qed.
Lemma count_tick : forall w s c v f d fs k, wg_count w (tick_tr s c v f d fs k) = wg_count w (tr s).
Proof.
  intros w s c v f d fs k. unfold tick_tr. rewrite 2!app_assoc. apply count_skip. intros z IZ. apply in_app_or in IZ. destruct IZ as [IZ|IZ]; [eapply ctl_q0; exact IZ|].
  apply ret_quiet in IZ. destruct IZ as (? & ? & ? & ? & ->). exact Logic.I.
Qed.
Lemma count_env : forall w s e, match e with ECall _ | ETick _ | EMain _ => False | _ => True end -> wg_count w (tr (step s e)) = wg_count w (tr s).
Proof. intros w s e H. destruct (env_tr s e H) as [->|(y & ->)]; reflexivity. Qed.
Lemma zd_app : forall w k N T, zero_during w k T -> zero_during w k (N ++ T).
Proof. intros w k N T (t1 & t2 & -> & A & B). exists (N ++ t1), t2. rewrite app_assoc. auto. Qed.
Lemma zd_now : forall w k T c o tm, In (TCall k c o tm) T -> wg_count w T = 0 -> zero_during w k T.
Proof. intros w k T c o tm A B. exists [], T. split; [reflexivity|]. split; [eauto | exact B]. Qed.
Lemma zd_call : forall w kk s c o fs k, zero_during w kk (tr s) -> zero_during w kk (call_tr s c o fs k).
Proof. intros. unfold call_tr. rewrite !app_assoc. apply zd_app. assumption. Qed.
Lemma zd_tick : forall w kk s c v f d fs k, zero_during w kk (tr s) -> zero_during w kk (tick_tr s c v f d fs k).
Proof. intros. unfold tick_tr. rewrite !app_assoc. apply zd_app. assumption. Qed.
Lemma zd_env : forall w k s e, match e with ECall _ | ETick _ | EMain _ => False | _ => True end -> zero_during w k (tr s) -> zero_during w k (tr (step s e)).
Proof. intros w k s e H Z. destruct (env_tr s e H) as [->|(y & ->)]; [exact Z|]. match goal with |- zero_during _ _ (?z :: _) => apply (zd_app w k [z]), Z end. Qed.
Lemma at_called : forall s x l kk o, reach s -> at_call s x l kk o -> exists t, In (TCall kk x o t) (tr s).
Proof.
  intros s x l kk o RE (st & SX & _). destruct (ci_open _ (reach_cinv _ RE) x kk o) as (t & A & _); [rewrite SX; apply in_or_app; right; left; reflexivity | eauto].
Qed.
Lemma others_in : forall c x l l', x <> c -> others c l' = others c l -> (In (NCo x) l' <-> In (NCo x) l).
Proof.
  intros c x l l' NE Q. assert (H : forall m, In (NCo x) m <-> In (NCo x) (others c m)).
  { intros m. unfold others. rewrite filter_In. cbn [node_co]. destruct (Z.eqb_spec x c); [contradiction|]. cbn. intuition. }
  rewrite (H l'), (H l), Q. reflexivity.
Qed.
Lemma ctl_qwg_in : forall c n k d w x, x <> c -> In (NCo x) (q (ctl_dat c n k d) (QWg w)) <-> In (NCo x) (q d (QWg w)).
Proof.
  intros c n k d w x N. destruct k; cbn [ctl_dat]; try tauto; [rewrite spawn_q_eq by discriminate; tauto|]. unfold final_dat.
  cbn [q set_npool]. rewrite In_pushq. intuition congruence.
Qed.
Lemma ctl_qwg_nil : forall c n k d w, q d (QWg w) = [] -> q (ctl_dat c n k d) (QWg w) = [].
Proof. intros c n k d w Q. rewrite ctl_objq; [exact Q | exact Logic.I | rewrite Q; exact (fun z => z)]. Qed.
Lemma ctl_wgx : forall c n k d, wgx (ctl_dat c n k d) = wgx d.
Proof. intros c n k d. destruct k; cbn [ctl_dat]; try reflexivity. unfold spawn_dat, popq, new_chan. destruct (q d QPool), isgen; reflexivity. Qed.

(** ** What each operation does to the group *)
Definition wok (d : dat) (T : list obs) (w : nat) : Prop :=
  (wrt (wgx d w) = rtid d -> wcount (wgx d w) = wg_count w T) /\ (wrt (wgx d w) = 0 -> wg_count w T = 0) /\ (wrt (wgx d w) <> rtid d -> q d (QWg w) = []).
Lemma check_wg_eff : forall w d v d1 T, 0 < rtid d -> wok d T w -> check_wg w d = (v, d1) ->
  (v = EPERM /\ d1 = d /\ wrt (wgx d w) <> 0 /\ wrt (wgx d w) <> rtid d) \/
  (v = OK /\ wrt (wgx d1 w) = rtid d /\ rtid d1 = rtid d /\ wcount (wgx d1 w) = wg_count w T /\ q d1 (QWg w) = q d (QWg w) /\ cof d1 = cof d).
Proof.
  intros w d v d1 T RT (A & B & C) E. unfold check_wg in E. destruct (Z.eqb_spec (wrt (wgx d w)) 0) as [Z|NZ].
  - injection E as <- <-. right. unfold wg_init. cbn. unfold nupd. rewrite Nat.eqb_refl. cbn. rewrite qupd_eq, (B Z), (C ltac:(lia)). auto 10.
  - destruct (Z.eqb_spec (rtid d) (wrt (wgx d w))) as [Q|NQ]; cbn in E; injection E as <- <-; [right | left].
    + rewrite <- Q. auto 10.
    + auto.
Qed.

Lemma kcall_wg : forall c d o w, kcall c d o (QWg w) -> match o with OpWgInit w' | OpWgAdd w' _ | OpWgDone w' | OpWgWait w' _ | OpWgDestroy w' => w' = w | _ => False end.
Proof.
  intros c d o w K. destruct o; cbn in K; unfold exitk in K;
    repeat match goal with H : exists _, _ |- _ => destruct H | H : _ /\ _ |- _ => destruct H | H : _ \/ _ |- _ => destruct H end; try discriminate; try contradiction;
    injection K as ->; reflexivity.
Qed.
Lemma kret_wg : forall c d f w, ~ kret c d f (QWg w).
Proof.
  intros c d f w K. destruct f; cbn in K; unfold exitk in K;
    repeat match goal with H : exists _, _ |- _ => destruct H | H : _ /\ _ |- _ => destruct H | H : _ \/ _ |- _ => destruct H end; try discriminate; contradiction.
Qed.
Lemma eff_other : forall c d o w n, ~ kcall c d o (QWg w) -> eff w o n = n.
Proof. intros c d o w n NK. destruct o; try reflexivity; cbn in *; destruct (Nat.eqb_spec w0 w) as [->|]; try reflexivity; destruct NK; reflexivity. Qed.

Lemma resume_all_wg : forall k n d, k <> QRes -> wgx (resume_all k n d) = wgx d /\ rtid (resume_all k n d) = rtid d.
Proof.
  intros k n. induction n as [|n IH]; intros d NK; cbn [resume_all]; [auto|]. unfold popq. destruct (q d k) as [|x r]; [auto|].
  destruct (IH (sched_resume (node_co x) (set_q (qupd (q d) k r) d)) NK) as [-> ->]. auto.
Qed.
Lemma wg_call : forall w c o nw d d' fs k T T', 0 < rtid d -> wok d T w -> hcall c o nw d = (d', fs, k) -> k <> CUB ->
  wg_count w T' = eff w o (wg_count w T) -> ~ In (NCo c) (q d (QWg w)) -> kcall c d o (QWg w) ->
  wok d' T' w /\ ((forall x, x <> c -> In (NCo x) (q d (QWg w)) -> In (NCo x) (q d' (QWg w))) \/ wg_count w T' = 0).
Proof.
  intros w c o nw d d' fs k T T' RT W E NU EF NI K. apply kcall_wg in K.
  destruct o; try contradiction; subst; cbn [hcall eff] in *; try rewrite Nat.eqb_refl in EF.
  - injection E as <- <- <-. split; [|auto]. unfold wok, wg_init. cbn. unfold nupd. rewrite Nat.eqb_refl. cbn. rewrite qupd_eq. rewrite EF. auto.
  - unfold do_wgadd in E. destruct (check_wg w d) as [v d1] eqn:CK. destruct (check_wg_eff _ _ _ _ _ RT W CK) as [(-> & -> & NZ & NR)|(-> & A & B & C & D & _)].
    + cbn in E. injection E as <- <- <-. split; [|auto]. destruct W as (W1 & W2 & W3). repeat split; intros; try contradiction; auto.
    + change (negb (OK =? OK)) with false in E. cbv iota in E. rewrite C in E. destruct (_ || _) in E; [injection E as <- <- <-; congruence|].
      destruct (wg_count w T + d0 <? 0) eqn:NG; injection E as <- <- <-; (split; [|left; intros x N IX; cbn; rewrite D; exact IX]).
      * repeat split; intros; try congruence; lia.
      * unfold wok, upwg. cbn. unfold nupd. rewrite Nat.eqb_refl. cbn. rewrite B, A. repeat split; intros; try congruence; lia.
  - unfold do_wgdone in E. destruct (check_wg w d) as [v d1] eqn:CK. destruct (check_wg_eff _ _ _ _ _ RT W CK) as [(-> & -> & NZ & NR)|(-> & A & B & C & D & _)].
    + cbn in E. injection E as <- <- <-. split; [|auto]. destruct W as (W1 & W2 & W3). repeat split; intros; try contradiction; auto.
    + change (negb (OK =? OK)) with false in E. cbv iota in E. rewrite C in E. destruct (Z.eqb_spec (wg_count w T) 0) as [Z|NZ].
      * injection E as <- <- <-. split; [|right; exact EF]. repeat split; intros; try congruence; lia.
      * set (d2 := upwg w (set_wcount (wg_count w T - 1)) d1) in *.
        assert (W2 : wrt (wgx d2 w) = rtid d /\ wcount (wgx d2 w) = wg_count w T - 1 /\ rtid d2 = rtid d /\ q d2 = q d1) by (unfold d2, upwg; cbn; unfold nupd; rewrite Nat.eqb_refl; cbn; auto).
        destruct W2 as (W2 & W3 & W4 & W5). clearbody d2. rewrite W3 in E.
        assert (WK : forall e, wgx e w = wgx d2 w -> rtid e = rtid d2 -> wok e T' w) by (intros e Q1 Q2; unfold wok; rewrite Q1, Q2, W2, W3, W4; repeat split; intros; try congruence; lia).
        destruct (Z.eqb_spec (wg_count w T - 1) 0) as [Z1|NZ1]; cbn [negb] in E.
        -- split; [|right; lia]. destruct (q d2 (QWg w)) as [|n1 [|n2 l]].
           ++ injection E as <- <- <-. apply WK; reflexivity.
           ++ injection E as <- <- <-. apply WK; reflexivity.
           ++ apply yfsr_d in E. subst d'. destruct (resume_all_wg (QWg w) (length (n1 :: n2 :: l)) d2 ltac:(discriminate)) as [Q1 Q2]. apply WK; [rewrite Q1 | rewrite Q2]; reflexivity.
        -- injection E as <- <- <-. split; [apply WK; reflexivity|]. left. intros x N IX. rewrite W5, D. exact IX.
  - unfold do_wgwait in E. destruct (check_wg w d) as [v d1] eqn:CK. destruct (check_wg_eff _ _ _ _ _ RT W CK) as [(-> & -> & NZ & NR)|(-> & A & B & C & D & _)].
    + cbn in E. injection E as <- <- <-. split; [|auto]. destruct W as (W1 & W2 & W3). repeat split; intros; try contradiction; auto.
    + change (negb (OK =? OK)) with false in E. cbv iota in E.
      destruct (checkdl c dl nw d1) as [v2 d2] eqn:CD. 
      assert (Q2 : wgx d2 = wgx d1 /\ rtid d2 = rtid d1 /\ q d2 = q d1).
      { unfold checkdl in CD. repeat (match type of CD with context [if ?b then _ else _] => destruct b end); injection CD as <- <-; auto. }
      destruct Q2 as (Q2 & Q3 & Q4).
      assert (WK : forall e, wgx e w = wgx d2 w -> rtid e = rtid d2 -> wok e T' w) by (intros e P1 P2; unfold wok; rewrite P1, P2, Q2, Q3, A, B, C, EF; repeat split; intros; try congruence; lia).
      destruct (negb _); [injection E as <- <- <-; split; [apply WK; reflexivity | left; intros x N IX; rewrite Q4, D; exact IX]|].
      destruct (_ =? 0); [unfold coyield in E; injection E as <- <- <-; split; [apply WK; reflexivity | left; intros x N IX; rewrite Q4, D; exact IX]|].
      destruct (copause_eff _ _ _ _ _ _ _ E) as (P1 & P2 & _).
      assert (P3 : wgx d' = wgx d2 /\ rtid d' = rtid d2).
      { unfold copause in E. destruct (_ || _); [|destruct (_ <? _)]; injection E as <- <- <-; auto. }
      destruct P3 as [P3 P4]. split; [apply WK; [rewrite P3 | rewrite P4]; reflexivity|]. left. intros x N IX. rewrite P1. change (In (NCo x) (q (pushq (QWg w) (NCo c) d2) (QWg w))).
      apply In_pushq. left. rewrite Q4, D. split; [exact IX | congruence].
  - destruct (check_wg w d) as [v d1] eqn:CK. destruct (check_wg_eff _ _ _ _ _ RT W CK) as [(-> & -> & NZ & NR)|(-> & A & B & C & D & _)].
    + cbn in E. injection E as <- <- <-. split; [|auto]. destruct W as (W1 & W2 & W3). repeat split; intros; try contradiction; auto.
    + change (negb (OK =? OK)) with false in E. cbv iota in E. injection E as <- <- <-. split; [|auto].
      unfold wok. cbn. unfold nupd. rewrite Nat.eqb_refl. cbn. rewrite qupd_eq. repeat split; intros; try lia; auto.
Qed.

(** ** The invariant *)
Record wgi (s : state) : Prop := {
  wi_ok : forall w, wok (dt s) (tr s) w;
  wi_z : forall x l kk w dl, at_call s x l kk (OpWgWait w dl) ->
    (l = [] -> mode s = MRet OK -> cur (sc s) = Some x -> zero_during w kk (tr s)) /\
    (l = [FCoyield] -> zero_during w kk (tr s)) /\
    (In (FWgWait w) l -> In (NCo x) (q (dt s) (QWg w)) \/ zero_during w kk (tr s)) }.
Definition wres (s : state) : Prop := forall l1 l2 k c w dl m t, tr s = l1 ++ TRet k c (OpWgWait w dl) OK m t :: l2 -> zero_during w k l2.

Lemma wres_skip : forall N T, (forall k c o v m t, ~ In (TRet k c o v m t) N) ->
  (forall l1 l2 k c w dl m t, T = l1 ++ TRet k c (OpWgWait w dl) OK m t :: l2 -> zero_during w k l2) ->
  forall l1 l2 k c w dl m t, N ++ T = l1 ++ TRet k c (OpWgWait w dl) OK m t :: l2 -> zero_during w k l2.
Proof.
  intros N T NN H l1 l2 k c w dl m t EQ. destruct (app_eq_app _ _ _ _ EQ) as (l & [[EN EL]|[EN EL]]); [|eauto].
  destruct l as [|z l]; [apply (H [] l2 k c w dl m t); symmetry; exact EL|]. injection EL as <- _. exfalso. eapply NN. rewrite EN. apply in_or_app. right; left; reflexivity.
Qed.

Lemma call_wgi : forall s c o d fs k sch md, reach s -> wgi s -> mode s = MUser -> cur (sc s) = Some c -> ustack (stk (sc s) c) ->
  hcall c o (now s) (dt s) = (d, fs, k) ->
  exec c k (set_stk (zupd (stk (sc s)) c (fs ++ FApi (ncalls s) o :: stk (sc s) c)) (sc s)) = (sch, md) -> md <> MUB ->
  wgi (mkst sch (ctl_dat c (nextid (sc s) + 1) k d) md (now s) (S (ncalls s)) (call_tr s c o fs k)).
Proof.
  intros s c o d fs k sch md RE [WO WZ] M CU U E X NU. pose proof (reach_full _ RE) as F. pose proof (reach_rt _ RE) as RT.
  assert (NK : k <> CUB) by (intros ->; cbn in X; injection X as _ <-; congruence).
  assert (NI : forall w, ~ In (NCo c) (q (dt s) (QWg w))).
  { intros w IN. apply (reach_qloc _ RE) in IN; [|exact Logic.I]. cbn [node_co] in IN. exact (ustack_top _ _ _ U IN). }
  assert (KD : forall w, kcall c (dt s) o (QWg w) \/ ~ kcall c (dt s) o (QWg w)).
  { intros w. destruct (match o with OpWgInit w' | OpWgAdd w' _ | OpWgDone w' | OpWgWait w' _ | OpWgDestroy w' => Nat.eqb w' w | _ => false end) eqn:B.
    - left. destruct o; try discriminate B; apply Nat.eqb_eq in B; subst; reflexivity.
    - right. intros K. apply kcall_wg in K. destruct o; try contradiction; subst; rewrite Nat.eqb_refl in B; discriminate B. }
  assert (G : forall w, wok d (call_tr s c o fs k) w /\ ((forall x, x <> c -> In (NCo x) (q (dt s) (QWg w)) -> In (NCo x) (q d (QWg w))) \/ wg_count w (call_tr s c o fs k) = 0)).
  { intros w. destruct (KD w) as [K|K].
    - eapply wg_call; try eassumption; [apply WO | apply count_call | apply NI].
    - destruct (call_queue _ _ _ _ _ _ (QWg w) RE E Logic.I K) as [OT QI]. destruct (hcall_fp _ _ _ _ _ _ _ (ncalls s) (stk (sc s) c) E) as (R & P & FP & _).
      split; [|left; intros x N IX; apply (OT x N), IX].
      assert (Q : q (dt s) (QWg w) = [] -> q d (QWg w) = []) by (intros Q0; apply incl_l_nil; intros n IN; rewrite <- Q0; apply QI, IN).
      destruct (WO w) as (W1 & W2 & W3). unfold wok. rewrite (fps_wgx _ _ _ _ _ _ _ FP w K), (fps_rtid _ _ _ _ _ _ _ FP), count_call, (eff_other _ _ _ _ _ K). auto. }
  constructor.
  - intros w. cbn [dt tr]. destruct (G w) as [(W1 & W2 & W3) _]. unfold wok. rewrite ctl_wgx, ctl_rtid. repeat split; auto. intros N. apply ctl_qwg_nil, W3, N.
  - intros x l kk w dl A. cbn [dt tr mode sc].
    destruct (call_at _ _ _ _ _ _ _ _ _ _ _ _ F CU U E X A) as [(-> & -> & -> & <- & SH & NF)|(NE & A0)].
    + assert (TC : In (TCall (ncalls s) c (OpWgWait w dl) (now s)) (call_tr s c (OpWgWait w dl) fs k)).
      { unfold call_tr. apply in_or_app; right; apply in_or_app; right. cbn. auto. }
      assert (ZN : wg_count w (tr s) = 0 -> zero_during w (ncalls s) (call_tr s c (OpWgWait w dl) fs k)).
      { intros Z0. eapply zd_now; [exact TC|]. rewrite count_call. exact Z0. }
      cbn [hcall] in E. unfold do_wgwait in E. destruct (check_wg w (dt s)) as [v d1] eqn:CK. destruct (check_wg_eff _ _ _ _ _ RT (WO w) CK) as [(-> & -> & NZ & NR)|(-> & B1 & B2 & B3 & B4 & _)].
      { cbn in E. injection E as <- <- <-. cbn in X. injection X as <- <-. split; [intros _ H; discriminate H|]. split; [discriminate | intros []]. }
      change (negb (OK =? OK)) with false in E. cbv iota in E. destruct (checkdl c dl (now s) d1) as [v2 d2] eqn:CD.
      assert (Q2 : wgx d2 = wgx d1).
      { unfold checkdl in CD. repeat (match type of CD with context [if ?b then _ else _] => destruct b end); injection CD as <- <-; auto. }
      destruct (Z.eqb_spec v2 OK) as [V2|V2]; cbn [negb] in E.
      2: { injection E as <- <- <-. cbn in X. injection X as <- <-. split; [intros _ H; congruence|]. split; [discriminate | intros []]. }
      rewrite Q2, B3 in E. destruct (Z.eqb_spec (wg_count w (tr s)) 0) as [Z0|NZ].
      { unfold coyield in E. injection E as <- <- <-. split; [discriminate|]. split; [intros _; exact (ZN Z0) | intros [H|[]]; discriminate H]. }
      destruct (copause_eff _ _ _ _ _ _ _ E) as (P1 & P2 & _ & _ & P3).
      assert (QN : In (NCo c) (q (ctl_dat c (nextid (sc s) + 1) k d) (QWg w))).
      { destruct P3 as [(-> & _)|(-> & _)]; cbn [ctl_dat]; rewrite P1; apply (proj2 (In_pushq (QWg w) (NCo c) d2 (QWg w) (NCo c))); auto. }
      destruct P3 as [(_ & -> & _)|(_ & ->)]; (split; [discriminate|]; split; [discriminate | intros _; left; exact QN]).
    + destruct (WZ x l kk w dl A0) as (Z1 & Z2 & Z3). split; [|split].
      * intros -> MD CX. destruct A0 as (st & SX & _). exfalso. cbn in SX. 
        destruct (reach_apiq _ RE x kk _ _ SX) as [H|[H|[H _]]]; [exact H | rewrite M in H; exact H | congruence].
      * intros H. apply zd_call, Z2, H.
      * intros H. destruct (Z3 H) as [IQ|Z]; [|right; apply zd_call, Z]. destruct (proj2 (G w)) as [K|Z0].
        -- left. apply ctl_qwg_in; [exact NE|]. apply K; assumption.
        -- right. destruct (at_called _ _ _ _ _ RE A0) as (tm & IT). eapply zd_now; [|exact Z0]. apply call_tr_old. exact IT.
Qed.

Lemma wait_shape : forall w dl l, shape (OpWgWait w dl) l -> l = [] \/ l = [FCoyield] \/ l = [FWgWait w] \/ l = [FPause; FWgWait w].
Proof. intros w dl l SH. inversion SH; subst; auto. match goal with H : pz _ _ |- _ => inversion H; subst; auto end. Qed.
Lemma tick_wgi : forall s c v f rest b d fs k sch md, reach s -> wgi s -> mode s = MRet v -> cur (sc s) = Some c -> stk (sc s) c = f :: rest -> lstack (f :: rest) ->
  hret c f v b (now s) (dt s) = (d, fs, k) ->
  exec c k (set_stk (zupd (stk (sc s)) c (fs ++ rest)) (sc s)) = (sch, md) ->
  wgi (mkst sch (ctl_dat c (nextid (sc s) + 1) k d) md (now s) (ncalls s) (tick_tr s c v f d fs k)).
Proof.
  intros s c v f rest b d fs k sch md RE [WO WZ] M CU SK L E X. pose proof (reach_full _ RE) as F.
  destruct (hret_fp _ _ _ _ _ _ _ _ _ rest E) as (R & P & FP & _).
  assert (QW : forall w, (forall x, x <> c -> In (NCo x) (q d (QWg w)) <-> In (NCo x) (q (dt s) (QWg w))) /\ (forall n, In n (q d (QWg w)) -> In n (q (dt s) (QWg w)))).
  { intros w. eapply tick_queue; try eassumption; [exact Logic.I | apply kret_wg|]. intros W. destruct f; cbn in W; try discriminate W; exact W. }
  assert (LW : forall e, wgx (leave f c e) = wgx e /\ rtid (leave f c e) = rtid e).
  { intros e. assert (RC : forall n e, wgx (rm_cases c n e) = wgx e /\ rtid (rm_cases c n e) = rtid e) by (induction n as [|n IH]; intros e0; cbn [rm_cases]; [auto | destruct (IH (rmq (NCase c (Z.of_nat n)) e0)) as [-> ->]; auto]).
    destruct f; cbn [leave]; auto. }
  constructor.
  - intros w. cbn [dt tr]. destruct (WO w) as (W1 & W2 & W3). unfold wok. rewrite ctl_wgx, ctl_rtid, count_tick.
    rewrite (fps_wgx _ _ _ _ _ _ _ FP w (kret_wg _ _ _ _)), (fps_rtid _ _ _ _ _ _ _ FP). destruct (LW (dt s)) as [-> ->].
    repeat split; auto. intros N. apply ctl_qwg_nil. apply incl_l_nil. intros n IN. rewrite <- (W3 N). apply (QW w), IN.
  - intros x l kk w dl A. cbn [dt tr mode sc].
    destruct (tick_at _ _ _ _ _ _ _ _ _ _ _ _ _ _ _ F CU SK L E X A) as [(-> & NF & w1 & -> & SH & A0)|[(-> & _ & _ & D)|(NE & A0)]]; [| discriminate D |].
    + destruct (WZ c (f :: w1) kk w dl A0) as (Z1 & Z2 & Z3). destruct A0 as (st & SX & S0). pose proof (wait_shape _ _ _ S0) as C0.
      destruct C0 as [C0|[C0|[C0|C0]]]; [discriminate C0 | injection C0 as -> -> ..]; cbn [hret] in E; rewrite ?app_nil_r in *.
      * specialize (Z2 eq_refl). apply (zd_tick w kk s c v FCoyield d fs k) in Z2. split; [intros; exact Z2|]. split; intros; auto.
      * assert (SK2 : stk (sc s) c = FWgWait w :: FApi kk (OpWgWait w dl) :: st) by (rewrite SX; reflexivity).
        unfold wgwait_end in E. destruct (checkdl _ _ _ _) as [v1 d1] eqn:CK. injection E as <- <- <-. cbn in X. injection X as <- <-.
        split; [|split; [discriminate | intros []]]. intros _ MD _. injection MD as ->. apply checkdl_ok in CK. destruct CK as [K1 K2]. cbn in K1, K2.
        apply zd_tick. destruct (reach_awake _ RE c (FWgWait w) (FApi kk (OpWgWait w dl) :: st)) as [H|[H|[H|H]]]; [rewrite SK2; reflexivity | reflexivity | | congruence | congruence |].
        -- destruct (cur_notpaused _ _ F CU H).
        -- destruct Z3 as [Z|Z]; [left; reflexivity | destruct (H Z) | exact Z].
      * injection E as <- <- <-. cbn [app] in *. split; [discriminate|]. split; [discriminate|]. intros _. destruct Z3 as [Z|Z]; [right; left; reflexivity | left | right; apply zd_tick, Z].
        cbn [ctl_dat]. unfold pause_end. destruct (_ <? _); exact Z.
    + destruct (WZ x l kk w dl A0) as (Z1 & Z2 & Z3). split; [|split].
      * intros -> MD CX. destruct A0 as (st & SX & _). exfalso. cbn in SX.
        destruct (reach_apiq _ RE x kk _ _ SX) as [H|[H|[H _]]]; [exact H | rewrite M in H; exact H | congruence].
      * intros H. apply zd_tick, Z2, H.
      * intros H. destruct (Z3 H) as [IQ|Z]; [|right; apply zd_tick, Z]. left. apply ctl_qwg_in; [exact NE|]. apply (QW w), IQ. exact NE.
Qed.
Lemma mprims_wg : forall d d', mprims d d' -> wgx d' = wgx d /\ rtid d' = rtid d /\ forall w, q d' (QWg w) = q d (QWg w).
Proof.
  intros d d' P. split; [|split].
  - eapply mprims_const; [|exact P]. intros a b H. inversion H; reflexivity.
  - eapply mprims_const; [|exact P]. intros a b H. inversion H; reflexivity.
  - intros w. apply (mprims_wq _ _ _ P). exact Logic.I.
Qed.
Lemma at_ret : forall s x kk o, reach s -> at_call s x [] kk o -> ~ handing o -> ~ over (mode s) -> cur (sc s) = Some x /\ exists v, mode s = MRet v.
Proof. intros s x kk o RE (st & SX & _) NH NO. destruct (reach_apiq _ RE x kk _ _ SX) as [H|[H|H]]; [contradiction | contradiction | exact H]. Qed.
Theorem reach_wgi : forall s, reach s -> (~ over (mode s) -> wgi s) /\ wres s.
Proof.
  apply (rrun_preserves (fun s => (~ over (mode s) -> wgi s) /\ wres s)).
  - intros s c o d fs k sch md RE [I R] M CU U NR E X. split.
    + intros NU. apply call_wgi; auto; [apply I; rewrite M; exact (fun z => z)|]. intros ->. apply NU. exact Logic.I.
    + unfold wres. cbn [tr]. rewrite !app_assoc. apply wres_skip; [|exact R]. intros k0 c0 o0 v0 m0 t0 H. apply in_app_or in H. destruct H as [H|H]; [apply in_app_or in H; destruct H as [H|H]|].
      * eapply ctl_obs_noret; exact H.
      * eapply handler_obs_noret; exact H.
      * eapply call_obs_noret; exact H.
  - intros s c v f rest b d fs k sch md RE [I R] M CU SK L E X. assert (W : wgi s) by (apply I; rewrite M; exact (fun z => z)). split.
    + intros _. eapply tick_wgi; eassumption.
    + unfold wres. cbn [tr]. rewrite !app_assoc, <- (app_assoc _ _ (tr s)). apply wres_skip.
      * intros k0 c0 o0 v0 m0 t0 H. apply in_app_or in H. destruct H as [H|H]; [eapply ctl_obs_noret; exact H | eapply handler_obs_noret; exact H].
      * destruct (ret_obs_cases c f v (d, fs, k) s) as [->|(kk & o & e & QF & _ & QR)]; [exact R|]. rewrite QR. intros l1 l2 k0 c0 w dl m t EQ.
        destruct l1 as [|z l1]; cbn in EQ; injection EQ as Q1 Q2; [|eapply R; exact Q2]. subst l2.
        assert (AC : at_call s c [] kk (OpWgWait w dl)) by (exists rest; split; [cbn; rewrite SK, QF; congruence | constructor]).
        replace k0 with kk by congruence. destruct (wi_z _ W _ _ _ _ _ AC) as (Z1 & _). apply Z1; auto. congruence.
  - intros s d ws sch md ios RE [I R] M A K X. split; [|exact R]. intros _. pose proof (mp_main _ _ _ _ _ _ _ K) as MP. destruct (mprims_wg _ _ MP) as (E1 & E2 & E3).
    destruct I as [WO WZ]; [rewrite M; exact (fun z => z)|]. apply sco_switch_frame in X. destruct X as (X1 & _). destruct (wakes_frame ws (sc s)) as (W0 & _). constructor.
    + intros w. destruct (WO w) as (W1 & W2 & W3). unfold wok. cbn [dt tr]. rewrite E1, E2, E3. auto.
    + intros x l kk w dl (st & SX & SH). cbn [sc dt tr] in *. rewrite X1, W0 in SX. assert (AC : at_call s x l kk (OpWgWait w dl)) by (exists st; auto).
      destruct (WZ _ _ _ _ _ AC) as (Z1 & Z2 & Z3). rewrite E3. split; [|auto]. intros -> _ _. exfalso. destruct (at_ret _ _ _ _ RE AC) as (_ & v & H); [exact (fun z => z) | rewrite M; exact (fun z => z) | congruence].
  - intros s m RE [I R] HM. split; [|exact R]. intros NU. destruct I as [WO WZ].
    { destruct HM as [[_ HM]|[(-> & _)|[(n & ->)| ->]]]; [rewrite HM; exact (fun z => z) | destruct (NU Logic.I) ..]. }
    constructor; [exact WO|]. intros x l kk w dl AC. destruct (WZ x l kk w dl AC) as (Z1 & Z2 & Z3). split; [|auto]. intros -> MD CX. cbn [mode set_mode] in MD. subst m.
    destruct HM as [[_ HM]|[(HM & _)|[(n & HM)|HM]]]; try discriminate HM. exfalso. destruct (at_ret _ _ _ _ RE AC) as (_ & v & H); [exact (fun z => z) | rewrite HM; exact (fun z => z) | congruence].
  - intros s e RE [I R] H M. split.
    + rewrite M. intros NU. destruct (I NU) as [WO WZ]. clear I. 
      assert (QQ : forall w n, In n (q (dt (step s e)) (QWg w)) -> In n (q (dt s) (QWg w))).
      { intros w n IN. destruct (env_q s e H) as [Q|(c & _ & _ & _ & Q)]; rewrite Q in IN; [exact IN|]. apply In_pushq in IN. destruct IN as [[IN _]|[D _]]; [exact IN | discriminate D]. }
      constructor.
      * intros w. destruct (WO w) as (W1 & W2 & W3). assert (Q0 : wrt (wgx (dt s) w) <> rtid (dt s) -> q (dt (step s e)) (QWg w) = []) by (intros N; apply incl_l_nil; intros n IN; rewrite <- (W3 N); apply QQ, IN).
        unfold wok. rewrite (count_env w s e H). pose proof (reach_rt _ RE) as RT. clear -W1 W2 W3 Q0 H RT M.
        assert (C : (wgx (dt (step s e)) w = wgx (dt s) w \/ (wrt (wgx (dt s) w) = 0 /\ wrt (wgx (dt (step s e)) w) = rtid (dt s) + 1)) /\ rtid (dt (step s e)) = rtid (dt s)).
        { destruct e; try contradiction; cbn [step]; unfold set_now, set_dt;
          repeat match goal with |- context [if ?b then _ else _] => destruct b eqn:? | |- context [match mode ?z with _ => _ end] => destruct (mode z) | |- context [match stk (sc ?z) ?c with _ => _ end] => destruct (stk (sc z) c) as [|[] ?] end;
          auto. cbn. unfold nupd. split; [|reflexivity]. destruct (Nat.eqb_spec w w0) as [->|]; [|auto]. cbn. right. split; [lia | reflexivity]. }
        destruct C as [[->|(C1 & C2)] ->]; [auto|]. rewrite C2. repeat split; try lia. intros _. apply Q0. lia.
      * intros x l kk w dl (st & SX & SH). destruct (env_frame s e H) as (E1 & E2 & _). rewrite E1 in SX. assert (AC : at_call s x l kk (OpWgWait w dl)) by (exists st; auto).
        destruct (WZ _ _ _ _ _ AC) as (Z1 & Z2 & Z3). rewrite M, E2. split; [|split].
        -- intros. apply zd_env; auto.
        -- intros. apply zd_env; auto.
        -- intros IN. destruct (Z3 IN) as [IQ|Z]; [left | right; apply zd_env; auto].
           destruct (env_q s e H) as [->|(c & _ & _ & (w0 & SX0) & ->)]; [exact IQ|]. apply In_pushq. left. split; [exact IQ|]. intros Q. injection Q as ->.
           apply (reach_qloc _ RE) in IQ; [|exact Logic.I]. unfold matched in IQ. cbn [node_co] in IQ. rewrite SX0 in IQ. exact IQ.
    + intros l1 l2 k c w dl m t EQ. destruct (env_tr s e H) as [Q|(y & Q)]; rewrite Q in EQ; [eapply R; exact EQ|]. destruct l1 as [|z l1]; [discriminate EQ|]. injection EQ as _ EQ. eapply R; exact EQ.
  - intros g O. split.
    + intros _. constructor; [intros w; repeat split; auto|]. intros x l kk w dl (st & SX & _). cbn in SX. unfold zupd in SX. destruct (_ =? _); destruct l as [|? [|? ?]]; discriminate SX.
    + intros l1 l2 k c w dl m t EQ. destruct l1 as [|? [|? ?]]; discriminate EQ.
Qed.
