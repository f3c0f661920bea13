(** A mutex that is locked or waited for belongs to the runtime. *)
From Coq Require Import List ZArith Bool Lia.
From Verif Require Import AATreeSpec AATreeHist Util Runtime SchedInv StepInv StackShape RuntimeSpec TraceInv Immediate Prims StaticInv Footprint QueueInv OwnInv WaitInv CallInv SpecInv TraceStep Wake Awake AllInv PausedInv ResultInv JoinInv PairedInv WaiterInv MutexSpec MutexW MutexEff MutexTok.
Import ListNotations.
Local Open Scope Z_scope.

Definition muused (s : state) (m : nat) : Prop := exists x f, In f (seg (stk (sc s) x)) /\ fobj f (QMu m).
Definition mw (s : state) : Prop := forall m, mlocked (mux (dt s) m) = true \/ muused s m -> mrt (mux (dt s) m) = rtid (dt s).

(** what a call does to the owner field *)
Lemma check_mu_rt : forall m d v d1, check_mu m d = (v, d1) ->
  rtid d1 = rtid d /\ ((v = OK /\ mrt (mux d1 m) = rtid d) \/ (v <> OK /\ d1 = d)).
Proof.
  intros m d v d1 E. unfold check_mu in E. destruct (Z.eqb_spec (mrt (mux d m)) 0) as [Z0|NZ].
  - inj E. destruct (mu_init_eq m d) as (M & Q & CO & RT). rewrite M. auto.
  - destruct (Z.eqb_spec (rtid d) (mrt (mux d m))) as [R|R]; cbn in E; inj E; split; auto; right; split; [discriminate | reflexivity].
Qed.
Lemma check_cv_mu : forall v d e d1, check_cv v d = (e, d1) -> mux d1 = mux d /\ rtid d1 = rtid d /\ cof d1 = cof d /\ (forall m, q d1 (QMu m) = q d (QMu m)).
Proof.
  intros v d e d1 E. unfold check_cv in E. destruct (_ =? _); [inj E; cbn; repeat split; intros; apply qupd_neq; discriminate|].
  destruct (negb _); inj E; auto.
Qed.
Lemma yfsr_d : forall fs d d' fs' k, yfsr fs d = (d', fs', k) -> d' = d.
Proof. intros fs d d' fs' k E. unfold yfsr, coyield in E. destruct (_ <? _); inj E; reflexivity. Qed.
Lemma grant_mrt : forall m n d, mrt (mux (grant m n d) m) = mrt (mux d m) /\ rtid (grant m n d) = rtid d.
Proof.
  intros m n. induction n as [|n IH]; intros d; cbn [grant]; [auto|]. unfold popq. destruct (q d (QMu m)) as [|x l] eqn:Q; [auto|]. cbv zeta.
  destruct (rlocked _); [|auto].
  match goal with |- context [upmu m ?f ?d1] => assert (A : mrt (mux (upmu m f d1) m) = mrt (mux d m) /\ rtid (upmu m f d1) = rtid d) by (rewrite upmu_eq; auto) end.
  match goal with |- context [match ?z with [] => _ | _ => _ end] => destruct z end; [exact A|]. destruct (rlocked _); [|exact A].
  destruct (IH (upmu m (fun x0 : murec => set_mrl (mrl x0 + 1) x0) (sched_resume (node_co x) (set_q (qupd (q d) (QMu m) l) d)))) as [B1 B2]. destruct A. split; congruence.
Qed.
Lemma fastunlock_mrt : forall m gs d d' fs k, fastunlock m gs d = (d', fs, k) -> mrt (mux d' m) = mrt (mux d m) /\ rtid d' = rtid d.
Proof.
  intros m gs d d' fs k E. unfold fastunlock in E. destruct (negb _); [inj E; auto|]. cbv zeta in E.
  set (d1 := if 0 <? mrl (mux d m) then upmu m (set_mrl (mrl (mux d m) - 1)) d else d) in *.
  assert (A : mrt (mux d1 m) = mrt (mux d m) /\ rtid d1 = rtid d) by (unfold d1; destruct (_ <? _); [rewrite upmu_eq|]; auto).
  destruct (_ && _); [inj E; auto|]. destruct (emptyq _ _); [inj E; rewrite upmu_eq; auto|]. apply yfsr_d in E. subst d'.
  destruct (grant_mrt m (length (q d1 (QMu m))) d1) as [B1 B2]. destruct A. split; congruence.
Qed.
Lemma finish_lock_mrt : forall c m rl dl fs d d' fs' k, finish_lock c m rl dl fs d = (d', fs', k) -> mux d' = mux d /\ rtid d' = rtid d.
Proof. intros c m rl dl fs d d' fs' k E. unfold finish_lock in E. apply copause_eff in E. destruct E as (_ & A & B & _). rewrite A, B. auto. Qed.
Lemma cv_relock_mrt : forall c m ret nw d d' fs k, cv_relock c m ret nw d = (d', fs, k) -> mrt (mux d' m) = mrt (mux d m) /\ rtid d' = rtid d.
Proof.
  intros c m ret nw d d' fs k E. unfold cv_relock in E. destruct (negb _); [inj E; rewrite upmu_eq; auto|].
  destruct (mu_trylock c m false MAXI nw d) as [v d1] eqn:T. destruct (try_eff _ _ false _ _ _ _ _ _ T) as (_ & T2 & _ & T4 & _).
  destruct (_ =? _); [|inj E; auto]. apply finish_lock_mrt in E. destruct E as [-> ->]. auto.
Qed.
(** a call that involves [m] *)
Lemma hcall_mrt : forall c o nw d d' fs k m, kcall c d o (QMu m) -> o <> OpExit -> hcall c o nw d = (d', fs, k) ->
  mrt (mux d' m) = rtid d \/ (mux d' m = mux d m /\ fs = []) \/ (o = OpMuDestroy m /\ mrt (mux d' m) = 0 /\ mlocked (mux d' m) = false).
Proof.
  intros c o nw d d' fs k m KC NX E. destruct o; cbn [kcall] in KC; try discriminate KC; try contradiction;
    try (destruct KC as (? & _ & KC); discriminate KC); try (destruct KC as [KC|KC]; try discriminate KC);
    try (destruct (NX eq_refl)); injection KC as <-; cbn [hcall] in E.
  - inj E. left. destruct (mu_init_eq m d) as (-> & _). reflexivity.
  - unfold do_trylock in E. destruct (check_mu m d) as [v1 d1] eqn:C. destruct (check_mu_rt _ _ _ _ C) as [R [[-> A]|[N ->]]].
    + change (negb (OK =? OK)) with false in E. cbn match in E. destruct (mu_trylock c m true 0 nw d1) as [v2 d2] eqn:T. inj E.
      destruct (try_eff _ _ false _ _ _ _ _ _ T) as (_ & _ & _ & T4 & _). left. congruence.
    + destruct (Z.eqb_spec v1 OK); [contradiction|]. cbn in E. inj E. auto.
  - unfold do_trylock in E. destruct (check_mu m d) as [v1 d1] eqn:C. destruct (check_mu_rt _ _ _ _ C) as [R [[-> A]|[N ->]]].
    + change (negb (OK =? OK)) with false in E. cbn match in E. destruct (mu_tryrdlock c m true 0 nw d1) as [v2 d2] eqn:T. inj E.
      destruct (try_eff _ _ true _ _ _ _ _ _ T) as (_ & _ & _ & T4 & _). left. congruence.
    + destruct (Z.eqb_spec v1 OK); [contradiction|]. cbn in E. inj E. auto.
  - unfold do_lock in E. destruct (check_mu m d) as [v1 d1] eqn:C. destruct (check_mu_rt _ _ _ _ C) as [R [[-> A]|[N ->]]].
    + change (negb (OK =? OK)) with false in E. cbn match in E. destruct (mu_trylock c m false dl nw d1) as [v2 d2] eqn:T.
      destruct (try_eff _ _ false _ _ _ _ _ _ T) as (_ & _ & _ & T4 & _). destruct (_ =? _).
      * apply finish_lock_mrt in E. destruct E as [-> _]. left. congruence.
      * inj E. left. congruence.
    + destruct (Z.eqb_spec v1 OK); [contradiction|]. cbn in E. inj E. auto.
  - unfold do_lock in E. destruct (check_mu m d) as [v1 d1] eqn:C. destruct (check_mu_rt _ _ _ _ C) as [R [[-> A]|[N ->]]].
    + change (negb (OK =? OK)) with false in E. cbn match in E. destruct (mu_tryrdlock c m false dl nw d1) as [v2 d2] eqn:T.
      destruct (try_eff _ _ true _ _ _ _ _ _ T) as (_ & _ & _ & T4 & _). destruct (_ =? _).
      * apply finish_lock_mrt in E. destruct E as [-> _]. left. congruence.
      * inj E. left. congruence.
    + destruct (Z.eqb_spec v1 OK); [contradiction|]. cbn in E. inj E. auto.
  - unfold do_unlock in E. destruct (check_mu m d) as [v1 d1] eqn:C. destruct (check_mu_rt _ _ _ _ C) as [R [[-> A]|[N ->]]].
    + change (negb (OK =? OK)) with false in E. cbn match in E. apply fastunlock_mrt in E. left. destruct E. congruence.
    + destruct (Z.eqb_spec v1 OK); [contradiction|]. cbn in E. inj E. auto.
  - unfold do_mudestroy in E. destruct (check_mu m d) as [v1 d1] eqn:C. destruct (check_mu_rt _ _ _ _ C) as [R [[-> A]|[N ->]]].
    + change (negb (OK =? OK)) with false in E. cbn match in E. destruct (mlocked _); inj E; [left; exact A|].
      right. right. cbn. rewrite nupd_eq. auto.
    + destruct (Z.eqb_spec v1 OK); [contradiction|]. cbn in E. inj E. auto.
  - unfold do_cvwait in E. destruct (check_cv v d) as [v0 d0] eqn:C0. destruct (check_cv_mu _ _ _ _ C0) as (M0 & R0 & _).
    destruct (negb _); [inj E; right; left; rewrite M0; auto|].
    destruct (check_mu m d0) as [v1 d1] eqn:C. destruct (check_mu_rt _ _ _ _ C) as [R [[-> A]|[N ->]]].
    + change (negb (OK =? OK)) with false in E. cbn match in E. destruct (canceled _); [inj E; left; cbn [mux upco set_cof]; congruence|].
      apply fastunlock_mrt in E. left. destruct E. congruence.
    + destruct (Z.eqb_spec v1 OK); [contradiction|]. cbn in E. inj E. rewrite M0. auto.
Qed.
Lemma exitk_mu : forall c d m, ~ exitk c d (QMu m).
Proof. intros c d m H. destruct H as [H|[H|(g & _ & H)]]; discriminate. Qed.
Lemma kcall_mu_dec : forall c d o m, kcall c d o (QMu m) \/ ~ kcall c d o (QMu m).
Proof.
  intros c d o m. destruct o; cbn [kcall]; try (right; intros H; discriminate H || destruct H; fail); try (right; intros (? & _ & H); discriminate H);
    try (destruct (Nat.eq_dec m0 m) as [->|N]; [left; reflexivity | right; congruence]).
  - destruct (Nat.eq_dec m0 m) as [->|N]; [left; right; reflexivity | right; intros [H|H]; congruence].
  - right. apply exitk_mu.
Qed.

Lemma muused_step : forall s c d k fs st' sch md nc T m, reach s -> cur (sc s) = Some c ->
  exec c k (set_stk (zupd (stk (sc s)) c (fs ++ st')) (sc s)) = (sch, md) ->
  muused (mkst sch d md (now s) nc T) m -> (exists f, In f (seg (fs ++ st')) /\ fobj f (QMu m) /\ forall e, k <> CFinal e) \/ muused s m.
Proof.
  intros s c d k fs st' sch md nc T m RE CU X (x & f & IN & FO). cbn [sc] in IN. pose proof (reach_full _ RE) as F. pose proof (cur_notfresh _ _ F CU) as NFR.
  destruct (exec_stk_cases _ _ _ _ _ X NFR x) as [[-> QQ]|[(NE & -> & (g & ->) & QQ)|(NE & QQ & _)]]; rewrite QQ in IN.
  - cbn [set_stk stk] in IN. rewrite zupd_eq in IN. assert (NF : forall e, k <> CFinal e) by (intros e ->; destruct IN).
    left. exists f. split; [destruct k; try exact IN; destruct IN | auto].
  - destruct IN.
  - cbn [set_stk stk] in IN. rewrite zupd_neq in IN by exact NE. right. exists x, f. auto.
Qed.
Lemma call_fobj : forall c o nw d d' fs k kk st f m, hcall c o nw d = (d', fs, k) -> (forall e, k <> CFinal e) ->
  In f (seg (fs ++ FApi kk o :: st)) -> fobj f (QMu m) -> fs <> [] /\ uses o (QMu m).
Proof.
  intros c o nw d d' fs k kk st f m E NF IN FO. apply seg_app in IN. destruct IN as [IN|[[] _]]. split; [intros ->; destruct IN|].
  destruct (hcall_next _ _ _ _ _ _ _ E) as [N|[(h & -> & -> & -> & _)|(-> & N)]].
  - assert (SH : shape o fs) by (destruct k; try exact N; try destruct N; exfalso; eapply NF; reflexivity). eapply shape_fobj; eauto.
  - destruct IN as [<-|[]]. destruct FO.
  - exfalso. pose proof (hcall_special _ _ _ _ _ _ _ E eq_refl) as EX. cbn in EX. destruct EX as [h l CL -> -> ->|a ER].
    + destruct IN as [<-|[]]. destruct FO.
    + destruct (coexit_rest_shape _ _ _ _ _ _ ER) as [(-> & _)|(ES & _)]; [destruct IN|]. eapply exit_nofobj; eassumption.
Qed.
Lemma uses_kcall : forall c d o m, uses o (QMu m) -> kcall c d o (QMu m).
Proof. intros c d o m U. destruct o; cbn in *; try contradiction; auto; discriminate U. Qed.
Lemma call_mux : forall c o nw d d' fs k m, hcall c o nw d = (d', fs, k) -> ~ kcall c d o (QMu m) -> mux d' m = mux d m.
Proof.
  intros c o nw d d' fs k m E NK. destruct (hcall_fp _ _ _ _ _ _ _ 0%nat [] E) as (R & P & FP & _). eapply fps_mux; eassumption.
Qed.
Lemma call_rtid : forall c o nw d d' fs k, hcall c o nw d = (d', fs, k) -> rtid d' = rtid d.
Proof. intros c o nw d d' fs k E. destruct (hcall_fp _ _ _ _ _ _ _ 0%nat [] E) as (R & P & FP & _). eapply fps_rtid; eassumption. Qed.
Lemma leave_mux : forall f c d, mux (leave f c d) = mux d /\ rtid (leave f c d) = rtid d.
Proof.
  intros f c d. destruct f; cbn [leave]; try (split; reflexivity).
  generalize (Z.to_nat n). intros j. revert d. induction j as [|j IH]; intros d; cbn [rm_cases]; [auto|]. destruct (IH (rmq (NCase c (Z.of_nat j)) d)) as [-> ->]. auto.
Qed.
Lemma tick_mux : forall c f v b nw d d' fs k m, hret c f v b nw d = (d', fs, k) -> ~ kret c d f (QMu m) -> mux d' m = mux d m.
Proof.
  intros c f v b nw d d' fs k m E NK. destruct (hret_fp _ _ _ _ _ _ _ _ _ [] E) as (R & P & FP & _). rewrite <- (proj1 (leave_mux f c d)). eapply fps_mux; eassumption.
Qed.
Lemma tick_rtid : forall c f v b nw d d' fs k, hret c f v b nw d = (d', fs, k) -> rtid d' = rtid d.
Proof. intros c f v b nw d d' fs k E. destruct (hret_fp _ _ _ _ _ _ _ _ _ [] E) as (R & P & FP & _). rewrite <- (proj2 (leave_mux f c d)). eapply fps_rtid; eassumption. Qed.
Lemma kret_mu : forall c d f m, kret c d f (QMu m) -> (exists v, f = FCvWait v m) \/ exists r, f = FCvRelock m r.
Proof.
  intros c d f m K. destruct f; cbn [kret] in K; try contradiction; try discriminate K; try (destruct (exitk_mu _ _ _ K)).
  - injection K as <-. eauto.
  - destruct K as [K|K]; [injection K as <-; eauto | destruct (exitk_mu _ _ _ K)].
Qed.
Lemma async_prims_mu : forall c d d' fs k, coexit_async c d = (d', fs, k) -> forall m, mux d' m = mux d m.
Proof.
  intros c d d' fs k E m. apply (call_mux c OpExit 0 d d' fs k m E). apply exitk_mu.
Qed.
Lemma tick_mrt : forall c f v b nw d d' fs k m, hret c f v b nw d = (d', fs, k) -> mrt (mux d' m) = mrt (mux d m).
Proof.
  intros c f v b nw d d' fs k m E.
  assert (D : kret c d f (QMu m) \/ ~ kret c d f (QMu m)).
  { destruct f; cbn [kret]; auto; try (right; discriminate); try (right; apply exitk_mu).
    - destruct (Nat.eq_dec m0 m); [left | right]; congruence.
    - destruct (Nat.eq_dec m0 m); [left; left; congruence | right; intros [H|H]; [congruence | exact (exitk_mu _ _ _ H)]]. }
  destruct D as [K|K]; [|rewrite (tick_mux _ _ _ _ _ _ _ _ _ _ E K); reflexivity].
  destruct (kret_mu _ _ _ _ K) as [(vv & ->)|(r & ->)]; cbn [hret] in E.
  - unfold cvwait_end in E. destruct (checkdl _ _ _ _) as [v1 d1] eqn:C. apply checkdl_eff in C. destruct C as (_ & C & _). cbn [mux set_ncvs rmq set_q] in C.
    apply cv_relock_mrt in E. destruct E as [-> _]. rewrite C. reflexivity.
  - destruct (v =? OK); [inj E; reflexivity|]. destruct (_ && _); [rewrite (async_prims_mu _ _ _ _ _ E); reflexivity|].
    apply cv_relock_mrt in E. apply E.
Qed.
Theorem reach_mw : forall s, reach s -> tidy (tr s) -> mw s.
Proof.
  apply (rrun_preserves (fun s => tidy (tr s) -> mw s)).
  - intros s c o d fs k sch md RE I M CU U NR E X T m H. cbn [tr] in T. pose proof T as T1. apply tidy_call in T1. specialize (I T1). cbn [dt] in *.
    rewrite ctl_mux, ctl_rtid in *. rewrite (call_rtid _ _ _ _ _ _ _ E).
    pose proof (reach_full _ RE) as F.
    assert (RSN : forall x f kk, In f (seg (stk (sc s) x)) -> fobj f kk -> ~ resets o kk).
    { intros x f kk IN FO RS. assert (LV : stk (sc s) x <> []) by (intros Q; rewrite Q in IN; destruct IN).
      destruct (seg_host _ _ _ (live_lstack _ _ F LV) IN FO) as (j & o' & IA & US). eapply (tidy_now _ _ _ _ _ _ RE T RS); eassumption. }
    assert (HU : mlocked (mux d m) = true \/ (fs <> [] /\ uses o (QMu m)) \/ muused s m).
    { destruct H as [H|H]; [auto|]. right. destruct (muused_step _ _ _ _ _ _ _ _ _ _ _ RE CU X H) as [(f & IN & FO & NF)|H2]; [left; eapply call_fobj; eassumption | auto]. }
    clear H. destruct (kcall_mu_dec c (dt s) o m) as [K|K].
    + assert (NX : o <> OpExit) by (intros ->; exact (exitk_mu _ _ _ K)).
      destruct (hcall_mrt _ _ _ _ _ _ _ _ K NX E) as [A|[[A ->]|(-> & A & B)]]; [exact A | |].
      * rewrite A in *. apply I. destruct HU as [H|[[[] _]|H]]; auto.
      * exfalso. destruct HU as [H|[[_ H]|(x & f & IN & FO)]]; [congruence | destruct H | eapply RSN; [exact IN | exact FO | reflexivity]].
    + rewrite (call_mux _ _ _ _ _ _ _ _ E K) in *. apply I. destruct HU as [H|[[_ H]|H]]; auto. destruct K. apply uses_kcall, H.
  - intros s c v f rest b d fs k sch md RE I M CU SK L E X T m H. cbn [tr] in T. apply tidy_tick in T. specialize (I T). cbn [dt] in *.
    rewrite ctl_mux, ctl_rtid in *. rewrite (tick_rtid _ _ _ _ _ _ _ _ _ E), (tick_mrt _ _ _ _ _ _ _ _ _ m E). apply I.
    pose proof (reach_full _ RE) as F.
    destruct H as [H|H].
    + destruct (mlocked (mux (dt s) m)) eqn:ML; [auto|]. right.
      assert (K : kret c (dt s) f (QMu m)).
      { assert (D : kret c (dt s) f (QMu m) \/ ~ kret c (dt s) f (QMu m)).
        { destruct f; cbn [kret]; auto; try (right; discriminate); try (right; apply exitk_mu).
          - destruct (Nat.eq_dec m0 m); [left | right]; congruence.
          - destruct (Nat.eq_dec m0 m); [left; left; congruence | right; intros [Q|Q]; [congruence | exact (exitk_mu _ _ _ Q)]]. }
        destruct D as [K|K]; [exact K|]. rewrite (tick_mux _ _ _ _ _ _ _ _ _ _ E K) in H. congruence. }
      exists c, f. rewrite SK. destruct (kret_mu _ _ _ _ K) as [(vv & ->)|(r & ->)]; (split; [left; reflexivity | cbn; auto]).
    + destruct (muused_step _ _ _ _ _ _ _ _ _ _ _ RE CU X H) as [(g & IN & FO & NF)|H2]; [|auto]. right.
      assert (LS : lstack (f :: rest)) by (rewrite <- SK; apply live_lstack; [exact F | rewrite SK; discriminate]).
      destruct (tick_seg _ _ _ _ _ _ _ _ _ _ _ E LS NF IN (QMu m) FO) as (g' & IG & FG). rewrite <- SK in IG. exists c, g'. auto.
  - intros s d ws sch md ios RE I M A K X T m H. cbn [tr set_sc set_dt set_mode] in T. specialize (I T).
    apply sco_switch_frame in X. destruct X as (X1 & _). destruct (wakes_frame ws (sc s)) as (W1 & _).
    destruct (mprims_mu _ _ (mp_main _ _ _ _ _ _ _ K)) as (MX & RT & _). cbn [set_sc set_dt set_mode sc dt] in *.
    rewrite MX, RT in *. apply I. destruct H as [H|(x & f & IN & FO)]; [auto|]. right. exists x, f. cbn [sc set_sc] in IN. rewrite X1, W1 in IN. auto.
  - intros s m RE I HM T m0 H. apply (I T). exact H.
  - intros s e RE I H M T m HU. apply tidy_env in T; [|exact H]. specialize (I T m). pose proof (reach_rt _ RE) as RT.
    assert (U : muused (step s e) m -> muused s m) by (intros (x & f & IN & FO); destruct (env_frame s e H) as (E1 & _); rewrite E1 in IN; exists x, f; auto).
    assert (D : (mux (dt (step s e)) m = mux (dt s) m /\ rtid (dt (step s e)) = rtid (dt s)) \/
                (rtid (dt (step s e)) = rtid (dt s) /\ mrt (mux (dt s) m) = 0 /\ mlocked (mux (dt (step s e)) m) = mlocked (mux (dt s) m))).
    { destruct e; try contradiction; cbn [step]; unfold set_now, set_dt; 
      repeat match goal with |- context [if ?b then _ else _] => destruct b eqn:? | |- context [match mode ?z with _ => _ end] => destruct (mode z) | |- context [match stk (sc ?z) ?c with _ => _ end] => destruct (stk (sc z) c) as [|[] ?] end;
      cbn; auto.
      all: unfold upmu; cbn; unfold nupd; destruct (Nat.eqb_spec m m0) as [->|]; auto; right; cbn; repeat split; apply Z.eqb_eq; assumption. }
    destruct D as [[D1 D2]|(D1 & D2 & D3)]; [rewrite D1, D2 in *; apply I; destruct HU; auto|].
    exfalso. rewrite D3 in HU. assert (Q : mrt (mux (dt s) m) = rtid (dt s)) by (apply I; destruct HU; auto). lia.
  - intros g O T m H. cbn in *. destruct H as [H|(x & f & IN & FO)]; [discriminate H|]. cbn in IN. unfold zupd in IN. destruct (_ =? _); destruct IN.
Qed.
