(** Joining: a coroutine waiting for another stays queued until the other ends. *)
From Coq Require Import List ZArith Bool Lia.
From Verif Require Import AATreeSpec AATreeHist Util Runtime SchedInv StepInv StackShape RuntimeSpec TraceInv Immediate Prims StaticInv Footprint QueueInv OwnInv WaitInv CallInv SpecInv TraceStep Wake Awake AllInv ResultInv.
Import ListNotations.
Local Open Scope Z_scope.

(** a waiter nobody takes out of its queue stays there *)
Lemma fps_keep : forall c KP KW d R P d', fps c KP KW d R P d' -> forall x k, x <> c -> ~ In x R -> ~ (objq k /\ KP k) ->
  In (NCo x) (q d k) -> In (NCo x) (q d' k).
Proof.
  intros c KP KW d R P d' F x k N. induction F; intros NR NO I0; auto.
  - apply fps_core_q in H. destruct H as (H & _). rewrite H. auto.
  - apply In_rmq. split; [auto|]. intros <-. cbn in H. congruence.
  - apply In_pushq. left. split; [auto|]. intros <-. cbn in H. congruence.
  - assert (NR' : ~ In x R) by (intros J; apply NR; right; exact J). specialize (IHF NR' NO I0).
    cbn. unfold qupd. destruct (qid_eqb_spec k k0) as [->|]; [|exact IHF]. rewrite H1 in IHF. destruct IHF as [->|J]; [|exact J].
    exfalso. apply NR. left. reflexivity.
  - apply In_sched_resume. left. split; [auto|]. intros Q. injection Q as ->. contradiction.
  - cbn. unfold qupd. destruct (qid_eqb_spec k k0) as [->|]; [|subst; auto]. tauto.
Qed.
Lemma leave_keep : forall f c d x k, x <> c -> In (NCo x) (q d k) -> In (NCo x) (q (leave f c d) k).
Proof.
  intros f c d x k N I0. destruct f; cbn [leave]; auto; try (apply In_rmq; split; [exact I0 | congruence]).
  apply In_rm_cases. split; [exact I0 | discriminate].
Qed.
Lemma ctl_keep : forall c n k d x kk, x <> c -> waitq kk -> In (NCo x) (q d kk) -> In (NCo x) (q (ctl_dat c n k d) kk).
Proof.
  intros c n k d x kk N W I0. destruct k; cbn [ctl_dat]; auto.
  - rewrite spawn_q_eq; [exact I0|]. intros ->. exact W.
  - unfold final_dat. cbn [q set_npool]. apply In_pushq. left. split; [exact I0 | congruence].
Qed.

(** handlers, when cancellation is deferred *)
Lemma hret_defer : forall c f v b nw d d' fs k, hret c f v b nw d = (d', fs, k) -> casync (cof d c) = false ->
  (exists a, (f = FEntry \/ f = FExitLoop) /\ coexit_rest c a d = (d', fs, k)) \/
  (exists h l, f = FExitLoop /\ cleanups (cof d c) = h :: l /\ d' = upco c (set_cleanups l) d /\ fs = [FExitLoop] /\ k = CUser) \/
  (f <> FEntry /\ f <> FExitLoop /\ all d' = all d).
Proof.
  intros c f v b nw d d' fs k E CA. pose proof (hret_sp _ _ _ _ _ _ _ _ _ E) as S.
  destruct f; try (right; right; split; [discriminate|]; split; [discriminate|]; eapply sp_env; exact S);
    try (right; right; split; [discriminate|]; split; [discriminate|]; destruct S as [S|(_ & S & _)]; [eapply sp_env; exact S | congruence]).
  - left. exists false. auto.
  - right; right. split; [discriminate|]. split; [discriminate|]. apply do_cancel_all in S. apply S.
  - destruct S as [h l CL E1 E2 E3|a S]; [right; left; exists h, l; auto | left; exists a; auto].
  - right; right. split; [discriminate|]. split; [discriminate|]. destruct S as (-> & _). reflexivity.
  - right; right. split; [discriminate|]. split; [discriminate|]. destruct S as (-> & _). reflexivity.
Qed.
Lemma coexit_rest_all : forall c a d d' fs k, coexit_rest c a d = (d', fs, k) -> all d' = remove1 c (all d).
Proof. intros c a d d' fs k E. apply coexit_rest_sp in E. apply sp_env in E. apply E. Qed.
Lemma remove1_out : forall x l, ~ In x (remove1 x l).
Proof. intros x l H. apply remove1_In in H. destruct H. congruence. Qed.

(** what the step of [c] may do to somebody waiting for [id] *)
Lemma exit_join : forall c a d d' fs k, coexit_rest c a d = (d', fs, k) -> ~ In c (all d').
Proof. intros c a d d' fs k E. rewrite (coexit_rest_all _ _ _ _ _ _ E). apply remove1_out. Qed.

Definition jq (s : state) : Prop := forall x id rest, top (stk (sc s) x) = FJoin id :: rest ->
  id <= nextid (sc s) /\ (In (NCo x) (q (dt s) (QJoin id)) \/ ~ In id (all (dt s))).

Lemma jq_other : forall s c d0 d KP KW R P st' k sch md n, reach s -> cur (sc s) = Some c -> jq s -> uniq d0 ->
  fps c KP KW d0 R P d -> exec c k (set_stk (zupd (stk (sc s)) c st') (sc s)) = (sch, md) -> n = nextid (sc s) + 1 ->
  (forall x kk, x <> c -> In (NCo x) (q (dt s) kk) -> In (NCo x) (q d0 kk)) -> (forall m kk, In m (q d0 kk) -> In m (q (dt s) kk)) ->
  (forall id, In id (all d) -> In id (all (dt s))) -> (forall id, KP (QJoin id) -> ~ In id (all d)) ->
  forall x id rest, x <> c -> top (stk sch x) = FJoin id :: rest ->
  id <= nextid sch /\ (In (NCo x) (q (ctl_dat c n k d) (QJoin id)) \/ ~ In id (all (ctl_dat c n k d))).
Proof.
  intros s c d0 d KP KW R P st' k sch md n RE CU I U0 FP X -> D0 D1 AM KA x id rest NE TP.
  pose proof (reach_full _ RE) as F. pose proof (cur_notfresh _ _ F CU) as NFR.
  destruct (exec_stk_cases _ _ _ _ _ X NFR x) as [[? _]|[(_ & _ & _ & Q)|(_ & Q & _)]]; [contradiction | |]; rewrite Q in TP; [discriminate TP|].
  cbn in TP. rewrite zupd_neq in TP by exact NE. destruct (I x id rest TP) as [LE H].
  split; [apply exec_nextid in X; rewrite X; cbn; destruct k; lia|].
  assert (AL : ~ In id (all d) -> ~ In id (all (ctl_dat c (nextid (sc s) + 1) k d))).
  { intros N J. destruct k; cbn [ctl_dat] in J; try contradiction. destruct (spawn_all (Some c) (nextid (sc s) + 1) isgen d) as (A & _). rewrite A in J.
    apply in_app_or in J. destruct J as [J|[J|[]]]; [contradiction | lia]. }
  destruct H as [H|H]; [|right; apply AL; intros J; apply H, AM, J].
  destruct (in_dec Z.eq_dec x R) as [IR|NR].
  - right. apply AL. destruct (fps_taken _ _ _ _ _ _ _ FP U0 x IR) as (kk & m & K & PO & NC & [J|[J _]] & _); [|congruence].
    apply D1 in J. pose proof (reach_qloc _ RE m kk (popq_waitq _ PO) J) as MA. rewrite NC in MA. unfold matched in MA. rewrite TP in MA.
    destruct MA as [_ ->]. apply KA, K.
  - left. apply ctl_keep; [exact NE | exact Logic.I|]. eapply fps_keep; [exact FP | exact NE | exact NR | intros [[] _] | apply D0; assumption].
Qed.

Lemma deferred_back : forall s s', deferred s' -> env_async (dt s') = env_async (dt s) -> (forall x, In x (tr s) -> In x (tr s')) -> deferred s.
Proof. intros s s' [A B] E T. split; [congruence|]. intros k c t H. eapply B, T, H. Qed.
Lemma ctl_env : forall c n k d, env_async (ctl_dat c n k d) = env_async d.
Proof. intros. destruct k; cbn [ctl_dat]; try reflexivity. apply spawn_all. Qed.
Lemma hcall_env : forall c o nw d d' fs k, hcall c o nw d = (d', fs, k) -> env_async d' = env_async d.
Proof. intros c o nw d d' fs k E. eapply (prims_const c bool env_async); [|eapply hcall_prims; exact E]. intros a b PP; destruct PP; reflexivity. Qed.
Lemma hret_env : forall c f v b nw d d' fs k, hret c f v b nw d = (d', fs, k) -> env_async d' = env_async d.
Proof. intros c f v b nw d d' fs k E. eapply (prims_const c bool env_async); [|eapply hret_prims; exact E]. intros x y PP; destruct PP; reflexivity. Qed.
Lemma call_deferred : forall s c o d fs k sch md nw nc, hcall c o (now s) (dt s) = (d, fs, k) ->
  deferred (mkst sch (ctl_dat c (nextid (sc s) + 1) k d) md nw nc (call_tr s c o fs k)) -> deferred s /\ o <> OpSetType true.
Proof.
  intros s c o d fs k sch md nw nc E D. split.
  - eapply deferred_back; [exact D | cbn [dt]; rewrite ctl_env; eapply hcall_env; exact E | intros x; cbn [tr]; apply call_tr_old].
  - intros ->. destruct D as [_ D]. cbn [tr] in D. eapply D. apply call_tr_new.
Qed.
Lemma tick_deferred : forall s c v f b d fs k sch md nw nc, hret c f v b (now s) (dt s) = (d, fs, k) ->
  deferred (mkst sch (ctl_dat c (nextid (sc s) + 1) k d) md nw nc (tick_tr s c v f d fs k)) -> deferred s.
Proof.
  intros s c v f b d fs k sch md nw nc E D.
  eapply deferred_back; [exact D | cbn [dt]; rewrite ctl_env; eapply hret_env; exact E | intros x; cbn [tr]; apply tick_tr_old].
Qed.
Lemma main_deferred : forall s s' , mprims (dt s) (dt s') -> tr s' = tr s -> deferred s' -> deferred s.
Proof.
  intros s s' MP T [A B]. rewrite T in B. split; [|exact B]. rewrite <- A. clear A B T. revert MP. generalize (dt s) (dt s'). intros d d' MP.
  induction MP; [reflexivity|]. rewrite IHMP. destruct H; reflexivity.
Qed.
Lemma env_deferred : forall s e, match e with ECall _ | ETick _ | EMain _ => False | _ => True end -> deferred (step s e) -> deferred s.
Proof.
  intros s e H D. eapply deferred_back; [exact D | | intros x; apply env_tr_old, H].
  destruct e; try contradiction; cbn;
      repeat match goal with |- context [if ?b then _ else _] => destruct b | |- context [match mode ?z with _ => _ end] => destruct (mode z)
        | |- context [match stk (sc ?z) ?c with _ => _ end] => destruct (stk (sc z) c) as [|[] ?] end; cbn; auto.
Qed.

(** the set of live coroutines only shrinks in a handler *)
Lemma prims_all : forall c d d', prims c d d' -> forall x, In x (all d') -> In x (all d).
Proof.
  intros c d d' P x. induction P; [auto|]. intros H0. apply IHP. destruct H; cbn in H0; auto; try (apply remove1_In in H0; apply H0).
Qed.
Lemma mprims_all : forall d d', mprims d d' -> all d' = all d.
Proof. intros d d' P. induction P; [reflexivity|]. rewrite <- IHP. destruct H; reflexivity. Qed.

Lemma hcall_join : forall c o nw d d' fs k j st id rest, hcall c o nw d = (d', fs, k) -> top (fs ++ FApi j o :: st) = FJoin id :: rest ->
  exists dl, o = OpJoin id dl.
Proof.
  intros c o nw d d' fs k j st id rest E TP. destruct (hcall_next _ _ _ _ _ _ _ E) as [N|[(h & -> & -> & -> & _)|(-> & N)]].
  - destruct k; cbn in N; try contradiction; inversion N; subst; cbn in TP; try discriminate TP;
      try (match goal with H : pz _ _ |- _ => inversion H; subst; cbn in TP end);
      try (match goal with H : yf _ _ |- _ => inversion H; subst; cbn in TP end); try discriminate TP; injection TP as -> _; eauto.
  - discriminate TP.
  - pose proof (hcall_special _ _ _ _ _ _ _ E eq_refl) as EX. cbn in EX. destruct EX as [h l CL -> -> ->|a ER]; [discriminate TP|].
    exfalso. destruct (coexit_rest_shape _ _ _ _ _ _ ER) as [(-> & _)|(ES & _)]; [discriminate TP|].
    destruct (exit_shape_hd _ ES) as (f & r & -> & H). destruct f; cbn in TP; try discriminate TP; contradiction.
Qed.
Lemma do_join_wait : forall c id dl nw d d' fs k, do_join c id dl nw d = (d', fs, k) -> fs <> [] ->
  In id (all d) /\ In (NCo c) (q d' (QJoin id)).
Proof.
  intros c id dl nw d d' fs k E NF. unfold do_join in E. destruct (mem id (all d)) eqn:ME; cbn in E; [|inj E; congruence].
  apply mem_In in ME. split; [exact ME|]. destruct (checkdl c dl nw d) as [v d1]. destruct (negb _); [inj E; congruence|].
  destruct (id =? c); [inj E; congruence|]. apply copause_fs in E. destruct E as [(_ & _ & -> & _)|(_ & _ & _ & _ & ->)].
  - apply In_pushq. auto.
  - cbv zeta. assert (H : In (NCo c) (q (pushq (QJoin id) (NCo c) d1) (QJoin id))) by (apply In_pushq; auto). destruct (dl <? MAXI); exact H.
Qed.

Lemma hret_join : forall c f v b nw d d' fs k id, hret c f v b nw d = (d', fs, k) -> ~ In (FJoin id) fs.
Proof.
  intros c f v b nw d d' fs k id E IN. destruct (hret_out _ _ _ _ _ _ _ _ _ E) as (d1 & _ & O).
  destruct O as [_ N _|g r dl d2 _ WG N WD E1|_ -> _|_ -> _].
  - specialize (N _ IN). discriminate N.
  - assert (IG : In (FJoin id) (FPause :: g :: r)).
    { apply copause_fs in E1. destruct E1 as [(-> & _)|(-> & _)]; [right; exact IN | exact IN]. }
    destruct IG as [Q|[Q|Q]]; [discriminate Q | subst g | specialize (N _ Q); discriminate N].
    destruct f; cbn in WD; destruct WD as [WD ?]; try discriminate WD; destruct WD as (? & WD); discriminate WD.
  - cbn in IN. intuition discriminate.
  - cbn in IN. intuition discriminate.
Qed.

Lemma env_all : forall s e, match e with ECall _ | ETick _ | EMain _ => False | _ => True end -> all (dt (step s e)) = all (dt s).
Proof.
  intros s e H. destruct e; try contradiction; cbn;
      repeat match goal with |- context [if ?b then _ else _] => destruct b | |- context [match mode ?z with _ => _ end] => destruct (mode z)
        | |- context [match stk (sc ?z) ?c with _ => _ end] => destruct (stk (sc z) c) as [|[] ?] end; cbn; auto.
Qed.
(** registered coroutines have been created *)
Lemma reach_all_le : forall s, reach s -> forall x, In x (all (dt s)) -> x <= nextid (sc s).
Proof.
  assert (CT : forall c n k d x, In x (all (ctl_dat c n k d)) -> In x (all d) \/ (x = n /\ exists g, k = CSpawn g)).
  { intros c n k d x I. destruct k; cbn [ctl_dat] in I; auto. destruct (spawn_all (Some c) n isgen d) as (A & _). rewrite A in I.
    apply in_app_or in I. destruct I as [I|[I|[]]]; eauto. }
  apply (rrun_preserves (fun s => forall x, In x (all (dt s)) -> x <= nextid (sc s))).
  - intros s c o d fs k sch md RE I M CU U NR E X x J. cbn [sc dt] in *. apply exec_nextid in X. rewrite X. cbn.
    apply CT in J. destruct J as [J|[-> (g & ->)]]; [|lia]. eapply prims_all in J; [|eapply hcall_prims, E]. specialize (I x J). destruct k; lia.
  - intros s c v f rest b d fs k sch md RE I M CU SK L E X x J. cbn [sc dt] in *. apply exec_nextid in X. rewrite X. cbn.
    apply CT in J. destruct J as [J|[-> (g & ->)]]; [|lia]. eapply prims_all in J; [|eapply hret_prims, E]. specialize (I x J). destruct k; lia.
  - intros s d ws sch md ios RE I M A K X x J. cbn [set_sc set_dt set_mode sc dt] in *. rewrite (mprims_all _ _ (mp_main _ _ _ _ _ _ _ K)) in J.
    apply sco_switch_frame in X. destruct X as (_ & X2 & _). destruct (wakes_frame ws (sc s)) as (_ & W2 & _). rewrite X2, W2. apply I, J.
  - intros s m RE I HM. exact I.
  - intros s e RE I H M x J. rewrite (env_all s e H) in J. pose proof (env_nextid s e H) as EN. specialize (I x J). lia.
  - intros g O x J. cbn in *. lia.
Qed.
(** running a handler or ending: the only ways a coroutine leaves the registry *)
Lemma hret_exits : forall c f v b nw d d' fs k, hret c f v b nw d = (d', fs, k) -> f = FEntry \/ f = FExitLoop \/ f = FCoyield \/ (exists kk oo, f = FApi kk oo) \/ (exists m r, f = FCvRelock m r) ->
  exits c d d' fs k \/ (sp c d d' /\ f <> FEntry /\ f <> FExitLoop).
Proof.
  intros c f v b nw d d' fs k E H. apply hret_sp in E. destruct H as [->|[->|[->|[(kk & oo & ->)|(m & r & ->)]]]].
  - left. eapply ex_rest; exact E.
  - left. exact E.
  - destruct E as [E|(_ & _ & E)]; [right; split; [exact E | split; discriminate] | auto].
  - destruct E as [E|(_ & _ & E)]; [right; split; [exact E | split; discriminate] | auto].
  - destruct E as [E|(_ & _ & E)]; [right; split; [exact E | split; discriminate] | auto].
Qed.
Theorem reach_jq : forall s, reach s -> jq s.
Proof.
  apply (rrun_preserves jq).
  - intros s c o d fs k sch md RE I M CU U NR E X.
    pose proof (reach_full _ RE) as F. pose proof (cur_notfresh _ _ F CU) as NFR.
    intros x id rest TP. cbn [sc dt] in *. destruct (Z.eq_dec x c) as [->|NE].
    + destruct (exec_stk_cases _ _ _ _ _ X NFR c) as [[_ Q]|[(? & _)|(? & _)]]; [|contradiction|contradiction].
      rewrite Q in TP. cbn in TP. rewrite zupd_eq in TP.
      assert (TP2 : top (fs ++ FApi (ncalls s) o :: stk (sc s) c) = FJoin id :: rest) by (destruct k; try exact TP; discriminate TP).
      destruct (hcall_join _ _ _ _ _ _ _ _ _ _ _ E TP2) as (dl & ->).
      assert (NF : fs <> []) by (intros ->; discriminate TP2).
      destruct (do_join_wait _ _ _ _ _ _ _ _ E NF) as [IA IQ]. apply (reach_all_le _ RE) in IA. split; [apply exec_nextid in X; rewrite X; cbn; destruct k; lia|].
      left. unfold do_join in E. destruct k; try exact IQ; cbn [ctl_dat].
      * rewrite spawn_q_eq by discriminate. exact IQ.
      * discriminate TP.
    + destruct (hcall_fp _ _ _ _ _ _ _ (ncalls s) (stk (sc s) c) E) as (R & P & FP & _ & _).
      assert (DO : o = OpExit \/ o <> OpExit) by (destruct o; auto; right; discriminate).
      destruct DO as [->|NO].
      * pose proof (hcall_special _ _ _ _ _ _ _ E eq_refl) as EX. cbn in EX. destruct EX as [h l CL -> -> ->|a ER].
        -- eapply (jq_other s c (dt s) _ (fun _ => False) (fun _ _ => False) [] []); try eassumption; auto; [apply reach_uniq, RE | apply fp_own, fp_nil].
        -- eapply (jq_other s c (dt s) d _ _ R P); try eassumption; auto; [apply reach_uniq, RE | eapply prims_all, hcall_prims, E |].
           intros y KY. cbn in KY. destruct KY as [KY|[KY|(? & _ & KY)]]; try discriminate KY. injection KY as ->. eapply exit_join; exact ER.
      * eapply (jq_other s c (dt s) d _ _ R P); try eassumption; auto; [apply reach_uniq, RE | eapply prims_all, hcall_prims, E |].
        intros y KY. destruct o; cbn in KY; try discriminate KY; try contradiction; try (destruct KY as (? & _ & KY); discriminate KY);
          try (destruct KY as [KY|KY]; discriminate KY).
  - intros s c v f rest0 b d fs k sch md RE I M CU SK L E X.
    pose proof (reach_full _ RE) as F. pose proof (cur_notfresh _ _ F CU) as NFR.
    intros x id rest TP. cbn [sc dt] in *. destruct (Z.eq_dec x c) as [->|NE].
    + destruct (exec_stk_cases _ _ _ _ _ X NFR c) as [[_ Q]|[(? & _)|(? & _)]]; [|contradiction|contradiction].
      rewrite Q in TP. cbn in TP. rewrite zupd_eq in TP.
      assert (TP2 : top (fs ++ rest0) = FJoin id :: rest) by (destruct k; try exact TP; discriminate TP).
      assert (IN : In (FJoin id) (fs ++ rest0)) by (apply top_sub; rewrite TP2; left; reflexivity).
      apply in_app_or in IN. destruct IN as [IN|IN]; [exfalso; eapply hret_join; [exact E | exact IN]|].
      pose proof (reach_wsh _ RE c) as W. rewrite SK in W.
      assert (f = FPause).
      { destruct f; try reflexivity; exfalso; (assert (NW : nowait rest0) by (eapply wsh_tl; [exact W | discriminate]); specialize (NW _ IN); discriminate NW). }
      subst f. cbn in E. injection E as <- <- <-. cbn [exec] in X. inj X. cbn [app] in TP2.
      destruct (wsh_pause _ W) as (g & st & -> & Wg & _).
      assert (TG : top (g :: st) = g :: st) by (destruct g; try reflexivity; discriminate Wg). rewrite TG in TP2. injection TP2 as -> ->.
      destruct (I c id rest) as [LE H]; [rewrite SK; reflexivity|]. split; [exact LE|]. cbn [ctl_dat]. unfold pause_end. cbv zeta.
      destruct (_ <? _); exact H.
    + assert (OTH : forall KP KW R P, fps c KP KW (leave f c (dt s)) R P d -> (forall y, KP (QJoin y) -> ~ In y (all d)) ->
        id <= nextid sch /\ (In (NCo x) (q (ctl_dat c (nextid (sc s) + 1) k d) (QJoin id)) \/ ~ In id (all (ctl_dat c (nextid (sc s) + 1) k d)))).
      { intros KP KW R P FP KA. eapply (jq_other s c (leave f c (dt s)) d KP KW R P); try eassumption; auto.
        - apply leave_uniq, reach_uniq, RE.
        - intros y kk. apply leave_keep.
        - intros m kk. apply leave_in.
        - eapply prims_all, hret_prims, E. }
      assert (D1 : (f = FEntry \/ f = FExitLoop \/ f = FCoyield \/ (exists kk oo, f = FApi kk oo) \/ (exists m r, f = FCvRelock m r)) \/
                   (f <> FEntry /\ f <> FExitLoop /\ f <> FCoyield /\ (forall kk oo, f <> FApi kk oo) /\ forall m r, f <> FCvRelock m r)).
      { destruct f; try (right; repeat split; discriminate); left; eauto 8. }
      destruct (hret_fp _ _ _ _ _ _ _ _ _ rest0 E) as (R & P & FP & _ & _).
      destruct D1 as [D1|(N1 & N2 & N3 & N4 & N5)].
      * destruct (hret_exits _ _ _ _ _ _ _ _ _ E D1) as [[h l CL -> -> ->|a ER]|(SP & N1 & N2)].
        -- apply (OTH (fun _ => False) (fun _ _ => False) [] []); [|contradiction].
           replace (leave f c (dt s)) with (dt s) by (destruct D1 as [->|[->|[->|[(kk & oo & ->)|(m & r & ->)]]]]; reflexivity). apply fp_own, fp_nil.
        -- eapply OTH; [exact FP|]. intros y KY.
           assert (KY2 : QJoin y = QJoin c); [|injection KY2 as ->; eapply exit_join; exact ER].
           destruct D1 as [->|[->|[->|[(kk & oo & ->)|(m & r & ->)]]]]; cbn in KY; unfold exitk in KY; intuition (try discriminate; auto);
             match goal with H : exists _, _ |- _ => destruct H as (? & _ & H); discriminate H end.
        -- destruct D1 as [->|[->|[->|[(kk & oo & ->)|(m & r & ->)]]]]; try congruence.
           ++ cbn [hret] in E. destruct (canceled _ && _) eqn:B; [|inj E; apply (OTH (fun _ => False) (fun _ _ => False) [] []); [apply fp_nil | contradiction]].
              apply coexit_async_exits in E. destruct E as [h l CL -> -> ->|a ER]; [apply (OTH (fun _ => False) (fun _ _ => False) [] []); [apply fp_own, fp_nil | contradiction]|].
              eapply OTH; [exact FP|]. intros y KY. destruct KY as [H|[H|(? & _ & H)]]; try discriminate H. injection H as ->. eapply exit_join; exact ER.
           ++ cbn [hret] in E. destruct (is_async oo && _ && _) eqn:B; [|inj E; apply (OTH (fun _ => False) (fun _ _ => False) [] []); [apply fp_nil | contradiction]].
              apply coexit_async_exits in E. destruct E as [h l CL -> -> ->|a ER]; [apply (OTH (fun _ => False) (fun _ _ => False) [] []); [apply fp_own, fp_nil | contradiction]|].
              eapply OTH; [exact FP|]. intros y KY. destruct KY as [H|[H|(? & _ & H)]]; try discriminate H. injection H as ->. eapply exit_join; exact ER.
           ++ cbn [hret] in E. destruct (v =? OK) eqn:B0; [inj E; apply (OTH (fun _ => False) (fun _ _ => False) [] []); [apply fp_nil | contradiction]|].
              destruct ((v =? ECANCELED) && _) eqn:B.
              ** apply coexit_async_exits in E. destruct E as [h l CL -> -> ->|a ER]; [apply (OTH (fun _ => False) (fun _ _ => False) [] []); [apply fp_own, fp_nil | contradiction]|].
                 eapply OTH; [exact FP|]. intros y KY. assert (KY2 : QJoin y = QJoin c); [|injection KY2 as ->; eapply exit_join; exact ER].
                 cbn in KY; unfold exitk in KY; intuition (try discriminate; auto);
                   match goal with H : exists _, _ |- _ => destruct H as (? & _ & H); discriminate H end.
              ** eapply (fh_cv_relock c (fun z => z = QMu m) (fun _ _ => True)) with (X := fun _ => True) in E; auto.
                 destruct E as (R2 & P2 & FP2 & _). eapply OTH; [exact FP2|]. discriminate.
      * eapply OTH; [exact FP|].
        intros y KY. destruct f; cbn in KY; try contradiction; try discriminate KY; exfalso; congruence.
  - intros s d ws sch md ios RE I M A K X. pose proof (mp_main _ _ _ _ _ _ _ K) as MP.
    intros x id rest TP. cbn [set_sc set_dt set_mode sc dt] in *.
    apply sco_switch_frame in X. destruct X as (X1 & X2). destruct (wakes_frame ws (sc s)) as (W1 & W2).
    rewrite X1, W1 in TP. rewrite (mprims_all _ _ MP), (mprims_wq _ _ _ MP) by exact Logic.I.
    destruct (I x id rest TP) as [LE H]. split; [|exact H]. destruct X2 as (X2 & _). rewrite X2. destruct W2 as (W2 & _). rewrite W2. exact LE.
  - intros s m RE I _. exact I.
  - intros s e RE I H M. intros x id rest TP.
    destruct (env_frame s e H) as (E1 & _). rewrite E1 in TP. destruct (I x id rest TP) as [LE J].
    pose proof (env_nextid s e H) as EN. split; [lia|]. destruct J as [J|J]; [left | right].
    + destruct (env_q s e H) as [Q|(c & _ & _ & (w & SW) & Q)]; rewrite Q; [exact J|]. apply In_pushq.
      destruct (Z.eq_dec x c) as [->|NE]; [|left; split; [exact J | congruence]]. exfalso. rewrite SW in TP. discriminate TP.
    + destruct e; try contradiction; cbn;
      repeat match goal with |- context [if ?b then _ else _] => destruct b | |- context [match mode ?z with _ => _ end] => destruct (mode z)
        | |- context [match stk (sc ?z) ?c with _ => _ end] => destruct (stk (sc z) c) as [|[] ?] end; cbn; auto.
  - intros g O x id rest TP. cbn in TP. unfold zupd in TP. destruct (_ =? _); discriminate TP.
Qed.

(** ** A successful join happens after the target ended *)
(** a coroutine whose top frame is that of a call is about to return from it *)
Lemma reach_api_top : forall s, reach s -> forall x k o st, stk (sc s) x = FApi k o :: st -> ~ handing o ->
  over (mode s) \/ (cur (sc s) = Some x /\ exists v, mode s = MRet v).
Proof.
  intros s RE x k o st SX NH.
  destruct (result_principle (fun _ => True) (fun _ _ _ _ _ _ _ => True)) with (s := s) as [T _]; auto.
  destruct (T x k o st SX) as [H|[H|(H & v & MV & _)]]; [contradiction | auto | eauto].
Qed.

Definition jdone (s : state) : Prop := forall x k id dl st v, cur (sc s) = Some x -> mode s = MRet v -> v = OK ->
  stk (sc s) x = FApi k (OpJoin id dl) :: st -> ~ In id (all (dt s)).

Lemma api_frame : forall c f v b nw d d' k kk o st, lstack (f :: FApi kk o :: st) -> hret c f v b nw d = (d', [], k) ->
  (shape o [f] /\ ustack st) \/ (f = FHandler /\ o = OpCleanupPop true) \/ exists b, k = CFinal b.
Proof.
  intros c f v b nw d d' k kk o st L E. inversion L as [s0 U|k0 o0 w s0 U SH EQ|w s0 ES EQ]; subst.
  - inversion U; subst; cbn [hret] in E.
    + right; left. auto.
    + right; right. unfold coexit_async in E. destruct (cleanups _); [eapply coexit_rest_nil; exact E | inversion E].
  - destruct w as [|f1 [|f2 w]]; cbn in EQ; injection EQ; intros; subst.
    + match goal with H : ustack (FApi _ _ :: _) |- _ => inversion H end.
    + left. auto.
    + exfalso. eapply (shape_noapi o0); [exact SH | right; left; reflexivity].
  - right; right. inversion ES; subst; try (match goal with H : yf _ _ |- _ => inversion H; subst end); cbn in EQ; try discriminate EQ;
      injection EQ as <- _; cbn [hret] in E.
    + unfold exit_gen, yfsr, coyield in E. destruct s; [destruct (_ <? _); inversion E | inj E; eauto].
    + inj E. eauto.
Qed.
Lemma join_frame : forall c f v b nw d d' k kk id dl st, lstack (f :: FApi kk (OpJoin id dl) :: st) -> hret c f v b nw d = (d', [], k) ->
  f = FJoin id \/ exists b, k = CFinal b.
Proof.
  intros c f v b nw d d' k kk id dl st L E. destruct (api_frame _ _ _ _ _ _ _ _ _ _ _ L E) as [[SH _]|[[_ H]|H]]; [left | discriminate H | auto].
  inversion SH; subst; try (match goal with H : pz _ _ |- _ => inversion H; subst; reflexivity end).
Qed.
Lemma checkdl_ok : forall c dl nw d d', checkdl c dl nw d = (OK, d') -> canceled (cof d c) = false /\ deadlined (cof d c) = false.
Proof.
  intros c dl nw d d' E. unfold checkdl in E. destruct (canceled (cof d c)); destruct (deadlined (cof d c)); cbn in E; auto; discriminate E.
Qed.

Theorem reach_jdone : forall s, reach s -> jdone s.
Proof.
  apply (rrun_preserves jdone).
  - intros s c o d fs k sch md RE I M CU U NR E X x kk id dl st v CX MV -> SX. cbn [sc dt mode] in *.
    pose proof (reach_full _ RE) as F. pose proof (cur_notfresh _ _ F CU) as NFR.
    destruct (exec_stk_cases _ _ _ _ _ X NFR x) as [[-> Q]|[(_ & _ & _ & Q)|(NE & Q & _)]]; rewrite Q in SX; [|discriminate SX|].
    + cbn in SX. rewrite zupd_eq in SX. assert (SX2 : fs ++ FApi (ncalls s) o :: stk (sc s) c = FApi kk (OpJoin id dl) :: st) by (destruct k; try exact SX; discriminate SX).
      destruct fs as [|f fs]; [|exfalso; cbn in SX2; injection SX2 as -> _; eapply hcall_noapi; [exact E | left; reflexivity]].
      cbn in SX2. injection SX2 as <- -> _. cbn [hcall] in E. unfold do_join in E. destruct (mem id (all (dt s))) eqn:ME; cbn [negb] in E.
      * exfalso. destruct (checkdl c dl (now s) (dt s)) as [v d1]. destruct (Z.eqb_spec v OK) as [->|NV]; cbn [negb] in E.
        -- destruct (id =? c); [|apply copause_fs in E; destruct E as [(E & _)|(E & _)]; discriminate E].
           injection E as <- <-. cbn [exec] in X. injection X as <- <-. discriminate MV.
        -- injection E as <- <-. cbn [exec] in X. injection X as <- <-. congruence.
      * inj E. cbn [ctl_dat]. intros IN. apply mem_In in IN. congruence.
    + exfalso. cbn in SX. rewrite zupd_neq in SX by exact NE. destruct (reach_api_top _ RE _ _ _ _ SX) as [H|[H _]]; [auto | rewrite M in H; destruct H | congruence].
  - intros s c w f rest b d fs k sch md RE I M CU SK L E X x kk id dl st v CX MV -> SX. cbn [sc dt mode] in *.
    pose proof (reach_full _ RE) as F. pose proof (cur_notfresh _ _ F CU) as NFR.
    destruct (exec_stk_cases _ _ _ _ _ X NFR x) as [[-> Q]|[(_ & _ & _ & Q)|(NE & Q & _)]]; rewrite Q in SX; [|discriminate SX|].
    + cbn in SX. rewrite zupd_eq in SX. assert (SX2 : fs ++ rest = FApi kk (OpJoin id dl) :: st) by (destruct k; try exact SX; discriminate SX).
      destruct fs as [|g fs]; [|exfalso; cbn in SX2; injection SX2 as -> _; eapply tick_noapi; [exact L | exact E | left; reflexivity]].
      cbn in SX2. subst rest. destruct (join_frame _ _ _ _ _ _ _ _ _ _ _ _ L E) as [->|(b0 & ->)]; [|discriminate SX]. cbn [hret] in E. unfold join_end in E.
      destruct (checkdl c MAXI (now s) (rmq (NCo c) (dt s))) as [v d1] eqn:CK. injection E as <- <-. cbn [exec] in X. injection X as <- <-. injection MV as ->.
      assert (AD : all d1 = all (dt s)) by (destruct (checkdl_cases _ _ _ _ _ _ CK) as [(-> & _)| ->]; reflexivity).
      cbn [ctl_dat]. rewrite AD. apply checkdl_ok in CK. destruct CK as [CK1 CK2].
      assert (TP : top (stk (sc s) c) = FJoin id :: FApi kk (OpJoin id dl) :: st) by (rewrite SK; reflexivity).
      destruct (reach_jq _ RE _ _ _ TP) as [_ [H|H]]; [|exact H]. exfalso.
      destruct (reach_awake _ RE _ _ _ TP eq_refl) as [J|[J|[J|J]]].
      * eapply cur_notpaused; eassumption.
      * cbn in CK1. congruence.
      * cbn in CK2. congruence.
      * cbn in J. contradiction.
    + exfalso. cbn in SX. rewrite zupd_neq in SX by exact NE. destruct (reach_api_top _ RE _ _ _ _ SX) as [H|[H _]]; [auto | rewrite M in H; destruct H | congruence].
  - intros s d ws sch md ios RE I M A K X x kk id dl st v CX MV -> SX. cbn [set_sc set_dt set_mode sc dt] in *. exfalso.
    apply sco_switch_frame in X. destruct X as (X1 & X2). destruct (wakes_frame ws (sc s)) as (W1 & W2). rewrite X1, W1 in SX.
    destruct (reach_api_top _ RE _ _ _ _ SX) as [H|[_ (v & H)]]; [auto | rewrite M in H; destruct H | congruence].
  - intros s m RE I HM x kk id dl st v CX MV EV SX. cbn in *. destruct HM as [[-> H]|[[-> _]|[(n & ->)| ->]]]; try discriminate MV.
    exfalso. destruct (reach_api_top _ RE _ _ _ _ SX) as [J|[_ (w & J)]]; [auto | rewrite H in J; destruct J | congruence].
  - intros s e RE I H M x kk id dl st v CX MV EV SX. destruct (env_frame s e H) as (E1 & E2 & _). rewrite (env_all s e H).
    rewrite E1 in SX. rewrite E2 in CX. rewrite M in MV. eapply I; eassumption.
  - intros g O x kk id dl st v CX MV EV SX. cbn in SX. unfold zupd in SX. destruct (_ =? _); discriminate SX.
Qed.

(** ** ... and the target makes no further step of its own *)
Definition acts (x : Z) (z : obs) : Prop := match z with TCall _ c _ _ | THandler c _ => c = x | _ => False end.
Definition jpast (s : state) : Prop := forall l1 l2 k x id dl m t,
  tr s = l1 ++ TRet k x (OpJoin id dl) OK m t :: l2 -> In id (started l2) ->
  ~ In id (all (dt s)) /\ (forall z, In z l1 -> ~ acts id z).

Lemma jpast_exec : forall s c d k st' sch md nw nc T N, reach s -> deferred s -> jpast s -> cur (sc s) = Some c ->
  exec c k (set_stk (zupd (stk (sc s)) c st') (sc s)) = (sch, md) -> T = N ++ tr s ->
  (forall y, In y (all d) -> In y (all (dt s))) ->
  (forall z y, In z N -> acts y z -> In y (all (dt s))) ->
  (forall kk x id dl m t, In (TRet kk x (OpJoin id dl) OK m t) N -> N = [TRet kk x (OpJoin id dl) OK m t] /\ ~ In id (all (dt s)) /\ k = CUser) ->
  jpast (mkst sch (ctl_dat c (nextid (sc s) + 1) k d) md nw nc T).
Proof.
  intros s c d k st' sch md nw nc T N RE D I CU X -> AM NA NR l1 l2 kk x id dl m t Q IS. cbn [tr dt] in *.
  assert (AL : In id (started (tr s)) -> ~ In id (all d) -> ~ In id (all (ctl_dat c (nextid (sc s) + 1) k d))).
  { intros IST NI J. destruct k; cbn [ctl_dat] in J; try contradiction. destruct (spawn_all (Some c) (nextid (sc s) + 1) isgen d) as (A & _). rewrite A in J.
    apply in_app_or in J. destruct J as [J|[J|[]]]; [contradiction|]. apply (ti_ids _ (reach_tinv _ RE)) in IST. lia. }
  destruct (app_eq_app _ _ _ _ Q) as (l & [[EN EL]|[EN EL]]).
  - destruct l as [|z l].
    + cbn in EL. rewrite app_nil_r in EN. subst l1. symmetry in EL. destruct (I [] l2 _ _ _ _ _ _ EL IS) as [A B].
      split; [apply AL; [rewrite EL; exact IS | auto]|]. intros z J AC. exact (A (NA z id J AC)).
    + cbn in EL. injection EL as <- ->. destruct (NR kk x id dl m t) as (N1 & NI & ->); [rewrite EN; apply in_or_app; right; left; reflexivity|].
      rewrite N1 in EN. destruct l1 as [|z1 l1]; [|destruct l1; discriminate EN]. cbn in EN. injection EN as <-. cbn in IS.
      split; [apply AL; auto | intros z []].
  - destruct (I l l2 _ _ _ _ _ _ EL IS) as [A B]. split.
    + apply AL; [|auto]. rewrite EL. unfold started. rewrite flat_map_app. apply in_or_app. right. exact IS.
    + intros z J AC. rewrite EN in J. apply in_app_or in J. destruct J as [J|J]; [exact (A (NA z id J AC)) | eapply B; eassumption].
Qed.

Lemma handler_acts : forall c fs k d z y, In z (handler_obs c fs k d) -> acts y z -> y = c.
Proof.
  intros c fs k d z y H A. destruct (handler_obs_cases c fs k d) as [Q|(h & Q)]; rewrite Q in H; [destruct H|].
  destruct H as [<-|[]]. cbn in A. congruence.
Qed.
Ltac hu E :=
  match type of E with
  | copause _ _ _ _ = _ => let Q := fresh in apply copause_cases in E; destruct E as [(Q & _)|(Q & _)]; discriminate Q
  | yfsr _ _ = _ => apply yfsr_cases in E; destruct E as (_ & E & _); discriminate E
  | (_, _, _) = _ => inversion E; subst; auto; fail
  | coyield _ _ = _ => unfold coyield in E; inversion E
  | context [checkdl ?a ?b ?c ?d] => destruct (checkdl a b c d); hu E
  | context [if ?x then _ else _] => destruct x; hu E
  | context [match ?x with Some _ => _ | None => _ end] => destruct x; hu E
  | context [let '(_, _) := ?x in _] => destruct x; hu E
  end.
(** a handler returns control to the client from the call itself, or to run a cleanup handler *)
Lemma hret_user : forall c f v b nw d d' fs, hret c f v b nw d = (d', fs, CUser) -> casync (cof d c) = false -> fs = [] \/ f = FExitLoop.
Proof.
  intros c f v b nw d d' fs E CA.
  assert (RL : forall m ret e, cv_relock c m ret nw e = (d', fs, CUser) -> fs = []).
  { intros m ret e Q. unfold cv_relock, finish_lock in Q. cbv zeta in Q. hu Q. }
  destruct f; cbn [hret] in E; rewrite ?CA, ?andb_false_r in E; auto; try (hu E; fail).
  - destruct (coexit_rest_shape _ _ _ _ _ _ E) as [(_ & H)|(_ & [H|(? & H)])]; discriminate H.
  - unfold sleep_end in E. hu E.
  - unfold do_cancel in E. hu E.
  - unfold sigwait_end in E. hu E.
  - unfold wait_end in E. hu E.
  - unfold send_end in E. hu E.
  - unfold recv_end in E. hu E.
  - unfold select_end in E. hu E.
  - unfold lock_end in E. hu E.
  - unfold wgwait_end in E. hu E.
  - unfold cvwait_unlocked in E. cbv zeta in E. hu E.
  - unfold cvwait_end in E. destruct (checkdl _ _ _ _) as [v1 d1]. apply RL in E. auto.
  - destruct (_ =? _); [hu E|]. apply RL in E. auto.
  - unfold join_end in E. hu E.
  - unfold suspend_end in E. hu E.
  - unfold work_submit in E. hu E.
  - unfold exit_gen in E. cbv zeta in E. destruct sched; hu E.
Qed.

Theorem reach_jpast : forall s, reach s -> deferred s -> jpast s.
Proof.
  apply (rrun_preserves (fun s => deferred s -> jpast s)).
  - intros s c o d fs k sch md RE I M CU U NR E X D. destruct (call_deferred _ _ _ _ _ _ _ _ _ _ E D) as [D0 NS]. specialize (I D0).
    pose proof (reach_alli _ RE D0) as AL.
    assert (CA : In c (all (dt s))). { apply (al_in _ AL). split; [inversion U; discriminate | apply ustack_noexit; [exact U | apply (al_ex _ AL)]]. }
    eapply (jpast_exec s c) with (N := ctl_obs c (nextid (sc s) + 1) k ++ handler_obs c fs k (dt s) ++ call_obs c (ncalls s) o s); try eassumption.
    + rewrite <- !app_assoc. reflexivity.
    + eapply prims_all, hcall_prims, E.
    + intros z y J A. assert (y = c); [|subst; exact CA]. apply in_app_or in J. destruct J as [J|J]; [|apply in_app_or in J; destruct J as [J|J]].
      * destruct k; cbn in J; intuition (subst; contradiction).
      * eapply handler_acts; eassumption.
      * destruct o; cbn in J; intuition (subst; cbn in A; congruence || contradiction).
    + intros kk x id dl m t J. exfalso. apply in_app_or in J. destruct J as [J|J]; [eapply ctl_obs_noret; exact J|].
      apply in_app_or in J. destruct J as [J|J]; [eapply handler_obs_noret; exact J | eapply call_obs_noret; exact J].
  - intros s c v f rest b d fs k sch md RE I M CU SK L E X D. pose proof (tick_deferred _ _ _ _ _ _ _ _ _ _ _ _ E D) as D0. specialize (I D0).
    pose proof (reach_alli _ RE D0) as AL.
    eapply (jpast_exec s c) with (N := ctl_obs c (nextid (sc s) + 1) k ++ handler_obs c fs k (dt s) ++ ret_obs c f v (d, fs, k) s); try eassumption.
    + rewrite <- !app_assoc. reflexivity.
    + eapply prims_all, hret_prims, E.
    + intros z y J A. apply in_app_or in J. destruct J as [J|J]; [|apply in_app_or in J; destruct J as [J|J]].
      * destruct k; cbn in J; intuition (subst; contradiction).
      * assert (y = c) by (eapply handler_acts; eassumption). subst y. apply (al_in _ AL). rewrite SK. split; [discriminate|].
        assert (f = FExitLoop).
        { destruct k; try (destruct fs as [|[] ?]; destruct J; fail). destruct (hret_user _ _ _ _ _ _ _ _ E (al_async _ AL c)) as [->|H]; [destruct J | exact H]. }
        subst f. destruct (al_ex _ AL c) as [H|(w & base & H & ES & _)]; rewrite SK in H; [exact H|].
        exfalso. destruct (exit_shape_hd _ ES) as (g & r & -> & H1). injection H as <- _. exact H1.
      * exfalso. destruct f; cbn in J; try destruct J. destruct fs; [|destruct J]. destruct k; try destruct J as [<-|[]]; try destruct J; exact A.
    + intros kk x id dl m t J. apply in_app_or in J. destruct J as [J|J]; [exfalso; eapply ctl_obs_noret; exact J|].
      apply in_app_or in J. destruct J as [J|J]; [exfalso; eapply handler_obs_noret; exact J|].
      destruct f; try destruct J. destruct fs; [|destruct J]. destruct k; try (destruct J; fail); cbn in J; destruct J as [J|[]]. cbn.
      injection J as -> -> -> -> <- <-. split; [reflexivity|]. split; [|reflexivity]. eapply (reach_jdone _ RE); try eassumption. reflexivity.
  - intros s d ws sch md ios RE I M A K X D. pose proof (mp_main _ _ _ _ _ _ _ K) as MP.
    apply main_deferred with (s := s) in D; [|exact MP | reflexivity]. specialize (I D).
    intros l1 l2 k x id dl m t Q IS. cbn [set_sc set_dt set_mode sc dt tr] in *. rewrite (mprims_all _ _ MP). eapply I; eassumption.
  - intros s m RE I _ D. exact (I D).
  - intros s e RE I H M D. pose proof (env_deferred _ _ H D) as D0. specialize (I D0). intros l1 l2 k x id dl m t Q IS.
    rewrite (env_all s e H). destruct (env_tr s e H) as [T|(w & T)]; rewrite T in Q; [eapply I; eassumption|].
    destruct l1 as [|z l1]; [discriminate Q|]. injection Q as <- Q. destruct (I _ _ _ _ _ _ _ _ Q IS) as [A B]. split; [exact A|].
    intros z [<-|J]; [exact (fun A => A) | apply B, J].
  - intros g O D l1 l2 k x id dl m t Q IS. cbn in Q. destruct l1 as [|? [|? ?]]; discriminate Q.
Qed.
