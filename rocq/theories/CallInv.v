(** Every wrapper frame on a stack stands for one call in the trace that has not
    returned; every return in the trace answers exactly one earlier call. *)
From Coq Require Import List ZArith Bool Lia.
From Verif Require Import Util Runtime RuntimeSpec SchedInv StepInv StackShape TraceInv Immediate QueueInv OwnInv WaitInv.
Import ListNotations.
Local Open Scope Z_scope.

Definition returned (k : nat) (t : list obs) : Prop := exists c o v m tm, In (TRet k c o v m tm) t.
Definition callnos (t : list obs) : list nat := map (fun x => fst (fst x)) (calls t).
Definition apis (st : list frame) : list nat :=
  flat_map (fun f => match f with FApi k _ => [k] | _ => [] end) st.

Lemma In_calls : forall t k c o, In (k, c, o) (calls t) <-> exists tm, In (TCall k c o tm) t.
Proof.
  intros t k c o. unfold calls. rewrite in_flat_map. split.
  - intros (x & I & H). destruct x; cbn in H; try contradiction. destruct H as [H|[]]. inj H. eauto.
  - intros (tm & I). exists (TCall k c o tm). split; [exact I | left; reflexivity].
Qed.
Lemma In_callnos : forall t k, In k (callnos t) <-> exists c o tm, In (TCall k c o tm) t.
Proof.
  intros t k. unfold callnos. rewrite in_map_iff. split.
  - intros ([[k0 c] o] & E & I). cbn in E. subst. apply In_calls in I. destruct I as (tm & I). eauto.
  - intros (c & o & tm & I). exists (k, c, o). split; [reflexivity|]. apply In_calls. eauto.
Qed.
Lemma In_apis : forall st k, In k (apis st) <-> exists o, In (FApi k o) st.
Proof.
  intros st k. unfold apis. rewrite in_flat_map. split.
  - intros (f & I & H). destruct f; cbn in H; try contradiction. destruct H as [<-|[]]. eauto.
  - intros (o & I). exists (FApi k o). split; [exact I | left; reflexivity].
Qed.
Lemma apis_app : forall a b, apis (a ++ b) = apis a ++ apis b.
Proof. intros. apply flat_map_app. Qed.
Lemma noapi_apis : forall fs, noapi fs -> apis fs = [].
Proof.
  induction fs as [|f fs IH]; intros N; [reflexivity|]. change (f :: fs) with ([f] ++ fs). rewrite apis_app.
  rewrite IH; [|intros k o H; apply (N k o); right; exact H].
  destruct f; try reflexivity. exfalso. eapply N. left. reflexivity.
Qed.
Lemma calls_app : forall a b, calls (a ++ b) = calls a ++ calls b.
Proof. intros. apply flat_map_app. Qed.
Lemma calls_ctl : forall c n k, calls (ctl_obs c n k) = []. Proof. intros; destruct k; reflexivity. Qed.
Lemma calls_handler : forall c fs k d, calls (handler_obs c fs k d) = [].
Proof. intros. destruct (handler_obs_cases c fs k d) as [->|(h & ->)]; reflexivity. Qed.
Lemma calls_ret : forall c f v r s, calls (ret_obs c f v r s) = [].
Proof. intros. destruct (ret_obs_cases c f v r s) as [->|(k & o & d & _ & _ & ->)]; reflexivity. Qed.
Lemma calls_call : forall c k o s, calls (call_obs c k o s) = [(k, c, o)].
Proof. intros. destruct o; reflexivity. Qed.

Record cinv (s : state) : Prop := {
  ci_open : forall x k o, In (FApi k o) (stk (sc s) x) -> exists t, In (TCall k x o t) (tr s) /\ t <= now s;
  ci_pend : forall x k o, In (FApi k o) (stk (sc s) x) -> ~ returned k (tr s);
  ci_nd : forall x, NoDup (apis (stk (sc s) x));
  ci_lt : forall k c o t, In (TCall k c o t) (tr s) -> (k < ncalls s)%nat /\ t <= now s;
  ci_uc : NoDup (callnos (tr s));
  ci_ret : forall l1 k c o v m t l2, tr s = l1 ++ TRet k c o v m t :: l2 ->
     (exists t0, In (TCall k c o t0) l2 /\ t0 <= t) /\ ~ returned k l2 /\ t <= now s }.

Lemma callnos_inj : forall t k c1 o1 t1 c2 o2 t2, NoDup (callnos t) ->
  In (TCall k c1 o1 t1) t -> In (TCall k c2 o2 t2) t -> c1 = c2 /\ o1 = o2 /\ t1 = t2.
Proof.
  induction t as [|x t IH]; intros k c1 o1 t1 c2 o2 t2 ND I1 I2; [destruct I1|].
  assert (D : (exists kk cc oo tt, x = TCall kk cc oo tt) \/ callnos (x :: t) = callnos t) by (destruct x; eauto 6).
  destruct D as [(kk & cc & oo & tt & ->)|Q].
  - change (callnos (TCall kk cc oo tt :: t)) with (kk :: callnos t) in ND. apply NoDup_cons_iff in ND. destruct ND as [NI ND].
    destruct I1 as [I1|I1], I2 as [I2|I2].
    + inj I1. inj I2. auto.
    + inj I1. exfalso. apply NI. apply In_callnos. eauto.
    + inj I2. exfalso. apply NI. apply In_callnos. eauto.
    + eapply IH; eassumption.
  - rewrite Q in ND. destruct I1 as [->|I1]; [exfalso; clear -Q;
      match type of Q with _ = ?r => change (k :: r = r) in Q end; apply (f_equal (@length nat)) in Q; cbn [length] in Q; lia|].
    destruct I2 as [->|I2]; [exfalso; clear -Q;
      match type of Q with _ = ?r => change (k :: r = r) in Q end; apply (f_equal (@length nat)) in Q; cbn [length] in Q; lia|].
    eapply IH; eassumption.
Qed.

Lemma ci_owner : forall s x y k o1 o2, cinv s -> In (FApi k o1) (stk (sc s) x) -> In (FApi k o2) (stk (sc s) y) ->
  x = y /\ o1 = o2.
Proof.
  intros s x y k o1 o2 C I1 I2.
  destruct (ci_open _ C _ _ _ I1) as (t1 & A & _). destruct (ci_open _ C _ _ _ I2) as (t2 & B & _).
  destruct (callnos_inj _ _ _ _ _ _ _ _ (ci_uc _ C) A B) as (? & ? & _). auto.
Qed.

Lemma not_ret_app : forall k a b, (forall c o v m t, ~ In (TRet k c o v m t) a) -> ~ returned k b -> ~ returned k (a ++ b).
Proof.
  intros k a b A B (c & o & v & m & t & I). apply in_app_or in I. destruct I as [I|I]; [eapply A; exact I|].
  apply B. unfold returned. eauto 8.
Qed.
Lemma returned_app : forall k a b, (forall c o v m t, ~ In (TRet k c o v m t) a) -> returned k (a ++ b) -> returned k b.
Proof.
  intros k a b A (c & o & v & m & t & I). apply in_app_or in I. destruct I as [I|I]; [exfalso; eapply A; exact I|].
  unfold returned. eauto 8.
Qed.

Theorem reach_cinv : forall s, reach s -> cinv s.
Proof.
  apply rrun_preserves.
  - intros s c o d fs k sch md RE I M CU U NR E X. pose proof (reach_full _ RE) as F.
    pose proof (hcall_noapi _ _ _ _ _ _ _ E) as NA.
    set (T := ctl_obs c (nextid (sc s) + 1) k ++ handler_obs c fs k (dt s) ++ call_obs c (ncalls s) o s ++ tr s).
    assert (SUB : forall x, In x (tr s) -> In x T).
    { intros x H. unfold T. apply in_or_app; right. apply in_or_app; right. apply in_or_app; right. exact H. }
    assert (NEW : In (TCall (ncalls s) c o (now s)) T).
    { unfold T. apply in_or_app; right. apply in_or_app; right. apply in_or_app; left.
      destruct o; (left; reflexivity) || (right; left; reflexivity). }
    assert (OLD : forall kk cc oo tt, In (TCall kk cc oo tt) T -> (kk = ncalls s /\ cc = c /\ oo = o /\ tt = now s) \/ In (TCall kk cc oo tt) (tr s)).
    { intros kk cc oo tt H. unfold T in H. apply in_app_or in H. destruct H as [H|H]; [destruct k; cbn in H; intuition discriminate|].
      apply in_app_or in H. destruct H as [H|H].
      - destruct (handler_obs_cases c fs k (dt s)) as [Q|(h & Q)]; rewrite Q in H; cbn in H; intuition discriminate.
      - apply in_app_or in H. destruct H as [H|H]; [|right; exact H]. left.
        destruct o; cbn in H; intuition (try discriminate); match goal with Q : TCall _ _ _ _ = _ |- _ => inj Q end; auto. }
    assert (NR2 : forall kk cc oo v m tt, In (TRet kk cc oo v m tt) T -> In (TRet kk cc oo v m tt) (tr s)).
    { intros kk cc oo v m tt H. unfold T in H. apply in_app_or in H. destruct H as [H|H]; [exfalso; eapply ctl_obs_noret; exact H|].
      apply in_app_or in H. destruct H as [H|H]; [exfalso; eapply handler_obs_noret; exact H|].
      apply in_app_or in H. destruct H as [H|H]; [exfalso; eapply call_obs_noret; exact H | exact H]. }
    assert (ST : forall x kk oo, In (FApi kk oo) (stk sch x) ->
       (x = c /\ kk = ncalls s /\ oo = o) \/ In (FApi kk oo) (stk (sc s) x)).
    { intros x kk oo H.
      destruct (exec_stk_cases _ _ _ _ _ X (cur_notfresh _ _ F CU) x) as [[-> Q]|[(_ & _ & _ & Q)|(NE & Q & _)]]; rewrite Q in H.
      - cbn in H. rewrite zupd_eq in H.
        assert (H' : In (FApi kk oo) (fs ++ FApi (ncalls s) o :: stk (sc s) c)) by (destruct k; try exact H; destruct H).
        apply in_app_or in H'. destruct H' as [H'|[H'|H']]; [exfalso; eapply NA; exact H' | inj H'; auto | auto].
      - destruct H as [H|[]]. discriminate.
      - cbn in H. rewrite zupd_neq in H by exact NE. auto. }
    assert (RNC : ~ returned (ncalls s) (tr s)).
    { intros (cc & oo & v & m & tt & H). apply in_split in H. destruct H as (l1 & l2 & H).
      destruct (ci_ret _ I _ _ _ _ _ _ _ _ H) as ((t0 & J & _) & _).
      assert (J' : In (TCall (ncalls s) cc oo t0) (tr s)) by (rewrite H; apply in_or_app; right; right; exact J).
      apply (ci_lt _ I) in J'. lia. }
    assert (NCC : ~ In (ncalls s) (callnos (tr s))).
    { rewrite In_callnos. intros (cc & oo & tt & H). apply (ci_lt _ I) in H. lia. }
    split; cbn [sc tr now ncalls].
    + intros x kk oo H. apply ST in H. destruct H as [(-> & -> & ->)|H].
      * exists (now s). split; [exact NEW | lia].
      * destruct (ci_open _ I _ _ _ H) as (t & A & B). eauto.
    + intros x kk oo H (cc & o1 & v & m & tt & R). apply NR2 in R. apply ST in H. destruct H as [(-> & -> & ->)|H].
      * apply RNC. unfold returned. eauto 8.
      * eapply (ci_pend _ I); [exact H | unfold returned; eauto 8].
    + intros x. destruct (exec_stk_cases _ _ _ _ _ X (cur_notfresh _ _ F CU) x) as [[-> Q]|[(_ & _ & _ & Q)|(NE & Q & _)]]; rewrite Q.
      * cbn [stk set_stk]. rewrite zupd_eq.
        assert (N : NoDup (apis (fs ++ FApi (ncalls s) o :: stk (sc s) c))).
        { rewrite apis_app, noapi_apis by exact NA. cbn. constructor; [|apply I].
          intros H. apply In_apis in H. destruct H as (o1 & H). destruct (ci_open _ I _ _ _ H) as (t & A & _).
          apply (ci_lt _ I) in A. lia. }
        destruct k; try exact N. constructor.
      * constructor.
      * cbn. rewrite zupd_neq by exact NE. apply I.
    + intros kk cc oo tt H. apply OLD in H. destruct H as [(-> & -> & -> & ->)|H]; [lia|]. apply (ci_lt _ I) in H. lia.
    + change (NoDup (callnos T)). unfold callnos, T. rewrite !calls_app, calls_ctl, calls_handler, calls_call. cbn.
      constructor; [exact NCC | apply I].
    + intros l1 kk cc oo v m tt l2 H.
      apply split_ret in H; [|apply ctl_obs_noret]. destruct H as (l1a & H).
      apply split_ret in H; [|apply handler_obs_noret]. destruct H as (l1b & H).
      apply split_ret in H; [|apply call_obs_noret]. destruct H as (l1c & H).
      apply (ci_ret _ I) in H. exact H.
  - intros s c v f rest b d fs k sch md RE I M CU SK L E X. pose proof (reach_full _ RE) as F.
    pose proof (tick_noapi _ _ _ _ _ _ _ _ _ _ L E) as NA.
    set (T := ctl_obs c (nextid (sc s) + 1) k ++ handler_obs c fs k (dt s) ++ ret_obs c f v (d, fs, k) s ++ tr s).
    assert (SUB : forall x, In x (tr s) -> In x T).
    { intros x H. unfold T. apply in_or_app; right. apply in_or_app; right. apply in_or_app; right. exact H. }
    assert (OLD : forall kk cc oo tt, In (TCall kk cc oo tt) T -> In (TCall kk cc oo tt) (tr s)).
    { intros kk cc oo tt H. unfold T in H. apply in_app_or in H. destruct H as [H|H]; [destruct k; cbn in H; intuition discriminate|].
      apply in_app_or in H. destruct H as [H|H].
      - destruct (handler_obs_cases c fs k (dt s)) as [Q|(h & Q)]; rewrite Q in H; cbn in H; intuition discriminate.
      - apply in_app_or in H. destruct H as [H|H]; [|exact H].
        destruct (ret_obs_cases c f v (d, fs, k) s) as [Q|(k0 & o0 & d0 & _ & _ & Q)]; rewrite Q in H; cbn in H; intuition discriminate. }
    assert (NR2 : forall kk cc oo v0 m tt, In (TRet kk cc oo v0 m tt) T ->
        In (TRet kk cc oo v0 m tt) (tr s) \/ f = FApi kk oo).
    { intros kk cc oo v0 m tt H. unfold T in H. apply in_app_or in H. destruct H as [H|H]; [exfalso; eapply ctl_obs_noret; exact H|].
      apply in_app_or in H. destruct H as [H|H]; [exfalso; eapply handler_obs_noret; exact H|].
      apply in_app_or in H. destruct H as [H|H]; [|auto].
      destruct (ret_obs_cases c f v (d, fs, k) s) as [Q|(k0 & o0 & d0 & -> & _ & Q)]; rewrite Q in H; cbn in H; [contradiction|].
      destruct H as [H|[]]. inj H. auto. }
    assert (ST : forall x kk oo, In (FApi kk oo) (stk sch x) -> In (FApi kk oo) (stk (sc s) x) /\ (x = c -> In (FApi kk oo) rest)).
    { intros x kk oo H.
      destruct (exec_stk_cases _ _ _ _ _ X (cur_notfresh _ _ F CU) x) as [[-> Q]|[(_ & _ & _ & Q)|(NE & Q & _)]]; rewrite Q in H.
      - cbn in H. rewrite zupd_eq in H.
        assert (H' : In (FApi kk oo) (fs ++ rest)) by (destruct k; try exact H; destruct H).
        apply in_app_or in H'. destruct H' as [H'|H']; [exfalso; eapply NA; exact H' |].
        rewrite SK. split; [right; exact H' | auto].
      - destruct H as [H|[]]. discriminate.
      - cbn in H. rewrite zupd_neq in H by exact NE. split; [exact H | contradiction]. }
    split; cbn [sc tr now ncalls].
    + intros x kk oo H. apply ST in H. destruct H as [H _].
      destruct (ci_open _ I _ _ _ H) as (t & A & B). eauto.
    + intros x kk oo H (cc & o1 & v1 & m & tt & R). apply NR2 in R. apply ST in H. destruct H as [H HC]. destruct R as [R|R].
      * eapply (ci_pend _ I); [exact H | unfold returned; eauto 8].
      * subst f. assert (H1 : In (FApi kk o1) (stk (sc s) c)) by (rewrite SK; left; reflexivity).
        destruct (ci_owner _ _ _ _ _ _ I H H1) as [-> ->]. specialize (HC eq_refl).
        pose proof (ci_nd _ I c) as ND. rewrite SK in ND. cbn in ND. apply NoDup_cons_iff in ND.
        apply (proj1 ND). apply In_apis. eauto.
    + intros x. destruct (exec_stk_cases _ _ _ _ _ X (cur_notfresh _ _ F CU) x) as [[-> Q]|[(_ & _ & _ & Q)|(NE & Q & _)]]; rewrite Q.
      * cbn [stk set_stk]. rewrite zupd_eq.
        assert (N : NoDup (apis (fs ++ rest))).
        { rewrite apis_app, noapi_apis by exact NA. cbn. pose proof (ci_nd _ I c) as ND. rewrite SK in ND.
          change (f :: rest) with ([f] ++ rest) in ND. rewrite apis_app in ND. apply NoDup_app_r in ND. exact ND. }
        destruct k; try exact N. constructor.
      * constructor.
      * cbn. rewrite zupd_neq by exact NE. apply I.
    + intros kk cc oo tt H. apply OLD in H. apply (ci_lt _ I) in H. lia.
    + change (NoDup (callnos T)). unfold callnos, T. rewrite !calls_app, calls_ctl, calls_handler, calls_ret. cbn. apply I.
    + intros l1 kk cc oo v0 m tt l2 H.
      apply split_ret in H; [|apply ctl_obs_noret]. destruct H as (l1a & H).
      apply split_ret in H; [|apply handler_obs_noret]. destruct H as (l1b & H).
      destruct (ret_obs_cases c f v (d, fs, k) s) as [Q|(k0 & o0 & d0 & -> & _ & Q)]; rewrite Q in H.
      * apply (ci_ret _ I) in H. exact H.
      * destruct l1b as [|y l1b]; cbn in H; inj H.
        -- assert (H1 : In (FApi kk oo) (stk (sc s) cc)) by (rewrite SK; left; reflexivity).
           split; [|split; [|lia]].
           ++ apply (ci_open _ I _ _ _ H1).
           ++ eapply (ci_pend _ I). exact H1.
        -- eapply (ci_ret _ I). eassumption.
  - intros s d ws sch md ios RE I M A K X.
    apply sco_switch_frame in X. destruct X as (X1 & _). destruct (wakes_frame ws (sc s)) as (W1 & _).
    split; cbn [sc tr now ncalls]; rewrite ?X1, ?W1; apply I.
  - intros s m RE I _. split; cbn; apply I.
  - intros s e RE I H M. destruct (env_frame s e H) as (E1 & _).
    assert (NW : now s <= now (step s e)).
    { destruct e; try contradiction; cbn; try lia.
      - destruct (Z.ltb_spec (now s) t); cbn; lia.
      - destruct (mode s); try lia; (destruct (_ || _); try lia; destruct (_ =? _); try (cbn; lia); destruct (_ =? _); cbn; lia).
      - destruct (mode s); try lia; (destruct (mem _ _); try lia; destruct (stk (sc s) c) as [|[] ?]; cbn; lia).
      - destruct (_ =? _); cbn; lia.
      - destruct (_ =? _); cbn; lia.
      - destruct (_ =? _); cbn; lia. }
    assert (NC : ncalls (step s e) = ncalls s).
    { destruct e; try contradiction; cbn; try reflexivity.
      - destruct (_ <? _); reflexivity.
      - destruct (mode s); auto; (destruct (_ || _); auto; destruct (_ =? _); auto; destruct (_ =? _); auto).
      - destruct (mode s); auto; (destruct (mem _ _); auto; destruct (stk (sc s) c) as [|[] ?]; auto).
      - destruct (_ =? _); reflexivity.
      - destruct (_ =? _); reflexivity.
      - destruct (_ =? _); reflexivity. }
    assert (TT : exists a, tr (step s e) = a ++ tr s /\ (a = [] \/ exists c k, a = [TWorkDone c k])).
    { destruct (env_tr s e H) as [->|(c & ->)]; [exists [] | exists [TWorkDone (fst c) (snd c)]]; eauto. }
    destruct TT as (a & TT & AA).
    assert (RA : forall kk cc oo v m t, ~ In (TRet kk cc oo v m t) a) by (intros; destruct AA as [->|(c & k & ->)]; cbn; intuition discriminate).
    split; rewrite ?E1, ?NC.
    + intros x k o J. destruct (ci_open _ I _ _ _ J) as (t & A & B). exists t. rewrite TT. split; [apply in_or_app; auto | lia].
    + intros x k o J. rewrite TT. apply not_ret_app; [apply RA|]. eapply (ci_pend _ I); exact J.
    + apply I.
    + intros k c o t J. rewrite TT in J. apply in_app_or in J. destruct J as [J|J]; [destruct AA as [->|(y & k1 & ->)]; cbn in J; intuition discriminate|].
      apply (ci_lt _ I) in J. lia.
    + rewrite TT. unfold callnos. rewrite calls_app. destruct AA as [->|(y & k1 & ->)]; apply I.
    + intros l1 k c o v m t l2 J. rewrite TT in J. apply split_ret in J; [|apply RA]. destruct J as (l1' & J).
      apply (ci_ret _ I) in J. destruct J as (? & ? & ?). repeat split; auto. lia.
  - intros g O. split; cbn.
    + intros x k o J. unfold zupd in J. destruct (_ =? _); [destruct J as [J|[]]; discriminate | destruct J].
    + intros x k o J. unfold zupd in J. destruct (_ =? _); [destruct J as [J|[]]; discriminate | destruct J].
    + intros x. unfold zupd. destruct (_ =? _); constructor.
    + intros k c o t [J|[]]. discriminate.
    + constructor.
    + intros l1 k c o v m t l2 J. destruct l1 as [|? [|? ?]]; discriminate.
Qed.
