(** Which signals a coroutine watches, and the per-signal count of watchers.
    The count and the watch bits of a coroutine agree with its history as long as
    every coroutine stops watching before it ends: nothing in the exit path
    (/repo/neco.c:7715-7763, 3802-3817) undoes neco_signal_watch. *)
From Coq Require Import List ZArith Bool Lia.
From Verif Require Import AATreeSpec AATreeHist Util Runtime SchedInv StepInv StackShape RuntimeSpec TraceInv Immediate Prims StaticInv Footprint QueueInv OwnInv WaitInv CallInv SpecInv TraceStep Wake Awake AllInv PausedInv ResultInv JoinInv PairedInv CancelInv CancelRes CancelSpec CancelSt.
Import ListNotations.
Local Open Scope Z_scope.

(** ** Specification: the last call of [x] about signal [n] was a watch *)
Fixpoint watching (x n : Z) (t : list obs) : bool :=
  match t with
  | TCall _ c (OpSigWatch m) _ :: r => if (c =? x) && (m =? n) then true else watching x n r
  | TCall _ c (OpSigUnwatch m) _ :: r => if (c =? x) && (m =? n) then false else watching x n r
  | _ :: r => watching x n r
  | [] => false
  end.
(** the signals that can be watched *)
Definition signo (n : Z) : Prop := 1 <= n <= 31.
(** every coroutine that ended had stopped watching *)
Definition tidy (t : list obs) : Prop :=
  forall l1 l2 x n, t = l1 ++ TExit x :: l2 -> signo n -> watching x n l2 = false.
(** how many coroutines watch [n] *)
Definition watchers (n : Z) (t : list obs) : nat := length (filter (fun x => watching x n t) (started t)).

Lemma tidy_app : forall N t, tidy (N ++ t) -> tidy t.
Proof. intros N t H l1 l2 x n Q. apply (H (N ++ l1)). rewrite Q, app_assoc. reflexivity. Qed.

(** ** The effect of one call *)
Definition wcall (o : op) (n : Z) (b : bool) : bool :=
  match o with OpSigWatch m => if m =? n then true else b | OpSigUnwatch m => if m =? n then false else b | _ => b end.
Definition bit (d : dat) (x n : Z) : bool := Z.testbit (sigwatch (cof d x)) n.
Definition b2z (b : bool) : Z := if b then 1 else 0.
Definition sw (d : dat) := (sigw d, mainthread d).
Lemma sp_sw : forall c d d', sp c d d' -> sw d' = sw d /\ forall x, sigwatch (cof d' x) = sigwatch (cof d x).
Proof.
  intros c d d' [G C _ _]. split; [unfold spg in G; injection G; intros; unfold sw; congruence|].
  intros x. specialize (C x). unfold spc in C. injection C; intros. congruence.
Qed.
Lemma exits_sw : forall c d d' fs k, exits c d d' fs k -> sw d' = sw d /\ forall x, sigwatch (cof d' x) = sigwatch (cof d x).
Proof.
  intros c d d' fs k [h l _ -> _ _|a E].
  - split; [reflexivity|]. intros x. cbn; unfold zupd; destruct (Z.eqb_spec x c) as [->|]; reflexivity.
  - apply coexit_rest_sp in E. apply sp_sw in E. exact E.
Qed.
Lemma cancel_sw : forall c id dl nw d d' fs k, do_cancel c id dl nw d = (d', fs, k) ->
  sw d' = sw d /\ forall x, sigwatch (cof d' x) = sigwatch (cof d x).
Proof.
  intros c id dl nw d d' fs k E. destruct (do_cancel_sp _ _ _ _ _ _ _ _ E) as [[S _]|(_ & d1 & S & _ & -> & _)]; [eapply sp_sw; exact S|].
  apply sp_sw in S. destruct S as [<- S]. split; [reflexivity|]. intros x. rewrite <- S. cbn. unfold zupd. destruct (Z.eqb_spec x id) as [->|]; reflexivity.
Qed.
Lemma setbit : forall a m n, 0 <= m -> Z.testbit (Z.lor a (Z.shiftl 1 m)) n = (m =? n) || Z.testbit a n.
Proof. intros a m n H. rewrite Z.lor_spec, Z.shiftl_1_l, Z.pow2_bits_eqb by exact H. apply orb_comm. Qed.
Lemma clrbit : forall a m n, 0 <= m -> Z.testbit (Z.ldiff a (Z.shiftl 1 m)) n = negb (m =? n) && Z.testbit a n.
Proof. intros a m n H. rewrite Z.ldiff_spec, Z.shiftl_1_l, Z.pow2_bits_eqb by exact H. apply andb_comm. Qed.
Lemma hcall_sw : forall c o nw d d' fs k, hcall c o nw d = (d', fs, k) -> mainthread d = true ->
  mainthread d' = true /\
  forall n, signo n -> (forall x, bit d' x n = if c =? x then wcall o n (bit d x n) else bit d x n) /\
    sigw d' n = sigw d n + b2z (wcall o n (bit d c n)) - b2z (bit d c n).
Proof.
  intros c o nw d d' fs k E MT.
  assert (SAME : (forall n b, signo n -> wcall o n b = b) -> sw d' = sw d /\ (forall x, sigwatch (cof d' x) = sigwatch (cof d x)) ->
    mainthread d' = true /\
    forall n, signo n -> (forall x, bit d' x n = if c =? x then wcall o n (bit d x n) else bit d x n) /\
    sigw d' n = sigw d n + b2z (wcall o n (bit d c n)) - b2z (bit d c n)).
  { intros W [Q SQ]. unfold sw in Q. injection Q; intros Q2 Q1. split; [congruence|]. intros n SN. split; [|rewrite W by exact SN; rewrite Q1; lia].
    intros x. rewrite W by exact SN. unfold bit. rewrite SQ. destruct (_ =? _); reflexivity. }
  destruct (special o) eqn:SP.
  2:{ apply hcall_sp in E; [|exact SP]. apply SAME; [destruct o; try reflexivity; discriminate SP | eapply sp_sw; exact E]. }
  pose proof (hcall_special _ _ _ _ _ _ _ E SP) as H. destruct o; try discriminate SP.
  - apply SAME; [reflexivity | eapply cancel_sw; exact H].
  - apply SAME; [reflexivity|]. destruct H as (-> & _). split; [reflexivity|]. intros x. cbn; unfold zupd; destruct (Z.eqb_spec x c) as [->|]; reflexivity.
  - apply SAME; [reflexivity|]. destruct H as (-> & _). split; [reflexivity|]. intros x. cbn; unfold zupd; destruct (Z.eqb_spec x c) as [->|]; reflexivity.
  - rename n into m0. unfold do_sigwatch in H. rewrite MT in H. cbn [negb] in H.
    destruct ((m0 <? 1) || (31 <? m0)) eqn:R.
    { inj H. apply SAME; [|auto]. intros n b SN. cbn. destruct (Z.eqb_spec m0 n) as [->|]; [|reflexivity]. unfold signo in SN. apply orb_true_iff in R. lia. }
    destruct (Z.testbit _ m0) eqn:TB; inj H.
    + split; [exact MT|]. intros n SN. cbn [wcall]. destruct (Z.eqb_spec m0 n) as [->|].
      * unfold bit. rewrite TB. split; [|lia]. intros x. destruct (Z.eqb_spec c x) as [<-|]; [exact TB|reflexivity].
      * split; [|lia]. intros x. destruct (_ =? _); reflexivity.
    + split; [exact MT|]. intros n SN. unfold bit in *. cbn [cof set_sigw sigw upco wcall].
      assert (0 <= m0) by (apply orb_false_iff in R; lia). split.
      * intros x. cbn. unfold zupd. rewrite (Z.eqb_sym x c). destruct (Z.eqb_spec c x) as [<-|]; [|reflexivity].
        cbn. rewrite setbit by assumption. destruct (_ =? _); reflexivity.
      * unfold zupd. rewrite (Z.eqb_sym n m0). destruct (Z.eqb_spec m0 n) as [->|]; [rewrite TB; cbn; lia | lia].
  - rename n into m0. unfold do_sigunwatch in H. rewrite MT in H. cbn [negb] in H.
    destruct ((m0 <? 1) || (31 <? m0)) eqn:R.
    { inj H. apply SAME; [|auto]. intros n b SN. cbn. destruct (Z.eqb_spec m0 n) as [->|]; [|reflexivity]. unfold signo in SN. apply orb_true_iff in R. lia. }
    destruct (Z.testbit _ m0) eqn:TB; cbn [negb] in H; inj H.
    + split; [exact MT|]. intros n SN. unfold bit in *. cbn [cof set_sigw sigw upco wcall].
      assert (0 <= m0) by (apply orb_false_iff in R; lia). split.
      * intros x. cbn. unfold zupd. rewrite (Z.eqb_sym x c). destruct (Z.eqb_spec c x) as [<-|]; [|reflexivity].
        cbn. rewrite clrbit by assumption. destruct (_ =? _); reflexivity.
      * unfold zupd. rewrite (Z.eqb_sym n m0). destruct (Z.eqb_spec m0 n) as [->|]; [rewrite TB; cbn; lia | lia].
    + split; [exact MT|]. intros n SN. cbn [wcall]. destruct (Z.eqb_spec m0 n) as [->|].
      * unfold bit. rewrite TB. split; [|cbn; lia]. intros x. destruct (Z.eqb_spec c x) as [<-|]; [exact TB|reflexivity].
      * split; [|lia]. intros x. destruct (_ =? _); reflexivity.
  - apply SAME; [reflexivity|]. destruct H as (-> & _). split; [reflexivity|]. intros x. cbn; unfold zupd; destruct (Z.eqb_spec x c) as [->|]; reflexivity.
  - apply SAME; [reflexivity|]. unfold do_cleanup_pop in H. destruct (cleanups _); [inj H; auto|].
    destruct exec; inj H; (split; [reflexivity|]; intros x; cbn; unfold zupd; destruct (Z.eqb_spec x c) as [->|]; reflexivity).
  - apply SAME; [reflexivity | eapply exits_sw; exact H].
Qed.
Lemma hret_sw : forall c f v b nw d d' fs k, hret c f v b nw d = (d', fs, k) -> sw d' = sw d /\ forall x, sigwatch (cof d' x) = sigwatch (cof d x).
Proof.
  intros c f v b nw d d' fs k E. apply hret_sp in E.
  destruct f; try (eapply sp_sw; exact E); try (destruct E as [E|(_ & _ & E)]; [eapply sp_sw; exact E | eapply exits_sw; exact E]).
  - apply coexit_rest_sp in E. apply sp_sw in E. exact E.
  - apply cancel_sw in E. exact E.
  - eapply exits_sw; exact E.
  - destruct E as (-> & _). split; [reflexivity|]. intros x. cbn. unfold zupd. destruct (Z.eqb_spec x c) as [->|]; reflexivity.
  - destruct E as (-> & _). auto.
Qed.
Lemma ctl_sw : forall c n k d, sw (ctl_dat c n k d) = sw d.
Proof.
  intros c n k d. destruct k; cbn [ctl_dat]; auto. unfold spawn_dat, popq. destruct (q d QPool); destruct isgen; reflexivity.
Qed.
Lemma ctl_sigwatch : forall c n k d x, x <> n -> sigwatch (cof (ctl_dat c n k d) x) = sigwatch (cof d x).
Proof.
  intros c n k d x N. destruct k; cbn [ctl_dat]; auto. rewrite spawn_cof by exact N. destruct (_ =? _); destruct isgen; reflexivity.
Qed.
Lemma spawn_sigwatch : forall p n g d,
  sigwatch (cof (spawn_dat p n g d) n) = 0 \/
  exists y l, q d QPool = y :: l /\ sigwatch (cof (spawn_dat p n g d) n) = sigwatch (cof d (node_co y)).
Proof.
  intros p n g d. unfold spawn_dat, popq. destruct (q d QPool) as [|y l] eqn:Q.
  - left. destruct g, p; cbn; rewrite zupd_eq; reflexivity.
  - right. exists y, l. split; [reflexivity|]. destruct g, p; cbn; rewrite zupd_eq; reflexivity.
Qed.
Lemma mprims_sw : forall d d', mprims d d' -> sw d' = sw d /\ forall x, sigwatch (cof d' x) = sigwatch (cof d x).
Proof.
  intros d d' P. induction P; [auto|]. destruct IHP as [<- A].
  assert (sw d2 = sw d1 /\ forall x, sigwatch (cof d2 x) = sigwatch (cof d1 x)) as [C D].
  { destruct H; cbn; split; auto; intros x; unfold zupd; destruct (Z.eqb_spec x c); subst; reflexivity. }
  split; [exact C|]. intros x. rewrite D. apply A.
Qed.

(** ** What a trace says *)
Definition nosig (z : obs) : Prop := match z with TCall _ _ (OpSigWatch _) _ | TCall _ _ (OpSigUnwatch _) _ => False | _ => True end.
Lemma w_quiet : forall x n N T, (forall z, In z N -> nosig z) -> watching x n (N ++ T) = watching x n T.
Proof.
  induction N as [|z N IH]; intros T Q; [auto|]. rewrite <- (IH T) by (intros; apply Q; right; assumption).
  pose proof (Q z (or_introl eq_refl)) as QZ. cbn [app]. destruct z; cbn [watching]; auto. destruct o; cbn [watching]; auto; destruct QZ.
Qed.
Lemma w_none : forall x n T, (forall k o t, ~ In (TCall k x o t) T) -> watching x n T = false.
Proof.
  induction T as [|z T IH]; intros N; [auto|]. assert (A : watching x n T = false) by (apply IH; intros k o t I; eapply N; right; exact I).
  destruct z; cbn [watching]; auto. destruct o; cbn [watching]; auto; destruct (Z.eqb_spec c x) as [->|]; auto; exfalso; eapply N; left; reflexivity.
Qed.
Lemma nosig_ctl : forall c n k z, In z (ctl_obs c n k) -> nosig z.
Proof. intros c n k z I. apply ctl_quiet in I. destruct I as [(? & ? & ->)|(? & ->)]; exact Logic.I. Qed.
Lemma nosig_handler : forall c fs k d z, In z (handler_obs c fs k d) -> nosig z.
Proof. intros c fs k d z I. apply handler_quiet in I. destruct I as (? & ->). exact Logic.I. Qed.
Lemma w_call : forall s c o fs k x n, watching x n (call_tr s c o fs k) = if c =? x then wcall o n (watching x n (tr s)) else watching x n (tr s).
Proof.
  intros s c o fs k x n. unfold call_tr. rewrite app_assoc, w_quiet.
  - destruct o; cbn; destruct (c =? x); cbn; try reflexivity; destruct (_ =? _); reflexivity.
  - intros z I. apply in_app_or in I. destruct I; [eapply nosig_ctl | eapply nosig_handler]; eassumption.
Qed.
Lemma w_tick : forall s c v f d fs k x n, watching x n (tick_tr s c v f d fs k) = watching x n (tr s).
Proof.
  intros s c v f d fs k x n. unfold tick_tr. rewrite 2!app_assoc, w_quiet; [reflexivity|].
  intros z I. apply in_app_or in I. destruct I as [I|I]; [apply in_app_or in I; destruct I; [eapply nosig_ctl | eapply nosig_handler]; eassumption|].
  apply ret_quiet in I. destruct I as (? & ? & ? & ? & ->). exact Logic.I.
Qed.
Lemma count_upd : forall (f g : Z -> bool) c l, NoDup l -> In c l -> (forall x, x <> c -> g x = f x) ->
  Z.of_nat (length (filter g l)) = Z.of_nat (length (filter f l)) + b2z (g c) - b2z (f c).
Proof.
  intros f g c l ND IN Q. induction l as [|a l IH]; [destruct IN|]. apply NoDup_cons_iff in ND. destruct ND as [NI ND].
  assert (EQ : ~ In c l -> filter g l = filter f l).
  { intros N. clear - Q N. induction l as [|b l IH]; [auto|]. cbn. rewrite Q by (intros ->; apply N; left; reflexivity). rewrite IH by (intros H; apply N; right; exact H). reflexivity. }
  cbn [filter]. destruct (Z.eq_dec a c) as [->|NE].
  - rewrite EQ by exact NI. destruct (g c), (f c); cbn [length b2z]; lia.
  - destruct IN as [IN|IN]; [congruence|]. specialize (IH ND IN). rewrite Q by exact NE. destruct (f a); cbn [length]; lia.
Qed.

(** ** The invariant *)
Record wiok (s : state) : Prop := {
  wo_bit : forall x n, In x (started (tr s)) -> signo n -> bit (dt s) x n = watching x n (tr s);
  wo_end : forall x n, In x (exited (tr s)) -> signo n -> watching x n (tr s) = false;
  wo_cnt : forall n, signo n -> sigw (dt s) n = Z.of_nat (watchers n (tr s)) }.
Definition wi (s : state) : Prop := mainthread (dt s) = true -> tidy (tr s) -> wiok s.

Lemma exited_call : forall s c o fs k x, In x (exited (call_tr s c o fs k)) -> In x (exited (tr s)) \/ (x = c /\ exists a, k = CFinal a).
Proof.
  intros s c o fs k x I. apply exited_In in I. unfold call_tr in I. apply in_app_or in I. destruct I as [I|I].
  - destruct k; cbn in I; try (destruct I; fail); destruct I as [I|[]]; try discriminate I. injection I as ->. eauto.
  - apply in_app_or in I. destruct I as [I|I]; [apply handler_quiet in I; destruct I; discriminate|]. apply in_app_or in I. destruct I as [I|I]; [|left; apply exited_In, I].
    destruct o; cbn in I; try (destruct I; fail); repeat (destruct I as [I|I]; [discriminate I|]); destruct I.
Qed.
Lemma exited_tick : forall s c v f d fs k x, In x (exited (tick_tr s c v f d fs k)) -> In x (exited (tr s)) \/ (x = c /\ exists a, k = CFinal a).
Proof.
  intros s c v f d fs k x I. apply exited_In in I. unfold tick_tr in I. apply in_app_or in I. destruct I as [I|I].
  - destruct k; cbn in I; try (destruct I; fail); destruct I as [I|[]]; try discriminate I. injection I as ->. eauto.
  - apply in_app_or in I. destruct I as [I|I]; [apply handler_quiet in I; destruct I; discriminate|]. apply in_app_or in I. destruct I as [I|I]; [|left; apply exited_In, I].
    apply ret_quiet in I. destruct I as (? & ? & ? & ? & I). discriminate I.
Qed.
Lemma cur_notexited : forall s c, reach s -> cur (sc s) = Some c -> ~ In c (exited (tr s)).
Proof.
  intros s c RE CU. destruct (reach_full _ RE) as [[SI _] _]. apply (ti_alive _ (reach_tinv _ RE)). apply (cur_alive _ _ SI CU).
Qed.
(** the new coroutine watches nothing *)
Lemma new_bits : forall s c d k, reach s -> wiok s -> cur (sc s) = Some c -> prims c (dt s) d ->
  (forall x n, x <> c -> signo n -> bit d x n = bit (dt s) x n) ->
  In (nextid (sc s) + 1) (spawned (nextid (sc s) + 1) k) -> forall n, signo n -> bit (ctl_dat c (nextid (sc s) + 1) k d) (nextid (sc s) + 1) n = false.
Proof.
  intros s c d k RE W CU P OTH IS n SN. destruct k; cbn in IS; try (destruct IS; fail). cbn [ctl_dat]. unfold bit.
  destruct (spawn_sigwatch (Some c) (nextid (sc s) + 1) isgen d) as [Q|(y & l & QP & Q)]; rewrite Q; [apply Z.testbit_0_l|].
  assert (IN : In y (q d QPool)) by (rewrite QP; left; reflexivity).
  eapply prims_sysq in IN; [|exact P|exact Logic.I]. destruct IN as [IN|(D & _)]; [|discriminate D].
  destruct (so_nco _ _ (reach_sysok _ RE) _ QPool Logic.I IN) as (z & ->). cbn [node_co].
  apply (reach_poolx _ RE) in IN. change (bit d z n = false). rewrite OTH; [|intros ->; exact (cur_notexited _ _ RE CU IN)|exact SN].
  rewrite (wo_bit _ W); [apply (wo_end _ W); assumption|apply (ti_sub _ (reach_tinv _ RE)), IN|exact SN].
Qed.
Lemma watchers_new : forall s c k T, (forall n, signo n -> (forall x, x <> c -> watching x n T = watching x n (tr s))) ->
  reach s -> cur (sc s) = Some c -> started T = spawned (nextid (sc s) + 1) k ++ started (tr s) ->
  forall n, signo n -> Z.of_nat (watchers n T) = Z.of_nat (watchers n (tr s)) + b2z (watching c n T) - b2z (watching c n (tr s)).
Proof.
  intros s c k T H RE CU ST n SN. unfold watchers. rewrite ST, filter_app, app_length.
  assert (Z0 : filter (fun x => watching x n T) (spawned (nextid (sc s) + 1) k) = []).
  { destruct k; cbn; auto. destruct (Z.eq_dec (nextid (sc s) + 1) c) as [Q|NQ]; [exfalso; exact (cur_notfresh _ _ (reach_full _ RE) CU Q)|].
    rewrite H by assumption. rewrite w_none; [reflexivity|]. apply nocalls_new, RE. }
  rewrite Z0. cbn [length plus]. apply count_upd with (c := c).
  - apply (ti_started _ (reach_tinv _ RE)).
  - apply cur_in_started; assumption.
  - intros x N. apply H; assumption.
Qed.
Theorem reach_wi : forall s, reach s -> wi s.
Proof.
  apply rrun_preserves.
  - intros s c o d fs k sch md RE I M CU U NR E X MT TD. cbn [tr dt] in *. change (tidy (call_tr s c o fs k)) in TD.
    assert (MT0 : mainthread (dt s) = true).
    { pose proof (ctl_sw c (nextid (sc s) + 1) k d) as Q. unfold sw in Q. injection Q; intros Q2 _.
      rewrite <- (prims_const c bool mainthread) with (d' := d) (d := dt s); [congruence| |eapply hcall_prims; exact E]. intros a b PP; destruct PP; reflexivity. }
    assert (W : wiok s). { apply I; [exact MT0|]. unfold call_tr in TD. rewrite !app_assoc in TD. eapply tidy_app; exact TD. }
    destruct (hcall_sw _ _ _ _ _ _ _ E MT0) as [_ EF].
    assert (OTH : forall x n, x <> c -> signo n -> bit d x n = bit (dt s) x n).
    { intros x n N SN. destruct (EF n SN) as [EB _]. rewrite EB. destruct (Z.eqb_spec c x); [congruence|reflexivity]. }
    split; cbn [tr dt].
    + intros x n IX SN. change (bit (ctl_dat c (nextid (sc s) + 1) k d) x n = watching x n (call_tr s c o fs k)).
      change (In x (started (call_tr s c o fs k))) in IX. rewrite started_calls in IX.
      rewrite w_call. apply in_app_or in IX. destruct IX as [IX|IX].
      * assert (x = nextid (sc s) + 1) as ->. { destruct k; cbn in IX; try (destruct IX; fail). destruct IX as [<-|[]]. reflexivity. }
        erewrite new_bits; eauto. 2: eapply hcall_prims; exact E.
        destruct (Z.eqb_spec c (nextid (sc s) + 1)) as [Q|_]; [exfalso; exact (cur_notfresh _ _ (reach_full _ RE) CU (eq_sym Q))|].
        symmetry. apply w_none, nocalls_new, RE.
      * assert (XN : x <> nextid (sc s) + 1) by (apply (ti_ids _ (reach_tinv _ RE)) in IX; lia). unfold bit. rewrite ctl_sigwatch by exact XN. fold (bit d x n).
        destruct (EF n SN) as [EB _]. rewrite EB, (wo_bit _ W) by assumption. reflexivity.
    + intros x n IX SN. change (watching x n (call_tr s c o fs k) = false). change (In x (exited (call_tr s c o fs k))) in IX.
      apply exited_call in IX. destruct IX as [IX|(-> & a & ->)].
      * rewrite w_call. destruct (Z.eqb_spec c x) as [<-|]; [destruct (cur_notexited _ _ RE CU IX)|]. apply (wo_end _ W); assumption.
      * unfold call_tr. cbn [ctl_obs app watching]. eapply (TD [] _ c n); [|exact SN]. reflexivity.
    + intros n SN. pose proof (ctl_sw c (nextid (sc s) + 1) k d) as Q. unfold sw in Q. injection Q; intros _ Q1. rewrite Q1.
      destruct (EF n SN) as [EB ->]. match goal with |- ?l = _ => change (l = Z.of_nat (watchers n (call_tr s c o fs k))) end.
      rewrite (watchers_new s c k (call_tr s c o fs k)); try assumption; [|intros m SM x N; rewrite w_call; destruct (Z.eqb_spec c x); [congruence|reflexivity] | apply started_calls].
      rewrite w_call, Z.eqb_refl, (wo_cnt _ W) by exact SN. rewrite (wo_bit _ W) by (try apply cur_in_started; assumption). reflexivity.
  - intros s c v f rest b d fs k sch md RE I M CU SK L E X MT TD. cbn [tr dt] in *. change (tidy (tick_tr s c v f d fs k)) in TD.
    destruct (hret_sw _ _ _ _ _ _ _ _ _ E) as [EQ EB]. unfold sw in EQ. injection EQ; intros EQ2 EQ1.
    pose proof (ctl_sw c (nextid (sc s) + 1) k d) as Q. unfold sw in Q. injection Q; intros Q2 Q1.
    assert (W : wiok s). { apply I; [congruence|]. unfold tick_tr in TD. rewrite !app_assoc in TD. eapply tidy_app; exact TD. }
    assert (OTH : forall x n, x <> c -> signo n -> bit d x n = bit (dt s) x n) by (intros x n _ _; unfold bit; rewrite EB; reflexivity).
    split; cbn [tr dt].
    + intros x n IX SN. change (bit (ctl_dat c (nextid (sc s) + 1) k d) x n = watching x n (tick_tr s c v f d fs k)).
      change (In x (started (tick_tr s c v f d fs k))) in IX. rewrite started_tick in IX.
      rewrite w_tick. apply in_app_or in IX. destruct IX as [IX|IX].
      * assert (x = nextid (sc s) + 1) as ->. { destruct k; cbn in IX; try (destruct IX; fail). destruct IX as [<-|[]]. reflexivity. }
        erewrite new_bits; eauto. 2: eapply hret_prims; exact E. symmetry. apply w_none, nocalls_new, RE.
      * assert (XN : x <> nextid (sc s) + 1) by (apply (ti_ids _ (reach_tinv _ RE)) in IX; lia). unfold bit. rewrite ctl_sigwatch by exact XN.
        rewrite EB. apply (wo_bit _ W); assumption.
    + intros x n IX SN. change (watching x n (tick_tr s c v f d fs k) = false). change (In x (exited (tick_tr s c v f d fs k))) in IX.
      apply exited_tick in IX. destruct IX as [IX|(-> & a & ->)].
      * rewrite w_tick. apply (wo_end _ W); assumption.
      * unfold tick_tr. cbn [ctl_obs app watching]. eapply (TD [] _ c n); [|exact SN]. reflexivity.
    + intros n SN. rewrite Q1, EQ1. match goal with |- ?l = _ => change (l = Z.of_nat (watchers n (tick_tr s c v f d fs k))) end.
      rewrite (watchers_new s c k (tick_tr s c v f d fs k)); try assumption; [|intros m SM x N; apply w_tick | apply started_tick].
      rewrite w_tick, (wo_cnt _ W) by exact SN. lia.
  - intros s d ws sch md ios RE I M A K X MT TD. cbn [tr dt] in *. destruct (mprims_sw _ _ (mp_main _ _ _ _ _ _ _ K)) as [Q SQ]. unfold sw in Q. injection Q; intros Q2 Q1.
    assert (W : wiok s) by (apply I; [congruence|exact TD]). destruct W as [W1 W2 W3]. split; cbn [tr dt].
    + intros. unfold bit. rewrite SQ. apply W1; assumption.
    + exact W2.
    + intros. rewrite Q1. apply W3; assumption.
  - intros s m RE I HM MT TD. destruct (I MT TD) as [W1 W2 W3]. split; assumption.
  - intros s e RE I H M MT TD.
    assert (EV : mainthread (dt (step s e)) = mainthread (dt s) /\ sigw (dt (step s e)) = sigw (dt s)).
    { destruct e; try destruct H; cbn; repeat match goal with |- context [if ?b then _ else _] => destruct b eqn:? | |- context [match mode ?z with _ => _ end] => destruct (mode z) | |- context [match stk (sc ?z) ?c with _ => _ end] => destruct (stk (sc z) c) as [|[] ?] end; auto. }
    destruct EV as [E1 E2]. rewrite E1 in MT.
    destruct (env_tr s e H) as [Q|(y & Q)].
    + rewrite Q in TD. destruct (I MT TD) as [W1 W2 W3]. split; rewrite Q; try assumption.
      * intros. unfold bit. rewrite (env_cof s e H). apply W1; assumption.
      * intros. rewrite E2. apply W3; assumption.
    + rewrite Q in TD. apply (tidy_app [_]) in TD. destruct (I MT TD) as [W1 W2 W3]. split; rewrite Q.
      * intros x n IX SN. unfold bit. rewrite (env_cof s e H). apply W1; assumption.
      * exact W2.
      * intros n SN. rewrite E2. apply W3; assumption.
  - intros g O MT TD. split; cbn [init tr dt].
    + intros x n IX SN. cbn in IX. destruct IX as [<-|[]]. unfold bit. cbn. rewrite zupd_eq. cbn. apply Z.testbit_0_l.
    + intros x n IX. destruct IX.
    + intros n SN. reflexivity.
Qed.
