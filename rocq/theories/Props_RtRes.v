(** C55: coroutine records, their pool, the event queue, and the end of a runtime. *)
From Coq Require Import ZArith List Bool Arith Lia Sorted Permutation.
From Verif Require Import RtRes.
Import ListNotations.
Open Scope Z_scope.

(** ** Specification *)
(** a record is in use, or in the pool *)
Definition in_use (s : rst) (n : nat) : Prop := In n (r_live s).
Definition pooled (s : rst) (n : nat) : Prop := In n (map fst (r_pool s)).
(** allocated so far *)
Definition allocated (s : rst) (n : nat) : Prop := (n < r_next s)%nat.
(** the clock: positive and never going back *)
Definition time_of (o : rop) : option Z := match o with ORc t => Some t | OWait _ t => Some t | _ => None end.
Fixpoint clock (t : Z) (os : list rop) : Prop :=
  match os with
  | [] => True
  | o :: r => match time_of o with Some t' => t <= t' /\ clock t' r | None => clock t r end
  end.
(** the kernel does not hand out descriptor 0 as event queue *)
Definition nonzero (o : rop) : Prop := match o with OWait (Some fd) _ => fd <> 0 | _ => True end.
(** how many coroutines wait for descriptors at the end of a history: a coroutine begins to
    wait unless no event queue could be opened, [OWaitEnd] ends one wait *)
Fixpoint waiters (n : nat) (s : rst) (os : list rop) : nat :=
  match os with
  | [] => n
  | o :: r =>
      let n' := if r_over s then n else
        match o with
        | OWait _ _ => match r_live s, r_open (rstep s o) with _ :: _, _ :: _ => S n | _, _ => n end
        | OWaitEnd => pred n
        | _ => n
        end in
      waiters n' (rstep s o) r
  end.
(** no coroutine ends while a job of its is with a worker thread *)
Fixpoint jobs_first (s : rst) (os : list rop) : Prop :=
  match os with
  | [] => True
  | o :: r => match o with OExit n => ~ In n (r_jobs s) | _ => True end /\ jobs_first (rstep s o) r
  end.

(** ** The pool *)
Definition all_of (s : rst) : list nat := r_live s ++ map fst (r_pool s) ++ r_freed s.
Record rinv (s : rst) : Prop := {
  i_nd : NoDup (all_of s);
  i_all : forall n, (n < r_next s)%nat <-> In n (all_of s);
  i_np : r_over s = false -> r_npool s = Z.of_nat (length (r_pool s));
  i_over : r_over s = true -> r_live s = [] /\ r_pool s = [] }.

Lemma NoDup_app_remove_l : forall (l l' : list nat), NoDup (l ++ l') -> NoDup l'.
Proof. induction l as [|x l IH]; intros l' H; [exact H|]. inversion H; subst. apply IH. assumption. Qed.
Lemma NoDup_app_remove_r : forall (l l' : list nat), NoDup (l ++ l') -> NoDup l.
Proof. induction l as [|x l IH]; intros l' H; [constructor|]. inversion H; subst. constructor; [intros I; apply H2, in_or_app; auto | eapply IH; eassumption]. Qed.
Lemma member_spec : forall n l, member n l = true <-> In n l.
Proof.
  intros n l. unfold member. rewrite existsb_exists. split; [intros (x & I & E); apply Nat.eqb_eq in E; subst; exact I | intros I; exists n; split; [exact I | apply Nat.eqb_refl]].
Qed.
Lemma in_drop1 : forall x n l, In x (drop1 n l) <-> In x l /\ x <> n.
Proof. intros. unfold drop1. rewrite filter_In, negb_true_iff, Nat.eqb_neq. tauto. Qed.
Lemma drop1_perm : forall n l, NoDup l -> In n l -> Permutation l (n :: drop1 n l).
Proof.
  intros n l ND I. apply NoDup_Permutation; [exact ND | |].
  - constructor; [rewrite in_drop1; tauto | apply NoDup_filter, ND].
  - intros x. cbn. rewrite in_drop1. destruct (Nat.eq_dec x n) as [->|N]; [tauto|]. split; [tauto|]. intros [E|[H _]]; [congruence | exact H].
Qed.
Lemma expire_spec : forall now l p f, expire now l = (p, f) ->
  exists l1, l = l1 ++ p /\ f = map fst l1 /\ Forall (fun x => keep_ms <= now - snd x) l1 /\
    match p with [] => True | x :: _ => now - snd x < keep_ms end.
Proof.
  intros now. induction l as [|[n ts] l IH]; intros p f E; cbn in E.
  - injection E as <- <-. exists []. repeat split; constructor.
  - destruct (Z.ltb_spec (now - ts) keep_ms) as [Y|O].
    + injection E as <- <-. exists []. repeat split; [constructor | exact Y].
    + destruct (expire now l) as [p' f'] eqn:X. injection E as <- <-. destruct (IH _ _ eq_refl) as (l1 & -> & -> & F & H).
      exists ((n, ts) :: l1). repeat split; [constructor; [exact O | exact F] | exact H].
Qed.
Lemma stamp_fst : forall now l, map fst (stamp now l) = map fst l.
Proof. intros now. induction l as [|[n ts] l IH]; cbn; [reflexivity|]. destruct (ts =? 0); cbn; [rewrite IH|]; reflexivity. Qed.
Lemma stamped_fst : forall now l, map fst (rev (stamp now (rev l))) = map fst l.
Proof. intros. rewrite map_rev, stamp_fst, map_rev, rev_involutive. reflexivity. Qed.

Lemma rinv_eq : forall s s', rinv s -> Permutation (all_of s) (all_of s') -> r_next s' = r_next s ->
  (r_over s' = false -> r_npool s' = Z.of_nat (length (r_pool s'))) -> (r_over s' = true -> r_live s' = [] /\ r_pool s' = []) -> rinv s'.
Proof.
  intros s s' [ND AL _ _] P N NP OV. constructor; auto.
  - eapply Permutation_NoDup; eauto.
  - intros n. rewrite N, AL. split; apply Permutation_in; [exact P | apply Permutation_sym, P].
Qed.
Lemma rinv_step : forall s o, rinv s -> rinv (rstep s o).
Proof.
  intros s o I. unfold rstep. destruct (r_over s) eqn:OV; [exact I|]. pose proof I as [ND AL NP _]. specialize (NP OV).
  assert (SAME : forall s', all_of s' = all_of s -> r_next s' = r_next s -> r_npool s' = r_npool s -> r_pool s' = r_pool s -> r_over s' = false -> rinv s').
  { intros s' A N P PO O'. apply (rinv_eq s); auto; [rewrite A; apply Permutation_refl | rewrite P, PO; auto | congruence]. }
  destruct o as [rec rest|n|now|fd now| |n|n|].
  - unfold r_start. destruct (r_pool s) as [|[n ts] p] eqn:PO.
    + destruct rec; [|exact I]. unfold all_of in *. rewrite PO in *. cbn in *.
      assert (NI : ~ In (r_next s) (r_live s ++ r_freed s)) by (intros H; apply AL in H; lia).
      destruct rest; constructor; cbn; try congruence; auto.
      * apply (Permutation_NoDup (l := r_next s :: r_live s ++ r_freed s)); [rewrite <- app_assoc; apply Permutation_middle|]. constructor; assumption.
      * intros m. rewrite <- app_assoc. cbn. rewrite in_app_iff. cbn. specialize (AL m). rewrite in_app_iff in AL. split; [intros H; destruct (Nat.eq_dec m (r_next s)); [auto|]; assert (L : (m < r_next s)%nat) by lia; apply AL in L; tauto | intros [H|[H|H]]; [|lia|]; assert (L : (m < r_next s)%nat) by tauto; lia].
      * apply (Permutation_NoDup (l := r_next s :: r_live s ++ r_freed s)); [rewrite app_assoc; apply Permutation_cons_append|]. constructor; assumption.
      * intros m. rewrite app_assoc, in_app_iff. cbn. specialize (AL m). split; [intros H; destruct (Nat.eq_dec m (r_next s)); [auto|]; assert (L : (m < r_next s)%nat) by lia; apply AL in L; tauto | intros [H|[H|[]]]; [|lia]; assert (L : (m < r_next s)%nat) by tauto; lia].
    + destruct rest; (apply (rinv_eq s); [exact I | | reflexivity | cbn; intros _; rewrite NP; cbn [length]; lia | cbn; congruence]); unfold all_of; rewrite PO; cbn.
      * rewrite <- app_assoc. apply Permutation_refl.
      * apply Permutation_app_head. rewrite app_assoc. apply Permutation_cons_append.
  - unfold r_exit. destruct (member n (r_live s)) eqn:M; [|exact I]. apply member_spec in M.
    assert (NL : NoDup (r_live s)) by (unfold all_of in ND; apply NoDup_app_remove_r in ND; exact ND).
    apply (rinv_eq s); [exact I | | reflexivity | cbn; intros _; rewrite app_length, NP; cbn [length]; lia | cbn; congruence].
    unfold all_of. cbn. rewrite map_app. cbn. rewrite <- app_assoc.
    eapply Permutation_trans; [apply Permutation_app_tail, (drop1_perm n _ NL M)|]. cbn.
    eapply Permutation_trans; [apply Permutation_middle|]. apply Permutation_app_head. apply Permutation_middle.
  - unfold r_rc. set (q := if _ : bool then 0 else r_qfd s). set (op := if _ : bool then rmz _ _ else r_open s). clearbody q op.
    destruct (0 <? r_npool s) eqn:GT; [|apply SAME; auto].
    destruct (expire now (rev (stamp now (rev (r_pool s))))) as [p f] eqn:EX. destruct (expire_spec _ _ _ _ EX) as (l1 & E & -> & _ & _).
    pose proof (stamped_fst now (r_pool s)) as SF. rewrite E, map_app in SF.
    apply (rinv_eq s); [exact I | | reflexivity | | cbn; congruence].
    + unfold all_of. cbn. rewrite <- SF, <- app_assoc. apply Permutation_app_head. eapply Permutation_trans; [apply Permutation_app_comm|]. rewrite <- app_assoc. apply Permutation_refl.
    + cbn. intros _. rewrite NP. assert (L : length (r_pool s) = (length l1 + length p)%nat) by (rewrite <- (map_length fst (r_pool s)), <- SF, app_length, !map_length; reflexivity). rewrite L, map_length. lia.
  - destruct (r_live s) eqn:RL; [exact I|]. unfold r_begin_wait. destruct (r_qfd s =? 0); [destruct fd as [fd|]; [|exact I]; destruct (_ && _); [|exact I]|]; apply SAME; auto.
  - unfold r_end_wait. apply SAME; auto.
  - unfold r_job. destruct (member n (r_live s)); [|exact I]. apply SAME; auto.
  - unfold r_job_done. destruct (member n (r_jobs s)); [|exact I]. apply SAME; auto.
  - destruct (r_wait s); [|exact I]. unfold r_finish. destruct (r_live s) eqn:RL; [|exact I].
    apply (rinv_eq s); [exact I | | reflexivity | cbn; discriminate | cbn; auto].
    unfold all_of. rewrite RL. cbn. apply Permutation_app_comm.
Qed.
Lemma rinv_run : forall os s, rinv s -> rinv (resrun s os).
Proof. induction os as [|o os IH]; intros s I; [exact I|]. apply IH, rinv_step, I. Qed.
Lemma rinv_any : forall os, rinv (resrun rinit os).
Proof. intros os. apply rinv_run. constructor; cbn; [constructor | intros n; split; [lia | tauto] | reflexivity | discriminate]. Qed.

(** ** Records *)
(** Every allocated record is in exactly one place: used by one coroutine, in the pool
    once, or freed once. So no two coroutines share a record (and its stack), and none is
    freed twice, or while in use. *)
Theorem C55_one_place : forall os, let s := resrun rinit os in
  NoDup (r_live s) /\ NoDup (map fst (r_pool s)) /\ NoDup (r_freed s) /\
  forall n, (allocated s n <-> in_use s n \/ pooled s n \/ In n (r_freed s)) /\
            ~ (in_use s n /\ pooled s n) /\ ~ (in_use s n /\ In n (r_freed s)) /\ ~ (pooled s n /\ In n (r_freed s)).
Proof.
  intros os s. destruct (rinv_any os) as [ND AL _ _]. fold s in ND, AL. unfold all_of in *.
  assert (D : forall (l1 l2 : list nat) x, NoDup (l1 ++ l2) -> In x l1 -> In x l2 -> False).
  { intros l1 l2 x N I1 I2. induction l1 as [|y l1 IH]; [contradiction I1|]. inversion N; subst. destruct I1 as [->|I1]; [apply H1, in_or_app; auto | apply IH; assumption]. }
  pose proof (NoDup_app_remove_l _ _ ND) as ND2.
  split; [exact (NoDup_app_remove_r _ _ ND)|]. split; [exact (NoDup_app_remove_r _ _ ND2)|]. split; [exact (NoDup_app_remove_l _ _ ND2)|].
  intros n. split; [unfold allocated; rewrite AL, !in_app_iff; reflexivity|]. unfold in_use, pooled.
  split; [intros [A B]; apply (D _ _ n ND A), in_or_app; auto|]. split; [intros [A B]; apply (D _ _ n ND A), in_or_app; auto|]. intros [A B]. exact (D _ _ n ND2 A B).
Qed.
(** When run has returned, every record that was ever allocated has been freed. *)
Theorem C55_all_freed : forall os, let s := resrun rinit os in r_over s = true -> forall n, allocated s n -> In n (r_freed s).
Proof.
  intros os s O n A. destruct (rinv_any os) as [_ AL _ OV]. fold s in AL, OV. destruct (OV O) as [L P]. apply AL in A. unfold all_of in A. rewrite L, P in A. exact A.
Qed.

(** ** The age of pooled records *)
Definition le2 (x y : nat * Z) : Prop := snd x <= snd y.
Definition pool_ok (T : Z) (p : list (nat * Z)) : Prop :=
  exists a b, p = a ++ b /\ Forall (fun x => 0 < snd x <= T) a /\ StronglySorted le2 a /\ Forall (fun x => snd x = 0) b.
Lemma sorted_suffix : forall (l1 l2 : list (nat * Z)), StronglySorted le2 (l1 ++ l2) -> StronglySorted le2 l2.
Proof. induction l1 as [|x l1 IH]; intros l2 S; [exact S|]. inversion S; subst. apply IH. assumption. Qed.
Lemma sorted_app_const : forall t l (b : list (nat * Z)), StronglySorted le2 l -> Forall (fun x => snd x <= t) l -> Forall (fun x => snd x = t) b -> StronglySorted le2 (l ++ b).
Proof.
  intros t. induction l as [|x l IH]; intros b S F B; cbn.
  - clear S F. induction b as [|y b IHb]; constructor; [apply IHb; inversion B; assumption|]. inversion B as [|? ? Y B']; subst. apply Forall_forall. intros z Z. rewrite Forall_forall in B'. unfold le2. rewrite (B' z Z). lia.
  - inversion S as [|? ? S' FX]; subst. inversion F as [|? ? X F']; subst. constructor; [apply IH; assumption|]. apply Forall_app. split; [exact FX|]. apply Forall_forall. intros z Z. rewrite Forall_forall in B. unfold le2. rewrite (B z Z). exact X.
Qed.
Definition mark (now : Z) (x : nat * Z) : nat * Z := (fst x, now).
Lemma stamp_app : forall now zs l, Forall (fun x => snd x = 0) zs -> match l with [] => True | x :: _ => snd x <> 0 end -> stamp now (zs ++ l) = map (mark now) zs ++ l.
Proof.
  intros now. induction zs as [|[n ts] zs IH]; intros l F H; cbn.
  - destruct l as [|[n ts] l]; [reflexivity|]. cbn in *. destruct (Z.eqb_spec ts 0); [congruence | reflexivity].
  - inversion F as [|? ? X F']; subst. cbn in X. subst ts. rewrite Z.eqb_refl. cbn. rewrite (IH l F' H). reflexivity.
Qed.
Lemma stamped : forall now T p a b, p = a ++ b -> Forall (fun x => 0 < snd x <= T) a -> Forall (fun x => snd x = 0) b -> rev (stamp now (rev p)) = a ++ map (mark now) b.
Proof.
  intros now T p a b -> A B. rewrite rev_app_distr, stamp_app.
  - rewrite rev_app_distr, rev_involutive, <- map_rev, rev_involutive. reflexivity.
  - apply Forall_rev. exact B.
  - apply Forall_rev in A. destruct (rev a); [exact Logic.I|]. inversion A; subst. lia.
Qed.
Lemma pool_suffix : forall T l1 l2, pool_ok T (l1 ++ l2) -> pool_ok T l2.
Proof.
  intros T l1. induction l1 as [|x l1 IH]; intros l2 H; [exact H|]. apply IH. clear IH.
  destruct H as (a & b & E & A & S & B). destruct a as [|y a].
  - destruct b as [|y b]; [discriminate E|]. injection E as -> E. exists [], b. cbn. inversion B; subst. auto.
  - injection E as -> E. exists a, b. inversion A; subst. inversion S; subst. auto.
Qed.
Lemma pool_later : forall T T' p, T <= T' -> pool_ok T p -> pool_ok T' p.
Proof. intros T T' p L (a & b & E & A & S & B). exists a, b. repeat split; auto. eapply Forall_impl; [|exact A]. cbn. lia. Qed.
Lemma pool_stamped : forall T now p, 0 < T -> T <= now -> pool_ok T p -> Forall (fun x => 0 < snd x <= now) (rev (stamp now (rev p))) /\ StronglySorted le2 (rev (stamp now (rev p))).
Proof.
  intros T now p P L (a & b & E & A & S & B). rewrite (stamped now T p a b E A B).
  assert (M : Forall (fun x : nat * Z => snd x = now) (map (mark now) b)) by (apply Forall_forall; intros x I; apply in_map_iff in I as (y & <- & _); reflexivity).
  split.
  - apply Forall_app. split; [eapply Forall_impl; [|exact A]; cbn; lia | eapply Forall_impl; [|exact M]; cbn; lia].
  - apply sorted_app_const with (t := now); auto. eapply Forall_impl; [|exact A]. cbn. lia.
Qed.
(** the clock after an operation *)
Definition tick (T : Z) (o : rop) : Z := match time_of o with Some t => t | None => T end.
Lemma pool_step : forall T s o, 0 < T -> T <= tick T o -> rinv s -> pool_ok T (r_pool s) -> pool_ok (tick T o) (r_pool (rstep s o)).
Proof.
  intros T s o P L I K. unfold rstep. destruct (r_over s) eqn:OV; [eapply pool_later; eauto|].
  destruct o as [rec rest|n|now|fd now| |n|n|]; cbn [tick time_of] in *; try (cbn; exact K).
  - unfold r_start. destruct (r_pool s) as [|[n ts] p] eqn:PO.
    + destruct rec; [destruct rest; cbn; exact K | rewrite PO; exact K].
    + destruct rest; cbn; exact (pool_suffix T [(n, ts)] p K).
  - unfold r_exit. destruct (member n (r_live s)); [cbn|exact K]. destruct K as (a & b & E & A & S & B). exists a, (b ++ [(n, 0)]). rewrite E, app_assoc. repeat split; auto. apply Forall_app. split; [exact B | repeat constructor].
  - unfold r_rc. destruct (0 <? r_npool s); [|cbn; eapply pool_later; eauto].
    destruct (pool_stamped T now _ P L K) as [F S]. destruct (expire now (rev (stamp now (rev (r_pool s))))) as [p f] eqn:EX. cbn.
    destruct (expire_spec _ _ _ _ EX) as (l1 & E & _). rewrite E in F, S. exists p, []. rewrite app_nil_r. apply Forall_app in F. repeat split; [apply F | eapply sorted_suffix, S | constructor].
  - destruct (r_live s); [eapply pool_later; eauto|]. unfold r_begin_wait. destruct (r_qfd s =? 0); [destruct fd as [fd|]; [destruct (_ && _)|]|]; cbn; eapply pool_later; eauto.
  - unfold r_job. destruct (member n (r_live s)); exact K.
  - unfold r_job_done. destruct (member n (r_jobs s)); exact K.
  - destruct (r_wait s); [|exact K]. unfold r_finish. destruct (r_live s); [|exact K]. cbn. exists [], []. repeat split; constructor.
Qed.
(** a stamped entry that stays keeps its stamp *)
Lemma entry_kept : forall T s o n ts, 0 < T -> T <= tick T o -> rinv s -> pool_ok T (r_pool s) -> 0 < ts -> In (n, ts) (r_pool s) -> pooled (rstep s o) n -> In (n, ts) (r_pool (rstep s o)).
Proof.
  intros T s o n ts P L I K TS IN ST. unfold pooled, rstep in *. destruct (r_over s) eqn:OV; [exact IN|].
  assert (NP : NoDup (map fst (r_pool s))) by (destruct I as [ND _ _ _]; unfold all_of in ND; apply NoDup_app_remove_l, NoDup_app_remove_r in ND; exact ND).
  destruct o as [rec rest|m|now|fd now| |m|m|]; try exact IN.
  - unfold r_start in *. destruct (r_pool s) as [|[m t] p] eqn:PO; [contradiction IN|].
    assert (G : In n (map fst p) -> In (n, ts) p). { intros H. destruct IN as [E|IN]; [|exact IN]. injection E as -> ->. inversion NP; subst. contradiction. }
    destruct rest; cbn in *; auto.
  - unfold r_exit in *. destruct (member m (r_live s)); [cbn; apply in_or_app; auto | exact IN].
  - unfold r_rc in *. destruct (0 <? r_npool s); [|exact IN]. destruct K as (a & b & E & A & S & B).
    destruct (expire now (rev (stamp now (rev (r_pool s))))) as [p f] eqn:EX. cbn in *. destruct (expire_spec _ _ _ _ EX) as (l1 & E1 & _).
    assert (IN1 : In (n, ts) (rev (stamp now (rev (r_pool s))))).
    { rewrite (stamped now T _ a b E A B). rewrite E in IN. apply in_or_app. apply in_app_or in IN as [IN|IN]; [auto|]. rewrite Forall_forall in B. specialize (B _ IN). cbn in B. lia. }
    pose proof (stamped_fst now (r_pool s)) as SF. rewrite E1, map_app in SF. rewrite <- SF in NP.
    rewrite E1 in IN1. apply in_app_or in IN1 as [IN1|IN1]; [|exact IN1]. exfalso.
    apply (in_map fst) in IN1. cbn in IN1. clear - NP IN1 ST. induction (map fst l1) as [|x l IH]; [contradiction IN1|]. inversion NP; subst. destruct IN1 as [->|IN1]; [apply H1, in_or_app; auto | apply IH; assumption].
  - destruct (r_live s); [exact IN|]. unfold r_begin_wait in *. destruct (r_qfd s =? 0); [destruct fd as [fd|]; [destruct (_ && _)|]|]; exact IN.
  - unfold r_job in *. destruct (member m (r_live s)); exact IN.
  - unfold r_job_done in *. destruct (member m (r_jobs s)); exact IN.
  - destruct (r_wait s); [|exact IN]. unfold r_finish in *. destruct (r_live s); [contradiction ST | exact IN].
Qed.
Lemma clock_tick : forall T o os, clock T (o :: os) -> (T <= tick T o) /\ clock (tick T o) os.
Proof. intros T o os H. unfold tick. cbn in H. destruct (time_of o); [tauto | split; [lia | exact H]]. Qed.
Fixpoint last_tick (T : Z) (os : list rop) : Z := match os with [] => T | o :: r => last_tick (tick T o) r end.
Lemma pool_run : forall os T s, 0 < T -> clock T os -> rinv s -> pool_ok T (r_pool s) -> pool_ok (last_tick T os) (r_pool (resrun s os)) /\ T <= last_tick T os.
Proof.
  induction os as [|o os IH]; intros T s P C I K; [split; [exact K | cbn; lia]|]. apply clock_tick in C as [L C]. cbn.
  destruct (IH (tick T o) (rstep s o)) as [A B]; [lia | exact C | apply rinv_step, I | apply pool_step; assumption|]. split; [exact A | lia].
Qed.
Lemma clock_app : forall a T b, clock T (a ++ b) <-> clock T a /\ clock (last_tick T a) b.
Proof. induction a as [|o a IH]; intros T b; cbn; [tauto|]. unfold tick. destruct (time_of o); rewrite IH; tauto. Qed.
Lemma kept_run : forall os T s n ts, 0 < T -> clock T os -> rinv s -> pool_ok T (r_pool s) -> 0 < ts -> In (n, ts) (r_pool s) ->
  (forall a b, os = a ++ b -> pooled (resrun s a) n) -> In (n, ts) (r_pool (resrun s os)).
Proof.
  induction os as [|o os IH]; intros T s n ts P C I K TS IN ST; [exact IN|]. apply clock_tick in C as [L C]. cbn.
  apply (IH (tick T o)); auto; [lia | apply rinv_step, I | apply pool_step; assumption | |].
  - apply (entry_kept T); auto. apply (ST [o] os). reflexivity.
  - intros a b ->. apply (ST (o :: a) b). reflexivity.
Qed.
(** A record that lies in the pool without a break from one pass of the scheduler
    ([ORc t0]) to another one at least 100 ms later is freed by the latter, whatever
    else happens between them. *)
Theorem C55_idle_freed : forall T os1 t0 os2 t1 n, 0 < T -> clock T (os1 ++ ORc t0 :: os2 ++ [ORc t1]) -> 100000000 <= t1 - t0 ->
  let s0 := resrun rinit (os1 ++ [ORc t0]) in
  pooled (resrun rinit os1) n -> (forall a b, os2 = a ++ b -> pooled (resrun s0 a) n) -> r_over (resrun s0 os2) = false ->
  In n (r_freed (rstep (resrun s0 os2) (ORc t1))).
Proof.
  intros T os1 t0 os2 t1 n P C D s0 P0 ST NO.
  assert (K0 : pool_ok T (r_pool rinit)) by (exists [], []; repeat split; constructor).
  assert (I0 : rinv rinit) by exact (rinv_any []).
  apply clock_app in C as [C1 C2]. apply clock_tick in C2 as [L2 C2]. apply clock_app in C2 as [C2 C3]. apply clock_tick in C3 as [L3 _].
  destruct (pool_run os1 T rinit P C1 I0 K0) as [K1 L1]. set (T1 := last_tick T os1) in *. cbn [tick time_of] in *.
  set (s1 := resrun rinit os1) in *. assert (I1 : rinv s1) by apply rinv_any.
  assert (E0 : s0 = rstep s1 (ORc t0)) by (unfold s0, resrun; rewrite fold_left_app; reflexivity).
  assert (K2 : pool_ok t0 (r_pool s0)) by (rewrite E0; apply (pool_step T1); auto; lia).
  assert (I2 : rinv s0) by apply rinv_any.
  assert (O1 : r_over s1 = false).
  { destruct (r_over s1) eqn:O; [|reflexivity]. exfalso. destruct (i_over _ I1 O) as [_ PP]. unfold pooled in P0. rewrite PP in P0. contradiction P0. }
  assert (IN0 : exists ts, 0 < ts <= t0 /\ In (n, ts) (r_pool s0)).
  { pose proof (ST [] os2 eq_refl) as H. cbn in H. unfold pooled in H. apply in_map_iff in H as ([n' ts] & E & IN). cbn in E. subst n'. exists ts. split; [|exact IN].
    rewrite E0 in IN. unfold rstep in IN. rewrite O1 in IN. unfold r_rc in IN.
    pose proof (i_np _ I1 O1) as NP. destruct (Z.ltb_spec 0 (r_npool s1)) as [GT|LE].
    - assert (PT : 0 < T1) by lia. destruct (pool_stamped T1 t0 _ PT L2 K1) as [F _].
      destruct (expire t0 (rev (stamp t0 (rev (r_pool s1))))) as [p f] eqn:EX. cbn in IN. destruct (expire_spec _ _ _ _ EX) as (l1 & E1 & _). rewrite E1 in F. apply Forall_app in F as [_ F]. rewrite Forall_forall in F. exact (F _ IN).
    - unfold pooled in P0. destruct (r_pool s1); [contradiction P0 | cbn [length] in NP; lia]. }
  destruct IN0 as (ts & [TS1 TS2] & IN0).
  assert (P1 : 0 < t0) by lia.
  pose proof (kept_run os2 t0 s0 n ts P1 C2 I2 K2 TS1 IN0 ST) as IN2.
  destruct (pool_run os2 t0 s0 P1 C2 I2 K2) as [K3 LT]. set (T2 := last_tick t0 os2) in *. set (s2 := resrun s0 os2) in *.
  assert (I3 : rinv s2) by (unfold s2, s0, resrun; rewrite <- fold_left_app; apply rinv_any).
  unfold rstep. rewrite NO. unfold r_rc. pose proof (i_np _ I3 NO) as NP.
  destruct (Z.ltb_spec 0 (r_npool s2)) as [GT|LE]; [|destruct (r_pool s2); [contradiction IN2 | cbn [length] in NP; lia]].
  assert (PT : 0 < T2) by lia. destruct (pool_stamped T2 t1 _ PT L3 K3) as [F S].
  destruct K3 as (a & b & E & A & SA & B).
  assert (IN3 : In (n, ts) (rev (stamp t1 (rev (r_pool s2))))).
  { rewrite (stamped t1 T2 _ a b E A B). rewrite E in IN2. apply in_or_app. apply in_app_or in IN2 as [IN2|IN2]; [auto|]. rewrite Forall_forall in B. specialize (B _ IN2). cbn in B. lia. }
  destruct (expire t1 (rev (stamp t1 (rev (r_pool s2))))) as [p f] eqn:EX. cbn. destruct (expire_spec _ _ _ _ EX) as (l1 & E1 & -> & _ & H).
  apply in_or_app. right. rewrite E1 in IN3, S. apply in_app_or in IN3 as [IN3|IN3]; [apply (in_map fst) in IN3; exact IN3|]. exfalso.
  destruct p as [|x p]; [contradiction IN3|]. apply sorted_suffix in S. inversion S as [|? ? _ FA]; subst. destruct IN3 as [->|IN3].
  - cbn in H. unfold keep_ms in H. lia.
  - rewrite Forall_forall in FA. specialize (FA _ IN3). unfold le2 in FA. cbn in FA. unfold keep_ms in H. lia.
Qed.

(** ** The event queue *)
Record qinv (s : rst) : Prop := {
  q_open : forall x, In x (r_open s) <-> r_qfd s <> 0 /\ x = r_qfd s /\ r_over s = false;
  q_pos : 0 <= r_qfd s; q_wait : (0 < r_wait s)%nat -> r_qfd s <> 0 /\ r_over s = false }.
Lemma in_rmz : forall x fd l, In x (rmz fd l) <-> In x l /\ x <> fd.
Proof. intros. unfold rmz. rewrite filter_In, negb_true_iff, Z.eqb_neq. tauto. Qed.
Lemma qinv_step : forall s o, nonzero o -> qinv s -> qinv (rstep s o).
Proof.
  intros s o NZ I. unfold rstep. destruct (r_over s) eqn:OV; [exact I|]. pose proof I as [OP PO W]. rewrite OV in OP, W.
  assert (SAME : forall s', r_open s' = r_open s -> r_qfd s' = r_qfd s -> (r_wait s' <= r_wait s)%nat -> r_over s' = false -> qinv s').
  { intros s' A B C D. constructor; rewrite ?A, ?B, ?D; auto. intros H. apply W. lia. }
  destruct o as [rec rest|n|now|fd now| |n|n|].
  - unfold r_start. destruct (r_pool s) as [|[n ts] p]; [destruct rec; [|exact I]|]; destruct rest; apply SAME; auto.
  - unfold r_exit. destruct (member n (r_live s)); [apply SAME; auto | exact I].
  - unfold r_rc. destruct (Nat.eqb (r_wait s) 0 && (0 <? r_qfd s) && (keep_ms <? now - r_qcreated s)) eqn:CL.
    + apply andb_true_iff in CL as [CL _]. apply andb_true_iff in CL as [CL _]. apply Nat.eqb_eq in CL.
      assert (G : forall s', r_open s' = rmz (r_qfd s) (r_open s) -> r_qfd s' = 0 -> r_wait s' = r_wait s -> qinv s').
      { intros s' A B C. constructor; rewrite ?A, ?B, ?C; [|lia|lia]. intros x. rewrite in_rmz, OP. split; [intros [(_ & -> & _) N]; congruence | intros [N _]; congruence]. }
      destruct (0 <? r_npool s); [destruct (expire _ _)|]; apply G; reflexivity.
    + destruct (0 <? r_npool s); [destruct (expire _ _)|]; apply SAME; auto.
  - destruct (r_live s); [exact I|]. unfold r_begin_wait. destruct (Z.eqb_spec (r_qfd s) 0) as [Q|Q].
    + destruct fd as [fd|]; [|exact I]. destruct ((0 <=? fd) && negb (existsb (Z.eqb fd) (r_open s))) eqn:FR; [|exact I].
      apply andb_true_iff in FR as [FP _]. apply Z.leb_le in FP. cbn in NZ. constructor; cbn; rewrite ?OV; [|lia|auto].
      intros x. rewrite OP, Q. split; [intros [->|[N _]]; [auto | congruence] | intros (_ & -> & _); auto].
    + constructor; cbn; rewrite ?OV; auto.
  - unfold r_end_wait. apply SAME; cbn; auto. lia.
  - unfold r_job. destruct (member n (r_live s)); [apply SAME; auto | exact I].
  - unfold r_job_done. destruct (member n (r_jobs s)); [apply SAME; auto | exact I].
  - destruct (r_wait s) eqn:RW; [|exact I]. unfold r_finish. destruct (r_live s); [|exact I].
    constructor; cbn; auto; [|rewrite RW; lia]. intros x. destruct (Z.eqb_spec (r_qfd s) 0) as [Q|Q]; [rewrite OP, Q | rewrite in_rmz, OP]; (split; [|intros (_ & _ & H); discriminate H]); [intros [N _]; congruence | intros [(_ & -> & _) N]; congruence].
Qed.
Lemma qinv_run : forall os s, Forall nonzero os -> qinv s -> qinv (resrun s os).
Proof. induction os as [|o os IH]; intros s F I; [exact I|]. inversion F; subst. apply IH; [assumption|]. apply qinv_step; assumption. Qed.
(** While a coroutine waits for a descriptor the event queue is open; there is never more
    than one; and none is open once run has returned. *)
Lemma waiters_eq : forall os s, Forall nonzero os -> qinv s -> waiters (r_wait s) s os = r_wait (resrun s os).
Proof.
  induction os as [|o os IH]; intros s F I; [reflexivity|]. inversion F as [|? ? F1 F2]; subst. cbn [waiters resrun fold_left]. fold (resrun (rstep s o) os).
  rewrite <- IH; [|exact F2 | apply qinv_step; assumption]. f_equal. pose proof (qinv_step s o F1 I) as [OP' _ _]. destruct I as [OP PO W].
  unfold rstep in *. destruct (r_over s) eqn:OV; [reflexivity|]. destruct o; try reflexivity.
  - unfold r_start. destruct (r_pool s) as [|[m ts] p]; destruct rec, rest; reflexivity.
  - unfold r_exit. destruct (member _ _); reflexivity.
  - unfold r_rc. destruct (0 <? r_npool s); [destruct (expire _ _)|]; reflexivity.
  - destruct (r_live s); [reflexivity|]. unfold r_begin_wait in *. destruct (Z.eqb_spec (r_qfd s) 0) as [Z0|NZ].
    + assert (OE : r_open s = []) by (destruct (r_open s) as [|x0 l0]; [reflexivity|]; destruct (proj1 (OP x0) (or_introl eq_refl)) as (N & _); congruence).
      destruct fd as [fd|]; [|rewrite OE; reflexivity]. destruct (_ && _); [reflexivity | rewrite OE; reflexivity].
    + cbn in *. destruct (r_open s) as [|x0 l0] eqn:OE; [|reflexivity]. exfalso. apply (proj2 (OP (r_qfd s))). auto.
  - unfold r_job. destruct (member _ _); reflexivity.
  - unfold r_job_done. destruct (member _ _); reflexivity.
  - destruct (r_wait s) eqn:RW; [|congruence]. unfold r_finish. destruct (r_live s); [cbn|]; congruence.
Qed.
Theorem C55_queue_partial : forall os, Forall nonzero os -> let s := resrun rinit os in
  ((0 < waiters 0 rinit os)%nat -> exists fd, In fd (r_open s)) /\ (forall x y, In x (r_open s) -> In y (r_open s) -> x = y) /\ (r_over s = true -> r_open s = []).
Proof.
  intros os F s. assert (I : qinv s). { apply qinv_run; [exact F|]. constructor; cbn; [intros x; split; [tauto | intros [N _]; congruence] | lia | lia]. }
  assert (EW : waiters 0 rinit os = r_wait s) by (apply (waiters_eq os rinit F); constructor; cbn; [intros x; split; [tauto | intros [N _]; congruence] | lia | lia]).
  rewrite EW. destruct I as [OP PO W]. split; [|split].
  - intros H. exists (r_qfd s). apply OP. destruct (W H). auto.
  - intros x y X Y. apply OP in X, Y. destruct X as (_ & -> & _), Y as (_ & -> & _). reflexivity.
  - intros O. destruct (r_open s) as [|x l]; [reflexivity|]. destruct (OP x) as [A _]. destruct (A (or_introl eq_refl)) as (_ & _ & H). congruence.
Qed.
(** The queue is descriptor 0: it is taken for "none", a second one is made, and the
    first stays open for ever. *)
Theorem C55_queue_refuted : exists os, let s := resrun rinit os in r_over s = true /\ r_open s = [0].
Proof. exists [OStart true true; OWait (Some 0) 5; OWaitEnd; OWait (Some 7) 6; OWaitEnd; OExit 0; OFinish]. vm_compute. auto. Qed.

(** ** Jobs of worker threads *)
(** No job uses a freed record, if no coroutine ends while a job of its is with a
    thread. *)
Theorem C55_jobs_partial : forall os, jobs_first rinit os -> r_ub (resrun rinit os) = false.
Proof.
  assert (G : forall os s, rinv s -> r_ub s = false -> (forall n, In n (r_jobs s) -> In n (r_live s)) -> jobs_first s os -> r_ub (resrun s os) = false).
  { induction os as [|o os IH]; intros s I U J H; [exact U|]. destruct H as [H1 H2]. apply (IH (rstep s o)); [apply rinv_step, I | | |exact H2]; clear IH H2.
    - unfold rstep. destruct (r_over s) eqn:OV; [exact U|]. destruct o as [rec rest|n|now|fd now| |n|n|]; try exact U.
      + unfold r_start. destruct (r_pool s) as [|[n ts] p]; [destruct rec; [|exact U]|]; destruct rest; exact U.
      + unfold r_exit. destruct (member n (r_live s)); exact U.
      + unfold r_rc. destruct (0 <? r_npool s); [destruct (expire _ _)|]; exact U.
      + destruct (r_live s); [exact U|]. unfold r_begin_wait. destruct (r_qfd s =? 0); [destruct fd as [fd|]; [destruct (_ && _)|]|]; exact U.
      + unfold r_job. destruct (member n (r_live s)); exact U.
      + unfold r_job_done. destruct (member n (r_jobs s)) eqn:M; [|exact U]. cbn. rewrite U. cbn. apply member_spec in M. apply J in M.
        destruct (member n (r_freed s)) eqn:F; [|reflexivity]. apply member_spec in F. exfalso. destruct I as [ND _ _ _]. unfold all_of in ND.
        clear - ND M F. induction (r_live s) as [|x l IH]; [contradiction M|]. inversion ND; subst. destruct M as [->|M]; [apply H1, in_or_app; right; apply in_or_app; auto | apply IH; assumption].
      + destruct (r_wait s); [|exact U]. unfold r_finish. destruct (r_live s) eqn:RL; [|exact U]. cbn. rewrite U. destruct (r_jobs s) as [|x l]; [reflexivity|]. destruct (J x (or_introl eq_refl)).
    - unfold rstep. destruct (r_over s) eqn:OV; [exact J|]. destruct o as [rec rest|n|now|fd now| |n|n|]; try exact J.
      + unfold r_start. destruct (r_pool s) as [|[n ts] p]; [destruct rec; [|exact J]|]; destruct rest; cbn; auto; intros m M; apply in_or_app; auto.
      + unfold r_exit. destruct (member n (r_live s)); [|exact J]. cbn. intros m M. apply in_drop1. split; [auto|]. intros ->. contradiction.
      + unfold r_rc. destruct (0 <? r_npool s); [destruct (expire _ _)|]; exact J.
      + destruct (r_live s) eqn:RL; [rewrite RL; exact J|]. unfold r_begin_wait. destruct (r_qfd s =? 0); [destruct fd as [fd|]; [destruct (_ && _)|]|]; cbn; rewrite ?RL; exact J.
      + unfold r_job. destruct (member n (r_live s)) eqn:M; [|exact J]. cbn. apply member_spec in M. intros m [<-|X]; auto.
      + unfold r_job_done. destruct (member n (r_jobs s)); [|exact J]. cbn. intros m X. apply in_drop1 in X. apply J, X.
      + destruct (r_wait s); [|exact J]. unfold r_finish. destruct (r_live s) eqn:RL; [|rewrite RL; exact J]. cbn. intros m []. }
  intros os H. apply (G os rinit); [exact (rinv_any []) | reflexivity | intros n [] | exact H].
Qed.
(** A coroutine in neco_work (or a background write) is canceled and ends while its job
    runs; it is the last one: run frees the record and its stack before it waits for the
    threads, and the job then writes to them. *)
Theorem C55_jobs_refuted : exists os, let s := resrun rinit os in r_over s = true /\ r_ub s = true.
Proof. exists [OStart true true; OJob 0; OExit 0; OFinish]. vm_compute. auto. Qed.

(** Three coroutines over two records, one freed for age and one at the end. *)
Definition ex55 : list rop := [OStart true true; ORc 10; OStart true true; OExit 1; ORc 20; OStart true true; OExit 1; ORc 30; OWait (Some 4) 40; ORc 100000030].
Example C55_example : let s := resrun rinit ex55 in
  r_live s = [0%nat] /\ r_freed s = [1%nat] /\ r_pool s = [] /\ r_open s = [4] /\ clock 1 ex55 /\ Forall nonzero ex55 /\ jobs_first rinit ex55 /\
  r_over (resrun s [OWaitEnd; OExit 0; OFinish]) = true /\ r_freed (resrun s [OWaitEnd; OExit 0; OFinish]) = [1%nat; 0%nat].
Proof. vm_compute. repeat split; try discriminate; auto. repeat constructor; discriminate. Qed.
Example C55_example_idle : pooled (resrun rinit (firstn 7 ex55)) 1 /\
  (forall a b, [OWait (Some 4) 40] = a ++ b -> pooled (resrun (resrun rinit (firstn 7 ex55 ++ [ORc 30])) a) 1).
Proof.
  split; [vm_compute; auto|]. intros a b E. destruct a as [|x [|y a]]; [vm_compute; auto | injection E as <- _; vm_compute; auto | discriminate E].
Qed.

Print Assumptions C55_one_place.
Print Assumptions C55_all_freed.
Print Assumptions C55_idle_freed.
Print Assumptions C55_queue_partial.
Print Assumptions C55_queue_refuted.
Print Assumptions C55_jobs_partial.
Print Assumptions C55_jobs_refuted.
