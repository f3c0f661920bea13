(** C27 (sharded maps) and C31 (event waits). *)
From Coq Require Import ZArith List Bool Lia Sorted.
From Verif Require Import Util AATree AATreeSpec AATreeProofs AATreeHist ShardMap EventWait.
Import ListNotations.
Local Open Scope Z_scope.

(** ** Specification of a finite map: the newest operation on the key decides *)
Section Spec.
  Context {A : Type}.
  Variable cmp : A -> A -> comparison.
  Definition same (a b : A) : bool := match cmp a b with Eq => true | _ => false end.
  (** [past]: operations, newest first *)
  Fixpoint lookup (past : list (mop (A := A))) (k : A) : option A :=
    match past with
    | [] => None
    | MIns x :: past => if same k x then Some x else lookup past k
    | MDel x :: past => if same k x then None else lookup past k
    end.
  Definition key (o : mop (A := A)) : A := match o with MIns x | MDel x => x end.
  (** what the operations return: the entry that was there *)
  Fixpoint expected (past os : list (mop (A := A))) : list (option A) :=
    match os with [] => [] | o :: os => lookup past (key o) :: expected (o :: past) os end.
End Spec.

Section Proofs.
  Context {A : Type}.
  Variable cmp : A -> A -> comparison.
  Hypothesis G : good_cmp cmp.
  Variable shard : A -> Z.
  Hypothesis SH : forall a b, cmp a b = Eq -> shard a = shard b.

  Lemma same_refl_l a b c : cmp a b = Eq -> same cmp a c = same cmp b c.
  Proof. intros E. unfold same. rewrite (gc_eq_l _ G _ _ _ E). reflexivity. Qed.
  Lemma same_sym a b : same cmp a b = same cmp b a.
  Proof. unfold same. rewrite (gc_sym _ G a b). destruct (cmp a b); reflexivity. Qed.
  Lemma find_cons k a l : set_find cmp k (a :: l) = if same cmp k a then Some a else set_find cmp k l.
  Proof. unfold set_find, same. cbn. destruct (cmp k a); reflexivity. Qed.
  Lemma same_diff k x y : cmp k y = Eq -> same cmp x y = false -> same cmp k x = false.
  Proof. intros E N. rewrite (same_refl_l _ _ x E), same_sym. exact N. Qed.
  Lemma find_add k x l : StronglySorted (lt cmp) l ->
    set_find cmp k (set_add cmp x l) = if same cmp k x then Some x else set_find cmp k l.
  Proof.
    induction l as [|y l IH]; intros S1; cbn [set_add].
    - apply find_cons.
    - inversion S1 as [|? ? S2 F]; subst. destruct (cmp x y) eqn:E.
      + rewrite !find_cons. destruct (same cmp k x) eqn:K; [reflexivity|]. destruct (same cmp k y) eqn:KY; [|reflexivity].
        exfalso. unfold same in K, KY. destruct (cmp k y) eqn:KE; try discriminate. rewrite (gc_eq_l _ G _ _ x KE), (gc_sym _ G x y), E in K. discriminate.
      + rewrite find_cons. reflexivity.
      + rewrite !find_cons, IH by exact S2. destruct (same cmp k y) eqn:KY; [|reflexivity].
        rewrite (same_diff k x y); [reflexivity | unfold same in KY; destruct (cmp k y); congruence | unfold same; rewrite E; reflexivity].
  Qed.
  Lemma find_del k x l : set_find cmp k (set_del cmp x l) = if same cmp k x then None else set_find cmp k l.
  Proof.
    induction l as [|y l IH].
    - cbn. destruct (same cmp k x); reflexivity.
    - assert (C : set_del cmp x (y :: l) = if same cmp x y then set_del cmp x l else y :: set_del cmp x l) by (unfold set_del, same; cbn; destruct (cmp x y); reflexivity).
      rewrite C. destruct (same cmp x y) eqn:E; rewrite ?find_cons, IH.
      + destruct (same cmp k x) eqn:K; [reflexivity|]. destruct (same cmp k y) eqn:KY; [|reflexivity]. exfalso.
        unfold same in KY. destruct (cmp k y) eqn:KE; try discriminate. rewrite (same_refl_l _ _ x KE), same_sym, E in K. discriminate.
      + destruct (same cmp k y) eqn:KY; [|reflexivity]. rewrite (same_diff k x y); [reflexivity | unfold same in KY; destruct (cmp k y); congruence | exact E].
  Qed.

  Record minv (m : smap) (past : list mop) : Prop := {
    mi_bst : forall i, bst cmp (m i);
    mi_shard : forall i x, In x (elements (m i)) -> shard x = i;
    mi_find : forall k, set_find cmp k (elements (m (shard k))) = lookup cmp past k
  }.
  Lemma minv_empty : minv mempty [].
  Proof. constructor; cbn; [constructor | tauto | reflexivity]. Qed.
  Lemma mstep_inv m past o : minv m past ->
    exists m', mstep cmp shard m o = Some (m', lookup cmp past (key o)) /\ minv m' (o :: past).
  Proof.
    intros [B S1 F]. destruct o as [x|x]; cbn [mstep key].
    - unfold minsert. pose proof (insert_elements cmp G (m (shard x)) x (B _)) as E. pose proof (insert_replaced cmp G (m (shard x)) x (B _)) as R.
      pose proof (insert_bst cmp G (m (shard x)) x (B _)) as B'. destruct (insert cmp (m (shard x)) x) as [t prev]. cbn [fst snd] in *.
      eexists. split; [rewrite R, F; reflexivity|]. constructor.
      + intros i. unfold upd. destruct (i =? shard x); [exact B' | apply B].
      + intros i y. unfold upd. destruct (Z.eqb_spec i (shard x)) as [->|]; [|apply S1]. rewrite E. intros I. apply set_add_in in I. destruct I as [->|I]; [reflexivity | apply S1, I].
      + intros k. unfold upd. cbn [lookup]. destruct (Z.eqb_spec (shard k) (shard x)) as [EQ|NE].
        * rewrite E, find_add by apply B. rewrite <- EQ, F. reflexivity.
        * rewrite F. unfold same. destruct (cmp k x) eqn:K; try reflexivity. apply SH in K. congruence.
    - unfold mdelete. destruct (delete_spec cmp G (m (shard x)) x (B _)) as (t & E1 & E2 & E3).
      destruct (delete cmp (m (shard x)) x) as [[t'|] prev]; cbn [fst snd] in *; [|discriminate]. injection E1 as ->.
      eexists. split; [rewrite E3, F; reflexivity|]. constructor.
      + intros i. unfold upd. destruct (i =? shard x); [|apply B]. unfold bst. rewrite E2. apply set_del_sorted; apply B.
      + intros i y. unfold upd. destruct (Z.eqb_spec i (shard x)) as [->|]; [|apply S1]. rewrite E2. unfold set_del. intros I. apply filter_In in I. apply S1, I.
      + intros k. unfold upd. cbn [lookup]. destruct (Z.eqb_spec (shard k) (shard x)) as [EQ|NE].
        * rewrite E2, find_del. rewrite <- EQ, F. reflexivity.
        * rewrite F. unfold same. destruct (cmp k x) eqn:K; try reflexivity. apply SH in K. congruence.
  Qed.
  Lemma mrun_inv os : forall m past, minv m past ->
    exists m', mrun cmp shard m os = Some (m', expected cmp past os) /\ minv m' (rev os ++ past).
  Proof.
    induction os as [|o os IH]; intros m past I; cbn [mrun expected rev]; [exists m; auto|].
    destruct (mstep_inv m past o I) as (m1 & -> & I1). destruct (IH m1 _ I1) as (m2 & -> & I2).
    exists m2. split; [reflexivity|]. rewrite <- app_assoc. exact I2.
  Qed.

  (** walking a shard *)
  Fixpoint takewhile (p : A -> bool) (l : list A) : list A :=
    match l with [] => [] | x :: l => if p x then x :: takewhile p l else [] end.
  Lemma above_next P x S1 : StronglySorted (lt cmp) (P ++ x :: S1) -> set_above cmp x (P ++ x :: S1) = hd_error S1.
  Proof.
    intros S2. apply SS_app in S2. destruct S2 as (_ & S2 & C). unfold set_above.
    induction P as [|y P IH]; cbn.
    - rewrite (gc_refl _ G). inversion S2 as [|? ? S3 F]; subst. destruct S1 as [|z S1]; [reflexivity|]. cbn.
      inversion F as [|? ? F1 F2]; subst. unfold lt in F1. rewrite F1. reflexivity.
    - assert (L : cmp y x = Lt) by (apply C; left; reflexivity). rewrite (gc_sym _ G y x), L. cbn. apply IH.
      intros a b Ia Ib. apply C; [right; exact Ia | exact Ib].
  Qed.
  Lemma walk_spec t p : bst cmp t -> forall S1 P node fuel, elements t = P ++ S1 -> elt node = hd_error S1 ->
    (subtree node t \/ node = Leaf) -> (length S1 <= fuel)%nat -> walk cmp fuel t node p = Some (takewhile p S1).
  Proof.
    intros B. induction S1 as [|x S1 IH]; intros P node fuel E H N L.
    - destruct node; [destruct fuel; reflexivity | discriminate].
    - destruct node as [|v l y r]; [discriminate|]. cbn in H. injection H as ->. destruct fuel as [|fuel]; [cbn in L; lia|]. cbn [walk takewhile].
      destruct (p x); [|reflexivity]. destruct N as [N|N]; [|discriminate].
      destruct (next_spec cmp G t v l x r B N) as (n & -> & E2 & N2).
      unfold bst in B. rewrite E in E2, B. rewrite above_next in E2 by exact B.
      rewrite (IH (P ++ [x]) n fuel); [reflexivity | rewrite <- app_assoc; exact E | exact E2 | exact N2 | cbn in L; lia].
  Qed.
  Lemma lower_split k l : StronglySorted (lt cmp) l -> exists P S1, l = P ++ S1 /\ set_lower cmp k l = hd_error S1 /\
    (forall y, In y P -> cmp y k = Lt) /\ (forall y, In y S1 -> cmp k y <> Gt).
  Proof.
    induction l as [|y l IH]; intros S2; [exists [], []; cbn; tauto|].
    inversion S2 as [|? ? S3 F]; subst. destruct (cmp k y) eqn:K.
    - exists [], (y :: l). split; [reflexivity|]. split; [unfold set_lower; cbn; rewrite K; reflexivity|]. split; [cbn; tauto|].
      intros z [<-|I]; [congruence|]. rewrite Forall_forall in F. specialize (F z I). unfold lt in F. rewrite (gc_eq_l _ G _ _ z K), F. discriminate.
    - exists [], (y :: l). split; [reflexivity|]. split; [unfold set_lower; cbn; rewrite K; reflexivity|]. split; [cbn; tauto|].
      intros z [<-|I]; [congruence|]. rewrite Forall_forall in F. specialize (F z I). unfold lt in F. rewrite (gc_trans _ G k y z K F). discriminate.
    - destruct (IH S3) as (P & S1 & -> & E2 & E3 & E4). exists (y :: P), S1. split; [reflexivity|]. split; [unfold set_lower in *; cbn; rewrite K; exact E2|].
      split; [|exact E4]. intros z [<-|I]; [|apply E3, I]. rewrite (gc_sym _ G k y), K. reflexivity.
  Qed.
End Proofs.

(** ** C27 *)
(** For every key order, every hash that respects it (in particular any hash of
    the key) and every history of insertions and deletions: no undefined
    behaviour, every operation returns the entry that was there, and a search
    finds exactly the entries inserted and not deleted since. *)
Theorem C27_finite_map : forall (A : Type) (cmp : A -> A -> comparison) (shard : A -> Z),
  good_cmp cmp -> (forall a b, cmp a b = Eq -> shard a = shard b) ->
  forall os, exists m, mrun cmp shard mempty os = Some (m, expected cmp [] os) /\
    forall k, msearch cmp shard m k = lookup cmp (rev os) k.
Proof.
  intros A cmp shard G SH os. destruct (mrun_inv cmp G shard SH os mempty [] (minv_empty cmp shard)) as (m & E & [B S1 F]).
  exists m. split; [exact E|]. intros k. unfold msearch. rewrite search_spec by (auto; apply B). rewrite F, app_nil_r. reflexivity.
Qed.
(** The hashes neco uses respect the key orders it uses, and select one of the
    512 slots of the array. *)
Theorem C27_neco_shards :
  (forall a b, all_compare a b = Eq -> id_shard a = id_shard b) /\
  (forall a b, evcompare a b = Eq -> ev_shard a = ev_shard b) /\
  (forall id, 0 <= id_shard id < 512) /\ (forall k, 0 <= ev_shard k < 512).
Proof.
  assert (R : forall id, 0 <= id_shard id < 512).
  { intros id. unfold id_shard, NSHARDS. change (512 - 1) with (Z.ones 9). rewrite Z.land_ones by lia. apply Z.mod_pos_bound. reflexivity. }
  split; [|split; [|split]].
  - intros a b E. unfold all_compare in E. zcmp. replace b with a by lia. reflexivity.
  - intros [[f1 k1] i1] [[f2 k2] i2] E. unfold evcompare in E. zcmp. unfold ev_shard. cbn. replace f2 with f1 by lia. reflexivity.
  - exact R.
  - intros k. apply R.
Qed.
(** Two ids in one shard and one in another; replace, delete, search. *)
Example C27_case : exists m,
  mrun all_compare (fun x => x mod 2) mempty [MIns 5; MIns 7; MIns 4; MDel 5; MDel 9; MIns 7] =
    Some (m, [None; None; None; Some 5; None; Some 7]) /\
  msearch all_compare (fun x => x mod 2) m 7 = Some 7 /\ msearch all_compare (fun x => x mod 2) m 5 = None.
Proof. eexists. split; [reflexivity|]. split; reflexivity. Qed.

(** ** C31: specification *)
(** Is this coroutine waiting for this event, after the history (newest first)? *)
Fixpoint waiting (past : list eop) (fd kind id : Z) : bool :=
  match past with
  | [] => false
  | EWait f k i :: past => if (f =? fd) && (k =? kind) && (i =? id) then true else waiting past fd kind id
  | ELeave f k i :: past => if (f =? fd) && (k =? kind) && (i =? id) then false else waiting past fd kind id
  | EEvent _ _ _ :: past => waiting past fd kind id
  end.
(** Client discipline: ids are positive, the kind is read or write, a coroutine
    waits for one event at a time and leaves the wait it is in. *)
Definition legal (past : list eop) (o : eop) : Prop :=
  match o with
  | EWait fd kind id => 0 < id /\ (kind = EVREAD \/ kind = EVWRITE) /\ forall f k, waiting past f k id = false
  | ELeave fd kind id => waiting past fd kind id = true
  | EEvent _ _ _ => True
  end.
Fixpoint legal_hist (past os : list eop) : Prop :=
  match os with [] => True | o :: os => legal past o /\ legal_hist (o :: past) os end.

Fixpoint mops (past : list eop) : list (mop (A := evkey)) :=
  match past with
  | [] => []
  | EWait f k i :: past => MIns (f, k, i) :: mops past
  | ELeave f k i :: past => MDel (f, k, i) :: mops past
  | EEvent _ _ _ :: past => mops past
  end.
Lemma evcompare_eq : forall a b, evcompare a b = Eq <-> a = b.
Proof.
  intros [[f1 k1] i1] [[f2 k2] i2]. unfold evcompare. split; intros E; [zcmp; f_equal; [f_equal|]; lia|].
  injection E as -> -> ->. rewrite !Z.ltb_irrefl. reflexivity.
Qed.
Lemma ev_sh : forall a b, evcompare a b = Eq -> ev_shard a = ev_shard b.
Proof. apply C27_neco_shards. Qed.
Lemma waiting_lookup : forall past fd kind id,
  lookup evcompare (mops past) (fd, kind, id) = if waiting past fd kind id then Some (fd, kind, id) else None.
Proof.
  assert (SM : forall f k i fd kind id, same evcompare (fd, kind, id) (f, k, i) = (f =? fd) && (k =? kind) && (i =? id)).
  { intros. unfold same, evcompare. zcmp; destruct (Z.eqb_spec f fd), (Z.eqb_spec k kind), (Z.eqb_spec i id); cbn; try lia; reflexivity. }
  induction past as [|[f k i|f k i|f r w] past IH]; intros fd kind id; cbn [mops lookup waiting]; [reflexivity| | |apply IH]; rewrite SM.
  - destruct (Z.eqb_spec f fd) as [->|]; cbn; [|apply IH]. destruct (Z.eqb_spec k kind) as [->|]; cbn; [|apply IH]. destruct (Z.eqb_spec i id) as [->|]; [reflexivity | apply IH].
  - destruct ((f =? fd) && (k =? kind) && (i =? id)); [reflexivity | apply IH].
Qed.

(** everything known about a state after a history *)
Record einv (past : list eop) (s : est) : Prop := {
  ei_map : minv evcompare ev_shard (ev s) (mops past);
  ei_pos : forall fd kind id, waiting past fd kind id = true -> 0 < id /\ (kind = EVREAD \/ kind = EVWRITE);
  ei_one : forall f k f' k' i, waiting past f k i = true -> waiting past f' k' i = true -> f = f' /\ k = k'
}.
Lemma ev_elem : forall past s, einv past s -> forall fd kind id,
  In (fd, kind, id) (elements (ev s (ev_shard (fd, kind, 0)))) <-> waiting past fd kind id = true.
Proof.
  intros past s [[B S1 F] P O] fd kind id. specialize (F (fd, kind, id)). rewrite waiting_lookup in F.
  change (ev_shard (fd, kind, id)) with (ev_shard (fd, kind, 0)) in F. split; intros H.
  - destruct (waiting past fd kind id); [reflexivity|]. exfalso. unfold set_find in F. apply find_none with (x := (fd, kind, id)) in F; [|exact H].
    rewrite (proj2 (evcompare_eq _ _) eq_refl) in F. discriminate.
  - rewrite H in F. unfold set_find in F. apply find_some in F. apply F.
Qed.
Lemma wake_spec : forall past s fd kind, einv past s ->
  exists l, wake_event (ev s) fd kind = Some l /\ NoDup l /\
    (forall k, In k l <-> exists id, k = (fd, kind, id) /\ waiting past fd kind id = true).
Proof.
  intros past s fd kind I. pose proof (ev_elem _ _ I) as EL. destruct I as [[B S1 F] P O].
  unfold wake_event, miter. set (t := ev s (ev_shard (fd, kind, 0))) in *.
  assert (Bt : bst evcompare t) by apply B.
  destruct (lower_split evcompare evcompare_good (fd, kind, 0) (elements t) Bt) as (Pf & S2 & E & L & LT & GE).
  rewrite (walk_spec evcompare evcompare_good t (is_event fd kind) Bt S2 Pf); [ | exact E | | | ].
  - exists (takewhile (is_event fd kind) S2). split; [reflexivity|].
    assert (SS2 : StronglySorted (lt evcompare) S2) by (unfold bst in Bt; rewrite E in Bt; apply SS_app in Bt; tauto).
    assert (ND : NoDup S2).
    { clear -SS2. induction SS2 as [|a l S IH F]; constructor; [|exact IH]. intros I. rewrite Forall_forall in F. specialize (F a I). unfold lt in F.
      rewrite (gc_refl _ evcompare_good) in F. discriminate. }
    assert (TW : forall k, In k (takewhile (is_event fd kind) S2) <-> In k S2 /\ is_event fd kind k = true).
    { clear -SS2 GE. induction S2 as [|x S2 IH]; intros k; cbn; [tauto|].
      assert (SSI : StronglySorted (lt evcompare) S2) by (inversion SS2; assumption).
      assert (GEI : forall y, In y S2 -> evcompare (fd, kind, 0) y <> Gt) by (intros y J; apply GE; right; exact J).
      destruct (is_event fd kind x) eqn:X; cbn.
      - rewrite IH by assumption. split; [intros [<-|[A C]]; auto | intros [[A|A] C]; auto].
      - split; [tauto|]. intros [[<-|A] C]; [congruence|]. exfalso.
        inversion SS2 as [|? ? _ FA]; subst. rewrite Forall_forall in FA. specialize (FA k A). specialize (GE x (or_introl eq_refl)).
        destruct x as [[f1 k1] i1], k as [[f2 k2] i2]. unfold is_event in *. cbn [fst snd] in *. unfold lt, evcompare in *.
        apply andb_prop in C. destruct C as [C1 C2]. apply Z.eqb_eq in C1. apply Z.eqb_eq in C2. subst.
        destruct (Z.eqb_spec f1 fd); destruct (Z.eqb_spec k1 kind); cbn in X; try discriminate; zcmp; congruence. }
    split.
    + clear -ND. induction S2 as [|x S2 IH]; cbn; [constructor|]. inversion ND as [|? ? N1 N2]; subst. destruct (is_event fd kind x); [|constructor].
      constructor; [|apply IH, N2]. intros J. apply N1. clear -J. induction S2 as [|y S2 IH]; cbn in J; [contradiction|]. destruct (is_event fd kind y); [|contradiction]. destruct J as [J|J]; [left; exact J | right; apply IH, J].
    + intros k. rewrite TW. split.
      * intros [J1 J2]. destruct k as [[f2 k2] i2]. unfold is_event in J2. cbn in J2. apply andb_prop in J2. destruct J2 as [J2 J3].
        apply Z.eqb_eq in J2. apply Z.eqb_eq in J3. subst. exists i2. split; [reflexivity|]. apply EL. fold t. rewrite E. apply in_or_app. auto.
      * intros (id & -> & W). split; [|unfold is_event; cbn; rewrite !Z.eqb_refl; reflexivity].
        pose proof (proj2 (EL fd kind id) W) as J. fold t in J. rewrite E in J. apply in_app_or in J. destruct J as [J|J]; [|exact J]. exfalso.
        specialize (LT _ J). destruct (P _ _ _ W) as [ID _]. unfold evcompare in LT. zcmp.
  - exact (eq_trans (iter_spec evcompare evcompare_good t (fd, kind, 0) Bt) L).
  - apply iter_sub.
  - rewrite E, app_length. lia.
Qed.
Lemma evexists_spec : forall past s fd kind, einv past s ->
  evexists (ev s) fd kind = true <-> exists id, waiting past fd kind id = true.
Proof.
  intros past s fd kind I. pose proof (ev_elem _ _ I) as EL. destruct I as [[B S1 F] P O].
  unfold evexists, miter. set (t := ev s (ev_shard (fd, kind, 0))) in *.
  assert (Bt : bst evcompare t) by apply B.
  rewrite (iter_spec evcompare evcompare_good t (fd, kind, 0) Bt).
  destruct (lower_split evcompare evcompare_good (fd, kind, 0) (elements t) Bt) as (Pf & S2 & E & L & LT & GE). rewrite L.
  split.
  - intros H. destruct S2 as [|[[f k] i] S2]; [discriminate|]. cbn in H. unfold is_event in H. cbn in H. apply andb_prop in H. destruct H as [H1 H2].
    apply Z.eqb_eq in H1. apply Z.eqb_eq in H2. subst. exists i. apply EL. fold t. rewrite E. apply in_or_app. right. left. reflexivity.
  - intros [id W]. pose proof (proj2 (EL fd kind id) W) as J. fold t in J. rewrite E in J. destruct (P _ _ _ W) as [ID _].
    apply in_app_or in J. destruct J as [J|J]; [specialize (LT _ J); unfold evcompare in LT; zcmp|].
    destruct S2 as [|[[f k] i] S2]; [contradiction|]. cbn. specialize (GE (f, k, i) (or_introl eq_refl)).
    unfold bst in Bt. rewrite E in Bt. apply SS_app in Bt. destruct Bt as (_ & Bt & _). inversion Bt as [|? ? _ FA]; subst. rewrite Forall_forall in FA.
    unfold is_event. cbn [fst snd]. destruct J as [J|J].
    + injection J as -> -> ->. rewrite !Z.eqb_refl. reflexivity.
    + specialize (FA _ J). unfold lt, evcompare in *. destruct (Z.eqb_spec f fd); destruct (Z.eqb_spec k kind); cbn; try reflexivity; exfalso; zcmp; congruence.
Qed.
Lemma estep_inv : forall past s o, einv past s -> legal past o -> exists s', estep s o = Some s' /\ einv (o :: past) s'.
Proof.
  intros past s o I L. pose proof I as [M P O]. destruct o as [fd kind id|fd kind id|fd r w]; cbn [estep].
  - eexists. split; [reflexivity|]. destruct (mstep_inv evcompare evcompare_good ev_shard ev_sh (ev s) (mops past) (MIns (fd, kind, id)) M) as (m' & E & M').
    cbn [mstep] in E. injection E as E. destruct L as (L1 & L2 & L3). constructor; cbn [ev].
    + destruct (minsert evcompare ev_shard (ev s) (fd, kind, id)) as [m pr]. cbn [fst]. injection E as -> _. exact M'.
    + intros f k i. cbn [waiting]. destruct ((fd =? f) && (kind =? k) && (id =? i)) eqn:X; [|apply P].
      apply andb_prop in X. destruct X as [X X3]. apply andb_prop in X. destruct X as [X1 X2]. apply Z.eqb_eq in X1, X2, X3. subst. auto.
    + intros f k f' k' i. cbn [waiting].
      destruct ((fd =? f) && (kind =? k) && (id =? i)) eqn:X; destruct ((fd =? f') && (kind =? k') && (id =? i)) eqn:Y.
      * apply andb_prop in X. destruct X as [X X3]. apply andb_prop in X. destruct X as [X1 X2]. apply andb_prop in Y. destruct Y as [Y Y3]. apply andb_prop in Y. destruct Y as [Y1 Y2].
        apply Z.eqb_eq in X1, X2, Y1, Y2. subst. auto.
      * apply andb_prop in X. destruct X as [_ X3]. apply Z.eqb_eq in X3. subst. rewrite L3. discriminate.
      * apply andb_prop in Y. destruct Y as [_ Y3]. apply Z.eqb_eq in Y3. subst. rewrite L3. discriminate.
      * apply O.
  - destruct (mstep_inv evcompare evcompare_good ev_shard ev_sh (ev s) (mops past) (MDel (fd, kind, id)) M) as (m' & E & M').
    cbn [mstep] in E. rewrite E. eexists. split; [reflexivity|]. constructor; cbn [ev].
    + exact M'.
    + intros f k i. cbn [waiting]. destruct ((fd =? f) && (kind =? k) && (id =? i)); [discriminate | apply P].
    + intros f k f' k' i. cbn [waiting]. destruct ((fd =? f) && (kind =? k) && (id =? i)); [discriminate|]. destruct ((fd =? f') && (kind =? k') && (id =? i)); [discriminate | apply O].
  - destruct (wake_spec past s fd EVREAD I) as (l1 & E1 & _). destruct (wake_spec past s fd EVWRITE I) as (l2 & E2 & _). rewrite E1, E2.
    assert (X : exists a b, (if r then Some l1 else Some []) = Some a /\ (if w then Some l2 else Some []) = Some b) by (destruct r, w; eexists; eexists; split; reflexivity).
    destruct X as (a & b & -> & ->). eexists. split; [reflexivity|]. constructor; cbn [ev mops waiting]; assumption.
Qed.
Lemma erun_inv : forall os past s, einv past s -> legal_hist past os -> exists s', erun s os = Some s' /\ einv (rev os ++ past) s'.
Proof.
  induction os as [|o os IH]; intros past s I L; cbn [erun rev]; [exists s; auto|].
  destruct L as [L1 L2]. destruct (estep_inv past s o I L1) as (s1 & -> & I1). destruct (IH _ s1 I1 L2) as (s2 & E & I2).
  exists s2. split; [exact E|]. rewrite <- app_assoc. exact I2.
Qed.
Lemma einv0 : einv [] einit.
Proof. constructor; cbn; [apply minv_empty | discriminate | discriminate]. Qed.

(** ** C31 *)
(** An event on a descriptor resumes exactly the coroutines waiting on that
    descriptor for a reported direction: all of them, each once, nobody else. *)
Theorem C31_wakes_exactly : forall os s fd r w, legal_hist [] os -> erun einit os = Some s ->
  exists s' l, estep s (EEvent fd r w) = Some s' /\ woken s' = l ++ woken s /\ NoDup l /\
    forall id, In id l <-> (r = true /\ waiting (rev os) fd EVREAD id = true) \/ (w = true /\ waiting (rev os) fd EVWRITE id = true).
Proof.
  intros os s fd r w L E. destruct (erun_inv os [] einit einv0 L) as (s0 & E0 & I). rewrite E in E0. injection E0 as <-. rewrite app_nil_r in I.
  destruct (wake_spec _ s fd EVREAD I) as (l1 & E1 & N1 & W1). destruct (wake_spec _ s fd EVWRITE I) as (l2 & E2 & N2 & W2).
  assert (ND : forall kind l, (forall k, In k l <-> exists id, k = (fd, kind, id) /\ waiting (rev os) fd kind id = true) -> NoDup l -> NoDup (map (snd (B := Z) (A := Z * Z)) l)).
  { intros kind l W N. assert (FK : forall k, In k l -> fst k = (fd, kind)) by (intros k J; apply W in J; destruct J as (id & -> & _); reflexivity).
    clear -N FK. induction N as [|x l NI N IH]; cbn; [constructor|]. constructor; [|apply IH; intros k J; apply FK; right; exact J].
    intros J. apply in_map_iff in J. destruct J as (y & Y1 & Y2). apply NI. replace x with y; [exact Y2|].
    pose proof (FK x (or_introl eq_refl)). pose proof (FK y (or_intror Y2)). destruct x, y; cbn in *; congruence. }
  assert (MI : forall kind l id, (forall k, In k l <-> exists id, k = (fd, kind, id) /\ waiting (rev os) fd kind id = true) ->
    In id (map snd l) <-> waiting (rev os) fd kind id = true).
  { intros kind l id W. rewrite in_map_iff. split.
    - intros (k & K1 & K2). apply W in K2. destruct K2 as (i & -> & K2). cbn in K1. subst. exact K2.
    - intros X. exists (fd, kind, id). split; [reflexivity|]. apply W. exists id. auto. }
  cbn [estep]. rewrite E1, E2.
  exists (mkest (ev s) (fun f => if f =? fd then (false, false) else armed s f) (map snd ((if r then l1 else []) ++ (if w then l2 else [])) ++ woken s)).
  exists (map snd ((if r then l1 else []) ++ (if w then l2 else []))). split; [destruct r, w; reflexivity|]. split; [reflexivity|].
  split.
  - rewrite map_app.
    assert (D : forall i, In i (map snd l1) -> ~ In i (map snd l2)).
    { intros i A C. apply (MI EVREAD l1 i W1) in A. apply (MI EVWRITE l2 i W2) in C. destruct (ei_one _ _ I _ _ _ _ _ A C). discriminate. }
    destruct r, w; cbn; rewrite ?app_nil_r; [|eapply ND; eassumption|eapply ND; eassumption|constructor].
    apply NoDup_app_intro; [eapply ND; eassumption | eapply ND; eassumption | exact D].
  - intros id. rewrite map_app, in_app_iff. destruct r, w; cbn [map]; rewrite ?(MI EVREAD l1 id W1), ?(MI EVWRITE l2 id W2); cbn; intuition discriminate.
Qed.
(** No legal history runs into undefined behaviour. *)
Theorem C31_no_ub : forall os, legal_hist [] os -> erun einit os <> None.
Proof. intros os L. destruct (erun_inv os [] einit einv0 L) as (s0 & E0 & _). congruence. Qed.

(** Is the direction of a waiter still armed in the kernel? Then the kernel
    reports it as soon as the descriptor is ready. *)
Definition is_armed (s : est) (fd kind : Z) : bool := if kind =? EVREAD then fst (armed s fd) else snd (armed s fd).
(** Events the guarded theorem allows: the event reports every direction for
    which a coroutine is still asleep on that descriptor. *)
Definition complete_event (past : list eop) (s : est) (o : eop) : Prop :=
  match o with
  | EEvent fd r w => (forall id, waiting past fd EVREAD id = true -> r = true \/ In id (woken s)) /\
                     (forall id, waiting past fd EVWRITE id = true -> w = true \/ In id (woken s))
  | _ => True
  end.
Fixpoint complete_hist (past : list eop) (s : est) (os : list eop) : Prop :=
  match os with
  | [] => True
  | o :: os => complete_event past s o /\ match estep s o with Some s' => complete_hist (o :: past) s' os | None => True end
  end.
(** C31, partial: if events report every direction somebody sleeps for (in
    particular if each descriptor is used in one direction and no event reports
    an error alone), every coroutine still asleep is armed, so none is forgotten. *)
Theorem C31_never_forgotten_partial : forall os s, legal_hist [] os -> complete_hist [] einit os -> erun einit os = Some s ->
  forall fd kind id, waiting (rev os) fd kind id = true -> In id (woken s) \/ is_armed s fd kind = true.
Proof.
  assert (G : forall os past s s', einv past s -> (forall fd kind id, waiting past fd kind id = true -> In id (woken s) \/ is_armed s fd kind = true) ->
    legal_hist past os -> complete_hist past s os -> erun s os = Some s' ->
    forall fd kind id, waiting (rev os ++ past) fd kind id = true -> In id (woken s') \/ is_armed s' fd kind = true).
  { induction os as [|o os IH]; intros past s s' I A L C E; cbn [erun rev] in *; [injection E as <-; exact A|].
    destruct L as [L1 L2]. destruct C as [C1 C2]. destruct (estep_inv past s o I L1) as (s1 & E1 & I1). rewrite E1 in *.
    rewrite <- app_assoc. apply (IH (o :: past) s1 s' I1); auto. clear IH E L2 C2.
    intros f k i W. destruct o as [fd kind id|fd kind id|fd r w]; cbn [estep] in E1.
    - injection E1 as <-. cbn [woken waiting] in *. unfold is_armed in *. cbn [armed]. destruct (Z.eqb_spec f fd) as [->|NF].
      + right. destruct ((fd =? fd) && (kind =? k) && (id =? i)) eqn:X.
        * apply andb_prop in X. destruct X as [X _]. apply andb_prop in X. destruct X as [_ X]. apply Z.eqb_eq in X. subst k. destruct (kind =? EVREAD); reflexivity.
        * destruct (ei_pos _ _ I _ _ _ W) as [_ KK]. destruct (Z.eqb_spec kind EVREAD) as [->|NK]; destruct (Z.eqb_spec k EVREAD) as [->|NK2]; cbn [fst snd]; try reflexivity.
          -- destruct KK as [->| ->]; [congruence|]. apply (evexists_spec past s fd EVWRITE I). exists i. exact W.
          -- apply (evexists_spec past s fd EVREAD I). exists i. exact W.
      + destruct (Z.eqb_spec fd f) as [->|NF2]; [congruence|]. cbn [andb] in W. apply A. exact W.
    - destruct (mdelete _ _ _ _) as [[m pr]|]; [|discriminate]. injection E1 as <-. cbn [woken waiting] in *. unfold is_armed in *. cbn [armed].
      destruct ((fd =? f) && (kind =? k) && (id =? i)) eqn:X; [discriminate|]. destruct (A _ _ _ W) as [H|H]; [|right; exact H].
      left. apply filter_In. split; [exact H|]. destruct (Z.eqb_spec i id) as [->|]; [|reflexivity]. exfalso.
      cbn in L1. destruct (ei_one _ _ I _ _ _ _ _ W L1) as [-> ->]. rewrite !Z.eqb_refl in X. discriminate.
    - cbn [waiting] in W. destruct C1 as [C1 C3].
      destruct (wake_spec past s fd EVREAD I) as (l1 & R1 & _ & W1). destruct (wake_spec past s fd EVWRITE I) as (l2 & R2 & _ & W2). rewrite R1, R2 in E1.
      assert (EQ : s1 = mkest (ev s) (fun f => if f =? fd then (false, false) else armed s f) (map snd ((if r then l1 else []) ++ (if w then l2 else [])) ++ woken s)) by (destruct r, w; injection E1 as <-; reflexivity).
      subst s1. unfold is_armed. cbn [woken armed]. destruct (Z.eqb_spec f fd) as [->|NF].
      + left. apply in_or_app. destruct (ei_pos _ _ I _ _ _ W) as [_ KK]. destruct KK as [->| ->].
        * destruct (C1 _ W) as [->|H]; [|right; exact H]. left. rewrite map_app. apply in_or_app. left. apply in_map_iff. exists (fd, EVREAD, i). split; [reflexivity|]. apply W1. exists i. auto.
        * destruct (C3 _ W) as [->|H]; [|right; exact H]. left. rewrite map_app. apply in_or_app. right. apply in_map_iff. exists (fd, EVWRITE, i). split; [reflexivity|]. apply W2. exists i. auto.
      + destruct (A _ _ _ W) as [H|H]; [left; apply in_or_app; right; exact H | right; exact H]. }
  intros os s L C E fd kind id W. apply (G os [] einit s einv0); auto; [discriminate|]. rewrite app_nil_r. exact W.
Qed.
Ltac nowait := intros f k; cbn [waiting];
  repeat match goal with |- context [Z.eqb (Zpos ?a) (Zpos ?b)] =>
    let r := eval vm_compute in (Z.eqb (Zpos a) (Zpos b)) in change (Z.eqb (Zpos a) (Zpos b)) with r end;
  rewrite ?andb_false_r; reflexivity.
(** The full statement (without [complete_hist]) is false: coroutine 1 waits to
    read and coroutine 2 to write on descriptor 7; the descriptor becomes readable
    only. The one-shot registration is now disarmed for both, so the kernel will
    never report that the descriptor has become writable. The second history: an
    event reporting only an error or hang-up wakes nobody and disarms too. *)
Theorem C31_never_forgotten_refuted :
  (exists os s, legal_hist [] os /\ erun einit os = Some s /\
    waiting (rev os) 7 EVWRITE 2 = true /\ ~ In 2 (woken s) /\ armed s 7 = (false, false)) /\
  (exists os s, legal_hist [] os /\ erun einit os = Some s /\
    waiting (rev os) 7 EVREAD 1 = true /\ woken s = [] /\ armed s 7 = (false, false)).
Proof.
  split.
  - exists [EWait 7 EVREAD 1; EWait 7 EVWRITE 2; EEvent 7 true false; ELeave 7 EVREAD 1]. eexists.
    repeat split; try reflexivity; auto.
    + nowait.
  - exists [EWait 7 EVREAD 1; EEvent 7 false false]. eexists. repeat split; try reflexivity; auto.
Qed.
(** Three waiters on two descriptors; only the readers of descriptor 7 wake. *)
Example C31_case : exists s s',
  erun einit [EWait 7 EVREAD 3; EWait 8 EVREAD 2; EWait 7 EVREAD 1; EWait 7 EVWRITE 5] = Some s /\
  estep s (EEvent 7 true false) = Some s' /\ woken s' = [1; 3] /\ armed s 7 = (true, true) /\
  legal_hist [] [EWait 7 EVREAD 3; EWait 8 EVREAD 2; EWait 7 EVREAD 1; EWait 7 EVWRITE 5].
Proof.
  eexists. eexists. split; [vm_compute; reflexivity|]. split; [vm_compute; reflexivity|]. split; [reflexivity|]. split; [reflexivity|].
  repeat split; auto; try lia; nowait.
Qed.

Print Assumptions C27_finite_map.
Print Assumptions C27_neco_shards.
Print Assumptions C31_wakes_exactly.
Print Assumptions C31_no_ub.
Print Assumptions C31_never_forgotten_partial.
Print Assumptions C31_never_forgotten_refuted.
