(** C28: the intrusive lists behave as sequences. *)
From Coq Require Import ZArith List Bool Lia Permutation.
From Verif Require Import Util ColistHeap.
Import ListNotations.
Local Open Scope Z_scope.

(** ** Specification: a finite collection of sequences and of loose nodes *)
Record abs := mkabs { lists : list (ptr * ptr * list ptr); loose : list ptr }.
Definition known (A : abs) : list ptr :=
  flat_map (fun e => fst (fst e) :: snd (fst e) :: snd e) (lists A) ++ loose A.
Definition nodes (A : abs) : list ptr := flat_map snd (lists A) ++ loose A.
Definition mem (x : ptr) (l : list ptr) : bool := existsb (Z.eqb x) l.
Definition content (A : abs) (a z : ptr) : option (list ptr) :=
  match find (fun e => (fst (fst e) =? a) && (snd (fst e) =? z)) (lists A) with
  | Some e => Some (snd e)
  | None => None
  end.
Definition update (a : ptr) (f : list ptr -> list ptr) (ls : list (ptr * ptr * list ptr)) :=
  map (fun e => if fst (fst e) =? a then (fst e, f (snd e)) else e) ls.
(** take a node out of whatever sequence it is in *)
Definition detach (x : ptr) (A : abs) : abs :=
  mkabs (map (fun e => (fst e, filter (fun y => negb (y =? x)) (snd e))) (lists A))
        (x :: filter (fun y => negb (y =? x)) (loose A)).
Definition astep (A : abs) (o : op) : option (abs * ptr) :=
  match o with
  | NewList a z =>
      if (a =? NULL) || (z =? NULL) || (a =? z) || mem a (known A) || mem z (known A) then None
      else Some (mkabs ((a, z, []) :: lists A) (loose A), NULL)
  | NewNode x => if (x =? NULL) || mem x (known A) then None else Some (mkabs (lists A) (x :: loose A), NULL)
  | Push a z x =>
      match content A a z with
      | Some _ => if mem x (nodes A) then
          let B := detach x A in
          Some (mkabs (update a (fun l => l ++ [x]) (lists B)) (filter (fun y => negb (y =? x)) (loose A)), NULL)
          else None
      | None => None
      end
  | Pop a z =>
      match content A a z with
      | Some (x :: _) => Some (detach x A, x)
      | Some [] => Some (A, NULL)
      | None => None
      end
  | Remove x => if mem x (nodes A) then Some (detach x A, NULL) else None
  | Empty a z =>
      match content A a z with
      | Some [] => Some (A, 1)
      | Some _ => Some (A, 0)
      | None => None
      end
  | Splice ra rz ya yz => (* only called with no runner and some yielder *)
      match content A ra rz, content A ya yz with
      | Some [], Some (y :: ys) =>
          Some (mkabs (update ra (fun _ => y :: ys) (update ya (fun _ => []) (lists A))) (loose A), NULL)
      | _, _ => None
      end
  end.
Fixpoint arun (A : abs) (os : list op) : option (abs * list ptr) :=
  match os with
  | [] => Some (A, [])
  | o :: os =>
      match astep A o with
      | Some (A, r) => match arun A os with Some (A, rs) => Some (A, r :: rs) | None => None end
      | None => None
      end
  end.

(** The heap represents the sequences: walking next (prev) from one sentinel
    reaches the other through exactly the nodes of the sequence, in order; loose
    nodes link to themselves; nothing is shared. *)
Fixpoint linked (h : heap) (l : list ptr) : Prop :=
  match l with
  | p :: ((q :: _) as t) => nxt h p = q /\ prv h q = p /\ linked h t
  | _ => True
  end.
Record repr (h : heap) (A : abs) : Prop := {
  r_nodup : NoDup (known A);
  r_null : ~ In NULL (known A);
  r_lists : forall a z l, In (a, z, l) (lists A) -> linked h (a :: l ++ [z]);
  r_loose : forall x, In x (loose A) -> nxt h x = x /\ prv h x = x
}.

(** ** Proof *)
Lemma linked_app : forall h l1 p l2, linked h (l1 ++ p :: l2) <-> linked h (l1 ++ [p]) /\ linked h (p :: l2).
Proof.
  intros h. induction l1 as [|a l1 IH]; intros p l2; [cbn; tauto|].
  destruct l1 as [|b l1].
  - cbn. destruct l2; cbn; tauto.
  - specialize (IH p l2). cbn [app] in *. cbn [linked] in *. tauto.
Qed.
Lemma linked_ext : forall h h' l, (forall x, In x (removelast l) -> nxt h' x = nxt h x) ->
  (forall x, In x (tl l) -> prv h' x = prv h x) -> linked h l -> linked h' l.
Proof.
  intros h h'. induction l as [|p l IH]; intros N P H; [exact I|].
  destruct l as [|q l]; [exact I|]. cbn [linked] in *. destruct H as (H1 & H2 & H3). split; [|split].
  - rewrite N; [exact H1 | left; reflexivity].
  - rewrite P; [exact H2 | left; reflexivity].
  - apply IH; [intros x I; apply N; right; exact I | intros x I; apply P; right; exact I | exact H3].
Qed.
Lemma linked_same : forall h h' l, (forall x, In x l -> nxt h' x = nxt h x /\ prv h' x = prv h x) -> linked h l -> linked h' l.
Proof.
  intros h h' l E. apply linked_ext; intros x I; apply E.
  - clear -I. induction l as [|a l IH]; [contradiction|]. destruct l as [|b l]; [contradiction|].
    cbn [removelast] in I. destruct I as [I|I]; [left; exact I | right; apply IH; exact I].
  - destruct l; [contradiction | right; exact I].
Qed.
Lemma nxt_setn : forall h p v q, nxt (setn h p v) q = if q =? p then v else nxt h q. Proof. reflexivity. Qed.
Lemma prv_setn : forall h p v q, prv (setn h p v) q = prv h q. Proof. reflexivity. Qed.
Lemma nxt_setp : forall h p v q, nxt (setp h p v) q = nxt h q. Proof. reflexivity. Qed.
Lemma prv_setp : forall h p v q, prv (setp h p v) q = if q =? p then v else prv h q. Proof. reflexivity. Qed.
Ltac hp := repeat (rewrite ?nxt_setn, ?prv_setn, ?nxt_setp, ?prv_setp).
Ltac hp_in H := repeat (rewrite ?nxt_setn, ?prv_setn, ?nxt_setp, ?prv_setp in H).

(** The four assignments of a removal, given the neighbours. *)
Definition unlink (h : heap) (p x q : ptr) : heap := setp (setn (setp (setn h p q) q p) x x) x x.
Lemma remove_unlink : forall h p x q, nxt h x = q -> prv h x = p -> p <> x -> remove_from_list h x = unlink h p x q.
Proof.
  intros h p x q N P D. unfold remove_from_list, unlink. rewrite P, N. hp.
  destruct (Z.eqb_spec x p); [congruence|]. rewrite N, P. reflexivity.
Qed.
Lemma remove_loose : forall h x y, nxt h x = x -> prv h x = x ->
  nxt (remove_from_list h x) y = nxt h y /\ prv (remove_from_list h x) y = prv h y.
Proof.
  intros h x y N P. unfold remove_from_list. rewrite P, N. hp. rewrite !Z.eqb_refl, ?P, ?N.
  destruct (Z.eqb_spec y x); [subst; auto|auto].
Qed.
Lemma linked_unlink : forall h l1 p x q l2, NoDup (l1 ++ p :: x :: q :: l2) ->
  linked h (l1 ++ p :: x :: q :: l2) -> linked (unlink h p x q) (l1 ++ p :: q :: l2).
Proof.
  intros h l1 p x q l2 D L. apply linked_app in L. destruct L as [L1 L].
  cbn [linked] in L. destruct L as (N1 & P1 & N2 & P2 & L2).
  assert (NR : ~ In p l1 /\ ~ In x l1 /\ ~ In q l1 /\ p <> x /\ p <> q /\ x <> q /\ ~ In p l2 /\ ~ In x l2 /\ ~ In q l2).
  { clear -D. pose proof (NoDup_app_r _ _ _ D) as D2. inversion D2 as [|? ? A1 D3]; subst. inversion D3 as [|? ? A2 D4]; subst. inversion D4 as [|? ? A3 D5]; subst.
    assert (X : forall y, In y l1 -> ~ In y (p :: x :: q :: l2)) by (intros y; apply NoDup_app_disj; exact D).
    repeat split; try (intros I; specialize (X _ I); cbn in X; tauto); cbn in *; try tauto; intros ->; cbn in *; tauto. }
  destruct NR as (M1 & M2 & M3 & M4 & M5 & M6 & M7 & M8 & M9).
  apply linked_app. split; [|cbn [linked]; split; [|split]].
  - eapply linked_ext; [| |exact L1]; intros y I; unfold unlink; hp.
    + rewrite removelast_last in I. destruct (Z.eqb_spec y x); [subst; contradiction|]. destruct (Z.eqb_spec y p); [subst; contradiction | reflexivity].
    + assert (J : In y (l1 ++ [p])) by (destruct (l1 ++ [p]); [contradiction | right; exact I]). apply in_app_iff in J. cbn in J.
      destruct (Z.eqb_spec y x); [subst; destruct J as [J|[J|[]]]; congruence|]. destruct (Z.eqb_spec y q); [subst; destruct J as [J|[J|[]]]; congruence | reflexivity].
  - unfold unlink; hp. destruct (Z.eqb_spec p x); [congruence|]. rewrite Z.eqb_refl. reflexivity.
  - unfold unlink; hp. destruct (Z.eqb_spec q x); [congruence|]. rewrite Z.eqb_refl. reflexivity.
  - change (linked (unlink h p x q) (q :: l2)). eapply linked_ext; [| |exact L2]; intros y I; unfold unlink; hp.
    + assert (J : In y (q :: l2)). { clear -I. revert I. generalize (q :: l2) as l. induction l as [|a l IH]; intros I; [contradiction|]. destruct l; [contradiction|]. destruct I as [I|I]; [left; exact I | right; apply IH; exact I]. }
      destruct (Z.eqb_spec y x); [subst; destruct J as [J|J]; congruence|]. destruct (Z.eqb_spec y p); [subst; destruct J as [J|J]; congruence | reflexivity].
    + cbn [tl] in I. destruct (Z.eqb_spec y x); [subst; contradiction|]. destruct (Z.eqb_spec y q); [subst; contradiction | reflexivity].
Qed.

(** Where a list entry stands among the known pointers. *)
Definition ptrs (e : ptr * ptr * list ptr) : list ptr := fst (fst e) :: snd (fst e) :: snd e.
Lemma known_eq : forall A, known A = flat_map ptrs (lists A) ++ loose A. Proof. reflexivity. Qed.
Lemma known_in : forall A e y, In e (lists A) -> In y (ptrs e) -> In y (known A).
Proof. intros A e y I J. rewrite known_eq. apply in_or_app. left. apply in_flat_map. exists e. auto. Qed.
Lemma full_perm : forall a z (l : list ptr), Permutation (a :: l ++ [z]) (ptrs (a, z, l)).
Proof. intros. unfold ptrs. cbn [fst snd]. constructor. apply Permutation_sym. apply Permutation_cons_append. Qed.
Lemma full_nodup : forall A a z l, NoDup (known A) -> In (a, z, l) (lists A) -> NoDup (a :: l ++ [z]).
Proof.
  intros A a z l D I. eapply Permutation_NoDup; [apply Permutation_sym, full_perm|].
  rewrite known_eq in D. apply NoDup_app_l in D. apply in_split in I. destruct I as (L1 & L2 & E). rewrite E, flat_map_app in D.
  apply NoDup_app_r in D. cbn [flat_map] in D. apply NoDup_app_l in D. exact D.
Qed.
Lemma full_disj : forall A e e' y, NoDup (known A) -> In e (lists A) -> In e' (lists A) -> In y (ptrs e) -> In y (ptrs e') -> e = e'.
Proof.
  intros A e e' y D I I' J J'. rewrite known_eq in D. apply NoDup_app_l in D.
  induction (lists A) as [|b ls IH]; [contradiction|]. cbn [flat_map] in D.
  assert (K : forall e, In e ls -> In y (ptrs e) -> In y (flat_map ptrs ls)) by (intros e0 X Y; apply in_flat_map; exists e0; auto).
  destruct I as [->|I], I' as [->|I'].
  - reflexivity.
  - exfalso. exact (NoDup_app_disj _ _ _ _ D J (K _ I' J')).
  - exfalso. exact (NoDup_app_disj _ _ _ _ D J' (K _ I J)).
  - apply IH; auto. eapply NoDup_app_r; exact D.
Qed.
Lemma loose_disj : forall A e y, NoDup (known A) -> In e (lists A) -> In y (ptrs e) -> ~ In y (loose A).
Proof.
  intros A e y D I J. rewrite known_eq in D. apply (NoDup_app_disj _ _ _ _ D). apply in_flat_map. exists e. auto.
Qed.
Lemma in_full : forall a z (l : list ptr) y, In y (a :: l ++ [z]) <-> In y (ptrs (a, z, l)).
Proof. intros. split; apply Permutation_in; [|apply Permutation_sym]; apply full_perm. Qed.
Lemma filter_split : forall x (l1 l2 : list ptr), NoDup (l1 ++ x :: l2) -> filter (fun y => negb (y =? x)) (l1 ++ x :: l2) = l1 ++ l2.
Proof.
  intros x l1 l2 D. rewrite filter_app. cbn. rewrite Z.eqb_refl. cbn.
  assert (N : forall l, ~ In x l -> filter (fun y => negb (y =? x)) l = l).
  { intros l NI. apply filter_all. intros y I. destruct (Z.eqb_spec y x); [subst; contradiction | reflexivity]. }
  pose proof (NoDup_remove_2 _ _ _ D) as NI. rewrite !N; [reflexivity| |]; intros I; apply NI; apply in_or_app; auto.
Qed.
Lemma filter_out : forall x (l : list ptr), ~ In x l -> filter (fun y => negb (y =? x)) l = l.
Proof. intros x l NI. apply filter_all. intros y I. destruct (Z.eqb_spec y x); [subst; contradiction | reflexivity]. Qed.

(** Known pointers of a collection after detaching. *)
Lemma detach_perm : forall x A, In x (nodes A) -> NoDup (known A) -> Permutation (known A) (known (detach x A)).
Proof.
  intros x A I D. unfold nodes in I. apply in_app_or in I. rewrite !known_eq in *. unfold detach. cbn [lists loose].
  assert (M : forall ls : list (ptr * ptr * list ptr), ~ In x (flat_map snd ls) -> map (fun e => (fst e, filter (fun y => negb (y =? x)) (snd e))) ls = ls).
  { induction ls as [|[[a z] l] ls IH]; intros N; [reflexivity|]. cbn in N |- *. rewrite filter_out by (intros J; apply N; apply in_or_app; auto).
    rewrite IH; [reflexivity | intros J; apply N; apply in_or_app; auto]. }
  destruct I as [I|I].
  - rewrite (filter_out x (loose A)).
    2:{ apply in_flat_map in I. destruct I as (e & I1 & I2). eapply loose_disj; [rewrite known_eq; exact D | exact I1 | right; right; exact I2]. }
    apply in_flat_map in I. destruct I as ([[a z] l] & I1 & I2). cbn in I2.
    apply in_split in I1. destruct I1 as (L1 & L2 & E). rewrite E in *.
    apply in_split in I2. destruct I2 as (l1 & l2 & ->).
    rewrite map_app. cbn [map fst snd].
    rewrite (M L1), (M L2).
    + rewrite filter_split.
      * rewrite !flat_map_app. cbn [flat_map ptrs fst snd]. unfold ptrs at 2 5. cbn [fst snd].
        rewrite <- !app_assoc. apply Permutation_app_head. cbn. do 2 apply perm_skip. rewrite <- !app_assoc.
        apply Permutation_app_head. cbn.
        rewrite !app_assoc. apply Permutation_middle.
      * apply NoDup_app_l in D. rewrite flat_map_app in D. apply NoDup_app_r in D. cbn [flat_map] in D. apply NoDup_app_l in D.
        inversion D as [|? ? _ D2]; subst. inversion D2; subst. assumption.
    + intros J. apply in_flat_map in J. destruct J as (e & J1 & J2). apply NoDup_app_l in D. rewrite flat_map_app in D. apply NoDup_app_r in D. cbn [flat_map] in D.
      eapply (NoDup_app_disj _ _ _ x D).
      * right. right. apply in_elt.
      * apply in_flat_map. exists e. split; [exact J1 | right; right; exact J2].
    + intros J. apply in_flat_map in J. destruct J as (e & J1 & J2). apply NoDup_app_l in D. rewrite flat_map_app in D. 
      eapply (NoDup_app_disj _ _ _ x D).
      * apply in_flat_map. exists e. split; [exact J1 | right; right; exact J2].
      * cbn [flat_map]. apply in_or_app. left. right. right. apply in_elt.
  - rewrite M.
    2:{ intros J. apply in_flat_map in J. destruct J as (e & J1 & J2). eapply loose_disj; [rewrite known_eq; exact D | exact J1 | right; right; exact J2 | exact I]. }
    apply Permutation_app_head. apply in_split in I. destruct I as (l1 & l2 & E). rewrite E in *.
    rewrite filter_split by (eapply NoDup_app_r; exact D). apply Permutation_sym, Permutation_middle.
Qed.

Lemma remove_repr : forall h A x, repr h A -> In x (nodes A) -> repr (remove_from_list h x) (detach x A).
Proof.
  intros h A x [RD RN RL RO] I. pose proof (detach_perm x A I RD) as PM.
  assert (D' : NoDup (known (detach x A))) by (eapply Permutation_NoDup; eassumption).
  unfold nodes in I. apply in_app_or in I. destruct I as [I|I].
  - apply in_flat_map in I. destruct I as ([[a z] l] & I1 & I2). cbn in I2.
    apply in_split in I2. destruct I2 as (l1 & l2 & ->).
    pose proof (full_nodup _ _ _ _ RD I1) as FD. pose proof (RL _ _ _ I1) as FL.
    (* neighbours *)
    assert (EX : exists L p q R, a :: (l1 ++ x :: l2) ++ [z] = L ++ p :: x :: q :: R /\ a :: (l1 ++ l2) ++ [z] = L ++ p :: q :: R).
    { assert (E1 : exists L p, a :: l1 = L ++ [p]) by (destruct (exists_last (l := a :: l1)) as (L & p & E); [discriminate | exists L, p; exact E]).
      assert (E2 : exists q R, l2 ++ [z] = q :: R) by (destruct l2; eexists; eexists; reflexivity).
      destruct E1 as (L & p & E1), E2 as (q & R & E2). exists L, p, q, R. split.
      - rewrite <- app_assoc. cbn [app]. rewrite E2. change (a :: l1 ++ x :: q :: R) with ((a :: l1) ++ x :: q :: R). rewrite E1, <- app_assoc. reflexivity.
      - rewrite <- app_assoc, E2. change (a :: l1 ++ q :: R) with ((a :: l1) ++ q :: R). rewrite E1, <- app_assoc. reflexivity. }
    destruct EX as (L & p & q & R & E1 & E2).
    assert (NB : nxt h x = q /\ prv h x = p /\ p <> x).
    { rewrite E1 in FL, FD. apply linked_app in FL. destruct FL as [_ FL]. cbn in FL. destruct FL as (F1 & F2 & F3 & F4 & _). repeat split; auto.
      intros ->. apply NoDup_app_r in FD. inversion FD; subst. cbn in *; tauto. }
    destruct NB as (N1 & N2 & N3). rewrite (remove_unlink h p x q N1 N2 N3).
    assert (PI : In p (ptrs (a, z, l1 ++ x :: l2)) /\ In q (ptrs (a, z, l1 ++ x :: l2)) /\ In x (ptrs (a, z, l1 ++ x :: l2))).
    { rewrite <- !in_full, E1. repeat split; apply in_or_app; right; cbn; tauto. }
    destruct PI as (PI1 & PI2 & PI3).
    assert (OUT : forall y, ~ In y (ptrs (a, z, l1 ++ x :: l2)) -> nxt (unlink h p x q) y = nxt h y /\ prv (unlink h p x q) y = prv h y).
    { intros y NY. unfold unlink. hp. destruct (Z.eqb_spec y x); [subst; contradiction|]. destruct (Z.eqb_spec y p); [subst; contradiction|]. destruct (Z.eqb_spec y q); [subst; contradiction|]. auto. }
    constructor; [exact D' | intros J; apply RN; eapply Permutation_in; [apply Permutation_sym, PM | exact J] | |].
    + intros a' z' l' J. unfold detach in J. cbn [lists] in J. apply in_map_iff in J. destruct J as ([[a0 z0] l0] & J1 & J2). cbn in J1. injection J1 as <- <- <-.
      destruct (in_dec Z.eq_dec x l0) as [X|X].
      * assert (EQ : (a0, z0, l0) = (a, z, l1 ++ x :: l2)) by (eapply full_disj; [exact RD | exact J2 | exact I1 | right; right; exact X | exact PI3]).
        injection EQ as -> -> ->. rewrite filter_split, E2.
        2:{ inversion FD as [|? ? _ FD2]; subst. apply NoDup_app_l in FD2. exact FD2. }
        apply linked_unlink; rewrite <- E1; assumption.
      * rewrite filter_out by exact X. eapply linked_same; [|apply RL, J2]. intros y Y. apply OUT. intros Y2.
        apply in_full in Y. assert (EQ : (a0, z0, l0) = (a, z, l1 ++ x :: l2)) by exact (full_disj _ _ _ _ RD J2 I1 Y Y2). injection EQ as -> -> ->. apply X. apply in_elt.
    + unfold detach. cbn [loose]. intros y [->|Y].
      * unfold unlink. hp. rewrite !Z.eqb_refl. auto.
      * apply filter_In in Y. destruct Y as [Y _]. destruct (OUT y) as [-> ->]; [|apply RO, Y].
        intros Y2. exact (loose_disj _ _ _ RD I1 Y2 Y).
  - destruct (RO _ I) as [S1 S2].
    constructor; [exact D' | intros J; apply RN; eapply Permutation_in; [apply Permutation_sym, PM | exact J] | |].
    + intros a' z' l' J. unfold detach in J. cbn [lists] in J. apply in_map_iff in J. destruct J as ([[a0 z0] l0] & J1 & J2). cbn in J1. injection J1 as <- <- <-.
      rewrite filter_out.
      2:{ intros X. eapply loose_disj; [exact RD | exact J2 | right; right; exact X | exact I]. }
      eapply linked_same; [|apply RL, J2]. intros y _. apply remove_loose; assumption.
    + unfold detach. cbn [loose]. intros y Y. destruct (remove_loose h x y S1 S2) as [-> ->]. apply RO. destruct Y as [<-|Y]; [exact I|]. apply filter_In in Y. apply Y.
Qed.

Lemma content_in : forall A a z l, content A a z = Some l -> In (a, z, l) (lists A).
Proof.
  intros A a z l H. unfold content in H. destruct (find _ (lists A)) as [[[a' z'] l']|] eqn:F; [|discriminate].
  apply find_some in F. destruct F as [F1 F2]. cbn in F2. apply andb_prop in F2. destruct F2 as [F2 F3].
  apply Z.eqb_eq in F2. apply Z.eqb_eq in F3. subst. injection H as <-. exact F1.
Qed.
Lemma mem_in : forall x l, mem x l = true <-> In x l.
Proof. intros x l. unfold mem. rewrite existsb_exists. split; [intros (y & I & E); apply Z.eqb_eq in E; subst; exact I | intros I; exists x; split; [exact I | apply Z.eqb_refl]]. Qed.
Lemma mem_nin : forall x l, mem x l = false -> ~ In x l.
Proof. intros x l E I. apply mem_in in I. congruence. Qed.
Lemma update_split : forall A a z l f, NoDup (known A) -> In (a, z, l) (lists A) ->
  exists L1 L2, lists A = L1 ++ (a, z, l) :: L2 /\ update a f (lists A) = L1 ++ (a, z, f l) :: L2.
Proof.
  intros A a z l f D I. assert (U : forall e, In e (lists A) -> fst (fst e) = a -> e = (a, z, l)).
  { intros e J E. eapply full_disj; [exact D | exact J | exact I | left; exact E | left; reflexivity]. }
  rewrite known_eq in D. apply NoDup_app_l in D.
  apply in_split in I. destruct I as (L1 & L2 & E). exists L1, L2. split; [exact E|]. rewrite E in *. unfold update. rewrite map_app. cbn [map fst snd]. rewrite Z.eqb_refl.
  assert (M : forall ls : list (ptr * ptr * list ptr), (forall e, In e ls -> fst (fst e) <> a) -> map (fun e => if fst (fst e) =? a then (fst e, f (snd e)) else e) ls = ls).
  { induction ls as [|e ls IH]; intros H; [reflexivity|]. cbn. destruct (Z.eqb_spec (fst (fst e)) a) as [X|X]; [exfalso; exact (H e (or_introl eq_refl) X)|].
    rewrite IH; [reflexivity | intros e' J; apply H; right; exact J]. }
  rewrite flat_map_app in D. cbn [flat_map] in D. rewrite !M; [reflexivity| |].
  - intros e J X. assert (In (fst (fst e)) (ptrs e)) by (left; reflexivity).
    apply NoDup_app_r in D. refine (NoDup_app_disj _ _ _ a D _ _); [left; reflexivity|]. apply in_flat_map. exists e. subst a. auto.
  - intros e J X. assert (In (fst (fst e)) (ptrs e)) by (left; reflexivity).
    refine (NoDup_app_disj _ _ _ a D _ _); [apply in_flat_map; exists e; subst a; auto|]. left. reflexivity.
Qed.

(** insertion before the tail sentinel, given the last node [t] *)
Definition inslast (h : heap) (t x z : ptr) : heap := setp (setn (setp (setn h t x) x t) x z) z x.
Lemma linked_inslast : forall h L t z x, NoDup (L ++ [t; z; x]) -> linked h (L ++ [t; z]) -> linked (inslast h t x z) (L ++ [t; x; z]).
Proof.
  intros h L t z x D H.
  assert (NR : ~ In t L /\ ~ In z L /\ ~ In x L /\ t <> z /\ t <> x /\ z <> x).
  { pose proof (NoDup_app_r _ _ _ D) as D2. inversion D2 as [|? ? A1 D3]; subst. inversion D3 as [|? ? A2 D4]; subst.
    assert (X : forall y, In y L -> ~ In y [t; z; x]) by (intros y; apply NoDup_app_disj; exact D).
    repeat split; try (intros I; specialize (X _ I); cbn in X; tauto); cbn in *; try tauto; intros ->; cbn in *; tauto. }
  destruct NR as (M1 & M2 & M3 & M4 & M5 & M6).
  apply linked_app in H. destruct H as [H1 H2]. cbn in H2. destruct H2 as (N & P & _).
  apply linked_app. split.
  - eapply linked_ext; [| |exact H1]; intros y I; unfold inslast; hp.
    + rewrite removelast_last in I. destruct (Z.eqb_spec y x); [subst; contradiction|]. destruct (Z.eqb_spec y t); [subst; contradiction | reflexivity].
    + assert (J : In y (L ++ [t])) by (destruct (L ++ [t]); [contradiction | right; exact I]). apply in_app_iff in J. cbn in J.
      destruct (Z.eqb_spec y z); [subst; destruct J as [J|[J|[]]]; congruence|]. destruct (Z.eqb_spec y x); [subst; destruct J as [J|[J|[]]]; congruence | reflexivity].
  - unfold inslast. cbn [linked]. hp. rewrite !Z.eqb_refl.
    destruct (Z.eqb_spec t x); [congruence|]. destruct (Z.eqb_spec x z); [congruence|]. auto.
Qed.

Lemma push_repr : forall h A a z l x, repr h A -> content A a z = Some l -> In x (nodes A) ->
  repr (push_back h a z x) (mkabs (update a (fun l => l ++ [x]) (lists (detach x A))) (filter (fun y => negb (y =? x)) (loose A))).
Proof.
  intros h A a z l x R C I. apply content_in in C. pose proof (remove_repr h A x R I) as R1.
  unfold push_back. set (h1 := remove_from_list h x) in *.
  assert (C1 : In (a, z, filter (fun y => negb (y =? x)) l) (lists (detach x A))).
  { unfold detach. cbn [lists]. apply in_map_iff. exists (a, z, l). auto. }
  set (l1 := filter (fun y => negb (y =? x)) l) in *. set (B := detach x A) in *.
  destruct R1 as [RD RN RL RO].
  assert (LB : loose B = x :: filter (fun y => negb (y =? x)) (loose A)) by reflexivity.
  destruct (exists_last (l := a :: l1)) as (L & t & E); [discriminate|].
  pose proof (RL _ _ _ C1) as FL. pose proof (full_nodup _ _ _ _ RD C1) as FD.
  assert (E2 : a :: l1 ++ [z] = L ++ [t; z]) by (change (a :: l1 ++ [z]) with ((a :: l1) ++ [z]); rewrite E, <- app_assoc; reflexivity).
  rewrite E2 in FL, FD.
  assert (PT : prv h1 z = t) by (apply linked_app in FL; destruct FL as [_ FL]; cbn in FL; tauto).
  assert (NX : ~ In x (ptrs (a, z, l1))).
  { intros J. eapply loose_disj; [exact RD | exact C1 | exact J | rewrite LB; left; reflexivity]. }
  assert (XF : ~ In x (L ++ [t; z])) by (rewrite <- E2; intros J; apply in_full in J; contradiction).
  assert (HI : setp (setn (setp (setn h1 (prv h1 z) x) x (prv (setn h1 (prv h1 z) x) z)) x z) z x = inslast h1 t x z).
  { unfold inslast. rewrite prv_setn, PT. reflexivity. }
  cbv zeta. rewrite HI.
  destruct (update_split B a z l1 (fun l => l ++ [x]) RD C1) as (U1 & U2 & UE & UU). rewrite UU.
  set (B' := mkabs _ _).
  assert (PM : Permutation (known B) (known B')).
  { rewrite !known_eq. unfold B'. cbn [lists loose]. rewrite LB, UE. rewrite !flat_map_app. cbn [flat_map]. unfold ptrs at 2 5. cbn [fst snd].
    rewrite <- !app_assoc. apply Permutation_app_head. cbn. do 2 apply perm_skip. rewrite <- !app_assoc. apply Permutation_app_head. cbn.
    apply Permutation_sym, Permutation_middle. }
  assert (TI : In t (ptrs (a, z, l1))) by (apply in_full; rewrite E2; apply in_or_app; right; left; reflexivity).
  assert (ZI : In z (ptrs (a, z, l1))) by (right; left; reflexivity).
  assert (OUT : forall y, y <> x -> ~ In y (ptrs (a, z, l1)) -> nxt (inslast h1 t x z) y = nxt h1 y /\ prv (inslast h1 t x z) y = prv h1 y).
  { intros y NY NI. unfold inslast. hp. destruct (Z.eqb_spec y x); [contradiction|]. destruct (Z.eqb_spec y z); [subst; contradiction|]. destruct (Z.eqb_spec y t); [subst; contradiction|]. auto. }
  constructor.
  - eapply Permutation_NoDup; eassumption.
  - intros J. apply RN. eapply Permutation_in; [apply Permutation_sym, PM | exact J].
  - unfold B'. cbn [lists]. intros a' z' l' J.
    assert (OTH : In (a', z', l') (lists B) -> (a', z', l') <> (a, z, l1) -> linked (inslast h1 t x z) (a' :: l' ++ [z'])).
    { intros J1 J2. eapply linked_same; [|apply RL, J1]. intros y Y. apply in_full in Y. apply OUT.
      - intros ->. eapply loose_disj; [exact RD | exact J1 | exact Y | rewrite LB; left; reflexivity].
      - intros Y2. apply J2. exact (full_disj _ _ _ _ RD J1 C1 Y Y2). }
    assert (ND : forall e, In e U1 \/ In e U2 -> In e (lists B) /\ e <> (a, z, l1)).
    { intros e Q. split; [rewrite UE; apply in_or_app; cbn; tauto|]. intros ->. rewrite known_eq in RD. apply NoDup_app_l in RD. rewrite UE, flat_map_app in RD. cbn [flat_map] in RD.
      assert (AI : In a (ptrs (a, z, l1))) by (left; reflexivity).
      destruct Q as [Q|Q].
      - refine (NoDup_app_disj _ _ _ a RD _ _); [apply in_flat_map; exists (a, z, l1); auto | apply in_or_app; left; exact AI].
      - apply NoDup_app_r in RD. refine (NoDup_app_disj _ _ _ a RD AI _). apply in_flat_map. exists (a, z, l1). auto. }
    apply in_app_or in J. destruct J as [J|[J|J]].
    + destruct (ND _ (or_introl J)). apply OTH; assumption.
    + injection J as <- <- <-. rewrite <- app_assoc. cbn [app].
      change (a :: l1 ++ [x; z]) with ((a :: l1) ++ [x; z]). rewrite E, <- app_assoc. cbn [app].
      apply linked_inslast; [|exact FL]. eapply Permutation_NoDup with (l := x :: L ++ [t; z]).
      * rewrite (Permutation_cons_append (L ++ [t; z]) x), <- app_assoc. reflexivity.
      * constructor; assumption.
    + destruct (ND _ (or_intror J)). apply OTH; assumption.
  - unfold B'. cbn [loose]. intros y Y. assert (YX : y <> x) by (apply filter_In in Y; destruct Y as [_ Y]; intros ->; rewrite Z.eqb_refl in Y; discriminate).
    destruct (OUT y YX) as [-> ->].
    + intros J. eapply loose_disj; [exact RD | exact C1 | exact J | rewrite LB; right; exact Y].
    + apply RO. rewrite LB. right. exact Y.
Qed.

(** A pair of lists (one empty) exchanged by relinking the ends. *)
Lemma linked_relink : forall h h' a b z w l, l <> [] -> ~ In a l -> ~ In b l -> ~ In z l -> ~ In w l ->
  linked h (b :: l ++ [w]) ->
  nxt h' a = nxt h b -> prv h' (nxt h b) = a -> prv h' z = prv h w -> nxt h' (prv h w) = z ->
  (forall y, In y l -> y <> prv h w -> nxt h' y = nxt h y) ->
  (forall y, In y l -> y <> nxt h b -> prv h' y = prv h y) ->
  NoDup l -> linked h' (a :: l ++ [z]).
Proof.
  intros h h' a b z w l NE A1 A2 A3 A4 L H1 H2 H3 H4 H5 H6 D.
  destruct l as [|y0 l]; [congruence|]. cbn [app linked] in L. destruct L as (N & P & L). cbn [app linked].
  rewrite N in H1, H2, H6. split; [exact H1|]. split; [exact H2|].
  destruct (exists_last (l := y0 :: l)) as (l' & y1 & E); [discriminate|].
  change (linked h ((y0 :: l) ++ [w])) in L. change (linked h' ((y0 :: l) ++ [z])). rewrite E in *.
  rewrite <- app_assoc in L. rewrite <- app_assoc. cbn [app] in *. apply linked_app in L. destruct L as [L1 L2]. cbn in L2. destruct L2 as (N1 & P1 & _).
  rewrite P1 in *. apply linked_app. split; [|cbn; auto].
  eapply linked_ext; [| |exact L1]; intros y I.
  - rewrite removelast_last in I. apply H5; [apply in_or_app; auto|]. intros ->.
    apply NoDup_remove_2 in D. apply D. rewrite app_nil_r. exact I.
  - apply H6.
    + destruct (l' ++ [y1]); [contradiction | right; exact I].
    + intros ->. rewrite <- E in *. cbn in I. inversion D; contradiction.
Qed.

Lemma splice_repr : forall h A ra rz ya yz y ys, repr h A -> content A ra rz = Some [] -> content A ya yz = Some (y :: ys) ->
  repr (splice h ra rz ya yz) (mkabs (update ra (fun _ => y :: ys) (update ya (fun _ => []) (lists A))) (loose A)).
Proof.
  intros h A ra rz ya yz y ys [RD RN RL RO] C1 C2. apply content_in in C1. apply content_in in C2.
  set (l := y :: ys) in *.
  assert (DIF : (ra, rz, []) <> (ya, yz, l)) by (unfold l; congruence).
  pose proof (full_nodup _ _ _ _ RD C1) as D1. pose proof (full_nodup _ _ _ _ RD C2) as D2.
  assert (SEP : forall u v, In u (ptrs (ra, rz, [])) -> In v (ptrs (ya, yz, l)) -> u <> v).
  { intros u v I J ->. apply DIF. exact (full_disj _ _ _ _ RD C1 C2 I J). }
  assert (S1 : forall v, In v (ptrs (ya, yz, l)) -> v <> ra /\ v <> rz).
  { intros v J. split; intros ->; (eapply SEP; [|exact J|reflexivity]); cbn; tauto. }
  assert (Q : ra <> rz). { cbn in D1. inversion D1; subst. cbn in *. intros ->. tauto. }
  assert (Q2 : ya <> yz /\ ~ In ya l /\ ~ In yz l /\ NoDup l).
  { apply NoDup_cons_iff in D2. destruct D2 as [X1 X2]. repeat split.
    - intros ->. apply X1. apply in_or_app. right. left. reflexivity.
    - intros I. apply X1. apply in_or_app. auto.
    - intros I. eapply (NoDup_app_disj _ _ _ yz X2 I). left. reflexivity.
    - eapply NoDup_app_l. exact X2. }
  destruct Q2 as (Q2 & Q3 & Q4 & Q5).
  pose proof (RL _ _ _ C2) as FL.
  assert (F1 : nxt h ya = y) by (unfold l in FL; cbn in FL; tauto).
  destruct (exists_last (l := l)) as (l' & t & E); [discriminate|].
  assert (F2 : prv h yz = t).
  { rewrite E, <- app_assoc in FL. change (ya :: l' ++ [t] ++ [yz]) with ((ya :: l') ++ t :: [yz]) in FL. apply linked_app in FL. cbn in FL. tauto. }
  assert (YI : In y l) by (left; reflexivity). assert (TI : In t l) by (rewrite E; apply in_or_app; right; left; reflexivity).
  assert (LP : forall v, In v l -> In v (ptrs (ya, yz, l))) by (intros v I; right; right; exact I).
  destruct (S1 ya) as [Sa Sb]; [left; reflexivity|]. destruct (S1 yz) as [Sc Sd]; [right; left; reflexivity|].
  destruct (S1 y (LP _ YI)) as [Se Sf]. destruct (S1 t (LP _ TI)) as [Sg Sh].
  assert (Si : y <> ya /\ y <> yz /\ t <> ya /\ t <> yz) by (repeat split; intros X; rewrite X in *; contradiction).
  destruct Si as (Si & Sj & Sk & Sl).
  (* the resulting heap *)
  set (h' := splice h ra rz ya yz).
  assert (HN : forall p, nxt h' p = if p =? ya then yz else if p =? t then rz else if p =? ra then y else nxt h p).
  { intros p. unfold h', splice. hp. rewrite ?F1, ?F2, ?Z.eqb_refl.
    destruct (Z.eqb_spec yz y); [congruence|]. reflexivity. }
  assert (HP : forall p, prv h' p = if p =? yz then ya else if p =? rz then t else if p =? y then ra else prv h p).
  { intros p. unfold h', splice. hp. rewrite ?F1, ?F2, ?Z.eqb_refl.
    destruct (Z.eqb_spec yz y); [congruence|]. reflexivity. }
  assert (OUT : forall p, ~ In p (ptrs (ra, rz, [])) -> ~ In p (ptrs (ya, yz, l)) -> nxt h' p = nxt h p /\ prv h' p = prv h p).
  { intros p I J. rewrite HN, HP. cbn in I, J.
    destruct (Z.eqb_spec p ya); [subst; tauto|]. destruct (Z.eqb_spec p t); [subst; cbn in TI; tauto|]. destruct (Z.eqb_spec p ra); [subst; tauto|].
    destruct (Z.eqb_spec p yz); [subst; tauto|]. destruct (Z.eqb_spec p rz); [subst; tauto|]. destruct (Z.eqb_spec p y); [subst; tauto|]. auto. }
  destruct (update_split A ya yz l (fun _ => []) RD C2) as (U1 & U2 & UE & UU).
  set (A1 := mkabs (update ya (fun _ => []) (lists A)) (l ++ loose A)).
  assert (PM1 : Permutation (known A) (known A1)).
  { rewrite !known_eq. unfold A1. cbn [lists loose]. rewrite UU, UE, !flat_map_app. cbn [flat_map]. unfold ptrs at 2 5. cbn [fst snd].
    rewrite <- !app_assoc. apply Permutation_app_head. cbn [app]. do 2 apply perm_skip.
    rewrite !app_assoc. apply Permutation_app_tail. apply Permutation_app_comm. }
  assert (D1' : NoDup (known A1)) by (eapply Permutation_NoDup; eassumption).
  assert (C1' : In (ra, rz, []) (lists A1)).
  { unfold A1. cbn [lists]. rewrite UU. rewrite UE in C1. apply in_app_or in C1. apply in_or_app. destruct C1 as [C|[C|C]]; [left; exact C | congruence | right; right; exact C]. }
  destruct (update_split A1 ra rz [] (fun _ => l) D1' C1') as (V1 & V2 & VE & VU).
  change (lists A1) with (update ya (fun _ => []) (lists A)) in VU, VE. fold l. rewrite VU.
  assert (PM : Permutation (known A1) (known (mkabs (V1 ++ (ra, rz, l) :: V2) (loose A)))).
  { rewrite !known_eq. cbn [lists loose]. unfold A1 at 1 2. cbn [lists loose]. rewrite VE, !flat_map_app. cbn [flat_map]. unfold ptrs at 2 5. cbn [fst snd].
    rewrite <- !app_assoc. apply Permutation_app_head. cbn [app]. do 2 apply perm_skip.
    rewrite !app_assoc. apply Permutation_app_tail. apply Permutation_app_comm. }
  constructor.
  - eapply Permutation_NoDup; eassumption.
  - intros J. apply RN. eapply Permutation_in; [apply Permutation_sym, PM1|]. eapply Permutation_in; [apply Permutation_sym, PM | exact J].
  - cbn [lists]. intros a z m J.
    assert (CASES : (a, z, m) = (ra, rz, l) \/ (a, z, m) = (ya, yz, []) \/ (In (a, z, m) (lists A) /\ (a, z, m) <> (ra, rz, []) /\ (a, z, m) <> (ya, yz, l))).
    { apply in_app_or in J. 
      assert (J2 : (a, z, m) = (ra, rz, l) \/ ((a, z, m) <> (ra, rz, []) /\ In (a, z, m) (update ya (fun _ => []) (lists A)))).
      { assert (ND : forall e, In e V1 \/ In e V2 -> e <> (ra, rz, [])).
        { intros e Z ->. rewrite known_eq in D1'. unfold A1 in D1'. cbn [lists loose] in D1'. apply NoDup_app_l in D1'. rewrite VE, flat_map_app in D1'. cbn [flat_map] in D1'.
          assert (AI : In ra (ptrs (ra, rz, []))) by (left; reflexivity).
          destruct Z as [Z|Z].
          - refine (NoDup_app_disj _ _ _ ra D1' _ _); [apply in_flat_map; exists (ra, rz, []); auto | apply in_or_app; left; exact AI].
          - apply NoDup_app_r in D1'. refine (NoDup_app_disj _ _ _ ra D1' AI _). apply in_flat_map. exists (ra, rz, []). auto. }
        rewrite VE. destruct J as [J|[J|J]]; [right | left; auto | right]; split; try (apply ND; auto); apply in_or_app; cbn; auto. }
      destruct J2 as [J2|[J2 J3]]; [left; exact J2|]. right. rewrite UU in J3. rewrite UE.
      assert (ND : forall e, In e U1 \/ In e U2 -> e <> (ya, yz, l)).
      { intros e Z ->. rewrite known_eq in RD. apply NoDup_app_l in RD. rewrite UE, flat_map_app in RD. cbn [flat_map] in RD.
        assert (AI : In ya (ptrs (ya, yz, l))) by (left; reflexivity).
        destruct Z as [Z|Z].
        - refine (NoDup_app_disj _ _ _ ya RD _ _); [apply in_flat_map; exists (ya, yz, l); auto | apply in_or_app; left; exact AI].
        - apply NoDup_app_r in RD. refine (NoDup_app_disj _ _ _ ya RD AI _). apply in_flat_map. exists (ya, yz, l). auto. }
      apply in_app_or in J3. destruct J3 as [J3|[J3|J3]]; [right | left; auto | right]; (split; [apply in_or_app; cbn; auto | split; [exact J2 | apply ND; auto]]). }
    destruct CASES as [EQ|[EQ|(I1 & N1 & N2)]].
    + injection EQ as -> -> ->.
      apply (linked_relink h h' ra ya rz yz l); [discriminate| | exact Q3 | | exact Q4 | exact FL | | | | | | | exact Q5].
      * intros I. destruct (S1 ra (LP _ I)). congruence.
      * intros I. destruct (S1 rz (LP _ I)). congruence.
      * rewrite HN, F1. destruct (Z.eqb_spec ra ya); [congruence|]. destruct (Z.eqb_spec ra t); [congruence|]. rewrite Z.eqb_refl. reflexivity.
      * rewrite HP, F1. destruct (Z.eqb_spec y yz); [congruence|]. destruct (Z.eqb_spec y rz); [congruence|]. rewrite Z.eqb_refl. reflexivity.
      * rewrite HP, F2. destruct (Z.eqb_spec rz yz); [congruence|]. rewrite Z.eqb_refl. reflexivity.
      * rewrite HN, F2. destruct (Z.eqb_spec t ya); [congruence|]. rewrite Z.eqb_refl. reflexivity.
      * intros v I NV. rewrite F2 in NV. rewrite HN. destruct (Z.eqb_spec v ya); [subst; contradiction|]. destruct (Z.eqb_spec v t); [congruence|].
        destruct (Z.eqb_spec v ra); [destruct (S1 v (LP _ I)); congruence | reflexivity].
      * intros v I NV. rewrite F1 in NV. rewrite HP. destruct (Z.eqb_spec v yz); [subst; contradiction|].
        destruct (Z.eqb_spec v rz); [destruct (S1 v (LP _ I)); congruence|]. destruct (Z.eqb_spec v y); [congruence | reflexivity].
    + injection EQ as -> -> ->. cbn [app linked]. rewrite HN, HP, !Z.eqb_refl. auto.
    + eapply linked_same; [|apply RL, I1]. intros v V. apply in_full in V. apply OUT; intros W2.
      * apply N1. exact (full_disj _ _ _ _ RD I1 C1 V W2).
      * apply N2. exact (full_disj _ _ _ _ RD I1 C2 V W2).
  - cbn [loose]. intros v V. destruct (OUT v) as [-> ->]; [| |apply RO, V]; intros W2; [exact (loose_disj _ _ _ RD C1 W2 V) | exact (loose_disj _ _ _ RD C2 W2 V)].
Qed.

Lemma first_node : forall h A a z l, repr h A -> content A a z = Some l -> nxt h a = hd z l.
Proof.
  intros h A a z l [RD RN RL RO] C. apply content_in in C. pose proof (RL _ _ _ C) as FL. destruct l; cbn in FL |- *; tauto.
Qed.

Lemma step_repr : forall h A o A' r, repr h A -> astep A o = Some (A', r) ->
  repr (fst (cstep h o)) A' /\ snd (cstep h o) = r.
Proof.
  intros h A o A' r R E. destruct o as [a z|x|a z x|a z|x|a z|ra rz ya yz]; cbn [astep cstep] in *.
  - destruct (Z.eqb_spec a NULL); [discriminate|]. destruct (Z.eqb_spec z NULL); [discriminate|]. destruct (Z.eqb_spec a z) as [|NE]; [discriminate|].
    destruct (mem a (known A)) eqn:MA; [discriminate|]. destruct (mem z (known A)) eqn:MZ; [discriminate|]. cbn [orb] in E. injection E as <- <-.
    apply mem_nin in MA. apply mem_nin in MZ. split; [|reflexivity]. destruct R as [RD RN RL RO]. cbn [fst].
    assert (OUT : forall y, In y (known A) -> nxt (colist_init h a z) y = nxt h y /\ prv (colist_init h a z) y = prv h y).
    { intros y I. unfold colist_init. hp. destruct (Z.eqb_spec y a); [subst; contradiction|]. destruct (Z.eqb_spec y z); [subst; contradiction|]. auto. }
    constructor.
    + rewrite known_eq. cbn [lists flat_map app]. unfold ptrs at 1. cbn [fst snd app]. constructor; [|constructor; assumption].
      intros [J|J]; [congruence | contradiction].
    + rewrite known_eq. cbn. intros [J|[J|J]]; [congruence | congruence | contradiction].
    + cbn [lists]. intros a' z' l' [J|J].
      * injection J as <- <- <-. cbn. unfold colist_init. hp. rewrite !Z.eqb_refl. destruct (Z.eqb_spec a z); [congruence|]. auto.
      * eapply linked_same; [|apply RL, J]. intros y Y. apply OUT. apply in_full in Y. eapply known_in; eassumption.
    + cbn [loose]. intros y Y. destruct (OUT y) as [-> ->]; [|apply RO, Y]. rewrite known_eq. apply in_or_app. auto.
  - destruct (Z.eqb_spec x NULL); [discriminate|]. destruct (mem x (known A)) eqn:MX; [discriminate|]. cbn [orb] in E. injection E as <- <-.
    apply mem_nin in MX. split; [|reflexivity]. destruct R as [RD RN RL RO]. cbn [fst].
    assert (OUT : forall y, In y (known A) -> nxt (node_init h x) y = nxt h y /\ prv (node_init h x) y = prv h y).
    { intros y I. unfold node_init. hp. destruct (Z.eqb_spec y x); [subst; contradiction|]. auto. }
    assert (PM : Permutation (x :: known A) (known (mkabs (lists A) (x :: loose A)))) by (rewrite !known_eq; cbn [lists loose]; apply Permutation_middle).
    constructor.
    + eapply Permutation_NoDup; [exact PM|]. constructor; assumption.
    + intros J. apply (Permutation_in _ (Permutation_sym PM)) in J. destruct J as [J|J]; [congruence | contradiction].
    + cbn [lists]. intros a' z' l' J. eapply linked_same; [|apply RL, J]. intros y Y. apply OUT. apply in_full in Y. eapply known_in; eassumption.
    + cbn [loose]. intros y [<-|Y].
      * unfold node_init. hp. rewrite !Z.eqb_refl. auto.
      * destruct (OUT y) as [-> ->]; [|apply RO, Y]. rewrite known_eq. apply in_or_app. auto.
  - destruct (content A a z) as [l|] eqn:C; [|discriminate]. destruct (mem x (nodes A)) eqn:M; [|discriminate]. injection E as <- <-.
    split; [|reflexivity]. cbn [fst]. eapply push_repr; [exact R | exact C | apply mem_in, M].
  - destruct (content A a z) as [l|] eqn:C; [|discriminate]. unfold pop_front. rewrite (first_node h A a z l R C).
    destruct l as [|x l]; cbn [hd].
    + injection E as <- <-. rewrite Z.eqb_refl. auto.
    + injection E as <- <-. apply content_in in C. destruct (Z.eqb_spec x z) as [->|N].
      * exfalso. pose proof (full_nodup _ _ _ _ (r_nodup _ _ R) C) as D. cbn in D. inversion D as [|? ? _ D2]; subst. inversion D2; subst.
        apply H1. apply in_or_app. right. left. reflexivity.
      * split; [|reflexivity]. cbn [fst]. apply remove_repr; [exact R|]. unfold nodes. apply in_or_app. left. apply in_flat_map. exists (a, z, x :: l). split; [exact C | left; reflexivity].
  - destruct (mem x (nodes A)) eqn:M; [|discriminate]. injection E as <- <-. split; [|reflexivity]. apply remove_repr; [exact R | apply mem_in, M].
  - destruct (content A a z) as [l|] eqn:C; [|discriminate]. unfold is_empty. cbn [fst snd]. rewrite (first_node h A a z l R C).
    destruct l as [|x l]; cbn [hd]; injection E as <- <-.
    + rewrite Z.eqb_refl. auto.
    + destruct (Z.eqb_spec x z) as [->|N]; [|auto]. exfalso. apply content_in in C.
      pose proof (full_nodup _ _ _ _ (r_nodup _ _ R) C) as D. cbn in D. inversion D as [|? ? _ D2]; subst. inversion D2; subst.
      apply H1. apply in_or_app. right. left. reflexivity.
  - destruct (content A ra rz) as [[|]|] eqn:C1; try discriminate. destruct (content A ya yz) as [[|y ys]|] eqn:C2; try discriminate.
    injection E as <- <-. split; [|reflexivity]. cbn [fst]. apply splice_repr; assumption.
Qed.

(** ** The theorems *)
(** C28: for every history of list operations, from any initial memory content,
    the results (popped nodes, emptiness) are those of plain sequences, and the
    memory represents these sequences: both link directions agree with the
    sequence of every list, and nodes in no list link to themselves. *)
Theorem C28_history : forall h0 os A rs, arun (mkabs [] []) os = Some (A, rs) ->
  repr (fst (crun h0 os)) A /\ snd (crun h0 os) = rs.
Proof.
  assert (G : forall os h A A' rs, repr h A -> arun A os = Some (A', rs) -> repr (fst (crun h os)) A' /\ snd (crun h os) = rs).
  { induction os as [|o os IH]; intros h A A' rs R E; cbn [arun crun] in *; [injection E as <- <-; auto|].
    destruct (astep A o) as [[A1 r]|] eqn:S1; [|discriminate]. destruct (arun A1 os) as [[A2 rs2]|] eqn:S2; [|discriminate]. injection E as <- <-.
    destruct (step_repr h A o A1 r R S1) as [R1 E1]. destruct (cstep h o) as [h1 r1]. cbn in R1, E1. subst r1.
    destruct (IH h1 A1 A2 rs2 R1 S2) as [R2 E2]. destruct (crun h1 os) as [h2 rs3]. cbn in *. subst. auto. }
  intros h0 os A rs E. eapply G; [|exact E]. constructor; cbn; [constructor | tauto | tauto | tauto].
Qed.
(** C28: removing a node that is in no list changes no link at all. *)
Theorem C28_remove_loose : forall h A x y, repr h A -> In x (loose A) ->
  nxt (remove_from_list h x) y = nxt h y /\ prv (remove_from_list h x) y = prv h y.
Proof. intros h A x y R I. destruct (r_loose _ _ R x I). apply remove_loose; assumption. Qed.
(** C28: pushing a node onto one list, or removing it, leaves every other list
    that does not hold the node unchanged, link by link. *)
Theorem C28_other_lists : forall h A a z l x a' z' l', repr h A -> content A a z = Some l -> In x (nodes A) ->
  In (a', z', l') (lists A) -> a' <> a -> ~ In x l' ->
  linked (push_back h a z x) (a' :: l' ++ [z']) /\ linked (remove_from_list h x) (a' :: l' ++ [z']).
Proof.
  intros h A a z l x a' z' l' R C I J N X. split.
  - pose proof (push_repr h A a z l x R C I) as P. apply (r_lists _ _ P). cbn [lists]. unfold update, detach. cbn [lists].
    rewrite map_map. apply in_map_iff. exists (a', z', l'). cbn. destruct (Z.eqb_spec a' a); [contradiction|]. rewrite filter_out by exact X. auto.
  - apply (r_lists _ _ (remove_repr h A x R I)). unfold detach. cbn [lists]. apply in_map_iff. exists (a', z', l'). cbn. rewrite filter_out by exact X. auto.
Qed.
(** Two lists, four nodes: push, move between lists, remove, pop, splice. *)
Example C28_case :
  let ops := [NewList 10 11; NewList 20 21; NewNode 1; NewNode 2; NewNode 3; NewNode 4;
              Push 10 11 1; Push 10 11 2; Push 10 11 3; Push 20 21 2; Remove 4; Remove 1; Empty 20 21;
              Pop 20 21; Pop 20 21; Push 10 11 4; Splice 20 21 10 11; Empty 10 11; Pop 20 21] in
  arun (mkabs [] []) ops = Some (mkabs [(20, 21, [4]); (10, 11, [])] [3; 2; 1],
     [0;0;0;0;0;0; 0;0;0;0;0;0; 0; 2; 0; 0; 0; 1; 3]) /\
  snd (crun (mkheap (fun _ => 77) (fun _ => 88)) ops) = [0;0;0;0;0;0; 0;0;0;0;0;0; 0; 2; 0; 0; 0; 1; 3].
Proof. split; reflexivity. Qed.

Print Assumptions C28_history.
Print Assumptions C28_remove_loose.
Print Assumptions C28_other_lists.
