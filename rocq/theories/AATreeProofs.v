(** Proofs about the AA tree: contents. *)
From Coq Require Import List Arith Lia Bool Sorted.
From Verif Require Import AATree AATreeSpec.
Import ListNotations.

Section P.
  Context {A : Type}.
  Variable cmp : A -> A -> comparison.
  Hypothesis G : good_cmp cmp.

  Notation lt := (lt cmp).
  Notation SS := (StronglySorted lt).

  Lemma cmp_gt a b : cmp a b = Gt <-> cmp b a = Lt.
  Proof. rewrite (gc_sym _ G a b). destruct (cmp a b); simpl; split; congruence. Qed.
  Lemma cmp_eq_sym a b : cmp a b = Eq -> cmp b a = Eq.
  Proof. rewrite (gc_sym _ G a b). intros ->; reflexivity. Qed.
  Lemma cmp_eq_r a b c : cmp a b = Eq -> cmp c a = cmp c b.
  Proof. intros H. rewrite (gc_sym _ G a c), (gc_sym _ G b c), (gc_eq_l _ G a b c H); reflexivity. Qed.

  Lemma SS_app l1 l2 : SS (l1 ++ l2) <->
    SS l1 /\ SS l2 /\ (forall a b, In a l1 -> In b l2 -> lt a b).
  Proof.
    induction l1 as [|x l1 IH]; simpl.
    - split; [intros H; repeat split; auto; [constructor|contradiction]|tauto].
    - split.
      + intros H. inversion H as [|? ? H1 H2]; subst. apply IH in H1. destruct H1 as (S1&S2&C).
        rewrite Forall_forall in H2. split; [|split]; auto.
        * constructor; auto. apply Forall_forall. intros; apply H2, in_or_app; auto.
        * intros a b [->|Ha] Hb; [apply H2, in_or_app; auto|auto].
      + intros (S1&S2&C). inversion S1 as [|? ? S1' F]; subst. constructor.
        * apply IH. repeat split; auto.
        * rewrite Forall_forall in *. intros y Hy. apply in_app_or in Hy as [Hy|Hy]; auto.
  Qed.

  Lemma SS_cons x l : SS (x :: l) <-> SS l /\ (forall b, In b l -> lt x b).
  Proof.
    split.
    - intros H; inversion H; subst. rewrite Forall_forall in *. auto.
    - intros [H1 H2]; constructor; auto. apply Forall_forall; auto.
  Qed.

  Lemma skew_elements (t : tree A) : elements (skew t) = elements t.
  Proof.
    destruct t as [|v [|lv ll lx lr] x r]; auto. simpl.
    destruct (lv =? v); simpl; auto. now rewrite <- app_assoc.
  Qed.
  Lemma split_elements (t : tree A) : elements (split t) = elements t.
  Proof.
    destruct t as [|v l x [|rv rl rx [|? ? ? ?]]]; auto. simpl.
    destruct (_ =? v); simpl; auto. now rewrite <- app_assoc.
  Qed.
  Lemma set_lvl_elements n t : elements (set_lvl n t) = elements (A:=A) t.
  Proof. destruct t; reflexivity. Qed.
  Lemma decrease_elements t : elements (decrease_level t) = elements (A:=A) t.
  Proof.
    destruct t as [|v l x r]; auto. cbn [decrease_level].
    destruct (is_leaf l && is_leaf r); auto.
    destruct (Nat.ltb _ v); auto. cbn [elements].
    destruct (negb (is_leaf r) && _); auto. now rewrite set_lvl_elements.
  Qed.
  Lemma on_right_elements f t :
    (forall u, elements (f u) = elements (A:=A) u) ->
    elements (on_right f t) = elements t.
  Proof. intros H; destruct t; simpl; auto. now rewrite H. Qed.
  Lemma fixup_elements t : elements (delete_fixup t) = elements (A:=A) t.
  Proof.
    unfold delete_fixup.
    rewrite on_right_elements by apply split_elements.
    rewrite split_elements.
    set (u := on_right skew (skew (decrease_level t))).
    assert (E : elements u = elements t).
    { unfold u. rewrite on_right_elements by apply skew_elements.
      now rewrite skew_elements, decrease_elements. }
    rewrite <- E. destruct u as [|v l x [|rv rl rx [|? ? ? ?]]]; auto.
    apply on_right_elements. intros; apply on_right_elements, skew_elements.
  Qed.
  Opaque delete_fixup skew split.

  (* -- list side -------------------------------------------------------- *)
  Lemma set_add_app_l x l y r :
    SS (l ++ y :: r) -> cmp x y = Lt ->
    set_add cmp x (l ++ y :: r) = set_add cmp x l ++ y :: r.
  Proof.
    intros S H. induction l as [|a l IH]; simpl.
    - now rewrite H.
    - simpl in S. apply SS_cons in S as [S C]. rewrite IH by auto.
      destruct (cmp x a); reflexivity.
  Qed.
  Lemma set_add_app_r x l y r :
    SS (l ++ y :: r) -> cmp x y = Gt ->
    set_add cmp x (l ++ y :: r) = l ++ y :: set_add cmp x r.
  Proof.
    intros S H. induction l as [|a l IH]; simpl.
    - now rewrite H.
    - simpl in S. apply SS_cons in S as [S C]. rewrite IH by auto.
      assert (cmp x a = Gt) as ->; auto.
      apply cmp_gt. apply cmp_gt in H. eapply gc_trans; eauto. apply C, in_or_app; simpl; auto.
  Qed.
  Lemma set_add_app_eq x l y r :
    SS (l ++ y :: r) -> cmp x y = Eq ->
    set_add cmp x (l ++ y :: r) = l ++ x :: r.
  Proof.
    intros S H. induction l as [|a l IH]; simpl.
    - now rewrite H.
    - simpl in S. apply SS_cons in S as [S C]. rewrite IH by auto.
      assert (cmp x a = Gt) as ->; auto.
      apply cmp_gt. rewrite (cmp_eq_r x y a H). apply C, in_or_app; simpl; auto.
  Qed.

  Lemma find_lt_none l y r x (f : A -> bool) :
    SS (l ++ y :: r) -> cmp x y = Lt \/ cmp x y = Eq ->
    (forall a, cmp x a = Lt -> f a = false) -> find f r = None.
  Proof.
    intros S H F. apply SS_app in S as (_&S&_). apply SS_cons in S as [S C].
    destruct (find f r) eqn:E; auto. apply find_some in E as [I E].
    rewrite F in E; [discriminate|]. specialize (C _ I).
    destruct H as [H|H]; [eapply gc_trans; eauto|].
    rewrite (gc_eq_l _ G x y a H). exact C.
  Qed.
  Lemma find_gt_none l y r x (f : A -> bool) :
    SS (l ++ y :: r) -> cmp x y = Gt \/ cmp x y = Eq ->
    (forall a, cmp x a = Gt -> f a = false) -> find f l = None.
  Proof.
    intros S H F. apply SS_app in S as (_&S&C).
    destruct (find f l) eqn:E; auto. apply find_some in E as [I E].
    rewrite F in E; [discriminate|]. specialize (C _ y I (or_introl eq_refl)).
    apply cmp_gt. destruct H as [H|H].
    - apply cmp_gt in H. eapply gc_trans; eauto.
    - rewrite (cmp_eq_r x y a H); exact C.
  Qed.
  Lemma find_app (f : A -> bool) l1 l2 :
    find f (l1 ++ l2) = match find f l1 with Some a => Some a | None => find f l2 end.
  Proof. induction l1; simpl; auto. destruct (f a); auto. Qed.

  Lemma filter_id (f : A -> bool) l : (forall a, In a l -> f a = true) -> filter f l = l.
  Proof. induction l; simpl; intros H; auto. rewrite H by auto. f_equal; auto. Qed.

  Lemma set_del_app x l1 l2 : set_del cmp x (l1 ++ l2) = set_del cmp x l1 ++ set_del cmp x l2.
  Proof. unfold set_del. now rewrite filter_app. Qed.
  Lemma set_del_right x l y r : SS (l ++ y :: r) -> cmp x y = Lt \/ cmp x y = Eq ->
    set_del cmp x r = r.
  Proof.
    intros S H. apply filter_id. intros a I.
    apply SS_app in S as (_&S&_). apply SS_cons in S as [S C].
    assert (cmp x a = Lt) as ->; auto.
    destruct H as [H|H]; [eapply gc_trans; eauto; apply C; auto|].
    rewrite (gc_eq_l _ G x y a H). apply C; auto.
  Qed.
  Lemma set_del_left x l y r : SS (l ++ y :: r) -> cmp x y = Gt \/ cmp x y = Eq ->
    set_del cmp x l = l.
  Proof.
    intros S H. apply filter_id. intros a I.
    apply SS_app in S as (_&S&C). specialize (C _ y I (or_introl eq_refl)).
    assert (cmp x a = Gt) as ->; auto. apply cmp_gt.
    destruct H as [H|H].
    - apply cmp_gt in H. eapply gc_trans; eauto.
    - rewrite (cmp_eq_r x y a H); auto.
  Qed.

  (* -- insert ----------------------------------------------------------- *)
  Lemma bst_inv v l x r : bst cmp (Node v l x r) ->
    bst cmp l /\ bst cmp r /\ SS (elements l ++ x :: elements r).
  Proof.
    unfold bst; simpl. intros S. split; [|split]; auto.
    - now apply SS_app in S.
    - apply SS_app in S as (_&S&_). now apply SS_cons in S.
  Qed.

  Lemma insert_elements t x : bst cmp t ->
    elements (fst (insert cmp t x)) = set_add cmp x (elements t).
  Proof.
    unfold insert. induction t as [|v l IHl y r IHr]; intros B; simpl.
    - now rewrite split_elements, skew_elements.
    - apply bst_inv in B as (Bl&Br&S). destruct (cmp x y) eqn:C.
      + simpl. rewrite split_elements, skew_elements. simpl. now rewrite set_add_app_eq.
      + destruct (insert0 cmp l x) as [l' rep]. simpl in *.
        rewrite split_elements, skew_elements. simpl. rewrite IHl by auto.
        now rewrite set_add_app_l.
      + destruct (insert0 cmp r x) as [r' rep]. simpl in *.
        rewrite split_elements, skew_elements. simpl. rewrite IHr by auto.
        now rewrite set_add_app_r.
  Qed.
  Lemma set_find_node x l y r : SS (l ++ y :: r) ->
    set_find cmp x (l ++ y :: r) =
      match cmp x y with Eq => Some y | Lt => set_find cmp x l | Gt => set_find cmp x r end.
  Proof.
    intros S. unfold set_find. rewrite find_app. simpl.
    destruct (cmp x y) eqn:C.
    - erewrite (find_gt_none l); eauto. intros a ->; auto.
    - erewrite (find_lt_none l y r x _ S (or_introl C)); [|intros a ->; auto].
      destruct (find _ l); auto.
    - erewrite (find_gt_none l); eauto. intros a ->; auto.
  Qed.
  Lemma insert_replaced t x : bst cmp t ->
    snd (insert cmp t x) = set_find cmp x (elements t).
  Proof.
    unfold insert. induction t as [|v l IHl y r IHr]; intros B; simpl; auto.
    apply bst_inv in B as (Bl&Br&S). rewrite set_find_node by auto.
    destruct (cmp x y) eqn:C; auto.
    - destruct (insert0 cmp l x); simpl in *; auto.
    - destruct (insert0 cmp r x); simpl in *; auto.
  Qed.
  Lemma search_spec t x : bst cmp t -> search cmp t x = set_find cmp x (elements t).
  Proof.
    induction t as [|v l IHl y r IHr]; intros B; simpl; auto.
    apply bst_inv in B as (Bl&Br&S). rewrite set_find_node by auto.
    destruct (cmp x y) eqn:C; auto.
  Qed.

  Lemma set_add_in x l a : In a (set_add cmp x l) -> a = x \/ In a l.
  Proof.
    induction l as [|y l IH]; simpl.
    - intros [->|[]]; auto.
    - destruct (cmp x y); simpl; intuition auto.
  Qed.
  Lemma set_add_sorted x l : SS l -> SS (set_add cmp x l).
  Proof.
    induction l as [|y l IH]; simpl; intros S.
    - constructor; auto. 
    - apply SS_cons in S as [S C]. destruct (cmp x y) eqn:E.
      + apply SS_cons; split; auto. intros b I. unfold AATreeSpec.lt.
        rewrite (gc_eq_l _ G x y b E). apply C; auto.
      + apply SS_cons; split. apply SS_cons; auto. intros b [->|I]; auto.
        eapply gc_trans; eauto. apply C; auto.
      + apply SS_cons; split; auto. intros b I. apply set_add_in in I as [->|I]; auto.
        apply cmp_gt; auto.
  Qed.
  Lemma insert_bst t x : bst cmp t -> bst cmp (fst (insert cmp t x)).
  Proof. intros B. unfold bst. rewrite insert_elements by auto. apply set_add_sorted, B. Qed.

  (* -- delete ----------------------------------------------------------- *)
  Lemma delete_first0_spec (t : tree A) :
    match delete_first0 t with
    | (t', Some m) => elements t = m :: elements t'
    | (t', None) => t = Leaf /\ t' = Leaf
    end.
  Proof.
    induction t as [|v l IHl y r IHr]; simpl; auto.
    destruct l as [|lv ll lx lr]; auto.
    destruct (delete_first0 (Node lv ll lx lr)) as [l' [m|]].
    - rewrite fixup_elements. simpl elements in *. rewrite IHl. reflexivity.
    - destruct IHl; discriminate.
  Qed.
  Lemma delete_last0_spec (t : tree A) :
    match delete_last0 t with
    | (t', Some m) => elements t = elements t' ++ [m]
    | (t', None) => t = Leaf /\ t' = Leaf
    end.
  Proof.
    induction t as [|v l IHl y r IHr]; simpl; auto.
    destruct r as [|rv rl rx rr]; auto.
    destruct (delete_last0 (Node rv rl rx rr)) as [r' [m|]].
    - rewrite fixup_elements. simpl elements in *. rewrite IHr.
      rewrite <- app_assoc. reflexivity.
    - destruct IHr; discriminate.
  Qed.

  Lemma delete_spec t x : bst cmp t ->
    exists t', fst (delete cmp t x) = Some t' /\
      elements t' = set_del cmp x (elements t) /\
      snd (delete cmp t x) = set_find cmp x (elements t).
  Proof.
    unfold delete. induction t as [|v l IHl y r IHr]; intros B; simpl.
    - exists Leaf; auto.
    - apply bst_inv in B as (Bl&Br&S). rewrite set_find_node by auto.
      rewrite set_del_app. destruct (cmp x y) eqn:C; cbn [set_del filter]; rewrite C.
      + change (filter _ (elements r)) with (set_del cmp x (elements r)).
        rewrite (set_del_left x _ y (elements r)) by auto.
        rewrite (set_del_right x (elements l) y) by auto.
        destruct l as [|lv ll lx lr].
        * destruct r as [|rv rl rx rr].
          -- exists Leaf; simpl; auto.
          -- pose proof (delete_first0_spec (Node rv rl rx rr)) as D.
             destruct (delete_first0 _) as [r' [m|]]; [|destruct D; discriminate].
             eexists; split; [reflexivity|]. split; auto.
             rewrite fixup_elements. cbn [elements] in *. rewrite D. reflexivity.
        * pose proof (delete_last0_spec (Node lv ll lx lr)) as D.
          destruct (delete_last0 _) as [l' [m|]]; [|destruct D; discriminate].
          eexists; split; [reflexivity|]. split; auto.
          rewrite fixup_elements. cbn [elements] in *. rewrite D.
          now rewrite <- app_assoc.
      + destruct (IHl Bl) as (l'&E1&E2&E3). destruct (delete0 cmp l x) as [ol d]. cbn [fst snd] in *.
        subst ol. eexists; split; [reflexivity|]. rewrite fixup_elements. simpl.
        rewrite E2. change (filter _ (elements r)) with (set_del cmp x (elements r)).
        rewrite (set_del_right x (elements l) y (elements r)) by auto. auto.
      + destruct (IHr Br) as (r'&E1&E2&E3). destruct (delete0 cmp r x) as [or d]. cbn [fst snd] in *.
        subst or. eexists; split; [reflexivity|]. rewrite fixup_elements. simpl.
        rewrite E2. rewrite (set_del_left x (elements l) y (elements r)) by auto. auto.
  Qed.
  Lemma set_del_sorted x l : SS l -> SS (set_del cmp x l).
  Proof.
    induction l as [|y l IH]; simpl; intros S; [constructor|].
    apply SS_cons in S as [S C].
    assert (SS (set_del cmp x l)) by auto.
    destruct (cmp x y); auto; apply SS_cons; split; auto; intros b I;
      apply filter_In in I as [I _]; auto.
  Qed.

  (* -- first / last ------------------------------------------------------ *)
  Lemma first_node_spec (t : tree A) : elt (first_node t) = hd_error (elements t).
  Proof.
    induction t as [|v l IHl y r IHr]; simpl; auto.
    destruct l as [|lv ll lx lr]; auto. rewrite IHl.
    destruct (elements (Node lv ll lx lr)) eqn:E; auto.
    exfalso. simpl in E. destruct (elements ll); discriminate.
  Qed.
  Lemma last_node_spec (t : tree A) : elt (last_node t) = hd_error (rev (elements t)).
  Proof.
    induction t as [|v l IHl y r IHr]; simpl; auto.
    destruct r as [|rv rl rx rr].
    - simpl. now rewrite rev_app_distr.
    - rewrite IHr. rewrite rev_app_distr. simpl.
      destruct (rev (elements rl ++ rx :: elements rr)) eqn:E; auto.
      exfalso. apply (f_equal (@length A)) in E. rewrite rev_length, app_length in E. simpl in E. lia.
  Qed.
  Lemma first_node_sub (t : tree A) : subtree (first_node t) t.
  Proof.
    induction t as [|v l IHl y r IHr]; simpl; [constructor|].
    destruct l; [constructor|]. apply sub_l; auto.
  Qed.
  Lemma last_node_sub (t : tree A) : subtree (last_node t) t.
  Proof.
    induction t as [|v l IHl y r IHr]; simpl; [constructor|].
    destruct r; [constructor|]. apply sub_r; auto.
  Qed.
  Lemma delete_first_spec t :
    delete_first (A:=A) t = delete_first0 t /\
    snd (delete_first0 t) = hd_error (elements t) /\
    elements (fst (delete_first0 t)) = tl (elements t).
  Proof.
    split; auto. pose proof (delete_first0_spec t) as D.
    destruct (delete_first0 t) as [t' [m|]]; simpl.
    - rewrite D; auto.
    - destruct D; subst; auto.
  Qed.
  Lemma delete_last_spec t :
    snd (delete_last (A:=A) t) = hd_error (rev (elements t)) /\
    elements (fst (delete_last t)) = removelast (elements t).
  Proof.
    unfold delete_last. pose proof (delete_last0_spec t) as D.
    destruct (delete_last0 t) as [t' [m|]]; simpl.
    - rewrite D. rewrite rev_app_distr, removelast_last. auto.
    - destruct D; subst; auto.
  Qed.

  (* -- iter --------------------------------------------------------------- *)
  Lemma iter0_spec t x found : bst cmp t ->
    elt (iter0 cmp t x found) =
      match set_lower cmp x (elements t) with Some a => Some a | None => elt found end.
  Proof.
    revert found. induction t as [|v l IHl y r IHr]; intros found B; simpl; auto.
    apply bst_inv in B as (Bl&Br&S).
    unfold set_lower in *. rewrite find_app. simpl. destruct (cmp x y) eqn:C.
    - erewrite (find_gt_none (elements l)); eauto. intros a ->; auto.
    - rewrite IHl by auto. destruct (find _ (elements l)); auto.
    - rewrite IHr by auto.
      erewrite (find_gt_none (elements l) y _ x); eauto. intros a ->; auto.
  Qed.
  Lemma iter_spec t x : bst cmp t -> elt (iter cmp t x) = set_lower cmp x (elements t).
  Proof. intros B. unfold iter. rewrite iter0_spec by auto. now destruct (set_lower _ _ _). Qed.

  Lemma iter0_sub t x found root : subtree t root -> subtree found root \/ found = Leaf ->
    subtree (iter0 cmp t x found) root \/ iter0 cmp t x found = Leaf.
  Proof.
    assert (T : forall a b c : tree A, subtree a b -> subtree b c -> subtree a c).
    { intros a b c H1 H2. induction H2; auto; [apply sub_l|apply sub_r]; auto. }
    revert found. induction t as [|v l IHl y r IHr]; intros found S F; simpl; auto.
    destruct (cmp x y).
    - auto.
    - apply IHl; auto. eapply T; eauto. apply sub_l; constructor.
    - apply IHr; auto. eapply T; eauto. apply sub_r; constructor.
  Qed.
  Lemma iter_sub t x : subtree (iter cmp t x) t \/ iter cmp t x = Leaf.
  Proof. apply iter0_sub; auto. constructor. Qed.

  (* -- next --------------------------------------------------------------- *)
  Lemma parent0_in t x par : In x (elements t) -> bst cmp t ->
    parent0 cmp t x par = match parent0 cmp t x Leaf with Leaf => par | p => p end.
  Proof.
    intros I B. destruct t as [|v l y r]; simpl; auto.
    assert (Q : forall (t u : tree A), u <> Leaf -> parent0 cmp t x u <> Leaf).
    { induction t; intros u U; simpl; auto. destruct (cmp x a); auto; [apply IHt1|apply IHt2]; discriminate. }
    destruct (cmp x y); auto.
    - destruct (parent0 cmp l x (Node v l y r)) eqn:E; auto. exfalso. apply Q in E; auto. discriminate.
    - destruct (parent0 cmp r x (Node v l y r)) eqn:E; auto. exfalso. apply Q in E; auto. discriminate.
  Qed.

  Lemma subtree_in s t x : subtree s t -> In x (elements s) -> In x (elements (A:=A) t).
  Proof.
    induction 1; auto; simpl; intros I; apply in_or_app; simpl; auto.
  Qed.
  Lemma parent0_sub (t : tree A) x p root : subtree t root -> subtree p root \/ p = Leaf ->
    subtree (parent0 cmp t x p) root \/ parent0 cmp t x p = Leaf.
  Proof.
    assert (T : forall a b c : tree A, subtree a b -> subtree b c -> subtree a c).
    { intros a b c H1 H2. induction H2; auto; [apply sub_l|apply sub_r]; auto. }
    revert p. induction t as [|v l IHl y r IHr]; intros p S P; simpl; auto.
    destruct (cmp x y); auto.
    - apply IHl; auto. eapply T; eauto. apply sub_l; constructor.
    - apply IHr; auto. eapply T; eauto. apply sub_r; constructor.
  Qed.

  Lemma bst_side v l y r x : bst cmp (Node v l y r) ->
    (In x (elements l) -> cmp x y = Lt) /\ (In x (elements r) -> cmp x y = Gt).
  Proof.
    intros B. apply bst_inv in B as (_&_&S). apply SS_app in S as (_&S&C).
    apply SS_cons in S as [_ D]. split; intros I.
    - apply C; simpl; auto.
    - apply cmp_gt, D; auto.
  Qed.

  Lemma is_node_head (t : tree A) x :
    is_node cmp t x = true -> exists v l y r, t = Node v l y r /\ cmp y x = Eq.
  Proof. destruct t; simpl; [discriminate|]. destruct (cmp a x) eqn:E; try discriminate. eauto 8. Qed.

  Lemma bst_unique t x y : bst cmp t -> In x (elements t) -> In y (elements t) ->
    cmp x y = Eq -> x = y.
  Proof.
    unfold bst. intros S Hx Hy E. apply in_split in Hx as (l1&l2&E1). rewrite E1 in *.
    apply in_app_or in Hy. apply SS_app in S as (_&S&C). apply SS_cons in S as [_ D].
    destruct Hy as [Hy|[Hy|Hy]]; auto.
    - specialize (C y x Hy (or_introl eq_refl)). unfold AATreeSpec.lt in C.
      rewrite (gc_sym _ G x y), E in C. discriminate.
    - specialize (D y Hy). unfold AATreeSpec.lt in D. congruence.
  Qed.

  Lemma parent0_nonleaf (x : A) : forall (t u : tree A), u <> Leaf -> parent0 cmp t x u <> Leaf.
  Proof. induction t; intros u U; simpl; auto. destruct (cmp x a); auto; [apply IHt1|apply IHt2]; discriminate. Qed.

  Lemma parent_left v l y r x : bst cmp (Node v l y r) -> In x (elements l) ->
    parent cmp (Node v l y r) x = match parent cmp l x with Leaf => Node v l y r | p => p end.
  Proof.
    intros B I. unfold parent. simpl. rewrite (proj1 (bst_side _ _ _ _ x B) I).
    apply bst_inv in B as (Bl&_&_). rewrite parent0_in by auto. reflexivity.
  Qed.
  Lemma parent_right v l y r x : bst cmp (Node v l y r) -> In x (elements r) ->
    parent cmp (Node v l y r) x = match parent cmp r x with Leaf => Node v l y r | p => p end.
  Proof.
    intros B I. unfold parent. simpl. rewrite (proj2 (bst_side _ _ _ _ x B) I).
    apply bst_inv in B as (_&Br&_). rewrite parent0_in by auto. reflexivity.
  Qed.
  Lemma parent_root v l y r : parent cmp (Node v l y r) y = Leaf.
  Proof. unfold parent; simpl. now rewrite (gc_refl _ G). Qed.
  Lemma parent_leaf_root (t : tree A) x : In x (elements t) -> parent cmp t x = Leaf -> is_node cmp t x = true.
  Proof.
    destruct t as [|lv ll lx lr]; [intros []|]. unfold parent. simpl. intros _.
    destruct (cmp x lx) eqn:E; intros P.
    - now rewrite (cmp_eq_sym _ _ E).
    - apply parent0_nonleaf in P; [destruct P|discriminate].
    - apply parent0_nonleaf in P; [destruct P|discriminate].
  Qed.
  Lemma parent_in (t : tree A) x pv pl pp pr : parent cmp t x = Node pv pl pp pr -> In pp (elements t).
  Proof.
    intros P. assert (subtree (parent cmp t x) t \/ parent cmp t x = Leaf) as [H|H].
    { apply parent0_sub; auto. constructor. }
    - eapply subtree_in; eauto. rewrite P. simpl. apply in_or_app; simpl; auto.
    - congruence.
  Qed.
  Lemma is_node_notin (t : tree A) x : bst cmp t -> (forall a, In a (elements t) -> cmp a x <> Eq) ->
    is_node cmp t x = false.
  Proof.
    intros B H. destruct t as [|v l y r]; auto. simpl.
    specialize (H y). destruct (cmp y x); auto. exfalso; apply H; auto. simpl. apply in_or_app; simpl; auto.
  Qed.

  Lemma climb_next_S f root x :
    climb_next cmp (S f) root x =
      match parent cmp root x with
      | Leaf => Some Leaf
      | Node v l p r => if is_node cmp l x then Some (Node v l p r) else climb_next cmp f root p
      end.
  Proof. reflexivity. Qed.
  Lemma climb_prev_S f root x :
    climb_prev cmp (S f) root x =
      match parent cmp root x with
      | Leaf => Some Leaf
      | Node v l p r => if is_node cmp r x then Some (Node v l p r) else climb_prev cmp f root p
      end.
  Proof. reflexivity. Qed.

  Lemma climb_next_left v l y r f :
    bst cmp (Node v l y r) -> forall x res, In x (elements l) ->
    climb_next cmp f l x = Some res ->
    climb_next cmp f (Node v l y r) x = Some (match res with Leaf => Node v l y r | p => p end).
  Proof.
    intros B. induction f as [|f IH]; intros x res I; [discriminate|].
    rewrite !climb_next_S. rewrite parent_left by auto.
    destruct (parent cmp l x) as [|pv pl pp pr] eqn:P.
    - intros [= <-]. now rewrite (parent_leaf_root l x I P).
    - destruct (is_node cmp pl x); [now intros [= <-]|].
      intros H. apply IH; auto. eapply parent_in; eauto.
  Qed.
  Lemma climb_next_right v l y r f :
    bst cmp (Node v l y r) -> forall x res, In x (elements r) ->
    climb_next cmp f r x = Some res ->
    climb_next cmp (S f) (Node v l y r) x = Some res.
  Proof.
    intros B. induction f as [|f IH]; intros x res I; [discriminate|].
    rewrite climb_next_S. rewrite (climb_next_S (S f)). rewrite parent_right by auto.
    destruct (parent cmp r x) as [|pv pl pp pr] eqn:P.
    - intros [= <-]. rewrite is_node_notin.
      + rewrite climb_next_S, parent_root. reflexivity.
      + now apply bst_inv in B.
      + intros a Ia. pose proof (proj1 (bst_side _ _ _ _ a B) Ia) as H1.
        pose proof (proj2 (bst_side _ _ _ _ x B) I) as H2. apply cmp_gt in H2.
        rewrite (gc_trans _ G _ _ _ H1 H2). discriminate.
    - destruct (is_node cmp pl x); auto.
      intros H. apply IH; auto. eapply parent_in; eauto.
  Qed.
  Lemma climb_next_mono f root x res : climb_next cmp f root x = Some res ->
    forall f', f <= f' -> climb_next cmp f' root x = Some res.
  Proof.
    revert x. induction f as [|f IH]; intros x H f' L; [discriminate|].
    destruct f' as [|f']; [lia|]. rewrite climb_next_S in *.
    destruct (parent cmp root x); auto. destruct (is_node _ _ _); auto. apply IH; auto. lia.
  Qed.

  (** nearest ancestor above [x] *)
  Fixpoint anc_above (t : tree A) (x : A) : tree A :=
    match t with
    | Leaf => Leaf
    | Node v l y r =>
        match cmp x y with
        | Lt => match anc_above l x with Leaf => t | p => p end
        | Gt => anc_above r x
        | Eq => Leaf
        end
    end.
  Lemma climb_next_spec t x : bst cmp t -> In x (elements t) ->
    climb_next cmp (height t) t x = Some (anc_above t x).
  Proof.
    induction t as [|v l IHl y r IHr]; intros B I; [destruct I|].
    pose proof (bst_inv _ _ _ _ B) as (Bl&Br&S). simpl in I. apply in_app_or in I.
    cbn [anc_above]. destruct I as [I|[->|I]].
    - rewrite (proj1 (bst_side _ _ _ _ x B) I).
      eapply climb_next_mono with (f := height l); [|simpl; lia].
      erewrite climb_next_left; eauto. destruct (anc_above l x); reflexivity.
    - rewrite (gc_refl _ G). cbn [height]. rewrite climb_next_S, parent_root. reflexivity.
    - rewrite (proj2 (bst_side _ _ _ _ x B) I).
      eapply climb_next_mono with (f := Datatypes.S (height r)); [|simpl; lia].
      apply climb_next_right; auto.
  Qed.

  Lemma set_above_node x l y r : SS (l ++ y :: r) ->
    set_above cmp x (l ++ y :: r) =
      match cmp x y with
      | Lt => match set_above cmp x l with Some a => Some a | None => Some y end
      | _ => set_above cmp x r end.
  Proof.
    intros S. unfold set_above. rewrite find_app. simpl. destruct (cmp x y) eqn:C; auto.
    - erewrite (find_gt_none l); eauto. intros a ->; auto.
    - erewrite (find_gt_none l); eauto. intros a ->; auto.
  Qed.
  Lemma anc_above_spec t v l x : bst cmp t -> subtree (Node v l x Leaf) t ->
    elt (anc_above t x) = set_above cmp x (elements t).
  Proof.
    intros B Sub. revert B.
    remember (Node v l x Leaf) as s eqn:Es. induction Sub; intros B; subst.
    - cbn [anc_above elements]. rewrite set_above_node by apply (bst_inv _ _ _ _ B).
      rewrite (gc_refl _ G). reflexivity.
    - pose proof (bst_inv _ _ _ _ B) as (Bl&Br&S).
      assert (I : In x (elements l0)).
      { eapply subtree_in; eauto. simpl. apply in_or_app; simpl; auto. }
      cbn [anc_above elements]. rewrite set_above_node by auto.
      rewrite (proj1 (bst_side _ _ _ _ x B) I). rewrite <- IHSub by auto.
      destruct (anc_above l0 x); reflexivity.
    - pose proof (bst_inv _ _ _ _ B) as (Bl&Br&S).
      assert (I : In x (elements r)).
      { eapply subtree_in; eauto. simpl. apply in_or_app; simpl; auto. }
      cbn [anc_above elements]. rewrite set_above_node by auto.
      rewrite (proj2 (bst_side _ _ _ _ x B) I). auto.
  Qed.
  (** the successor inside a subtree with a right child *)
  Lemma above_in_right t v l x r : bst cmp t -> subtree (Node v l x r) t -> r <> Leaf ->
    set_above cmp x (elements t) = hd_error (elements r).
  Proof.
    intros B Sub NL. revert B.
    remember (Node v l x r) as s eqn:Es. induction Sub; intros B; subst.
    - pose proof (bst_inv _ _ _ _ B) as (Bl&Br&S).
      cbn [elements]. rewrite set_above_node by auto. rewrite (gc_refl _ G).
      apply SS_app in S as (_&S&_). apply SS_cons in S as [_ D].
      destruct (elements r) as [|a q] eqn:E.
      + exfalso. destruct r as [|rv rl rx rr]; [congruence|]. simpl in E. destruct (elements rl); discriminate.
      + unfold set_above. simpl. rewrite (D a) by (simpl; auto). reflexivity.
    - pose proof (bst_inv _ _ _ _ B) as (Bl&Br&S).
      assert (I : In x (elements l0)).
      { eapply subtree_in; eauto. simpl. apply in_or_app; simpl; auto. }
      cbn [elements]. rewrite set_above_node by auto.
      rewrite (proj1 (bst_side _ _ _ _ x B) I). rewrite IHSub by auto.
      destruct r as [|rv rl rx rr]; [congruence|]. simpl.
      destruct (elements rl); reflexivity.
    - pose proof (bst_inv _ _ _ _ B) as (Bl&Br&S).
      assert (I : In x (elements r0)).
      { eapply subtree_in; eauto. simpl. apply in_or_app; simpl; auto. }
      cbn [elements]. rewrite set_above_node by auto.
      rewrite (proj2 (bst_side _ _ _ _ x B) I). auto.
  Qed.
  Lemma subtree_trans (a b c : tree A) : subtree a b -> subtree b c -> subtree a c.
  Proof. intros H1 H2. induction H2; auto; [apply sub_l|apply sub_r]; auto. Qed.
  Lemma anc_above_sub t x : subtree (anc_above t x) t \/ anc_above t x = Leaf.
  Proof.
    induction t as [|v l IHl y r IHr]; simpl; auto. destruct (cmp x y); auto.
    - destruct (anc_above l x) eqn:E; [left; constructor|].
      destruct IHl as [H|H]; [left; apply sub_l; auto|discriminate].
    - destruct IHr as [H|H]; auto. left; apply sub_r; auto.
  Qed.

  Lemma next_spec t v l x r : bst cmp t -> subtree (Node v l x r) t ->
    exists n, next cmp t (Node v l x r) = Some n /\ elt n = set_above cmp x (elements t) /\ (subtree n t \/ n = Leaf).
  Proof.
    intros B Sub. assert (I : In x (elements t)).
    { eapply subtree_in; eauto. simpl. apply in_or_app; simpl; auto. }
    simpl. destruct r as [|rv rl rx rr].
    - rewrite climb_next_spec by auto. eexists; split; [reflexivity|].
      split; [eapply anc_above_spec; eauto|apply anc_above_sub].
    - eexists; split; [reflexivity|]. split.
      + erewrite above_in_right; eauto; [|discriminate]. apply first_node_spec.
      + left. eapply subtree_trans; [apply first_node_sub|].
        eapply subtree_trans; [|exact Sub]. apply sub_r; constructor.
  Qed.

  (* -- prev --------------------------------------------------------------- *)
  Lemma climb_prev_right v l y r f :
    bst cmp (Node v l y r) -> forall x res, In x (elements r) ->
    climb_prev cmp f r x = Some res ->
    climb_prev cmp f (Node v l y r) x = Some (match res with Leaf => Node v l y r | p => p end).
  Proof.
    intros B. induction f as [|f IH]; intros x res I; [discriminate|].
    rewrite !climb_prev_S. rewrite parent_right by auto.
    destruct (parent cmp r x) as [|pv pl pp pr] eqn:P.
    - intros [= <-]. now rewrite (parent_leaf_root r x I P).
    - destruct (is_node cmp pr x); [now intros [= <-]|].
      intros H. apply IH; auto. eapply parent_in; eauto.
  Qed.
  Lemma climb_prev_left v l y r f :
    bst cmp (Node v l y r) -> forall x res, In x (elements l) ->
    climb_prev cmp f l x = Some res ->
    climb_prev cmp (S f) (Node v l y r) x = Some res.
  Proof.
    intros B. induction f as [|f IH]; intros x res I; [discriminate|].
    rewrite climb_prev_S. rewrite (climb_prev_S (S f)). rewrite parent_left by auto.
    destruct (parent cmp l x) as [|pv pl pp pr] eqn:P.
    - intros [= <-]. rewrite is_node_notin.
      + rewrite climb_prev_S, parent_root. reflexivity.
      + now apply bst_inv in B.
      + intros a Ia. pose proof (proj2 (bst_side _ _ _ _ a B) Ia) as H1.
        pose proof (proj1 (bst_side _ _ _ _ x B) I) as H2. apply cmp_gt in H1.
        assert (cmp a x = Gt) as ->; [|discriminate]. apply cmp_gt. eapply gc_trans; eauto.
    - destruct (is_node cmp pr x); auto.
      intros H. apply IH; auto. eapply parent_in; eauto.
  Qed.
  Lemma climb_prev_mono f root x res : climb_prev cmp f root x = Some res ->
    forall f', f <= f' -> climb_prev cmp f' root x = Some res.
  Proof.
    revert x. induction f as [|f IH]; intros x H f' L; [discriminate|].
    destruct f' as [|f']; [lia|]. rewrite climb_prev_S in *.
    destruct (parent cmp root x); auto. destruct (is_node _ _ _); auto. apply IH; auto. lia.
  Qed.
  Fixpoint anc_below (t : tree A) (x : A) : tree A :=
    match t with
    | Leaf => Leaf
    | Node v l y r =>
        match cmp x y with
        | Gt => match anc_below r x with Leaf => t | p => p end
        | Lt => anc_below l x
        | Eq => Leaf
        end
    end.
  Lemma climb_prev_spec t x : bst cmp t -> In x (elements t) ->
    climb_prev cmp (height t) t x = Some (anc_below t x).
  Proof.
    induction t as [|v l IHl y r IHr]; intros B I; [destruct I|].
    pose proof (bst_inv _ _ _ _ B) as (Bl&Br&S). simpl in I. apply in_app_or in I.
    cbn [anc_below]. destruct I as [I|[->|I]].
    - rewrite (proj1 (bst_side _ _ _ _ x B) I).
      eapply climb_prev_mono with (f := Datatypes.S (height l)); [|simpl; lia].
      apply climb_prev_left; auto.
    - rewrite (gc_refl _ G). cbn [height]. rewrite climb_prev_S, parent_root. reflexivity.
    - rewrite (proj2 (bst_side _ _ _ _ x B) I).
      eapply climb_prev_mono with (f := height r); [|simpl; lia].
      erewrite climb_prev_right; eauto. destruct (anc_below r x); reflexivity.
  Qed.
  Lemma find_rev_none (f : A -> bool) l : find f l = None -> find f (rev l) = None.
  Proof.
    intros H. destruct (find f (rev l)) eqn:E; auto. apply find_some in E as [I E].
    apply in_rev in I. rewrite (find_none _ _ H _ I) in E. discriminate.
  Qed.
  Lemma set_below_node x l y r : SS (l ++ y :: r) ->
    set_below cmp x (l ++ y :: r) =
      match cmp x y with
      | Gt => match set_below cmp x r with Some a => Some a | None => Some y end
      | _ => set_below cmp x l end.
  Proof.
    intros S. unfold set_below. rewrite rev_app_distr. simpl. rewrite <- app_assoc.
    rewrite find_app. simpl. destruct (cmp x y) eqn:C; auto.
    - rewrite find_rev_none; auto. eapply (find_lt_none l); eauto. intros a ->; auto.
    - rewrite find_rev_none; auto. eapply (find_lt_none l); eauto. intros a ->; auto.
  Qed.
  Lemma anc_below_spec t v r x : bst cmp t -> subtree (Node v Leaf x r) t ->
    elt (anc_below t x) = set_below cmp x (elements t).
  Proof.
    intros B Sub. revert B.
    remember (Node v Leaf x r) as s eqn:Es. induction Sub; intros B; subst.
    - cbn [anc_below elements]. rewrite set_below_node by apply (bst_inv _ _ _ _ B).
      rewrite (gc_refl _ G). reflexivity.
    - pose proof (bst_inv _ _ _ _ B) as (Bl&Br&S).
      assert (I : In x (elements l)).
      { eapply subtree_in; eauto. simpl. auto. }
      cbn [anc_below elements]. rewrite set_below_node by auto.
      rewrite (proj1 (bst_side _ _ _ _ x B) I). auto.
    - pose proof (bst_inv _ _ _ _ B) as (Bl&Br&S).
      assert (I : In x (elements r0)).
      { eapply subtree_in; eauto. simpl. auto. }
      cbn [anc_below elements]. rewrite set_below_node by auto.
      rewrite (proj2 (bst_side _ _ _ _ x B) I). rewrite <- IHSub by auto.
      destruct (anc_below r0 x); reflexivity.
  Qed.
  Lemma below_in_left t v l x r : bst cmp t -> subtree (Node v l x r) t -> l <> Leaf ->
    set_below cmp x (elements t) = hd_error (rev (elements l)).
  Proof.
    intros B Sub NL. revert B.
    assert (NE : exists a q, rev (elements l) = a :: q).
    { destruct l as [|lv ll lx lr]; [congruence|].
      destruct (rev (elements (Node lv ll lx lr))) eqn:E; eauto.
      exfalso. apply (f_equal (@length A)) in E. rewrite rev_length in E. simpl in E.
      rewrite app_length in E; simpl in E; lia. }
    remember (Node v l x r) as s eqn:Es. induction Sub; intros B; subst.
    - pose proof (bst_inv _ _ _ _ B) as (Bl&Br&S).
      cbn [elements]. rewrite set_below_node by auto. rewrite (gc_refl _ G).
      apply SS_app in S as (_&_&C). unfold set_below.
      destruct NE as (a&q&E). rewrite E. simpl.
      assert (In a (elements l)) by (apply in_rev; rewrite E; simpl; auto).
      assert (cmp x a = Gt) as ->; auto. apply cmp_gt. apply C; simpl; auto.
    - pose proof (bst_inv _ _ _ _ B) as (Bl&Br&S).
      assert (I : In x (elements l0)).
      { eapply subtree_in; eauto. simpl. apply in_or_app; simpl; auto. }
      cbn [elements]. rewrite set_below_node by auto.
      rewrite (proj1 (bst_side _ _ _ _ x B) I). auto.
    - pose proof (bst_inv _ _ _ _ B) as (Bl&Br&S).
      assert (I : In x (elements r0)).
      { eapply subtree_in; eauto. simpl. apply in_or_app; simpl; auto. }
      cbn [elements]. rewrite set_below_node by auto.
      rewrite (proj2 (bst_side _ _ _ _ x B) I). rewrite IHSub by auto.
      destruct NE as (a&q&->). reflexivity.
  Qed.
  Lemma anc_below_sub t x : subtree (anc_below t x) t \/ anc_below t x = Leaf.
  Proof.
    induction t as [|v l IHl y r IHr]; simpl; auto. destruct (cmp x y); auto.
    - destruct IHl as [H|H]; auto. left; apply sub_l; auto.
    - destruct (anc_below r x) eqn:E; [left; constructor|].
      destruct IHr as [H|H]; [left; apply sub_r; auto|discriminate].
  Qed.
  Lemma prev_spec t v l x r : bst cmp t -> subtree (Node v l x r) t ->
    exists n, prev cmp t (Node v l x r) = Some n /\ elt n = set_below cmp x (elements t) /\ (subtree n t \/ n = Leaf).
  Proof.
    intros B Sub. assert (I : In x (elements t)).
    { eapply subtree_in; eauto. simpl. apply in_or_app; simpl; auto. }
    simpl. destruct l as [|rv rl rx rr].
    - rewrite climb_prev_spec by auto. eexists; split; [reflexivity|].
      split; [eapply anc_below_spec; eauto|apply anc_below_sub].
    - eexists; split; [reflexivity|]. split.
      + erewrite below_in_left; eauto; [|discriminate]. apply last_node_spec.
      + left. eapply subtree_trans; [apply last_node_sub|].
        eapply subtree_trans; [|exact Sub]. apply sub_l; constructor.
  Qed.
End P.
