(** Histories of AA-tree operations, on the model and on sorted lists. *)
From Coq Require Import List ZArith Bool Lia Sorted.
From Verif Require Import AATree AATreeSpec AATreeProofs AATreeBalance.
Import ListNotations.

(** The mutating entry points of AAT_DEF, /repo/neco.c:1475-1798. *)
Inductive aop (A : Type) := AInsert (x : A) | ADelete (x : A) | APopFirst | APopLast.
Arguments AInsert {A}. Arguments ADelete {A}.
Arguments APopFirst {A}. Arguments APopLast {A}.

Section Hist.
  Context {A : Type}.
  Variable cmp : A -> A -> comparison.

  (** one operation on the model: new tree and returned element;
      [None] = undefined behaviour *)
  Definition tree_op (t : tree A) (o : aop A) : option (tree A * option A) :=
    match o with
    | AInsert x => Some (insert cmp t x)
    | ADelete x => match delete cmp t x with (Some t', d) => Some (t', d) | (None, _) => None end
    | APopFirst => Some (delete_first t)
    | APopLast => Some (delete_last t)
    end.
  Fixpoint tree_run (t : tree A) (os : list (aop A)) : option (tree A * list (option A)) :=
    match os with
    | [] => Some (t, [])
    | o :: os => match tree_op t o with
                 | None => None
                 | Some (t', d) => match tree_run t' os with
                                   | None => None
                                   | Some (t'', ds) => Some (t'', d :: ds)
                                   end
                 end
    end.

  (** the same on sorted lists (specification) *)
  Definition list_op (l : list A) (o : aop A) : list A * option A :=
    match o with
    | AInsert x => (set_add cmp x l, set_find cmp x l)
    | ADelete x => (set_del cmp x l, set_find cmp x l)
    | APopFirst => (tl l, hd_error l)
    | APopLast => (removelast l, hd_error (rev l))
    end.
  Fixpoint list_run (l : list A) (os : list (aop A)) : list A * list (option A) :=
    match os with
    | [] => (l, [])
    | o :: os => let '(l', d) := list_op l o in
                 let '(l'', ds) := list_run l' os in (l'', d :: ds)
    end.

  Hypothesis G : good_cmp cmp.

  Lemma SS_removelast (l : list A) : StronglySorted (lt cmp) l -> StronglySorted (lt cmp) (removelast l).
  Proof.
    intros S. induction S as [|a l S IH F]; [constructor|].
    destruct l as [|b l]; [constructor|]. change (StronglySorted (lt cmp) (a :: removelast (b :: l))).
    constructor; auto. rewrite Forall_forall in *. intros x I. apply F.
    rewrite (app_removelast_last a (l := b :: l)) by discriminate. apply in_or_app. auto.
  Qed.

  Lemma tree_op_spec t o : bst cmp t -> balanced t ->
    exists t', tree_op t o = Some (t', snd (list_op (elements t) o)) /\
      elements t' = fst (list_op (elements t) o) /\ bst cmp t' /\ balanced t'.
  Proof.
    intros B Bal. destruct o as [x|x| |]; cbn [tree_op list_op fst snd].
    - exists (fst (insert cmp t x)). rewrite <- (insert_replaced cmp G) by auto.
      split; [destruct (insert cmp t x); reflexivity|].
      rewrite (insert_elements cmp G) by auto. split; auto.
      split; [apply (insert_bst cmp G); auto|]. apply (insert_balanced cmp t x Bal).
    - destruct (delete_spec cmp G t x B) as (t'&E1&E2&E3). exists t'.
      pose proof (delete_balanced cmp t x t' Bal E1) as D.
      destruct (delete cmp t x) as [[u|] d]; cbn [fst snd] in *; [|discriminate].
      injection E1 as ->. subst d. split; auto. split; auto. split.
      + unfold bst. rewrite E2. apply set_del_sorted; auto.
      + apply D.
    - destruct (delete_first_spec t) as (E0&E1&E2). exists (fst (delete_first t)).
      rewrite E0. rewrite <- E1, <- E2. split; [destruct (delete_first0 t); auto|]. split; auto.
      split; [|apply (delete_first0_balanced t Bal)].
      unfold bst in *. rewrite E2. destruct (elements t); [constructor|]. inversion B; auto.
    - destruct (delete_last_spec t) as (E1&E2). exists (fst (delete_last t)).
      rewrite <- E1, <- E2. split; [destruct (delete_last t); auto|]. split; auto.
      split; [|apply (delete_last0_balanced t Bal)].
      unfold bst in *. rewrite E2. apply SS_removelast; auto.
  Qed.

  Lemma tree_run_spec os : forall t, bst cmp t -> balanced t ->
    exists t', tree_run t os = Some (t', snd (list_run (elements t) os)) /\
      elements t' = fst (list_run (elements t) os) /\ bst cmp t' /\ balanced t'.
  Proof.
    induction os as [|o os IH]; intros t B Bal; cbn [tree_run list_run].
    - exists t; auto.
    - destruct (tree_op_spec t o B Bal) as (t1&E1&E2&B1&Bal1). rewrite E1.
      destruct (IH t1 B1 Bal1) as (t2&F1&F2&B2&Bal2). exists t2. rewrite F1.
      rewrite E2 in *. destruct (list_op (elements t) o) as [l1 d]. cbn [fst snd] in *.
      destruct (list_run l1 os) as [l2 ds]. auto.
  Qed.
End Hist.

(** Keys of the four comparison functions. ids, deadlines and fds are C
    integers; [Z.compare] is the C three-way comparison. *)
Local Open Scope Z_scope.
(** /repo/neco.c:3382-3385 (all_compare) and 1835-1837 (sco_compare) *)
Definition all_compare (a b : Z) : comparison :=
  if a <? b then Lt else if b <? a then Gt else Eq.
(** /repo/neco.c:3390-3395; key = (deadline, id) *)
Definition dl_compare (a b : Z * Z) : comparison :=
  if fst a <? fst b then Lt else if fst b <? fst a then Gt else
  if snd a <? snd b then Lt else if snd b <? snd a then Gt else Eq.
(** /repo/neco.c:3400-3406; key = ((evfd, evkind), id) *)
Definition evcompare (a b : Z * Z * Z) : comparison :=
  let '(f1, k1, i1) := a in
  let '(f2, k2, i2) := b in
  if f1 <? f2 then Lt else if f2 <? f1 then Gt else
  if k1 <? k2 then Lt else if k2 <? k1 then Gt else
  if i1 <? i2 then Lt else if i2 <? i1 then Gt else Eq.

Ltac zcmp := repeat match goal with
  | |- context [?a <? ?b] => destruct (Z.ltb_spec a b)
  | _ : context [?a <? ?b] |- _ => destruct (Z.ltb_spec a b)
  end; try reflexivity; try discriminate; try lia.

Lemma all_compare_good : good_cmp all_compare.
Proof. split; unfold all_compare; intros; zcmp. Qed.
Lemma dl_compare_good : good_cmp dl_compare.
Proof. split; unfold dl_compare; intros; repeat match goal with p : (Z * Z)%type |- _ => destruct p end; cbn [fst snd] in *; zcmp. Qed.
Lemma evcompare_good : good_cmp evcompare.
Proof. split; unfold evcompare; intros; repeat match goal with p : (_ * _)%type |- _ => destruct p end; zcmp. Qed.
