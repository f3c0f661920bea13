(** C26 -- the ordered sets of neco (AA trees) behave as sorted sets. *)
From Coq Require Import List ZArith Bool Sorted.
From Verif Require Import AATree AATreeSpec AATreeProofs AATreeBalance AATreeHist.
Import ListNotations.

(** Every history of insert / delete / delete_first / delete_last from the
    empty tree runs without undefined behaviour, returns what a sorted list
    returns, and ends with the same contents in increasing order. *)
Theorem C26_history_agrees_with_sorted_set :
  forall (A : Type) (cmp : A -> A -> comparison), good_cmp cmp ->
  forall os : list (aop A),
  exists t, tree_run cmp Leaf os = Some (t, snd (list_run cmp [] os)) /\
            elements t = fst (list_run cmp [] os) /\
            StronglySorted (fun a b => cmp a b = Lt) (elements t).
Proof.
  intros A cmp G os. destruct (tree_run_spec cmp G os Leaf) as (t&E1&E2&B&_).
  - constructor.
  - exact I.
  - exists t. repeat split; assumption.
Qed.
Print Assumptions C26_history_agrees_with_sorted_set.

(** After every history, the read-only operations agree with the sorted list:
    search, first, last, lower-bound iteration, successor, predecessor. *)
Theorem C26_queries_agree_with_sorted_set :
  forall (A : Type) (cmp : A -> A -> comparison), good_cmp cmp ->
  forall (os : list (aop A)) t ds, tree_run cmp Leaf os = Some (t, ds) ->
  let l := fst (list_run cmp [] os) in
  (forall x, search cmp t x = set_find cmp x l) /\
  first t = hd_error l /\
  last t = hd_error (rev l) /\
  (forall x, elt (iter cmp t x) = set_lower cmp x l) /\
  (forall v a x b, subtree (Node v a x b) t ->
     exists n, next cmp t (Node v a x b) = Some n /\ elt n = set_above cmp x l) /\
  (forall v a x b, subtree (Node v a x b) t ->
     exists n, prev cmp t (Node v a x b) = Some n /\ elt n = set_below cmp x l).
Proof.
  intros A cmp G os t ds E l. destruct (tree_run_spec cmp G os Leaf) as (t0&E1&E2&B&_).
  { constructor. } { exact I. }
  rewrite E in E1. injection E1 as -> _. subst l. change (elements Leaf) with (@nil A) in E2.
  rewrite <- E2.
  split; [intros; apply search_spec; auto|].
  split; [apply first_node_spec|]. split; [apply last_node_spec|].
  split; [intros; apply iter_spec; auto|].
  split; intros v a x b Sub.
  - destruct (next_spec cmp G t0 v a x b B Sub) as (n&?&?&_). eauto.
  - destruct (prev_spec cmp G t0 v a x b B Sub) as (n&?&?&_). eauto.
Qed.
Print Assumptions C26_queries_agree_with_sorted_set.

(** After every history the depth is at most 2 log2 (n + 1). *)
Theorem C26_logarithmic_depth :
  forall (A : Type) (cmp : A -> A -> comparison), good_cmp cmp ->
  forall (os : list (aop A)) t ds, tree_run cmp Leaf os = Some (t, ds) ->
  height t <= 2 * Nat.log2 (S (length (elements t))).
Proof.
  intros A cmp G os t ds E. destruct (tree_run_spec cmp G os Leaf) as (t0&E1&E2&B&Bal).
  { constructor. } { exact I. }
  rewrite E in E1. injection E1 as -> _. apply balanced_log_height, Bal.
Qed.
Print Assumptions C26_logarithmic_depth.

(** The comparisons neco uses are total orders up to equality of keys. *)
Theorem C26_neco_comparisons_are_total_orders :
  good_cmp all_compare /\ good_cmp dl_compare /\ good_cmp evcompare.
Proof. exact (conj all_compare_good (conj dl_compare_good evcompare_good)). Qed.
Print Assumptions C26_neco_comparisons_are_total_orders.

(** Non-vacuity: a concrete history on timer keys (deadline, id). *)
Example C26_example :
  exists t, tree_run dl_compare Leaf
    [AInsert (30,1); AInsert (10,2); AInsert (20,3); AInsert (10,4); AInsert (5,9);
     ADelete (20,3); APopFirst; ADelete (7,7)]%Z =
    Some (t, [None; None; None; None; None; Some (20,3); Some (5,9); None]%Z)
  /\ elements t = [(10,2); (10,4); (30,1)]%Z
  /\ first t = Some (10,2)%Z
  /\ elt (iter dl_compare t (10,3)%Z) = Some (10,4)%Z.
Proof. eexists. split; [vm_compute; reflexivity|]. repeat split. Qed.
