(** Specification of an ordered set: a strictly sorted list, independent of
    trees. *)
From Coq Require Import List Sorted.
From Verif Require Import AATree.
Import ListNotations.

(** What the C comparison functions have to satisfy: [cmp] is a strict total
    order up to [Eq]. Instances: Props_AATree.v shows it for the three
    comparison functions of /repo/neco.c:3382-3406 and 1835-1837. *)
Record good_cmp {A} (cmp : A -> A -> comparison) : Prop := {
  gc_refl : forall a, cmp a a = Eq;
  gc_sym : forall a b, cmp b a = CompOpp (cmp a b);
  gc_trans : forall a b c, cmp a b = Lt -> cmp b c = Lt -> cmp a c = Lt;
  gc_eq_l : forall a b c, cmp a b = Eq -> cmp a c = cmp b c
}.

Section Spec.
  Context {A : Type}.
  Variable cmp : A -> A -> comparison.
  Definition lt (a b : A) : Prop := cmp a b = Lt.

  (** the strictly sorted list with [x] added; an equal element is replaced *)
  Fixpoint set_add (x : A) (l : list A) : list A :=
    match l with
    | [] => [x]
    | y :: r => match cmp x y with
                | Lt => x :: l
                | Eq => x :: r
                | Gt => y :: set_add x r
                end
    end.
  (** the list without the elements equal to [x] *)
  Definition set_del (x : A) (l : list A) : list A :=
    filter (fun y => match cmp x y with Eq => false | _ => true end) l.
  Definition set_find (x : A) (l : list A) : option A :=
    find (fun y => match cmp x y with Eq => true | _ => false end) l.
  (** first element that is not below [x] *)
  Definition set_lower (x : A) (l : list A) : option A :=
    find (fun y => match cmp x y with Gt => false | _ => true end) l.
  (** first element above [x] *)
  Definition set_above (x : A) (l : list A) : option A :=
    find (fun y => match cmp x y with Lt => true | _ => false end) l.
  (** last element below [x] *)
  Definition set_below (x : A) (l : list A) : option A :=
    find (fun y => match cmp x y with Gt => true | _ => false end) (rev l).
End Spec.

(** In-order contents of a tree. *)
Fixpoint elements {A} (t : tree A) : list A :=
  match t with
  | Leaf => []
  | Node _ l x r => elements l ++ x :: elements r
  end.

Definition bst {A} (cmp : A -> A -> comparison) (t : tree A) : Prop :=
  StronglySorted (lt cmp) (elements t).

(** [s] is the subtree of [t] rooted at some node (or Leaf) *)
Inductive subtree {A} : tree A -> tree A -> Prop :=
| sub_refl : forall t, subtree t t
| sub_l : forall s v l x r, subtree s l -> subtree s (Node v l x r)
| sub_r : forall s v l x r, subtree s r -> subtree s (Node v l x r).
