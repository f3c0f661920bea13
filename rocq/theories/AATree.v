(** Model of the AA-tree generator macro AAT_IMPL, /repo/neco.c:1475-1798.

    A C node is a struct with [left], [right] and [level] fields; a pointer to
    a node is modelled by the subtree it is the root of, [NULL] by [Leaf].
    The payload of a node (the item pointer itself) is its element [x].
    Simplifications:
    - the tree is a functional value, so an in-place update of a child pointer
      is modelled by rebuilding the parent node (the C code always writes the
      new child back into its parent);
    - [prefix##_clear] (1493-1499) only zeroes the fields of a node that has
      just been unlinked, which the functional tree does not contain any more;
    - in [next]/[prev] the pointer comparison [parent->left != node] is
      modelled by comparing the elements with [cmp] (two nodes of one tree with
      equal keys are the same node, because keys are unique in the tree). *)
From Coq Require Import List Arith Lia Bool.
Import ListNotations.

Inductive tree (A : Type) : Type :=
| Leaf : tree A
| Node : nat -> tree A -> A -> tree A -> tree A.
Arguments Leaf {A}.
Arguments Node {A} _ _ _ _.

Section Model.
  Context {A : Type}.
  Variable cmp : A -> A -> comparison.

  (** the [level] field; the C code never reads it through NULL
      (/repo/neco.c:1502-1503, 1514-1515, 1561-1571) *)
  Definition lvl (t : tree A) : nat :=
    match t with Leaf => 0 | Node v _ _ _ => v end.

  (** /repo/neco.c:1501-1511 *)
  Definition skew (t : tree A) : tree A :=
    match t with
    | Node v (Node lv ll lx lr) x r =>
        if lv =? v then Node lv ll lx (Node v lr x r) else t
    | _ => t
    end.

  (** /repo/neco.c:1513-1524 *)
  Definition split (t : tree A) : tree A :=
    match t with
    | Node v l x (Node rv rl rx (Node rrv rrl rrx rrr)) =>
        if rrv =? v
        then Node (S rv) (Node v l x rl) rx (Node rrv rrl rrx rrr)
        else t
    | _ => t
    end.

  (** /repo/neco.c:1526-1549; the second component is [*replaced] *)
  Fixpoint insert0 (t : tree A) (item : A) : tree A * option A :=
    match t with
    | Leaf => (split (skew (Node 1 Leaf item Leaf)), None)
    | Node v l x r =>
        match cmp item x with
        | Lt => let '(l', rep) := insert0 l item in
                (split (skew (Node v l' x r)), rep)
        | Gt => let '(r', rep) := insert0 r item in
                (split (skew (Node v l x r')), rep)
        | Eq => (split (skew (Node v l item r)), Some x)
        end
    end.

  (** /repo/neco.c:1551-1558 *)
  Definition insert (t : tree A) (item : A) : tree A * option A := insert0 t item.

  Definition is_leaf (t : tree A) : bool :=
    match t with Leaf => true | _ => false end.

  Definition set_lvl (n : nat) (t : tree A) : tree A :=
    match t with Leaf => Leaf | Node _ l x r => Node n l x r end.

  (** /repo/neco.c:1560-1579 *)
  Definition decrease_level (t : tree A) : tree A :=
    match t with
    | Leaf => Leaf
    | Node v l x r =>
        if is_leaf l && is_leaf r then t else
        let new0 := if negb (is_leaf l) && negb (is_leaf r)
                    then (if lvl l <? lvl r then lvl l else lvl r) else 0 in
        let new := S new0 in
        if new <? v then
          Node new l x
            (if negb (is_leaf r) && (new <? lvl r) then set_lvl new r else r)
        else t
    end.

  (** [node->right = f(node->right)] *)
  Definition on_right (f : tree A -> tree A) (t : tree A) : tree A :=
    match t with Leaf => Leaf | Node v l x r => Node v l x (f r) end.

  (** /repo/neco.c:1581-1591 *)
  Definition delete_fixup (t : tree A) : tree A :=
    let t := decrease_level t in
    let t := skew t in
    let t := on_right skew t in
    let t := match t with
             | Node v l x (Node rv rl rx (Node a b c d)) =>
                 on_right (on_right skew) t
             | _ => t
             end in
    let t := split t in
    on_right split t.

  (** /repo/neco.c:1593-1610 *)
  Fixpoint delete_first0 (t : tree A) : tree A * option A :=
    match t with
    | Leaf => (Leaf, None)
    | Node v Leaf x r => (r, Some x)
    | Node v l x r =>
        let '(l', d) := delete_first0 l in
        (delete_fixup (Node v l' x r), d)
    end.

  (** /repo/neco.c:1612-1629 *)
  Fixpoint delete_last0 (t : tree A) : tree A * option A :=
    match t with
    | Leaf => (Leaf, None)
    | Node v l x Leaf => (l, Some x)
    | Node v l x r =>
        let '(r', d) := delete_last0 r in
        (delete_fixup (Node v l x r'), d)
    end.

  (** /repo/neco.c:1631-1636 and 1638-1643 *)
  Definition delete_first (t : tree A) := delete_first0 t.
  Definition delete_last (t : tree A) := delete_last0 t.

  (** /repo/neco.c:1645-1678. [None] in the first component is the undefined
      behaviour of dereferencing a NULL [leaf_deleted] (lines 1667-1669). *)
  Fixpoint delete0 (t : tree A) (key : A) : option (tree A) * option A :=
    match t with
    | Leaf => (Some Leaf, None)
    | Node v l x r =>
        match cmp key x with
        | Lt => let '(l', d) := delete0 l key in
                (match l' with
                 | None => None
                 | Some l' => Some (delete_fixup (Node v l' x r)) end, d)
        | Gt => let '(r', d) := delete0 r key in
                (match r' with
                 | None => None
                 | Some r' => Some (delete_fixup (Node v l x r')) end, d)
        | Eq =>
            (match l, r with
             | Leaf, Leaf => Some Leaf
             | Leaf, _ =>
                 match delete_first0 r with
                 | (r', Some m) => Some (delete_fixup (Node v l m r'))
                 | (_, None) => None
                 end
             | _, _ =>
                 match delete_last0 l with
                 | (l', Some m) => Some (delete_fixup (Node v l' m r))
                 | (_, None) => None
                 end
             end, Some x)
        end
    end.

  (** /repo/neco.c:1680-1685 *)
  Definition delete (t : tree A) (key : A) := delete0 t key.

  (** /repo/neco.c:1687-1702; the loop descends, hence structural recursion *)
  Fixpoint search (t : tree A) (key : A) : option A :=
    match t with
    | Leaf => None
    | Node _ l x r =>
        match cmp key x with
        | Lt => search l key
        | Gt => search r key
        | Eq => Some x
        end
    end.

  (** /repo/neco.c:1704-1712 and 1714-1722, returning the node *)
  Fixpoint first_node (t : tree A) : tree A :=
    match t with
    | Leaf => Leaf
    | Node _ Leaf _ _ => t
    | Node _ l _ _ => first_node l
    end.
  Fixpoint last_node (t : tree A) : tree A :=
    match t with
    | Leaf => Leaf
    | Node _ _ _ Leaf => t
    | Node _ _ _ r => last_node r
    end.
  Definition elt (t : tree A) : option A :=
    match t with Leaf => None | Node _ _ x _ => Some x end.
  Definition first (t : tree A) : option A := elt (first_node t).
  Definition last (t : tree A) : option A := elt (last_node t).

  (** /repo/neco.c:1724-1740; [found] is the accumulator variable *)
  Fixpoint iter0 (t : tree A) (key : A) (found : tree A) : tree A :=
    match t with
    | Leaf => found
    | Node _ l x r =>
        match cmp key x with
        | Lt => iter0 l key t
        | Gt => iter0 r key found
        | Eq => t
        end
    end.
  Definition iter (t : tree A) (key : A) : tree A := iter0 t key Leaf.

  (** /repo/neco.c:1742-1760 *)
  Fixpoint parent0 (t : tree A) (item : A) (par : tree A) : tree A :=
    match t with
    | Leaf => par
    | Node _ l x r =>
        match cmp item x with
        | Lt => parent0 l item t
        | Gt => parent0 r item t
        | Eq => par
        end
    end.
  Definition parent (root : tree A) (item : A) : tree A := parent0 root item Leaf.

  (** [t] is the node whose item is [x] (pointer comparison, see header) *)
  Definition is_node (t : tree A) (x : A) : bool :=
    match t with
    | Leaf => false
    | Node _ _ y _ => match cmp y x with Eq => true | _ => false end
    end.

  Definition left_of (t : tree A) := match t with Leaf => Leaf | Node _ l _ _ => l end.
  Definition right_of (t : tree A) := match t with Leaf => Leaf | Node _ _ _ r => r end.

  (** the climbing loop of [next] (/repo/neco.c:1770-1775); [None] when the
      fuel is exhausted. [x] is the item of the variable [node]. *)
  Fixpoint climb_next (fuel : nat) (root : tree A) (x : A) : option (tree A) :=
    match fuel with
    | 0 => None
    | S f =>
        match parent root x with
        | Leaf => Some Leaf
        | Node v l p r =>
            if is_node l x then Some (Node v l p r) else climb_next f root p
        end
    end.
  (** the climbing loop of [prev] (/repo/neco.c:1789-1794) *)
  Fixpoint climb_prev (fuel : nat) (root : tree A) (x : A) : option (tree A) :=
    match fuel with
    | 0 => None
    | S f =>
        match parent root x with
        | Leaf => Some Leaf
        | Node v l p r =>
            if is_node r x then Some (Node v l p r) else climb_prev f root p
        end
    end.

  Fixpoint height (t : tree A) : nat :=
    match t with
    | Leaf => 0
    | Node _ l _ r => S (Nat.max (height l) (height r))
    end.

  (** /repo/neco.c:1762-1779; [node] is a subtree of [root] *)
  Definition next (root node : tree A) : option (tree A) :=
    match node with
    | Leaf => Some Leaf
    | Node _ _ x r =>
        match r with
        | Leaf => climb_next (height root) root x
        | _ => Some (first_node r)
        end
    end.
  (** /repo/neco.c:1781-1798 *)
  Definition prev (root node : tree A) : option (tree A) :=
    match node with
    | Leaf => Some Leaf
    | Node _ l x _ =>
        match l with
        | Leaf => climb_prev (height root) root x
        | _ => Some (last_node l)
        end
    end.
End Model.
