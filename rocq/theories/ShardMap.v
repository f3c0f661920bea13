(** The sharded maps: comap (/repo/neco.c:3487-3509), evmap (3522-3547) and
    sco_map (1873-1902). Each is an array of 512 AA trees; a key belongs to the
    tree selected by a hash. The array is a function from shard index to tree. *)
From Coq Require Import ZArith List Bool Lia.
From Verif Require Import AATree AATreeHist.
Import ListNotations.
Local Open Scope Z_scope.

Definition W64 : Z := 2 ^ 64.
(** mix13, /repo/neco.c:2938-2945, and sco_mix13, 1856-1863 (uint64_t arithmetic) *)
Definition mix13 (key : Z) : Z :=
  let key := key mod W64 in
  let key := Z.lxor key (Z.shiftr key 30) in
  let key := (key * 13787848793156543929) mod W64 in
  let key := Z.lxor key (Z.shiftr key 27) in
  let key := (key * 10723151780598845931) mod W64 in
  Z.lxor key (Z.shiftr key 31).
Definition NSHARDS : Z := 512.
(** comap_getaat, /repo/neco.c:3496-3497; scp_map_getaat, 1882-1883 *)
Definition id_shard (id : Z) : Z := Z.land (mix13 id) (NSHARDS - 1).
(** evmap_getaat, /repo/neco.c:3531; keys are (evfd, evkind, id) *)
Definition ev_shard (k : Z * Z * Z) : Z := id_shard (fst (fst k)).

Section Map.
  Context {A : Type}.
  Variable cmp : A -> A -> comparison.
  Variable shard : A -> Z.
  Definition smap := Z -> tree A.
  Definition mempty : smap := fun _ => Leaf.
  Definition upd (m : smap) (i : Z) (t : tree A) : smap := fun j => if j =? i then t else m j.
  (** comap_insert /repo/neco.c:3499-3503, evmap_insert 3533-3537, sco_map_insert
      1885-1891 (the element count is not modelled: nothing reads it) *)
  Definition minsert (m : smap) (x : A) : smap * option A :=
    let '(t, prev) := insert cmp (m (shard x)) x in (upd m (shard x) t, prev).
  (** comap_delete /repo/neco.c:3509-3513, evmap_delete 3547-3551, sco_map_delete
      1893-1899; [None] is undefined behaviour in the tree code *)
  Definition mdelete (m : smap) (x : A) : option (smap * option A) :=
    match delete cmp (m (shard x)) x with
    | (Some t, prev) => Some (upd m (shard x) t, prev)
    | (None, _) => None
    end.
  (** comap_search, /repo/neco.c:3505-3507 *)
  Definition msearch (m : smap) (x : A) : option A := search cmp (m (shard x)) x.
  (** evmap_iter, /repo/neco.c:3539-3541 *)
  Definition miter (m : smap) (x : A) : tree A := iter cmp (m (shard x)) x.

  Inductive mop := MIns (x : A) | MDel (x : A).
  Definition mstep (m : smap) (o : mop) : option (smap * option A) :=
    match o with MIns x => Some (minsert m x) | MDel x => mdelete m x end.
  Fixpoint mrun (m : smap) (os : list mop) : option (smap * list (option A)) :=
    match os with
    | [] => Some (m, [])
    | o :: os => match mstep m o with
                 | Some (m, r) => match mrun m os with Some (m, rs) => Some (m, r :: rs) | None => None end
                 | None => None
                 end
    end.

  (** The loop "while (co && match) { ...; co = evmap_next(co); }" of
      /repo/neco.c:4131-4135 over one shard; fuel bounds the iterations and
      running out of it, or undefined behaviour in next, is [None]. *)
  Fixpoint walk (fuel : nat) (t node : tree A) (p : A -> bool) : option (list A) :=
    match node with
    | Leaf => Some []
    | Node _ _ x _ =>
        if p x then
          match fuel with
          | O => None
          | S f => match next cmp t node with
                   | Some n => match walk f t n p with Some l => Some (x :: l) | None => None end
                   | None => None
                   end
          end
        else Some []
    end.
End Map.
Arguments MIns {A}. Arguments MDel {A}.
