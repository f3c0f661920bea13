(** The coroutine stack manager: stack.c, /repo/neco.c:2226-2619, the mmap path (not
    the onlymalloc path, where each stack is one malloc block, nor _WIN32).
    size_t arithmetic wraps at 2^64. What mmap returns is the environment's choice of
    an address range overlapping no mapped range (any other answer counts as failure);
    mprotect may fail. The intrusive lists are Coq lists (C28 proves that kind of list
    correct): groups oldest first, freed stacks newest first. Removing a stack that is
    not on the free list dereferences stale links: undefined behaviour ([None]). *)
From Coq Require Import List ZArith Bool.
Import ListNotations.
Local Open Scope Z_scope.

Definition M64 : Z := 18446744073709551616.
Definition w64 (x : Z) : Z := x mod M64.
(** stack_align_size, 2296-2300 *)
Definition align_size (size boundary : Z) : Z :=
  if size <? boundary then boundary
  else if Z.land size (boundary - 1) =? 0 then size else w64 (size + boundary - Z.land size (boundary - 1)).
(** struct stack_opts *)
Record sopts := mkso { o_stacksz : Z; o_defcap : Z; o_maxcap : Z; o_gapsz : Z; o_guards : bool; o_nofree : bool; o_norelease : bool }.
Record smgr := mksm { pagesz : Z; stacksz : Z; defcap : Z; maxcap : Z; gapsz : Z; useguards : bool; nofree : bool; norelease : bool }.
(** stack_mgr_init_, 2408-2439 *)
Definition mgr_init (page : Z) (o : sopts) : smgr :=
  mksm page (align_size (if o_stacksz o =? 0 then 8388608 else o_stacksz o) page)
    (if o_defcap o =? 0 then 4 else o_defcap o) (if o_maxcap o =? 0 then 8192 else o_maxcap o)
    (if o_gapsz o =? 0 then 1048576 else o_gapsz o) (o_guards o) (o_nofree o) (o_norelease o).
(** struct stack_group; [gbase] its own address *)
Record grp := mkg { gbase : Z; allocsz : Z; ggapsz : Z; stack0 : Z; cap : Z; pos : Z; use : Z }.
(** struct stack0: the address and the group (by its address) *)
Notation stackref := (Z * Z)%type.
Record sstate := mkss { groups : list grp; freed : list stackref }.
(** sizeof(struct stack_group) *)
Definition GROUPSZ : Z := 88.
(** stack_group_new, 2321-2364: the size to map, and the group *)
Definition group_gap (m : smgr) : Z := if gapsz m =? 0 then 0 else align_size (gapsz m) (pagesz m).
Definition group_off (m : smgr) : Z := w64 (align_size GROUPSZ (pagesz m) + group_gap m).
Definition group_size (m : smgr) (c : Z) : Z := w64 (group_off m + w64 (w64 (stacksz m + group_gap m) * c)).
Definition group_new (m : smgr) (c base : Z) : grp := mkg base (group_size m c) (group_gap m) (w64 (base + group_off m)) c 0 0.

Inductive sev :=
| SMap (a n : Z) | SUnmap (a n : Z)       (* mmap NULL, munmap *)
| SProt (a n : Z)                          (* mprotect PROT_NONE *)
| SRemap (a n : Z)                         (* mmap MAP_FIXED *)
| SGet (a b : Z) | SPut (a b : Z).         (* stack handed out, given back: address, group *)
Definition disjoint (a n b k : Z) : bool := (a + n <=? b) || (b + k <=? a).
(** the environment's mmap: [base] or failure *)
Definition mmap_ok (gs : list grp) (base n : Z) : bool :=
  (0 <? base) && (base + n <=? M64) && forallb (fun g => disjoint base n (gbase g) (allocsz g)) gs.
Definition upd_group (b : Z) (f : grp -> grp) (gs : list grp) : list grp := map (fun g => if gbase g =? b then f g else g) gs.
Definition take (g : grp) : grp := mkg (gbase g) (allocsz g) (ggapsz g) (stack0 g) (cap g) (pos g + 1) (use g + 1).
Definition reuse (g : grp) : grp := mkg (gbase g) (allocsz g) (ggapsz g) (stack0 g) (cap g) (pos g) (use g + 1).
Definition giveup (g : grp) : grp := mkg (gbase g) (allocsz g) (ggapsz g) (stack0 g) (cap g) (pos g) (use g - 1).

(** stack_get_, 2480-2549 from 2492 on. Result: the stack or failure, the system calls
    made (newest first). *)
Definition get_slot (m : smgr) (g : grp) (prot1 prot2 : bool) (s : sstate) (evs : list sev) : option stackref * sstate * list sev :=
  let addr := w64 (stack0 g + w64 (w64 (stacksz m + ggapsz g) * pos g)) in
  let guards := if gapsz m =? 0 then false else useguards m in
  let done := (Some (addr, gbase g), mkss (upd_group (gbase g) take (groups s)) (freed s)) in
  if guards then
    let first := addr =? stack0 g in
    let evs := if first then SProt (addr - ggapsz g) (ggapsz g) :: evs else evs in
    if negb (if first then prot1 else true) then (None, s, evs)
    else
      let evs := SProt (addr + stacksz m) (ggapsz g) :: evs in
      if negb prot2 then (None, s, evs) else (done, SGet addr (gbase g) :: evs)
  else (done, SGet addr (gbase g) :: evs).
Definition stack_get (m : smgr) (mm : option Z) (prot1 prot2 : bool) (s : sstate) : option stackref * sstate * list sev :=
  match (if nofree m then [] else freed s) with
  | (a, b) :: r => (Some (a, b), mkss (upd_group b reuse (groups s)) r, [SGet a b])
  | [] =>
      let tail := last (groups s) (mkg 0 0 0 0 0 0 0) in  (* the list head has pos = cap = 0 *)
      if pos tail =? cap tail then
        let c := if cap tail =? 0 then defcap m else w64 (cap tail * 2) in
        let c := if maxcap m <? c then maxcap m else c in
        match mm with
        | Some base =>
            if mmap_ok (groups s) base (group_size m c) then
              let g := group_new m c base in
              get_slot m g prot1 prot2 (mkss (groups s ++ [g]) (freed s)) [SMap base (group_size m c)]
            else (None, s, [])
        | None => (None, s, [])
        end
      else get_slot m tail prot1 prot2 s []
  end.
(** stack_freed_remove, 2382-2390 *)
Definition freed_remove (a : Z) (l : list stackref) : option (list stackref) :=
  if existsb (fun x => fst x =? a) l then Some (filter (fun x => negb (fst x =? a)) l) else None.
(** stack_release_group, 2465-2478: the loop over i < pos *)
Fixpoint unlink (n : nat) (i : Z) (m : smgr) (g : grp) (l : list stackref) : option (list stackref) :=
  match n with
  | O => Some l
  | S n' => match freed_remove (w64 (stack0 g + w64 (w64 (stacksz m + ggapsz g) * i))) l with
            | Some l' => unlink n' (i + 1) m g l'
            | None => None
            end
  end.
(** stack_put_, 2556-2596 *)
Definition stack_put (m : smgr) (r : stackref) (s : sstate) : option (sstate * list sev) :=
  let '(a, b) := r in
  match find (fun g => gbase g =? b) (groups s) with
  | None => None
  | Some g =>
      let sz := if nofree m then stacksz m else stacksz m - pagesz m in
      let evs := if norelease m then [] else if 0 <? sz then [SRemap (if nofree m then a else a + pagesz m) sz] else [] in
      let evs := SPut a b :: evs in
      let gs := upd_group b giveup (groups s) in
      let fr := if nofree m then freed s else (a, b) :: freed s in
      if use g - 1 =? 0 then
        match (if nofree m then Some fr else unlink (Z.to_nat (pos g)) 0 m g fr) with
        | Some fr' => Some (mkss (filter (fun g => negb (gbase g =? b)) gs) fr', SUnmap b (allocsz g) :: evs)
        | None => None
        end
      else Some (mkss gs fr, evs)
  end.
(** stack_mgr_destroy_, 2447-2458 *)
Definition mgr_destroy (s : sstate) : sstate * list sev :=
  (mkss [] [], rev (map (fun g => SUnmap (gbase g) (allocsz g)) (groups s))).

Inductive sop := OGet (mm : option Z) (prot1 prot2 : bool) | OPut (r : stackref).
Definition sstep (m : smgr) (s : sstate) (o : sop) : option (sstate * list sev) :=
  match o with
  | OGet mm p1 p2 => let '(_, s', e) := stack_get m mm p1 p2 s in Some (s', e)
  | OPut r => stack_put m r s
  end.
