(** The intrusive doubly linked lists, pointer by pointer: struct colist
    (/repo/neco.c:3268-3315), used for every waiting queue, and struct sco_list
    (1935-1976), used for the ready lists, which has the same layout and code.
    A heap gives the next and prev field of every address. *)
From Coq Require Import ZArith List Bool Lia.
Import ListNotations.
Local Open Scope Z_scope.

Notation ptr := Z (only parsing).
Definition NULL : ptr := 0.
Record heap := mkheap { nxt : ptr -> ptr; prv : ptr -> ptr }.
Definition setn (h : heap) (p v : ptr) : heap := mkheap (fun q => if q =? p then v else nxt h q) (prv h).
Definition setp (h : heap) (p v : ptr) : heap := mkheap (nxt h) (fun q => if q =? p then v else prv h q).

(** remove_from_list, /repo/neco.c:3280-3286; sco_remove_from_list, 1944-1949 *)
Definition remove_from_list (h : heap) (x : ptr) : heap :=
  let h := setn h (prv h x) (nxt h x) in
  let h := setp h (nxt h x) (prv h x) in
  let h := setn h x x in
  setp h x x.

(** A list is given by the addresses of its head and tail sentinels. *)
(** colist_init, /repo/neco.c:3288-3293; sco_list_init, 1936-1941 *)
Definition colist_init (h : heap) (a z : ptr) : heap :=
  let h := setp h a NULL in
  let h := setn h a z in
  let h := setp h z a in
  setn h z NULL.

(** a new node linked to itself: coroutine_new, /repo/neco.c:3754-3755; select
    cases, 6344-6345; sco_entry, 2012-2013 *)
Definition node_init (h : heap) (x : ptr) : heap := setp (setn h x x) x x.

(** colist_push_back, /repo/neco.c:3295-3302; sco_list_push_back, 1968-1974 *)
Definition push_back (h : heap) (a z x : ptr) : heap :=
  let h := remove_from_list h x in
  let h := setn h (prv h z) x in
  let h := setp h x (prv h z) in
  let h := setn h x z in
  setp h z x.

(** colist_pop_front, /repo/neco.c:3304-3311; sco_list_pop_front, 1959-1966 *)
Definition pop_front (h : heap) (a z : ptr) : heap * ptr :=
  let x := nxt h a in
  if x =? z then (h, NULL) else (remove_from_list h x, x).

(** colist_is_empty, /repo/neco.c:3313-3315 *)
Definition is_empty (h : heap) (a z : ptr) : bool := nxt h a =? z.

(** "Convert the yielders to runners" in sco_switch, /repo/neco.c:1991-1996:
    runners (ra, rz), yielders (ya, yz) *)
Definition splice (h : heap) (ra rz ya yz : ptr) : heap :=
  let h := setn h ra (nxt h ya) in
  let h := setp h (nxt h ra) ra in
  let h := setp h rz (prv h yz) in
  let h := setn h (prv h rz) rz in
  let h := setn h ya yz in
  setp h yz ya.

(** Operations of a client, and their execution on the heap. *)
Inductive op :=
| NewList (a z : ptr) | NewNode (x : ptr) | Push (a z x : ptr) | Pop (a z : ptr)
| Remove (x : ptr) | Empty (a z : ptr) | Splice (ra rz ya yz : ptr).
Definition cstep (h : heap) (o : op) : heap * ptr :=
  match o with
  | NewList a z => (colist_init h a z, NULL)
  | NewNode x => (node_init h x, NULL)
  | Push a z x => (push_back h a z x, NULL)
  | Pop a z => pop_front h a z
  | Remove x => (remove_from_list h x, NULL)
  | Empty a z => (h, if is_empty h a z then 1 else 0)
  | Splice ra rz ya yz => (splice h ra rz ya yz, NULL)
  end.
Fixpoint crun (h : heap) (os : list op) : heap * list ptr :=
  match os with
  | [] => (h, [])
  | o :: os => let '(h, r) := cstep h o in let '(h, rs) := crun h os in (h, r :: rs)
  end.
