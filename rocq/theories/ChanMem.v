(** Channel memory: creation, reference counting, the pool of zero-size channels
    (/repo/neco.c:5778-5803, 5862-5942) and the ring buffer (/repo/neco.c:5750-5776).
    Addresses are abstract; [malloc0] is the environment's choice of an address (or
    failure). A block is [Live] with its counter and message size, in the [Pool],
    or not allocated. Using a block that is not live, and counter overflow, are
    undefined behaviour ([None]). Not modelled: the closed flags, rtid and the waiting queue. *)
From Coq Require Import List ZArith Bool Lia.
Import ListNotations.
Local Open Scope Z_scope.

Definition addr := nat.
Inductive slot := Unalloc | Live (rc msgsize : Z) | Pooled.
Record cmem := mkcm { cells : addr -> slot; pool : list addr; poolcap : Z }.
Definition setc (a : addr) (x : slot) (s : cmem) : cmem :=
  mkcm (fun b => if Nat.eqb b a then x else cells s b) (pool s) (poolcap s).

Inductive cop :=
| CMake (dsize cap : Z) (gen : bool) (m : option addr)  (* m: what malloc0 returns *)
| CRetain (a : addr)
| CRelease (a : addr) (r : bool).                        (* r: whether realloc0 succeeds *)
(** observable effects: the channel handed out, the block freed, the block pooled *)
Inductive cev := EvMake (a : addr) | EvNomem | EvInval | EvRetain (a : addr) | EvRelease (a : addr) (gone : bool).

Definition INTMAX : Z := 2147483647.
Definition pool_len (s : cmem) : Z := Z.of_nat (length (pool s)).

(** chan_make / chan_fastmake, /repo/neco.c:5778-5815; the pool is used as a stack.
    malloc0 returns memory that is in no use: other answers of the environment are
    taken as failure. *)
Definition is_free (x : slot) : bool := match x with Unalloc => true | _ => false end.
Definition make (dsize cap : Z) (gen : bool) (m : option addr) (s : cmem) : cmem * cev :=
  if (INTMAX <? dsize) || (INTMAX <? cap) then (s, EvInval)
  else
    let ring := if gen then 0 else dsize * (cap + 1) in
    match pool s with
    | a :: p => if ring =? 0 then (setc a (Live 0 dsize) (mkcm (cells s) p (poolcap s)), EvMake a)
                else match m with
                     | Some b => if is_free (cells s b) then (setc b (Live 0 dsize) s, EvMake b) else (s, EvNomem)
                     | None => (s, EvNomem)
                     end
    | [] => match m with
            | Some b => if is_free (cells s b) then (setc b (Live 0 dsize) s, EvMake b) else (s, EvNomem)
            | None => (s, EvNomem)
            end
    end.
(** chan_fastretain, /repo/neco.c:5862-5864: rc is an int *)
Definition retain (a : addr) (s : cmem) : option cmem :=
  match cells s a with
  | Live rc sz => if rc =? INTMAX then None else Some (setc a (Live (rc + 1) sz) s)
  | _ => None
  end.
(** zchanpush, /repo/neco.c:5901-5917 *)
Definition zchanpush (a : addr) (r : bool) (s : cmem) : option cmem :=
  if pool_len s =? poolcap s then
    if poolcap s =? 256 then None
    else if r then Some (mkcm (cells s) (a :: pool s) (if poolcap s =? 0 then 16 else poolcap s * 2)) else None
  else Some (mkcm (cells s) (a :: pool s) (poolcap s)).
(** chan_fastrelease, /repo/neco.c:5919-5926; second component: the block is gone *)
Definition release (a : addr) (r : bool) (s : cmem) : option (cmem * bool) :=
  match cells s a with
  | Live rc sz =>
      let rc := rc - 1 in
      if rc <? 0 then
        if 0 <? sz then Some (setc a Unalloc s, true)
        else match zchanpush a r s with
             | Some s' => Some (setc a Pooled s', true)
             | None => Some (setc a Unalloc s, true)
             end
      else Some (setc a (Live rc sz) s, false)
  | _ => None
  end.
Definition cstep (s : cmem) (o : cop) : option (cmem * cev) :=
  match o with
  | CMake d c g m => Some (make d c g m s)
  | CRetain a => match retain a s with Some s' => Some (s', EvRetain a) | None => None end
  | CRelease a r => match release a r s with Some (s', g) => Some (s', EvRelease a g) | None => None end
  end.
Definition cinit : cmem := mkcm (fun _ => Unalloc) [] 0.
Fixpoint crun (s : cmem) (os : list cop) : option (cmem * list cev) :=
  match os with
  | [] => Some (s, [])
  | o :: r => match cstep s o with
              | Some (s', e) => match crun s' r with Some (s'', es) => Some (s'', e :: es) | None => None end
              | None => None
              end
  end.

(** * The ring buffer, /repo/neco.c:5745-5776: a slot holds one message of [msgsize]
    bytes; messages are taken as values. *)
Record ring := mkring { slots : Z -> Z; bcap : Z; blen : Z; bpos : Z }.
Definition cbuf_push (v : Z) (b : ring) : ring :=
  let pos := bpos b + blen b in
  let pos := if bcap b <=? pos then pos - bcap b else pos in
  mkring (fun i => if i =? pos then v else slots b i) (bcap b) (blen b + 1) (bpos b).
Definition cbuf_pop (b : ring) : Z * ring :=
  let v := slots b (bpos b) in
  let p := bpos b + 1 in
  let p := if p =? bcap b then 0 else p in
  (v, mkring (slots b) (bcap b) (blen b - 1) p).
Definition ring0 (cap : Z) : ring := mkring (fun _ => 0) cap 0 0.
