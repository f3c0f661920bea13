(** Arguments of a new coroutine: start, /repo/neco.c:3868-3880, coentry 3830-3832,
    cofreeargs 3763-3769, aargv 3332. Pointers are values of Z; memory blocks from
    malloc0 are finite maps from an index to a value. Reading or writing outside a
    block or through a freed or null pointer is undefined behaviour ([None]).
    Not modelled: the va_list machinery (va_arg yields the next argument). *)
From Coq Require Import List ZArith Bool Lia.
Import ListNotations.
Local Open Scope nat_scope.

(** where co->argv points *)
Inductive aptr := ANull | AInline | AHeap (a : nat).
Record argrec := mkar { aargv : nat -> Z; argv : aptr; argc : nat }.
(** heap blocks: size in pointers and contents *)
Definition heap := nat -> option (nat * (nat -> Z)).
Definition hset (h : heap) (a : nat) (x : option (nat * (nat -> Z))) : heap := fun b => if Nat.eqb b a then x else h b.
(** the number of elements of co->aargv *)
Definition NARGV : nat := 4.

Definition awrite (i : nat) (v : Z) (r : argrec) (h : heap) : option (argrec * heap) :=
  match argv r with
  | ANull => None
  | AInline => if i <? NARGV then Some (mkar (fun j => if Nat.eqb j i then v else aargv r j) (argv r) (argc r), h) else None
  | AHeap a => match h a with
               | Some (n, m) => if i <? n then Some (r, hset h a (Some (n, fun j => if Nat.eqb j i then v else m j))) else None
               | None => None
               end
  end.
Definition aread (i : nat) (r : argrec) (h : heap) : option Z :=
  match argv r with
  | ANull => None
  | AInline => if i <? NARGV then Some (aargv r i) else None
  | AHeap a => match h a with Some (n, m) => if i <? n then Some (m i) else None | None => None end
  end.
(** the copy loop 3878-3880: [src i] is va_arg's i-th result or argv[i] *)
Fixpoint acopy (n i : nat) (src : nat -> Z) (r : argrec) (h : heap) : option (argrec * heap) :=
  match n with
  | O => Some (r, h)
  | S n' => match awrite i (src i) r h with
            | Some (r', h') => acopy n' (S i) src r' h'
            | None => None
            end
  end.
Inductive ares := ADone (r : argrec) (h : heap) | ANomem | AUB.
(** [m]: the block malloc0 returns, fresh, or failure *)
Definition set_args (n : nat) (src : nat -> Z) (m : option nat) (r : argrec) (h : heap) : ares :=
  let go r h := match acopy n 0 src r h with Some (r', h') => ADone r' h' | None => AUB end in
  if n <=? NARGV then go (mkar (aargv r) AInline n) h
  else match m with
       | Some a => match h a with
                   | Some _ => ANomem
                   | None => go (mkar (aargv r) (AHeap a) n) (hset h a (Some (n, fun _ => 0%Z)))
                   end
       | None => ANomem
       end.
(** cofreeargs *)
Definition free_args (r : argrec) (h : heap) : option (argrec * heap) :=
  match argv r with
  | AHeap a => match h a with
               | Some _ => Some (mkar (aargv r) ANull 0, hset h a None)
               | None => None
               end
  | _ => Some (mkar (aargv r) ANull 0, h)
  end.
(** what the coroutine function sees, coentry 3831: argc and argv[0..argc-1] *)
Fixpoint areads (n i : nat) (r : argrec) (h : heap) : option (list Z) :=
  match n with
  | O => Some []
  | S n' => match aread i r h, areads n' (S i) r h with
            | Some v, Some l => Some (v :: l)
            | _, _ => None
            end
  end.
Definition received (r : argrec) (h : heap) : option (nat * list Z) :=
  match areads (argc r) 0 r h with Some l => Some (argc r, l) | None => None end.
