(** The i386 context switch of llco (neco.c:718-778), instruction by
    instruction; the counterpart of [Asm.v].

    Simplified as there: memory is a map from addresses to aligned 32-bit words,
    no wrap-around, registers that the routine does not name are left out, [fpc]
    stands for the floating-point control words.  The instruction sizes only
    matter through the distance between two labels, which the assembler computes. *)
From Coq Require Import List ZArith Bool Lia.
Import ListNotations.
Open Scope Z_scope.

Inductive reg := EAX | ECX | EDX | EBX | ESP | EBP | ESI | EDI.

Definition reg_eqb (a b : reg) : bool :=
  match a, b with
  | EAX, EAX | ECX, ECX | EDX, EDX | EBX, EBX | ESP, ESP | EBP, EBP | ESI, ESI | EDI, EDI => true
  | _, _ => false
  end.

(** The instructions that occur (neco.c:743-761), AT&T operand order. *)
Inductive instr :=
| ICall (disp : Z)                        (* call, relative to the next instruction *)
| IPop (rd : reg)                         (* popl rd *)
| IAdd (imm : Z) (rd : reg)               (* addl $imm, rd *)
| IStore (rs : reg) (off : Z) (rb : reg)  (* movl rs, off(rb) *)
| ILoad (off : Z) (rb : reg) (rd : reg)   (* movl off(rb), rd *)
| IJmpM (rb : reg)                        (* jmp *(rb) *)
| IRet.                                   (* ret *)

(** bytes: a base of %esp needs a SIB byte, an offset of 0 no displacement *)
Definition isize (i : instr) : Z :=
  match i with
  | ICall _ => 5
  | IPop _ => 1
  | IAdd _ _ => 3
  | IStore _ off rb | ILoad off rb _ =>
      2 + (if off =? 0 then 0 else 1) + (if reg_eqb rb ESP then 1 else 0)
  | IJmpM _ => 2
  | IRet => 1
  end.

(** [_llco_asm_switch] (neco.c:743-761); label 1 is at 5 and label 2 at 51. *)
Definition asm_switch : list instr :=
  [ ICall 0;
    IPop ECX;
    IAdd 46 ECX;
    ILoad 4 ESP EAX;
    ILoad 8 ESP EDX;
    IStore ECX 0 EAX;
    IStore ESP 4 EAX;
    IStore EBP 8 EAX;
    IStore EBX 12 EAX;
    IStore ESI 16 EAX;
    IStore EDI 20 EAX;
    ILoad 20 EDX EDI;
    ILoad 16 EDX ESI;
    ILoad 12 EDX EBX;
    ILoad 8 EDX EBP;
    ILoad 4 EDX ESP;
    IJmpM EDX;
    IRet ].

(** Where the linker put the routine and the C function [llco_entry]
    (neco.c:1192-1196). *)
Record image := mkimg { a_switch : Z; a_llco_entry : Z }.

Record mach := mkm { rip : Z; rg : reg -> Z; mem : Z -> Z; fpc : Z }.

Fixpoint fetch_in (code : list instr) (base a : Z) : option (instr * Z) :=
  match code with
  | [] => None
  | i :: rest =>
      if a =? base then Some (i, base + isize i)
      else fetch_in rest (base + isize i) a
  end.
Definition fetch (g : image) (a : Z) : option (instr * Z) :=
  fetch_in asm_switch (a_switch g) a.

Definition setr (f : reg -> Z) (r : reg) (v : Z) : reg -> Z :=
  fun x => if reg_eqb x r then v else f x.
Definition setm (f : Z -> Z) (a v : Z) : Z -> Z :=
  fun x => if x =? a then v else f x.
Definition aligned (a : Z) : bool := a mod 4 =? 0.

Definition exec1 (i : instr) (nx : Z) (m : mach) : option mach :=
  match i with
  | ICall d =>
      let sp := rg m ESP - 4 in
      if aligned sp then Some (mkm (nx + d) (setr (rg m) ESP sp) (setm (mem m) sp nx) (fpc m))
      else None
  | IPop rd =>
      if aligned (rg m ESP)
      then Some (mkm nx (setr (setr (rg m) ESP (rg m ESP + 4)) rd (mem m (rg m ESP))) (mem m) (fpc m))
      else None
  | IAdd n rd => Some (mkm nx (setr (rg m) rd (rg m rd + n)) (mem m) (fpc m))
  | IStore rs off rb =>
      let a := rg m rb + off in
      if aligned a then Some (mkm nx (rg m) (setm (mem m) a (rg m rs)) (fpc m))
      else None
  | ILoad off rb rd =>
      let a := rg m rb + off in
      if aligned a then Some (mkm nx (setr (rg m) rd (mem m a)) (mem m) (fpc m))
      else None
  | IJmpM rb =>
      if aligned (rg m rb)
      then Some (mkm (mem m (rg m rb)) (rg m) (mem m) (fpc m)) else None
  | IRet =>
      if aligned (rg m ESP)
      then Some (mkm (mem m (rg m ESP)) (setr (rg m) ESP (rg m ESP + 4))
                     (mem m) (fpc m))
      else None
  end.

Definition mstep (g : image) (m : mach) : option mach :=
  match fetch g (rip m) with
  | Some (i, nx) => exec1 i nx m
  | None => None
  end.

Fixpoint msteps (g : image) (n : nat) (m : mach) : option mach :=
  match n with
  | O => Some m
  | S k => match mstep g m with Some m' => msteps g k m' | None => None end
  end.

(** [struct llco_asmctx ctx = { 0 }] followed by llco_asmctx_make (neco.c:767-776,
    1225-1226): the context is cleared, a dummy return address and the argument are
    put 20 bytes below the end of the stack, and eip and esp are set. *)
Definition dummy_ret : Z := 3735936685. (* 0xdeaddead *)

Definition asmctx_make (g : image) (f : Z -> Z) (ctx stack size arg : Z) : Z -> Z :=
  let f := fold_left (fun f i => setm f (ctx + 4 * i) 0) [0; 1; 2; 3; 4; 5] f in
  let top := stack + size - 16 - 4 in
  let f := setm f top dummy_ret in
  let f := setm f (top + 4) arg in
  let f := setm f ctx (a_llco_entry g) in
  setm f (ctx + 4) top.

(** Who may use which memory: as in [Asm.v]; a context block has 6 words. *)
Record layout := mkL {
  img : image;
  cx : nat -> Z;
  own : nat -> Z -> Prop;
  stk : nat -> Z;
  ssz : nat -> Z
}.

Definition block (c a : Z) : Prop := exists i, 0 <= i < 6 /\ a = c + 4 * i.

Record layout_ok (L : layout) : Prop := {
  lo_align : forall n, cx L n mod 4 = 0;
  lo_block : forall n a, block (cx L n) a -> own L n a;
  lo_disj : forall n k a, own L n a -> own L k a -> n = k;
  lo_stk : forall n, stk L n mod 16 = 0 /\ ssz L n mod 16 = 0 /\ 16384 <= ssz L n;
  lo_in : forall n a, (0 < n)%nat -> stk L n <= a < stk L n + ssz L n -> own L n a
}.

Inductive status := Unused | Running | Suspended (m : mach).

Record sys := mks { mc : mach; cur : nat; stat : nat -> status }.

Definition sets (f : nat -> status) (k : nat) (v : status) : nat -> status :=
  fun n => if Nat.eqb n k then v else f n.

(** Called by context [k] as [_llco_asm_switch(&k->ctx, to)]: the return address is
    on top of [k]'s own stack with the two arguments above it, and there is room for
    one word below it; neither is inside the context block. *)
Definition at_switch (L : layout) (k : nat) (to : Z) (m : mach) : Prop :=
  rip m = a_switch (img L) /\ rg m ESP mod 4 = 0 /\
  mem m (rg m ESP + 4) = cx L k /\ mem m (rg m ESP + 8) = to /\
  own L k (rg m ESP) /\ ~ block (cx L k) (rg m ESP) /\
  own L k (rg m ESP - 4) /\ ~ block (cx L k) (rg m ESP - 4).

(** As in [Asm.v] (neco.c:1221-1228, 1295-1303): compute, switch (17 instructions and
    the [ret] there), start (17 instructions; [tc] is in the caller's frame, above
    the stack pointer). *)
Inductive sstep (L : layout) : sys -> sys -> Prop :=
| SCompute : forall s m',
    (forall n m0 a, stat s n = Suspended m0 -> own L n a ->
       mem m' a = mem (mc s) a) ->
    sstep L s (mks m' (cur s) (stat s))
| SSwitch : forall s j m0 m' (fin : bool),
    stat s j = Suspended m0 -> j <> cur s ->
    at_switch L (cur s) (cx L j) (mc s) ->
    msteps (img L) 18 (mc s) = Some m' ->
    sstep L s (mks m' j
      (sets (sets (stat s) (cur s) (if fin then Unused else Suspended (mc s)))
            j Running))
| SStart : forall s n tc f m' (fin : bool),
    stat s n = Unused -> n <> cur s -> (0 < n)%nat ->
    at_switch L (cur s) tc (mc s) ->
    tc mod 4 = 0 -> (forall a, block tc a -> own L (cur s) a) ->
    (forall a, block tc a -> ~ block (cx L (cur s)) a /\ rg (mc s) ESP <= a) ->
    (forall a, mem (mc s) a = asmctx_make (img L) f tc (stk L n) (ssz L n) 0 a) ->
    msteps (img L) 17 (mc s) = Some m' ->
    sstep L s (mks m' n
      (sets (sets (stat s) (cur s) (if fin then Unused else Suspended (mc s)))
            n Running)).

(** The thread begins in context 0. *)
Inductive sreach (L : layout) : sys -> Prop :=
| sreach_init : forall m,
    sreach L (mks m 0 (sets (fun _ => Unused) 0 Running))
| sreach_step : forall s s', sreach L s -> sstep L s s' -> sreach L s'.
