(** The AArch64 context switch of llco (neco.c:417-504), instruction by
    instruction; the counterpart of [Asm.v].

    Simplified as there: word-addressed memory, no wrap-around, registers that
    the routines do not name are left out, [fpc] stands for the floating-point
    control register FPCR.  Every instruction takes four bytes. *)
From Coq Require Import List ZArith Bool Lia.
Import ListNotations.
Open Scope Z_scope.

(** General registers by number, the stack pointer, and the low halves of the
    vector registers, which are the part a function has to preserve. *)
Inductive reg := X (n : Z) | SP | D (n : Z).

Definition reg_eqb (a b : reg) : bool :=
  match a, b with
  | X n, X k => n =? k
  | SP, SP => true
  | D n, D k => n =? k
  | _, _ => false
  end.

(** [mov rd, rs]; [stp ra, rb, [base, off]]; [ldp ra, rb, [base, off]]; [br r]. *)
Inductive instr :=
| IMov (rd rs : reg)
| IStp (ra rb : reg) (base : reg) (off : Z)
| ILdp (ra rb : reg) (base : reg) (off : Z)
| IBr (r : reg).

(** [_llco_asm_switch] (neco.c:441-468). *)
Definition asm_switch : list instr :=
  [ IMov (X 10) SP;
    IMov (X 11) (X 30);
    IStp (X 19) (X 20) (X 0) (0*16);
    IStp (X 21) (X 22) (X 0) (1*16);
    IStp (D 8) (D 9) (X 0) (7*16);
    IStp (X 23) (X 24) (X 0) (2*16);
    IStp (D 10) (D 11) (X 0) (8*16);
    IStp (X 25) (X 26) (X 0) (3*16);
    IStp (D 12) (D 13) (X 0) (9*16);
    IStp (X 27) (X 28) (X 0) (4*16);
    IStp (D 14) (D 15) (X 0) (10*16);
    IStp (X 29) (X 30) (X 0) (5*16);
    IStp (X 10) (X 11) (X 0) (6*16);
    ILdp (X 19) (X 20) (X 1) (0*16);
    ILdp (X 21) (X 22) (X 1) (1*16);
    ILdp (D 8) (D 9) (X 1) (7*16);
    ILdp (X 23) (X 24) (X 1) (2*16);
    ILdp (D 10) (D 11) (X 1) (8*16);
    ILdp (X 25) (X 26) (X 1) (3*16);
    ILdp (D 12) (D 13) (X 1) (9*16);
    ILdp (X 27) (X 28) (X 1) (4*16);
    ILdp (D 14) (D 15) (X 1) (10*16);
    ILdp (X 29) (X 30) (X 1) (5*16);
    ILdp (X 10) (X 11) (X 1) (6*16);
    IMov SP (X 10);
    IBr (X 11) ].

(** [_llco_asm_entry] (neco.c:484-486). *)
Definition asm_entry : list instr :=
  [IMov (X 0) (X 19); IMov (X 30) (X 21); IBr (X 20)].

(** Where the linker put the two routines and the C function [llco_entry]
    (neco.c:1192-1196). *)
Record image := mkimg { a_switch : Z; a_entry : Z; a_llco_entry : Z }.

Record mach := mkm { pc : Z; rg : reg -> Z; mem : Z -> Z; fpc : Z }.

Fixpoint fetch_in (code : list instr) (base a : Z) : option instr :=
  match code with
  | [] => None
  | i :: rest => if a =? base then Some i else fetch_in rest (base + 4) a
  end.

Definition fetch (g : image) (a : Z) : option instr :=
  match fetch_in asm_switch (a_switch g) a with
  | Some x => Some x
  | None => fetch_in asm_entry (a_entry g) a
  end.

Definition setr (f : reg -> Z) (r : reg) (v : Z) : reg -> Z :=
  fun x => if reg_eqb x r then v else f x.
Definition setm (f : Z -> Z) (a v : Z) : Z -> Z :=
  fun x => if x =? a then v else f x.
Definition aligned (a : Z) : bool := a mod 8 =? 0.

Definition exec1 (i : instr) (m : mach) : option mach :=
  match i with
  | IMov rd rs => Some (mkm (pc m + 4) (setr (rg m) rd (rg m rs)) (mem m) (fpc m))
  | IStp ra rb b off =>
      let a := rg m b + off in
      if aligned a then
        Some (mkm (pc m + 4) (rg m)
                (setm (setm (mem m) a (rg m ra)) (a + 8) (rg m rb)) (fpc m))
      else None
  | ILdp ra rb b off =>
      let a := rg m b + off in
      if aligned a then
        Some (mkm (pc m + 4) (setr (setr (rg m) ra (mem m a)) rb (mem m (a + 8)))
                (mem m) (fpc m))
      else None
  | IBr r => Some (mkm (rg m r) (rg m) (mem m) (fpc m))
  end.

Definition mstep (g : image) (m : mach) : option mach :=
  match fetch g (pc m) with
  | Some i => exec1 i m
  | None => None
  end.

Fixpoint msteps (g : image) (n : nat) (m : mach) : option mach :=
  match n with
  | O => Some m
  | S k => match mstep g m with Some m' => msteps g k m' | None => None end
  end.

(** [struct llco_asmctx] (neco.c:422-427): x[12], sp, lr, d[8]; cleared and then
    filled by llco_asmctx_make (neco.c:492-500). *)
Definition dummy_ret : Z := 16045725885737590445. (* 0xdeaddeaddeaddead *)

Definition asmctx_make (g : image) (f : Z -> Z) (ctx stack size arg : Z) : Z -> Z :=
  let f := fold_left (fun f i => setm f (ctx + 8 * i) 0)
             [0; 1; 2; 3; 4; 5; 6; 7; 8; 9; 10; 11; 12; 13; 14; 15; 16; 17; 18;
              19; 20; 21] f in
  let f := setm f ctx arg in
  let f := setm f (ctx + 8) (a_llco_entry g) in
  let f := setm f (ctx + 16) dummy_ret in
  let f := setm f (ctx + 96) (stack + size) in
  setm f (ctx + 104) (a_entry g).

(** Who may use which memory: as in [Asm.v]; a context block has 22 words. *)
Record layout := mkL {
  img : image;
  cx : nat -> Z;
  own : nat -> Z -> Prop;
  stk : nat -> Z;
  ssz : nat -> Z
}.

Definition block (c a : Z) : Prop := exists i, 0 <= i < 22 /\ a = c + 8 * i.

Record layout_ok (L : layout) : Prop := {
  lo_align : forall n, cx L n mod 8 = 0;
  lo_block : forall n a, block (cx L n) a -> own L n a;
  lo_disj : forall n k a, own L n a -> own L k a -> n = k;
  lo_stk : forall n, stk L n mod 16 = 0 /\ ssz L n mod 16 = 0 /\ 16384 <= ssz L n;
  lo_img : a_switch (img L) + 104 <= a_entry (img L) \/
           a_entry (img L) + 12 <= a_switch (img L)
}.

Inductive status := Unused | Running | Suspended (m : mach).

Record sys := mks { mc : mach; cur : nat; stat : nat -> status }.

Definition sets (f : nat -> status) (k : nat) (v : status) : nat -> status :=
  fun n => if Nat.eqb n k then v else f n.

(** Called by context [k] as [_llco_asm_switch(&k->ctx, to)]; the return address
    is in x30. *)
Definition at_switch (L : layout) (k : nat) (to : Z) (m : mach) : Prop :=
  pc m = a_switch (img L) /\ rg m (X 0) = cx L k /\ rg m (X 1) = to.

(** As in [Asm.v] (neco.c:1221-1228, 1295-1303): compute, switch (26
    instructions), start (26 and the three of the entry routine). *)
Inductive sstep (L : layout) : sys -> sys -> Prop :=
| SCompute : forall s m',
    (forall n m0 a, stat s n = Suspended m0 -> own L n a ->
       mem m' a = mem (mc s) a) ->
    sstep L s (mks m' (cur s) (stat s))
| SSwitch : forall s j m0 m' (fin : bool),
    stat s j = Suspended m0 -> j <> cur s ->
    at_switch L (cur s) (cx L j) (mc s) ->
    msteps (img L) 26 (mc s) = Some m' ->
    sstep L s (mks m' j
      (sets (sets (stat s) (cur s) (if fin then Unused else Suspended (mc s)))
            j Running))
| SStart : forall s n tc f m' (fin : bool),
    stat s n = Unused -> n <> cur s ->
    at_switch L (cur s) tc (mc s) ->
    tc mod 8 = 0 -> (forall a, block tc a -> own L (cur s) a) ->
    (forall a, block tc a -> ~ block (cx L (cur s)) a) ->
    (forall a, mem (mc s) a = asmctx_make (img L) f tc (stk L n) (ssz L n) 0 a) ->
    msteps (img L) 29 (mc s) = Some m' ->
    sstep L s (mks m' n
      (sets (sets (stat s) (cur s) (if fin then Unused else Suspended (mc s)))
            n Running)).

Inductive sreach (L : layout) : sys -> Prop :=
| sreach_init : forall m,
    sreach L (mks m 0 (sets (fun _ => Unused) 0 Running))
| sreach_step : forall s s', sreach L s -> sstep L s s' -> sreach L s'.
