(** The RISC-V context switch of llco (neco.c:505-716), instruction by
    instruction, in its five variants; the counterpart of [Asm.v] and [Asm64.v].

    Simplified as there: a memory cell holds one stored value (Props_AsmRv.v
    proves that the cells of a context block do not overlap), no wrap-around,
    registers that the routines do not name are left out, [fpc] stands for the
    floating-point control register fcsr.  Every instruction takes four bytes
    (the compressed encodings are left out). *)
From Coq Require Import List ZArith Bool Lia.
Import ListNotations.
Open Scope Z_scope.

(** [__riscv_xlen] and [__riscv_flen] (neco.c:518-524, 547, 563, 609, 625): RV64
    without floating point and with 64-bit registers, RV32 without, with 32-bit and
    with 64-bit floating point registers.  Other combinations are compile errors. *)
Inductive variant := RV64 | RV64D | RV32 | RV32F | RV32D.

Inductive reg := S_ (n : Z) | A_ (n : Z) | RA | SP | FS (n : Z).

Definition reg_eqb (a b : reg) : bool :=
  match a, b with
  | S_ n, S_ k => n =? k
  | A_ n, A_ k => n =? k
  | RA, RA => true
  | SP, SP => true
  | FS n, FS k => n =? k
  | _, _ => false
  end.

(** [sd/sw/fsd/fsw r, off(base)], [ld/lw/fld/flw r, off(base)] with the number of
    bytes; [mv rd, rs]; [jr r]. *)
Inductive instr :=
| ISt (sz : Z) (r base : reg) (off : Z)
| ILd (sz : Z) (r base : reg) (off : Z)
| IMv (rd rs : reg)
| IJr (r : reg).

(** The integer stores and loads (neco.c:548-562, 593-607). *)
Definition st64 : list (reg * Z) :=
  [ (S_ 0, 0x00); (S_ 1, 0x08); (S_ 2, 0x10); (S_ 3, 0x18); (S_ 4, 0x20); (S_ 5, 0x28);
    (S_ 6, 0x30); (S_ 7, 0x38); (S_ 8, 0x40); (S_ 9, 0x48); (S_ 10, 0x50); (S_ 11, 0x58);
    (RA, 0x60); (RA, 0x68); (SP, 0x70) ].
Definition ld64 : list (reg * Z) :=
  [ (S_ 0, 0x00); (S_ 1, 0x08); (S_ 2, 0x10); (S_ 3, 0x18); (S_ 4, 0x20); (S_ 5, 0x28);
    (S_ 6, 0x30); (S_ 7, 0x38); (S_ 8, 0x40); (S_ 9, 0x48); (S_ 10, 0x50); (S_ 11, 0x58);
    (RA, 0x60); (A_ 2, 0x68); (SP, 0x70) ].
(** neco.c:610-624, 680-694 *)
Definition st32 : list (reg * Z) :=
  [ (S_ 0, 0x00); (S_ 1, 0x04); (S_ 2, 0x08); (S_ 3, 0x0c); (S_ 4, 0x10); (S_ 5, 0x14);
    (S_ 6, 0x18); (S_ 7, 0x1c); (S_ 8, 0x20); (S_ 9, 0x24); (S_ 10, 0x28); (S_ 11, 0x2c);
    (RA, 0x30); (RA, 0x34); (SP, 0x38) ].
Definition ld32 : list (reg * Z) :=
  [ (S_ 0, 0x00); (S_ 1, 0x04); (S_ 2, 0x08); (S_ 3, 0x0c); (S_ 4, 0x10); (S_ 5, 0x14);
    (S_ 6, 0x18); (S_ 7, 0x1c); (S_ 8, 0x20); (S_ 9, 0x24); (S_ 10, 0x28); (S_ 11, 0x2c);
    (RA, 0x30); (A_ 2, 0x34); (SP, 0x38) ].
(** The floating point stores, and the loads in the same order: neco.c:565-588,
    627-650 and 652-675. *)
Definition f64d : list (reg * Z) :=
  [ (FS 0, 0x78); (FS 1, 0x80); (FS 2, 0x88); (FS 3, 0x90); (FS 4, 0x98); (FS 5, 0xa0);
    (FS 6, 0xa8); (FS 7, 0xb0); (FS 8, 0xb8); (FS 9, 0xc0); (FS 10, 0xc8); (FS 11, 0xd0) ].
Definition f32d : list (reg * Z) :=
  [ (FS 0, 0x3c); (FS 1, 0x44); (FS 2, 0x4c); (FS 3, 0x54); (FS 4, 0x5c); (FS 5, 0x64);
    (FS 6, 0x6c); (FS 7, 0x74); (FS 8, 0x7c); (FS 9, 0x84); (FS 10, 0x8c); (FS 11, 0x94) ].
Definition f32f : list (reg * Z) :=
  [ (FS 0, 0x3c); (FS 1, 0x40); (FS 2, 0x44); (FS 3, 0x48); (FS 4, 0x4c); (FS 5, 0x50);
    (FS 6, 0x54); (FS 7, 0x58); (FS 8, 0x5c); (FS 9, 0x60); (FS 10, 0x64); (FS 11, 0x68) ].

Definition sti (v : variant) := match v with RV64 | RV64D => st64 | _ => st32 end.
Definition ldi (v : variant) := match v with RV64 | RV64D => ld64 | _ => ld32 end.
Definition stf (v : variant) :=
  match v with RV64D => f64d | RV32F => f32f | RV32D => f32d | _ => [] end.
Definition ldf (v : variant) :=
  match v with RV64D => f64d | RV32F => f32f | RV32D => f32d | _ => [] end.
(** bytes of an integer and of a floating point access *)
Definition xw (v : variant) : Z := match v with RV64 | RV64D => 8 | _ => 4 end.
Definition fw (v : variant) : Z := match v with RV32F => 4 | _ => 8 end.

(** [_llco_asm_switch] (neco.c:541-699). *)
Definition asm_switch (v : variant) : list instr :=
  map (fun p => ISt (xw v) (fst p) (A_ 0) (snd p)) (sti v) ++
  map (fun p => ISt (fw v) (fst p) (A_ 0) (snd p)) (stf v) ++
  map (fun p => ILd (fw v) (fst p) (A_ 1) (snd p)) (ldf v) ++
  map (fun p => ILd (xw v) (fst p) (A_ 1) (snd p)) (ldi v) ++
  [IJr (A_ 2)].

(** [_llco_asm_entry] (neco.c:530-539). *)
Definition asm_entry : list instr := [IMv (A_ 0) (S_ 0); IJr (S_ 1)].

(** Where the linker put the two routines and the C function [llco_entry]
    (neco.c:1192-1196), the variant, and whether the machine performs accesses
    that are not naturally aligned (the ISA leaves it to the environment). *)
Record image := mkimg { a_switch : Z; a_entry : Z; a_llco_entry : Z;
                        var : variant; misok : bool }.

Record mach := mkm { pc : Z; rg : reg -> Z; mem : Z -> Z; fpc : Z }.

Fixpoint fetch_in (code : list instr) (base a : Z) : option instr :=
  match code with
  | [] => None
  | i :: rest => if a =? base then Some i else fetch_in rest (base + 4) a
  end.

Definition fetch (g : image) (a : Z) : option instr :=
  match fetch_in (asm_switch (var g)) (a_switch g) a with
  | Some x => Some x
  | None => fetch_in asm_entry (a_entry g) a
  end.

Definition setr (f : reg -> Z) (r : reg) (v : Z) : reg -> Z :=
  fun x => if reg_eqb x r then v else f x.
Definition setm (f : Z -> Z) (a v : Z) : Z -> Z :=
  fun x => if x =? a then v else f x.
Definition allowed (g : image) (sz a : Z) : bool := misok g || (a mod sz =? 0).

Definition exec1 (g : image) (i : instr) (m : mach) : option mach :=
  match i with
  | ISt sz r b off =>
      let a := rg m b + off in
      if allowed g sz a then
        Some (mkm (pc m + 4) (rg m) (setm (mem m) a (rg m r)) (fpc m))
      else None
  | ILd sz r b off =>
      let a := rg m b + off in
      if allowed g sz a then
        Some (mkm (pc m + 4) (setr (rg m) r (mem m a)) (mem m) (fpc m))
      else None
  | IMv rd rs => Some (mkm (pc m + 4) (setr (rg m) rd (rg m rs)) (mem m) (fpc m))
  | IJr r => Some (mkm (rg m r) (rg m) (mem m) (fpc m))
  end.

Definition mstep (g : image) (m : mach) : option mach :=
  match fetch g (pc m) with
  | Some i => exec1 g i m
  | None => None
  end.

Fixpoint msteps (g : image) (n : nat) (m : mach) : option mach :=
  match n with
  | O => Some m
  | S k => match mstep g m with Some m' => msteps g k m' | None => None end
  end.

(** [struct llco_asmctx] (neco.c:513-525), as the compiler lays it out: s[12], ra,
    pc, sp, fs[12]; a double is aligned to 8 bytes, so that on RV32D the array
    begins at 64 although the routine uses 60 onwards.  Its size and alignment: *)
Definition ctx_size (v : variant) : Z :=
  match v with RV64 => 120 | RV64D => 216 | RV32 => 60 | RV32F => 108 | RV32D => 160 end.
Definition ctx_align (v : variant) : Z :=
  match v with RV64 | RV64D | RV32D => 8 | RV32 | RV32F => 4 end.

(** The block cleared by the caller and filled by llco_asmctx_make (neco.c:702-714). *)
Definition dummy_ret (v : variant) : Z :=
  match v with
  | RV64 | RV64D => 16045725885737590445 (* 0xdeaddeaddeaddead *)
  | _ => 3735936685 (* 0xdeaddead *)
  end.
Definition asmctx_make (g : image) (f : Z -> Z) (ctx stack size arg : Z) : Z -> Z :=
  let w := xw (var g) in
  let f := fun a => if (ctx <=? a) && (a <? ctx + ctx_size (var g)) then 0 else f a in
  let f := setm f (ctx + 0 * w) arg in
  let f := setm f (ctx + 1 * w) (a_llco_entry g) in
  let f := setm f (ctx + 13 * w) (a_entry g) in
  let f := setm f (ctx + 12 * w) (dummy_ret (var g)) in
  setm f (ctx + 14 * w) (stack + size).

(** Who may use which memory: as in [Asm.v]. *)
Record layout := mkL {
  img : image;
  cx : nat -> Z;
  own : nat -> Z -> Prop;
  stk : nat -> Z;
  ssz : nat -> Z
}.

Definition block (L : layout) (c a : Z) : Prop := c <= a < c + ctx_size (var (img L)).

Definition swlen (L : layout) : nat := length (asm_switch (var (img L))).

Record layout_ok (L : layout) : Prop := {
  lo_align : forall n, cx L n mod ctx_align (var (img L)) = 0;
  lo_block : forall n a, block L (cx L n) a -> own L n a;
  lo_disj : forall n k a, own L n a -> own L k a -> n = k;
  lo_stk : forall n, stk L n mod 16 = 0 /\ ssz L n mod 16 = 0 /\ 16384 <= ssz L n;
  lo_img : a_switch (img L) + 4 * Z.of_nat (swlen L) <= a_entry (img L) \/
           a_entry (img L) + 8 <= a_switch (img L);
  lo_mis : var (img L) = RV32D -> misok (img L) = true
}.

Inductive status := Unused | Running | Suspended (m : mach).

Record sys := mks { mc : mach; cur : nat; stat : nat -> status }.

Definition sets (f : nat -> status) (k : nat) (v : status) : nat -> status :=
  fun n => if Nat.eqb n k then v else f n.

(** Called by context [k] as [_llco_asm_switch(&k->ctx, to)]; the return address
    is in ra. *)
Definition at_switch (L : layout) (k : nat) (to : Z) (m : mach) : Prop :=
  pc m = a_switch (img L) /\ rg m (A_ 0) = cx L k /\ rg m (A_ 1) = to.

(** As in [Asm.v] (neco.c:1221-1228, 1295-1303): compute, switch, start (the switch
    and the two instructions of the entry routine). *)
Inductive sstep (L : layout) : sys -> sys -> Prop :=
| SCompute : forall s m',
    (forall n m0 a, stat s n = Suspended m0 -> own L n a ->
       mem m' a = mem (mc s) a) ->
    sstep L s (mks m' (cur s) (stat s))
| SSwitch : forall s j m0 m' (fin : bool),
    stat s j = Suspended m0 -> j <> cur s ->
    at_switch L (cur s) (cx L j) (mc s) ->
    msteps (img L) (swlen L) (mc s) = Some m' ->
    sstep L s (mks m' j
      (sets (sets (stat s) (cur s) (if fin then Unused else Suspended (mc s)))
            j Running))
| SStart : forall s n tc f m' (fin : bool),
    stat s n = Unused -> n <> cur s ->
    at_switch L (cur s) tc (mc s) ->
    tc mod ctx_align (var (img L)) = 0 -> (forall a, block L tc a -> own L (cur s) a) ->
    (forall a, block L tc a -> ~ block L (cx L (cur s)) a) ->
    (forall a, mem (mc s) a = asmctx_make (img L) f tc (stk L n) (ssz L n) 0 a) ->
    msteps (img L) (swlen L + 2) (mc s) = Some m' ->
    sstep L s (mks m' n
      (sets (sets (stat s) (cur s) (if fin then Unused else Suspended (mc s)))
            n Running)).

Inductive sreach (L : layout) : sys -> Prop :=
| sreach_init : forall m,
    sreach L (mks m 0 (sets (fun _ => Unused) 0 Running))
| sreach_step : forall s s', sreach L s -> sstep L s s' -> sreach L s'.
