(** The 32-bit ARM context switch of llco (neco.c:338-412), instruction by instruction,
    with and without floating point registers; the counterpart of [AsmRv.v].

    Simplified as there: a memory cell holds one stored value (Props_AsmArm.v proves
    that the cells of a context block do not overlap), no wrap-around, registers that
    the routines do not name are left out, [fpc] stands for the floating-point status
    and control register.  Code is in the ARM instruction set, four bytes each: the
    lowest bit of an address, which selects Thumb, is left out. *)
From Coq Require Import List ZArith Bool Lia.
Import ListNotations.
Open Scope Z_scope.

(** Whether [__SOFTFP__] is defined (neco.c:344, 368, 373). *)
Inductive variant := SOFT | HARD.

Inductive reg := R (n : Z) | IP | SP | LR | PC | D (n : Z).

Definition reg_eqb (a b : reg) : bool :=
  match a, b with
  | R n, R k => n =? k
  | D n, D k => n =? k
  | IP, IP | SP, SP | LR, LR | PC, PC => true
  | _, _ => false
  end.

(** [stmia/vstmia base{!}, {rs}], [ldmia/vldmia base{!}, {rs}] with the number of bytes
    of a register and whether the base is advanced; [str/ldr r, [base, #off]];
    [mov rd, rs]; [bx r]. *)
Inductive instr :=
| IStm (wb : bool) (w : Z) (base : reg) (rs : list reg)
| ILdm (wb : bool) (w : Z) (base : reg) (rs : list reg)
| IStr (r base : reg) (off : Z)
| ILdr (r base : reg) (off : Z)
| IMov (rd rs : reg)
| IBx (r : reg).

Definition r4_r11 : list reg := [R 4; R 5; R 6; R 7; R 8; R 9; R 10; R 11].
Definition d8_d15 : list reg := [D 8; D 9; D 10; D 11; D 12; D 13; D 14; D 15].

(** [_llco_asm_switch] (neco.c:368-377). *)
Definition asm_switch (v : variant) : list instr :=
  match v with
  | HARD =>
      [ IStm true 8 (R 0) d8_d15;
        IStm false 4 (R 0) (r4_r11 ++ [LR]);
        IStr SP (R 0) 36;
        ILdm true 8 (R 1) d8_d15;
        ILdr SP (R 1) 36;
        ILdm false 4 (R 1) (r4_r11 ++ [PC]) ]
  | SOFT =>
      [ IStm false 4 (R 0) (r4_r11 ++ [LR]);
        IStr SP (R 0) 36;
        ILdr SP (R 1) 36;
        ILdm false 4 (R 1) (r4_r11 ++ [PC]) ]
  end.

(** [_llco_asm_entry] (neco.c:394-397). *)
Definition asm_entry : list instr :=
  [IMov (R 0) (R 4); IMov IP (R 5); IMov LR (R 6); IBx IP].

(** Where the linker put the two routines and the C function [llco_entry]
    (neco.c:1192-1196), and the variant. *)
Record image := mkimg { a_switch : Z; a_entry : Z; a_llco_entry : Z; var : variant }.

Record mach := mkm { pc : Z; rg : reg -> Z; mem : Z -> Z; fpc : Z }.

Fixpoint fetch_in (code : list instr) (base a : Z) : option instr :=
  match code with
  | [] => None
  | i :: rest => if a =? base then Some i else fetch_in rest (base + 4) a
  end.

Definition fetch (g : image) (a : Z) : option instr :=
  match fetch_in (asm_switch (var g)) (a_switch g) a with
  | Some x => Some x
  | None => fetch_in asm_entry (a_entry g) a
  end.

Definition setr (f : reg -> Z) (r : reg) (v : Z) : reg -> Z :=
  fun x => if reg_eqb x r then v else f x.
Definition setm (f : Z -> Z) (a v : Z) : Z -> Z :=
  fun x => if x =? a then v else f x.
Definition aligned (a : Z) : bool := a mod 4 =? 0.

Fixpoint stm (f : reg -> Z) (w a : Z) (rs : list reg) (M : Z -> Z) : Z -> Z :=
  match rs with [] => M | r :: rs => stm f w (a + w) rs (setm M a (f r)) end.
Fixpoint ldm (M : Z -> Z) (w a : Z) (rs : list reg) (f : reg -> Z) : reg -> Z :=
  match rs with [] => f | r :: rs => ldm M w (a + w) rs (setr f r (M a)) end.

Definition exec1 (i : instr) (m : mach) : option mach :=
  match i with
  | IStm wb w b rs =>
      let a := rg m b in
      if aligned a then
        Some (mkm (pc m + 4)
                  (if wb then setr (rg m) b (a + w * Z.of_nat (length rs)) else rg m)
                  (stm (rg m) w a rs (mem m)) (fpc m))
      else None
  | ILdm wb w b rs =>
      let a := rg m b in
      if aligned a then
        let f := if wb then setr (rg m) b (a + w * Z.of_nat (length rs)) else rg m in
        let f := ldm (mem m) w a rs f in
        Some (mkm (if existsb (reg_eqb PC) rs then f PC else pc m + 4) f (mem m) (fpc m))
      else None
  | IStr r b off =>
      let a := rg m b + off in
      if aligned a then
        Some (mkm (pc m + 4) (rg m) (setm (mem m) a (rg m r)) (fpc m))
      else None
  | ILdr r b off =>
      let a := rg m b + off in
      if aligned a then
        Some (mkm (pc m + 4) (setr (rg m) r (mem m a)) (mem m) (fpc m))
      else None
  | IMov rd rs => Some (mkm (pc m + 4) (setr (rg m) rd (rg m rs)) (mem m) (fpc m))
  | IBx r => Some (mkm (rg m r) (rg m) (mem m) (fpc m))
  end.

Definition mstep (g : image) (m : mach) : option mach :=
  match fetch g (pc m) with
  | Some i => exec1 i m
  | None => None
  end.

Fixpoint msteps (g : image) (n : nat) (m : mach) : option mach :=
  match n with
  | O => Some m
  | S k => match mstep g m with Some m' => msteps g k m' | None => None end
  end.

(** [struct llco_asmctx] (neco.c:343-351): f[16] unless [__SOFTFP__], d[4], r[4], lr, sp,
    all pointers: where d begins, and the size. *)
Definition doff (v : variant) : Z := match v with SOFT => 0 | HARD => 64 end.
Definition ctx_size (v : variant) : Z := doff v + 40.

(** The block cleared by the caller (neco.c:1225) and filled by llco_asmctx_make
    (neco.c:403-411). *)
Definition dummy_ret : Z := 3735936685. (* 0xdeaddead *)
Definition asmctx_make (g : image) (f : Z -> Z) (ctx stack size arg : Z) : Z -> Z :=
  let d := doff (var g) in
  let f := fun a => if (ctx <=? a) && (a <? ctx + ctx_size (var g)) then 0 else f a in
  let f := setm f (ctx + (d + 0)) arg in
  let f := setm f (ctx + (d + 4)) (a_llco_entry g) in
  let f := setm f (ctx + (d + 8)) dummy_ret in
  let f := setm f (ctx + (d + 32)) (a_entry g) in
  setm f (ctx + (d + 36)) (stack + size).

(** Who may use which memory: as in [Asm.v]. *)
Record layout := mkL {
  img : image;
  cx : nat -> Z;
  own : nat -> Z -> Prop;
  stk : nat -> Z;
  ssz : nat -> Z
}.

Definition block (L : layout) (c a : Z) : Prop := c <= a < c + ctx_size (var (img L)).

Definition swlen (L : layout) : nat := length (asm_switch (var (img L))).

Record layout_ok (L : layout) : Prop := {
  lo_align : forall n, cx L n mod 4 = 0;
  lo_block : forall n a, block L (cx L n) a -> own L n a;
  lo_disj : forall n k a, own L n a -> own L k a -> n = k;
  lo_stk : forall n, stk L n mod 16 = 0 /\ ssz L n mod 16 = 0 /\ 16384 <= ssz L n;
  lo_img : a_switch (img L) + 4 * Z.of_nat (swlen L) <= a_entry (img L) \/
           a_entry (img L) + 16 <= a_switch (img L)
}.

Inductive status := Unused | Running | Suspended (m : mach).

Record sys := mks { mc : mach; cur : nat; stat : nat -> status }.

Definition sets (f : nat -> status) (k : nat) (v : status) : nat -> status :=
  fun n => if Nat.eqb n k then v else f n.

(** Called by context [k] as [_llco_asm_switch(&k->ctx, to)]; the return address
    is in lr. *)
Definition at_switch (L : layout) (k : nat) (to : Z) (m : mach) : Prop :=
  pc m = a_switch (img L) /\ rg m (R 0) = cx L k /\ rg m (R 1) = to.

(** As in [Asm.v] (neco.c:1221-1228, 1295-1303): compute, switch, start (the switch
    and the four instructions of the entry routine). *)
Inductive sstep (L : layout) : sys -> sys -> Prop :=
| SCompute : forall s m',
    (forall n m0 a, stat s n = Suspended m0 -> own L n a ->
       mem m' a = mem (mc s) a) ->
    sstep L s (mks m' (cur s) (stat s))
| SSwitch : forall s j m0 m' (fin : bool),
    stat s j = Suspended m0 -> j <> cur s ->
    at_switch L (cur s) (cx L j) (mc s) ->
    msteps (img L) (swlen L) (mc s) = Some m' ->
    sstep L s (mks m' j
      (sets (sets (stat s) (cur s) (if fin then Unused else Suspended (mc s)))
            j Running))
| SStart : forall s n tc f m' (fin : bool),
    stat s n = Unused -> n <> cur s ->
    at_switch L (cur s) tc (mc s) ->
    tc mod 4 = 0 -> (forall a, block L tc a -> own L (cur s) a) ->
    (forall a, block L tc a -> ~ block L (cx L (cur s)) a) ->
    (forall a, mem (mc s) a = asmctx_make (img L) f tc (stk L n) (ssz L n) 0 a) ->
    msteps (img L) (swlen L + 4) (mc s) = Some m' ->
    sstep L s (mks m' n
      (sets (sets (stat s) (cur s) (if fin then Unused else Suspended (mc s)))
            n Running)).

Inductive sreach (L : layout) : sys -> Prop :=
| sreach_init : forall m,
    sreach L (mks m 0 (sets (fun _ => Unused) 0 Running))
| sreach_step : forall s s', sreach L s -> sstep L s s' -> sreach L s'.
