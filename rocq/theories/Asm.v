(** The x86-64 context switch of llco (neco.c:901-985), instruction by
    instruction: [_llco_asm_switch], [_llco_asm_entry] and the C function
    [llco_asmctx_make] that prepares the context of a new coroutine.

    Simplified: memory is a map from addresses to aligned 64-bit words (an
    access to an address that is no multiple of 8 is stuck); words and
    addresses are integers without wrap-around (no address in user space is
    near 2^64); registers that the calls do not name are left out, except one
    word [fpc] that stands for the floating-point control words (MXCSR and the
    x87 control word).  Only this System V variant is modelled here;
    [Asm64.v] has AArch64, [AsmRv.v] RISC-V, [Asm386.v] i386, [AsmArm.v]
    32-bit ARM; the one for Windows is not modelled. *)
From Coq Require Import List ZArith Bool Lia.
Import ListNotations.
Open Scope Z_scope.

(** The general registers the two routines name, with their numbers in
    instruction encodings. *)
Inductive reg := RAX | RBX | RSP | RBP | RSI | RDI | R12 | R13 | R14 | R15.

Definition rnum (r : reg) : Z :=
  match r with
  | RAX => 0 | RBX => 3 | RSP => 4 | RBP => 5 | RSI => 6 | RDI => 7
  | R12 => 12 | R13 => 13 | R14 => 14 | R15 => 15
  end.

Definition reg_eqb (a b : reg) : bool := rnum a =? rnum b.

(** The instructions that occur (neco.c:923-924, 941-959), AT&T operand
    order. *)
Inductive instr :=
| ILea (disp : Z) (rd : reg)          (* leaq disp(%rip), rd *)
| IStore (rs : reg) (off : Z) (rb : reg)  (* movq rs, off(rb) *)
| ILoad (off : Z) (rb : reg) (rd : reg)   (* movq off(rb), rd *)
| IMov (rs rd : reg)                  (* movq rs, rd *)
| IJmpM (rb : reg)                    (* jmpq *(rb) *)
| IJmpR (r : reg)                     (* jmpq *r *)
| IRet.                               (* ret *)

(** The bytes the assembler emits: REX.W prefix with the high register bits,
    opcode, ModRM, displacement.  Needed because the resume address that the
    routine saves is computed from instruction sizes ([leaq 0x3d(%rip)]).  Bases
    that would need a SIB byte do not occur. *)
Definition rex (r b : reg) : Z := 72 + 4 * (rnum r / 8) + rnum b / 8.
Definition le32 (d : Z) : list Z :=
  [d mod 256; d / 256 mod 256; d / 65536 mod 256; d / 16777216 mod 256].
Definition modrm (off : Z) (r b : reg) : list Z :=
  if off =? 0 then [8 * (rnum r mod 8) + rnum b mod 8]
  else [64 + 8 * (rnum r mod 8) + rnum b mod 8; off mod 256].

Definition encode (i : instr) : list Z :=
  match i with
  | ILea d rd => [rex rd RAX; 141; 5 + 8 * (rnum rd mod 8)] ++ le32 d
  | IStore rs off rb => [rex rs rb; 137] ++ modrm off rs rb
  | ILoad off rb rd => [rex rd rb; 139] ++ modrm off rd rb
  | IMov rs rd => [rex rs rd; 137; 192 + 8 * (rnum rs mod 8) + rnum rd mod 8]
  | IJmpM rb => [255; 32 + rnum rb]
  | IJmpR r => (if 8 <=? rnum r then [65] else []) ++ [255; 224 + rnum r mod 8]
  | IRet => [195]
  end.

Definition isize (i : instr) : Z := Z.of_nat (length (encode i)).

(** [_llco_asm_switch] (neco.c:929-963). *)
Definition asm_switch : list instr :=
  [ ILea 61 RAX;
    IStore RAX 0 RDI;
    IStore RSP 8 RDI;
    IStore RBP 16 RDI;
    IStore RBX 24 RDI;
    IStore R12 32 RDI;
    IStore R13 40 RDI;
    IStore R14 48 RDI;
    IStore R15 56 RDI;
    ILoad 56 RSI R15;
    ILoad 48 RSI R14;
    ILoad 40 RSI R13;
    ILoad 32 RSI R12;
    ILoad 24 RSI RBX;
    ILoad 16 RSI RBP;
    ILoad 8 RSI RSP;
    IJmpM RSI;
    IRet ].

(** [_llco_asm_entry] (neco.c:912-927). *)
Definition asm_entry : list instr := [IMov R13 RDI; IJmpR R12].

(** Where the linker put the two routines and the C function [llco_entry]
    (neco.c:1192-1196). *)
Record image := mkimg { a_switch : Z; a_entry : Z; a_llco_entry : Z }.

Record mach := mkm {
  rip : Z;
  rg : reg -> Z;
  mem : Z -> Z;
  fpc : Z
}.

(** The instruction at address [a] of code that starts at [base], and the
    address behind it. *)
Fixpoint fetch_in (code : list instr) (base a : Z) : option (instr * Z) :=
  match code with
  | [] => None
  | i :: rest =>
      if a =? base then Some (i, base + isize i)
      else fetch_in rest (base + isize i) a
  end.

Definition fetch (g : image) (a : Z) : option (instr * Z) :=
  match fetch_in asm_switch (a_switch g) a with
  | Some x => Some x
  | None => fetch_in asm_entry (a_entry g) a
  end.

Definition setr (f : reg -> Z) (r : reg) (v : Z) : reg -> Z :=
  fun x => if reg_eqb x r then v else f x.
Definition setm (f : Z -> Z) (a v : Z) : Z -> Z :=
  fun x => if x =? a then v else f x.
Definition aligned (a : Z) : bool := a mod 8 =? 0.

(** One instruction; [nx] is the address behind it.  [None] is an access
    outside the model. *)
Definition exec1 (i : instr) (nx : Z) (m : mach) : option mach :=
  match i with
  | ILea d rd => Some (mkm nx (setr (rg m) rd (nx + d)) (mem m) (fpc m))
  | IStore rs off rb =>
      let a := rg m rb + off in
      if aligned a then Some (mkm nx (rg m) (setm (mem m) a (rg m rs)) (fpc m))
      else None
  | ILoad off rb rd =>
      let a := rg m rb + off in
      if aligned a then Some (mkm nx (setr (rg m) rd (mem m a)) (mem m) (fpc m))
      else None
  | IMov rs rd => Some (mkm nx (setr (rg m) rd (rg m rs)) (mem m) (fpc m))
  | IJmpM rb =>
      if aligned (rg m rb)
      then Some (mkm (mem m (rg m rb)) (rg m) (mem m) (fpc m)) else None
  | IJmpR r => Some (mkm (rg m r) (rg m) (mem m) (fpc m))
  | IRet =>
      if aligned (rg m RSP)
      then Some (mkm (mem m (rg m RSP)) (setr (rg m) RSP (rg m RSP + 8))
                     (mem m) (fpc m))
      else None
  end.

Definition mstep (g : image) (m : mach) : option mach :=
  match fetch g (rip m) with
  | Some (i, nx) => exec1 i nx m
  | None => None
  end.

Fixpoint msteps (g : image) (n : nat) (m : mach) : option mach :=
  match n with
  | O => Some m
  | S k => match mstep g m with Some m' => msteps g k m' | None => None end
  end.

(** [struct llco_asmctx ctx = { 0 }] followed by
    [llco_asmctx_make(&ctx, stack, stack_size, arg)] (neco.c:965-979, 1225-1226):
    the context is cleared, a dummy return address is put 136 bytes below the
    end of the stack, and rip, rsp, r12 and r13 are set. *)
Definition dummy_ret : Z := 16045725885737590445. (* 0xdeaddeaddeaddead *)

Definition asmctx_make (g : image) (f : Z -> Z) (ctx stack size arg : Z) : Z -> Z :=
  let f := fold_left (fun f i => setm f (ctx + 8 * i) 0)
             [0; 1; 2; 3; 4; 5; 6; 7] f in
  let top := stack + (size - 128) - 8 in
  let f := setm f top dummy_ret in
  let f := setm f ctx (a_entry g) in
  let f := setm f (ctx + 8) top in
  let f := setm f (ctx + 32) (a_llco_entry g) in
  setm f (ctx + 40) arg.

(** Who may use which memory.  Every context (the thread's own one and one per
    coroutine stack) has a context block ([struct llco], neco.c:1124-1128) and
    memory that is its own: its stack.  All other memory is shared. *)
Record layout := mkL {
  img : image;
  cx : nat -> Z;            (* address of the context block *)
  own : nat -> Z -> Prop;   (* memory that only this context may change *)
  stk : nat -> Z;           (* the stack given to llco_start *)
  ssz : nat -> Z
}.

Definition block (c a : Z) : Prop := exists i, 0 <= i < 8 /\ a = c + 8 * i.

Record layout_ok (L : layout) : Prop := {
  lo_align : forall n, cx L n mod 8 = 0;
  lo_block : forall n a, block (cx L n) a -> own L n a;
  lo_disj : forall n k a, own L n a -> own L k a -> n = k;
  lo_stk : forall n, stk L n mod 16 = 0 /\ ssz L n mod 16 = 0 /\ 16384 <= ssz L n;
  lo_in : forall n a, (0 < n)%nat -> stk L n <= a < stk L n + ssz L n -> own L n a;
  lo_img : a_switch (img L) + 69 <= a_entry (img L) \/
           a_entry (img L) + 6 <= a_switch (img L)
}.

(** A context is running, not in use, or suspended; for a suspended one we
    keep the machine as it was when it called [_llco_asm_switch]. *)
Inductive status := Unused | Running | Suspended (m : mach).

Record sys := mks { mc : mach; cur : nat; stat : nat -> status }.

Definition sets (f : nat -> status) (k : nat) (v : status) : nat -> status :=
  fun n => if Nat.eqb n k then v else f n.

(** The machine is at the first instruction of the switch routine, called by
    context [k] as [_llco_asm_switch(&k->ctx, to)]: the return address is on
    top of [k]'s own stack and not inside the context block. *)
Definition at_switch (L : layout) (k : nat) (to : Z) (m : mach) : Prop :=
  rip m = a_switch (img L) /\ rg m RDI = cx L k /\ rg m RSI = to /\
  rg m RSP mod 8 = 0 /\ own L k (rg m RSP) /\ ~ block (cx L k) (rg m RSP).

Inductive sstep (L : layout) : sys -> sys -> Prop :=
(* the running context computes: it may change registers and all memory but
   what belongs to suspended ones *)
| SCompute : forall s m',
    (forall n m0 a, stat s n = Suspended m0 -> own L n a ->
       mem m' a = mem (mc s) a) ->
    sstep L s (mks m' (cur s) (stat s))
(* it switches to a suspended one: 17 instructions and the [ret] there
   (llco_switch, llco_switch1: neco.c:1222-1223, 1298-1300); [fin]: it has
   ended and does not run again *)
| SSwitch : forall s j m0 m' (fin : bool),
    stat s j = Suspended m0 -> j <> cur s ->
    at_switch L (cur s) (cx L j) (mc s) ->
    msteps (img L) 18 (mc s) = Some m' ->
    sstep L s (mks m' j
      (sets (sets (stat s) (cur s) (if fin then Unused else Suspended (mc s)))
            j Running))
(* it starts a new one on stack [n]: the context for it is made in the frame of
   llco_switch1 at [tc] (neco.c:1225-1227), then 17 instructions and the two of
   the entry routine *)
| SStart : forall s n tc f m' (fin : bool),
    stat s n = Unused -> n <> cur s -> (0 < n)%nat ->
    at_switch L (cur s) tc (mc s) ->
    tc mod 8 = 0 -> (forall a, block tc a -> own L (cur s) a) ->
    (forall a, block tc a -> ~ block (cx L (cur s)) a) ->
    (forall a, mem (mc s) a = asmctx_make (img L) f tc (stk L n) (ssz L n) 0 a) ->
    msteps (img L) 19 (mc s) = Some m' ->
    sstep L s (mks m' n
      (sets (sets (stat s) (cur s) (if fin then Unused else Suspended (mc s)))
            n Running)).

(** The thread begins in context 0. *)
Inductive sreach (L : layout) : sys -> Prop :=
| sreach_init : forall m,
    sreach L (mks m 0 (sets (fun _ => Unused) 0 Running))
| sreach_step : forall s s', sreach L s -> sstep L s s' -> sreach L s'.
