(** The x86-64 context switch of llco for Windows (neco.c:786-899): the bytes of
    [llco_asm_switch_code] and [llco_wrap_main_code_entry] as they stand in the
    source, a decoder for the encodings that occur in them, and the C function
    [llco_asmctx_make].

    Simplified: memory is a map from addresses to aligned 64-bit words (an access
    to an address that is no multiple of 8 is stuck; the 128-bit accesses are two
    words); words and addresses are integers without wrap-around; flags are left
    out; [fpc] stands for the floating-point control words (MXCSR and the x87
    control word). *)
From Coq Require Import List ZArith Bool Lia.
Import ListNotations.
Open Scope Z_scope.

(** Registers by number: 0-15 the general registers as in instruction encodings,
    16 + 2x and 17 + 2x the low and the high half of xmm register x. *)
Notation RAX := 0. Notation RCX := 1. Notation RDX := 2. Notation RBX := 3.
Notation RSP := 4. Notation RBP := 5. Notation RSI := 6. Notation RDI := 7.
Notation R10 := 10. Notation R12 := 12. Notation R13 := 13. Notation R14 := 14.
Notation R15 := 15.
Definition xlo (x : Z) : Z := 16 + 2 * x.
Definition xhi (x : Z) : Z := 17 + 2 * x.

Inductive instr :=
| ILea (disp : Z) (rd : Z)               (* lea disp(%rip), rd *)
| IStore (rs off rb : Z)                 (* mov rs, off(rb) *)
| ILoad (off rb rd : Z)                  (* mov off(rb), rd *)
| IMov (rs rd : Z)                       (* mov rs, rd *)
| IStoreX (x off rb : Z)                 (* movups xmm, off(rb) *)
| ILoadX (off rb x : Z)                  (* movups off(rb), xmm *)
| IGs (disp rd : Z)                      (* mov %gs:disp, rd *)
| IJmpM (rb : Z)                         (* jmp *(rb) *)
| IJmpR (r : Z)                          (* jmp *r *)
| IRet
| INop.

(** [llco_wrap_main_code_entry], neco.c:806-811 *)
Definition entry_bytes : list Z :=
  [ 76; 137; 233;
    65; 255; 228;
    195;
    144; 144; 144; 144; 144; 144; 144; 144; 144 ].

(** [llco_asm_switch_code], neco.c:813-875 *)
Definition switch_bytes : list Z :=
  [ 72; 141; 5; 62; 1; 0; 0;
    72; 137; 1;
    72; 137; 97; 8;
    72; 137; 105; 16;
    72; 137; 89; 24;
    76; 137; 97; 32;
    76; 137; 105; 40;
    76; 137; 113; 48;
    76; 137; 121; 56;
    72; 137; 121; 64;
    72; 137; 113; 72;
    15; 17; 113; 80;
    15; 17; 121; 96;
    68; 15; 17; 65; 112;
    68; 15; 17; 137; 128; 0; 0; 0;
    68; 15; 17; 145; 144; 0; 0; 0;
    68; 15; 17; 153; 160; 0; 0; 0;
    68; 15; 17; 161; 176; 0; 0; 0;
    68; 15; 17; 169; 192; 0; 0; 0;
    68; 15; 17; 177; 208; 0; 0; 0;
    68; 15; 17; 185; 224; 0; 0; 0;
    101; 76; 139; 20; 37; 48; 0; 0; 0;
    73; 139; 66; 32;
    72; 137; 129; 240; 0; 0; 0;
    73; 139; 130; 120; 20; 0; 0;
    72; 137; 129; 248; 0; 0; 0;
    73; 139; 66; 16;
    72; 137; 129; 0; 1; 0; 0;
    73; 139; 66; 8;
    72; 137; 129; 8; 1; 0; 0;
    72; 139; 130; 8; 1; 0; 0;
    73; 137; 66; 8;
    72; 139; 130; 0; 1; 0; 0;
    73; 137; 66; 16;
    72; 139; 130; 248; 0; 0; 0;
    73; 137; 130; 120; 20; 0; 0;
    72; 139; 130; 240; 0; 0; 0;
    73; 137; 66; 32;
    68; 15; 16; 186; 224; 0; 0; 0;
    68; 15; 16; 178; 208; 0; 0; 0;
    68; 15; 16; 170; 192; 0; 0; 0;
    68; 15; 16; 162; 176; 0; 0; 0;
    68; 15; 16; 154; 160; 0; 0; 0;
    68; 15; 16; 146; 144; 0; 0; 0;
    68; 15; 16; 138; 128; 0; 0; 0;
    68; 15; 16; 66; 112;
    15; 16; 122; 96;
    15; 16; 114; 80;
    72; 139; 114; 72;
    72; 139; 122; 64;
    76; 139; 122; 56;
    76; 139; 114; 48;
    76; 139; 106; 40;
    76; 139; 98; 32;
    72; 139; 90; 24;
    72; 139; 106; 16;
    72; 139; 98; 8;
    255; 34;
    195;
    144; 144; 144; 144; 144; 144; 144; 144;
    144; 144 ].

(** The decoder (Intel 64 manual, volume 2, chapter 2).  [rx] are the low four
    bits of a REX prefix. *)
Definition rr (rx m : Z) : Z := m / 8 mod 8 + 8 * (rx / 4 mod 2).
Definition rm (rx m : Z) : Z := m mod 8 + 8 * (rx mod 2).
Definition s8 (d : Z) : Z := if d <? 128 then d else d - 256.
Definition s32 (a b c d : Z) : Z :=
  let v := a + 256 * b + 65536 * c + 16777216 * d in
  if v <? 2147483648 then v else v - 4294967296.

Inductive ea := EReg (r : Z) | EMem (off base : Z) | ERip (d : Z) | EAbs (d : Z).

(** ModRM byte, SIB byte (only the form without base and index) and
    displacement: register field, operand, number of bytes. *)
Definition modrm (rx : Z) (l : list Z) : option (Z * ea * Z) :=
  match l with
  | [] => None
  | m :: r =>
      if m / 64 =? 3 then Some (rr rx m, EReg (rm rx m), 1)
      else if m mod 8 =? 4 then
        match r with
        | sib :: a :: b :: c :: d :: _ =>
            if (m / 64 =? 0) && (sib =? 37) then Some (rr rx m, EAbs (s32 a b c d), 6)
            else None
        | _ => None
        end
      else if m / 64 =? 1 then
        match r with d :: _ => Some (rr rx m, EMem (s8 d) (rm rx m), 2) | _ => None end
      else match r with
        | a :: b :: c :: d :: _ =>
            if m / 64 =? 2 then Some (rr rx m, EMem (s32 a b c d) (rm rx m), 5)
            else if m mod 8 =? 5 then Some (rr rx m, ERip (s32 a b c d), 5)
            else Some (rr rx m, EMem 0 (rm rx m), 1)
        | _ => if (m / 64 =? 0) && negb (m mod 8 =? 5)
               then Some (rr rx m, EMem 0 (rm rx m), 1) else None
        end
  end.

(** Opcode and operands behind the prefixes; [p] bytes of prefixes. *)
Definition opcode (gs : bool) (rx p : Z) (l : list Z) : option (instr * Z) :=
  match l with
  | [] => None
  | o :: r =>
      if o =? 195 then Some (IRet, p + 1)
      else if o =? 144 then Some (INop, p + 1)
      else if o =? 255 then
        match modrm rx r with
        | Some (g, EReg q, n) => if g mod 8 =? 4 then Some (IJmpR q, p + 1 + n) else None
        | Some (g, EMem off b, n) =>
            if (g mod 8 =? 4) && (off =? 0) then Some (IJmpM b, p + 1 + n) else None
        | _ => None
        end
      else if o =? 15 then
        match r with
        | o2 :: r2 =>
            match modrm rx r2 with
            | Some (x, EMem off b, n) =>
                if o2 =? 17 then Some (IStoreX x off b, p + 2 + n)
                else if o2 =? 16 then Some (ILoadX off b x, p + 2 + n) else None
            | _ => None
            end
        | _ => None
        end
      else if negb (rx / 8 =? 1) then None (* no 32-bit operands here *)
      else
        match modrm rx r with
        | Some (g, e, n) =>
            match e with
            | ERip d => if o =? 141 then Some (ILea d g, p + 1 + n) else None
            | EAbs d => if (o =? 139) && gs then Some (IGs d g, p + 1 + n) else None
            | EMem off b =>
                if gs then None
                else if o =? 137 then Some (IStore g off b, p + 1 + n)
                else if o =? 139 then Some (ILoad off b g, p + 1 + n) else None
            | EReg q => if o =? 137 then Some (IMov g q, p + 1 + n) else None
            end
        | None => None
        end
  end.

Definition decode1 (gs : bool) (p : Z) (l : list Z) : option (instr * Z) :=
  match l with
  | [] => None
  | x :: r => if x / 16 =? 4 then opcode gs (x mod 16) (p + 1) r else opcode gs 0 p l
  end.
Definition decode (l : list Z) : option (instr * Z) :=
  match l with
  | [] => None
  | x :: r => if x =? 101 then decode1 true 1 r else decode1 false 0 l
  end.

(** Where the two byte arrays and the C function [llco_entry] are, and the
    thread information block that the gs register leads to. *)
Record image := mkimg { a_switch : Z; a_entry : Z; a_llco_entry : Z; a_teb : Z }.

Record mach := mkm { rip : Z; rg : Z -> Z; mem : Z -> Z; fpc : Z }.

(** The instruction at [a] of bytes that start at [base], and the address behind
    it. *)
Definition fetch_in (code : list Z) (base a : Z) : option (instr * Z) :=
  if (base <=? a) && (a <? base + Z.of_nat (length code)) then
    match decode (skipn (Z.to_nat (a - base)) code) with
    | Some (i, n) => Some (i, a + n)
    | None => None
    end
  else None.
Definition fetch (g : image) (a : Z) : option (instr * Z) :=
  match fetch_in switch_bytes (a_switch g) a with
  | Some x => Some x
  | None => fetch_in entry_bytes (a_entry g) a
  end.

Definition setr (f : Z -> Z) (r v : Z) : Z -> Z := fun x => if x =? r then v else f x.
Definition setm (f : Z -> Z) (a v : Z) : Z -> Z := fun x => if x =? a then v else f x.
Definition aligned (a : Z) : bool := a mod 8 =? 0.

(** One instruction of neco.c:806-875; [nx] is the address behind it.  [None] is an access outside
    the model.  The word at gs:0x30 is the address of the thread information block
    itself (winnt.h: NT_TIB.Self). *)
Definition exec1 (g : image) (i : instr) (nx : Z) (m : mach) : option mach :=
  match i with
  | ILea d rd => Some (mkm nx (setr (rg m) rd (nx + d)) (mem m) (fpc m))
  | IStore rs off rb =>
      if aligned (rg m rb + off)
      then Some (mkm nx (rg m) (setm (mem m) (rg m rb + off) (rg m rs)) (fpc m)) else None
  | ILoad off rb rd =>
      if aligned (rg m rb + off)
      then Some (mkm nx (setr (rg m) rd (mem m (rg m rb + off))) (mem m) (fpc m)) else None
  | IMov rs rd => Some (mkm nx (setr (rg m) rd (rg m rs)) (mem m) (fpc m))
  | IStoreX x off rb =>
      if aligned (rg m rb + off)
      then Some (mkm nx (rg m)
             (setm (setm (mem m) (rg m rb + off) (rg m (xlo x)))
                   (rg m rb + (off + 8)) (rg m (xhi x))) (fpc m)) else None
  | ILoadX off rb x =>
      if aligned (rg m rb + off)
      then Some (mkm nx (setr (setr (rg m) (xlo x) (mem m (rg m rb + off)))
                   (xhi x) (mem m (rg m rb + (off + 8)))) (mem m) (fpc m)) else None
  | IGs d rd =>
      if d =? 48 then Some (mkm nx (setr (rg m) rd (a_teb g)) (mem m) (fpc m)) else None
  | IJmpM rb =>
      if aligned (rg m rb)
      then Some (mkm (mem m (rg m rb)) (rg m) (mem m) (fpc m)) else None
  | IJmpR r => Some (mkm (rg m r) (rg m) (mem m) (fpc m))
  | IRet =>
      if aligned (rg m RSP)
      then Some (mkm (mem m (rg m RSP)) (setr (rg m) RSP (rg m RSP + 8)) (mem m) (fpc m))
      else None
  | INop => Some (mkm nx (rg m) (mem m) (fpc m))
  end.

Definition mstep (g : image) (m : mach) : option mach :=
  match fetch g (rip m) with
  | Some (i, nx) => exec1 g i nx m
  | None => None
  end.
Fixpoint msteps (g : image) (n : nat) (m : mach) : option mach :=
  match n with
  | O => Some m
  | S k => match mstep g m with Some m' => msteps g k m' | None => None end
  end.

(** [struct llco_asmctx ctx = { 0 }] (34 words, neco.c:788-797) followed by
    [llco_asmctx_make(&ctx, stack, stack_size, arg)] (neco.c:883-899, 1225-1226):
    a dummy return address 40 bytes below the end of the stack, rip, rsp, r12, r13
    and the stack bounds for the thread information block. *)
Definition dummy_ret : Z := 16045725885737590445. (* 0xdeaddeaddeaddead *)

Fixpoint puts (f : Z) (l : list (Z * Z)) (M : Z -> Z) : Z -> Z :=
  match l with [] => M | (o, v) :: r => puts f r (setm M (f + o) v) end.

Definition ctx_size : nat := 34.
Definition zeros : list (Z * Z) := map (fun i => (8 * Z.of_nat i, 0)) (seq 0 ctx_size).
Definition asmctx_make (g : image) (M : Z -> Z) (ctx stack size arg : Z) : Z -> Z :=
  let M := puts ctx zeros M in
  let top := stack + (size - 32) - 8 in
  let M := setm M top dummy_ret in
  puts ctx [(0, a_entry g); (8, top); (32, a_llco_entry g); (40, arg);
            (264, stack + (size - 32)); (256, stack); (248, stack)] M.

(** Who may use which memory, as in [Asm.v]: every context has a context block and
    memory of its own; the four words of the thread information block belong to
    nobody. *)
Record layout := mkL {
  img : image;
  cx : nat -> Z;
  own : nat -> Z -> Prop;
  stk : nat -> Z;
  ssz : nat -> Z
}.

Definition block (c a : Z) : Prop := exists i, 0 <= i < 34 /\ a = c + 8 * i.
(** stack base, stack limit, fiber storage, lowest address of the stack (winnt.h,
    winternl.h: offsets 0x08, 0x10, 0x20, 0x1478) *)
Definition tebo : list Z := [8; 16; 32; 5240].
Definition tebw (g : image) (a : Z) : Prop := exists o, In o tebo /\ a = a_teb g + o.

Record layout_ok (L : layout) : Prop := {
  lo_align : forall n, cx L n mod 8 = 0;
  lo_block : forall n a, block (cx L n) a -> own L n a;
  lo_disj : forall n k a, own L n a -> own L k a -> n = k;
  lo_stk : forall n, stk L n mod 16 = 0 /\ ssz L n mod 16 = 0 /\ 16384 <= ssz L n;
  lo_in : forall n a, (0 < n)%nat -> stk L n <= a < stk L n + ssz L n -> own L n a;
  lo_teb : a_teb (img L) mod 8 = 0 /\ forall n a, tebw (img L) a -> ~ own L n a;
  lo_img : a_switch (img L) + 336 <= a_entry (img L) \/
           a_entry (img L) + 16 <= a_switch (img L)
}.

Inductive status := Unused | Running | Suspended (m : mach).
Record sys := mks { mc : mach; cur : nat; stat : nat -> status }.
Definition sets (f : nat -> status) (k : nat) (v : status) : nat -> status :=
  fun n => if Nat.eqb n k then v else f n.

(** Context [k] is at the first instruction of [_llco_asm_switch(&k->ctx, to)]
    (arguments in rcx and rdx). *)
Definition at_switch (L : layout) (k : nat) (to : Z) (m : mach) : Prop :=
  rip m = a_switch (img L) /\ rg m RCX = cx L k /\ rg m RDX = to /\
  rg m RSP mod 8 = 0 /\ own L k (rg m RSP) /\ ~ block (cx L k) (rg m RSP).

(** The running context computes, switches to a suspended one or starts a new one
    (llco_switch1, neco.c:1205-1228; the shape of [Asm.v]); [fin] says that it
    never comes back (clean-up of the coroutine left last). *)
Inductive sstep (L : layout) : sys -> sys -> Prop :=
| SCompute : forall s m',
    (forall n m0 a, stat s n = Suspended m0 -> own L n a -> mem m' a = mem (mc s) a) ->
    sstep L s (mks m' (cur s) (stat s))
| SSwitch : forall s j m0 m' (fin : bool),
    stat s j = Suspended m0 -> j <> cur s ->
    at_switch L (cur s) (cx L j) (mc s) ->
    msteps (img L) 59 (mc s) = Some m' ->
    sstep L s (mks m' j
      (sets (sets (stat s) (cur s) (if fin then Unused else Suspended (mc s))) j Running))
| SStart : forall s n tc f m' (fin : bool),
    stat s n = Unused -> n <> cur s -> (0 < n)%nat ->
    at_switch L (cur s) tc (mc s) ->
    tc mod 8 = 0 -> (forall a, block tc a -> own L (cur s) a) ->
    (forall a, block tc a -> ~ block (cx L (cur s)) a) ->
    (forall a, mem (mc s) a = asmctx_make (img L) f tc (stk L n) (ssz L n) 0 a) ->
    msteps (img L) 60 (mc s) = Some m' ->
    sstep L s (mks m' n
      (sets (sets (stat s) (cur s) (if fin then Unused else Suspended (mc s))) n Running)).

Inductive sreach (L : layout) : sys -> Prop :=
| sreach_init : forall m, sreach L (mks m 0 (sets (fun _ => Unused) 0 Running))
| sreach_step : forall s s', sreach L s -> sstep L s s' -> sreach L s'.
