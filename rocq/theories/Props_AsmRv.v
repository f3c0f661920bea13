(** C58 on RISC-V: a coroutine that gives up the processor and gets it back
    finds its registers, its stack and its local variables as it left them. *)
From Coq Require Import List ZArith Bool Lia.
From Verif Require Import AsmRv AsmRvLemmas.
Import ListNotations.
Open Scope Z_scope.

(** The registers a function has to preserve for its caller (RISC-V calling
    convention): the floating point ones if there are any. *)
Definition callee_saved (v : variant) : list reg :=
  [S_ 0; S_ 1; S_ 2; S_ 3; S_ 4; S_ 5; S_ 6; S_ 7; S_ 8; S_ 9; S_ 10; S_ 11; SP] ++
  match v with
  | RV64 | RV32 => []
  | RV64D | RV32F | RV32D => [FS 0; FS 1; FS 2; FS 3; FS 4; FS 5; FS 6; FS 7; FS 8; FS 9; FS 10; FS 11]
  end.

(** In [m'] the call that was made in [m0] by context [k] has returned to its
    caller: control is at the return address that the call left in ra, the
    registers a function has to preserve and everything on the stack of [k] are
    as before. *)
Definition returned (L : layout) (k : nat) (m0 m' : mach) : Prop :=
  pc m' = rg m0 RA /\
  (forall r, In r (callee_saved (var (img L))) -> rg m' r = rg m0 r) /\
  (forall a, own L k a -> ~ block L (cx L k) a -> mem m' a = mem m0 a).

Inductive away (L : layout) (k : nat) : sys -> sys -> Prop :=
| away_refl : forall s, cur s <> k -> away L k s s
| away_step : forall s s1 s2,
    away L k s s1 -> sstep L s1 s2 -> cur s2 <> k -> away L k s s2.

Lemma callee_slot v r : In r (callee_saved v) -> exists o, In (r, o) (slots v).
Proof.
  intros H. assert (F : forallb (fun r => existsb (fun p => reg_eqb r (fst p)) (slots v)) (callee_saved v) = true) by (destruct v; reflexivity).
  rewrite forallb_forall in F. specialize (F r H). apply existsb_exists in F. destruct F as ([r' o] & I & E). apply reg_eqb_eq in E. cbn [fst] in E. subst r'. eauto.
Qed.

Theorem C58_riscv_returns_partial : forall L, layout_ok L ->
  forall s0 s1 s2 s3 k, sreach L s0 -> cur s0 = k ->
  sstep L s0 s1 -> stat s1 k <> Unused ->
  away L k s1 s2 ->
  sstep L s2 s3 -> cur s3 = k ->
  returned L k (mc s0) (mc s3).
Proof.
  intros L O s0 s1 s2 s3 k RE CU ST NU AW ST3 CU3.
  assert (C1 : cur s1 <> k) by (clear - AW; induction AW; assumption).
  assert (S1 : stat s1 k = Suspended (mc s0)).
  { destruct ST as [s m' C|s j m0 m' fin E N AS RUN
                   |s n tc f m' fin E N AS AT OT DJ MM RUN];
      cbn [cur stat mc] in *.
    - contradiction.
    - rewrite sets_ne in * by congruence. rewrite CU, sets_eq in *.
      destruct fin; [contradiction|reflexivity].
    - rewrite sets_ne in * by congruence. rewrite CU, sets_eq in *.
      destruct fin; [contradiction|reflexivity]. }
  assert (R1 : sreach L s1) by (econstructor; eassumption).
  clear ST NU RE.
  assert (S2 : stat s2 k = Suspended (mc s0) /\ cur s2 <> k /\ sreach L s2).
  { clear ST3 CU3. induction AW as [s C|s t u AW IH ST CK]; [auto|].
    specialize (IH C1 S1 R1) as (S2 & C2 & R2).
    split; [|split; [exact CK|econstructor; eassumption]].
    destruct ST as [z m' C|z j m0 m' fin E N AS RUN
                   |z n tc f m' fin E N AS AT OT DJ MM RUN];
      cbn [cur stat mc] in *.
    - exact S2.
    - rewrite !sets_ne by congruence. exact S2.
    - rewrite !sets_ne by congruence. exact S2. }
  destruct S2 as (S2 & C2 & R2). destruct (sreach_inv L O s2 R2) as [_ I].
  specialize (I k _ S2).
  destruct ST3 as [z m' C|z j m0 m' fin E N AS RUN
                   |z n tc f m' fin E N AS AT OT DJ MM RUN];
    cbn [cur stat mc] in *.
  - contradiction.
  - subst j. rewrite S2 in E. injection E as <-.
    destruct (run_switch L (cur z) k (mc z) (mc s0) O N AS I)
      as (m2 & E2 & A1 & A2 & F & SC & _).
    rewrite RUN in E2. injection E2 as <-.
    split; [exact A1|]. split.
    + intros r H.
      destruct (callee_slot _ _ H) as (o & HO). exact (A2 r o HO).
    + intros a OA NB. rewrite F.
      * destruct I as (_ & _ & F0). apply F0; assumption.
      * intros B. apply N. exact (lo_disj L O k _ a OA (lo_block L O _ _ B)).
  - subst n. rewrite S2 in E. discriminate E.
Qed.

(** The routine does not get stuck (provided the machine performs unaligned accesses,
    if it is an RV32D: [lo_mis]), and it changes no memory but the context
    block of the context that leaves. *)
Theorem C58_riscv_switch_runs : forall L, layout_ok L ->
  forall s j m0, sreach L s -> stat s j = Suspended m0 -> j <> cur s ->
  at_switch L (cur s) (cx L j) (mc s) ->
  exists m', msteps (img L) (swlen L) (mc s) = Some m' /\
    forall a, ~ block L (cx L (cur s)) a -> mem m' a = mem (mc s) a.
Proof.
  intros L O s j m0 RE E N AS. destruct (sreach_inv L O s RE) as [_ I].
  destruct (run_switch L (cur s) j (mc s) m0 O N AS (I j m0 E))
    as (m2 & E2 & _ & _ & F & _).
  exists m2. split; assumption.
Qed.

(** A new coroutine begins in [llco_entry], with the argument in a0, at the very
    top of its own stack, with the stack pointer a multiple of 16 as the ABI
    wants it, and with a frame pointer that ends a chain of frames. *)
Theorem C58_riscv_starts : forall L, layout_ok L ->
  forall s s' n, sreach L s -> stat s n = Unused -> n <> cur s ->
  sstep L s s' -> cur s' = n ->
  pc (mc s') = a_llco_entry (img L) /\ rg (mc s') (A_ 0) = 0 /\
  rg (mc s') SP mod 16 = 0 /\ rg (mc s') SP = stk L n + ssz L n /\
  rg (mc s') (S_ 0) = 0 /\
  forall a, ~ block L (cx L (cur s)) a -> mem (mc s') a = mem (mc s) a.
Proof.
  intros L O s s' n RE U N ST C.
  destruct ST as [z m' CC|z j m0 m' fin E N1 AS RUN
                   |z x tc f m' fin E N1 AS AT OT DJ MM RUN];
    cbn [cur stat mc] in *.
  - symmetry in C. contradiction.
  - subst j. rewrite U in E. discriminate E.
  - subst x.
    destruct (run_start L (cur z) n tc f (mc z) O AS AT DJ MM)
        as (m2 & E2 & B1 & B2 & B3 & B4 & B5 & F & SC & _).
    rewrite RUN in E2. injection E2 as <-.
    destruct (lo_stk L O n) as (K1 & K2 & K3).
    split; [exact B1|]. split; [exact B2|]. split.
    { rewrite B3, Z.add_mod by lia. rewrite K1, K2. reflexivity. }
    split; [exact B3|]. split; [exact B4|]. exact F.
Qed.

(** The cells of a context block do not overlap and lie within the structure. *)
Definition cells (v : variant) : list (Z * Z) :=
  map (fun p => (snd p, xw v)) (sti v) ++ map (fun p => (snd p, fw v)) (stf v).
Theorem C58_riscv_cells : forall v i j o w o' w',
  nth_error (cells v) i = Some (o, w) -> 0 <= o /\ o + w <= ctx_size v /\
  (nth_error (cells v) j = Some (o', w') -> i <> j -> o + w <= o' \/ o' + w' <= o).
Proof.
  intros v i j o w o' w' H.
  assert (F : forallb (fun p => (0 <=? fst p) && (fst p + snd p <=? ctx_size v)) (cells v) = true) by (destruct v; reflexivity).
  rewrite forallb_forall in F. specialize (F _ (nth_error_In _ _ H)). cbn [fst snd] in F. rewrite andb_true_iff, !Z.leb_le in F.
  split; [apply F|]. split; [apply F|]. intros H2 N.
  assert (G : forall l : list (Z * Z), (forall a b l1 l2, l = l1 ++ a :: b :: l2 -> fst a + snd a <= fst b) ->
    (forall p, In p l -> 0 <= snd p) ->
    forall i j o w o' w', nth_error l i = Some (o, w) -> nth_error l j = Some (o', w') -> (i < j)%nat -> o + w <= o').
  { clear. intros l A B. intros i j. remember (j - i - 1)%nat as d. revert j Heqd. induction d as [|d IH]; intros j D o w o' w' H1 H2 LT.
    - assert (j = S i) by lia. subst j. apply nth_error_split in H1. destruct H1 as (l1 & l2 & -> & <-).
      rewrite nth_error_app2 in H2 by lia. replace (S (length l1) - length l1)%nat with 1%nat in H2 by lia. cbn [nth_error] in H2.
      destruct l2 as [|p l2]; [discriminate H2|]. injection H2 as ->. exact (A (o, w) (o', w') l1 l2 eq_refl).
    - destruct j as [|j]; [lia|]. destruct (nth_error l j) as [[o1 w1]|] eqn:E.
      + pose proof (IH j ltac:(lia) _ _ _ _ H1 E ltac:(lia)) as Q.
        pose proof (B _ (nth_error_In _ _ E)) as W. cbn [snd] in W.
        apply nth_error_split in E. destruct E as (l1 & l2 & -> & <-).
        rewrite nth_error_app2 in H2 by lia. replace (S (length l1) - length l1)%nat with 1%nat in H2 by lia. cbn [nth_error] in H2.
        destruct l2 as [|p l2]; [discriminate H2|]. injection H2 as ->. pose proof (A (o1, w1) (o', w') l1 l2 eq_refl) as Q2. cbn [fst snd] in Q2. lia.
      + apply nth_error_None in E. assert (X : nth_error l (S j) <> None) by congruence. apply nth_error_Some in X. lia. }
  assert (A : forall a b l1 l2, cells v = l1 ++ a :: b :: l2 -> fst a + snd a <= fst b).
  { clear. intros a b l1 l2 E.
    assert (S : (fix f (l : list (Z * Z)) : bool := match l with a :: (b :: _) as r => (fst a + snd a <=? fst b) && f r | _ => true end) (cells v) = true) by (destruct v; reflexivity).
    rewrite E in S. clear E. induction l1 as [|x l1 IH].
    - cbn in S. apply andb_true_iff in S. apply Z.leb_le, S.
    - apply IH. destruct l1; cbn in S |- *; apply andb_true_iff in S; apply S. }
  assert (B : forall p, In p (cells v) -> 0 <= snd p).
  { clear. intros p I. assert (F : forallb (fun p => 0 <=? snd p) (cells v) = true) by (destruct v; reflexivity).
    rewrite forallb_forall in F. apply Z.leb_le, F, I. }
  destruct (Nat.lt_ge_cases i j) as [LT|GE]; [left; eapply (G _ A B); eassumption | right; eapply (G _ A B); try eassumption; lia].
Qed.

(** On RV32 with 64-bit floating point registers, the structure is aligned to 8 bytes
    and the routine keeps doubles at 60, 68, ...: on a machine that refuses unaligned
    accesses the switch never gets past the first of them. *)
Theorem C58_riscv_unaligned_refuted : forall L k to m,
  var (img L) = RV32D -> misok (img L) = false -> cx L k mod ctx_align RV32D = 0 ->
  at_switch L k to m -> msteps (img L) (swlen L) m = None.
Proof.
  intros L k to m V MI AL (P & A0 & _). unfold swlen. rewrite V.
  change (length (asm_switch RV32D)) with (15 + 40)%nat. rewrite msteps_add.
  destruct m as [p R M fp]. cbn [pc rg] in P, A0. rewrite P. replace (a_switch (img L)) with (a_switch (img L) + 4 * Z.of_nat 0) by lia.
  destruct (run_stores (img L) 4 R fp st32 0 (skipn 15 (asm_switch RV32D)) M) as [E K].
  - rewrite V. reflexivity.
  - intros r o I. rewrite A0. replace 4 with (xw (var (img L))) by (rewrite V; reflexivity). eapply allowed_int; [rewrite V; exact AL | left; rewrite V; exact I].
  - change 15%nat with (length st32) at 1. rewrite E. change 40%nat with (S 39). rewrite msteps_S. rewrite V in K.
    match goal with |- context [mstep (img L) ?z] => rewrite (mstep_sw (img L) z _ (ISt 8 (FS 0) (A_ 0) 0x3c) (skipn 16 (asm_switch RV32D)) eq_refl) end.
    2:{ rewrite V. reflexivity. }
    cbn [exec1 rg]. rewrite A0. unfold allowed. rewrite MI. cbn [orb].
    assert (Q : (cx L k + 60) mod 8 = 4). { cbn [ctx_align] in AL. rewrite Z.add_mod, AL by lia. reflexivity. }
    rewrite Q. reflexivity.
Qed.

(** A concrete layout: the thread's stack and stacks of 32 kilobytes. *)
Definition exL (v : variant) : layout := mkL (mkimg 4096 8192 12288 v true)
  (fun n => Z.of_nat n * 1048576 + 1024)
  (fun n a => Z.of_nat n * 1048576 <= a < Z.of_nat n * 1048576 + 32768)
  (fun n => Z.of_nat n * 1048576) (fun _ => 32768).

Lemma exL_ok v : layout_ok (exL v).
Proof.
  constructor; unfold exL; cbn [img cx own stk ssz a_switch a_entry].
  - intros n. destruct v; cbn [ctx_align var];
      (replace (Z.of_nat n * 1048576 + 1024) with ((Z.of_nat n * 131072 + 128) * 8) by lia; apply Z.mod_mul; lia) ||
      (replace (Z.of_nat n * 1048576 + 1024) with ((Z.of_nat n * 262144 + 256) * 4) by lia; apply Z.mod_mul; lia).
  - intros n a B. unfold block in B. destruct v; cbn in B; lia.
  - intros n k a B C. lia.
  - intros n. split; [|split; [reflexivity|lia]].
    replace (Z.of_nat n * 1048576) with ((Z.of_nat n * 65536) * 16) by lia.
    apply Z.mod_mul. lia.
  - left. destruct v; cbn; lia.
  - reflexivity.
Qed.

(** The thread, about to start coroutine 1: s1 holds 5, fs0 holds 6, fcsr is 0,
    the return address is 777. *)
Definition ex_m0 (v : variant) : mach := mkm 4096
  (fun r => if reg_eqb r (A_ 0) then 1024 else if reg_eqb r (A_ 1) then 2048 else
            if reg_eqb r SP then 30000 else if reg_eqb r RA then 777 else
            if reg_eqb r (S_ 1) then 5 else if reg_eqb r (FS 0) then 6 else 0)
  (asmctx_make (img (exL v)) (fun _ => 0) 2048 1048576 32768 0) 0.

(** Coroutine 1, about to switch back, with 77 in s1 and another fcsr. *)
Definition ex_m2 (M : Z -> Z) : mach := mkm 4096
  (fun r => if reg_eqb r (A_ 0) then 1049600 else if reg_eqb r (A_ 1) then 1024 else
            if reg_eqb r (S_ 1) then 77 else 0) M 1.

Definition ex_s0 (v : variant) := mks (ex_m0 v) 0 (sets (fun _ => Unused) 0 Running).
Definition ex_s1 (v : variant) (m1 : mach) := mks m1 1
  (sets (sets (stat (ex_s0 v)) 0 (Suspended (ex_m0 v))) 1 Running).
Definition ex_s2 (v : variant) (m1 : mach) := mks (ex_m2 (mem m1)) 1 (stat (ex_s1 v m1)).
Definition ex_s3 (v : variant) (m1 m3 : mach) := mks m3 0
  (sets (sets (stat (ex_s2 v m1)) 1 (Suspended (ex_m2 (mem m1)))) 0 Running).

Lemma ex_at0 v : at_switch (exL v) 0 2048 (ex_m0 v).
Proof. repeat split. Qed.

Lemma ex_at2 v M : at_switch (exL v) 1 (cx (exL v) 0) (ex_m2 M).
Proof. repeat split. Qed.

Lemma ex_step0 v : exists m1, sstep (exL v) (ex_s0 v) (ex_s1 v m1).
Proof.
  assert (DJ : forall a, block (exL v) 2048 a -> ~ block (exL v) (cx (exL v) 0) a).
  { intros a A B. unfold block in *. change (cx (exL v) 0) with 1024 in B. destruct v; cbn in A, B; lia. }
  destruct (run_start (exL v) 0 1 2048 (fun _ => 0) (ex_m0 v) (exL_ok v) (ex_at0 v) ltac:(destruct v; reflexivity) DJ)
    as (m' & E & _).
  - reflexivity.
  - exists m'.
    refine (SStart (exL v) (ex_s0 v) 1 2048 (fun _ => 0) m' false eq_refl _ (ex_at0 v) _
      _ DJ _ E).
    + discriminate.
    + destruct v; reflexivity.
    + intros a A. unfold block in A. cbn [own exL cur ex_s0]. destruct v; cbn in A; lia.
    + reflexivity.
Qed.

Lemma ex_step1 v m1 : sstep (exL v) (ex_s1 v m1) (ex_s2 v m1).
Proof.
  refine (SCompute (exL v) (ex_s1 v m1) (ex_m2 (mem m1)) _).
  intros n m0 a _ _. reflexivity.
Qed.

Lemma ex_step2 v m1 : sreach (exL v) (ex_s2 v m1) ->
  exists m3, sstep (exL v) (ex_s2 v m1) (ex_s3 v m1 m3) /\ fpc m3 = 1.
Proof.
  intros RE. destruct (sreach_inv (exL v) (exL_ok v) _ RE) as [_ I].
  destruct (run_switch (exL v) 1 0 (ex_m2 (mem m1)) (ex_m0 v) (exL_ok v) ltac:(discriminate)
    (ex_at2 v (mem m1)) (I 0%nat (ex_m0 v) eq_refl)) as (m' & E & _ & _ & _ & _ & FP).
  exists m'. split; [|exact FP].
  refine (SSwitch (exL v) (ex_s2 v m1) 0 (ex_m0 v) m' false eq_refl _ (ex_at2 v (mem m1)) E).
  discriminate.
Qed.

(** The thread starts coroutine 1 and gets the processor back. *)
Example C58_riscv_example : forall v, exists s1 s2 s3,
  sreach (exL v) (ex_s0 v) /\ sstep (exL v) (ex_s0 v) s1 /\ stat s1 0%nat <> Unused /\
  away (exL v) 0 s1 s2 /\ sstep (exL v) s2 s3 /\ cur s3 = 0%nat /\
  rg (mc s2) (S_ 1) = 77 /\ rg (mc s3) (S_ 1) = 5 /\ (v = RV64D \/ v = RV32F \/ v = RV32D -> rg (mc s3) (FS 0) = 6) /\
  pc (mc s3) = 777 /\ rg (mc s3) SP = 30000 /\
  fpc (mc (ex_s0 v)) = 0 /\ fpc (mc s3) = 1.
Proof.
  intros v. assert (R0 : sreach (exL v) (ex_s0 v)) by exact (sreach_init (exL v) (ex_m0 v)).
  destruct (ex_step0 v) as (m1 & S0).
  pose proof (sreach_step (exL v) (ex_s0 v) (ex_s1 v m1) R0 S0) as R1.
  pose proof (sreach_step (exL v) _ _ R1 (ex_step1 v m1)) as R2.
  destruct (ex_step2 v m1 R2) as (m3 & S2 & FP).
  assert (AW : away (exL v) 0 (ex_s1 v m1) (ex_s2 v m1)).
  { refine (away_step (exL v) 0 (ex_s1 v m1) (ex_s1 v m1) (ex_s2 v m1)
      (away_refl (exL v) 0 (ex_s1 v m1) _) (ex_step1 v m1) _); discriminate. }
  assert (NU : stat (ex_s1 v m1) 0%nat <> Unused) by discriminate.
  destruct (C58_riscv_returns_partial (exL v) (exL_ok v) (ex_s0 v) (ex_s1 v m1) (ex_s2 v m1)
    (ex_s3 v m1 m3) 0%nat R0 eq_refl S0 NU AW S2 eq_refl) as (A & C & _).
  exists (ex_s1 v m1), (ex_s2 v m1), (ex_s3 v m1 m3).
  split; [exact R0|]. split; [exact S0|]. split; [exact NU|].
  split; [exact AW|]. split; [exact S2|]. split; [reflexivity|].
  split; [reflexivity|].
  split; [rewrite C by (cbn; tauto); reflexivity|].
  split; [intros V; rewrite C by (destruct V as [->|[->| ->]]; cbn; tauto); reflexivity|].
  split; [rewrite A; reflexivity|].
  split; [rewrite C by (cbn; tauto); reflexivity|]. split; [reflexivity|]. exact FP.
Qed.

(** fcsr is not saved either. *)
Theorem C58_riscv_rounding_refuted :
  forall v, exists L s0 s1 s2 s3 k, var (img L) = v /\ layout_ok L /\ sreach L s0 /\ cur s0 = k /\
  sstep L s0 s1 /\ stat s1 k <> Unused /\ away L k s1 s2 /\
  sstep L s2 s3 /\ cur s3 = k /\ fpc (mc s3) <> fpc (mc s0).
Proof.
  intros v. destruct (C58_riscv_example v)
    as (s1 & s2 & s3 & A & B & C & D & E & F & _ & _ & _ & _ & _ & G & H).
  exists (exL v), (ex_s0 v), s1, s2, s3, 0%nat.
  split; [reflexivity|]. split; [exact (exL_ok v)|]. split; [exact A|]. split; [reflexivity|].
  split; [exact B|]. split; [exact C|]. split; [exact D|]. split; [exact E|].
  split; [exact F|]. rewrite G, H. discriminate.
Qed.

(** A machine that refuses unaligned accesses: the hypotheses of
    [C58_riscv_unaligned_refuted] hold when the thread starts its first coroutine. *)
Example C58_riscv_unaligned_example :
  let L := mkL (mkimg 4096 8192 12288 RV32D false) (cx (exL RV32D)) (own (exL RV32D)) (stk (exL RV32D)) (ssz (exL RV32D)) in
  cx L 0 mod ctx_align RV32D = 0 /\ at_switch L 0 2048 (ex_m0 RV32D) /\ sreach L (mks (ex_m0 RV32D) 0 (sets (fun _ => Unused) 0 Running)) /\
  msteps (img L) (swlen L) (ex_m0 RV32D) = None.
Proof.
  intros L. assert (A : at_switch L 0 2048 (ex_m0 RV32D)) by (repeat split).
  split; [reflexivity|]. split; [exact A|]. split; [constructor|]. apply (C58_riscv_unaligned_refuted L 0 2048); try reflexivity. exact A.
Qed.

Print Assumptions C58_riscv_returns_partial.
Print Assumptions C58_riscv_switch_runs.
Print Assumptions C58_riscv_starts.
Print Assumptions C58_riscv_cells.
Print Assumptions C58_riscv_unaligned_refuted.
Print Assumptions C58_riscv_rounding_refuted.
