(** C58 on AArch64: a coroutine that gives up the processor and gets it back
    finds its registers, its stack and its local variables as it left them. *)
From Coq Require Import List ZArith Bool Lia.
From Verif Require Import Asm64 Asm64Lemmas.
Import ListNotations.
Open Scope Z_scope.

(** The registers a function has to preserve for its caller (AAPCS64, 6.1). *)
Definition callee_saved : list reg :=
  [X 19; X 20; X 21; X 22; X 23; X 24; X 25; X 26; X 27; X 28; X 29; SP;
   D 8; D 9; D 10; D 11; D 12; D 13; D 14; D 15].

(** In [m'] the call that was made in [m0] by context [k] has returned to its
    caller: control is at the return address that the call left in x30, the
    registers a function has to preserve and everything on the stack of [k] are
    as before. *)
Definition returned (L : layout) (k : nat) (m0 m' : mach) : Prop :=
  pc m' = rg m0 (X 30) /\
  (forall r, In r callee_saved -> rg m' r = rg m0 r) /\
  (forall a, own L k a -> ~ block (cx L k) a -> mem m' a = mem m0 a).

Inductive away (L : layout) (k : nat) : sys -> sys -> Prop :=
| away_refl : forall s, cur s <> k -> away L k s s
| away_step : forall s s1 s2,
    away L k s s1 -> sstep L s1 s2 -> cur s2 <> k -> away L k s s2.

Theorem C58_arm_returns_partial : forall L, layout_ok L ->
  forall s0 s1 s2 s3 k, sreach L s0 -> cur s0 = k ->
  sstep L s0 s1 -> stat s1 k <> Unused ->
  away L k s1 s2 ->
  sstep L s2 s3 -> cur s3 = k ->
  returned L k (mc s0) (mc s3).
Proof.
  intros L O s0 s1 s2 s3 k RE CU ST NU AW ST3 CU3.
  assert (C1 : cur s1 <> k) by (clear - AW; induction AW; assumption).
  assert (S1 : stat s1 k = Suspended (mc s0)).
  { destruct ST as [s m' C|s j m0 m' fin E N AS RUN
                   |s n tc f m' fin E N AS AT OT DJ MM RUN];
      cbn [cur stat mc] in *.
    - contradiction.
    - rewrite sets_ne in * by congruence. rewrite CU, sets_eq in *.
      destruct fin; [contradiction|reflexivity].
    - rewrite sets_ne in * by congruence. rewrite CU, sets_eq in *.
      destruct fin; [contradiction|reflexivity]. }
  assert (R1 : sreach L s1) by (econstructor; eassumption).
  clear ST NU RE.
  assert (S2 : stat s2 k = Suspended (mc s0) /\ cur s2 <> k /\ sreach L s2).
  { clear ST3 CU3. induction AW as [s C|s t u AW IH ST CK]; [auto|].
    specialize (IH C1 S1 R1) as (S2 & C2 & R2).
    split; [|split; [exact CK|econstructor; eassumption]].
    destruct ST as [z m' C|z j m0 m' fin E N AS RUN
                   |z n tc f m' fin E N AS AT OT DJ MM RUN];
      cbn [cur stat mc] in *.
    - exact S2.
    - rewrite !sets_ne by congruence. exact S2.
    - rewrite !sets_ne by congruence. exact S2. }
  destruct S2 as (S2 & C2 & R2). destruct (sreach_inv L O s2 R2) as [_ I].
  specialize (I k _ S2).
  destruct ST3 as [z m' C|z j m0 m' fin E N AS RUN
                   |z n tc f m' fin E N AS AT OT DJ MM RUN];
    cbn [cur stat mc] in *.
  - contradiction.
  - subst j. rewrite S2 in E. injection E as <-.
    destruct (run_switch L (cur z) k (mc z) (mc s0) O N AS I)
      as (m2 & E2 & A1 & A2 & F & SC & _).
    rewrite RUN in E2. injection E2 as <-.
    split; [exact A1|]. split.
    + intros r H. cbn in H.
      repeat (destruct H as [<-|H]; [eapply A2; cbn; tauto|]). destruct H.
    + intros a OA NB. rewrite F.
      * destruct I as (_ & _ & F0). apply F0; assumption.
      * intros B. apply N. exact (lo_disj L O k _ a OA (lo_block L O _ _ B)).
  - subst n. rewrite S2 in E. discriminate E.
Qed.

(** The routine never gets stuck, and it changes no memory but the context
    block of the context that leaves. *)
Theorem C58_arm_switch_runs : forall L, layout_ok L ->
  forall s j m0, sreach L s -> stat s j = Suspended m0 -> j <> cur s ->
  at_switch L (cur s) (cx L j) (mc s) ->
  exists m', msteps (img L) 26 (mc s) = Some m' /\
    forall a, ~ block (cx L (cur s)) a -> mem m' a = mem (mc s) a.
Proof.
  intros L O s j m0 RE E N AS. destruct (sreach_inv L O s RE) as [_ I].
  destruct (run_switch L (cur s) j (mc s) m0 O N AS (I j m0 E))
    as (m2 & E2 & _ & _ & F & _).
  exists m2. split; assumption.
Qed.

(** A new coroutine begins in [llco_entry], with the argument in x0, at the very
    top of its own stack, with the stack pointer a multiple of 16 as the ABI
    wants it, and with a frame pointer that ends a chain of frames. *)
Theorem C58_arm_starts : forall L, layout_ok L ->
  forall s s' n, sreach L s -> stat s n = Unused -> n <> cur s ->
  sstep L s s' -> cur s' = n ->
  pc (mc s') = a_llco_entry (img L) /\ rg (mc s') (X 0) = 0 /\
  rg (mc s') SP mod 16 = 0 /\ rg (mc s') SP = stk L n + ssz L n /\
  rg (mc s') (X 29) = 0 /\
  forall a, ~ block (cx L (cur s)) a -> mem (mc s') a = mem (mc s) a.
Proof.
  intros L O s s' n RE U N ST C.
  destruct ST as [z m' CC|z j m0 m' fin E N1 AS RUN
                   |z x tc f m' fin E N1 AS AT OT DJ MM RUN];
    cbn [cur stat mc] in *.
  - symmetry in C. contradiction.
  - subst j. rewrite U in E. discriminate E.
  - subst x.
    destruct (run_start L (cur z) n tc f (mc z) O AS AT DJ MM)
        as (m2 & E2 & B1 & B2 & B3 & B4 & B5 & F & SC & _).
    rewrite RUN in E2. injection E2 as <-.
    destruct (lo_stk L O n) as (K1 & K2 & K3).
    split; [exact B1|]. split; [exact B2|]. split.
    { rewrite B3, Z.add_mod by lia. rewrite K1, K2. reflexivity. }
    split; [exact B3|]. split; [exact B4|]. exact F.
Qed.

(** A concrete layout: the thread's stack and stacks of 32 kilobytes. *)
Definition exL : layout := mkL (mkimg 4096 8192 12288)
  (fun n => Z.of_nat n * 1048576 + 1024)
  (fun n a => Z.of_nat n * 1048576 <= a < Z.of_nat n * 1048576 + 32768)
  (fun n => Z.of_nat n * 1048576) (fun _ => 32768).

Lemma exL_ok : layout_ok exL.
Proof.
  constructor; unfold exL; cbn [img cx own stk ssz a_switch a_entry].
  - intros n. replace (Z.of_nat n * 1048576 + 1024)
      with ((Z.of_nat n * 131072 + 128) * 8) by lia. apply Z.mod_mul. lia.
  - intros n a (i & B & ->). lia.
  - intros n k a B C. lia.
  - intros n. split; [|split; [reflexivity|lia]].
    replace (Z.of_nat n * 1048576) with ((Z.of_nat n * 65536) * 16) by lia.
    apply Z.mod_mul. lia.
  - left. lia.
Qed.

(** The thread, about to start coroutine 1: x19 holds 5, d8 holds 6, FPCR is 0,
    the return address is 777. *)
Definition ex_m0 : mach := mkm 4096
  (fun r => if reg_eqb r (X 0) then 1024 else if reg_eqb r (X 1) then 2048 else
            if reg_eqb r SP then 30000 else if reg_eqb r (X 30) then 777 else
            if reg_eqb r (X 19) then 5 else if reg_eqb r (D 8) then 6 else 0)
  (asmctx_make (img exL) (fun _ => 0) 2048 1048576 32768 0) 0.

(** Coroutine 1, about to switch back, with 77 in x19 and another FPCR. *)
Definition ex_m2 (M : Z -> Z) : mach := mkm 4096
  (fun r => if reg_eqb r (X 0) then 1049600 else if reg_eqb r (X 1) then 1024 else
            if reg_eqb r (X 19) then 77 else 0) M 1.

Definition ex_s0 := mks ex_m0 0 (sets (fun _ => Unused) 0 Running).
Definition ex_s1 (m1 : mach) := mks m1 1
  (sets (sets (stat ex_s0) 0 (Suspended ex_m0)) 1 Running).
Definition ex_s2 (m1 : mach) := mks (ex_m2 (mem m1)) 1 (stat (ex_s1 m1)).
Definition ex_s3 (m1 m3 : mach) := mks m3 0
  (sets (sets (stat (ex_s2 m1)) 1 (Suspended (ex_m2 (mem m1)))) 0 Running).

Lemma ex_at0 : at_switch exL 0 2048 ex_m0.
Proof. repeat split. Qed.

Lemma ex_at2 M : at_switch exL 1 (cx exL 0) (ex_m2 M).
Proof. repeat split. Qed.

Lemma ex_step0 : exists m1, sstep exL ex_s0 (ex_s1 m1).
Proof.
  assert (DJ : forall a, block 2048 a -> ~ block (cx exL 0) a).
  { intros a (i & A & ->) (k & B & E). change (cx exL 0) with 1024 in E. lia. }
  destruct (run_start exL 0 1 2048 (fun _ => 0) ex_m0 exL_ok ex_at0 eq_refl DJ)
    as (m' & E & _).
  - reflexivity.
  - exists m'.
    refine (SStart exL ex_s0 1 2048 (fun _ => 0) m' false eq_refl _ ex_at0 eq_refl
      _ DJ _ E).
    + discriminate.
    + intros a (i & A & ->). cbn [own exL cur ex_s0]. lia.
    + reflexivity.
Qed.

Lemma ex_step1 m1 : sstep exL (ex_s1 m1) (ex_s2 m1).
Proof.
  refine (SCompute exL (ex_s1 m1) (ex_m2 (mem m1)) _).
  intros n m0 a _ _. reflexivity.
Qed.

Lemma ex_step2 m1 : sreach exL (ex_s2 m1) ->
  exists m3, sstep exL (ex_s2 m1) (ex_s3 m1 m3) /\ fpc m3 = 1.
Proof.
  intros RE. destruct (sreach_inv exL exL_ok _ RE) as [_ I].
  destruct (run_switch exL 1 0 (ex_m2 (mem m1)) ex_m0 exL_ok ltac:(discriminate)
    (ex_at2 (mem m1)) (I 0%nat ex_m0 eq_refl)) as (m' & E & _ & _ & _ & _ & FP).
  exists m'. split; [|exact FP].
  refine (SSwitch exL (ex_s2 m1) 0 ex_m0 m' false eq_refl _ (ex_at2 (mem m1)) E).
  discriminate.
Qed.

(** The thread starts coroutine 1 and gets the processor back. *)
Example C58_arm_example : exists s1 s2 s3,
  sreach exL ex_s0 /\ sstep exL ex_s0 s1 /\ stat s1 0%nat <> Unused /\
  away exL 0 s1 s2 /\ sstep exL s2 s3 /\ cur s3 = 0%nat /\
  rg (mc s2) (X 19) = 77 /\ rg (mc s3) (X 19) = 5 /\ rg (mc s3) (D 8) = 6 /\
  pc (mc s3) = 777 /\ rg (mc s3) SP = 30000 /\
  fpc (mc ex_s0) = 0 /\ fpc (mc s3) = 1.
Proof.
  assert (R0 : sreach exL ex_s0) by exact (sreach_init exL ex_m0).
  destruct ex_step0 as (m1 & S0).
  pose proof (sreach_step exL ex_s0 (ex_s1 m1) R0 S0) as R1.
  pose proof (sreach_step exL _ _ R1 (ex_step1 m1)) as R2.
  destruct (ex_step2 m1 R2) as (m3 & S2 & FP).
  assert (AW : away exL 0 (ex_s1 m1) (ex_s2 m1)).
  { refine (away_step exL 0 (ex_s1 m1) (ex_s1 m1) (ex_s2 m1)
      (away_refl exL 0 (ex_s1 m1) _) (ex_step1 m1) _); discriminate. }
  assert (NU : stat (ex_s1 m1) 0%nat <> Unused) by discriminate.
  destruct (C58_arm_returns_partial exL exL_ok ex_s0 (ex_s1 m1) (ex_s2 m1)
    (ex_s3 m1 m3) 0%nat R0 eq_refl S0 NU AW S2 eq_refl) as (A & C & _).
  exists (ex_s1 m1), (ex_s2 m1), (ex_s3 m1 m3).
  split; [exact R0|]. split; [exact S0|]. split; [exact NU|].
  split; [exact AW|]. split; [exact S2|]. split; [reflexivity|].
  split; [reflexivity|].
  split; [rewrite C by (cbn; tauto); reflexivity|].
  split; [rewrite C by (cbn; tauto); reflexivity|].
  split; [rewrite A; reflexivity|].
  split; [rewrite C by (cbn; tauto); reflexivity|]. split; [reflexivity|]. exact FP.
Qed.

(** FPCR is not saved either. *)
Theorem C58_arm_rounding_refuted :
  exists L s0 s1 s2 s3 k, layout_ok L /\ sreach L s0 /\ cur s0 = k /\
  sstep L s0 s1 /\ stat s1 k <> Unused /\ away L k s1 s2 /\
  sstep L s2 s3 /\ cur s3 = k /\ fpc (mc s3) <> fpc (mc s0).
Proof.
  destruct C58_arm_example
    as (s1 & s2 & s3 & A & B & C & D & E & F & _ & _ & _ & _ & _ & G & H).
  exists exL, ex_s0, s1, s2, s3, 0%nat.
  split; [exact exL_ok|]. split; [exact A|]. split; [reflexivity|].
  split; [exact B|]. split; [exact C|]. split; [exact D|]. split; [exact E|].
  split; [exact F|]. rewrite G, H. discriminate.
Qed.

Print Assumptions C58_arm_returns_partial.
Print Assumptions C58_arm_switch_runs.
Print Assumptions C58_arm_starts.
Print Assumptions C58_arm_rounding_refuted.
