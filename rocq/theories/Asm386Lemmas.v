(** Symbolic execution of the i386 switch routine and the invariant of suspended
    contexts. *)
From Coq Require Import List ZArith Bool Lia.
From Verif Require Import Asm386.
Import ListNotations.
Open Scope Z_scope.

Lemma fetch_shift base o i nx : forall code b,
  fetch_in code b o = Some (i, nx) ->
  fetch_in code (base + b) (base + o) = Some (i, base + nx).
Proof.
  induction code as [|x code IH]; intros b H; cbn [fetch_in] in *;
    [discriminate|].
  destruct (Z.eqb_spec o b).
  - injection H as <- <-. subst b. rewrite Z.eqb_refl. f_equal. f_equal. lia.
  - destruct (Z.eqb_spec (base + o) (base + b)); [lia|].
    rewrite <- Z.add_assoc. apply IH, H.
Qed.

Lemma fetch_sw g o i nx :
  fetch_in asm_switch 0 o = Some (i, nx) ->
  fetch g (a_switch g + o) = Some (i, a_switch g + nx).
Proof.
  intros H. unfold fetch.
  pose proof (fetch_shift (a_switch g) _ _ _ _ _ H) as E.
  rewrite Z.add_0_r in E. rewrite E. reflexivity.
Qed.

Lemma msteps_S g n m :
  msteps g (S n) m = match mstep g m with Some m' => msteps g n m' | None => None end.
Proof. reflexivity. Qed.

Lemma msteps_add g : forall n k m,
  msteps g (n + k) m = match msteps g n m with Some m' => msteps g k m' | None => None end.
Proof.
  induction n as [|n IH]; intros k m; [reflexivity|].
  cbn [Nat.add]. rewrite !msteps_S. destruct (mstep g m); [apply IH|reflexivity].
Qed.

Lemma mstep_at g m o i nx :
  rip m = a_switch g + o -> fetch_in asm_switch 0 o = Some (i, nx) ->
  mstep g m = exec1 i (a_switch g + nx) m.
Proof. intros R F. unfold mstep. rewrite R, (fetch_sw _ _ _ _ F). reflexivity. Qed.

Lemma al4 a k : a mod 4 = 0 -> aligned (a + 4 * k) = true.
Proof.
  intros A. unfold aligned. apply Z.eqb_eq. rewrite Z.mul_comm, Z.mod_add; lia.
Qed.

Lemma setm_ne f a v x : x <> a -> setm f a v x = f x.
Proof. intros N. unfold setm. destruct (Z.eqb_spec x a); [contradiction|reflexivity]. Qed.
Lemma setm_eq f a v : setm f a v a = v.
Proof. unfold setm. rewrite Z.eqb_refl. reflexivity. Qed.

(** The six words of the block at [f] of a memory. *)
Definition words (M : Z -> Z) (f : Z) (l : list Z) : Prop :=
  l = [M f; M (f + 4); M (f + 8); M (f + 12); M (f + 16); M (f + 20)].

Lemma block0 f a :
  block f a <-> a = f \/ a = f + 4 \/ a = f + 8 \/ a = f + 12 \/ a = f + 16 \/ a = f + 20.
Proof.
  split.
  - intros (i & B & ->).
    assert (i = 0 \/ i = 1 \/ i = 2 \/ i = 3 \/ i = 4 \/ i = 5) by lia. lia.
  - intros H. destruct H as [->|[->|[->|[->|[->| ->]]]]].
    + exists 0; lia. + exists 1; lia. + exists 2; lia. + exists 3; lia.
    + exists 4; lia. + exists 5; lia.
Qed.

Lemma run1 g n m o i nx : rip m = a_switch g + o -> fetch_in asm_switch 0 o = Some (i, nx) ->
  msteps g (S n) m = match exec1 i (a_switch g + nx) m with Some m' => msteps g n m' | None => None end.
Proof. intros R F. rewrite msteps_S, (mstep_at g m o i nx R F). reflexivity. Qed.

Ltac edx := match goal with |- context [setr ?a ?b ?c EDX] => change (setr a b c EDX) with (a EDX) end.
Lemma msteps_app g n k m :
  msteps g (n + k) m = match msteps g n m with Some m' => msteps g k m' | None => None end.
Proof.
  revert m; induction n as [|n IH]; intros m; [reflexivity|].
  cbn [Nat.add]. rewrite !msteps_S. destruct (mstep g m); [apply IH|reflexivity].
Qed.

(** What the first 17 instructions do. *)
Lemma run17 g m f t :
  rip m = a_switch g -> rg m ESP mod 4 = 0 -> mem m (rg m ESP + 4) = f -> mem m (rg m ESP + 8) = t ->
  f mod 4 = 0 -> t mod 4 = 0 -> (forall a, block t a -> ~ block f a /\ a <> rg m ESP - 4) ->
  ~ block f (rg m ESP - 4) ->
  exists m', msteps g 17 m = Some m' /\
    rip m' = mem m t /\
    words (mem m) t [rip m'; rg m' ESP; rg m' EBP; rg m' EBX; rg m' ESI; rg m' EDI] /\
    words (mem m') f [a_switch g + 51; rg m ESP; rg m EBP; rg m EBX; rg m ESI; rg m EDI] /\
    (forall a, ~ block f a -> a <> rg m ESP - 4 -> mem m' a = mem m a) /\ fpc m' = fpc m.
Proof.
  destruct m as [pc R M fp]. cbn [rip rg mem fpc]. intros P AS D1 S1 AF AT DJ NBS.
  set (sp := R ESP) in *.
  assert (SA : forall k, aligned (sp + 4 * k) = true) by (intros k; apply al4, AS).
  assert (FA : forall k, aligned (f + 4 * k) = true) by (intros k; apply al4, AF).
  assert (TA : forall k, aligned (t + 4 * k) = true) by (intros k; apply al4, AT).
  pose (M1 := setm M (sp - 4) (a_switch g + 5)).
  pose (N := setm (setm (setm (setm (setm (setm M1
    (f + 0) (a_switch g + 51)) (f + 4) sp) (f + 8) (R EBP))
    (f + 12) (R EBX)) (f + 16) (R ESI)) (f + 20) (R EDI)).
  assert (E0 : M1 (sp - 4) = a_switch g + 5) by apply setm_eq.
  assert (E1 : M1 (sp + 4) = f) by (unfold M1; rewrite setm_ne by lia; exact D1).
  assert (E2 : M1 (sp + 8) = t) by (unfold M1; rewrite setm_ne by lia; exact S1).
  pose (R5 := setr (setr (setr (setr (setr (setr R ESP (sp - 4)) ESP sp) ECX (a_switch g + 5)) ECX (a_switch g + 51)) EAX f) EDX t).
  assert (X1 : msteps g 5 (mkm pc R M fp) = Some (mkm (a_switch g + 17) R5 M1 fp)).
  { rewrite (run1 g _ _ 0 (ICall 0) 5); [|cbn [rip]; lia|reflexivity]. cbn [exec1 rip rg mem fpc]. fold sp.
    replace (aligned (sp - 4)) with true by (symmetry; replace (sp - 4) with (sp + 4 * (-1)) by lia; apply SA). fold M1.
    rewrite (run1 g _ _ 5 (IPop ECX) 6); [|cbn [rip]; lia|reflexivity]. cbn [exec1 rip rg mem fpc].
    change (setr R ESP (sp - 4) ESP) with (sp - 4).
    replace (aligned (sp - 4)) with true by (symmetry; replace (sp - 4) with (sp + 4 * (-1)) by lia; apply SA).
    rewrite E0. replace (sp - 4 + 4) with sp by lia.
    rewrite (run1 g _ _ 6 (IAdd 46 ECX) 9); [|cbn [rip]; lia|reflexivity]. cbn [exec1 rip rg mem fpc].
    change (setr (setr (setr R ESP (sp - 4)) ESP sp) ECX (a_switch g + 5) ECX) with (a_switch g + 5).
    replace (a_switch g + 5 + 46) with (a_switch g + 51) by lia.
    rewrite (run1 g _ _ 9 (ILoad 4 ESP EAX) 13); [|cbn [rip]; lia|reflexivity]. cbn [exec1 rip rg mem fpc].
    change (setr (setr (setr (setr R ESP (sp - 4)) ESP sp) ECX (a_switch g + 5)) ECX (a_switch g + 51) ESP) with sp.
    rewrite (SA 1 : aligned (sp + 4) = true), E1.
    rewrite (run1 g _ _ 13 (ILoad 8 ESP EDX) 17); [|cbn [rip]; lia|reflexivity]. cbn [exec1 rip rg mem fpc].
    change (setr (setr (setr (setr (setr R ESP (sp - 4)) ESP sp) ECX (a_switch g + 5)) ECX (a_switch g + 51)) EAX f ESP) with sp.
    rewrite (SA 2 : aligned (sp + 8) = true), E2. reflexivity. }
  assert (Q : R5 EAX = f /\ R5 EDX = t /\ R5 ECX = a_switch g + 51 /\ R5 ESP = sp /\ R5 EBP = R EBP /\ R5 EBX = R EBX /\ R5 ESI = R ESI /\ R5 EDI = R EDI) by (repeat split).
  destruct Q as (QA & QD & QC & QS & QB & QX & QI & QU).
  assert (X2 : msteps g 6 (mkm (a_switch g + 17) R5 M1 fp) = Some (mkm (a_switch g + 34) R5 N fp)).
  { rewrite (run1 g _ _ 17 (IStore ECX 0 EAX) 19); [|reflexivity|reflexivity]. cbn [exec1 rip rg mem fpc]. rewrite QA, QC, (FA 0 : aligned (f + 0) = true).
    rewrite (run1 g _ _ 19 (IStore ESP 4 EAX) 22); [|reflexivity|reflexivity]. cbn [exec1 rip rg mem fpc]. rewrite QA, QS, (FA 1 : aligned (f + 4) = true).
    rewrite (run1 g _ _ 22 (IStore EBP 8 EAX) 25); [|reflexivity|reflexivity]. cbn [exec1 rip rg mem fpc]. rewrite QA, QB, (FA 2 : aligned (f + 8) = true).
    rewrite (run1 g _ _ 25 (IStore EBX 12 EAX) 28); [|reflexivity|reflexivity]. cbn [exec1 rip rg mem fpc]. rewrite QA, QX, (FA 3 : aligned (f + 12) = true).
    rewrite (run1 g _ _ 28 (IStore ESI 16 EAX) 31); [|reflexivity|reflexivity]. cbn [exec1 rip rg mem fpc]. rewrite QA, QI, (FA 4 : aligned (f + 16) = true).
    rewrite (run1 g _ _ 31 (IStore EDI 20 EAX) 34); [|reflexivity|reflexivity]. cbn [exec1 rip rg mem fpc]. rewrite QA, QU, (FA 5 : aligned (f + 20) = true).
    reflexivity. }
  pose (R6 := setr (setr (setr (setr (setr R5 EDI (N (t + 20))) ESI (N (t + 16))) EBX (N (t + 12))) EBP (N (t + 8))) ESP (N (t + 4))).
  assert (X3 : msteps g 6 (mkm (a_switch g + 34) R5 N fp) = Some (mkm (N t) R6 N fp)).
  { clearbody N R5. clear X1 X2.
    rewrite (run1 g _ _ 34 (ILoad 20 EDX EDI) 37); [|reflexivity|reflexivity]. cbn [exec1 rip rg mem fpc]. repeat edx. rewrite QD, (TA 5 : aligned (t + 20) = true).
    rewrite (run1 g _ _ 37 (ILoad 16 EDX ESI) 40); [|reflexivity|reflexivity]. cbn [exec1 rip rg mem fpc]. repeat edx. rewrite QD, (TA 4 : aligned (t + 16) = true).
    rewrite (run1 g _ _ 40 (ILoad 12 EDX EBX) 43); [|reflexivity|reflexivity]. cbn [exec1 rip rg mem fpc]. repeat edx. rewrite QD, (TA 3 : aligned (t + 12) = true).
    rewrite (run1 g _ _ 43 (ILoad 8 EDX EBP) 46); [|reflexivity|reflexivity]. cbn [exec1 rip rg mem fpc]. repeat edx. rewrite QD, (TA 2 : aligned (t + 8) = true).
    rewrite (run1 g _ _ 46 (ILoad 4 EDX ESP) 49); [|reflexivity|reflexivity]. cbn [exec1 rip rg mem fpc]. repeat edx. rewrite QD, (TA 1 : aligned (t + 4) = true).
    rewrite (run1 g _ _ 49 (IJmpM EDX) 51); [|reflexivity|reflexivity]. cbn [exec1 rip rg mem fpc]. repeat edx.
    rewrite QD. pose proof (TA 0) as T0. rewrite Z.mul_0_r, Z.add_0_r in T0. rewrite T0. reflexivity. }
  assert (NM : forall a, ~ block f a -> a <> sp - 4 -> N a = M a).
  { intros a NB NE. rewrite block0 in NB. unfold N, M1. rewrite !setm_ne; [reflexivity|lia..]. }
  assert (NT : forall a, block t a -> N a = M a) by (intros a B; apply NM; apply (DJ a B)).
  assert (BT : block t t /\ block t (t + 4) /\ block t (t + 8) /\ block t (t + 12) /\ block t (t + 16) /\ block t (t + 20))
    by (rewrite !block0; lia).
  destruct BT as (B0 & B1 & B2 & B3 & B4 & B5).
  exists (mkm (N t) R6 N fp).
  change 17%nat with (5 + (6 + 6))%nat. rewrite msteps_app, X1, msteps_app, X2, X3. cbn [rip rg mem fpc].
  split; [reflexivity|]. split; [apply NT, B0|]. split; [|split; [|split; [|reflexivity]]].
  - unfold words, R6. unfold setr. cbn [reg_eqb]. rewrite !NT by assumption. reflexivity.
  - unfold words, N. replace (f + 0) with f by lia. unfold setm.
    repeat match goal with |- context [?a =? ?b] => destruct (Z.eqb_spec a b); try lia end; reflexivity.
  - exact NM.
Qed.

(** What is saved of a suspended context: its block holds the resume address
    (the [ret] of the switch routine) and the registers, and the rest of its
    memory is as it was, but for the word below the stack pointer, which the [call] of
    the routine has used. *)
Definition saved (L : layout) (M : Z -> Z) (n : nat) (m0 : mach) : Prop :=
  rg m0 ESP mod 4 = 0 /\ own L n (rg m0 ESP) /\ ~ block (cx L n) (rg m0 ESP) /\
  words M (cx L n) [a_switch (img L) + 51; rg m0 ESP; rg m0 EBP; rg m0 EBX; rg m0 ESI; rg m0 EDI] /\
  (forall a, own L n a -> ~ block (cx L n) a -> a <> rg m0 ESP - 4 -> M a = mem m0 a).

Definition inv (L : layout) (s : sys) : Prop :=
  stat s (cur s) = Running /\
  forall n m0, stat s n = Suspended m0 -> saved L (mem (mc s)) n m0.

Lemma words_eq L M N n l : layout_ok L ->
  (forall a, own L n a -> M a = N a) -> words N (cx L n) l -> words M (cx L n) l.
Proof.
  intros O E W. unfold words in *. rewrite W.
  rewrite !E by (apply (lo_block L O), block0; lia). reflexivity.
Qed.

Lemma saved_eq L M N n m0 : layout_ok L ->
  (forall a, own L n a -> M a = N a) -> saved L N n m0 -> saved L M n m0.
Proof.
  intros O E (A & B & C & W & F).
  split; [exact A|]. split; [exact B|]. split; [exact C|]. split.
  - exact (words_eq L M N n _ O E W).
  - intros a Q NB NE. rewrite (E a Q). apply F; assumption.
Qed.

Lemma blocks_disj L n k a : layout_ok L -> n <> k ->
  block (cx L n) a -> ~ block (cx L k) a.
Proof.
  intros O N B C. apply N. exact (lo_disj L O n k a (lo_block L O _ _ B)
                                   (lo_block L O _ _ C)).
Qed.

(** The [ret] at the resume address. *)
Lemma run_ret g m : rip m = a_switch g + 51 -> rg m ESP mod 4 = 0 ->
  exists m', msteps g 1 m = Some m' /\ rip m' = mem m (rg m ESP) /\
    rg m' ESP = rg m ESP + 4 /\
    (forall r, r <> ESP -> rg m' r = rg m r) /\ mem m' = mem m /\ fpc m' = fpc m.
Proof.
  intros P A. rewrite msteps_S. rewrite (mstep_at g m 51 IRet 52 P eq_refl).
  cbn [exec1]. unfold aligned. rewrite A. cbn [Z.eqb msteps].
  eexists. split; [reflexivity|]. cbn [rip rg mem fpc].
  repeat split. intros r NR. unfold setr. destruct r; try reflexivity; contradiction.
Qed.

(** The whole switch to a suspended context. *)
Lemma run18 L k j m m0 : layout_ok L -> j <> k ->
  at_switch L k (cx L j) m -> saved L (mem m) j m0 ->
  exists m', msteps (img L) 18 m = Some m' /\
    rip m' = mem m0 (rg m0 ESP) /\
    rg m' ESP = rg m0 ESP + 4 /\ rg m' EBP = rg m0 EBP /\ rg m' EBX = rg m0 EBX /\
    rg m' ESI = rg m0 ESI /\ rg m' EDI = rg m0 EDI /\
    (forall a, ~ block (cx L k) a -> a <> rg m ESP - 4 -> mem m' a = mem m a) /\
    saved L (mem m') k m /\ fpc m' = fpc m.
Proof.
  intros O N AS SV. pose proof AS as (P & A & D & T & OW & NB & OW4 & NB4).
  pose proof SV as (A0 & OW0 & NB0 & W0 & F0).
  assert (DJ : forall a, block (cx L j) a -> ~ block (cx L k) a /\ a <> rg m ESP - 4).
  { intros a B. split; [exact (blocks_disj L j k a O N B)|]. intros ->. apply N.
    exact (lo_disj L O j k _ (lo_block L O _ _ B) OW4). }
  destruct (run17 (img L) m (cx L k) (cx L j) P A D T (lo_align L O k)
    (lo_align L O j) DJ NB4)
    as (m1 & E1 & R1 & W1 & W2 & F1 & FP1).
  unfold words in W0, W1. rewrite <- W0 in W1.
  injection W1 as Q0 Q1 Q2 Q3 Q4 Q5.
  assert (AL : rg m1 ESP mod 4 = 0) by (rewrite Q1; exact A0).
  destruct (run_ret (img L) m1 Q0 AL) as (m2 & E2 & R2 & S2 & G2 & M2 & FP2).
  exists m2. split.
  { change 18%nat with (17 + 1)%nat. rewrite msteps_app, E1. exact E2. }
  split.
  { rewrite R2, Q1. rewrite F1.
    - apply F0; try assumption. lia.
    - intros B. apply N. exact (lo_disj L O j k _ OW0 (lo_block L O _ _ B)).
    - intros E. rewrite E in OW0. apply N. exact (lo_disj L O j k _ OW0 OW4). }
  split; [rewrite S2, Q1; reflexivity|].
  split; [rewrite G2 by discriminate; exact Q2|].
  split; [rewrite G2 by discriminate; exact Q3|].
  split; [rewrite G2 by discriminate; exact Q4|].
  split; [rewrite G2 by discriminate; exact Q5|].
  split; [intros a B NE; rewrite M2; apply F1; assumption|].
  split; [|congruence].
  rewrite M2. split; [exact A|]. split; [exact OW|]. split; [exact NB|]. split; [exact W2|].
  intros a _ B NE. apply F1; assumption.
Qed.

(** The start of a new coroutine. *)
Lemma run_start L k n tc f m : layout_ok L ->
  at_switch L k tc m -> tc mod 4 = 0 ->
  (forall a, block tc a -> own L k a) ->
  (forall a, block tc a -> ~ block (cx L k) a /\ rg m ESP <= a) ->
  n <> k -> (0 < n)%nat ->
  (forall a, mem m a = asmctx_make (img L) f tc (stk L n) (ssz L n) 0 a) ->
  exists m', msteps (img L) 17 m = Some m' /\
    rip m' = a_llco_entry (img L) /\ mem m' (rg m' ESP + 4) = 0 /\
    rg m' ESP = stk L n + ssz L n - 20 /\ rg m' EBP = 0 /\
    mem m' (rg m' ESP) = dummy_ret /\
    (forall a, ~ block (cx L k) a -> a <> rg m ESP - 4 -> mem m' a = mem m a) /\
    saved L (mem m') k m /\ fpc m' = fpc m.
Proof.
  intros O AS AT OT DJ NK N0 MM. pose proof AS as (P & A & D & T & OW & NB & OW4 & NB4).
  destruct (run17 (img L) m (cx L k) tc P A D T (lo_align L O k) AT)
    as (m1 & E1 & R1 & W1 & W2 & F1 & FP1).
  { intros a B. destruct (DJ a B). split; [assumption|lia]. }
  { exact NB4. }
  set (top := stk L n + ssz L n - 20).
  assert (OTOP : own L n top /\ own L n (top + 4)).
  { destruct (lo_stk L O n) as (_ & _ & Z3). unfold top.
    split; apply (lo_in L O n); try exact N0; lia. }
  destruct OTOP as [OT0 OT4].
  assert (TT : forall a, block tc a -> a <> top /\ a <> top + 4).
  { intros a B. split; intros ->; apply NK.
    - exact (lo_disj L O n k _ OT0 (OT _ B)).
    - exact (lo_disj L O n k _ OT4 (OT _ B)). }
  pose proof (TT tc ltac:(apply block0; lia)) as [C0 C0'].
  pose proof (TT (tc + 4) ltac:(apply block0; lia)) as [C1 C1'].
  pose proof (TT (tc + 8) ltac:(apply block0; lia)) as [C2 C2'].
  unfold words in W1. rewrite !MM in W1. unfold asmctx_make in W1.
  cbn [fold_left] in W1.
  replace (stk L n + ssz L n - 16 - 4) with top in W1 by (unfold top; lia).
  injection W1 as Q0 Q1 Q2 Q3 Q4 Q5.
  repeat rewrite setm_ne in Q0 by lia. rewrite setm_eq in Q0.
  repeat rewrite setm_ne in Q1 by lia. rewrite setm_eq in Q1.
  repeat rewrite setm_ne in Q2 by lia. rewrite setm_eq in Q2.
  assert (KEEP : forall a, own L n a -> mem m1 a = mem m a).
  { intros a OA. apply F1.
    - intros B. apply NK. exact (lo_disj L O n k _ OA (lo_block L O _ _ B)).
    - intros ->. apply NK. exact (lo_disj L O n k _ OA OW4). }
  exists m1. split; [exact E1|]. split; [exact Q0|]. rewrite Q1. split.
  { rewrite KEEP by exact OT4. rewrite MM. unfold asmctx_make. cbn [fold_left].
    replace (stk L n + ssz L n - 16 - 4) with top by (unfold top; lia).
    rewrite !(setm_ne _ _ _ (top + 4)) by lia. apply setm_eq. }
  split; [reflexivity|]. split; [exact Q2|]. split.
  { rewrite KEEP by exact OT0. rewrite MM. unfold asmctx_make. cbn [fold_left].
    replace (stk L n + ssz L n - 16 - 4) with top by (unfold top; lia).
    rewrite !(setm_ne _ _ _ top) by lia. apply setm_eq. }
  split; [exact F1|]. split; [|exact FP1].
  split; [exact A|]. split; [exact OW|]. split; [exact NB|]. split; [exact W2|].
  intros a _ B NE. apply F1; assumption.
Qed.

Lemma sets_eq f k v : sets f k v k = v.
Proof. unfold sets. rewrite Nat.eqb_refl. reflexivity. Qed.
Lemma sets_ne f k v n : n <> k -> sets f k v n = f n.
Proof. intros N. unfold sets. destruct (Nat.eqb_spec n k); [contradiction|reflexivity]. Qed.

Lemma inv_after L s j m' (fin : bool) : layout_ok L -> inv L s -> j <> cur s ->
  own L (cur s) (rg (mc s) ESP - 4) ->
  (forall a, ~ block (cx L (cur s)) a -> a <> rg (mc s) ESP - 4 -> mem m' a = mem (mc s) a) ->
  saved L (mem m') (cur s) (mc s) ->
  inv L (mks m' j (sets (sets (stat s) (cur s)
     (if fin then Unused else Suspended (mc s))) j Running)).
Proof.
  intros O [R I] N OW F SC. split; cbn [stat cur mc].
  - apply sets_eq.
  - intros n m0 E. destruct (Nat.eq_dec n j) as [->|NJ].
    { rewrite sets_eq in E. discriminate E. }
    rewrite (sets_ne _ _ _ _ NJ) in E.
    destruct (Nat.eq_dec n (cur s)) as [->|NC].
    { rewrite sets_eq in E. destruct fin; [discriminate E|]. injection E as <-.
      exact SC. }
    rewrite (sets_ne _ _ _ _ NC) in E.
    apply (saved_eq L _ (mem (mc s))); [exact O| |apply I, E].
    intros a OA. apply F.
    + intros B. apply NC. exact (lo_disj L O n (cur s) a OA (lo_block L O _ _ B)).
    + intros ->. apply NC. exact (lo_disj L O n (cur s) _ OA OW).
Qed.

Lemma sreach_inv L : layout_ok L -> forall s, sreach L s -> inv L s.
Proof.
  intros O s H. induction H as [m|s s' H [R I] ST].
  - split; cbn [stat cur mc]; [reflexivity|].
    intros n m0 E. destruct n; discriminate E.
  - destruct ST as [s m' C|s j m0 m' fin E N AS RUN
                   |s n tc f m' fin E N N0 AS AT OT DJ MM RUN].
    + split; cbn [stat cur mc]; [exact R|].
      intros n m0 E. apply (saved_eq L _ (mem (mc s))); [exact O| |apply I, E].
      intros a OA. exact (C n m0 a E OA).
    + destruct (run18 L (cur s) j (mc s) m0 O N AS (I j m0 E))
        as (m2 & E2 & _ & _ & _ & _ & _ & _ & F & SC & _).
      rewrite RUN in E2. injection E2 as <-.
      apply inv_after; try assumption; [split; assumption|apply AS].
    + destruct (run_start L (cur s) n tc f (mc s) O AS AT OT DJ N N0 MM)
        as (m2 & E2 & _ & _ & _ & _ & _ & F & SC & _).
      rewrite RUN in E2. injection E2 as <-.
      apply inv_after; try assumption; [split; assumption|apply AS].
Qed.
