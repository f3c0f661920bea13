(** Symbolic execution of the switch routine and the invariant of suspended
    contexts. *)
From Coq Require Import List ZArith Bool Lia.
From Verif Require Import Asm.
Import ListNotations.
Open Scope Z_scope.

Lemma fetch_shift base o i nx : forall code b,
  fetch_in code b o = Some (i, nx) ->
  fetch_in code (base + b) (base + o) = Some (i, base + nx).
Proof.
  induction code as [|x code IH]; intros b H; cbn [fetch_in] in *;
    [discriminate|].
  destruct (Z.eqb_spec o b).
  - injection H as <- <-. subst b. rewrite Z.eqb_refl. f_equal. f_equal. lia.
  - destruct (Z.eqb_spec (base + o) (base + b)); [lia|].
    rewrite <- Z.add_assoc. apply IH, H.
Qed.

Lemma fetch_sw g o i nx :
  fetch_in asm_switch 0 o = Some (i, nx) ->
  fetch g (a_switch g + o) = Some (i, a_switch g + nx).
Proof.
  intros H. unfold fetch.
  pose proof (fetch_shift (a_switch g) _ _ _ _ _ H) as E.
  rewrite Z.add_0_r in E. rewrite E. reflexivity.
Qed.

Lemma fetch_none code : forall b a,
  (a < b \/ b + fold_right (fun i z => isize i + z) 0 code <= a) ->
  fetch_in code b a = None.
Proof.
  induction code as [|x code IH]; intros b a H; cbn [fetch_in fold_right] in *;
    [reflexivity|].
  assert (P : 0 < isize x) by (destruct x as [| | | | |r|]; unfold isize; cbn;
     try (unfold modrm; destruct (_ =? _)); try (destruct r); cbn; lia).
  assert (F : 0 <= fold_right (fun i z => isize i + z) 0 code).
  { clear. induction code as [|y c IH]; cbn; [lia|]. unfold isize at 1. lia. }
  destruct (Z.eqb_spec a b); [lia|]. apply IH. lia.
Qed.

Definition img_ok (g : image) : Prop :=
  a_switch g + 69 <= a_entry g \/ a_entry g + 6 <= a_switch g.

Lemma fetch_en g o i nx :
  img_ok g -> 0 <= o < 6 ->
  fetch_in asm_entry 0 o = Some (i, nx) ->
  fetch g (a_entry g + o) = Some (i, a_entry g + nx).
Proof.
  intros D O H. unfold fetch. rewrite fetch_none.
  - pose proof (fetch_shift (a_entry g) _ _ _ _ _ H) as E.
    rewrite Z.add_0_r in E. exact E.
  - change (fold_right (fun i z => isize i + z) 0 asm_switch) with 69.
    destruct D; lia.
Qed.

Lemma msteps_S g n m :
  msteps g (S n) m = match mstep g m with Some m' => msteps g n m' | None => None end.
Proof. reflexivity. Qed.

Lemma msteps_add g : forall n k m,
  msteps g (n + k) m = match msteps g n m with Some m' => msteps g k m' | None => None end.
Proof.
  induction n as [|n IH]; intros k m; [reflexivity|].
  cbn [Nat.add]. rewrite !msteps_S. destruct (mstep g m); [apply IH|reflexivity].
Qed.

Lemma mstep_at g m o i nx :
  rip m = a_switch g + o -> fetch_in asm_switch 0 o = Some (i, nx) ->
  mstep g m = exec1 i (a_switch g + nx) m.
Proof. intros R F. unfold mstep. rewrite R, (fetch_sw _ _ _ _ F). reflexivity. Qed.

Lemma al8 a k : a mod 8 = 0 -> aligned (a + 8 * k) = true.
Proof.
  intros A. unfold aligned. apply Z.eqb_eq. rewrite Z.mul_comm, Z.mod_add; lia.
Qed.

Lemma setm_ne f a v x : x <> a -> setm f a v x = f x.
Proof. intros N. unfold setm. destruct (Z.eqb_spec x a); [contradiction|reflexivity]. Qed.
Lemma setm_eq f a v : setm f a v a = v.
Proof. unfold setm. rewrite Z.eqb_refl. reflexivity. Qed.

(** The eight words of the block at [f] of a memory. *)
Definition words (M : Z -> Z) (f : Z) (l : list Z) : Prop :=
  l = [M f; M (f + 8); M (f + 16); M (f + 24); M (f + 32); M (f + 40);
       M (f + 48); M (f + 56)].

Lemma block0 f a :
  block f a <-> a = f \/ a = f + 8 \/ a = f + 16 \/ a = f + 24 \/ a = f + 32 \/
                a = f + 40 \/ a = f + 48 \/ a = f + 56.
Proof.
  split.
  - intros (i & B & ->).
    assert (i = 0 \/ i = 1 \/ i = 2 \/ i = 3 \/ i = 4 \/ i = 5 \/ i = 6 \/ i = 7)
      by lia.
    lia.
  - intros H. destruct H as [->|[->|[->|[->|[->|[->|[->| ->]]]]]]].
    + exists 0; lia. + exists 1; lia. + exists 2; lia. + exists 3; lia.
    + exists 4; lia. + exists 5; lia. + exists 6; lia. + exists 7; lia.
Qed.

(** What the first 17 instructions do. *)
Lemma run17 g m f t :
  rip m = a_switch g -> rg m RDI = f -> rg m RSI = t ->
  f mod 8 = 0 -> t mod 8 = 0 -> (forall a, block t a -> ~ block f a) ->
  exists m', msteps g 17 m = Some m' /\
    rip m' = mem m t /\
    words (mem m) t [rip m'; rg m' RSP; rg m' RBP; rg m' RBX; rg m' R12;
                     rg m' R13; rg m' R14; rg m' R15] /\
    words (mem m') f [a_switch g + 68; rg m RSP; rg m RBP; rg m RBX; rg m R12;
                      rg m R13; rg m R14; rg m R15] /\
    (forall a, ~ block f a -> mem m' a = mem m a) /\
    rg m' RDI = f /\ rg m' RSI = t /\ fpc m' = fpc m.
Proof.
  destruct m as [pc R M fp]. cbn [rip rg mem fpc]. intros P D1 S1 AF AT DJ.
  assert (NB : forall k, (k = 0 \/ k = 8 \/ k = 16 \/ k = 24 \/ k = 32 \/ k = 40 \/
             k = 48 \/ k = 56) -> ~ block f (t + k)).
  { intros k H. apply DJ, block0. lia. }
  assert (GF : forall k, In k [0; 8; 16; 24; 32; 40; 48; 56] ->
             aligned (f + k) = true /\ aligned (t + k) = true).
  { intros k H. cbn in H.
    assert (Q : exists q, k = 8 * q).
    { destruct H as [<-|[<-|[<-|[<-|[<-|[<-|[<-|[<-|[]]]]]]]]];
        [exists 0|exists 1|exists 2|exists 3|exists 4|exists 5|exists 6|exists 7];
        reflexivity. }
    destruct Q as (q & ->). split; apply al8; assumption. }
  rewrite <- (Z.add_0_r (a_switch g)) in P.
  subst f t.
  pose proof (GF 0 ltac:(cbn; tauto)) as [F0 T0].
  pose proof (GF 8 ltac:(cbn; tauto)) as [F1 T1].
  pose proof (GF 16 ltac:(cbn; tauto)) as [F2 T2].
  pose proof (GF 24 ltac:(cbn; tauto)) as [F3 T3].
  pose proof (GF 32 ltac:(cbn; tauto)) as [F4 T4].
  pose proof (GF 40 ltac:(cbn; tauto)) as [F5 T5].
  pose proof (GF 48 ltac:(cbn; tauto)) as [F6 T6].
  pose proof (GF 56 ltac:(cbn; tauto)) as [F7 T7].
  pose proof T0 as T0'. rewrite Z.add_0_r in T0'.
  Ltac one := rewrite msteps_S; erewrite mstep_at;
    [|first [eassumption|reflexivity]|reflexivity];
    cbn [exec1 rip rg mem fpc];
    try match goal with
    | |- context [aligned ?e] => replace (aligned e) with true by (symmetry; assumption)
    end.
  set (f := R RDI) in *. set (t := R RSI) in *.
  pose (N := setm (setm (setm (setm (setm (setm (setm (setm M
    (f + 0) (a_switch g + 68)) (f + 8) (R RSP)) (f + 16) (R RBP))
    (f + 24) (R RBX)) (f + 32) (R R12)) (f + 40) (R R13)) (f + 48) (R R14))
    (f + 56) (R R15)).
  assert (E : msteps g 17 (mkm pc R M fp) = Some (mkm (N t)
    (setr (setr (setr (setr (setr (setr (setr (setr R RAX (a_switch g + 68))
      R15 (N (t + 56))) R14 (N (t + 48))) R13 (N (t + 40))) R12 (N (t + 32)))
      RBX (N (t + 24))) RBP (N (t + 16))) RSP (N (t + 8))) N fp)).
  { one. replace (a_switch g + (0 + isize (ILea 61 RAX)) + 61) with (a_switch g + 68)
      by (change (0 + isize (ILea 61 RAX)) with 7; lia).
    do 16 one. cbn [msteps]. reflexivity. }
  rewrite E. eexists. split; [reflexivity|]. cbn [rip rg mem fpc].
  assert (RD : forall a, ~ block f a -> N a = M a).
  { intros a B. unfold N. rewrite block0 in B. rewrite !setm_ne by lia. reflexivity. }
  assert (RT : forall k, (k = 0 \/ k = 8 \/ k = 16 \/ k = 24 \/ k = 32 \/ k = 40 \/
             k = 48 \/ k = 56) -> N (t + k) = M (t + k)).
  { intros k H. apply RD, NB, H. }
  assert (R0 : N t = M t) by (rewrite <- (Z.add_0_r t); apply RT; lia).
  split; [exact R0|]. split.
  { unfold words. cbv [setr reg_eqb rnum Z.eqb Pos.eqb].
    rewrite R0, !RT by lia. reflexivity. }
  split.
  { unfold words, N. repeat f_equal;
      repeat (first [rewrite setm_eq; reflexivity | rewrite setm_ne by lia]).
    rewrite Z.add_0_r, setm_eq. reflexivity. }
  split; [exact RD|]. repeat split; reflexivity.
Qed.

(** What is saved of a suspended context: its block holds the resume address
    (the [ret] of the switch routine) and the registers, and the rest of its
    memory is as it was. *)
Definition saved (L : layout) (M : Z -> Z) (n : nat) (m0 : mach) : Prop :=
  rg m0 RSP mod 8 = 0 /\ own L n (rg m0 RSP) /\ ~ block (cx L n) (rg m0 RSP) /\
  words M (cx L n) [a_switch (img L) + 68; rg m0 RSP; rg m0 RBP; rg m0 RBX;
                    rg m0 R12; rg m0 R13; rg m0 R14; rg m0 R15] /\
  (forall a, own L n a -> ~ block (cx L n) a -> M a = mem m0 a).

Definition inv (L : layout) (s : sys) : Prop :=
  stat s (cur s) = Running /\
  forall n m0, stat s n = Suspended m0 -> saved L (mem (mc s)) n m0.

Lemma words_eq L M N n l : layout_ok L ->
  (forall a, own L n a -> M a = N a) -> words N (cx L n) l -> words M (cx L n) l.
Proof.
  intros O E W. unfold words in *. rewrite W.
  rewrite !E by (apply (lo_block L O), block0; lia). reflexivity.
Qed.

Lemma saved_eq L M N n m0 : layout_ok L ->
  (forall a, own L n a -> M a = N a) -> saved L N n m0 -> saved L M n m0.
Proof.
  intros O E (A & B & C & W & F).
  split; [exact A|]. split; [exact B|]. split; [exact C|]. split.
  - exact (words_eq L M N n _ O E W).
  - intros a Q NB. rewrite (E a Q). apply F; assumption.
Qed.

Lemma blocks_disj L n k a : layout_ok L -> n <> k ->
  block (cx L n) a -> ~ block (cx L k) a.
Proof.
  intros O N B C. apply N. exact (lo_disj L O n k a (lo_block L O _ _ B)
                                   (lo_block L O _ _ C)).
Qed.

(** After the switch the context that called is saved, and nothing else has
    changed in memory. *)
Lemma save_cur L k to m m' : layout_ok L ->
  at_switch L k to m ->
  words (mem m') (cx L k) [a_switch (img L) + 68; rg m RSP; rg m RBP; rg m RBX;
                    rg m R12; rg m R13; rg m R14; rg m R15] ->
  (forall a, ~ block (cx L k) a -> mem m' a = mem m a) ->
  saved L (mem m') k m.
Proof.
  intros O (P & D & T & A & OW & NB) W F.
  split; [exact A|]. split; [exact OW|]. split; [exact NB|].
  split; [exact W|]. intros a _ B. apply F, B.
Qed.

(** The [ret] at the resume address. *)
Lemma run_ret g m : rip m = a_switch g + 68 -> rg m RSP mod 8 = 0 ->
  exists m', msteps g 1 m = Some m' /\ rip m' = mem m (rg m RSP) /\
    rg m' RSP = rg m RSP + 8 /\
    (forall r, r <> RSP -> rg m' r = rg m r) /\ mem m' = mem m /\ fpc m' = fpc m.
Proof.
  intros P A. rewrite msteps_S. rewrite (mstep_at g m 68 IRet 69 P eq_refl).
  cbn [exec1]. unfold aligned. rewrite A. cbn [Z.eqb msteps].
  eexists. split; [reflexivity|]. cbn [rip rg mem fpc].
  repeat split. intros r NR. unfold setr. destruct r; try reflexivity; contradiction.
Qed.

(** The whole switch to a suspended context. *)
Lemma run18 L k j m m0 : layout_ok L -> j <> k ->
  at_switch L k (cx L j) m -> saved L (mem m) j m0 ->
  exists m', msteps (img L) 18 m = Some m' /\
    rip m' = mem m0 (rg m0 RSP) /\
    rg m' RSP = rg m0 RSP + 8 /\ rg m' RBP = rg m0 RBP /\ rg m' RBX = rg m0 RBX /\
    rg m' R12 = rg m0 R12 /\ rg m' R13 = rg m0 R13 /\ rg m' R14 = rg m0 R14 /\
    rg m' R15 = rg m0 R15 /\
    (forall a, ~ block (cx L k) a -> mem m' a = mem m a) /\
    saved L (mem m') k m /\ fpc m' = fpc m.
Proof.
  intros O N AS SV. pose proof AS as (P & D & T & A & OW & NB).
  pose proof SV as (A0 & OW0 & NB0 & W0 & F0).
  destruct (run17 (img L) m (cx L k) (cx L j) P D T (lo_align L O k)
    (lo_align L O j) (fun a => blocks_disj L j k a O N))
    as (m1 & E1 & R1 & W1 & W2 & F1 & _ & _ & FP1).
  unfold words in W0, W1. rewrite <- W0 in W1.
  injection W1 as Q0 Q1 Q2 Q3 Q4 Q5 Q6 Q7.
  assert (AL : rg m1 RSP mod 8 = 0) by (rewrite Q1; exact A0).
  destruct (run_ret (img L) m1 Q0 AL) as (m2 & E2 & R2 & S2 & G2 & M2 & FP2).
  exists m2. split.
  { change 18%nat with (17 + 1)%nat. rewrite msteps_add, E1. exact E2. }
  split.
  { rewrite R2, Q1. rewrite F1.
    - apply F0; assumption.
    - intros B. apply N. exact (lo_disj L O j k _ OW0 (lo_block L O _ _ B)). }
  split; [rewrite S2, Q1; reflexivity|].
  split; [rewrite G2 by discriminate; exact Q2|].
  split; [rewrite G2 by discriminate; exact Q3|].
  split; [rewrite G2 by discriminate; exact Q4|].
  split; [rewrite G2 by discriminate; exact Q5|].
  split; [rewrite G2 by discriminate; exact Q6|].
  split; [rewrite G2 by discriminate; exact Q7|].
  split; [intros a B; rewrite M2; apply F1, B|].
  split; [|congruence].
  rewrite M2. apply (save_cur L k (cx L j) m m1); assumption.
Qed.

Lemma mstep_en g m o i nx : img_ok g -> 0 <= o < 6 ->
  rip m = a_entry g + o -> fetch_in asm_entry 0 o = Some (i, nx) ->
  mstep g m = exec1 i (a_entry g + nx) m.
Proof. intros G O R F. unfold mstep. rewrite R, (fetch_en _ _ _ _ G O F). reflexivity. Qed.

(** The switch to a context that was just made. *)
Lemma run19 L k n tc f m : layout_ok L ->
  at_switch L k tc m -> tc mod 8 = 0 ->
  (forall a, block tc a -> own L k a) ->
  (forall a, block tc a -> ~ block (cx L k) a) ->
  n <> k -> (0 < n)%nat ->
  (forall a, mem m a = asmctx_make (img L) f tc (stk L n) (ssz L n) 0 a) ->
  exists m', msteps (img L) 19 m = Some m' /\
    rip m' = a_llco_entry (img L) /\ rg m' RDI = 0 /\
    rg m' RSP = stk L n + ssz L n - 136 /\ rg m' RBP = 0 /\
    mem m' (rg m' RSP) = dummy_ret /\
    (forall a, ~ block (cx L k) a -> mem m' a = mem m a) /\
    saved L (mem m') k m /\ fpc m' = fpc m.
Proof.
  intros O AS AT OT DJ NK N0 MM. pose proof AS as (P & D & T & A & OW & NB).
  destruct (run17 (img L) m (cx L k) tc P D T (lo_align L O k) AT DJ)
    as (m1 & E1 & R1 & W1 & W2 & F1 & _ & _ & FP1).
  set (top := stk L n + ssz L n - 136).
  assert (OTOP : own L n top).
  { destruct (lo_stk L O n) as (_ & _ & Z3). apply (lo_in L O n); [exact N0|].
    unfold top. lia. }
  assert (TT : forall a, block tc a -> a <> top).
  { intros a B ->. apply NK. exact (lo_disj L O n k _ OTOP (OT _ B)). }
  assert (C0 : top <> tc) by (intros E; apply (TT tc); [apply block0; lia|lia]).
  assert (C1 : top <> tc + 8) by (intros E; apply (TT (tc + 8)); [apply block0; lia|lia]).
  assert (C2 : top <> tc + 16) by (intros E; apply (TT (tc + 16)); [apply block0; lia|lia]).
  assert (C4 : top <> tc + 32) by (intros E; apply (TT (tc + 32)); [apply block0; lia|lia]).
  assert (C5 : top <> tc + 40) by (intros E; apply (TT (tc + 40)); [apply block0; lia|lia]).
  unfold words in W1. rewrite !MM in W1. unfold asmctx_make in W1.
  cbn [fold_left] in W1.
  replace (stk L n + (ssz L n - 128) - 8) with top in W1 by (unfold top; lia).
  injection W1 as Q0 Q1 Q2 Q3 Q4 Q5 Q6 Q7.
  repeat rewrite setm_ne in Q0 by lia. rewrite setm_eq in Q0.
  repeat rewrite setm_ne in Q1 by lia. rewrite setm_eq in Q1.
  repeat rewrite setm_ne in Q2 by lia. rewrite setm_eq in Q2.
  repeat rewrite setm_ne in Q4 by lia. rewrite setm_eq in Q4.
  repeat rewrite setm_ne in Q5 by lia. rewrite setm_eq in Q5.
  assert (I : img_ok (img L)) by exact (lo_img L O).
  rewrite <- (Z.add_0_r (a_entry (img L))) in Q0.
  eexists. split.
  { change 19%nat with (17 + 2)%nat. rewrite msteps_add, E1.
    rewrite msteps_S.
    rewrite (mstep_en (img L) m1 0 (IMov R13 RDI) 3 I ltac:(lia) Q0 eq_refl).
    cbn [exec1]. rewrite msteps_S.
    rewrite (mstep_en (img L)
      (mkm (a_entry (img L) + 3) (setr (rg m1) RDI (rg m1 R13)) (mem m1) (fpc m1))
      3 (IJmpR R12) 6 I ltac:(lia) eq_refl eq_refl).
    cbn [exec1 msteps]. reflexivity. }
  cbn [rip rg mem fpc]. cbv [setr reg_eqb rnum Z.eqb Pos.eqb].
  split; [exact Q4|]. split; [exact Q5|]. split; [exact Q1|]. split; [exact Q2|].
  split.
  { rewrite Q1. rewrite F1.
    - rewrite MM. unfold asmctx_make. cbn [fold_left].
      replace (stk L n + (ssz L n - 128) - 8) with top by (unfold top; lia).
      rewrite !setm_ne by lia. apply setm_eq.
    - intros B. apply NK. exact (lo_disj L O n k _ OTOP (lo_block L O _ _ B)). }
  split; [exact F1|]. split; [|exact FP1].
  apply (save_cur L k tc m m1); assumption.
Qed.

Lemma sets_eq f k v : sets f k v k = v.
Proof. unfold sets. rewrite Nat.eqb_refl. reflexivity. Qed.
Lemma sets_ne f k v n : n <> k -> sets f k v n = f n.
Proof. intros N. unfold sets. destruct (Nat.eqb_spec n k); [contradiction|reflexivity]. Qed.

Lemma inv_after L s j m' (fin : bool) : layout_ok L -> inv L s -> j <> cur s ->
  (forall a, ~ block (cx L (cur s)) a -> mem m' a = mem (mc s) a) ->
  saved L (mem m') (cur s) (mc s) ->
  inv L (mks m' j (sets (sets (stat s) (cur s)
     (if fin then Unused else Suspended (mc s))) j Running)).
Proof.
  intros O [R I] N F SC. split; cbn [stat cur mc].
  - apply sets_eq.
  - intros n m0 E. destruct (Nat.eq_dec n j) as [->|NJ].
    { rewrite sets_eq in E. discriminate E. }
    rewrite (sets_ne _ _ _ _ NJ) in E.
    destruct (Nat.eq_dec n (cur s)) as [->|NC].
    { rewrite sets_eq in E. destruct fin; [discriminate E|]. injection E as <-.
      exact SC. }
    rewrite (sets_ne _ _ _ _ NC) in E.
    apply (saved_eq L _ (mem (mc s))); [exact O| |apply I, E].
    intros a OA. apply F. intros B. apply NC.
    exact (lo_disj L O n (cur s) a OA (lo_block L O _ _ B)).
Qed.

Lemma sreach_inv L : layout_ok L -> forall s, sreach L s -> inv L s.
Proof.
  intros O s H. induction H as [m|s s' H [R I] ST].
  - split; cbn [stat cur mc]; [reflexivity|].
    intros n m0 E. destruct n; discriminate E.
  - destruct ST as [s m' C|s j m0 m' fin E N AS RUN
                   |s n tc f m' fin E N N0 AS AT OT DJ MM RUN].
    + split; cbn [stat cur mc]; [exact R|].
      intros n m0 E. apply (saved_eq L _ (mem (mc s))); [exact O| |apply I, E].
      intros a OA. exact (C n m0 a E OA).
    + destruct (run18 L (cur s) j (mc s) m0 O N AS (I j m0 E))
        as (m2 & E2 & _ & _ & _ & _ & _ & _ & _ & _ & F & SC & _).
      rewrite RUN in E2. injection E2 as <-.
      apply inv_after; try assumption. split; assumption.
    + destruct (run19 L (cur s) n tc f (mc s) O AS AT OT DJ N N0 MM)
        as (m2 & E2 & _ & _ & _ & _ & _ & F & SC & _).
      rewrite RUN in E2. injection E2 as <-.
      apply inv_after; try assumption. split; assumption.
Qed.
