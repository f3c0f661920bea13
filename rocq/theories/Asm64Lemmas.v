(** Symbolic execution of the AArch64 switch routine and the invariant of
    suspended contexts. *)
From Coq Require Import List ZArith Bool Lia.
From Verif Require Import Asm64.
Import ListNotations.
Open Scope Z_scope.

Lemma fetch_shift base o i : forall code b,
  fetch_in code b o = Some i -> fetch_in code (base + b) (base + o) = Some i.
Proof.
  induction code as [|x code IH]; intros b H; cbn [fetch_in] in *;
    [discriminate|].
  destruct (Z.eqb_spec o b).
  - subst b. rewrite Z.eqb_refl. exact H.
  - destruct (Z.eqb_spec (base + o) (base + b)); [lia|].
    rewrite <- Z.add_assoc. apply IH, H.
Qed.

Lemma fetch_none code : forall b a,
  (a < b \/ b + 4 * Z.of_nat (length code) <= a) -> fetch_in code b a = None.
Proof.
  induction code as [|x code IH]; intros b a H; cbn [fetch_in length] in *;
    [reflexivity|].
  destruct (Z.eqb_spec a b); [lia|]. apply IH. lia.
Qed.

Lemma mstep_at g m o i :
  pc m = a_switch g + o -> fetch_in asm_switch 0 o = Some i ->
  mstep g m = exec1 i m.
Proof.
  intros R F. unfold mstep, fetch. rewrite R.
  pose proof (fetch_shift (a_switch g) _ _ _ _ F) as E.
  rewrite Z.add_0_r in E. rewrite E. reflexivity.
Qed.

Definition img_ok (g : image) : Prop :=
  a_switch g + 104 <= a_entry g \/ a_entry g + 12 <= a_switch g.

Lemma mstep_en g m o i : img_ok g -> 0 <= o < 12 ->
  pc m = a_entry g + o -> fetch_in asm_entry 0 o = Some i ->
  mstep g m = exec1 i m.
Proof.
  intros G O R F. unfold mstep, fetch. rewrite R, fetch_none.
  - pose proof (fetch_shift (a_entry g) _ _ _ _ F) as E.
    rewrite Z.add_0_r in E. rewrite E. reflexivity.
  - cbn [length asm_switch]. destruct G; lia.
Qed.

Lemma msteps_S g n m :
  msteps g (S n) m = match mstep g m with Some m' => msteps g n m' | None => None end.
Proof. reflexivity. Qed.

Lemma msteps_add g : forall n k m,
  msteps g (n + k) m = match msteps g n m with Some m' => msteps g k m' | None => None end.
Proof.
  induction n as [|n IH]; intros k m; [reflexivity|].
  cbn [Nat.add]. rewrite !msteps_S. destruct (mstep g m); [apply IH|reflexivity].
Qed.

Lemma f_equal4 a a' b b' c c' d d' : a = a' -> b = b' -> c = c' -> d = d' ->
  mkm a b c d = mkm a' b' c' d'.
Proof. intros; subst; reflexivity. Qed.

Lemma setm_ne f a v x : x <> a -> setm f a v x = f x.
Proof. intros N. unfold setm. destruct (Z.eqb_spec x a); [contradiction|reflexivity]. Qed.
Lemma setm_eq f a v : setm f a v a = v.
Proof. unfold setm. rewrite Z.eqb_refl. reflexivity. Qed.

(** Which register is kept in which slot of a context block. *)
Definition slots : list (reg * Z) :=
  [ (X 19, 0); (X 20, 8); (X 21, 16); (X 22, 24); (X 23, 32); (X 24, 40);
    (X 25, 48); (X 26, 56); (X 27, 64); (X 28, 72); (X 29, 80); (X 30, 88);
    (SP, 96); (D 8, 112); (D 9, 120); (D 10, 128); (D 11, 136); (D 12, 144);
    (D 13, 152); (D 14, 160); (D 15, 168) ].

Lemma slot_range r o : In (r, o) slots -> exists k, o = 8 * k /\ 0 <= k < 22 /\ k <> 13.
Proof.
  intros H.
  assert (F : forallb (fun p => (snd p =? 8 * (snd p / 8)) && (0 <=? snd p / 8) &&
     (snd p / 8 <? 22) && negb (snd p / 8 =? 13)) slots = true) by reflexivity.
  rewrite forallb_forall in F. specialize (F _ H). cbn [snd] in F.
  rewrite !andb_true_iff, negb_true_iff in F. destruct F as (((A & B) & C) & E).
  exists (o / 8). split; [apply Z.eqb_eq, A|]. split.
  - split; [apply Z.leb_le, B|apply Z.ltb_lt, C].
  - apply Z.eqb_neq, E.
Qed.

Lemma slot_block r o c : In (r, o) slots \/ o = 104 -> block c (c + o).
Proof.
  intros [H| ->].
  - destruct (slot_range r o H) as (k & -> & K & _). exists k. auto.
  - exists 13. lia.
Qed.

(** A load step with the base register's value given. *)
Lemma step_ldp g p R M fp o ra rb b off c n :
  p = a_switch g + o -> fetch_in asm_switch 0 o = Some (ILdp ra rb b off) ->
  R b = c -> aligned (c + off) = true ->
  msteps g (S n) (mkm p R M fp) =
  msteps g n (mkm (a_switch g + (o + 4))
    (setr (setr R ra (M (c + off))) rb (M (c + off + 8))) M fp).
Proof.
  intros P F E A. rewrite msteps_S. rewrite (mstep_at g (mkm p R M fp) o _ P F).
  cbn [exec1 pc rg mem fpc]. rewrite E, A, P, Z.add_assoc. reflexivity.
Qed.

(** What the 26 instructions do. *)
Lemma run26 g m f t :
  pc m = a_switch g -> rg m (X 0) = f -> rg m (X 1) = t ->
  f mod 8 = 0 -> t mod 8 = 0 -> (forall a, block t a -> ~ block f a) ->
  exists m', msteps g 26 m = Some m' /\
    pc m' = mem m (t + 104) /\
    (forall r o, In (r, o) slots -> rg m' r = mem m (t + o)) /\
    (forall r o, In (r, o) slots -> mem m' (f + o) = rg m r) /\
    mem m' (f + 104) = rg m (X 30) /\
    (forall a, ~ block f a -> mem m' a = mem m a) /\ fpc m' = fpc m.
Proof.
  destruct m as [p R M fp]. cbn [pc rg mem fpc]. intros P D1 S1 AF AT DJ.
  assert (GA : forall c k, c mod 8 = 0 -> aligned (c + k * 16) = true).
  { intros c k A. unfold aligned. apply Z.eqb_eq.
    replace (k * 16) with ((k * 2) * 8) by lia. rewrite Z.mod_add; lia. }
  rewrite <- (Z.add_0_r (a_switch g)) in P. subst p f t.
  Ltac one GA AF AT o := rewrite msteps_S;
    erewrite (mstep_at _ _ o); [|cbn [pc]; lia|reflexivity];
    cbn [exec1 pc rg mem fpc];
    try match goal with
    | |- context [aligned (?e + ?k * 16)] =>
        replace (aligned (e + k * 16)) with true
          by (symmetry; first [exact (GA _ k AF)|exact (GA _ k AT)])
    end.
  set (f := R (X 0)) in *. set (t := R (X 1)) in *.
  pose (N := setm (setm (setm (setm (setm (setm (setm (setm (setm (setm (setm (setm
    (setm (setm (setm (setm (setm (setm (setm (setm (setm (setm M
    (f + 0 * 16) (R (X 19))) (f + 0 * 16 + 8) (R (X 20)))
    (f + 1 * 16) (R (X 21))) (f + 1 * 16 + 8) (R (X 22)))
    (f + 7 * 16) (R (D 8))) (f + 7 * 16 + 8) (R (D 9)))
    (f + 2 * 16) (R (X 23))) (f + 2 * 16 + 8) (R (X 24)))
    (f + 8 * 16) (R (D 10))) (f + 8 * 16 + 8) (R (D 11)))
    (f + 3 * 16) (R (X 25))) (f + 3 * 16 + 8) (R (X 26)))
    (f + 9 * 16) (R (D 12))) (f + 9 * 16 + 8) (R (D 13)))
    (f + 4 * 16) (R (X 27))) (f + 4 * 16 + 8) (R (X 28)))
    (f + 10 * 16) (R (D 14))) (f + 10 * 16 + 8) (R (D 15)))
    (f + 5 * 16) (R (X 29))) (f + 5 * 16 + 8) (R (X 30)))
    (f + 6 * 16) (R SP)) (f + 6 * 16 + 8) (R (X 30))).
  pose (R1 := setr (setr R (X 10) (R SP)) (X 11) (R (X 30))).
  assert (E1 : msteps g 13 (mkm (a_switch g + 0) R M fp)
               = Some (mkm (a_switch g + 52) R1 N fp)).
  { one GA AF AT 0. one GA AF AT 4. one GA AF AT 8. one GA AF AT 12. one GA AF AT 16. one GA AF AT 20. one GA AF AT 24. one GA AF AT 28. one GA AF AT 32. one GA AF AT 36. one GA AF AT 40. one GA AF AT 44. one GA AF AT 48.
    cbn [msteps]. f_equal. apply f_equal4; [lia|reflexivity|reflexivity|reflexivity]. }
  pose (R2 := setr (setr (setr (setr (setr (setr (setr (setr (setr (setr (setr (setr
    (setr (setr (setr (setr (setr (setr (setr (setr (setr (setr (setr R1
    (X 19) (N (t + 0 * 16))) (X 20) (N (t + 0 * 16 + 8)))
    (X 21) (N (t + 1 * 16))) (X 22) (N (t + 1 * 16 + 8)))
    (D 8) (N (t + 7 * 16))) (D 9) (N (t + 7 * 16 + 8)))
    (X 23) (N (t + 2 * 16))) (X 24) (N (t + 2 * 16 + 8)))
    (D 10) (N (t + 8 * 16))) (D 11) (N (t + 8 * 16 + 8)))
    (X 25) (N (t + 3 * 16))) (X 26) (N (t + 3 * 16 + 8)))
    (D 12) (N (t + 9 * 16))) (D 13) (N (t + 9 * 16 + 8)))
    (X 27) (N (t + 4 * 16))) (X 28) (N (t + 4 * 16 + 8)))
    (D 14) (N (t + 10 * 16))) (D 15) (N (t + 10 * 16 + 8)))
    (X 29) (N (t + 5 * 16))) (X 30) (N (t + 5 * 16 + 8)))
    (X 10) (N (t + 6 * 16))) (X 11) (N (t + 6 * 16 + 8)))
    SP (N (t + 6 * 16))).
  assert (E2 : msteps g 13 (mkm (a_switch g + 52) R1 N fp)
               = Some (mkm (N (t + 6 * 16 + 8)) R2 N fp)).
  { clearbody N.
    rewrite (step_ldp g _ _ _ _ 52 (X 19) (X 20) (X 1) (0 * 16) t); [|reflexivity|reflexivity|reflexivity|apply GA, AT].
    rewrite (step_ldp g _ _ _ _ 56 (X 21) (X 22) (X 1) (1 * 16) t); [|reflexivity|reflexivity|reflexivity|apply GA, AT].
    rewrite (step_ldp g _ _ _ _ 60 (D 8) (D 9) (X 1) (7 * 16) t); [|reflexivity|reflexivity|reflexivity|apply GA, AT].
    rewrite (step_ldp g _ _ _ _ 64 (X 23) (X 24) (X 1) (2 * 16) t); [|reflexivity|reflexivity|reflexivity|apply GA, AT].
    rewrite (step_ldp g _ _ _ _ 68 (D 10) (D 11) (X 1) (8 * 16) t); [|reflexivity|reflexivity|reflexivity|apply GA, AT].
    rewrite (step_ldp g _ _ _ _ 72 (X 25) (X 26) (X 1) (3 * 16) t); [|reflexivity|reflexivity|reflexivity|apply GA, AT].
    rewrite (step_ldp g _ _ _ _ 76 (D 12) (D 13) (X 1) (9 * 16) t); [|reflexivity|reflexivity|reflexivity|apply GA, AT].
    rewrite (step_ldp g _ _ _ _ 80 (X 27) (X 28) (X 1) (4 * 16) t); [|reflexivity|reflexivity|reflexivity|apply GA, AT].
    rewrite (step_ldp g _ _ _ _ 84 (D 14) (D 15) (X 1) (10 * 16) t); [|reflexivity|reflexivity|reflexivity|apply GA, AT].
    rewrite (step_ldp g _ _ _ _ 88 (X 29) (X 30) (X 1) (5 * 16) t); [|reflexivity|reflexivity|reflexivity|apply GA, AT].
    rewrite (step_ldp g _ _ _ _ 92 (X 10) (X 11) (X 1) (6 * 16) t); [|reflexivity|reflexivity|reflexivity|apply GA, AT].
    rewrite msteps_S, (mstep_at g _ 96 (IMov SP (X 10))); [|reflexivity|reflexivity].
    cbn [exec1 pc mem fpc].
    rewrite msteps_S, (mstep_at g _ 100 (IBr (X 11))); [|cbn [pc]; lia|reflexivity].
    cbn [exec1 pc mem fpc rg].
    cbn [msteps]. reflexivity. }
  exists (mkm (N (t + 6 * 16 + 8)) R2 N fp). split.
  { change 26%nat with (13 + 13)%nat. rewrite msteps_add, E1. exact E2. }
  cbn [pc rg mem fpc].
  assert (RD : forall a, ~ block f a -> N a = M a).
  { intros a B.
    assert (B' : forall k, 0 <= k < 22 -> a <> f + 8 * k).
    { intros k K ->. apply B. exists k. auto. }
    pose proof (B' 0 ltac:(lia)). pose proof (B' 1 ltac:(lia)).
    pose proof (B' 2 ltac:(lia)). pose proof (B' 3 ltac:(lia)).
    pose proof (B' 4 ltac:(lia)). pose proof (B' 5 ltac:(lia)).
    pose proof (B' 6 ltac:(lia)). pose proof (B' 7 ltac:(lia)).
    pose proof (B' 8 ltac:(lia)). pose proof (B' 9 ltac:(lia)).
    pose proof (B' 10 ltac:(lia)). pose proof (B' 11 ltac:(lia)).
    pose proof (B' 12 ltac:(lia)). pose proof (B' 13 ltac:(lia)).
    pose proof (B' 14 ltac:(lia)). pose proof (B' 15 ltac:(lia)).
    pose proof (B' 16 ltac:(lia)). pose proof (B' 17 ltac:(lia)).
    pose proof (B' 18 ltac:(lia)). pose proof (B' 19 ltac:(lia)).
    pose proof (B' 20 ltac:(lia)). pose proof (B' 21 ltac:(lia)).
    unfold N. clear E1 E2 N R2.
    repeat (rewrite setm_ne;
      [|intros QQ;
        match goal with H : a <> _ |- _ => apply H; rewrite QQ; ring end]).
    reflexivity. }
  assert (RT : forall o, (exists k, o = 8 * k /\ 0 <= k < 22) ->
             N (t + o) = M (t + o)).
  { intros o (k & -> & K). apply RD, DJ. exists k. auto. }
  split.
  { change (6 * 16) with 96. rewrite <- Z.add_assoc. apply RT. exists 13. lia. }
  split.
  { intros r o H. rewrite <- RT.
    2:{ destruct (slot_range r o H) as (k & A & B & _). exists k. auto. }
    clear E1 E2. clearbody N.
    cbn [In slots] in H. unfold R2.
    repeat (destruct H as [H|H];
      [injection H as <- <-; cbv [setr reg_eqb Z.eqb Pos.eqb]; f_equal; lia|]).
    destruct H. }
  split.
  { intros r o H. clear E1 E2 R2. unfold N.
    cbn [In slots] in H.
    repeat (destruct H as [H|H];
      [injection H as <- <-;
       repeat (first
         [match goal with |- setm _ ?a _ ?b = _ =>
            replace a with b by ring; rewrite setm_eq; reflexivity end
         |rewrite setm_ne by lia])|]).
    destruct H. }
  split.
  { clear E1 E2 R2. unfold N. replace (f + 104) with (f + 6 * 16 + 8) by ring.
    apply setm_eq. }
  split; [exact RD|reflexivity].
Qed.

(** What is saved of a suspended context. *)
Definition saved (L : layout) (M : Z -> Z) (n : nat) (m0 : mach) : Prop :=
  (forall r o, In (r, o) slots -> M (cx L n + o) = rg m0 r) /\
  M (cx L n + 104) = rg m0 (X 30) /\
  (forall a, own L n a -> ~ block (cx L n) a -> M a = mem m0 a).

Definition inv (L : layout) (s : sys) : Prop :=
  stat s (cur s) = Running /\
  forall n m0, stat s n = Suspended m0 -> saved L (mem (mc s)) n m0.

Lemma saved_eq L M N n m0 : layout_ok L ->
  (forall a, own L n a -> M a = N a) -> saved L N n m0 -> saved L M n m0.
Proof.
  intros O E (W & PC & F). split; [|split].
  - intros r o H. rewrite E; [apply W, H|].
    apply (lo_block L O), (slot_block r). left; exact H.
  - rewrite E; [exact PC|]. apply (lo_block L O), (slot_block SP). right; reflexivity.
  - intros a Q NB. rewrite (E a Q). apply F; assumption.
Qed.

Lemma blocks_disj L n k a : layout_ok L -> n <> k ->
  block (cx L n) a -> ~ block (cx L k) a.
Proof.
  intros O N B C. apply N. exact (lo_disj L O n k a (lo_block L O _ _ B)
                                   (lo_block L O _ _ C)).
Qed.

(** The switch to a suspended context. *)
Lemma run_switch L k j m m0 : layout_ok L -> j <> k ->
  at_switch L k (cx L j) m -> saved L (mem m) j m0 ->
  exists m', msteps (img L) 26 m = Some m' /\
    pc m' = rg m0 (X 30) /\
    (forall r o, In (r, o) slots -> rg m' r = rg m0 r) /\
    (forall a, ~ block (cx L k) a -> mem m' a = mem m a) /\
    saved L (mem m') k m /\ fpc m' = fpc m.
Proof.
  intros O N (P & A0 & A1) (W & PC & F).
  destruct (run26 (img L) m (cx L k) (cx L j) P A0 A1 (lo_align L O k)
    (lo_align L O j) (fun a => blocks_disj L j k a O N))
    as (m1 & E1 & P1 & R1 & W1 & W2 & F1 & FP).
  exists m1. split; [exact E1|]. split; [congruence|].
  split; [intros r o H; rewrite (R1 r o H); apply W, H|].
  split; [exact F1|]. split; [|exact FP].
  split; [exact W1|]. split; [exact W2|]. intros a _ B. apply F1, B.
Qed.

Lemma make_slot g f ctx st sz arg k : 0 <= k < 22 ->
  asmctx_make g f ctx st sz arg (ctx + 8 * k) =
  (if k =? 0 then arg else if k =? 1 then a_llco_entry g
   else if k =? 2 then dummy_ret else if k =? 12 then st + sz
   else if k =? 13 then a_entry g else 0).
Proof.
  intros K. unfold asmctx_make.
  set (f0 := fold_left _ _ f).
  assert (Z0 : f0 (ctx + 8 * k) = 0).
  { unfold f0. cbn [fold_left]. unfold setm.
    repeat match goal with |- (if ?x =? ?y then _ else _) = _ =>
      destruct (Z.eqb_spec x y); [reflexivity|] end.
    exfalso. lia. }
  clearbody f0. unfold setm.
  destruct (Z.eqb_spec (ctx + 8 * k) (ctx + 104)) as [E|E].
  { replace k with 13 by lia. reflexivity. }
  destruct (Z.eqb_spec (ctx + 8 * k) (ctx + 96)) as [E1|E1].
  { replace k with 12 by lia. reflexivity. }
  destruct (Z.eqb_spec (ctx + 8 * k) (ctx + 16)) as [E2|E2].
  { replace k with 2 by lia. reflexivity. }
  destruct (Z.eqb_spec (ctx + 8 * k) (ctx + 8)) as [E3|E3].
  { replace k with 1 by lia. reflexivity. }
  destruct (Z.eqb_spec (ctx + 8 * k) ctx) as [E4|E4].
  { replace k with 0 by lia. reflexivity. }
  rewrite Z0. repeat match goal with |- _ = (if ?x =? ?y then _ else _) =>
      destruct (Z.eqb_spec x y); [lia|] end. reflexivity.
Qed.

(** The switch to a context that was just made. *)
Lemma run_start L k n tc f m : layout_ok L ->
  at_switch L k tc m -> tc mod 8 = 0 ->
  (forall a, block tc a -> ~ block (cx L k) a) ->
  (forall a, mem m a = asmctx_make (img L) f tc (stk L n) (ssz L n) 0 a) ->
  exists m', msteps (img L) 29 m = Some m' /\
    pc m' = a_llco_entry (img L) /\ rg m' (X 0) = 0 /\
    rg m' SP = stk L n + ssz L n /\ rg m' (X 29) = 0 /\ rg m' (X 30) = dummy_ret /\
    (forall a, ~ block (cx L k) a -> mem m' a = mem m a) /\
    saved L (mem m') k m /\ fpc m' = fpc m.
Proof.
  intros O (P & A0 & A1) AT DJ MM.
  destruct (run26 (img L) m (cx L k) tc P A0 A1 (lo_align L O k) AT DJ)
    as (m1 & E1 & P1 & R1 & W1 & W2 & F1 & FP).
  assert (S : forall r o k0, In (r, o) slots -> o = 8 * k0 -> 0 <= k0 < 22 ->
    rg m1 r = (if k0 =? 0 then 0 else if k0 =? 1 then a_llco_entry (img L)
   else if k0 =? 2 then dummy_ret else if k0 =? 12 then stk L n + ssz L n
   else if k0 =? 13 then a_entry (img L) else 0)).
  { intros r o k0 H -> K. rewrite (R1 r _ H), MM. apply make_slot, K. }
  pose proof (S (X 19) 0 0 ltac:(cbn; tauto) eq_refl ltac:(lia)) as Q0.
  pose proof (S (X 20) 8 1 ltac:(cbn; tauto) eq_refl ltac:(lia)) as Q1.
  pose proof (S (X 21) 16 2 ltac:(cbn; tauto) eq_refl ltac:(lia)) as Q2.
  pose proof (S SP 96 12 ltac:(cbn; tauto) eq_refl ltac:(lia)) as Q3.
  pose proof (S (X 29) 80 10 ltac:(cbn; tauto) eq_refl ltac:(lia)) as Q4.
  cbn in Q0, Q1, Q2, Q3, Q4.
  assert (I : img_ok (img L)) by exact (lo_img L O).
  assert (PE : pc m1 = a_entry (img L) + 0).
  { rewrite P1, MM. replace (tc + 104) with (tc + 8 * 13) by lia.
    rewrite make_slot by lia. cbn. lia. }
  eexists. split.
  { change 29%nat with (26 + 3)%nat. rewrite msteps_add, E1.
    rewrite msteps_S.
    rewrite (mstep_en (img L) m1 0 (IMov (X 0) (X 19)) I ltac:(lia) PE eq_refl).
    cbn [exec1]. rewrite msteps_S.
    erewrite (mstep_en (img L) _ 4 (IMov (X 30) (X 21)) I);
      [|lia|cbn [pc]; lia|reflexivity].
    cbn [exec1 pc rg mem fpc]. rewrite msteps_S.
    erewrite (mstep_en (img L) _ 8 (IBr (X 20)) I); [|lia|cbn [pc]; lia|reflexivity].
    cbn [exec1 msteps]. reflexivity. }
  cbn [pc rg mem fpc]. cbv [setr reg_eqb Z.eqb Pos.eqb].
  split; [exact Q1|]. split; [exact Q0|]. split; [exact Q3|]. split; [exact Q4|].
  split; [exact Q2|]. split; [exact F1|]. split; [|exact FP].
  split; [exact W1|]. split; [exact W2|]. intros a _ B. apply F1, B.
Qed.

Lemma sets_eq f k v : sets f k v k = v.
Proof. unfold sets. rewrite Nat.eqb_refl. reflexivity. Qed.
Lemma sets_ne f k v n : n <> k -> sets f k v n = f n.
Proof. intros N. unfold sets. destruct (Nat.eqb_spec n k); [contradiction|reflexivity]. Qed.

Lemma inv_after L s j m' (fin : bool) : layout_ok L -> inv L s -> j <> cur s ->
  (forall a, ~ block (cx L (cur s)) a -> mem m' a = mem (mc s) a) ->
  saved L (mem m') (cur s) (mc s) ->
  inv L (mks m' j (sets (sets (stat s) (cur s)
     (if fin then Unused else Suspended (mc s))) j Running)).
Proof.
  intros O [R I] N F SC. split; cbn [stat cur mc].
  - apply sets_eq.
  - intros n m0 E. destruct (Nat.eq_dec n j) as [->|NJ].
    { rewrite sets_eq in E. discriminate E. }
    rewrite (sets_ne _ _ _ _ NJ) in E.
    destruct (Nat.eq_dec n (cur s)) as [->|NC].
    { rewrite sets_eq in E. destruct fin; [discriminate E|]. injection E as <-.
      exact SC. }
    rewrite (sets_ne _ _ _ _ NC) in E.
    apply (saved_eq L _ (mem (mc s))); [exact O| |apply I, E].
    intros a OA. apply F. intros B. apply NC.
    exact (lo_disj L O n (cur s) a OA (lo_block L O _ _ B)).
Qed.

Lemma sreach_inv L : layout_ok L -> forall s, sreach L s -> inv L s.
Proof.
  intros O s H. induction H as [m|s s' H [R I] ST].
  - split; cbn [stat cur mc]; [reflexivity|].
    intros n m0 E. destruct n; discriminate E.
  - destruct ST as [s m' C|s j m0 m' fin E N AS RUN
                   |s n tc f m' fin E N AS AT OT DJ MM RUN].
    + split; cbn [stat cur mc]; [exact R|].
      intros n m0 E. apply (saved_eq L _ (mem (mc s))); [exact O| |apply I, E].
      intros a OA. exact (C n m0 a E OA).
    + destruct (run_switch L (cur s) j (mc s) m0 O N AS (I j m0 E))
        as (m2 & E2 & _ & _ & F & SC & _).
      rewrite RUN in E2. injection E2 as <-.
      apply inv_after; try assumption. split; assumption.
    + destruct (run_start L (cur s) n tc f (mc s) O AS AT DJ MM)
        as (m2 & E2 & _ & _ & _ & _ & _ & F & SC & _).
      rewrite RUN in E2. injection E2 as <-.
      apply inv_after; try assumption. split; assumption.
Qed.
