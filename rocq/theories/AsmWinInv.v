(** The whole Windows switch routine and the invariant of suspended contexts. *)
From Coq Require Import List ZArith Bool Lia FinFun.
From Verif Require Import AsmWin AsmWinLemmas.
Import ListNotations.
Open Scope Z_scope.

(** What the first 58 instructions do. *)
Lemma run58 g m f t :
  rip m = a_switch g -> rg m RCX = f -> rg m RDX = t ->
  f mod 8 = 0 -> t mod 8 = 0 -> a_teb g mod 8 = 0 ->
  (forall a, block t a -> ~ block f a) ->
  (forall a, tebw g a -> ~ block f a) -> (forall a, tebw g a -> ~ block t a) ->
  exists m', msteps g 58 m = Some m' /\
    rip m' :: map (rg m') rsave ++ map (fun o => mem m' (a_teb g + o)) tsave
      = words (mem m) t /\
    words (mem m') f = (a_switch g + 325) :: map (rg m) rsave ++
      map (fun o => mem m (a_teb g + o)) tsave /\
    (forall a, ~ block f a -> ~ tebw g a -> mem m' a = mem m a) /\
    fpc m' = fpc m.
Proof.
  destruct m as [pc R M fp]. cbn [rip rg mem fpc]. intros P D1 S1 AF AT AB DJ BF BT.
  rewrite <- (Z.add_0_r (a_switch g)) in P. subst f t.
  pose (Ra := setr R 0 (a_switch g + 325)).
  pose (Rb := setr Ra 10 (a_teb g)).
  assert (BF' : forall o, In o tebo -> ~ block (R 1) (a_teb g + o)).
  { intros o I. apply BF, tebw_off, I. }
  assert (BT' : forall a o, In o tebo -> block (R 2) a -> a <> a_teb g + o).
  { intros a o I B ->. exact (BT _ (tebw_off g o I) B). }
  pose proof (run1 g Ra M fp (a_switch g + 7) AF) as E1. change (Ra 1) with (R 1) in E1.
  destruct (saved_words (R 1) (a_teb g) Ra M BF') as (F1 & W1).
  destruct (run2 g Rb (puts (R 1) (st1 Ra) M) fp (a_switch g + 124) AF AB)
    as (Rc & E2 & G2).
  change (Rb 1) with (R 1) in E2. change (Rb 10) with (a_teb g) in E2.
  match type of E2 with _ = Some (mkm _ _ ?N _) => set (MF := N) in * end.
  match type of W1 with words ?N _ = _ => change N with MF in W1, F1 end.
  clearbody MF.
  assert (C2 : Rc 2 = R 2) by (rewrite G2 by discriminate; reflexivity).
  assert (C10 : Rc 10 = a_teb g) by (rewrite G2 by discriminate; reflexivity).
  destruct (run3 g Rc MF fp (a_switch g + 171)) as (Rd & E3 & G3);
    [rewrite C2; exact AT|rewrite C10; exact AB|].
  rewrite C2, C10 in E3.
  destruct (teb_words (R 2) (a_teb g) MF BT') as (F2 & W2).
  match type of E3 with _ = Some (mkm _ _ ?N _) => set (MT := N) in * end.
  match type of W2 with map ?N _ = _ =>
    change N with (fun o => MT (a_teb g + o)) in W2 end.
  match type of F2 with forall a, _ -> ?N a = _ => change N with MT in F2 end.
  clearbody MT.
  assert (D2 : Rd 2 = R 2) by (rewrite G3 by discriminate; exact C2).
  destruct (run4 g Rd MT fp (a_switch g + 218)) as (Re & E4 & W4 & H4);
    [rewrite D2; exact AT|].
  rewrite D2 in W4, H4.
  assert (E : msteps g 58 (mkm pc R M fp) = Some (mkm (MT (R 2)) Re MT fp)).
  { change 58%nat with (S (length code1 + S (length code2 + (length code3 +
      (length code4 + 1)))))%nat.
    rewrite msteps_S.
    rewrite (mstep_sw g (mkm pc R M fp) 0 (ILea 318 0) 7 P) by (vm_compute; reflexivity).
    cbn [exec1 rip rg mem fpc].
    replace (a_switch g + (0 + 7) + 318) with (a_switch g + 325) by lia.
    change (a_switch g + (0 + 7)) with (a_switch g + 7). fold Ra.
    rewrite msteps_add. erewrite (msteps_l g code1 7); [|reflexivity|exact dis1].
    rewrite E1.
    rewrite msteps_S.
    erewrite (mstep_sw g _ 115 (IGs 48 10) 9); [|reflexivity|vm_compute; reflexivity].
    cbn [exec1 rip rg mem fpc Z.eqb Pos.eqb].
    change (a_switch g + (115 + 9)) with (a_switch g + 124). fold Rb.
    rewrite msteps_add. erewrite (msteps_l g code2 124); [|reflexivity|exact dis2].
    rewrite E2.
    rewrite msteps_add. erewrite (msteps_l g code3 171); [|reflexivity|exact dis3].
    rewrite E3.
    rewrite msteps_add. erewrite (msteps_l g code4 218); [|reflexivity|exact dis4].
    rewrite E4.
    rewrite msteps_S.
    erewrite (mstep_sw g _ 323 (IJmpM 2) 2); [|reflexivity|vm_compute; reflexivity].
    cbn [exec1 rip rg mem fpc]. rewrite H4.
    unfold aligned. rewrite AT. cbn [Z.eqb msteps]. reflexivity. }
  rewrite E. eexists. split; [reflexivity|]. cbn [rip rg mem fpc].
  assert (RT : forall k, In k (map (fun i => 8 * Z.of_nat i) (seq 0 34)) ->
                 MT (R 2 + k) = M (R 2 + k)).
  { intros k I. pose proof (block_off (R 2) k I) as B.
    rewrite F2 by (intros o O; apply (BT' _ o O B)). apply F1, DJ, B. }
  split.
  { rewrite W4, W2.
    rewrite <- (Z.add_0_r (R 2)) at 1. unfold words.
    transitivity (map (fun k => MT (R 2 + k)) (map (fun i => 8 * Z.of_nat i) (seq 0 34))).
    - cbn [seq map app]. do 30 f_equal.
      rewrite !F2 by (intros o O; apply (BT' _ o O), block_off; cbn; tauto).
      reflexivity.
    - rewrite map_map. apply map_ext_in. intros i I. apply RT.
      apply (in_map (fun i => 8 * Z.of_nat i)), I. }
  split.
  { transitivity (words MF (R 1)).
    - unfold words. apply map_ext_in. intros i I. apply F2. intros o O X.
      apply (BF' o O). rewrite <- X. exists (Z.of_nat i). apply in_seq in I. lia.
    - rewrite W1. reflexivity. }
  split; [|reflexivity].
  intros a B T. rewrite F2; [apply F1, B|].
  intros o O ->. apply T, tebw_off, O.
Qed.

(** What is saved of a suspended context: its block holds the resume address
    (the [ret] of the switch routine), the registers and the words of the thread
    information block, and the rest of its memory is as it was. *)
Definition saved (L : layout) (M : Z -> Z) (n : nat) (m0 : mach) : Prop :=
  rg m0 RSP mod 8 = 0 /\ own L n (rg m0 RSP) /\ ~ block (cx L n) (rg m0 RSP) /\
  words M (cx L n) = (a_switch (img L) + 325) :: map (rg m0) rsave ++
    map (fun o => mem m0 (a_teb (img L) + o)) tsave /\
  (forall a, own L n a -> ~ block (cx L n) a -> M a = mem m0 a).

Definition inv (L : layout) (s : sys) : Prop :=
  stat s (cur s) = Running /\
  forall n m0, stat s n = Suspended m0 -> saved L (mem (mc s)) n m0.

Lemma saved_eq L M N n m0 : layout_ok L ->
  (forall a, own L n a -> M a = N a) -> saved L N n m0 -> saved L M n m0.
Proof.
  intros O E (A & B & C & W & F).
  split; [exact A|]. split; [exact B|]. split; [exact C|]. split.
  - rewrite <- W. unfold words. apply map_ext_in. intros i I. apply E.
    apply (lo_block L O). exists (Z.of_nat i). apply in_seq in I. lia.
  - intros a Q NB. rewrite (E a Q). apply F; assumption.
Qed.

Lemma save_cur L k to m m' : layout_ok L ->
  at_switch L k to m ->
  words (mem m') (cx L k) = (a_switch (img L) + 325) :: map (rg m) rsave ++
    map (fun o => mem m (a_teb (img L) + o)) tsave ->
  (forall a, ~ block (cx L k) a -> ~ tebw (img L) a -> mem m' a = mem m a) ->
  saved L (mem m') k m.
Proof.
  intros O (P & D & T & A & OW & NB) W F.
  split; [exact A|]. split; [exact OW|]. split; [exact NB|].
  split; [exact W|]. intros a OA B. apply F; [exact B|].
  intros X. exact (proj2 (lo_teb L O) k a X OA).
Qed.

Lemma teb_block L k : layout_ok L -> forall a, tebw (img L) a -> ~ block (cx L k) a.
Proof.
  intros O a T B. exact (proj2 (lo_teb L O) k a T (lo_block L O _ _ B)).
Qed.

(** The [ret] at the resume address. *)
Lemma run_ret g m : rip m = a_switch g + 325 -> rg m RSP mod 8 = 0 ->
  exists m', msteps g 1 m = Some m' /\ rip m' = mem m (rg m RSP) /\
    rg m' RSP = rg m RSP + 8 /\
    (forall r, r <> RSP -> rg m' r = rg m r) /\ mem m' = mem m /\ fpc m' = fpc m.
Proof.
  intros P A. rewrite msteps_S.
  rewrite (mstep_sw g m 325 IRet 1 P) by (vm_compute; reflexivity).
  cbn [exec1]. unfold aligned. rewrite A. cbn [Z.eqb msteps].
  eexists. split; [reflexivity|]. cbn [rip rg mem fpc].
  repeat split. intros r NR. apply setr_ne, NR.
Qed.

Lemma app_inj (A : Type) (a b c d : list A) :
  length a = length c -> a ++ b = c ++ d -> a = c /\ b = d.
Proof.
  revert c. induction a as [|x a IH]; intros [|y c] H E; try discriminate H.
  - split; [reflexivity|exact E].
  - cbn in E. injection E as -> E. destruct (IH c) as [-> ->];
      [injection H; auto|exact E|]. split; reflexivity.
Qed.

(** The whole switch to a suspended context. *)
Lemma run59 L k j m m0 : layout_ok L -> j <> k ->
  at_switch L k (cx L j) m -> saved L (mem m) j m0 ->
  exists m', msteps (img L) 59 m = Some m' /\
    rip m' = mem m0 (rg m0 RSP) /\
    rg m' RSP = rg m0 RSP + 8 /\
    (forall r, In r rsave -> r <> RSP -> rg m' r = rg m0 r) /\
    (forall a, tebw (img L) a -> mem m' a = mem m0 a) /\
    (forall a, ~ block (cx L k) a -> ~ tebw (img L) a -> mem m' a = mem m a) /\
    saved L (mem m') k m /\ fpc m' = fpc m.
Proof.
  intros O N AS SV. pose proof AS as (P & D & T & A & OW & NB).
  pose proof SV as (A0 & OW0 & NB0 & W0 & F0).
  assert (DJ : forall a, block (cx L j) a -> ~ block (cx L k) a).
  { intros a B C. apply N. exact (lo_disj L O j k a (lo_block L O _ _ B)
                                   (lo_block L O _ _ C)). }
  destruct (run58 (img L) m (cx L k) (cx L j) P D T (lo_align L O k)
    (lo_align L O j) (proj1 (lo_teb L O)) DJ (teb_block L k O) (teb_block L j O))
    as (m1 & E1 & W1 & W2 & F1 & FP1).
  rewrite W0 in W1.
  pose proof (f_equal (hd 0) W1) as Q0. apply (f_equal (@tl Z)) in W1.
  cbn [hd tl] in Q0, W1.
  assert (QQ : map (rg m1) rsave = map (rg m0) rsave /\
    map (fun o => mem m1 (a_teb (img L) + o)) tsave =
    map (fun o => mem m0 (a_teb (img L) + o)) tsave).
  { apply app_inj; [rewrite !map_length; reflexivity|exact W1]. }
  destruct QQ as [QR QT].
  pose proof (ext_in_map QR) as G.
  pose proof (ext_in_map QT) as GT.
  assert (Q1 : rg m1 RSP = rg m0 RSP) by (apply G; cbn; tauto).
  assert (AL : rg m1 RSP mod 8 = 0) by (rewrite Q1; exact A0).
  destruct (run_ret (img L) m1 Q0 AL) as (m2 & E2 & R2 & S2 & G2 & M2 & FP2).
  exists m2. split.
  { change 59%nat with (58 + 1)%nat. rewrite msteps_add, E1. exact E2. }
  split.
  { rewrite R2, Q1. rewrite F1.
    - apply F0; assumption.
    - intros B. apply N. exact (lo_disj L O j k _ OW0 (lo_block L O _ _ B)).
    - intros X. exact (proj2 (lo_teb L O) j _ X OW0). }
  split; [rewrite S2, Q1; reflexivity|].
  split; [intros r I NR; rewrite G2 by exact NR; apply G, I|].
  split.
  { intros a (o & I & ->). rewrite M2. apply (GT o). revert I. cbn. tauto. }
  split; [intros a B X; rewrite M2; apply F1; assumption|].
  split; [|congruence].
  rewrite M2. apply (save_cur L k (cx L j) m m1); assumption.
Qed.

(** The block of a context that was just made. *)
Lemma made g f tc stack size arg : ~ block tc (stack + (size - 32) - 8) ->
  words (asmctx_make g f tc stack size arg) tc =
  [a_entry g; stack + (size - 32) - 8; 0; 0; a_llco_entry g; arg] ++ repeat 0 25 ++
  [stack; stack; stack + (size - 32)].
Proof.
  intros NB. unfold asmctx_make. set (top := stack + (size - 32) - 8) in *.
  set (l := [(0, a_entry g); (8, top); (32, a_llco_entry g); (40, arg);
             (264, stack + (size - 32)); (256, stack); (248, stack)]).
  set (M := setm (puts tc zeros f) top dummy_ret).
  assert (ND : NoDup (map fst l)).
  { cbn [l map fst]. repeat constructor; cbn; lia. }
  assert (NZ : NoDup (map fst zeros)).
  { change (map fst zeros) with (map (fun i => 8 * Z.of_nat i) (seq 0 34)).
    apply Injective_map_NoDup; [intros x y H; lia|apply seq_NoDup]. }
  assert (IN : forall o v, In (o, v) l -> puts tc l M (tc + o) = v).
  { intros o v I. apply puts_in; assumption. }
  assert (Z0 : forall o, In (o, 0) zeros -> ~ In o (map fst l) ->
                 puts tc l M (tc + o) = 0).
  { intros o I X. rewrite puts_out.
    - unfold M. rewrite setm_ne.
      + apply puts_in; assumption.
      + intros E. apply NB. rewrite <- E. apply block_off.
        change (map (fun i => 8 * Z.of_nat i) (seq 0 34)) with (map fst zeros).
        exact (in_map fst _ _ I).
    - intros x I' E. apply X. assert (x = o) by lia. subst x. exact I'. }
  unfold words. cbn [seq map app repeat].
  repeat match goal with
  | |- ?x :: _ = ?y :: _ => f_equal
  end; try (apply IN; cbn; tauto); apply Z0;
    try (cbn; tauto); cbn; intros H; lia.
Qed.

(** The switch to a context that was just made. *)
Lemma run60 L k n tc f m : layout_ok L ->
  at_switch L k tc m -> tc mod 8 = 0 ->
  (forall a, block tc a -> own L k a) ->
  (forall a, block tc a -> ~ block (cx L k) a) ->
  n <> k -> (0 < n)%nat ->
  (forall a, mem m a = asmctx_make (img L) f tc (stk L n) (ssz L n) 0 a) ->
  exists m', msteps (img L) 60 m = Some m' /\
    rip m' = a_llco_entry (img L) /\ rg m' RCX = 0 /\
    rg m' RSP = stk L n + ssz L n - 40 /\ rg m' RBP = 0 /\
    mem m' (a_teb (img L) + 8) = stk L n + ssz L n - 32 /\
    mem m' (a_teb (img L) + 16) = stk L n /\
    mem m' (a_teb (img L) + 5240) = stk L n /\
    (forall a, ~ block (cx L k) a -> ~ tebw (img L) a -> mem m' a = mem m a) /\
    saved L (mem m') k m /\ fpc m' = fpc m.
Proof.
  intros O AS AT OT DJ NK N0 MM. pose proof AS as (P & D & T & A & OW & NB).
  destruct (run58 (img L) m (cx L k) tc P D T (lo_align L O k) AT
    (proj1 (lo_teb L O)) DJ (teb_block L k O)
    (fun a X B => proj2 (lo_teb L O) k a X (OT a B)))
    as (m1 & E1 & W1 & W2 & F1 & FP1).
  assert (NT : ~ block tc (stk L n + (ssz L n - 32) - 8)).
  { intros B. apply NK. apply (lo_disj L O n k (stk L n + (ssz L n - 32) - 8)).
    - destruct (lo_stk L O n) as (_ & _ & Z3). apply (lo_in L O n); [exact N0|]. lia.
    - exact (OT _ B). }
  assert (W : words (mem m) tc =
    words (asmctx_make (img L) f tc (stk L n) (ssz L n) 0) tc).
  { unfold words. apply map_ext. intros i. apply MM. }
  rewrite W, (made (img L) f tc (stk L n) (ssz L n) 0 NT) in W1. clear W.
  pose proof (f_equal (fun l => nth 0 l 0) W1) as Q0.
  pose proof (f_equal (fun l => nth 1 l 0) W1) as Q1.
  pose proof (f_equal (fun l => nth 2 l 0) W1) as Q2.
  pose proof (f_equal (fun l => nth 4 l 0) W1) as Q4.
  pose proof (f_equal (fun l => nth 5 l 0) W1) as Q5.
  pose proof (f_equal (fun l => nth 31 l 0) W1) as Q31.
  pose proof (f_equal (fun l => nth 32 l 0) W1) as Q32.
  pose proof (f_equal (fun l => nth 33 l 0) W1) as Q33.
  clear W1. cbn [nth map app rsave tsave repeat] in Q0, Q1, Q2, Q4, Q5, Q31, Q32, Q33.
  assert (I : img_ok (img L)) by exact (lo_img L O).
  rewrite <- (Z.add_0_r (a_entry (img L))) in Q0.
  exists (mkm (rg m1 R12) (setr (rg m1) RCX (rg m1 R13)) (mem m1) (fpc m1)). split.
  { change 60%nat with (58 + 2)%nat. rewrite msteps_add, E1.
    rewrite msteps_S.
    rewrite (mstep_en (img L) m1 0 (IMov R13 RCX) 3 I Q0) by (vm_compute; reflexivity).
    cbn [exec1]. rewrite msteps_S.
    rewrite (mstep_en (img L)
      (mkm (a_entry (img L) + (0 + 3)) (setr (rg m1) RCX (rg m1 R13)) (mem m1) (fpc m1))
      3 (IJmpR R12) 3 I eq_refl) by (vm_compute; reflexivity).
    cbn [exec1 msteps rg mem fpc]. rewrite setr_ne by discriminate. reflexivity. }
  cbn [rip rg mem fpc].
  split; [exact Q4|]. split; [rewrite setr_eq; exact Q5|].
  split; [rewrite setr_ne by discriminate; lia|].
  split; [rewrite setr_ne by discriminate; exact Q2|].
  split; [lia|]. split; [exact Q32|]. split; [exact Q31|].
  split; [exact F1|]. split; [|exact FP1].
  apply (save_cur L k tc m m1); assumption.
Qed.

Lemma sets_eq f k v : sets f k v k = v.
Proof. unfold sets. rewrite Nat.eqb_refl. reflexivity. Qed.
Lemma sets_ne f k v n : n <> k -> sets f k v n = f n.
Proof. intros N. unfold sets. destruct (Nat.eqb_spec n k); [contradiction|reflexivity]. Qed.

Lemma inv_after L s j m' (fin : bool) : layout_ok L -> inv L s -> j <> cur s ->
  (forall a, ~ block (cx L (cur s)) a -> ~ tebw (img L) a ->
     mem m' a = mem (mc s) a) ->
  saved L (mem m') (cur s) (mc s) ->
  inv L (mks m' j (sets (sets (stat s) (cur s)
     (if fin then Unused else Suspended (mc s))) j Running)).
Proof.
  intros O [R I] N F SC. split; cbn [stat cur mc].
  - apply sets_eq.
  - intros n m0 E. destruct (Nat.eq_dec n j) as [->|NJ].
    { rewrite sets_eq in E. discriminate E. }
    rewrite (sets_ne _ _ _ _ NJ) in E.
    destruct (Nat.eq_dec n (cur s)) as [->|NC].
    { rewrite sets_eq in E. destruct fin; [discriminate E|]. injection E as <-.
      exact SC. }
    rewrite (sets_ne _ _ _ _ NC) in E.
    apply (saved_eq L _ (mem (mc s))); [exact O| |apply I, E].
    intros a OA. apply F.
    + intros B. apply NC. exact (lo_disj L O n (cur s) a OA (lo_block L O _ _ B)).
    + intros X. exact (proj2 (lo_teb L O) n a X OA).
Qed.

Lemma sreach_inv L : layout_ok L -> forall s, sreach L s -> inv L s.
Proof.
  intros O s H. induction H as [m|s s' H [R I] ST].
  - split; cbn [stat cur mc]; [reflexivity|].
    intros n m0 E. destruct n; discriminate E.
  - destruct ST as [s m' C|s j m0 m' fin E N AS RUN
                   |s n tc f m' fin E N N0 AS AT OT DJ MM RUN].
    + split; cbn [stat cur mc]; [exact R|].
      intros n m0 E. apply (saved_eq L _ (mem (mc s))); [exact O| |apply I, E].
      intros a OA. exact (C n m0 a E OA).
    + destruct (run59 L (cur s) j (mc s) m0 O N AS (I j m0 E))
        as (m2 & E2 & _ & _ & _ & _ & F & SC & _).
      rewrite RUN in E2. injection E2 as <-.
      apply inv_after; try assumption. split; assumption.
    + destruct (run60 L (cur s) n tc f (mc s) O AS AT OT DJ N N0 MM)
        as (m2 & E2 & _ & _ & _ & _ & _ & _ & _ & F & SC & _).
      rewrite RUN in E2. injection E2 as <-.
      apply inv_after; try assumption. split; assumption.
Qed.
