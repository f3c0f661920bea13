(** Symbolic execution of the RISC-V switch routine and the invariant of
    suspended contexts. *)
From Coq Require Import List ZArith Bool Lia.
From Verif Require Import AsmRv.
Import ListNotations.
Open Scope Z_scope.

Lemma fetch_none code : forall b a,
  (a < b \/ b + 4 * Z.of_nat (length code) <= a) -> fetch_in code b a = None.
Proof.
  induction code as [|x code IH]; intros b a H; cbn [fetch_in length] in *;
    [reflexivity|].
  destruct (Z.eqb_spec a b); [lia|]. apply IH. lia.
Qed.

(** The instruction at position [n]. *)
Lemma fetch_skip : forall n code b i rest, skipn n code = i :: rest ->
  fetch_in code b (b + 4 * Z.of_nat n) = Some i.
Proof.
  induction n as [|n IH]; intros [|x code] b i rest H; cbn [skipn] in H; try discriminate H.
  - injection H as -> ->. cbn [fetch_in]. destruct (Z.eqb_spec (b + 4 * Z.of_nat 0) b); [reflexivity|lia].
  - cbn [fetch_in]. destruct (Z.eqb_spec (b + 4 * Z.of_nat (S n)) b); [lia|].
    replace (b + 4 * Z.of_nat (S n)) with ((b + 4) + 4 * Z.of_nat n) by lia. eapply IH, H.
Qed.
Lemma skip_S : forall n (code : list instr) i rest, skipn n code = i :: rest -> skipn (S n) code = rest.
Proof.
  induction n as [|n IH]; intros [|x code] i rest H; try discriminate H.
  - injection H as -> ->. reflexivity.
  - cbn [skipn] in H. change (skipn (S (S n)) (x :: code)) with (skipn (S n) code). eapply IH, H.
Qed.

Lemma mstep_sw g m n i rest : pc m = a_switch g + 4 * Z.of_nat n ->
  skipn n (asm_switch (var g)) = i :: rest -> mstep g m = exec1 g i m.
Proof.
  intros P H. unfold mstep, fetch. rewrite P, (fetch_skip _ _ _ _ _ H). reflexivity.
Qed.

Definition img_ok (g : image) : Prop :=
  a_switch g + 4 * Z.of_nat (length (asm_switch (var g))) <= a_entry g \/ a_entry g + 8 <= a_switch g.

Lemma mstep_en g m n i rest : img_ok g -> (n < 2)%nat ->
  pc m = a_entry g + 4 * Z.of_nat n -> skipn n asm_entry = i :: rest ->
  mstep g m = exec1 g i m.
Proof.
  intros G O R F. unfold mstep, fetch. rewrite R, fetch_none.
  - rewrite (fetch_skip _ _ _ _ _ F). reflexivity.
  - destruct G; lia.
Qed.

Lemma msteps_S g n m :
  msteps g (S n) m = match mstep g m with Some m' => msteps g n m' | None => None end.
Proof. reflexivity. Qed.

Lemma msteps_add g : forall n k m,
  msteps g (n + k) m = match msteps g n m with Some m' => msteps g k m' | None => None end.
Proof.
  induction n as [|n IH]; intros k m; [reflexivity|].
  cbn [Nat.add]. rewrite !msteps_S. destruct (mstep g m); [apply IH|reflexivity].
Qed.

Lemma reg_eqb_eq a b : reg_eqb a b = true <-> a = b.
Proof.
  destruct a, b; cbn; try (split; intros H; discriminate H); try tauto; rewrite Z.eqb_eq; split; intros H; congruence.
Qed.
Lemma reg_eqb_refl a : reg_eqb a a = true.
Proof. apply reg_eqb_eq. reflexivity. Qed.
Lemma setm_ne f a v x : x <> a -> setm f a v x = f x.
Proof. intros N. unfold setm. destruct (Z.eqb_spec x a); [contradiction|reflexivity]. Qed.
Lemma setm_eq f a v : setm f a v a = v.
Proof. unfold setm. rewrite Z.eqb_refl. reflexivity. Qed.
Lemma setr_ne f a v x : x <> a -> setr f a v x = f x.
Proof. intros N. unfold setr. destruct (reg_eqb x a) eqn:E; [apply reg_eqb_eq in E; contradiction|reflexivity]. Qed.
Lemma setr_eq f a v : setr f a v a = v.
Proof. unfold setr. rewrite reg_eqb_refl. reflexivity. Qed.

(** A run of stores, and a run of loads. *)
Definition stores (R : reg -> Z) (f : Z) (l : list (reg * Z)) (M : Z -> Z) : Z -> Z :=
  fold_left (fun M p => setm M (f + snd p) (R (fst p))) l M.
Definition loads (M : Z -> Z) (t : Z) (l : list (reg * Z)) (R : reg -> Z) : reg -> Z :=
  fold_left (fun R p => setr R (fst p) (M (t + snd p))) l R.

Lemma run_stores g sz R fp : forall l n rest M,
  skipn n (asm_switch (var g)) = map (fun p => ISt sz (fst p) (A_ 0) (snd p)) l ++ rest ->
  (forall r o, In (r, o) l -> allowed g sz (R (A_ 0) + o) = true) ->
  msteps g (length l) (mkm (a_switch g + 4 * Z.of_nat n) R M fp) =
  Some (mkm (a_switch g + 4 * Z.of_nat (n + length l)) R (stores R (R (A_ 0)) l M) fp) /\
  skipn (n + length l) (asm_switch (var g)) = rest.
Proof.
  induction l as [|[r o] l IH]; intros n rest M H A.
  - cbn [length msteps stores fold_left map app] in *. rewrite Nat.add_0_r. auto.
  - cbn [map app fst snd] in H. cbn [length]. rewrite msteps_S, (mstep_sw g (mkm (a_switch g + 4 * Z.of_nat n) R M fp) n _ _ eq_refl H). cbn [exec1 pc rg mem fpc].
    rewrite (A r o (or_introl eq_refl)). apply skip_S in H.
    replace (a_switch g + 4 * Z.of_nat n + 4) with (a_switch g + 4 * Z.of_nat (S n)) by lia.
    destruct (IH (S n) rest (setm M (R (A_ 0) + o) (R r)) H (fun r' o' I => A r' o' (or_intror I))) as [E1 E2].
    replace (n + S (length l))%nat with (S n + length l)%nat by lia. rewrite E1. split; [reflexivity|exact E2].
Qed.
Lemma run_loads g sz M fp t : forall l n rest R,
  skipn n (asm_switch (var g)) = map (fun p => ILd sz (fst p) (A_ 1) (snd p)) l ++ rest ->
  R (A_ 1) = t -> (forall r o, In (r, o) l -> allowed g sz (t + o) = true /\ r <> A_ 1) ->
  msteps g (length l) (mkm (a_switch g + 4 * Z.of_nat n) R M fp) =
  Some (mkm (a_switch g + 4 * Z.of_nat (n + length l)) (loads M t l R) M fp) /\
  skipn (n + length l) (asm_switch (var g)) = rest /\ loads M t l R (A_ 1) = t.
Proof.
  induction l as [|[r o] l IH]; intros n rest R H T A.
  - cbn [length msteps loads fold_left map app] in *. rewrite Nat.add_0_r. auto.
  - cbn [map app fst snd] in H. cbn [length]. rewrite msteps_S, (mstep_sw g (mkm (a_switch g + 4 * Z.of_nat n) R M fp) n _ _ eq_refl H). cbn [exec1 pc rg mem fpc].
    destruct (A r o (or_introl eq_refl)) as [A1 A2]. rewrite T, A1. apply skip_S in H.
    replace (a_switch g + 4 * Z.of_nat n + 4) with (a_switch g + 4 * Z.of_nat (S n)) by lia.
    destruct (IH (S n) rest (setr R r (M (t + o))) H) as [E1 E2].
    { rewrite setr_ne by congruence. exact T. }
    { intros r' o' I. apply (A r' o'). right. exact I. }
    replace (n + S (length l))%nat with (S n + length l)%nat by lia. rewrite E1. split; [reflexivity|exact E2].
Qed.

Lemma stores_out R f : forall l M a, (forall r o, In (r, o) l -> a <> f + o) -> stores R f l M a = M a.
Proof.
  induction l as [|[r o] l IH]; intros M a H; [reflexivity|]. unfold stores in *. cbn [fold_left]. rewrite IH.
  - apply setm_ne. apply (H r o). left. reflexivity.
  - intros r' o' I. apply (H r' o'). right. exact I.
Qed.
Lemma stores_in R f : forall l M r o, NoDup (map snd l) -> In (r, o) l -> stores R f l M (f + o) = R r.
Proof.
  induction l as [|[r0 o0] l IH]; intros M r o ND H; [destruct H|]. cbn [map snd] in ND. inversion ND as [|? ? N1 N2]; subst.
  destruct H as [H|H].
  - injection H as -> ->. unfold stores. cbn [fold_left fst snd]. fold (stores R f l (setm M (f + o) (R r))). rewrite stores_out; [apply setm_eq|].
    intros r' o' I Q. apply N1. replace o with o' by lia. exact (in_map snd _ _ I).
  - unfold stores in *. cbn [fold_left]. apply IH; assumption.
Qed.
Lemma loads_out M t : forall l R a, ~ In a (map fst l) -> loads M t l R a = R a.
Proof.
  induction l as [|[r o] l IH]; intros R a H; [reflexivity|]. unfold loads in *. cbn [fold_left map fst snd In] in *. rewrite IH by tauto. apply setr_ne. intros ->. tauto.
Qed.
Lemma loads_in M t : forall l R r o, NoDup (map fst l) -> In (r, o) l -> loads M t l R r = M (t + o).
Proof.
  induction l as [|[r0 o0] l IH]; intros R r o ND H; [destruct H|]. cbn [map fst] in ND. inversion ND as [|? ? N1 N2]; subst.
  destruct H as [H|H].
  - injection H as -> ->. unfold loads. cbn [fold_left fst snd]. fold (loads M t l (setr R r (M (t + o)))). rewrite loads_out; [apply setr_eq|exact N1].
  - unfold loads in *. cbn [fold_left]. apply IH; assumption.
Qed.

(** Facts about the five tables, by computation. *)
Definition regb (l : list reg) (r : reg) : bool := existsb (reg_eqb r) l.
Fixpoint nodupr (l : list reg) : bool := match l with [] => true | x :: r => negb (regb r x) && nodupr r end.
Lemma nodupr_ok l : nodupr l = true -> NoDup l.
Proof.
  induction l as [|x l IH]; intros H; [constructor|]. cbn in H. apply andb_true_iff in H. destruct H as [A B]. constructor; [|apply IH, B].
  intros I. apply negb_true_iff in A. assert (Q : regb l x = true) by (apply existsb_exists; exists x; split; [exact I | apply reg_eqb_refl]). congruence.
Qed.
Fixpoint nodupz (l : list Z) : bool := match l with [] => true | x :: r => negb (existsb (Z.eqb x) r) && nodupz r end.
Lemma nodupz_ok l : nodupz l = true -> NoDup l.
Proof.
  induction l as [|x l IH]; intros H; [constructor|]. cbn in H. apply andb_true_iff in H. destruct H as [A B]. constructor; [|apply IH, B].
  intros I. apply negb_true_iff in A. assert (Q : existsb (Z.eqb x) l = true) by (apply existsb_exists; exists x; split; [exact I | apply Z.eqb_refl]). congruence.
Qed.
Definition pcoff (v : variant) : Z := 13 * xw v.
(** Which register is kept in which slot of a context block. *)
Definition slots (v : variant) : list (reg * Z) := filter (fun p => negb (reg_eqb (fst p) (A_ 2))) (ldi v) ++ ldf v.
Lemma st_nodup v : NoDup (map snd (sti v ++ stf v)).
Proof. apply nodupz_ok. destruct v; reflexivity. Qed.
Lemma ld_nodup v : NoDup (map fst (ldf v ++ ldi v)).
Proof. apply nodupr_ok. destruct v; reflexivity. Qed.
Lemma slots_st v r o : In (r, o) (slots v) -> In (r, o) (sti v ++ stf v).
Proof. destruct v; cbn; intros H; repeat (destruct H as [H|H]; [rewrite <- H; auto 40|]); destruct H. Qed.
Lemma slots_ld v r o : In (r, o) (slots v) -> In (r, o) (ldf v ++ ldi v).
Proof.
  unfold slots. intros H. apply in_app_or in H. apply in_or_app. destruct H as [H|H]; [right; apply filter_In in H; apply H | left; exact H].
Qed.
Lemma pc_st v : In (RA, pcoff v) (sti v ++ stf v).
Proof. destruct v; cbn; auto 40. Qed.
Lemma pc_ld v : In (A_ 2, pcoff v) (ldf v ++ ldi v).
Proof. destruct v; cbn; auto 60. Qed.
Lemma ld_not1 v r o : In (r, o) (ldf v ++ ldi v) -> r <> A_ 1.
Proof. destruct v; cbn; intros H; repeat (destruct H as [H|H]; [injection H as <- <-; discriminate|]); destruct H. Qed.
Lemma off_range v r o : In (r, o) (sti v ++ stf v) \/ In (r, o) (ldf v ++ ldi v) -> 0 <= o < ctx_size v.
Proof.
  assert (F : forallb (fun p => (0 <=? snd p) && (snd p <? ctx_size v)) ((sti v ++ stf v) ++ (ldf v ++ ldi v)) = true) by (destruct v; reflexivity).
  rewrite forallb_forall in F. intros H. specialize (F (r, o)). cbn [snd] in F. rewrite andb_true_iff, Z.leb_le, Z.ltb_lt in F. apply F. apply in_or_app. exact H.
Qed.
Lemma int_al v r o : In (r, o) (sti v) \/ In (r, o) (ldi v) -> o mod xw v = 0.
Proof.
  assert (F : forallb (fun p => snd p mod xw v =? 0) (sti v ++ ldi v) = true) by (destruct v; reflexivity).
  rewrite forallb_forall in F. intros H. apply Z.eqb_eq. apply (F (r, o)). apply in_or_app. exact H.
Qed.
Lemma fl_al v r o : v <> RV32D -> In (r, o) (stf v) \/ In (r, o) (ldf v) -> o mod fw v = 0.
Proof.
  intros N. assert (F : forallb (fun p => snd p mod fw v =? 0) (stf v ++ ldf v) = true) by (destruct v; try reflexivity; congruence).
  rewrite forallb_forall in F. intros H. apply Z.eqb_eq. apply (F (r, o)). apply in_or_app. exact H.
Qed.

Lemma allowed_int g c r o : c mod ctx_align (var g) = 0 -> In (r, o) (sti (var g)) \/ In (r, o) (ldi (var g)) -> allowed g (xw (var g)) (c + o) = true.
Proof.
  intros C H. apply int_al in H. unfold allowed. apply orb_true_iff. right. apply Z.eqb_eq.
  assert (X : c mod xw (var g) = 0).
  { destruct (var g); cbn in *; try exact C. apply Z.mod_divide; [lia|]. apply Z.mod_divide in C; [|lia]. destruct C as (z & ->). exists (z * 2). lia. }
  rewrite Z.add_mod by (destruct (var g); discriminate). rewrite X, H. destruct (var g); reflexivity.
Qed.
Lemma allowed_fl g c r o : c mod ctx_align (var g) = 0 -> (var g = RV32D -> misok g = true) -> In (r, o) (stf (var g)) \/ In (r, o) (ldf (var g)) -> allowed g (fw (var g)) (c + o) = true.
Proof.
  intros C MI H. unfold allowed. assert (D : var g = RV32D \/ var g <> RV32D) by (destruct (var g); auto; right; discriminate).
  destruct D as [D|D]; [rewrite (MI D); reflexivity|]. apply orb_true_iff. right. apply Z.eqb_eq. pose proof H as H0. apply (fl_al _ _ _ D) in H.
  assert (X : c mod fw (var g) = 0 \/ stf (var g) = []).
  { destruct (var g); cbn in *; auto. }
  destruct X as [X|X].
  - rewrite Z.add_mod by (destruct (var g); discriminate). rewrite X, H. destruct (var g); reflexivity.
  - exfalso. destruct (var g); try discriminate X; destruct H0 as [[]|[]].
Qed.

(** What the switch routine does. *)
Lemma run_sw g m f t :
  pc m = a_switch g -> rg m (A_ 0) = f -> rg m (A_ 1) = t ->
  f mod ctx_align (var g) = 0 -> t mod ctx_align (var g) = 0 -> (var g = RV32D -> misok g = true) ->
  (forall a, t <= a < t + ctx_size (var g) -> ~ f <= a < f + ctx_size (var g)) ->
  exists m', msteps g (length (asm_switch (var g))) m = Some m' /\
    pc m' = mem m (t + pcoff (var g)) /\
    (forall r o, In (r, o) (slots (var g)) -> rg m' r = mem m (t + o)) /\
    (forall r o, In (r, o) (slots (var g)) -> mem m' (f + o) = rg m r) /\
    mem m' (f + pcoff (var g)) = rg m RA /\
    (forall a, ~ f <= a < f + ctx_size (var g) -> mem m' a = mem m a) /\ fpc m' = fpc m.
Proof.
  destruct m as [p R M fp]. cbn [pc rg mem fpc]. intros P D1 S1 AF AT MI DJ.
  set (v := var g) in *. pose (N := stores R f (sti v ++ stf v) M). pose (R2 := loads N t (ldf v ++ ldi v) R).
  assert (RD : forall a, ~ f <= a < f + ctx_size v -> N a = M a).
  { intros a B. apply stores_out. intros r o I Q. apply B. pose proof (off_range v r o (or_introl I)). lia. }
  assert (RT : forall r o, In (r, o) (ldf v ++ ldi v) -> N (t + o) = M (t + o)).
  { intros r o I. apply RD, DJ. pose proof (off_range v r o (or_intror I)). lia. }
  exists (mkm (R2 (A_ 2)) R2 N fp). split.
  { assert (P0 : p = a_switch g + 4 * Z.of_nat 0) by lia. rewrite P0. clear P P0.
    assert (LEN : length (asm_switch v) = (length (sti v) + (length (stf v) + (length (ldf v) + (length (ldi v) + 1))))%nat)
      by (unfold asm_switch; rewrite !app_length, !map_length; reflexivity).
    rewrite LEN.
    destruct (run_stores g (xw v) R fp (sti v) 0 _ M eq_refl) as [E1 K1].
    { intros r o I. rewrite D1. eapply allowed_int; [exact AF | left; exact I]. }
    rewrite msteps_add, E1. cbn [Nat.add] in K1 |- *.
    destruct (run_stores g (fw v) R fp (stf v) _ _ (stores R (R (A_ 0)) (sti v) M) K1) as [E2 K2].
    { intros r o I. rewrite D1. eapply allowed_fl; [exact AF | exact MI | left; exact I]. }
    rewrite msteps_add, E2.
    assert (EN : stores R (R (A_ 0)) (stf v) (stores R (R (A_ 0)) (sti v) M) = N) by (unfold N, stores; rewrite D1, fold_left_app; reflexivity).
    rewrite EN.
    destruct (run_loads g (fw v) N fp t (ldf v) _ _ R K2 S1) as (E3 & K3 & T3).
    { intros r o I. split; [eapply allowed_fl; [exact AT | exact MI | right; exact I] | eapply ld_not1, in_or_app; left; exact I]. }
    rewrite msteps_add, E3.
    destruct (run_loads g (xw v) N fp t (ldi v) _ _ (loads N t (ldf v) R) K3 T3) as (E4 & K4 & T4).
    { intros r o I. split; [eapply allowed_int; [exact AT | right; exact I] | eapply ld_not1, in_or_app; right; exact I]. }
    rewrite msteps_add, E4, msteps_S.
    match goal with |- context [mstep g ?z] => rewrite (mstep_sw g z _ _ _ eq_refl K4) end.
    assert (ER : loads N t (ldi v) (loads N t (ldf v) R) = R2) by (unfold R2, loads; rewrite fold_left_app; reflexivity).
    cbn [exec1 msteps pc rg mem fpc]. rewrite ER. reflexivity. }
  cbn [pc rg mem fpc].
  assert (R2N : forall r o, In (r, o) (ldf v ++ ldi v) -> R2 r = M (t + o)).
  { intros r o I. unfold R2. rewrite (loads_in N t _ R r o (ld_nodup v) I). apply (RT r o I). }
  split; [apply R2N, pc_ld|]. split; [intros r o I; apply R2N, slots_ld, I|].
  split; [intros r o I; apply stores_in; [apply st_nodup | apply slots_st, I]|].
  split; [apply stores_in; [apply st_nodup | apply pc_st]|]. split; [exact RD|reflexivity].
Qed.
Lemma slot_block L r o c : In (r, o) (slots (var (img L))) \/ o = pcoff (var (img L)) -> block L c (c + o).
Proof.
  intros H. assert (Q : 0 <= o < ctx_size (var (img L))).
  { destruct H as [H| ->]; [eapply off_range; left; apply slots_st, H | eapply off_range; left; apply pc_st]. }
  unfold block. lia.
Qed.
(** What is saved of a suspended context. *)
Definition saved (L : layout) (M : Z -> Z) (n : nat) (m0 : mach) : Prop :=
  (forall r o, In (r, o) (slots (var (img L))) -> M (cx L n + o) = rg m0 r) /\
  M (cx L n + pcoff (var (img L))) = rg m0 RA /\
  (forall a, own L n a -> ~ block L (cx L n) a -> M a = mem m0 a).

Definition inv (L : layout) (s : sys) : Prop :=
  stat s (cur s) = Running /\
  forall n m0, stat s n = Suspended m0 -> saved L (mem (mc s)) n m0.

Lemma saved_eq L M N n m0 : layout_ok L ->
  (forall a, own L n a -> M a = N a) -> saved L N n m0 -> saved L M n m0.
Proof.
  intros O E (W & PC & F). split; [|split].
  - intros r o H. rewrite E; [apply W, H|].
    apply (lo_block L O), (slot_block L r). left; exact H.
  - rewrite E; [exact PC|]. apply (lo_block L O), (slot_block L SP). right; reflexivity.
  - intros a Q NB. rewrite (E a Q). apply F; assumption.
Qed.

Lemma blocks_disj L n k a : layout_ok L -> n <> k ->
  block L (cx L n) a -> ~ block L (cx L k) a.
Proof.
  intros O N B C. apply N. exact (lo_disj L O n k a (lo_block L O _ _ B)
                                   (lo_block L O _ _ C)).
Qed.

(** The switch to a suspended context. *)
Lemma run_switch L k j m m0 : layout_ok L -> j <> k ->
  at_switch L k (cx L j) m -> saved L (mem m) j m0 ->
  exists m', msteps (img L) (swlen L) m = Some m' /\
    pc m' = rg m0 RA /\
    (forall r o, In (r, o) (slots (var (img L))) -> rg m' r = rg m0 r) /\
    (forall a, ~ block L (cx L k) a -> mem m' a = mem m a) /\
    saved L (mem m') k m /\ fpc m' = fpc m.
Proof.
  intros O N (P & A0 & A1) (W & PC & F).
  destruct (run_sw (img L) m (cx L k) (cx L j) P A0 A1 (lo_align L O k)
    (lo_align L O j) (lo_mis L O) (fun a => blocks_disj L j k a O N))
    as (m1 & E1 & P1 & R1 & W1 & W2 & F1 & FP).
  exists m1. split; [exact E1|]. split; [congruence|].
  split; [intros r o H; rewrite (R1 r o H); apply W, H|].
  split; [exact F1|]. split; [|exact FP].
  split; [exact W1|]. split; [exact W2|]. intros a _ B. apply F1, B.
Qed.

Lemma make_slot g f ctx st sz arg r o : In (r, o) (slots (var g)) \/ o = pcoff (var g) ->
  asmctx_make g f ctx st sz arg (ctx + o) =
  (let w := xw (var g) in
   if o =? 14 * w then st + sz else if o =? 12 * w then dummy_ret (var g)
   else if o =? 13 * w then a_entry g else if o =? 1 * w then a_llco_entry g
   else if o =? 0 * w then arg else 0).
Proof.
  intros H. assert (Q : 0 <= o < ctx_size (var g)).
  { destruct H as [H| ->]; [eapply off_range; left; apply slots_st, H | eapply off_range; left; apply pc_st]. }
  unfold asmctx_make, setm. set (w := xw (var g)). cbv zeta.
  assert (E : forall n, (ctx + o =? ctx + n) = (o =? n)).
  { intros n. destruct (Z.eqb_spec (ctx + o) (ctx + n)), (Z.eqb_spec o n); try reflexivity; lia. }
  rewrite !E. destruct (o =? 14 * w); [reflexivity|]. destruct (o =? 12 * w); [reflexivity|]. destruct (o =? 13 * w); [reflexivity|].
  destruct (o =? 1 * w); [reflexivity|]. destruct (o =? 0 * w); [reflexivity|].
  destruct (Z.leb_spec ctx (ctx + o)); [|lia]. destruct (Z.ltb_spec (ctx + o) (ctx + ctx_size (var g))); [reflexivity|lia].
Qed.

(** The switch to a context that was just made. *)
Lemma run_start L k n tc f m : layout_ok L ->
  at_switch L k tc m -> tc mod ctx_align (var (img L)) = 0 ->
  (forall a, block L tc a -> ~ block L (cx L k) a) ->
  (forall a, mem m a = asmctx_make (img L) f tc (stk L n) (ssz L n) 0 a) ->
  exists m', msteps (img L) (swlen L + 2) m = Some m' /\
    pc m' = a_llco_entry (img L) /\ rg m' (A_ 0) = 0 /\
    rg m' SP = stk L n + ssz L n /\ rg m' (S_ 0) = 0 /\ rg m' RA = dummy_ret (var (img L)) /\
    (forall a, ~ block L (cx L k) a -> mem m' a = mem m a) /\
    saved L (mem m') k m /\ fpc m' = fpc m.
Proof.
  intros O (P & A0 & A1) AT DJ MM.
  destruct (run_sw (img L) m (cx L k) tc P A0 A1 (lo_align L O k) AT (lo_mis L O) DJ)
    as (m1 & E1 & P1 & R1 & W1 & W2 & F1 & FP).
  assert (S : forall r i, In (r, i * xw (var (img L))) (slots (var (img L))) -> rg m1 r = asmctx_make (img L) f tc (stk L n) (ssz L n) 0 (tc + i * xw (var (img L)))).
  { intros r i H. rewrite (R1 r _ H). apply MM. }
  assert (I0 : In (S_ 0, 0 * xw (var (img L))) (slots (var (img L)))) by (destruct (var (img L)); cbn; auto 40).
  assert (I1 : In (S_ 1, 1 * xw (var (img L))) (slots (var (img L)))) by (destruct (var (img L)); cbn; auto 40).
  assert (I2 : In (RA, 12 * xw (var (img L))) (slots (var (img L)))) by (destruct (var (img L)); cbn; auto 40).
  assert (I3 : In (SP, 14 * xw (var (img L))) (slots (var (img L)))) by (destruct (var (img L)); cbn; auto 40).
  pose proof (S _ _ I0) as Q0. rewrite (make_slot _ _ _ _ _ _ (S_ 0)) in Q0 by (left; exact I0).
  pose proof (S _ _ I1) as Q1. rewrite (make_slot _ _ _ _ _ _ (S_ 1)) in Q1 by (left; exact I1).
  pose proof (S _ _ I2) as Q2. rewrite (make_slot _ _ _ _ _ _ RA) in Q2 by (left; exact I2).
  pose proof (S _ _ I3) as Q3. rewrite (make_slot _ _ _ _ _ _ SP) in Q3 by (left; exact I3).
  assert (PE : pc m1 = a_entry (img L) + 4 * Z.of_nat 0).
  { rewrite P1, MM, (make_slot _ _ _ _ _ _ RA) by (right; reflexivity). unfold pcoff. destruct (var (img L)); cbn; lia. }
  assert (Z0 : rg m1 (S_ 0) = 0) by (rewrite Q0; destruct (var (img L)); reflexivity).
  assert (Z1 : rg m1 (S_ 1) = a_llco_entry (img L)) by (rewrite Q1; destruct (var (img L)); reflexivity).
  assert (Z2 : rg m1 RA = dummy_ret (var (img L))) by (rewrite Q2; destruct (var (img L)); reflexivity).
  assert (Z3 : rg m1 SP = stk L n + ssz L n) by (rewrite Q3; destruct (var (img L)); reflexivity).
  clear Q0 Q1 Q2 Q3 I0 I1 I2 I3 S.
  assert (I : img_ok (img L)) by exact (lo_img L O).
  eexists. split.
  { rewrite msteps_add. unfold swlen. rewrite E1. rewrite msteps_S.
    rewrite (mstep_en (img L) m1 0 (IMv (A_ 0) (S_ 0)) _ I ltac:(lia) PE eq_refl).
    cbn [exec1]. rewrite msteps_S.
    erewrite (mstep_en (img L) _ 1 (IJr (S_ 1)) _ I); [|lia|cbn [pc]; lia|reflexivity].
    cbn [exec1 msteps]. reflexivity. }
  cbn [pc rg mem fpc]. rewrite !(setr_ne _ (A_ 0)) by discriminate. rewrite setr_eq.
  split; [exact Z1|]. split; [exact Z0|]. split; [exact Z3|]. split; [exact Z0|].
  split; [exact Z2|]. split; [exact F1|]. split; [|exact FP].
  split; [exact W1|]. split; [exact W2|]. intros a _ B. apply F1, B.
Qed.

Lemma sets_eq f k v : sets f k v k = v.
Proof. unfold sets. rewrite Nat.eqb_refl. reflexivity. Qed.
Lemma sets_ne f k v n : n <> k -> sets f k v n = f n.
Proof. intros N. unfold sets. destruct (Nat.eqb_spec n k); [contradiction|reflexivity]. Qed.

Lemma inv_after L s j m' (fin : bool) : layout_ok L -> inv L s -> j <> cur s ->
  (forall a, ~ block L (cx L (cur s)) a -> mem m' a = mem (mc s) a) ->
  saved L (mem m') (cur s) (mc s) ->
  inv L (mks m' j (sets (sets (stat s) (cur s)
     (if fin then Unused else Suspended (mc s))) j Running)).
Proof.
  intros O [R I] N F SC. split; cbn [stat cur mc].
  - apply sets_eq.
  - intros n m0 E. destruct (Nat.eq_dec n j) as [->|NJ].
    { rewrite sets_eq in E. discriminate E. }
    rewrite (sets_ne _ _ _ _ NJ) in E.
    destruct (Nat.eq_dec n (cur s)) as [->|NC].
    { rewrite sets_eq in E. destruct fin; [discriminate E|]. injection E as <-.
      exact SC. }
    rewrite (sets_ne _ _ _ _ NC) in E.
    apply (saved_eq L _ (mem (mc s))); [exact O| |apply I, E].
    intros a OA. apply F. intros B. apply NC.
    exact (lo_disj L O n (cur s) a OA (lo_block L O _ _ B)).
Qed.

Lemma sreach_inv L : layout_ok L -> forall s, sreach L s -> inv L s.
Proof.
  intros O s H. induction H as [m|s s' H [R I] ST].
  - split; cbn [stat cur mc]; [reflexivity|].
    intros n m0 E. destruct n; discriminate E.
  - destruct ST as [s m' C|s j m0 m' fin E N AS RUN
                   |s n tc f m' fin E N AS AT OT DJ MM RUN].
    + split; cbn [stat cur mc]; [exact R|].
      intros n m0 E. apply (saved_eq L _ (mem (mc s))); [exact O| |apply I, E].
      intros a OA. exact (C n m0 a E OA).
    + destruct (run_switch L (cur s) j (mc s) m0 O N AS (I j m0 E))
        as (m2 & E2 & _ & _ & F & SC & _).
      rewrite RUN in E2. injection E2 as <-.
      apply inv_after; try assumption. split; assumption.
    + destruct (run_start L (cur s) n tc f (mc s) O AS AT DJ MM)
        as (m2 & E2 & _ & _ & _ & _ & _ & F & SC & _).
      rewrite RUN in E2. injection E2 as <-.
      apply inv_after; try assumption. split; assumption.
Qed.
