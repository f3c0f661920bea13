(** Symbolic execution of the 32-bit ARM switch routine and the invariant of
    suspended contexts. *)
From Coq Require Import List ZArith Bool Lia.
From Verif Require Import AsmArm.
Import ListNotations.
Open Scope Z_scope.

Lemma fetch_none code : forall b a,
  (a < b \/ b + 4 * Z.of_nat (length code) <= a) -> fetch_in code b a = None.
Proof.
  induction code as [|x code IH]; intros b a H; cbn [fetch_in length] in *;
    [reflexivity|].
  destruct (Z.eqb_spec a b); [lia|]. apply IH. lia.
Qed.

(** The instruction at position [n]. *)
Lemma fetch_skip : forall n code b i rest, skipn n code = i :: rest ->
  fetch_in code b (b + 4 * Z.of_nat n) = Some i.
Proof.
  induction n as [|n IH]; intros [|x code] b i rest H; cbn [skipn] in H; try discriminate H.
  - injection H as -> ->. cbn [fetch_in]. destruct (Z.eqb_spec (b + 4 * Z.of_nat 0) b); [reflexivity|lia].
  - cbn [fetch_in]. destruct (Z.eqb_spec (b + 4 * Z.of_nat (S n)) b); [lia|].
    replace (b + 4 * Z.of_nat (S n)) with ((b + 4) + 4 * Z.of_nat n) by lia. eapply IH, H.
Qed.
Lemma skip_S : forall n (code : list instr) i rest, skipn n code = i :: rest -> skipn (S n) code = rest.
Proof.
  induction n as [|n IH]; intros [|x code] i rest H; try discriminate H.
  - injection H as -> ->. reflexivity.
  - cbn [skipn] in H. change (skipn (S (S n)) (x :: code)) with (skipn (S n) code). eapply IH, H.
Qed.

Lemma mstep_sw g m n i rest : pc m = a_switch g + 4 * Z.of_nat n ->
  skipn n (asm_switch (var g)) = i :: rest -> mstep g m = exec1 i m.
Proof.
  intros P H. unfold mstep, fetch. rewrite P, (fetch_skip _ _ _ _ _ H). reflexivity.
Qed.

Definition img_ok (g : image) : Prop :=
  a_switch g + 4 * Z.of_nat (length (asm_switch (var g))) <= a_entry g \/ a_entry g + 16 <= a_switch g.

Lemma mstep_en g m n i rest : img_ok g -> (n < 4)%nat ->
  pc m = a_entry g + 4 * Z.of_nat n -> skipn n asm_entry = i :: rest ->
  mstep g m = exec1 i m.
Proof.
  intros G O R F. unfold mstep, fetch. rewrite R, fetch_none.
  - rewrite (fetch_skip _ _ _ _ _ F). reflexivity.
  - destruct G; lia.
Qed.

Lemma msteps_S g n m :
  msteps g (S n) m = match mstep g m with Some m' => msteps g n m' | None => None end.
Proof. reflexivity. Qed.

Lemma msteps_add g : forall n k m,
  msteps g (n + k) m = match msteps g n m with Some m' => msteps g k m' | None => None end.
Proof.
  induction n as [|n IH]; intros k m; [reflexivity|].
  cbn [Nat.add]. rewrite !msteps_S. destruct (mstep g m); [apply IH|reflexivity].
Qed.

Lemma reg_eqb_eq a b : reg_eqb a b = true <-> a = b.
Proof.
  destruct a, b; cbn; try (split; intros H; discriminate H); try tauto; rewrite Z.eqb_eq; split; intros H; congruence.
Qed.
Lemma reg_eqb_refl a : reg_eqb a a = true.
Proof. apply reg_eqb_eq. reflexivity. Qed.
Lemma setm_ne f a v x : x <> a -> setm f a v x = f x.
Proof. intros N. unfold setm. destruct (Z.eqb_spec x a); [contradiction|reflexivity]. Qed.
Lemma setm_eq f a v : setm f a v a = v.
Proof. unfold setm. rewrite Z.eqb_refl. reflexivity. Qed.
Lemma setr_ne f a v x : x <> a -> setr f a v x = f x.
Proof. intros N. unfold setr. destruct (reg_eqb x a) eqn:E; [apply reg_eqb_eq in E; contradiction|reflexivity]. Qed.
Lemma setr_eq f a v : setr f a v a = v.
Proof. unfold setr. rewrite reg_eqb_refl. reflexivity. Qed.

(** The registers of the context block, and the place of the address to continue at. *)
Definition pcoff (v : variant) : Z := doff v + 32.
Definition slots (v : variant) : list (reg * Z) :=
  match v with
  | SOFT => []
  | HARD => [(D 8, 0); (D 9, 8); (D 10, 16); (D 11, 24); (D 12, 32); (D 13, 40); (D 14, 48); (D 15, 56)]
  end ++
  [(R 4, doff v + 0); (R 5, doff v + 4); (R 6, doff v + 8); (R 7, doff v + 12); (R 8, doff v + 16);
   (R 9, doff v + 20); (R 10, doff v + 24); (R 11, doff v + 28); (SP, doff v + 36)].

Lemma off_range v r o : In (r, o) (slots v) \/ o = pcoff v -> 0 <= o < ctx_size v.
Proof.
  intros [H| ->]; [|destruct v; cbn; lia].
  assert (F : forallb (fun p => (0 <=? snd p) && (snd p <? ctx_size v)) (slots v) = true) by (destruct v; reflexivity).
  rewrite forallb_forall in F. specialize (F _ H). cbn [snd] in F. rewrite andb_true_iff, Z.leb_le, Z.ltb_lt in F. exact F.
Qed.

Lemma al4 a k : a mod 4 = 0 -> k mod 4 = 0 -> aligned (a + k) = true.
Proof. intros A K. unfold aligned. apply Z.eqb_eq. rewrite Z.add_mod, A, K by lia. reflexivity. Qed.

Ltac slots_cases H := cbn [slots app In doff] in H;
  repeat (destruct H as [H|H]; [injection H as <- <-|]); [..|destruct H].

Lemma run_sw g m f t :
  pc m = a_switch g -> rg m (R 0) = f -> rg m (R 1) = t ->
  f mod 4 = 0 -> t mod 4 = 0 ->
  (forall a, t <= a < t + ctx_size (var g) -> ~ f <= a < f + ctx_size (var g)) ->
  exists m', msteps g (length (asm_switch (var g))) m = Some m' /\
    pc m' = mem m (t + pcoff (var g)) /\
    (forall r o, In (r, o) (slots (var g)) -> rg m' r = mem m (t + o)) /\
    (forall r o, In (r, o) (slots (var g)) -> mem m' (f + o) = rg m r) /\
    mem m' (f + pcoff (var g)) = rg m LR /\
    (forall a, ~ f <= a < f + ctx_size (var g) -> mem m' a = mem m a) /\ fpc m' = fpc m.
Proof.
  destruct m as [p Q M fp]. cbn [pc rg mem fpc]. intros P D1 S1 AF AT DJ.
  assert (A0 : aligned f = true) by (apply Z.eqb_eq, AF).
  assert (A1 : aligned t = true) by (apply Z.eqb_eq, AT).
  assert (A2 : aligned (f + 36) = true) by (apply al4; [exact AF|reflexivity]).
  assert (A3 : aligned (t + 36) = true) by (apply al4; [exact AT|reflexivity]).
  assert (A4 : aligned (f + 64) = true) by (apply al4; [exact AF|reflexivity]).
  assert (A5 : aligned (t + 64) = true) by (apply al4; [exact AT|reflexivity]).
  assert (A6 : aligned (f + 64 + 36) = true) by (apply al4; [rewrite Z.add_mod, AF by lia; reflexivity|reflexivity]).
  assert (A7 : aligned (t + 64 + 36) = true) by (apply al4; [rewrite Z.add_mod, AT by lia; reflexivity|reflexivity]).
  assert (NX : forall n m i rest, pc m = a_switch g + 4 * Z.of_nat n ->
    skipn n (asm_switch (var g)) = i :: rest -> forall k, msteps g (S k) m = match exec1 i m with Some m' => msteps g k m' | None => None end).
  { intros n m i rest PN SK k. rewrite msteps_S, (mstep_sw g m n i rest PN SK). reflexivity. }
  destruct (var g) eqn:V; cbn [asm_switch length] in *.
  - pose (N := setm (stm Q 4 f (r4_r11 ++ [LR]) M) (f + 36) (Q SP)).
    pose (Q2 := ldm N 4 t (r4_r11 ++ [PC]) (setr Q SP (N (t + 36)))).
    assert (RUN : msteps g 4 (mkm p Q M fp) = Some (mkm (Q2 PC) Q2 N fp)).
    { erewrite (NX 0%nat); [|cbn [pc]; lia|reflexivity]. cbn [exec1 pc rg mem fpc]. rewrite D1, A0.
      erewrite (NX 1%nat); [|cbn [pc]; lia|reflexivity]. cbn [exec1 pc rg mem fpc]. rewrite D1, A2. fold N.
      erewrite (NX 2%nat); [|cbn [pc]; lia|reflexivity]. cbn [exec1 pc rg mem fpc]. rewrite S1, A3.
      erewrite (NX 3%nat); [|cbn [pc]; lia|reflexivity]. cbn [exec1 pc rg mem fpc].
      change (setr Q SP (N (t + 36)) (R 1)) with (Q (R 1)). rewrite S1, A1.
      cbn [msteps]. reflexivity. }
    exists (mkm (Q2 PC) Q2 N fp). split; [exact RUN|]. cbn [pc rg mem fpc]. clear RUN NX.
    assert (RD : forall a, ~ f <= a < f + ctx_size SOFT -> N a = M a).
    { intros a B. unfold ctx_size, doff in B. unfold N. cbn [stm r4_r11 app]. rewrite !setm_ne by lia. reflexivity. }
    assert (RT : forall o, 0 <= o < ctx_size SOFT -> N (t + o) = M (t + o)) by (intros o B; apply RD, DJ; lia).
    assert (LD : forall r o, In (r, o) (slots SOFT) -> Q2 r = N (t + o)).
    { clear. clearbody N. intros r o I. unfold Q2. cbn [ldm r4_r11 app].
      slots_cases I; cbv [setr reg_eqb Z.eqb Pos.eqb]; f_equal; lia. }
    split.
    { transitivity (N (t + 32)); [|apply RT; cbn; lia]. clear. clearbody N. unfold Q2. cbn [ldm r4_r11 app]. cbv [setr reg_eqb Z.eqb Pos.eqb]. f_equal. lia. }
    split; [intros r o I; rewrite (LD r o I); apply RT, (off_range _ r), or_introl, I|].
    split.
    { clear. intros r o I. unfold N. cbn [stm r4_r11 app].
      slots_cases I; unfold setm;
      repeat match goal with |- context [?a =? ?b] => destruct (Z.eqb_spec a b); try lia end; reflexivity. }
    split.
    { clear. unfold N. cbn [stm r4_r11 app]. unfold pcoff, doff, setm.
      repeat match goal with |- context [?a =? ?b] => destruct (Z.eqb_spec a b); try lia end; reflexivity. }
    split; [exact RD|reflexivity].
  - pose (N1 := stm Q 8 f d8_d15 M). pose (N := setm (stm Q 4 (f + 64) (r4_r11 ++ [LR]) N1) (f + 64 + 36) (Q SP)).
    pose (Q1 := ldm N 8 t d8_d15 (setr (setr Q (R 0) (f + 64)) (R 1) (t + 64))).
    pose (Q2 := ldm N 4 (t + 64) (r4_r11 ++ [PC]) (setr Q1 SP (N (t + 64 + 36)))).
    assert (RUN : msteps g 6 (mkm p Q M fp) = Some (mkm (Q2 PC) Q2 N fp)).
    { erewrite (NX 0%nat); [|cbn [pc]; lia|reflexivity]. cbn [exec1 pc rg mem fpc]. rewrite D1, A0.
      change (8 * Z.of_nat (length d8_d15)) with 64. fold N1.
      erewrite (NX 1%nat); [|cbn [pc]; lia|reflexivity]. cbn [exec1 pc rg mem fpc].
      change (setr Q (R 0) (f + 64) (R 0)) with (f + 64). rewrite A4.
      erewrite (NX 2%nat); [|cbn [pc]; lia|reflexivity]. cbn [exec1 pc rg mem fpc].
      change (setr Q (R 0) (f + 64) (R 0)) with (f + 64). rewrite A6.
      change (setr Q (R 0) (f + 64) SP) with (Q SP).
      change (setm (stm (setr Q (R 0) (f + 64)) 4 (f + 64) (r4_r11 ++ [LR]) N1) (f + 64 + 36) (Q SP)) with N.
      erewrite (NX 3%nat); [|cbn [pc]; lia|reflexivity]. cbn [exec1 pc rg mem fpc].
      change (setr Q (R 0) (f + 64) (R 1)) with (Q (R 1)). rewrite S1, A1.
      change (8 * Z.of_nat (length d8_d15)) with 64. cbn [existsb d8_d15 reg_eqb orb]. fold d8_d15. fold Q1.
      erewrite (NX 4%nat); [|cbn [pc]; lia|reflexivity]. cbn [exec1 pc rg mem fpc].
      assert (E1 : Q1 (R 1) = t + 64) by reflexivity.
      rewrite E1, A7.
      erewrite (NX 5%nat); [|cbn [pc]; lia|reflexivity]. cbn [exec1 pc rg mem fpc].
      change (setr Q1 SP (N (t + 64 + 36)) (R 1)) with (Q1 (R 1)). rewrite E1, A5.
      cbn [msteps]. reflexivity. }
    exists (mkm (Q2 PC) Q2 N fp). split; [exact RUN|]. cbn [pc rg mem fpc]. clear RUN NX.
    assert (RD : forall a, ~ f <= a < f + ctx_size HARD -> N a = M a).
    { intros a B. unfold ctx_size, doff in B. unfold N, N1. cbn [stm r4_r11 d8_d15 app]. rewrite !setm_ne by lia. reflexivity. }
    assert (RT : forall o, 0 <= o < ctx_size HARD -> N (t + o) = M (t + o)) by (intros o B; apply RD, DJ; lia).
    assert (LD : forall r o, In (r, o) (slots HARD) -> Q2 r = N (t + o)).
    { clear. clearbody N. intros r o I. unfold Q2, Q1. cbn [ldm r4_r11 d8_d15 app].
      slots_cases I; cbv [setr reg_eqb Z.eqb Pos.eqb]; f_equal; lia. }
    split.
    { transitivity (N (t + 96)); [|apply RT; cbn; lia]. clear. clearbody N. unfold Q2. cbn [ldm r4_r11 app]. cbv [setr reg_eqb Z.eqb Pos.eqb]. f_equal. lia. }
    split; [intros r o I; rewrite (LD r o I); apply RT, (off_range _ r), or_introl, I|].
    split.
    { clear. intros r o I. unfold N, N1. cbn [stm r4_r11 d8_d15 app].
      slots_cases I; unfold setm;
      repeat match goal with |- context [?a =? ?b] => destruct (Z.eqb_spec a b); try lia end; reflexivity. }
    split.
    { clear. unfold N, N1. cbn [stm r4_r11 d8_d15 app]. unfold pcoff, doff, setm.
      repeat match goal with |- context [?a =? ?b] => destruct (Z.eqb_spec a b); try lia end; reflexivity. }
    split; [exact RD|reflexivity].
Qed.
Lemma slot_block L r o c : In (r, o) (slots (var (img L))) \/ o = pcoff (var (img L)) -> block L c (c + o).
Proof.
  intros H. assert (Q : 0 <= o < ctx_size (var (img L))).
  { eapply off_range, H. }
  unfold block. lia.
Qed.
(** What is saved of a suspended context. *)
Definition saved (L : layout) (M : Z -> Z) (n : nat) (m0 : mach) : Prop :=
  (forall r o, In (r, o) (slots (var (img L))) -> M (cx L n + o) = rg m0 r) /\
  M (cx L n + pcoff (var (img L))) = rg m0 LR /\
  (forall a, own L n a -> ~ block L (cx L n) a -> M a = mem m0 a).

Definition inv (L : layout) (s : sys) : Prop :=
  stat s (cur s) = Running /\
  forall n m0, stat s n = Suspended m0 -> saved L (mem (mc s)) n m0.

Lemma saved_eq L M N n m0 : layout_ok L ->
  (forall a, own L n a -> M a = N a) -> saved L N n m0 -> saved L M n m0.
Proof.
  intros O E (W & PC & F). split; [|split].
  - intros r o H. rewrite E; [apply W, H|].
    apply (lo_block L O), (slot_block L r). left; exact H.
  - rewrite E; [exact PC|]. apply (lo_block L O), (slot_block L SP). right; reflexivity.
  - intros a Q NB. rewrite (E a Q). apply F; assumption.
Qed.

Lemma blocks_disj L n k a : layout_ok L -> n <> k ->
  block L (cx L n) a -> ~ block L (cx L k) a.
Proof.
  intros O N B C. apply N. exact (lo_disj L O n k a (lo_block L O _ _ B)
                                   (lo_block L O _ _ C)).
Qed.

(** The switch to a suspended context. *)
Lemma run_switch L k j m m0 : layout_ok L -> j <> k ->
  at_switch L k (cx L j) m -> saved L (mem m) j m0 ->
  exists m', msteps (img L) (swlen L) m = Some m' /\
    pc m' = rg m0 LR /\
    (forall r o, In (r, o) (slots (var (img L))) -> rg m' r = rg m0 r) /\
    (forall a, ~ block L (cx L k) a -> mem m' a = mem m a) /\
    saved L (mem m') k m /\ fpc m' = fpc m.
Proof.
  intros O N (P & A0 & A1) (W & PC & F).
  destruct (run_sw (img L) m (cx L k) (cx L j) P A0 A1 (lo_align L O k)
    (lo_align L O j) (fun a => blocks_disj L j k a O N))
    as (m1 & E1 & P1 & R1 & W1 & W2 & F1 & FP).
  exists m1. split; [exact E1|]. split; [congruence|].
  split; [intros r o H; rewrite (R1 r o H); apply W, H|].
  split; [exact F1|]. split; [|exact FP].
  split; [exact W1|]. split; [exact W2|]. intros a _ B. apply F1, B.
Qed.

Lemma make_slot g f ctx st sz arg o : 0 <= o < ctx_size (var g) ->
  asmctx_make g f ctx st sz arg (ctx + o) =
  (let d := doff (var g) in
   if o =? d + 36 then st + sz else if o =? d + 32 then a_entry g
   else if o =? d + 8 then dummy_ret else if o =? d + 4 then a_llco_entry g
   else if o =? d + 0 then arg else 0).
Proof.
  intros B. unfold asmctx_make, setm. set (d := doff (var g)). cbv zeta.
  assert (E : forall n, (ctx + o =? ctx + n) = (o =? n)).
  { intros n. destruct (Z.eqb_spec (ctx + o) (ctx + n)), (Z.eqb_spec o n); try reflexivity; lia. }
  rewrite !E. destruct (o =? d + 36); [reflexivity|]. destruct (o =? d + 32); [reflexivity|]. destruct (o =? d + 8); [reflexivity|].
  destruct (o =? d + 4); [reflexivity|]. destruct (o =? d + 0); [reflexivity|].
  destruct (Z.leb_spec ctx (ctx + o)); [|lia]. destruct (Z.ltb_spec (ctx + o) (ctx + ctx_size (var g))); [reflexivity|lia].
Qed.

(** The switch to a context that was just made. *)
Lemma run_start L k n tc f m : layout_ok L ->
  at_switch L k tc m -> tc mod 4 = 0 ->
  (forall a, block L tc a -> ~ block L (cx L k) a) ->
  (forall a, mem m a = asmctx_make (img L) f tc (stk L n) (ssz L n) 0 a) ->
  exists m', msteps (img L) (swlen L + 4) m = Some m' /\
    pc m' = a_llco_entry (img L) /\ rg m' (R 0) = 0 /\
    rg m' SP = stk L n + ssz L n /\ rg m' (R 11) = 0 /\ rg m' LR = dummy_ret /\
    (forall a, ~ block L (cx L k) a -> mem m' a = mem m a) /\
    saved L (mem m') k m /\ fpc m' = fpc m.
Proof.
  intros O (P & A0 & A1) AT DJ MM.
  destruct (run_sw (img L) m (cx L k) tc P A0 A1 (lo_align L O k) AT DJ)
    as (m1 & E1 & P1 & R1 & W1 & W2 & F1 & FP).
  set (d := doff (var (img L))).
  assert (S : forall r o, In (r, o) (slots (var (img L))) -> rg m1 r = asmctx_make (img L) f tc (stk L n) (ssz L n) 0 (tc + o)).
  { intros r o H. rewrite (R1 r _ H). apply MM. }
  assert (I0 : In (R 4, d + 0) (slots (var (img L)))) by (unfold d; destruct (var (img L)); cbn; auto 40).
  assert (I1 : In (R 5, d + 4) (slots (var (img L)))) by (unfold d; destruct (var (img L)); cbn; auto 40).
  assert (I2 : In (R 6, d + 8) (slots (var (img L)))) by (unfold d; destruct (var (img L)); cbn; auto 40).
  assert (I3 : In (SP, d + 36) (slots (var (img L)))) by (unfold d; destruct (var (img L)); cbn; auto 40).
  assert (I4 : In (R 11, d + 28) (slots (var (img L)))) by (unfold d; destruct (var (img L)); cbn; auto 40).
  assert (Z0 : rg m1 (R 4) = 0).
  { rewrite (S _ _ I0), make_slot by (eapply off_range; left; exact I0). unfold d. destruct (var (img L)); reflexivity. }
  assert (Z1 : rg m1 (R 5) = a_llco_entry (img L)).
  { rewrite (S _ _ I1), make_slot by (eapply off_range; left; exact I1). unfold d. destruct (var (img L)); reflexivity. }
  assert (Z2 : rg m1 (R 6) = dummy_ret).
  { rewrite (S _ _ I2), make_slot by (eapply off_range; left; exact I2). unfold d. destruct (var (img L)); reflexivity. }
  assert (Z3 : rg m1 SP = stk L n + ssz L n).
  { rewrite (S _ _ I3), make_slot by (eapply off_range; left; exact I3). unfold d. destruct (var (img L)); reflexivity. }
  assert (Z4 : rg m1 (R 11) = 0).
  { rewrite (S _ _ I4), make_slot by (eapply off_range; left; exact I4). unfold d. destruct (var (img L)); reflexivity. }
  assert (PE : pc m1 = a_entry (img L) + 4 * Z.of_nat 0).
  { rewrite P1, MM, make_slot by (apply (off_range _ SP); right; reflexivity). unfold pcoff. destruct (var (img L)); cbn; lia. }
  clear I0 I1 I2 I3 I4 S.
  assert (I : img_ok (img L)) by exact (lo_img L O).
  eexists. split.
  { rewrite msteps_add. unfold swlen. rewrite E1. rewrite msteps_S.
    rewrite (mstep_en (img L) m1 0 (IMov (R 0) (R 4)) _ I ltac:(lia) PE eq_refl).
    cbn [exec1]. rewrite msteps_S.
    erewrite (mstep_en (img L) _ 1 (IMov IP (R 5)) _ I); [|lia|cbn [pc]; lia|reflexivity].
    cbn [exec1 pc rg mem fpc]. rewrite msteps_S.
    erewrite (mstep_en (img L) _ 2 (IMov LR (R 6)) _ I); [|lia|cbn [pc]; lia|reflexivity].
    cbn [exec1 pc rg mem fpc]. rewrite msteps_S.
    erewrite (mstep_en (img L) _ 3 (IBx IP) _ I); [|lia|cbn [pc]; lia|reflexivity].
    cbn [exec1 msteps]. reflexivity. }
  cbn [pc rg mem fpc]. cbv [setr reg_eqb Z.eqb Pos.eqb].
  split; [exact Z1|]. split; [exact Z0|]. split; [exact Z3|]. split; [exact Z4|].
  split; [exact Z2|]. split; [exact F1|]. split; [|exact FP].
  split; [exact W1|]. split; [exact W2|]. intros a _ B. apply F1, B.
Qed.

Lemma sets_eq f k v : sets f k v k = v.
Proof. unfold sets. rewrite Nat.eqb_refl. reflexivity. Qed.
Lemma sets_ne f k v n : n <> k -> sets f k v n = f n.
Proof. intros N. unfold sets. destruct (Nat.eqb_spec n k); [contradiction|reflexivity]. Qed.

Lemma inv_after L s j m' (fin : bool) : layout_ok L -> inv L s -> j <> cur s ->
  (forall a, ~ block L (cx L (cur s)) a -> mem m' a = mem (mc s) a) ->
  saved L (mem m') (cur s) (mc s) ->
  inv L (mks m' j (sets (sets (stat s) (cur s)
     (if fin then Unused else Suspended (mc s))) j Running)).
Proof.
  intros O [R I] N F SC. split; cbn [stat cur mc].
  - apply sets_eq.
  - intros n m0 E. destruct (Nat.eq_dec n j) as [->|NJ].
    { rewrite sets_eq in E. discriminate E. }
    rewrite (sets_ne _ _ _ _ NJ) in E.
    destruct (Nat.eq_dec n (cur s)) as [->|NC].
    { rewrite sets_eq in E. destruct fin; [discriminate E|]. injection E as <-.
      exact SC. }
    rewrite (sets_ne _ _ _ _ NC) in E.
    apply (saved_eq L _ (mem (mc s))); [exact O| |apply I, E].
    intros a OA. apply F. intros B. apply NC.
    exact (lo_disj L O n (cur s) a OA (lo_block L O _ _ B)).
Qed.

Lemma sreach_inv L : layout_ok L -> forall s, sreach L s -> inv L s.
Proof.
  intros O s H. induction H as [m|s s' H [R I] ST].
  - split; cbn [stat cur mc]; [reflexivity|].
    intros n m0 E. destruct n; discriminate E.
  - destruct ST as [s m' C|s j m0 m' fin E N AS RUN
                   |s n tc f m' fin E N AS AT OT DJ MM RUN].
    + split; cbn [stat cur mc]; [exact R|].
      intros n m0 E. apply (saved_eq L _ (mem (mc s))); [exact O| |apply I, E].
      intros a OA. exact (C n m0 a E OA).
    + destruct (run_switch L (cur s) j (mc s) m0 O N AS (I j m0 E))
        as (m2 & E2 & _ & _ & F & SC & _).
      rewrite RUN in E2. injection E2 as <-.
      apply inv_after; try assumption. split; assumption.
    + destruct (run_start L (cur s) n tc f (mc s) O AS AT DJ MM)
        as (m2 & E2 & _ & _ & _ & _ & _ & F & SC & _).
      rewrite RUN in E2. injection E2 as <-.
      apply inv_after; try assumption. split; assumption.
Qed.
