(** Symbolic execution of the Windows switch routine and the invariant of
    suspended contexts. *)
From Coq Require Import List ZArith Bool Lia FinFun.
From Verif Require Import AsmWin.
Import ListNotations.
Open Scope Z_scope.

Lemma setm_ne f a v x : x <> a -> setm f a v x = f x.
Proof. intros N. unfold setm. destruct (Z.eqb_spec x a); [contradiction|reflexivity]. Qed.
Lemma setm_eq f a v : setm f a v a = v.
Proof. unfold setm. rewrite Z.eqb_refl. reflexivity. Qed.
Lemma setr_ne f a v x : x <> a -> setr f a v x = f x.
Proof. apply setm_ne. Qed.
Lemma setr_eq f a v : setr f a v a = v.
Proof. apply setm_eq. Qed.

Lemma puts_out f l : forall M a, (forall o, In o (map fst l) -> a <> f + o) ->
  puts f l M a = M a.
Proof.
  induction l as [|[o v] l IH]; intros M a H; [reflexivity|].
  cbn [puts]. rewrite IH by (intros x X; apply H; right; exact X).
  apply setm_ne, H. left. reflexivity.
Qed.

Lemma puts_in f l : forall M o v, NoDup (map fst l) -> In (o, v) l ->
  puts f l M (f + o) = v.
Proof.
  induction l as [|[o' v'] l IH]; intros M o v D I; [destruct I|].
  cbn [map fst] in D. inversion D as [|x y ND D']. subst x y. cbn [puts].
  destruct I as [E|I]; [|apply IH; assumption].
  injection E as -> ->. rewrite puts_out; [apply setm_eq|].
  intros x X E. assert (x = o) by lia. subst x. contradiction.
Qed.

(** Straight-line code. *)
Definition decode_at (code : list Z) (o : Z) : option (instr * Z) :=
  if (0 <=? o) && (o <? Z.of_nat (length code)) then decode (skipn (Z.to_nat o) code)
  else None.

Lemma fetch_off code b o i n : decode_at code o = Some (i, n) ->
  fetch_in code b (b + o) = Some (i, b + (o + n)).
Proof.
  unfold decode_at, fetch_in. intros H.
  destruct (Z.leb_spec 0 o); [|discriminate H].
  destruct (Z.ltb_spec o (Z.of_nat (length code))); [|discriminate H].
  cbn [andb] in H.
  destruct (Z.leb_spec b (b + o)); [|lia].
  destruct (Z.ltb_spec (b + o) (b + Z.of_nat (length code))); [|lia].
  cbn [andb]. replace (b + o - b) with o by lia. rewrite H.
  f_equal. f_equal. lia.
Qed.

Lemma mstep_sw g m o i n : rip m = a_switch g + o ->
  decode_at switch_bytes o = Some (i, n) ->
  mstep g m = exec1 g i (a_switch g + (o + n)) m.
Proof.
  intros R D. unfold mstep, fetch. rewrite R, (fetch_off _ _ _ _ _ D). reflexivity.
Qed.

Definition img_ok (g : image) : Prop :=
  a_switch g + 336 <= a_entry g \/ a_entry g + 16 <= a_switch g.

Lemma mstep_en g m o i n : img_ok g -> rip m = a_entry g + o ->
  decode_at entry_bytes o = Some (i, n) ->
  mstep g m = exec1 g i (a_entry g + (o + n)) m.
Proof.
  intros G R D. unfold mstep, fetch. rewrite R.
  assert (B : 0 <= o < 16).
  { unfold decode_at in D. destruct (Z.leb_spec 0 o); [|discriminate D].
    destruct (Z.ltb_spec o (Z.of_nat (length entry_bytes))) as [X|X];
      [|discriminate D].
    change (Z.of_nat (length entry_bytes)) with 16 in X. lia. }
  assert (F : fetch_in switch_bytes (a_switch g) (a_entry g + o) = None).
  { unfold fetch_in. change (Z.of_nat (length switch_bytes)) with 336.
    destruct (Z.leb_spec (a_switch g) (a_entry g + o));
      destruct (Z.ltb_spec (a_entry g + o) (a_switch g + 336)); cbn [andb];
      try reflexivity. destruct G; lia. }
  rewrite F, (fetch_off _ _ _ _ _ D). reflexivity.
Qed.

Definition straight (i : instr) : bool :=
  match i with IJmpM _ | IJmpR _ | IRet => false | _ => true end.

Lemma straight_rip g i nx m m' : straight i = true ->
  exec1 g i nx m = Some m' -> rip m' = nx.
Proof.
  destruct i; cbn [straight exec1]; intros S E; try discriminate S;
    try (destruct (aligned _)); try (destruct (_ =? _)); try discriminate E;
    injection E as <-; reflexivity.
Qed.

Fixpoint dis (l : list (instr * Z)) (o : Z) : Prop :=
  match l with
  | [] => True
  | (i, n) :: r => decode_at switch_bytes o = Some (i, n) /\ straight i = true /\
                   dis r (o + n)
  end.
Fixpoint execl (g : image) (l : list (instr * Z)) (o : Z) (m : mach) : option mach :=
  match l with
  | [] => Some m
  | (i, n) :: r =>
      match exec1 g i (a_switch g + (o + n)) m with
      | Some m' => execl g r (o + n) m'
      | None => None
      end
  end.

Lemma msteps_S g n m :
  msteps g (S n) m = match mstep g m with Some m' => msteps g n m' | None => None end.
Proof. reflexivity. Qed.

Lemma msteps_add g : forall n k m,
  msteps g (n + k) m = match msteps g n m with Some m' => msteps g k m' | None => None end.
Proof.
  induction n as [|n IH]; intros k m; [reflexivity|].
  cbn [Nat.add]. rewrite !msteps_S. destruct (mstep g m); [apply IH|reflexivity].
Qed.

Lemma msteps_l g : forall l o m, rip m = a_switch g + o -> dis l o ->
  msteps g (length l) m = execl g l o m.
Proof.
  induction l as [|[i n] l IH]; intros o m R D; [reflexivity|].
  destruct D as (D & S & D'). cbn [length execl].
  rewrite msteps_S, (mstep_sw g m o i n R D).
  destruct (exec1 g i (a_switch g + (o + n)) m) as [m'|] eqn:E; [|reflexivity].
  apply IH; [|exact D']. exact (straight_rip _ _ _ _ _ S E).
Qed.

(** The routine in four parts: save the registers, save the words of the thread
    information block, set them from the other context, load its registers. *)
Definition code1 : list (instr * Z) :=
  [ (IStore 0 0 1, 3); (IStore 4 8 1, 4); (IStore 5 16 1, 4); (IStore 3 24 1, 4);
    (IStore 12 32 1, 4); (IStore 13 40 1, 4); (IStore 14 48 1, 4);
    (IStore 15 56 1, 4); (IStore 7 64 1, 4); (IStore 6 72 1, 4);
    (IStoreX 6 80 1, 4); (IStoreX 7 96 1, 4); (IStoreX 8 112 1, 5);
    (IStoreX 9 128 1, 8); (IStoreX 10 144 1, 8); (IStoreX 11 160 1, 8);
    (IStoreX 12 176 1, 8); (IStoreX 13 192 1, 8); (IStoreX 14 208 1, 8);
    (IStoreX 15 224 1, 8) ].
Definition code2 : list (instr * Z) :=
  [ (ILoad 32 10 0, 4); (IStore 0 240 1, 7); (ILoad 5240 10 0, 7);
    (IStore 0 248 1, 7); (ILoad 16 10 0, 4); (IStore 0 256 1, 7);
    (ILoad 8 10 0, 4); (IStore 0 264 1, 7) ].
Definition code3 : list (instr * Z) :=
  [ (ILoad 264 2 0, 7); (IStore 0 8 10, 4); (ILoad 256 2 0, 7);
    (IStore 0 16 10, 4); (ILoad 248 2 0, 7); (IStore 0 5240 10, 7);
    (ILoad 240 2 0, 7); (IStore 0 32 10, 4) ].
Definition code4 : list (instr * Z) :=
  [ (ILoadX 224 2 15, 8); (ILoadX 208 2 14, 8); (ILoadX 192 2 13, 8);
    (ILoadX 176 2 12, 8); (ILoadX 160 2 11, 8); (ILoadX 144 2 10, 8);
    (ILoadX 128 2 9, 8); (ILoadX 112 2 8, 5); (ILoadX 96 2 7, 4);
    (ILoadX 80 2 6, 4); (ILoad 72 2 6, 4); (ILoad 64 2 7, 4); (ILoad 56 2 15, 4);
    (ILoad 48 2 14, 4); (ILoad 40 2 13, 4); (ILoad 32 2 12, 4); (ILoad 24 2 3, 4);
    (ILoad 16 2 5, 4); (ILoad 8 2 4, 4) ].

Lemma dis1 : dis code1 7.
Proof. cbn [dis code1]. repeat split; vm_compute; reflexivity. Qed.
Lemma dis2 : dis code2 124.
Proof. cbn [dis code2]. repeat split; vm_compute; reflexivity. Qed.
Lemma dis3 : dis code3 171.
Proof. cbn [dis code3]. repeat split; vm_compute; reflexivity. Qed.
Lemma dis4 : dis code4 218.
Proof. cbn [dis code4]. repeat split; vm_compute; reflexivity. Qed.

Lemma al_add a k : a mod 8 = 0 -> k mod 8 = 0 -> aligned (a + k) = true.
Proof.
  intros A K. unfold aligned. rewrite Z.add_mod by lia. rewrite A, K. reflexivity.
Qed.

(** The words 1 to 29 of a context block hold these registers, the words 30 to 33
    these words of the thread information block. *)
Definition rsave : list Z :=
  [4; 5; 3; 12; 13; 14; 15; 7; 6;
   28; 29; 30; 31; 32; 33; 34; 35; 36; 37; 38; 39; 40; 41; 42; 43; 44; 45; 46; 47].
Definition tsave : list Z := [32; 5240; 16; 8].

Definition st1 (R : Z -> Z) : list (Z * Z) :=
  [(0, R 0); (8, R 4); (16, R 5); (24, R 3); (32, R 12); (40, R 13); (48, R 14);
   (56, R 15); (64, R 7); (72, R 6); (80, R 28); (88, R 29); (96, R 30); (104, R 31);
   (112, R 32); (120, R 33); (128, R 34); (136, R 35); (144, R 36); (152, R 37);
   (160, R 38); (168, R 39); (176, R 40); (184, R 41); (192, R 42); (200, R 43);
   (208, R 44); (216, R 45); (224, R 46); (232, R 47)].

Ltac alg := match goal with
  | |- context [aligned (?a + ?k)] =>
      rewrite (al_add a k) by (first [assumption | reflexivity])
  end.
Ltac srs := repeat (first [rewrite setr_eq | rewrite setr_ne by discriminate]).

Lemma run1 g R M fp pc : R 1 mod 8 = 0 ->
  execl g code1 7 (mkm pc R M fp) =
  Some (mkm (a_switch g + 115) R (puts (R 1) (st1 R) M) fp).
Proof.
  intros A. unfold code1. cbn [execl].
  do 20 (cbn [exec1 rip rg mem fpc]; alg). reflexivity.
Qed.

Lemma run2 g R M fp pc : R 1 mod 8 = 0 -> R 10 mod 8 = 0 ->
  let M1 := setm M (R 1 + 240) (M (R 10 + 32)) in
  let M2 := setm M1 (R 1 + 248) (M1 (R 10 + 5240)) in
  let M3 := setm M2 (R 1 + 256) (M2 (R 10 + 16)) in
  let M4 := setm M3 (R 1 + 264) (M3 (R 10 + 8)) in
  exists R', execl g code2 124 (mkm pc R M fp) =
  Some (mkm (a_switch g + 171) R' M4 fp) /\ forall r, r <> 0 -> R' r = R r.
Proof.
  intros A B M1 M2 M3 M4. unfold code2. cbn [execl].
  do 8 (cbn [exec1 rip rg mem fpc]; srs; alg).
  eexists. split; [reflexivity|]. intros r N. rewrite !setr_ne by exact N. reflexivity.
Qed.

Lemma run3 g R M fp pc : R 2 mod 8 = 0 -> R 10 mod 8 = 0 ->
  let M1 := setm M (R 10 + 8) (M (R 2 + 264)) in
  let M2 := setm M1 (R 10 + 16) (M1 (R 2 + 256)) in
  let M3 := setm M2 (R 10 + 5240) (M2 (R 2 + 248)) in
  let M4 := setm M3 (R 10 + 32) (M3 (R 2 + 240)) in
  exists R', execl g code3 171 (mkm pc R M fp) =
  Some (mkm (a_switch g + 218) R' M4 fp) /\ forall r, r <> 0 -> R' r = R r.
Proof.
  intros A B M1 M2 M3 M4. unfold code3. cbn [execl].
  do 8 (cbn [exec1 rip rg mem fpc]; srs; alg).
  eexists. split; [reflexivity|]. intros r N. rewrite !setr_ne by exact N. reflexivity.
Qed.

Lemma run4 g R M fp pc : R 2 mod 8 = 0 ->
  exists R', execl g code4 218 (mkm pc R M fp) =
  Some (mkm (a_switch g + 323) R' M fp) /\
  map R' rsave = map (fun i => M (R 2 + 8 * Z.of_nat i)) (seq 1 29) /\
  R' 2 = R 2.
Proof.
  intros A. unfold code4. cbn [execl].
  do 19 (cbn [exec1 rip rg mem fpc]; unfold xlo, xhi; srs; alg).
  eexists. split; [reflexivity|]. split; reflexivity.
Qed.

Definition words (M : Z -> Z) (f : Z) : list Z :=
  map (fun i => M (f + 8 * Z.of_nat i)) (seq 0 34).

Lemma block_off f o : In o (map (fun i => 8 * Z.of_nat i) (seq 0 34)) -> block f (f + o).
Proof.
  rewrite in_map_iff. intros (i & <- & I). apply in_seq in I.
  exists (Z.of_nat i). split; lia.
Qed.

Lemma tebw_off g o : In o tebo -> tebw g (a_teb g + o).
Proof. intros I. exists o. split; [exact I|reflexivity]. Qed.

(** The first two parts together: what is in memory then. *)
Lemma saved_words f b R M :
  (forall o, In o tebo -> ~ block f (b + o)) ->
  let M0 := puts f (st1 R) M in
  let M1 := setm M0 (f + 240) (M0 (b + 32)) in
  let M2 := setm M1 (f + 248) (M1 (b + 5240)) in
  let M3 := setm M2 (f + 256) (M2 (b + 16)) in
  let M4 := setm M3 (f + 264) (M3 (b + 8)) in
  (forall a, ~ block f a -> M4 a = M a) /\
  words M4 f = R 0 :: map R rsave ++ map (fun o => M (b + o)) tsave.
Proof.
  intros DB M0 M1 M2 M3 M4.
  assert (N : forall a k, ~ block f a ->
    In k (map (fun i => 8 * Z.of_nat i) (seq 0 34)) -> a <> f + k).
  { intros a k H I ->. apply H, block_off, I. }
  assert (F0 : forall a, ~ block f a -> M0 a = M a).
  { intros a H. apply puts_out. intros o O. apply N; [exact H|].
    revert O. unfold st1. cbn -[Z.eqb]. tauto. }
  assert (F1 : forall a, ~ block f a -> M1 a = M a).
  { intros a H. unfold M1. rewrite setm_ne; [apply F0, H|].
    apply N; [exact H|]. cbn. tauto. }
  assert (F2 : forall a, ~ block f a -> M2 a = M a).
  { intros a H. unfold M2. rewrite setm_ne; [apply F1, H|].
    apply N; [exact H|]. cbn. tauto. }
  assert (F3 : forall a, ~ block f a -> M3 a = M a).
  { intros a H. unfold M3. rewrite setm_ne; [apply F2, H|].
    apply N; [exact H|]. cbn. tauto. }
  assert (F4 : forall a, ~ block f a -> M4 a = M a).
  { intros a H. unfold M4. rewrite setm_ne; [apply F3, H|].
    apply N; [exact H|]. cbn. tauto. }
  split; [exact F4|].
  assert (E : M4 = puts f (st1 R ++ [(240, M (b + 32)); (248, M (b + 5240));
                                     (256, M (b + 16)); (264, M (b + 8))]) M).
  { rewrite <- (F0 (b + 32)) by (apply DB; cbn; tauto).
    rewrite <- (F1 (b + 5240)) by (apply DB; cbn; tauto).
    rewrite <- (F2 (b + 16)) by (apply DB; cbn; tauto).
    rewrite <- (F3 (b + 8)) by (apply DB; cbn; tauto).
    reflexivity. }
  rewrite E. set (l := st1 R ++ _).
  assert (ND : NoDup (map fst l)).
  { change (map fst l) with (map (fun i => 8 * Z.of_nat i) (seq 0 34)).
    apply Injective_map_NoDup; [intros x y H; lia|apply seq_NoDup]. }
  assert (W : words (puts f l M) f = map snd l).
  { clear - ND. unfold words.
    transitivity (map (fun p => puts f l M (f + fst p)) l).
    - rewrite <- (map_map fst (fun o => puts f l M (f + o))).
      change (map fst l) with (map (fun i => 8 * Z.of_nat i) (seq 0 34)).
      rewrite map_map. reflexivity.
    - apply map_ext_in. intros [o v] I. cbn [fst snd]. apply puts_in; assumption. }
  rewrite W. reflexivity.
Qed.

(** The third part: the words of the thread information block. *)
Lemma teb_words t b M :
  (forall a o, In o tebo -> block t a -> a <> b + o) ->
  let M1 := setm M (b + 8) (M (t + 264)) in
  let M2 := setm M1 (b + 16) (M1 (t + 256)) in
  let M3 := setm M2 (b + 5240) (M2 (t + 248)) in
  let M4 := setm M3 (b + 32) (M3 (t + 240)) in
  (forall a, (forall o, In o tebo -> a <> b + o) -> M4 a = M a) /\
  map (fun o => M4 (b + o)) tsave = map (fun k => M (t + k)) [240; 248; 256; 264].
Proof.
  intros DT M1 M2 M3 M4.
  assert (F1 : forall a, (forall o, In o tebo -> a <> b + o) -> M1 a = M a).
  { intros a H. unfold M1. apply setm_ne, H. cbn. tauto. }
  assert (F2 : forall a, (forall o, In o tebo -> a <> b + o) -> M2 a = M a).
  { intros a H. unfold M2. rewrite setm_ne; [apply F1, H|]. apply H. cbn. tauto. }
  assert (F3 : forall a, (forall o, In o tebo -> a <> b + o) -> M3 a = M a).
  { intros a H. unfold M3. rewrite setm_ne; [apply F2, H|]. apply H. cbn. tauto. }
  assert (F4 : forall a, (forall o, In o tebo -> a <> b + o) -> M4 a = M a).
  { intros a H. unfold M4. rewrite setm_ne; [apply F3, H|]. apply H. cbn. tauto. }
  split; [exact F4|].
  assert (B : forall k, In k (map (fun i => 8 * Z.of_nat i) (seq 0 34)) ->
    forall o, In o tebo -> t + k <> b + o).
  { intros k I o O. apply (DT _ o O), block_off, I. }
  assert (E : M4 = puts b [(8, M (t + 264)); (16, M (t + 256)); (5240, M (t + 248));
                           (32, M (t + 240))] M).
  { rewrite <- (F1 (t + 256)) by (apply B; cbn; tauto).
    rewrite <- (F2 (t + 248)) by (apply B; cbn; tauto).
    rewrite <- (F3 (t + 240)) by (apply B; cbn; tauto).
    reflexivity. }
  rewrite E. unfold tsave. cbn [map].
  assert (ND : NoDup [8; 16; 5240; 32]).
  { repeat constructor; cbn; lia. }
  f_equal; [apply puts_in; [exact ND|cbn; tauto]|].
  f_equal; [apply puts_in; [exact ND|cbn; tauto]|].
  f_equal; [apply puts_in; [exact ND|cbn; tauto]|].
  f_equal. apply puts_in; [exact ND|cbn; tauto].
Qed.
