(** C40: determinism of the pseudorandom generator. *)
From Coq Require Import ZArith List Bool Lia.
From Verif Require Import Runtime Rand.
Import ListNotations.
Local Open Scope Z_scope.

(** Specification: an infinite byte stream per seed. Advancing a seed twice
    gives the seed of the next four bytes. *)
Fixpoint advance (n : nat) (s : Z) : Z :=
  match n with O => s | S n => advance n (rincr (rincr s)) end.
Definition stream (s : Z) (k : nat) : Z := byte_of (rgen (advance (S (k / 4)) s)) (k mod 4).
Definition words (n : nat) : nat := ((n + 3) / 4)%nat.

Definition int64 (x : Z) : Prop := -9223372036854775808 <= x <= 9223372036854775807.

Lemma nat_ind4 : forall P : nat -> Prop, P O -> P 1%nat -> P 2%nat -> P 3%nat ->
  (forall n, P n -> P (S (S (S (S n))))) -> forall n, P n.
Proof.
  intros P P0 P1 P2 P3 PS n. assert (H : P n /\ P (S n) /\ P (S (S n)) /\ P (S (S (S n)))).
  { induction n as [|n (A & B & C & D)]; repeat split; auto. }
  apply H.
Qed.

Lemma advance_S : forall n s, advance (S n) s = advance n (rincr (rincr s)).
Proof. reflexivity. Qed.
Lemma advance_add : forall a b s, advance (a + b) s = advance b (advance a s).
Proof. induction a as [|a IH]; intros b s; [reflexivity | cbn [Nat.add]; rewrite !advance_S; apply IH]. Qed.

Lemma stream_shift : forall s k, stream s (4 + k) = stream (advance 1 s) k.
Proof.
  intros s k. unfold stream. replace ((4 + k) / 4)%nat with (S (k / 4)) by
    (replace (4 + k)%nat with (k + 1 * 4)%nat by lia; rewrite Nat.div_add by lia; lia).
  replace ((4 + k) mod 4)%nat with (k mod 4)%nat
    by (replace (4 + k)%nat with (k + 1 * 4)%nat by lia; rewrite Nat.mod_add by lia; reflexivity).
  reflexivity.
Qed.

Lemma map_seq_shift : forall (f : nat -> Z) n k, map f (seq k n) = map (fun i => f (k + i)%nat) (seq 0 n).
Proof.
  intros f n k. replace (seq k n) with (map (fun i => (k + i)%nat) (seq 0 n)); [rewrite map_map; reflexivity|].
  induction k as [|k IH]; [rewrite map_id; reflexivity|]. rewrite <- seq_shift, <- IH, map_map. reflexivity.
Qed.

Lemma buf_spec : forall n s, pcgrandom_buf n s = (map (stream s) (seq 0 n), advance (words n) s).
Proof.
  refine (nat_ind4 _ _ _ _ _ _); try (intros; reflexivity).
  intros n IH s. cbn [pcgrandom_buf]. unfold rnext. rewrite IH.
  f_equal.
  - change (seq 0 (S (S (S (S n))))) with ([0; 1; 2; 3]%nat ++ seq 4 n). rewrite map_app, (map_seq_shift (stream s) n 4).
    match goal with |- ?a :: ?b :: ?c :: ?d :: ?l = _ => change (a :: b :: c :: d :: l) with ([a; b; c; d] ++ l) end.
    apply f_equal2 with (f := @app Z); [reflexivity|]. apply map_ext. intros a. symmetry. apply (stream_shift s a).
  - unfold words. replace ((S (S (S (S n))) + 3) / 4)%nat with (S ((n + 3) / 4)); [reflexivity|].
    replace (S (S (S (S n))) + 3)%nat with (n + 3 + 1 * 4)%nat by lia. rewrite Nat.div_add by lia. lia.
Qed.

Lemma words_256 : forall n, words (256 + n) = (64 + words n)%nat.
Proof. intros n. unfold words. replace (256 + n + 3)%nat with (n + 3 + 64 * 4)%nat by lia. rewrite Nat.div_add by lia. lia. Qed.
Lemma stream_advance : forall j s k, stream (advance j s) k = stream s (4 * j + k).
Proof.
  induction j as [|j IH]; intros s k; [reflexivity|]. rewrite advance_S, IH.
  replace (4 * S j + k)%nat with (4 + (4 * j + k))%nat by lia. rewrite stream_shift. reflexivity.
Qed.

Lemma loop_spec : forall check others fuel i n s, (n < fuel)%nat ->
  (forall j, check j = 0) -> (forall j x, others j x = x) ->
  rand_loop check others fuel i n s = (0, map (stream s) (seq 0 n), advance (words n) s).
Proof.
  intros check others. induction fuel as [|fuel IH]; intros i n s F CK OT; [lia|].
  cbn [rand_loop]. rewrite CK. cbn [Z.eqb negb].
  destruct (Nat.eqb_spec n 0) as [->|NZ]; [reflexivity|].
  destruct (Nat.ltb_spec n 256).
  - rewrite buf_spec, Nat.sub_diag. reflexivity.
  - rewrite buf_spec. destruct (Nat.eqb_spec (n - 256) 0) as [E|E].
    + replace n with 256%nat by lia. reflexivity.
    + rewrite IH by (auto; lia). rewrite OT.
      assert (A : map (stream (advance (words 256) s)) (seq 0 (n - 256)) = map (stream s) (seq (0 + 256) (n - 256))).
      { rewrite (map_seq_shift (stream s) (n - 256) (0 + 256)). apply map_ext. intros a.
        rewrite stream_advance. f_equal. }
      assert (B : advance (words (n - 256)) (advance (words 256) s) = advance (words n) s).
      { rewrite <- advance_add. f_equal. rewrite <- (words_256 (n - 256)) || idtac.
        replace n with (256 + (n - 256))%nat at 2 by lia. rewrite words_256. reflexivity. }
      assert (C : map (stream s) (seq 0 n) = map (stream s) (seq 0 256) ++ map (stream s) (seq (0 + 256) (n - 256))).
      { rewrite <- map_app, <- seq_app. do 2 f_equal. lia. }
      rewrite A, B, C. reflexivity.
Qed.

(** C40: a request for n bytes that is not disturbed (not canceled or timed out,
    nobody else draws from the generator meanwhile) returns NECO_OK and the first
    n bytes of the stream of the current seed, and leaves the seed advanced by
    the number of words used: the bytes depend on the seed and n only. *)
Theorem C40_bytes : forall check others n s,
  (forall i, check i = 0) -> (forall i x, others i x = x) ->
  rand_prng check others n s = (0, map (stream s) (seq 0 n), advance (words n) s).
Proof. intros. apply loop_spec; auto. Qed.

(** C40: with disturbance (cancellation, deadline, other users of the generator)
    a call that returns NECO_OK still has written all its bytes, and a failed
    call reports the failing check after a whole number of 256-byte parts. *)
Theorem C40_any_turn : forall check others fuel i n s r l s', rand_loop check others fuel i n s = (r, l, s') ->
  (n < fuel)%nat ->
  (r = 0 /\ length l = n) \/ (r <> 0 /\ (exists j, r = check j /\ length l = (256 * (j - i))%nat /\ (i <= j)%nat)).
Proof.
  intros check others. induction fuel as [|fuel IH]; intros i n s r l s' E F; [lia|]. cbn [rand_loop] in E.
  destruct (Z.eqb_spec (check i) 0) as [C|C]; cbn [negb] in E.
  - destruct (Nat.eqb_spec n 0) as [->|NZ]; [inversion E; left; auto|].
    destruct (Nat.ltb_spec n 256).
    + rewrite buf_spec, Nat.sub_diag in E. cbn in E. inversion E; left. rewrite map_length, seq_length. auto.
    + rewrite buf_spec in E.
      assert (LL : length (map (stream s) (seq 0 256)) = 256%nat) by (rewrite map_length; apply seq_length).
      revert E LL. generalize (map (stream s) (seq 0 256)) as l0. generalize (advance (words 256) s) as s1. intros s1 l0 E LL.
      destruct (Nat.eqb_spec (n - 256) 0) as [Z0|Z0].
      * injection E as <- <- <-. left. split; [reflexivity|]. lia.
      * destruct (rand_loop _ _ _ _ _ _) as [[r2 l2] s2] eqn:R. injection E as <- <- <-. apply IH in R; [|lia].
        rewrite app_length, LL. destruct R as [[-> L]|[NR (j & -> & L & J)]].
        -- left. split; [reflexivity|lia].
        -- right. split; [exact NR|]. exists j. split; [reflexivity|]. split; lia.
  - inversion E; subst. right. split; [exact C|]. exists i. rewrite Nat.sub_diag. auto.
Qed.

(** C40: a longer request extends a shorter one. *)
Theorem C40_prefix : forall c1 o1 c2 o2 n m s,
  (forall i, c1 i = 0) -> (forall i x, o1 i x = x) -> (forall i, c2 i = 0) -> (forall i x, o2 i x = x) ->
  (n <= m)%nat ->
  exists more, snd (fst (rand_prng c2 o2 m s)) = snd (fst (rand_prng c1 o1 n s)) ++ more.
Proof.
  intros c1 o1 c2 o2 n m s A B C D L. rewrite !C40_bytes by assumption. cbn [fst snd].
  exists (map (stream s) (seq n (m - n))). rewrite <- map_app. f_equal.
  replace m with (n + (m - n))%nat at 1 by lia. rewrite seq_app. reflexivity.
Qed.

(** C40: splitting a request at a multiple of four bytes does not change the
    bytes (at other places the rest of a word is discarded: C40_split_case). *)
Theorem C40_split : forall c1 o1 c2 o2 c3 o3 n m s,
  (forall i, c1 i = 0) -> (forall i x, o1 i x = x) -> (forall i, c2 i = 0) -> (forall i x, o2 i x = x) ->
  (forall i, c3 i = 0) -> (forall i x, o3 i x = x) ->
  let '(_, l1, s1) := rand_prng c1 o1 (4 * n) s in
  let '(_, l2, s2) := rand_prng c2 o2 m s1 in
  rand_prng c3 o3 (4 * n + m) s = (0, l1 ++ l2, s2).
Proof.
  intros. rewrite C40_bytes by assumption. rewrite !C40_bytes by assumption.
  assert (W : words (4 * n) = n).
  { unfold words. replace (4 * n + 3)%nat with (3 + n * 4)%nat by lia. rewrite Nat.div_add by lia. reflexivity. }
  assert (W2 : words (4 * n + m) = (n + words m)%nat).
  { unfold words. replace (4 * n + m + 3)%nat with (m + 3 + n * 4)%nat by lia. rewrite Nat.div_add by lia. lia. }
  rewrite W, W2, seq_app, map_app, advance_add. f_equal. f_equal. f_equal.
  rewrite (map_seq_shift (stream s) m (0 + 4 * n)). apply map_ext. intros a. rewrite stream_advance. f_equal.
Qed.

Lemma u64_i64 : forall u, 0 <= u < P64 -> u64 (i64 u) = u.
Proof.
  intros u U. unfold u64, i64, P64 in *. destruct (Z.ltb_spec u 9223372036854775808).
  - apply Z.mod_small; lia.
  - replace (u - 18446744073709551616) with (u + (-1) * 18446744073709551616) by lia.
    rewrite Z.mod_add by lia. apply Z.mod_small; lia.
Qed.
Lemma i64_u64 : forall x, int64 x -> i64 (u64 x) = x.
Proof.
  intros x X. unfold int64 in X. unfold u64, i64, P64. destruct (Z_lt_ge_dec x 0).
  - replace (x mod 18446744073709551616) with (x + 18446744073709551616).
    + destruct (Z.ltb_spec (x + 18446744073709551616) 9223372036854775808); lia.
    + replace x with (x + 18446744073709551616 + (-1) * 18446744073709551616) at 2 by lia.
      rewrite Z.mod_add by lia. symmetry. apply Z.mod_small; lia.
  - rewrite Z.mod_small by lia. destruct (Z.ltb_spec x 9223372036854775808); lia.
Qed.
Lemma i64_range : forall u, 0 <= u < P64 -> int64 (i64 u).
Proof. intros u U. unfold int64, i64, P64 in *. destruct (Z.ltb_spec u 9223372036854775808); lia. Qed.

Lemma rincr_range : forall s, int64 (rincr s).
Proof. intros s. apply i64_range, Z.mod_pos_bound. reflexivity. Qed.
Lemma rincr_inj : forall a b, int64 a -> int64 b -> rincr a = rincr b -> a = b.
Proof.
  intros a b A B E. unfold rincr in E.
  apply (f_equal u64) in E. rewrite !u64_i64 in E by (apply Z.mod_pos_bound; reflexivity).
  rewrite <- (i64_u64 a A), <- (i64_u64 b B). f_equal.
  assert (R : forall x, 0 <= x < P64 ->
     (((x * 6364136223846793005 + 1) mod P64 - 1) * 13877824140714322085) mod P64 = x).
  { intros x X. rewrite <- Z.mul_mod_idemp_l by discriminate. rewrite Zminus_mod_idemp_l.
    rewrite Z.mul_mod_idemp_l by discriminate.
    replace ((x * 6364136223846793005 + 1 - 1) * 13877824140714322085)
      with (x + (x * 4787856489426250814) * P64) by (unfold P64; lia).
    rewrite Z.mod_add by discriminate. apply Z.mod_small, X. }
  rewrite <- (R (u64 a)), <- (R (u64 b)) by (apply Z.mod_pos_bound; reflexivity). rewrite E. reflexivity.
Qed.

(** C40: different seeds never merge: after any number of words the states
    still differ. *)
Theorem C40_seeds_never_merge : forall n a b, int64 a -> int64 b -> a <> b -> advance n a <> advance n b.
Proof.
  induction n as [|n IH]; intros a b A B N; [exact N|]. rewrite !advance_S.
  apply IH; try apply rincr_range. intros E. apply rincr_inj in E; try apply rincr_range.
  apply rincr_inj in E; auto.
Qed.

(** C40: neco_rand_setseed reports the previous seed and the next request starts
    from the new one. *)
Theorem C40_setseed : forall check others n old s, (forall i, check i = 0) -> (forall i x, others i x = x) ->
  let '(reported, cur) := rand_setseed s old in
  reported = old /\ snd (fst (rand_prng check others n cur)) = map (stream s) (seq 0 n).
Proof. intros. split; [reflexivity|]. rewrite C40_bytes by assumption. reflexivity. Qed.

(** C40: the output function is the PCG-XSH-RR permutation: the xor-shifted word
    rotated right by the top five bits of the state. *)
Theorem C40_output : forall s i, 0 <= i < 32 ->
  Z.testbit (rgen s) i =
  let x := Z.shiftr (Z.lxor (Z.shiftr (u64 s) 18) (u64 s)) 27 in
  Z.testbit x ((i + Z.shiftr (u64 s) 59) mod 32).
Proof.
  intros s i I. unfold rgen.
  set (y := Z.shiftr (Z.lxor (Z.shiftr (u64 s) 18) (u64 s)) 27).
  assert (U : 0 <= u64 s < P64) by (apply Z.mod_pos_bound; reflexivity).
  assert (R : 0 <= Z.shiftr (u64 s) 59 < 32).
  { rewrite Z.shiftr_div_pow2 by lia. split; [apply Z.div_pos; lia|]. apply Z.div_lt_upper_bound; [lia|]. unfold P64 in U. lia. }
  set (r := Z.shiftr (u64 s) 59) in *.
  rewrite (Z.mod_small r P32) by (unfold P32; lia).
  assert (L : Z.land (- r mod P32) 31 = (32 - r) mod 32).
  { change 31 with (Z.ones 5). rewrite Z.land_ones by lia. change (2 ^ 5) with 32.
    unfold P32. change 4294967296 with (32 * 134217728).
    rewrite <- Znumtheory.Zmod_div_mod; [| lia | lia | exists 134217728; lia].
    replace (32 - r) with (- r + 1 * 32) by lia. rewrite Z.mod_add by lia. reflexivity. }
  rewrite L. clear L. cbn zeta.
  assert (T : forall j, 0 <= j -> Z.testbit (y mod P32) j = (j <? 32) && Z.testbit y j).
  { intros j J. unfold P32. change 4294967296 with (2 ^ 32). destruct (Z.ltb_spec j 32).
    - rewrite Z.mod_pow2_bits_low by lia. reflexivity.
    - rewrite Z.mod_pow2_bits_high by lia. reflexivity. }
  rewrite Z.lor_spec, Z.shiftr_spec by lia.
  rewrite T by lia.
  unfold P32 at 2. change 4294967296 with (2 ^ 32). rewrite Z.mod_pow2_bits_low by lia.
  rewrite Z.shiftl_spec by lia.
  destruct (Z.eq_dec r 0) as [Z0|NZ].
  - rewrite Z0 in *. rewrite Z.add_0_r. change ((32 - 0) mod 32) with 0. rewrite Z.sub_0_r, T by lia.
    rewrite (Z.mod_small i 32) by lia. destruct (Z.ltb_spec i 32); [|lia]. cbn [andb]. apply orb_diag.
  - rewrite (Z.mod_small (32 - r) 32) by lia. destruct (Z.ltb_spec (i + r) 32).
    + rewrite (Z.mod_small (i + r) 32) by lia. rewrite (Z.testbit_neg_r _ (i - (32 - r))) by lia. cbn [andb]. apply orb_false_r.
    + cbn [andb orb]. rewrite T by lia. destruct (Z.ltb_spec (i - (32 - r)) 32); [|lia]. cbn [andb]. f_equal.
      replace (i + r) with (i - (32 - r) + 1 * 32) by lia. rewrite Z.mod_add by lia. symmetry. apply Z.mod_small. lia.
Qed.

(** Every byte is a byte. *)
Theorem C40_byte_range : forall s k, 0 <= stream s k < 256.
Proof. intros. apply Z.mod_pos_bound. reflexivity. Qed.

Definition quiet_check (_ : nat) := 0.
Definition quiet_others (_ : nat) (x : Z) := x.
Example C40_case : (* 300 bytes: two turns of the loop *)
  length (snd (fst (rand_prng quiet_check quiet_others 300 42))) = 300%nat /\
  firstn 6 (snd (fst (rand_prng quiet_check quiet_others 300 42))) = snd (fst (rand_prng quiet_check quiet_others 6 42)).
Proof. vm_compute. split; reflexivity. Qed.
Example C40_split_case : (* 2+2 bytes are not the same as 4 bytes *)
  let '(_, l1, s1) := rand_prng quiet_check quiet_others 2 7 in
  l1 ++ snd (fst (rand_prng quiet_check quiet_others 2 s1)) <> snd (fst (rand_prng quiet_check quiet_others 4 7)).
Proof. vm_compute. discriminate. Qed.

Print Assumptions C40_bytes.
Print Assumptions C40_any_turn.
Print Assumptions C40_prefix.
Print Assumptions C40_split.
Print Assumptions C40_seeds_never_merge.
Print Assumptions C40_setseed.
Print Assumptions C40_output.
Print Assumptions C40_byte_range.
