(** C34, C35, C36: buffered streams. *)
From Coq Require Import ZArith List Bool Lia.
From Verif Require Import Runtime Errors IoLoops Props_Io Stream.
Import ListNotations.
Local Open Scope Z_scope.

(** ** Invariants *)
Definition rbuf (s : stream) : list Z := match rd_data s with Some a => mem s a | None => [] end.
Record shape (s : stream) : Prop := {
  sh_cap : buffered s = true -> (0 < cap s)%nat;
  sh_mem : buffered s = true -> forall a, length (mem s a) = cap s;
  sh_rd : rd_data s = None -> rd_len s = 0%nat /\ rd_pos s = 0%nat;
  sh_wr : wr_data s = None -> wr_len s = 0%nat;
  sh_rda : forall a, rd_data s = Some a -> (rd_pos s + rd_len s <= cap s)%nat;
  sh_wra : forall a, wr_data s = Some a -> (wr_len s <= cap s)%nat;
  sh_alias : forall a b, rd_data s = Some a -> wr_data s = Some b -> area_eqb a b = false;
  sh_rdarea : rd_data s <> Some AWr;
  sh_wrarea : wr_data s <> Some ARd
}.
Definition rinv (s : stream) (g t : list Z) : Prop :=
  if buffered s then exists G, g = G ++ firstn (rd_pos s) (rbuf s) /\ t = G ++ firstn (rd_pos s + rd_len s) (rbuf s)
  else g = t.
Definition winv (s : stream) (p o : list Z) : Prop :=
  if buffered s then p = o ++ firstn (wr_len s) (wbuf s) else p = o.
(** the write side of a stream is untouched *)
Definition same_wr (s s' : stream) : Prop :=
  buffered s' = buffered s /\ cap s' = cap s /\ wr_data s' = wr_data s /\ wr_len s' = wr_len s /\ wbuf s' = wbuf s.
Definition same_rd (s s' : stream) : Prop :=
  buffered s' = buffered s /\ cap s' = cap s /\ rd_data s' = rd_data s /\ rd_len s' = rd_len s /\ rd_pos s' = rd_pos s /\ rbuf s' = rbuf s.

Lemma firstn_plus : forall A i j (l : list A), firstn (i + j) l = firstn i l ++ firstn j (skipn i l).
Proof. intros A i. induction i as [|i IH]; intros j l; [reflexivity|]. destruct l; [cbn; destruct j; reflexivity|]. cbn. rewrite IH. reflexivity. Qed.
Lemma blit_length : forall buf off l, (off + length l <= length buf)%nat -> length (blit buf off l) = length buf.
Proof. intros. unfold blit. rewrite !app_length, firstn_length, skipn_length. lia. Qed.
Lemma blit_firstn : forall buf off l, (off + length l <= length buf)%nat -> firstn (off + length l) (blit buf off l) = firstn off buf ++ l.
Proof.
  intros. unfold blit. rewrite app_assoc. rewrite firstn_app. replace (off + length l - length (firstn off buf ++ l))%nat with 0%nat by (rewrite app_length, firstn_length; lia).
  rewrite app_nil_r. apply firstn_all2. rewrite app_length, firstn_length. lia.
Qed.
Lemma area_eqb_eq : forall a b, area_eqb a b = true <-> a = b.
Proof. intros [] []; split; intros H; try reflexivity; discriminate. Qed.
Lemma area_eqb_refl : forall a, area_eqb a a = true. Proof. intros []; reflexivity. Qed.
Lemma area_eqb_sym : forall a b, area_eqb a b = area_eqb b a. Proof. intros [] []; reflexivity. Qed.

Lemma errconv_neg : forall e, errconv_from_sys e < 0.
Proof.
  intros e. unfold errconv_from_sys.
  repeat match goal with |- context [if e =? ?x then _ else _] => destruct (e =? x); [reflexivity|] end. reflexivity.
Qed.

(** read_loop: what comes back *)
Lemma read_loop_facts : forall n sc r e g t, read_loop n sc = (Ret r e, g, t) ->
  g = t /\ (length g <= n)%nat /\ ((0 <= r /\ r = Z.of_nat (length g)) \/ (r = -1 /\ g = [])).
Proof.
  intros n sc r e g t H. apply C33_read in H. destruct H as [H1 [(H2 & pre & l & post & _ & _ & H3 & H4)|[H2 H3]]].
  - split; [exact H1|]. split; [rewrite H3, firstn_length; lia | left; auto].
  - split; [exact H1|]. split; [rewrite H3; cbn; lia | right; auto].
Qed.

Lemma ensure_rd_ok : forall s ok s' a, shape s -> buffered s = true -> ensure_rd s ok = Some (s', a) ->
  shape s' /\ same_wr s s' /\ rd_data s' = Some a /\ rd_len s' = rd_len s /\ rd_pos s' = rd_pos s /\
  (forall g t, rinv s g t -> rinv s' g t).
Proof.
  intros s ok s' a SH B E. unfold ensure_rd in E. destruct (rd_data s) as [a0|] eqn:R.
  - injection E as <- <-. split; [exact SH|]. split; [unfold same_wr; auto 6|]. auto 6.
  - assert (E' : s' = mkst (buffered s) (cap s) (Some a) (rd_len s) (rd_pos s) (wr_data s) (wr_len s) (mem s) /\
               ((a = AInline /\ wr_data s = None) \/ (a = ARd /\ wr_data s <> None))).
    { destruct (wr_data s); [destruct ok; [|discriminate]|]; injection E as <- <-; split; auto. right. split; [reflexivity | discriminate]. }
    clear E. destruct E' as [-> A]. destruct SH as [H1 H2 H3 H4 H5 H6 H7 H8 H9]. destruct (H3 R) as [L P].
    split; [|split; [|split; [|split; [|split]]]]; try reflexivity.
    + constructor; cbn; auto; try discriminate.
      * intros a' E. specialize (H1 B). lia.
      * intros a' c E1 E2. injection E1 as <-. destruct A as [[-> A]|[-> A]]; [congruence|]. destruct c; try reflexivity. congruence.
      * destruct A as [[-> A]|[-> A]]; discriminate.
    + unfold same_wr, wbuf. cbn. auto.
    + intros g t X. unfold rinv, rbuf in *. cbn. rewrite B, R in *. destruct X as (G & X1 & X2). exists G. rewrite L, P in *. cbn in *. auto.
Qed.
Lemma ensure_wr_ok : forall s ok s' a, shape s -> buffered s = true -> ensure_wr s ok = Some (s', a) ->
  shape s' /\ same_rd s s' /\ wr_data s' = Some a /\ wr_len s' = wr_len s /\ (forall p o, winv s p o -> winv s' p o).
Proof.
  intros s ok s' a SH B E. unfold ensure_wr in E. destruct (wr_data s) as [a0|] eqn:R.
  - injection E as <- <-. split; [exact SH|]. split; [unfold same_rd; auto 7|]. auto 6.
  - assert (E' : s' = mkst (buffered s) (cap s) (rd_data s) (rd_len s) (rd_pos s) (Some a) (wr_len s) (mem s) /\
               ((a = AInline /\ rd_data s = None) \/ (a = AWr /\ rd_data s <> None))).
    { destruct (rd_data s); [destruct ok; [|discriminate]|]; injection E as <- <-; split; auto. right. split; [reflexivity | discriminate]. }
    clear E. destruct E' as [-> A]. destruct SH as [H1 H2 H3 H4 H5 H6 H7 H8 H9]. pose proof (H4 R) as L.
    split; [|split; [|split; [|split]]]; try reflexivity.
    + constructor; cbn; auto; try discriminate.
      * intros a' E. specialize (H1 B). lia.
      * intros a' c E1 E2. injection E2 as <-. destruct A as [[-> A]|[-> A]]; [congruence|]. destruct a'; try reflexivity. congruence.
      * destruct A as [[-> A]|[-> A]]; discriminate.
    + unfold same_rd, rbuf. cbn. auto 8.
    + intros p o X. unfold winv, wbuf in *. cbn. rewrite B, R in *. rewrite L in *. cbn in *. auto.
Qed.

(** A reading call: what it returns, and how it changes the invariants. *)
Definition read_good (s s' : stream) (r : Z) (g t : list Z) : Prop :=
  shape s' /\ same_wr s s' /\ (forall gl tl, rinv s gl tl -> rinv s' (gl ++ g) (tl ++ t)).

Lemma serve_ok : forall s a n t gl tl, shape s -> buffered s = true -> rd_data s = Some a -> rinv s gl (tl ++ t) ->
  let k := Nat.min (rd_len s) n in
  let s' := mkst (buffered s) (cap s) (rd_data s) (rd_len s - k) (rd_pos s + k) (wr_data s) (wr_len s) (mem s) in
  shape s' /\ same_wr s s' /\ length (firstn k (skipn (rd_pos s) (mem s a))) = k /\
  rinv s' (gl ++ firstn k (skipn (rd_pos s) (mem s a))) (tl ++ t).
Proof.
  intros s a n t gl tl SH B R X k s'. destruct SH as [H1 H2 H3 H4 H5 H6 H7 H8 H9]. pose proof (H5 a R) as LE.
  assert (K : (k <= rd_len s)%nat) by (unfold k; lia).
  split; [|split; [|split]].
  - unfold s'. constructor; cbn; auto; [rewrite R; discriminate|]. intros a' _. lia.
  - unfold same_wr, s', wbuf. cbn. auto.
  - rewrite firstn_length, skipn_length, (H2 B). lia.
  - unfold rinv, rbuf in *. unfold s'. cbn. rewrite B, R in *. destruct X as (G & X1 & X2). exists G. split.
    + rewrite X1, firstn_plus, app_assoc. reflexivity.
    + rewrite X2. f_equal. f_equal. lia.
Qed.

Lemma stream_read_ok : forall s n ok sc s' r g t, shape s -> stream_read s n ok sc = Some (s', r, g, t) ->
  read_good s s' r g t /\ (length g <= n)%nat /\
  ((0 < r /\ r = Z.of_nat (length g)) \/ (r = 0 /\ g = [] /\ n = 0%nat) \/ (r < 0 /\ g = [])).
Proof.
  intros s n ok sc s' r g t SH E. unfold stream_read in E. destruct (buffered s) eqn:B; cbn [negb] in E.
  - destruct (ensure_rd s ok) as [[s1 a]|] eqn:EN.
    2:{ injection E as <- <- <- <-. split; [split; [exact SH|split; [unfold same_wr; auto 6|]]|split; [cbn; lia | right; right; split; [reflexivity|reflexivity]]].
        intros gl tl X. rewrite !app_nil_r. exact X. }
    destruct (ensure_rd_ok s ok s1 a SH B EN) as (SH1 & SW1 & R1 & L1 & P1 & X1).
    assert (B1 : buffered s1 = true) by (destruct SW1 as [-> _]; exact B).
    assert (FIN : forall s2 t2, shape s2 -> buffered s2 = true -> rd_data s2 = Some a -> same_wr s s2 ->
      (forall gl tl, rinv s gl tl -> rinv s2 gl (tl ++ t2)) ->
      ((rd_len s2 = 0)%nat -> True) ->
      let k := Nat.min (rd_len s2) n in
      Some (mkst (buffered s2) (cap s2) (rd_data s2) (rd_len s2 - k) (rd_pos s2 + k) (wr_data s2) (wr_len s2) (mem s2),
            if (Z.of_nat k =? 0) && negb (n =? 0)%nat then EEOF else Z.of_nat k, firstn k (skipn (rd_pos s2) (mem s2 a)), t2) = Some (s', r, g, t) ->
      read_good s s' r g t /\ (length g <= n)%nat /\
      ((0 < r /\ r = Z.of_nat (length g)) \/ (r = 0 /\ g = [] /\ n = 0%nat) \/ (r < 0 /\ g = []))).
    { intros s2 t2 SH2 B2 R2 SW2 X2 _ k EQ. injection EQ as <- <- <- <-.
      pose proof (serve_ok s2 a n t2) as SV. 
      assert (LEN : length (firstn k (skipn (rd_pos s2) (mem s2 a))) = k).
      { rewrite firstn_length, skipn_length, (sh_mem _ SH2 B2). pose proof (sh_rda _ SH2 a R2). unfold k. lia. }
      split; [|split; [rewrite LEN; unfold k; lia|]].
      - split; [|split].
        + pose proof (sh_rda _ SH2 a R2). constructor; cbn; try apply SH2; [rewrite R2; discriminate | intros a' _; unfold k; lia].
        + unfold same_wr, wbuf in *. cbn. exact SW2.
        + intros gl tl X. apply (SV gl tl); auto.
      - rewrite LEN. destruct (Z.eqb_spec (Z.of_nat k) 0) as [K0|K0].
        + destruct (Nat.eqb_spec n 0) as [->|NN]; cbn [andb negb].
          * right. left. replace k with 0%nat by lia. auto.
          * right. right. replace k with 0%nat by lia. split; [reflexivity | reflexivity].
        + cbn [andb]. left. split; [lia | reflexivity]. }
    destruct (Nat.eqb_spec (rd_len s1) 0) as [Z0|NZ].
    + destruct (read_loop (cap s1) sc) as [[o g1] t1] eqn:RL. destruct o as [r1 e1|]; [|discriminate].
      destruct (read_loop_facts _ _ _ _ _ _ RL) as (F1 & F2 & F3). subst t1.
      destruct (Z.eqb_spec r1 (-1)) as [->|NR].
      * injection E as <- <- <- <-. destruct F3 as [[F3 _]|[_ ->]]; [lia|].
        split; [split; [exact SH1|split; [exact SW1|]]|split; [cbn; lia|right; right; split; [apply errconv_neg | reflexivity]]].
        intros gl tl X. rewrite !app_nil_r. apply X1, X.
      * destruct F3 as [[F3 F4]|[F3 _]]; [|congruence].
        set (s2 := mkst (buffered s1) (cap s1) (rd_data s1) (Z.to_nat r1) 0 (wr_data s1) (wr_len s1) (setmem (mem s1) a (blit (mem s1 a) 0 g1))) in *.
        pose proof (sh_mem _ SH1 B1) as ML.
        assert (BL : length (blit (mem s1 a) 0 g1) = cap s1) by (rewrite blit_length; rewrite ML; [reflexivity | lia]).
        assert (NAL : forall b, wr_data s1 = Some b -> area_eqb b a = false) by (intros b WB; rewrite area_eqb_sym; exact (sh_alias _ SH1 a b R1 WB)).
        eapply (FIN s2 g1); [| exact B1 | exact R1 | | | auto | exact E].
        -- destruct SH1 as [H1 H2 H3 H4 H5 H6 H7 H8 H9]. constructor; cbn; auto.
           ++ intros _ b. unfold setmem. destruct (area_eqb b a); [exact BL | apply ML].
           ++ rewrite R1. discriminate.
           ++ intros a' _. lia.
        -- unfold same_wr in *. cbn. destruct SW1 as (W1 & W2 & W3 & W4 & W5). repeat split; auto.
           rewrite <- W5. unfold wbuf. cbn. destruct (wr_data s1) as [b|] eqn:WB; [|reflexivity]. unfold setmem. rewrite (NAL b eq_refl). reflexivity.
        -- intros gl tl X. apply X1 in X. unfold rinv, rbuf in *. cbn. rewrite B1 in *. rewrite R1 in *. destruct X as (G & Y1 & Y2).
           exists gl. split; [rewrite app_nil_r; reflexivity|]. rewrite Y1, Y2. rewrite Z0, Nat.add_0_r.
           f_equal. unfold setmem. rewrite area_eqb_refl. rewrite F4, Nat2Z.id.
           symmetry. refine (blit_firstn (mem s1 a) 0 g1 _). rewrite ML. lia.
    + eapply (FIN s1 []); [exact SH1 | exact B1 | exact R1 | exact SW1 | | auto | exact E].
      intros gl tl X. rewrite app_nil_r. apply X1, X.
  - destruct (read_loop n sc) as [[o g1] t1] eqn:RL. destruct o as [r1 e1|]; [|discriminate]. injection E as <- <- <- <-.
    destruct (read_loop_facts _ _ _ _ _ _ RL) as (F1 & F2 & F3). subst t1.
    split; [split; [exact SH|split; [unfold same_wr; auto 6|]]|split; [exact F2|]].
    + intros gl tl X. unfold rinv in *. rewrite B in *. subst. reflexivity.
    + destruct F3 as [[F3 F4]|[-> ->]].
      * destruct (Z.eqb_spec r1 0) as [->|NR].
        -- assert (g1 = []) by (destruct g1; [reflexivity | cbn in F4; lia]). subst g1. destruct (Nat.eqb_spec n 0) as [->|NN]; cbn [andb negb]; [right; left; auto | right; right; split; reflexivity].
        -- cbn [andb]. left. split; [lia | exact F4].
      * cbn. right. right. split; [reflexivity | reflexivity].
Qed.

Lemma same_wr_trans : forall a b c, same_wr a b -> same_wr b c -> same_wr a c.
Proof. unfold same_wr. intros a b c (A1 & A2 & A3 & A4 & A5) (B1 & B2 & B3 & B4 & B5). repeat split; congruence. Qed.
Lemma read_good_trans : forall a b c r1 r2 g1 t1 g2 t2, read_good a b r1 g1 t1 -> read_good b c r2 g2 t2 -> read_good a c r2 (g1 ++ g2) (t1 ++ t2).
Proof.
  intros a b c r1 r2 g1 t1 g2 t2 (S1 & W1 & X1) (S2 & W2 & X2). split; [exact S2|]. split; [eapply same_wr_trans; eassumption|].
  intros gl tl X. rewrite !app_assoc. apply X2, X1, X.
Qed.
Lemma readfull_ok : forall scs s n nread ok s' r g t, shape s -> 0 <= nread -> stream_readfull s n nread ok scs = Some (s', r, g, t) ->
  read_good s s' r g t /\ (length g <= n)%nat /\
  ((0 < r /\ r = nread + Z.of_nat (length g)) \/ (r = 0 /\ nread = 0 /\ g = [] /\ n = 0%nat) \/ (r < 0 /\ nread = 0 /\ g = [])).
Proof.
  induction scs as [|sc scs IH]; intros s n nread ok s' r g t SH NN E; cbn [stream_readfull] in E; [discriminate|].
  destruct (stream_read s n ok sc) as [[[[s1 r1] g1] t1]|] eqn:R; [|discriminate].
  destruct (stream_read_ok _ _ _ _ _ _ _ _ SH R) as (G1 & L1 & C1).
  destruct (Z.leb_spec r1 0) as [LE|GT].
  - injection E as <- <- <- <-. split; [destruct G1 as (A & B & C); split; [exact A | split; assumption]|]. split; [exact L1|].
    destruct (Z.eqb_spec nread 0) as [->|NZ].
    + destruct C1 as [[C1 _]|[(-> & -> & ->)|[C1 ->]]]; [lia | right; left; auto | right; right; auto].
    + left. assert (g1 = []) by (destruct C1 as [[C1 _]|[(_ & C1 & _)|[_ C1]]]; [lia | exact C1 | exact C1]). subst. cbn. lia.
  - destruct C1 as [[_ C1]|[(C1 & _)|[C1 _]]]; [|lia|lia].
    destruct (Nat.eqb_spec (n - Z.to_nat r1) 0) as [Z0|NZ].
    + injection E as <- <- <- <-. split; [destruct G1 as (A & B & C); split; [exact A | split; assumption]|]. split; [exact L1|]. left. lia.
    + destruct (stream_readfull s1 (n - Z.to_nat r1) (nread + r1) ok scs) as [[[[s2 r2] g2] t2]|] eqn:R2; [|discriminate].
      injection E as <- <- <- <-. pose proof G1 as (SH1 & _). assert (NN2 : 0 <= nread + r1) by lia. destruct (IH _ _ _ _ _ _ _ _ SH1 NN2 R2) as (G2 & L2 & C2).
      split; [eapply read_good_trans; eassumption|]. rewrite app_length. split; [lia|].
      destruct C2 as [[C2 C3]|[(_ & C2 & _)|(_ & C2 & _)]]; [left; lia | lia | lia].
Qed.
Lemma read_byte_ok : forall s c ok sc s' r g t, shape s -> read_byte s c ok sc = Some (s', r, g, t) ->
  read_good s s' r g t /\ (g = [r] \/ (g = [] /\ r < 0)).
Proof.
  intros s c ok sc s' r g t SH E. 
  assert (SLOW : match stream_read s 1 ok sc with
           | Some (s, r, got, taken) => if r =? 1 then Some (s, nth 0 got 0, got, taken) else Some (s, r, got, taken)
           | None => None end = Some (s', r, g, t) -> read_good s s' r g t /\ (g = [r] \/ (g = [] /\ r < 0))).
  { clear E. intros E. destruct (stream_read s 1 ok sc) as [[[[s1 r1] g1] t1]|] eqn:R; [|discriminate].
    destruct (stream_read_ok _ _ _ _ _ _ _ _ SH R) as ((A & B & C) & L1 & C1).
    destruct (Z.eqb_spec r1 1) as [->|N]; injection E as <- <- <- <-.
    - split; [split; [exact A | split; assumption]|]. left. destruct C1 as [[_ C1]|[(C1 & _)|[C1 _]]]; [|lia|lia].
      destruct g1 as [|b [|]]; cbn in C1; try lia. reflexivity.
    - split; [split; [exact A | split; assumption]|]. right. destruct C1 as [[C0 C1]|[(_ & _ & C1)|[C1 C2]]]; [lia | lia | auto]. }
  unfold read_byte in E. destruct (rd_data s) as [a|] eqn:R; [|apply SLOW, E].
  destruct (buffered s && (0 <? rd_len s)%nat && (c =? OK)) eqn:F; [|apply SLOW, E].
  apply andb_prop in F. destruct F as [F _]. apply andb_prop in F. destruct F as [B F]. apply Nat.ltb_lt in F.
  injection E as <- <- <- <-. split; [|left; reflexivity].
  pose proof (sh_rda _ SH a R) as LE. pose proof (sh_mem _ SH B a) as ML.
  assert (ONE : firstn 1 (skipn (rd_pos s) (mem s a)) = [nth (rd_pos s) (mem s a) 0]).
  { assert (LT : (rd_pos s < length (mem s a))%nat) by lia. clear -LT. revert LT. generalize (rd_pos s) as i. induction (mem s a) as [|x l IH]; intros i LT; [cbn in LT; lia|].
    destruct i; [reflexivity|]. cbn. apply IH. cbn in LT. lia. }
  split; [|split].
  - constructor; cbn; try apply SH; [discriminate | intros a' _; lia | rewrite <- R; apply SH | rewrite <- R; apply SH].
  - unfold same_wr, wbuf. cbn. auto.
  - intros gl tl X. assert (X' : rinv s gl (tl ++ [])) by (rewrite app_nil_r; exact X).
    destruct (serve_ok s a 1 [] gl tl SH B R X') as (_ & _ & _ & Y). replace (Nat.min (rd_len s) 1) with 1%nat in Y by lia. rewrite ONE, R in Y. exact Y.
Qed.
Lemma unread_ok : forall s s' r, shape s -> unread_byte s = (s', r) ->
  shape s' /\ same_wr s s' /\ (r = OK \/ (r = EUNREADFAIL /\ s' = s)) /\
  (forall gl tl, rinv s gl tl -> rinv s' (if r =? OK then removelast gl else gl) tl).
Proof.
  intros s s' r SH E. unfold unread_byte in E. destruct (buffered s) eqn:B; cbn [negb orb] in E.
  - destruct (Nat.eqb_spec (rd_pos s) 0) as [Z0|NZ]; injection E as <- <-.
    + split; [exact SH|]. split; [unfold same_wr; auto 6|]. split; [right; auto|]. intros gl tl X. exact X.
    + destruct (rd_data s) as [a|] eqn:R; [|destruct (sh_rd _ SH R); lia]. pose proof (sh_rda _ SH a R) as LE.
      split; [|split; [|split; [left; reflexivity|]]].
      * constructor; cbn; try apply SH; [intros _; apply SH, B | intros _; apply SH, B | discriminate | intros a' _; lia | rewrite <- R; apply SH | rewrite <- R; apply SH].
      * unfold same_wr, wbuf. cbn. auto.
      * intros gl tl X. cbn. unfold rinv, rbuf in *. cbn. rewrite B, R in *. destruct X as (G & X1 & X2). exists G. split.
        -- rewrite X1. assert (LT : (rd_pos s <= length (mem s a))%nat) by (rewrite (sh_mem _ SH B); lia).
           destruct (rd_pos s) as [|p]; [lia|]. replace (S p - 1)%nat with p by lia.
           replace (S p) with (p + 1)%nat by lia. rewrite firstn_plus.
           assert (exists b, firstn 1 (skipn p (mem s a)) = [b]) as [b ->].
           { assert (LS : (1 <= length (skipn p (mem s a)))%nat) by (rewrite skipn_length; lia). destruct (skipn p (mem s a)) as [|b l]; [cbn in LS; lia | exists b; reflexivity]. }
           rewrite app_assoc. apply removelast_last.
        -- rewrite X2. f_equal. f_equal. lia.
  - injection E as <- <-. split; [exact SH|]. split; [unfold same_wr; auto 6|]. split; [right; auto|]. intros gl tl X. exact X.
Qed.

(** ** Writing *)
Lemma same_rd_refl : forall s, same_rd s s. Proof. unfold same_rd. auto 7. Qed.
Lemma same_rd_trans : forall a b c, same_rd a b -> same_rd b c -> same_rd a c.
Proof. unfold same_rd. intros a b c (A1 & A2 & A3 & A4 & A5 & A6) (B1 & B2 & B3 & B4 & B5 & B6). repeat split; congruence. Qed.
Lemma flush_ok : forall s c sc s' r out, shape s -> flush s c sc = Some (s', r, out) ->
  shape s' /\ same_rd s s' /\ wr_data s' = wr_data s /\ (wr_len s' <= wr_len s)%nat /\
  (buffered s = true -> r = OK -> wr_len s' = 0%nat) /\
  (undisturbed sc -> forall p o, winv s p o -> winv s' p (o ++ out)).
Proof.
  intros s c sc s' r out SH E. unfold flush in E. destruct (buffered s) eqn:B; cbn [negb] in E.
  2:{ injection E as <- <- <-. split; [exact SH|]. split; [apply same_rd_refl|]. split; [reflexivity|]. split; [lia|]. split; [discriminate|].
      intros _ p o X. rewrite app_nil_r. exact X. }
  destruct (write_dl (firstn (wr_len s) (wbuf s)) sc) as [o out1] eqn:W. destruct o as [n e|]; [|discriminate].
  pose proof (C32_prefix _ _ _ _ W) as [rest PF]. pose proof (C32_count _ _ _ _ _ W) as CT.
  assert (LW : length (firstn (wr_len s) (wbuf s)) = wr_len s).
  { rewrite firstn_length. unfold wbuf. destruct (wr_data s) as [a|] eqn:WD; [rewrite (sh_mem _ SH B); pose proof (sh_wra _ SH a WD); lia | rewrite (sh_wr _ SH WD); reflexivity]. }
  destruct (Z.leb_spec n 0) as [LE|GT].
  - destruct ((n =? 0) && (wr_len s =? 0)%nat) eqn:C; injection E as <- <- <-; (split; [exact SH|]; split; [apply same_rd_refl|]; split; [reflexivity|]; split; [lia|]; split).
    + intros _ _. apply andb_prop in C. destruct C as [_ C]. apply Nat.eqb_eq in C. exact C.
    + intros _ p o X. apply andb_prop in C. destruct C as [C1 C2]. apply Z.eqb_eq in C1. apply Nat.eqb_eq in C2.
      rewrite C2 in PF. cbn in PF. destruct out1; [|discriminate]. rewrite app_nil_r. exact X.
    + intros _ R. pose proof (errconv_neg e) as H. rewrite R in H. discriminate H.
    + intros U p o X. destruct (C32_caller_knows_partial _ _ _ _ _ U W) as [[H1 H2]|[H1 ->]]; [|rewrite app_nil_r; exact X].
      rewrite H2 in LE. destruct out1; [rewrite app_nil_r; exact X | cbn [length] in LE; lia].
  - assert (N : n = Z.of_nat (length out1)) by (apply CT; lia).
    assert (OUT : out1 = firstn (length out1) (firstn (wr_len s) (wbuf s))) by (rewrite PF, firstn_app, Nat.sub_diag, firstn_all; cbn; rewrite app_nil_r; reflexivity).
    assert (LO : (length out1 <= wr_len s)%nat) by (rewrite PF, app_length in LW; lia).
    destruct (Z.ltb_spec n (Z.of_nat (wr_len s))) as [LT|GE].
    + destruct (wr_data s) as [a|] eqn:WD; [|discriminate]. injection E as <- <- <-.
      assert (K : Z.to_nat n = length out1) by lia. rewrite K in *. set (k := length out1) in *.
      assert (WB : wbuf s = mem s a) by (unfold wbuf; rewrite WD; reflexivity). rewrite WB in *.
      pose proof (sh_mem _ SH B) as ML. pose proof (sh_wra _ SH a WD) as WL.
      set (nb := firstn (wr_len s - k) (skipn k (mem s a)) ++ skipn (wr_len s - k) (mem s a)) in *.
      assert (NL : length nb = cap s) by (unfold nb; rewrite app_length, firstn_length, !skipn_length, ML; lia).
      assert (NAL : forall b, rd_data s = Some b -> area_eqb b a = false) by (intros b RB; exact (sh_alias _ SH b a RB WD)).
      split; [|split; [|split; [|split; [|split]]]].
      * destruct SH as [H1 H2 H3 H4 H5 H6 H7 H8 H9]. constructor; cbn; auto.
        -- intros _ b. unfold setmem. destruct (area_eqb b a); [exact NL | apply ML].
        -- discriminate.
        -- intros a' _. lia.
        -- rewrite <- WD. exact H7.
        -- rewrite <- WD. exact H9.
      * unfold same_rd, rbuf. cbn. repeat (split; [first [reflexivity | congruence]|]). destruct (rd_data s) as [b|] eqn:RB; [|reflexivity]. unfold setmem. rewrite (NAL b eq_refl). reflexivity.
      * reflexivity.
      * cbn. lia.
      * discriminate.
      * intros U p o X. unfold winv, wbuf in *. cbn. rewrite B, WD in *. unfold setmem. rewrite area_eqb_refl. rewrite X, <- app_assoc. f_equal.
        unfold nb. rewrite firstn_app. replace (wr_len s - k - length (firstn (wr_len s - k) (skipn k (mem s a))))%nat with 0%nat by (rewrite firstn_length, skipn_length, ML; lia).
        cbn [firstn]. rewrite app_nil_r. rewrite firstn_firstn, Nat.min_id.
        rewrite OUT. fold k. rewrite firstn_firstn. replace (Nat.min k (wr_len s)) with k by lia.
        rewrite <- firstn_plus. f_equal. lia.
    + injection E as <- <- <-. assert (LEQ : length out1 = wr_len s) by lia.
      split; [|split; [|split; [|split; [|split]]]].
      * destruct SH as [H1 H2 H3 H4 H5 H6 H7 H8 H9]. constructor; cbn; auto. intros a' WA. specialize (H6 a' WA). lia.
      * unfold same_rd, rbuf. cbn. auto 7.
      * reflexivity.
      * cbn. lia.
      * intros _ _. reflexivity.
      * intros U p o X. unfold winv in *. cbn. rewrite B in *. rewrite X, app_nil_r. f_equal.
        rewrite OUT, LEQ. rewrite firstn_firstn, Nat.min_id. reflexivity.
Qed.

Lemma write_buf_ok : forall fuel s a data nw scs s' r out, shape s -> buffered s = true -> wr_data s = Some a -> 0 <= nw ->
  write_buf fuel s a data nw scs = Some (s', r, out) ->
  shape s' /\ same_rd s s' /\ wr_data s' = Some a /\
  (exists m, ((r = nw + Z.of_nat m) \/ (r < 0 /\ m = 0%nat /\ nw = 0)) /\ (m <= length data)%nat /\
   (Forall undisturbed scs -> forall p o, winv s p o -> winv s' (p ++ firstn m data) (o ++ out))).
Proof.
  induction fuel as [|fuel IH]; intros s a data nw scs s' r out SH B WD NN E.
  - destruct data as [|x data]; cbn in E; [|discriminate]. injection E as <- <- <-. split; [exact SH|]. split; [apply same_rd_refl|]. split; [exact WD|].
    exists 0%nat. split; [left; lia|]. split; [lia|]. intros _ p o X. rewrite !app_nil_r. exact X.
  - destruct data as [|x data]; [cbn in E; injection E as <- <- <-; split; [exact SH|]; split; [apply same_rd_refl|]; split; [exact WD|];
      exists 0%nat; split; [left; lia|]; split; [lia|]; intros _ p o X; rewrite !app_nil_r; exact X|].
    set (dat := x :: data) in *.
    (* the copy step *)
    assert (COPY : forall s1 scs1 out1, shape s1 -> buffered s1 = true -> wr_data s1 = Some a -> same_rd s s1 -> (wr_len s1 < cap s1)%nat ->
      (Forall undisturbed scs -> Forall undisturbed scs1 /\ forall p o, winv s p o -> winv s1 p (o ++ out1)) ->
      match write_buf fuel (mkst (buffered s1) (cap s1) (rd_data s1) (rd_len s1) (rd_pos s1) (wr_data s1) (wr_len s1 + Nat.min (cap s1 - wr_len s1) (length dat))
             (setmem (mem s1) a (blit (mem s1 a) (wr_len s1) (firstn (Nat.min (cap s1 - wr_len s1) (length dat)) dat)))) a
             (skipn (Nat.min (cap s1 - wr_len s1) (length dat)) dat) (nw + Z.of_nat (Nat.min (cap s1 - wr_len s1) (length dat))) scs1 with
      | Some (s, r, out2) => Some (s, r, out1 ++ out2) | None => None end = Some (s', r, out) ->
      shape s' /\ same_rd s s' /\ wr_data s' = Some a /\
      (exists m, ((r = nw + Z.of_nat m) \/ (r < 0 /\ m = 0%nat /\ nw = 0)) /\ (m <= length dat)%nat /\
       (Forall undisturbed scs -> forall p o, winv s p o -> winv s' (p ++ firstn m dat) (o ++ out)))).
    { intros s1 scs1 out1 SH1 B1 WD1 SR1 LT U1 EQ. set (n := Nat.min (cap s1 - wr_len s1) (length dat)) in *.
      set (s2 := mkst _ _ _ _ _ _ _ _) in EQ.
      assert (N1 : (0 < n)%nat) by (unfold n, dat; cbn [length]; lia). assert (N2 : (n <= length dat)%nat) by (unfold n; lia). assert (N3 : (wr_len s1 + n <= cap s1)%nat) by (unfold n; lia).
      assert (FL : length (firstn n dat) = n) by (rewrite firstn_length; lia).
      pose proof (sh_mem _ SH1 B1) as ML.
      assert (BL : length (blit (mem s1 a) (wr_len s1) (firstn n dat)) = cap s1) by (rewrite blit_length; rewrite ?FL, ML; [reflexivity | lia]).
      assert (NAL : forall b, rd_data s1 = Some b -> area_eqb b a = false) by (intros b RB; exact (sh_alias _ SH1 b a RB WD1)).
      assert (SH2 : shape s2).
      { destruct SH1 as [H1 H2 H3 H4 H5 H6 H7 H8 H9]. unfold s2. constructor; cbn; auto.
        - intros _ b. unfold setmem. destruct (area_eqb b a); [exact BL | apply ML].
        - rewrite WD1. discriminate. }
      assert (SR2 : same_rd s1 s2).
      { unfold same_rd, s2, rbuf. cbn. repeat split. destruct (rd_data s1) as [b|] eqn:RB; [|reflexivity]. unfold setmem. rewrite (NAL b eq_refl). reflexivity. }
      destruct (write_buf fuel s2 a (skipn n dat) (nw + Z.of_nat n) scs1) as [[[s3 r3] out3]|] eqn:R; [|discriminate]. injection EQ as <- <- <-.
      assert (NN2 : 0 <= nw + Z.of_nat n) by lia.
      destruct (IH s2 a (skipn n dat) _ scs1 s3 r3 out3 SH2 B1 WD1 NN2 R) as (S3 & SR3 & WD3 & m & M1 & M2 & M3).
      split; [exact S3|]. split; [eapply same_rd_trans; [exact SR1|]; eapply same_rd_trans; eassumption|]. split; [exact WD3|].
      exists (n + m)%nat. split; [left; destruct M1 as [M1|(_ & _ & M1)]; lia|]. split; [rewrite skipn_length in M2; lia|].
      intros U p o X. destruct (U1 U) as [U2 U3]. specialize (U3 p o X).
      rewrite firstn_plus, app_assoc, app_assoc. apply M3; [exact U2|].
      unfold winv, wbuf, s2 in *. cbn. rewrite B1, WD1 in *. rewrite U3. unfold setmem. rewrite area_eqb_refl.
      rewrite <- app_assoc. apply f_equal2 with (f := @app Z); [reflexivity|].
      pose proof (blit_firstn (mem s1 a) (wr_len s1) (firstn n dat)) as BF. rewrite FL, ML in BF. symmetry. apply BF. lia. }
    cbn [write_buf] in E. fold dat in E. destruct (Nat.eqb_spec (wr_len s) (cap s)) as [FULL|NF].
    + destruct scs as [|sc scs]; [discriminate|]. destruct (flush s OK sc) as [[[s1 r1] out1]|] eqn:F; [|discriminate].
      destruct (flush_ok _ _ _ _ _ _ SH F) as (SH1 & SR1 & WD1 & LE1 & Z1 & U1). rewrite WD in WD1.
      assert (B1 : buffered s1 = true) by (destruct SR1 as [-> _]; exact B).
      destruct (Z.eqb_spec r1 OK) as [->|NR]; cbn [negb] in E.
      * eapply COPY; [exact SH1 | exact B1 | exact WD1 | exact SR1 | | | exact E].
        -- rewrite (Z1 B eq_refl). apply SH1. exact B1.
        -- intros U. inversion U as [|? ? UA UB]; subst. split; [exact UB|]. intros p o X. apply U1; assumption.
      * injection E as <- <- <-. split; [exact SH1|]. split; [exact SR1|]. split; [exact WD1|].
        exists 0%nat. assert (RN : r1 < 0).
        { clear -F NR B. unfold flush in F. rewrite B in F. cbn [negb] in F. destruct (write_dl _ sc) as [[n e|] o]; [|discriminate].
          destruct (n <=? 0). { destruct ((n =? 0) && (wr_len s =? 0)%nat); injection F as _ <- _; [congruence | apply errconv_neg]. }
          destruct (n <? Z.of_nat (wr_len s)); [destruct (wr_data s); [|discriminate]; injection F as _ <- _; reflexivity | injection F as _ <- _; congruence]. }
        split; [destruct (Z.eqb_spec nw 0) as [->|]; [right; auto | left; lia]|]. split; [lia|].
        intros U p o X. inversion U as [|? ? UA UB]; subst. cbn [firstn]. rewrite app_nil_r. apply U1; assumption.
    + eapply COPY; [exact SH | exact B | exact WD | apply same_rd_refl | pose proof (sh_wra _ SH a WD); lia | | exact E].
      intros U. split; [exact U|]. intros p o X. rewrite app_nil_r. exact X.
Qed.
Lemma stream_write_ok : forall s data ok scs s' r out, shape s -> stream_write s data ok scs = Some (s', r, out) ->
  shape s' /\ same_rd s s' /\ (r <= Z.of_nat (length data)) /\
  (Forall undisturbed scs -> forall p o, winv s p o -> winv s' (p ++ firstn (Z.to_nat r) data) (o ++ out)).
Proof.
  intros s data ok scs s' r out SH E. unfold stream_write in E. destruct (buffered s) eqn:B; cbn [negb] in E.
  - destruct (ensure_wr s ok) as [[s1 a]|] eqn:EN.
    2:{ injection E as <- <- <-. split; [exact SH|]. split; [apply same_rd_refl|]. split; [unfold ENOMEM; lia|]. intros _ p o X. change (Z.to_nat ENOMEM) with 0%nat. cbn [firstn]. rewrite !app_nil_r. exact X. }
    destruct (ensure_wr_ok s ok s1 a SH B EN) as (SH1 & SR1 & WD1 & L1 & X1).
    assert (B1 : buffered s1 = true) by (destruct SR1 as [-> _]; exact B).
    destruct (write_buf_ok _ _ _ _ _ _ _ _ _ SH1 B1 WD1 (Z.le_refl 0) E) as (S2 & SR2 & _ & m & M1 & M2 & M3).
    split; [exact S2|]. split; [eapply same_rd_trans; eassumption|]. split; [destruct M1 as [M1|(M1 & _ & _)]; lia|].
    intros U p o X. assert (RM : Z.to_nat r = m) by (destruct M1 as [M1|(M1 & M1' & _)]; lia). rewrite RM. apply M3; [exact U | apply X1, X].
  - destruct scs as [|sc scs]; [discriminate|]. destruct (write_dl data sc) as [o out1] eqn:W. destruct o as [n e|]; [|discriminate]. injection E as <- <- <-.
    pose proof (C32_prefix _ _ _ _ W) as [rest PF]. split; [exact SH|]. split; [apply same_rd_refl|]. split.
    + destruct (Z.leb_spec 0 n) as [P|P]; [|lia]. rewrite (C32_count _ _ _ _ _ W P). rewrite PF, app_length. lia.
    + intros U p o X. inversion U as [|? ? UA UB]; subst. unfold winv in *. rewrite B in *. rewrite X. f_equal.
      destruct (C32_caller_knows_partial _ _ _ _ _ UA W) as [[H1 H2]|[-> ->]]; [|reflexivity].
      rewrite H2, Nat2Z.id. rewrite firstn_app, Nat.sub_diag, firstn_all. cbn. apply app_nil_r.
Qed.

(** ** Histories *)
Definition quiet (o : sop) : Prop :=
  match o with SWrite _ _ scs => Forall undisturbed scs | SFlush _ sc => undisturbed sc | _ => True end.
Lemma same_wr_winv : forall s s' p o, same_wr s s' -> winv s p o -> winv s' p o.
Proof. intros s s' p o (A1 & A2 & A3 & A4 & A5) X. unfold winv in *. rewrite A1, A4, A5. exact X. Qed.
Lemma same_rd_rinv : forall s s' p o, same_rd s s' -> rinv s p o -> rinv s' p o.
Proof. intros s s' p o (A1 & A2 & A3 & A4 & A5 & A6) X. unfold rinv in *. rewrite A1, A4, A5, A6. exact X. Qed.
Lemma sstep_ok : forall s l o s' l' r, shape s -> rinv s (got l) (taken l) -> sstep s l o = Some (s', l', r) ->
  shape s' /\ rinv s' (got l') (taken l') /\ buffered s' = buffered s /\ (quiet o -> winv s (put l) (sent l) -> winv s' (put l') (sent l')).
Proof.
  intros s l o s' l' r SH X E. destruct o as [n ok sc|n ok scs|c ok sc| |data ok scs|c sc]; cbn [sstep] in E.
  - destruct (stream_read s n ok sc) as [[[[s1 r1] g1] t1]|] eqn:R; [|discriminate]. injection E as <- <- <-.
    destruct (stream_read_ok _ _ _ _ _ _ _ _ SH R) as ((A & B & C) & _). split; [exact A|]. split; [apply C, X|]. split; [apply B|]. intros _ Y. eapply same_wr_winv; eassumption.
  - destruct (stream_readfull s n 0 ok scs) as [[[[s1 r1] g1] t1]|] eqn:R; [|discriminate]. injection E as <- <- <-.
    destruct (readfull_ok _ _ _ _ _ _ _ _ _ SH (Z.le_refl 0) R) as ((A & B & C) & _). split; [exact A|]. split; [apply C, X|]. split; [apply B|]. intros _ Y. eapply same_wr_winv; eassumption.
  - destruct (read_byte s c ok sc) as [[[[s1 r1] g1] t1]|] eqn:R; [|discriminate]. injection E as <- <- <-.
    destruct (read_byte_ok _ _ _ _ _ _ _ _ SH R) as ((A & B & C) & _). split; [exact A|]. split; [apply C, X|]. split; [apply B|]. intros _ Y. eapply same_wr_winv; eassumption.
  - destruct (unread_byte s) as [s1 r1] eqn:R. injection E as <- <- <-. destruct (unread_ok _ _ _ SH R) as (A & B & _ & C).
    split; [exact A|]. split; [apply C, X|]. split; [apply B|]. intros _ Y. eapply same_wr_winv; eassumption.
  - destruct (stream_write s data ok scs) as [[[s1 r1] out]|] eqn:R; [|discriminate]. injection E as <- <- <-.
    destruct (stream_write_ok _ _ _ _ _ _ _ SH R) as (A & B & _ & C). split; [exact A|]. split; [eapply same_rd_rinv; eassumption|]. split; [apply B|]. intros Q Y. apply C; assumption.
  - destruct (flush s c sc) as [[[s1 r1] out]|] eqn:R; [|discriminate]. injection E as <- <- <-.
    destruct (flush_ok _ _ _ _ _ _ SH R) as (A & B & _ & _ & _ & C). split; [exact A|]. split; [eapply same_rd_rinv; eassumption|]. split; [apply B|]. intros Q Y. apply C; assumption.
Qed.
Lemma srun_ok : forall os s l s' l' rs, shape s -> rinv s (got l) (taken l) -> srun s l os = Some (s', l', rs) ->
  shape s' /\ rinv s' (got l') (taken l') /\ buffered s' = buffered s /\ (Forall quiet os -> winv s (put l) (sent l) -> winv s' (put l') (sent l')).
Proof.
  induction os as [|o os IH]; intros s l s' l' rs SH X E; cbn [srun] in E; [injection E as <- <- <-; auto|].
  destruct (sstep s l o) as [[[s1 l1] r1]|] eqn:S1; [|discriminate]. destruct (srun s1 l1 os) as [[[s2 l2] rs2]|] eqn:S2; [|discriminate]. injection E as <- <- <-.
  destruct (sstep_ok _ _ _ _ _ _ SH X S1) as (A & B & C & D). destruct (IH _ _ _ _ _ A B S2) as (A2 & B2 & C2 & D2).
  split; [exact A2|]. split; [exact B2|]. split; [congruence|]. intros Q Y. inversion Q; subst. auto.
Qed.
Lemma make_ok : forall b size junk, shape (make b size junk) /\ rinv (make b size junk) [] [] /\ winv (make b size junk) [] [].
Proof.
  intros b size junk. unfold make. set (sz := if (size =? 0)%nat then DEFAULT_BUFFER_SIZE else size).
  assert (P : (0 < sz)%nat) by (unfold sz, DEFAULT_BUFFER_SIZE; destruct (Nat.eqb_spec size 0); lia).
  generalize dependent sz. intros sz P.
  split; [|split].
  - constructor; cbn; try discriminate; auto.
    + intros ->. exact P.
    + intros -> a. rewrite firstn_length, app_length, repeat_length. lia.
  - unfold rinv. cbn. destruct b; [exists []; auto | reflexivity].
  - unfold winv. cbn. destruct b; reflexivity.
Qed.

(** C34: after every history of calls on a stream, whatever the kernel did, the
    bytes the client has read are a prefix of the bytes delivered by the
    descriptor, in order, without gap or repetition; the rest is exactly what the
    stream reports as still buffered. *)
Theorem C34_stream_prefix : forall b size junk os s l rs, srun (make b size junk) log0 os = Some (s, l, rs) ->
  exists rest, taken l = got l ++ rest /\ length rest = if b then rd_len s else 0%nat.
Proof.
  intros b size junk os s l rs E. destruct (make_ok b size junk) as (A & B & _).
  destruct (srun_ok os _ log0 s l rs A B E) as (SH & R & BF & _). unfold rinv in R. rewrite BF in R. cbn in R. destruct b.
  - destruct R as (G & R1 & R2). exists (firstn (rd_len s) (skipn (rd_pos s) (rbuf s))). split.
    + rewrite R1, R2, firstn_plus, app_assoc. reflexivity.
    + rewrite firstn_length, skipn_length. unfold rbuf. cbn in BF. destruct (rd_data s) as [a|] eqn:RD.
      * rewrite (sh_mem _ SH BF). pose proof (sh_rda _ SH a RD). lia.
      * destruct (sh_rd _ SH RD) as [-> ->]. reflexivity.
  - exists []. rewrite R, app_nil_r. auto.
Qed.
(** C34: the value returned by a read is the number of bytes it delivered (at
    most the number asked for); on an error or end of file nothing is delivered. *)
Theorem C34_return_values : forall b size junk os s l rs, srun (make b size junk) log0 os = Some (s, l, rs) ->
  (forall n ok sc s' r g t, stream_read s n ok sc = Some (s', r, g, t) ->
     (length g <= n)%nat /\ ((0 <= r /\ r = Z.of_nat (length g)) \/ (r < 0 /\ g = []))) /\
  (forall n ok scs s' r g t, stream_readfull s n 0 ok scs = Some (s', r, g, t) ->
     (length g <= n)%nat /\ ((0 <= r /\ r = Z.of_nat (length g)) \/ (r < 0 /\ g = []))) /\
  (forall c ok sc s' r g t, read_byte s c ok sc = Some (s', r, g, t) -> g = [r] \/ (r < 0 /\ g = [])).
Proof.
  intros b size junk os s l rs E. destruct (make_ok b size junk) as (A & B & _).
  destruct (srun_ok os _ log0 s l rs A B E) as (SH & _). split; [|split].
  - intros n ok sc s' r g t R. destruct (stream_read_ok _ _ _ _ _ _ _ _ SH R) as (_ & L & C). split; [exact L|].
    destruct C as [[C D]|[(-> & -> & _)|C]]; [left; lia | left; cbn; lia | right; exact C].
  - intros n ok scs s' r g t R. destruct (readfull_ok _ _ _ _ _ _ _ _ _ SH (Z.le_refl 0) R) as (_ & L & C). split; [exact L|].
    destruct C as [[C D]|[(-> & _ & -> & _)|(C & _ & D)]]; [left; lia | left; cbn; lia | right; auto].
  - intros c ok sc s' r g t R. destruct (read_byte_ok _ _ _ _ _ _ _ _ SH R) as (_ & [C|[C D]]); auto.
Qed.
(** C34: a read reports end of file only if the descriptor delivered an empty
    read in this call. *)
Theorem C34_eof : forall b size junk os s l rs, srun (make b size junk) log0 os = Some (s, l, rs) ->
  forall n ok sc s' g t, stream_read s n ok sc = Some (s', EEOF, g, t) ->
  In (OK, RN []) sc \/ (exists e, In (OK, RErr e) sc /\ errconv_from_sys e = EEOF) \/ (exists c a, In (c, a) sc /\ c <> OK).
Proof.
  intros b0 size junk os s l rs H n ok sc s' g t E. destruct (make_ok b0 size junk) as (I1 & I2 & _).
  destruct (srun_ok os _ log0 s l rs I1 I2 H) as (SH & _). clear H I1 I2. unfold stream_read in E. destruct (buffered s) eqn:B; cbn [negb] in E.
  - destruct (ensure_rd s ok) as [[s1 a]|] eqn:EN; [|discriminate].
    destruct (ensure_rd_ok s ok s1 a SH B EN) as (SH1 & SW1 & R1 & L1 & P1 & X1).
    destruct (Nat.eqb_spec (rd_len s1) 0) as [Z0|NZ].
    + destruct (read_loop (cap s1) sc) as [[o g1] t1] eqn:RL. destruct o as [r1 e1|]; [|discriminate].
      destruct (Z.eqb_spec r1 (-1)) as [->|NR].
      * injection E as _ E2 _ _. apply C33_error in RL. destruct RL as [(c & x & I & N & _)|[I _]]; [right; right; exists c, x; auto | right; left; exists e1; auto].
      * destruct (read_loop_facts _ _ _ _ _ _ RL) as (_ & _ & [[F3 F4]|[F3 _]]); [|congruence]. cbn in E.
        destruct (Z.eqb_spec (Z.of_nat (Nat.min (Z.to_nat r1) n)) 0) as [K|K]; cbn [andb] in E.
        -- destruct (Nat.eqb_spec n 0) as [->|NN]; cbn [negb] in E; [injection E; unfold EEOF; lia|].
           assert (R0 : r1 = 0) by lia. rewrite R0 in RL. apply C33_zero_is_eof in RL. destruct RL as [RL|RL]; [|left; exact RL].
           assert (B1 : buffered s1 = true) by (destruct SW1 as [-> _]; exact B). pose proof (sh_cap _ SH1 B1). lia.
        -- injection E. unfold EEOF. lia.
    + destruct (Z.eqb_spec (Z.of_nat (Nat.min (rd_len s1) n)) 0) as [K|K]; cbn [andb] in E.
      * destruct (Nat.eqb_spec n 0) as [->|NN]; cbn [negb] in E; [injection E; unfold EEOF; lia | lia].
      * injection E. unfold EEOF. lia.
  - destruct (read_loop n sc) as [[o g1] t1] eqn:RL. destruct o as [r1 e1|]; [|discriminate]. injection E as _ E _ _.
    destruct (read_loop_facts _ _ _ _ _ _ RL) as (_ & _ & F). destruct (Z.eqb_spec r1 0) as [->|NR].
    + apply C33_zero_is_eof in RL. destruct RL as [->|RL]; [|left; exact RL]. cbn in E. discriminate.
    + cbn in E. unfold EEOF in E. lia.
Qed.
(** Capacity 4: a read smaller than the buffer, an unread, a full read over a
    refill with a retry, and end of file. *)
Example C34_case :
  srun (make true 4 (fun _ => [9; 9])) log0
    [SRead 2 true [(OK, RN [1; 2; 3; 4; 5])]; SUnread; SReadByte OK true []; SReadFull 3 true [[]; [(OK, RErr sysEAGAIN); (OK, RN [5; 6])]]; SRead 5 true []; SRead 1 true [(OK, RN [])]] =
  Some (mkst true 4 (Some AInline) 0 0 None 0 (setmem (setmem (setmem (mem (make true 4 (fun _ => [9; 9]))) AInline [1; 2; 3; 4]) AInline [5; 6; 3; 4]) AInline [5; 6; 3; 4]),
        mklog [1; 2; 3; 4; 5; 6] [1; 2; 3; 4; 5; 6] [] [], [2; OK; 2; 3; 1; EEOF]).
Proof. reflexivity. Qed.

(** C35: after a byte has been read, unreading it succeeds and the next byte read
    is the same byte again, leaving the stream as it was. *)
Theorem C35_unread : forall size junk os s l rs, srun (make true size junk) log0 os = Some (s, l, rs) ->
  forall c ok sc s1 b t, read_byte s c ok sc = Some (s1, b, [b], t) ->
  exists s2, unread_byte s1 = (s2, OK) /\ forall ok' sc', read_byte s2 OK ok' sc' = Some (s1, b, [b], []).
Proof.
  intros size junk os s l rs E c ok sc s1 b t R. destruct (make_ok true size junk) as (A & B & _).
  destruct (srun_ok os _ log0 s l rs A B E) as (SH & X & BF & _). cbn in BF.
  destruct (read_byte_ok _ _ _ _ _ _ _ _ SH R) as ((SH1 & SW & C) & _). specialize (C _ _ X).
  assert (B1 : buffered s1 = true) by (destruct SW as [-> _]; exact BF).
  (* the byte is the one before the read position *)
  assert (K : (1 <= rd_pos s1)%nat /\ nth (rd_pos s1 - 1) (rbuf s1) 0 = b).
  { clear C SW SH1 B1. unfold read_byte in R.
    assert (SLOW : match stream_read s 1 ok sc with
           | Some (s, r, got, taken) => if r =? 1 then Some (s, nth 0 got 0, got, taken) else Some (s, r, got, taken)
           | None => None end = Some (s1, b, [b], t) -> (1 <= rd_pos s1)%nat /\ nth (rd_pos s1 - 1) (rbuf s1) 0 = b).
    { clear R. intros R. destruct (stream_read s 1 ok sc) as [[[[s0 r0] g0] t0]|] eqn:SR; [|discriminate].
      assert (EQ : s0 = s1 /\ g0 = [b]) by (destruct (r0 =? 1); injection R; auto). destruct EQ as [-> ->]. clear R.
      unfold stream_read in SR. rewrite BF in SR. cbn [negb] in SR. destruct (ensure_rd s ok) as [[s3 a]|] eqn:EN; [|discriminate].
      destruct (ensure_rd_ok s ok s3 a SH BF EN) as (_ & _ & RD3 & _).
      assert (FIN : forall s2 : stream, rd_data s2 = Some a ->
        s1 = mkst (buffered s2) (cap s2) (rd_data s2) (rd_len s2 - Nat.min (rd_len s2) 1) (rd_pos s2 + Nat.min (rd_len s2) 1) (wr_data s2) (wr_len s2) (mem s2) ->
        [b] = firstn (Nat.min (rd_len s2) 1) (skipn (rd_pos s2) (mem s2 a)) -> (1 <= rd_pos s1)%nat /\ nth (rd_pos s1 - 1) (rbuf s1) 0 = b).
      { intros s2 RD2 -> H. assert (K1 : Nat.min (rd_len s2) 1 = 1%nat) by (destruct (rd_len s2); [discriminate | lia]). rewrite K1 in *.
        unfold rbuf. cbn. rewrite RD2. split; [lia|]. replace (rd_pos s2 + 1 - 1)%nat with (rd_pos s2) by lia.
        clear -H. revert H. generalize (rd_pos s2) as i. induction (mem s2 a) as [|x m IH]; intros i H; [destruct i; discriminate|].
        destruct i; [cbn in H |- *; congruence|]. cbn. apply IH. exact H. }
      destruct (rd_len s3 =? 0)%nat.
      - destruct (read_loop (cap s3) sc) as [[o g1] t1]. destruct o as [r1 e1|]; [|discriminate]. destruct (r1 =? -1); [discriminate|].
        eapply (FIN (mkst (buffered s3) (cap s3) (rd_data s3) (Z.to_nat r1) 0 (wr_data s3) (wr_len s3) (setmem (mem s3) a (blit (mem s3 a) 0 g1)))); [exact RD3| |]; injection SR; intros; subst; [reflexivity | symmetry; assumption].
      - eapply (FIN s3); [exact RD3| |]; injection SR; intros; subst; [reflexivity | symmetry; assumption]. }
    destruct (rd_data s) as [a|] eqn:RD; [|apply SLOW, R].
    destruct (buffered s && (0 <? rd_len s)%nat && (c =? OK)); [|apply SLOW, R].
    injection R as <- RB _. unfold rbuf. cbn. split; [lia|]. replace (rd_pos s + 1 - 1)%nat with (rd_pos s) by lia. exact RB. }
  destruct K as [K1 K2]. unfold unread_byte. rewrite B1. cbn [negb orb]. destruct (Nat.eqb_spec (rd_pos s1) 0) as [Z0|NZ]; [lia|].
  eexists. split; [reflexivity|]. intros ok' sc'. unfold read_byte. cbn. rewrite ?B1.
  destruct (rd_data s1) as [a|] eqn:RD; [|destruct (sh_rd _ SH1 RD); lia].
  replace (rd_len s1 + 1)%nat with (S (rd_len s1)) by lia. cbn. unfold rbuf in K2. rewrite RD in K2. rewrite K2.
  replace (rd_pos s1 - 1 + 1)%nat with (rd_pos s1) by lia. rewrite Nat.sub_0_r. rewrite <- RD at 1. rewrite <- B1 at 1.
  destruct s1; reflexivity.
Qed.

(** C36, partial (calls not hit by a cancel or deadline): the bytes handed to the
    kernel are the accepted bytes in order, each once; what has not been handed
    over yet is exactly what the stream reports as buffered. A failed flush
    changes nothing of this and can be retried. The full statement drops the
    hypothesis and is false, see below. *)
Theorem C36_in_order_partial : forall b size junk os s l rs, Forall quiet os -> srun (make b size junk) log0 os = Some (s, l, rs) ->
  exists rest, put l = sent l ++ rest /\ length rest = if b then wr_len s else 0%nat.
Proof.
  intros b size junk os s l rs Q E. destruct (make_ok b size junk) as (A & B & C).
  destruct (srun_ok os _ log0 s l rs A B E) as (SH & _ & BF & W). specialize (W Q C). unfold winv in W. rewrite BF in W. cbn in W, BF. destruct b.
  - exists (firstn (wr_len s) (wbuf s)). split; [exact W|]. rewrite firstn_length. unfold wbuf. destruct (wr_data s) as [a|] eqn:WD; [rewrite (sh_mem _ SH BF); pose proof (sh_wra _ SH a WD); lia | rewrite (sh_wr _ SH WD); reflexivity].
  - exists []. rewrite app_nil_r. auto.
Qed.
(** C36, partial: after a successful flush everything accepted has been handed over. *)
Theorem C36_flush_partial : forall b size junk os s l rs c sc s' l', Forall quiet (os ++ [SFlush c sc]) ->
  srun (make b size junk) log0 os = Some (s, l, rs) -> sstep s l (SFlush c sc) = Some (s', l', OK) -> put l' = sent l'.
Proof.
  intros b size junk os s l rs c sc s' l' Q E F. destruct (make_ok b size junk) as (A & B & C).
  apply Forall_app in Q. destruct Q as [Q1 Q2]. inversion Q2 as [|? ? Q3 _]; subst.
  destruct (srun_ok os _ log0 s l rs A B E) as (SH & R & BF & W). specialize (W Q1 C).
  destruct (sstep_ok _ _ _ _ _ _ SH R F) as (SH' & _ & BF' & W'). specialize (W' Q3 W). unfold winv in W'. rewrite BF', BF in W'. cbn in W'.
  destruct b; [|exact W'].
  cbn [sstep] in F. destruct (flush s c sc) as [[[s1 r1] out]|] eqn:FL; [|discriminate]. injection F as <- <- ->.
  destruct (flush_ok _ _ _ _ _ _ SH FL) as (_ & _ & _ & _ & Z & _). rewrite (Z BF eq_refl) in W'. cbn [firstn] in W'. rewrite app_nil_r in W'. exact W'.
Qed.
(** Without the hypothesis it fails: a flush that times out after a partial write
    keeps the bytes it has written, and the retry writes them again. *)
Theorem C36_retry_duplicates_refuted : exists os s l rs, srun (make true 8 (fun _ => [])) log0 os = Some (s, l, rs) /\
  put l = [1; 2; 3; 4; 5] /\ sent l = [1; 2; 3; 1; 2; 3; 4; 5] /\ rs = [5; ETIMEDOUT; OK].
Proof.
  exists [SWrite [1; 2; 3; 4; 5] true []; SFlush OK [(OK, WN 3); (ETIMEDOUT, WN 0)]; SFlush OK [(OK, WN 9)]].
  eexists. eexists. eexists. split; [reflexivity|]. repeat split.
Qed.
(** A stream used in both directions, with writes larger than the buffer and a
    flush that fails after a partial write and is retried. *)
Definition outcome_of (x : option (stream * slog * list Z)) : option (slog * list Z) := match x with Some (_, l, rs) => Some (l, rs) | None => None end.
Example C36_case : outcome_of (srun (make true 3 (fun _ => [])) log0
    [SRead 1 true [(OK, RN [7; 8])]; SWrite [1; 2; 3; 4; 5] true [[(OK, WN 1); (OK, WErr sysEAGAIN); (OK, WN 2)]];
     SFlush OK [(OK, WN 1); (OK, WErr 32)]; SRead 1 true []; SFlush OK [(OK, WN 5)]]) =
  Some (mklog [7; 8] [7; 8] [1; 2; 3; 4; 5] [1; 2; 3; 4; 5], [1; 5; EPARTIALWRITE; 1; OK]).
Proof. vm_compute. reflexivity. Qed.

(** A cancel that is pending when a buffered byte is read is consumed by the
    fast path's check and then ignored: the byte is returned. (Relevant to C17.) *)
Theorem C17_read_byte_swallows_cancel_refuted : exists s s', stream_read (make true 4 (fun _ => [])) 1 true [(OK, RN [1; 2])] = Some (s, 1, [1], [1; 2]) /\
  read_byte s ECANCELED true [] = Some (s', 2, [2], []).
Proof. eexists. eexists. split; reflexivity. Qed.

Print Assumptions C34_stream_prefix.
Print Assumptions C34_return_values.
Print Assumptions C34_eof.
Print Assumptions C35_unread.
Print Assumptions C36_in_order_partial.
Print Assumptions C36_flush_partial.
Print Assumptions C36_retry_duplicates_refuted.
Print Assumptions C17_read_byte_swallows_cancel_refuted.
