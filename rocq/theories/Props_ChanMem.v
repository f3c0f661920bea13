(** C07: channel reference counts; and the channel's ring buffer is a FIFO queue. *)
From Coq Require Import List ZArith Bool Lia Arith.
From Verif Require Import ChanMem.
Import ListNotations.
Local Open Scope Z_scope.

(** * Specification
    The references a client holds on the channel at address [a], after a history of
    events (oldest first): one when it is made, one more per retain, one less per
    release. *)
Definition bal1 (a : addr) (n : Z) (e : cev) : Z :=
  match e with
  | EvMake b => if Nat.eqb b a then 1 else n
  | EvRetain b => if Nat.eqb b a then n + 1 else n
  | EvRelease b _ => if Nat.eqb b a then n - 1 else n
  | _ => n
  end.
Definition balance (a : addr) (h : list cev) : Z := fold_left (bal1 a) h 0.
(** The client retains and releases only channels it holds a reference to, sizes are
    not negative, and it never holds more than 2^31 references to one channel. *)
Definition allowed (h : list cev) (o : cop) : Prop :=
  match o with
  | CMake d c _ _ => 0 <= d /\ 0 <= c
  | CRetain a => 0 < balance a h <= INTMAX
  | CRelease a _ => 0 < balance a h
  end.
Inductive chist : cmem -> list cev -> Prop :=
| ch_init : chist cinit []
| ch_step s h o s' e : chist s h -> allowed h o -> cstep s o = Some (s', e) -> chist s' (h ++ [e]).

(** * Invariant *)
Record cok (s : cmem) (h : list cev) : Prop := {
  co_live : forall a, match cells s a with
     | Live rc sz => 0 <= rc /\ balance a h = rc + 1 /\ 0 <= sz
     | Pooled => balance a h = 0 /\ In a (pool s)
     | Unalloc => balance a h = 0 end;
  co_pool : forall a, In a (pool s) -> cells s a = Pooled;
  co_nd : NoDup (pool s);
  co_cap : pool_len s <= poolcap s /\ poolcap s <= 256 /\ (poolcap s = 0 \/ poolcap s = 16 \/ poolcap s = 32 \/ poolcap s = 64 \/ poolcap s = 128 \/ poolcap s = 256) }.

Lemma balance_snoc : forall a h e, balance a (h ++ [e]) = bal1 a (balance a h) e.
Proof. intros. unfold balance. rewrite fold_left_app. reflexivity. Qed.

Lemma cok_set : forall s h a x e, cok s h -> (forall b, b <> a -> bal1 b (balance b h) e = balance b h) ->
  ~ In a (pool s) ->
  match x with Live rc sz => 0 <= rc /\ bal1 a (balance a h) e = rc + 1 /\ 0 <= sz | Pooled => False | Unalloc => bal1 a (balance a h) e = 0 end ->
  cok (setc a x s) (h ++ [e]).
Proof.
  intros s h a x e [L P N C] OT NP HX. split; cbn; auto.
  - intros b. rewrite balance_snoc. destruct (Nat.eqb_spec b a) as [->|NE].
    + destruct x; auto. contradiction.
    + rewrite OT by exact NE. apply L.
  - intros b J. destruct (Nat.eqb_spec b a) as [->|NE]; [contradiction | apply P, J].
Qed.
Lemma cok_same : forall s h e, cok s h -> (forall b, bal1 b (balance b h) e = balance b h) -> cok s (h ++ [e]).
Proof. intros s h e [L P N C] OT. split; auto. intros b. rewrite balance_snoc, OT. apply L. Qed.

Lemma make_ok : forall d c g m s h s' e, cok s h -> 0 <= d -> 0 <= c -> make d c g m s = (s', e) ->
  cok s' (h ++ [e]) /\ (forall a, e = EvMake a -> balance a h = 0).
Proof.
  intros d c g m s h s' e K D C E. pose proof K as [L P N CP]. unfold make in E.
  destruct (_ || _); [injection E as <- <-; split; [apply cok_same; auto | discriminate]|].
  assert (FRESH : forall b, is_free (cells s b) = true -> cok (setc b (Live 0 d) s) (h ++ [EvMake b]) /\ (forall a, EvMake b = EvMake a -> balance a h = 0)).
  { intros b F. destruct (cells s b) eqn:CB; try discriminate. split.
    - apply cok_set; auto.
      + intros x NE. cbn. destruct (Nat.eqb_spec b x); congruence.
      + intros J. apply P in J. congruence.
      + cbn. rewrite Nat.eqb_refl. lia.
    - intros a Q. injection Q as <-. specialize (L b). rewrite CB in L. exact L. }
  assert (ALT : match m with Some b => if is_free (cells s b) then (setc b (Live 0 d) s, EvMake b) else (s, EvNomem) | None => (s, EvNomem) end = (s', e) ->
     cok s' (h ++ [e]) /\ (forall a, e = EvMake a -> balance a h = 0)).
  { intros Q. destruct m as [b|]; [|injection Q as <- <-; split; [apply cok_same; auto | discriminate]].
    destruct (is_free (cells s b)) eqn:F; injection Q as <- <-; [apply FRESH, F|]. split; [apply cok_same; auto | discriminate]. }
  destruct (pool s) as [|a p] eqn:PL; [exact (ALT E)|]. destruct (_ =? 0); [|exact (ALT E)].
  injection E as <- <-. assert (CA : cells s a = Pooled) by (apply P; left; reflexivity).
  pose proof (L a) as LA. rewrite CA in LA. apply NoDup_cons_iff in N. destruct N as [N1 N2]. split.
  - split; cbn; auto.
    + intros b. rewrite balance_snoc. cbn. rewrite (Nat.eqb_sym a b). destruct (Nat.eqb_spec b a) as [->|NE]; [lia|].
      specialize (L b). destruct (cells s b) eqn:CB; auto. destruct L as [L1 [->|L2]]; [contradiction | auto].
    + intros b J. destruct (Nat.eqb_spec b a) as [->|NE]; [contradiction | apply P; right; exact J].
    + unfold pool_len in *. rewrite PL in CP. cbn [length pool setc] in *. destruct CP. split; [lia | assumption].
  - intros x Q. injection Q as <-. apply LA.
Qed.

Lemma live_of : forall s h a, cok s h -> 0 < balance a h -> exists rc sz, cells s a = Live rc sz /\ balance a h = rc + 1 /\ 0 <= rc /\ 0 <= sz.
Proof. intros s h a [L _ _ _] B. specialize (L a). destruct (cells s a) as [|rc sz|]; [lia | exists rc, sz; intuition | lia]. Qed.

Lemma step_ok : forall s h o, cok s h -> allowed h o -> exists s' e, cstep s o = Some (s', e) /\ cok s' (h ++ [e]).
Proof.
  intros s h o K A. destruct o as [d c g m|a|a r]; cbn in *.
  - destruct (make d c g m s) as [s' e] eqn:E. exists s', e. split; [reflexivity|]. eapply make_ok; try eassumption; apply A.
  - destruct (live_of _ _ _ K (proj1 A)) as (rc & sz & CA & B & R & Z0). unfold retain. rewrite CA. destruct (Z.eqb_spec rc INTMAX); [lia|].
    do 2 eexists. split; [reflexivity|]. apply cok_set; auto.
    + intros b NE. cbn. destruct (Nat.eqb_spec a b); congruence.
    + intros J. apply (co_pool _ _ K) in J. congruence.
    + cbn. rewrite Nat.eqb_refl. lia.
  - destruct (live_of _ _ _ K A) as (rc & sz & CA & B & R & Z0). unfold release. rewrite CA.
    assert (NP : ~ In a (pool s)) by (intros J; apply (co_pool _ _ K) in J; congruence).
    assert (OT : forall g b, b <> a -> bal1 b (balance b h) (EvRelease a g) = balance b h) by (intros g b NE; cbn; destruct (Nat.eqb_spec a b); congruence).
    destruct (Z.ltb_spec (rc - 1) 0).
    + assert (FR : cok (setc a Unalloc s) (h ++ [EvRelease a true])) by (apply cok_set; auto; cbn; rewrite Nat.eqb_refl; lia).
      destruct (0 <? sz); [do 2 eexists; split; [reflexivity | exact FR]|].
      destruct (zchanpush a r s) as [s1|] eqn:ZP; [|do 2 eexists; split; [reflexivity | exact FR]].
      do 2 eexists. split; [reflexivity|]. destruct K as [L P N (C1 & C2 & C3)].
      assert (ZS : cells s1 = cells s /\ pool s1 = a :: pool s /\ (pool_len s + 1 <= poolcap s1) /\ poolcap s1 <= 256 /\ (poolcap s1 = 0 \/ poolcap s1 = 16 \/ poolcap s1 = 32 \/ poolcap s1 = 64 \/ poolcap s1 = 128 \/ poolcap s1 = 256)).
      { unfold zchanpush in ZP. destruct (Z.eqb_spec (pool_len s) (poolcap s)).
        - destruct (Z.eqb_spec (poolcap s) 256); [discriminate|]. destruct r; [|discriminate]. injection ZP as <-. cbn.
          split; [reflexivity|]. split; [reflexivity|]. destruct (Z.eqb_spec (poolcap s) 0); lia.
        - injection ZP as <-. cbn. split; [reflexivity|]. split; [reflexivity|]. lia. }
      destruct ZS as (Z1 & Z2 & Z3 & Z4 & Z5). split; cbn [setc cells pool poolcap]; rewrite ?Z1, ?Z2.
      * intros b. rewrite balance_snoc. destruct (Nat.eqb_spec b a) as [->|NE].
        -- cbn [bal1]. rewrite Nat.eqb_refl. split; [lia | left; reflexivity].
        -- rewrite OT by exact NE. specialize (L b). destruct (cells s b); auto. destruct L; split; [auto | right; auto].
      * intros b [->|J]; [rewrite Nat.eqb_refl; reflexivity|]. destruct (Nat.eqb_spec b a); [reflexivity | apply P, J].
      * constructor; assumption.
      * unfold pool_len in *. cbn [pool setc]. rewrite Z2. cbn [length]. split; [lia|]. split; assumption.
    + do 2 eexists. split; [reflexivity|]. apply cok_set; auto. cbn. rewrite Nat.eqb_refl. lia.
Qed.
Lemma chist_ok : forall s h, chist s h -> cok s h.
Proof.
  intros s h H. induction H as [|s h o s' e H IH A E].
  - split; cbn; auto; try contradiction. constructor. unfold pool_len. cbn. lia.
  - destruct (step_ok _ _ _ IH A) as (s2 & e2 & E2 & K). rewrite E in E2. injection E2 as <- <-. exact K.
Qed.

(** * Theorems *)
(** No use after free, no double free, no counter overflow: whatever an allowed
    client does next is defined. *)
Theorem C07_no_use_after_free : forall s h o, chist s h -> allowed h o -> cstep s o <> None.
Proof. intros s h o H A E. destruct (step_ok _ _ _ (chist_ok _ _ H) A) as (s' & e & E2 & _). congruence. Qed.
(** The block goes exactly with the release that drops the last reference. *)
Theorem C07_freed_exactly : forall s h a r s' g, chist s h -> allowed h (CRelease a r) ->
  cstep s (CRelease a r) = Some (s', EvRelease a g) -> (g = true <-> balance a (h ++ [EvRelease a g]) = 0).
Proof.
  intros s h a r s' g H A E. pose proof (chist_ok _ _ H) as K. rewrite balance_snoc. cbn [bal1]. rewrite Nat.eqb_refl.
  destruct (live_of _ _ _ K A) as (rc & sz & CA & B & R & Z0). cbn in E. unfold release in E. rewrite CA in E.
  destruct (Z.ltb_spec (rc - 1) 0).
  - assert (g = true) by (destruct (0 <? sz); [|destruct (zchanpush a r s)]; injection E; intros; congruence). subst g. split; [lia | auto].
  - injection E as _ <-. split; [discriminate | lia].
Qed.
(** As long as a client holds references the block stays allocated with that count;
    a block without references is not live. *)
Theorem C07_live_iff_referenced : forall s h a, chist s h ->
  (0 < balance a h <-> exists rc sz, cells s a = Live rc sz) /\ 0 <= balance a h.
Proof.
  intros s h a H. pose proof (co_live _ _ (chist_ok _ _ H) a) as L. destruct (cells s a) as [|rc sz|].
  - split; [split; [lia | intros (? & ? & ?); discriminate] | lia].
  - split; [split; [eauto | lia] | lia].
  - split; [split; [lia | intros (? & ? & ?); discriminate] | lia].
Qed.
(** neco_chan_make never hands out a channel that is still referenced. *)
Theorem C07_make_fresh : forall s h d c g m s' a, chist s h -> allowed h (CMake d c g m) ->
  cstep s (CMake d c g m) = Some (s', EvMake a) -> balance a h = 0.
Proof. intros s h d c g m s' a H A E. cbn in E. injection E as E. eapply (make_ok d c g m s h); try eassumption; try apply A; [apply chist_ok, H | reflexivity]. Qed.
(** The pool holds at most 256 blocks, each once, none of them referenced. *)
Theorem C07_pool : forall s h, chist s h -> Z.of_nat (length (pool s)) <= 256 /\ NoDup (pool s) /\ forall a, In a (pool s) -> balance a h = 0.
Proof.
  intros s h H. destruct (chist_ok _ _ H) as [L P N (C1 & C2 & _)]. unfold pool_len in C1. split; [lia|]. split; [exact N|].
  intros a J. apply P in J. specialize (L a). rewrite J in L. apply L.
Qed.
(** Without the bound on the number of references the counter overflows. *)
Theorem C07_retain_overflow_refuted : exists s h a, chist s h /\ 0 < balance a h /\ cstep s (CRetain a) = None.
Proof.
  assert (G : forall n, Z.of_nat n <= INTMAX -> exists s h, chist s h /\ cells s 0%nat = Live (Z.of_nat n) 8).
  { induction n as [|n IH]; intros B.
    - do 2 eexists. split; [apply (ch_step cinit [] (CMake 8 0 false (Some 0%nat))); [constructor | cbn; lia | reflexivity] | reflexivity].
    - destruct IH as (s & h & H & C); [lia|]. pose proof (co_live _ _ (chist_ok _ _ H) 0%nat) as L. rewrite C in L.
      exists (setc 0%nat (Live (Z.of_nat n + 1) 8) s), (h ++ [EvRetain 0%nat]). split; [|cbn; f_equal; lia].
      apply (ch_step s h (CRetain 0%nat)); [exact H | cbn [allowed]; lia |]. unfold cstep, retain. rewrite C.
      destruct (Z.eqb_spec (Z.of_nat n) INTMAX); [lia | reflexivity]. }
  destruct (G (Z.to_nat INTMAX)) as (s & h & H & C); [rewrite Z2Nat.id; unfold INTMAX; lia|].
  exists s, h, 0%nat. split; [exact H|]. pose proof (co_live _ _ (chist_ok _ _ H) 0%nat) as L. rewrite C in L. split; [lia|].
  unfold cstep, retain. rewrite C, Z2Nat.id by (unfold INTMAX; lia). reflexivity.
Qed.

(** Non-vacuity: a pooled channel is recycled after three references are gone. *)
Example C07_example : exists s, chist s [EvMake 7%nat; EvRetain 7%nat; EvRelease 7%nat false; EvRelease 7%nat true; EvMake 7%nat] /\
  balance 7%nat [EvMake 7%nat; EvRetain 7%nat; EvRelease 7%nat false; EvRelease 7%nat true] = 0.
Proof.
  pose proof ch_init as H.
  assert (A0 : allowed [] (CMake 0 0 false (Some 7%nat))) by (cbn; lia). pose proof (ch_step _ _ _ _ _ H A0 eq_refl) as H1. cbn [app] in H1.
  assert (A1 : allowed [EvMake 7%nat] (CRetain 7%nat)) by (cbn; unfold INTMAX; lia). pose proof (ch_step _ _ _ _ _ H1 A1 eq_refl) as H2. cbn [app] in H2.
  assert (A2 : allowed [EvMake 7%nat; EvRetain 7%nat] (CRelease 7%nat true)) by (cbn; lia). pose proof (ch_step _ _ _ _ _ H2 A2 eq_refl) as H3. cbn [app] in H3.
  assert (A3 : allowed [EvMake 7%nat; EvRetain 7%nat; EvRelease 7%nat false] (CRelease 7%nat true)) by (cbn; lia). pose proof (ch_step _ _ _ _ _ H3 A3 eq_refl) as H4. cbn [app] in H4.
  assert (A4 : allowed [EvMake 7%nat; EvRetain 7%nat; EvRelease 7%nat false; EvRelease 7%nat true] (CMake 0 3 false None)) by (cbn; lia). pose proof (ch_step _ _ _ _ _ H4 A4 eq_refl) as H5. cbn [app] in H5.
  eexists. split; [exact H5 | reflexivity].
Qed.

(** * The ring buffer is a FIFO queue
    [holds b l]: the buffer contains the messages [l], oldest first. *)
Definition holds (b : ring) (l : list Z) : Prop :=
  blen b = Z.of_nat (length l) /\ blen b <= bcap b /\ (0 <= bpos b < bcap b \/ (bcap b = 0 /\ bpos b = 0)) /\
  forall i, (i < length l)%nat -> slots b ((bpos b + Z.of_nat i) mod bcap b) = nth i l 0.
Theorem C01_ring_push : forall b l v, holds b l -> blen b < bcap b ->
  holds (cbuf_push v b) (l ++ [v]) /\ 0 <= (bpos b + blen b) mod bcap b < bcap b.
Proof.
  intros b l v (A & B & C & D) L. assert (CP : 0 < bcap b) by lia. assert (PB : 0 <= bpos b < bcap b) by lia. clear C.
  split; [|apply Z.mod_pos_bound; lia].
  assert (PE : (if bcap b <=? bpos b + blen b then bpos b + blen b - bcap b else bpos b + blen b) = (bpos b + blen b) mod bcap b).
  { destruct (Z.leb_spec (bcap b) (bpos b + blen b)).
    - symmetry. rewrite <- (Z.mod_small (bpos b + blen b - bcap b) (bcap b)) by lia.
      replace (bpos b + blen b - bcap b) with (bpos b + blen b + (-1) * bcap b) by lia. rewrite Z.mod_add by lia. reflexivity.
    - rewrite Z.mod_small by lia. reflexivity. }
  unfold holds, cbuf_push. cbn. rewrite PE, app_length. cbn. split; [lia|]. split; [lia|]. split; [lia|].
  intros i I. destruct (Nat.eq_dec i (length l)) as [->|NE].
  - rewrite <- A, Z.eqb_refl, app_nth2, Nat.sub_diag by lia. reflexivity.
  - rewrite app_nth1 by lia. rewrite <- D by lia. destruct (Z.eqb_spec ((bpos b + Z.of_nat i) mod bcap b) ((bpos b + blen b) mod bcap b)) as [Q|Q]; [|reflexivity].
    exfalso. assert (Z1 : (bpos b + blen b - (bpos b + Z.of_nat i)) mod bcap b = 0) by (rewrite Zminus_mod, Q, Z.sub_diag; apply Z.mod_0_l; lia).
    rewrite Z.mod_small in Z1 by lia. lia.
Qed.
Theorem C01_ring_pop : forall b v l, holds b (v :: l) -> fst (cbuf_pop b) = v /\ holds (snd (cbuf_pop b)) l /\ 0 <= bpos b < bcap b.
Proof.
  intros b v l (A & B & C & D). cbn [length] in A. assert (CP : 0 < bcap b) by lia. assert (PB : 0 <= bpos b < bcap b) by lia. clear C.
  split; [|split; [|exact PB]].
  - specialize (D 0%nat ltac:(cbn; lia)). cbn in D. rewrite Z.add_0_r, Z.mod_small in D by lia. exact D.
  - unfold holds, cbuf_pop. cbn. split; [lia|]. split; [lia|]. split; [left; destruct (Z.eqb_spec (bpos b + 1) (bcap b)); lia|].
    intros i I. specialize (D (S i) ltac:(cbn; lia)). cbn [nth] in D. rewrite <- D. f_equal.
    destruct (Z.eqb_spec (bpos b + 1) (bcap b)) as [Q|Q].
    + replace (bpos b + Z.of_nat (S i)) with (0 + Z.of_nat i + 1 * bcap b) by lia. rewrite Z.mod_add by lia. reflexivity.
    + f_equal. lia.
Qed.
Theorem C01_ring_empty : forall c, 0 <= c -> holds (ring0 c) [].
Proof. intros c C. unfold holds. cbn. split; [reflexivity|]. split; [lia|]. split; [lia|]. intros i I. lia. Qed.
Example C01_ring_example : let b := cbuf_push 3 (snd (cbuf_pop (cbuf_push 2 (cbuf_push 1 (ring0 2))))) in
  holds b [2; 3] /\ fst (cbuf_pop b) = 2.
Proof.
  cbn. split; [|reflexivity]. unfold holds. cbn. split; [reflexivity|]. split; [lia|]. split; [lia|].
  intros [|[|i]] I; [reflexivity | reflexivity | cbn in I; lia].
Qed.
Print Assumptions C07_no_use_after_free.
Print Assumptions C07_freed_exactly.
Print Assumptions C07_live_iff_referenced.
Print Assumptions C07_make_fresh.
Print Assumptions C07_pool.
Print Assumptions C07_retain_overflow_refuted.
Print Assumptions C01_ring_push.
Print Assumptions C01_ring_pop.
Print Assumptions C01_ring_empty.
