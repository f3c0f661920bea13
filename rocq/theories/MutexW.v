(** Who holds a mutex, who has been handed it and not returned yet, and what the
    mutex's own fields say about it. *)
From Coq Require Import List ZArith Bool Lia Permutation.
From Verif Require Import AATreeSpec AATreeHist Util Runtime SchedInv StepInv StackShape RuntimeSpec TraceInv Immediate Prims StaticInv Footprint QueueInv OwnInv WaitInv DeadlineInv CallInv SpecInv TraceStep Wake Awake PausedInv ResultInv AllInv DldInv JoinInv WaiterInv MutexSpec.
Import ListNotations.
Local Open Scope Z_scope.

(** ** Sums over any set of coroutines *)
Fixpoint sumf (f : Z -> Z) (L : list Z) : Z := match L with [] => 0 | x :: r => f x + sumf f r end.
Definition bnd (f : Z -> Z) (B : Z) : Prop := forall L, NoDup L -> sumf f L <= B.
Definition low (f : Z -> Z) (B : Z) : Prop := exists L, NoDup L /\ B <= sumf f L.

Lemma sumf_le : forall f g L, (forall x, g x <= f x) -> sumf g L <= sumf f L.
Proof. intros f g L H. induction L as [|x L IH]; cbn; [lia|]. specialize (H x). lia. Qed.
Lemma sumf_eq : forall f g L, (forall x, In x L -> g x = f x) -> sumf g L = sumf f L.
Proof. intros f g L. induction L as [|x L IH]; cbn; intros H; [reflexivity|]. rewrite IH, (H x) by auto. reflexivity. Qed.
Lemma sumf_pt : forall f g c L, NoDup L -> In c L -> (forall x, x <> c -> g x = f x) -> sumf g L = sumf f L + (g c - f c).
Proof.
  intros f g c L ND IN H. induction L as [|x L IH]; [destruct IN|]. apply NoDup_cons_iff in ND. destruct ND as [NI ND]. cbn.
  destruct (Z.eq_dec x c) as [->|NE].
  - rewrite (sumf_eq f g L); [lia|]. intros y IY. apply H. congruence.
  - destruct IN as [?|IN]; [contradiction|]. rewrite (IH ND IN), (H x NE). lia.
Qed.
Lemma bnd_le : forall f g B, bnd f B -> (forall x, g x <= f x) -> bnd g B.
Proof. intros f g B H G L ND. specialize (H L ND). pose proof (sumf_le f g L G). lia. Qed.
Lemma bnd_pt : forall f g c e B, bnd f B -> 0 <= g c -> (forall x, x <> c -> g x <= f x) -> g c <= f c + e -> bnd g (B + e).
Proof.
  intros f g c e B H P0 G GC L ND. pose (h := fun x => if x =? c then f c + e else f x).
  assert (GH : forall x, g x <= h x) by (intros x; unfold h; destruct (Z.eqb_spec x c) as [->|N]; [lia | apply G, N]).
  assert (HC : h c = f c + e) by (unfold h; rewrite Z.eqb_refl; reflexivity).
  assert (HN : forall x, x <> c -> h x = f x) by (intros x N; unfold h; destruct (Z.eqb_spec x c); [contradiction | reflexivity]).
  pose proof (sumf_le h g L GH) as S1. destruct (in_dec Z.eq_dec c L) as [IN|NI].
  - rewrite (sumf_pt f h c L ND IN HN) in S1. specialize (H L ND). lia.
  - rewrite (sumf_eq f h L) in S1 by (intros x IX; apply HN; congruence).
    assert (ND2 : NoDup (c :: L)) by (constructor; assumption). specialize (H (c :: L) ND2). cbn in H. lia.
Qed.
Lemma bnd_one : forall f B x, bnd f B -> f x <= B.
Proof. intros f B x H. specialize (H [x] ltac:(constructor; [intros [] | constructor])). cbn in H. lia. Qed.
Lemma low_pt : forall f g c e B, low f B -> 0 <= f c -> (forall x, x <> c -> g x = f x) -> g c = f c + e -> low g (B + e).
Proof.
  intros f g c e B (L & ND & H) P0 G GC. destruct (in_dec Z.eq_dec c L) as [IN|NI].
  - exists L. split; [exact ND|]. rewrite (sumf_pt f g c L ND IN G). lia.
  - assert (Q : sumf g L = sumf f L) by (apply sumf_eq; intros x IX; apply G; congruence).
    destruct (Z_lt_le_dec e 0) as [E|E].
    + exists L. split; [exact ND | lia].
    + exists (c :: L). split; [constructor; assumption | cbn; lia].
Qed.
Lemma low_ext : forall f g B, low f B -> (forall x, g x = f x) -> low g B.
Proof. intros f g B (L & ND & H) G. exists L. split; [exact ND|]. rewrite (sumf_eq f g L); auto. Qed.
Definition ind (P : list Z) (x : Z) : Z := if mem x P then 1 else 0.
Lemma bnd_ind : forall P, bnd (ind P) (Z.of_nat (length P)).
Proof.
  intros P L ND. assert (Q : sumf (ind P) L = Z.of_nat (length (filter (fun x => mem x P) L))).
  { clear ND. induction L as [|x L IH]; [reflexivity|]. cbn [sumf filter]. unfold ind at 1. destruct (mem x P); cbn [length]; lia. }
  rewrite Q. apply inj_le. apply NoDup_incl_length; [apply NoDup_filter, ND|]. intros x IX. apply filter_In in IX. apply mem_In, IX.
Qed.
Lemma low_ind : forall P, NoDup P -> low (ind P) (Z.of_nat (length P)).
Proof.
  intros P ND. exists P. split; [exact ND|]. assert (Q : forall L, incl L P -> sumf (ind P) L = Z.of_nat (length L)).
  { induction L as [|x L IH]; intros I; [reflexivity|]. cbn [sumf length]. rewrite IH by (intros y IY; apply I; right; exact IY).
    unfold ind. assert (B : mem x P = true) by (apply mem_In, I; left; reflexivity). rewrite B. lia. }
  rewrite Q by apply incl_refl. lia.
Qed.

(** ** Holds and hand-overs, as weights *)
Definition wW (h : held) (p : option bool) : Z :=
  match h with HW => 1 | _ => 0 end + match p with Some false => 1 | _ => 0 end.
Definition wR (h : held) (p : option bool) : Z :=
  match h with HR n => Z.of_nat n | _ => 0 end + match p with Some true => 1 | _ => 0 end.
Definition tot (h : Z -> held) (p : Z -> option bool) (x : Z) : Z := wW (h x) (p x) + wR (h x) (p x).
Definition cap (M : murec) : Z := if mlocked M then (if mrl M =? 0 then 1 else mrl M) else 0.
Lemma wW_pos : forall h p, 0 <= wW h p. Proof. intros [| |n] [[]|]; cbn; lia. Qed.
Lemma wR_pos : forall h p, 0 <= wR h p. Proof. intros [| |n] [[]|]; unfold wR; lia. Qed.
Lemma tot_pos : forall h p x, 0 <= tot h p x.
Proof. intros. unfold tot. pose proof (wW_pos (h x) (p x)). pose proof (wR_pos (h x) (p x)). lia. Qed.

Record ok (M : murec) (Q : list node) (h : Z -> held) (p : Z -> option bool) : Prop := {
  ok_pos : 0 <= mrl M;
  ok_free : mlocked M = false -> mrl M = 0 /\ Q = [];
  ok_w : mrl M <> 0 -> forall x, wW (h x) (p x) = 0;
  ok_r : mrl M = 0 -> forall x, wR (h x) (p x) = 0;
  ok_b : bnd (tot h p) (cap M) }.
Definition lows (M : murec) (h : Z -> held) (p : Z -> option bool) : Prop := mlocked M = true -> low (tot h p) (cap M).

Lemma ok_zero : forall M Q h p, ok M Q h p -> mlocked M = false -> forall x, tot h p x = 0.
Proof.
  intros M Q h p O L x. pose proof (bnd_one _ _ x (ok_b _ _ _ _ O)) as H. unfold cap in H. rewrite L in H. pose proof (tot_pos h p x). lia.
Qed.
Lemma tot_zero : forall h p x, tot h p x = 0 -> wW (h x) (p x) = 0 /\ wR (h x) (p x) = 0.
Proof. intros h p x H. unfold tot in H. pose proof (wW_pos (h x) (p x)). pose proof (wR_pos (h x) (p x)). lia. Qed.

Lemma ok_mono : forall M Q h p M' Q' h' p', ok M Q h p -> mlocked M' = mlocked M -> mrl M' = mrl M -> (mlocked M = false -> Q' = []) ->
  (forall x, wW (h' x) (p' x) <= wW (h x) (p x) /\ wR (h' x) (p' x) <= wR (h x) (p x)) -> ok M' Q' h' p'.
Proof.
  intros M Q h p M' Q' h' p' O L1 L2 QE H. split.
  - rewrite L2. apply (ok_pos _ _ _ _ O).
  - rewrite L1, L2. intros L. split; [apply (ok_free _ _ _ _ O L) | apply QE, L].
  - rewrite L2. intros N x. destruct (H x) as [A _]. rewrite (ok_w _ _ _ _ O N) in A. pose proof (wW_pos (h' x) (p' x)). lia.
  - rewrite L2. intros N x. destruct (H x) as [_ A]. rewrite (ok_r _ _ _ _ O N) in A. pose proof (wR_pos (h' x) (p' x)). lia.
  - unfold cap. rewrite L1, L2. apply (bnd_le (tot h p)); [apply (ok_b _ _ _ _ O)|]. intros x. destruct (H x). unfold tot. lia.
Qed.
Lemma ok_takeW : forall c M Q h p M' Q' h' p', ok M Q h p -> mlocked M = false -> mlocked M' = true -> mrl M' = mrl M ->
  (forall x, x <> c -> wW (h' x) (p' x) <= wW (h x) (p x) /\ wR (h' x) (p' x) <= wR (h x) (p x)) ->
  wW (h' c) (p' c) <= wW (h c) (p c) + 1 -> wR (h' c) (p' c) <= wR (h c) (p c) -> ok M' Q' h' p'.
Proof.
  intros c M Q h p M' Q' h' p' O L L1 L2 H HC1 HC2. destruct (ok_free _ _ _ _ O L) as [R0 _]. pose proof (ok_zero _ _ _ _ O L) as Z0.
  assert (R : forall x, wR (h' x) (p' x) = 0).
  { intros x. pose proof (wR_pos (h' x) (p' x)). destruct (tot_zero _ _ _ (Z0 x)) as [_ A]. destruct (Z.eq_dec x c) as [->|N]; [lia|]. destruct (H x N). lia. }
  split.
  - lia.
  - congruence.
  - lia.
  - intros _. exact R.
  - unfold cap. rewrite L1, L2, R0. cbn. change 1 with (0 + 1). eapply (bnd_pt (tot h p) _ c).
    + pose proof (ok_b _ _ _ _ O) as B. unfold cap in B. rewrite L in B. exact B.
    + apply tot_pos.
    + intros x N. destruct (H x N). unfold tot. lia.
    + unfold tot. lia.
Qed.
Lemma ok_takeR : forall c M Q h p M' Q' h' p', ok M Q h p -> (mlocked M = false \/ mrl M <> 0) -> mlocked M' = true -> mrl M' = mrl M + 1 ->
  (forall x, x <> c -> wW (h' x) (p' x) <= wW (h x) (p x) /\ wR (h' x) (p' x) <= wR (h x) (p x)) ->
  wW (h' c) (p' c) <= wW (h c) (p c) -> wR (h' c) (p' c) <= wR (h c) (p c) + 1 -> ok M' Q' h' p'.
Proof.
  intros c M Q h p M' Q' h' p' O L L1 L2 H HC1 HC2. pose proof (ok_pos _ _ _ _ O) as PO.
  assert (W0 : forall x, wW (h x) (p x) = 0).
  { destruct L as [L|L]; [|apply (ok_w _ _ _ _ O L)]. intros x. apply (tot_zero h p x), (ok_zero _ _ _ _ O L). }
  assert (W : forall x, wW (h' x) (p' x) = 0).
  { intros x. pose proof (wW_pos (h' x) (p' x)). specialize (W0 x). destruct (Z.eq_dec x c) as [->|N]; [lia|]. destruct (H x N). lia. }
  split.
  - lia.
  - congruence.
  - intros _. exact W.
  - lia.
  - assert (C1 : cap M = mrl M).
    { unfold cap. destruct L as [L|L]; [rewrite L; destruct (ok_free _ _ _ _ O L); lia|]. destruct (mlocked M) eqn:K; [|destruct (ok_free _ _ _ _ O K); lia].
      destruct (Z.eqb_spec (mrl M) 0); [contradiction | reflexivity]. }
    unfold cap. rewrite L1, L2. destruct (Z.eqb_spec (mrl M + 1) 0); [lia|]. eapply (bnd_pt (tot h p) _ c).
    + pose proof (ok_b _ _ _ _ O) as B. rewrite C1 in B. exact B.
    + apply tot_pos.
    + intros x N. destruct (H x N). unfold tot. lia.
    + unfold tot. lia.
Qed.
(** giving one hold up *)
Lemma ok_relR : forall c M Q h p M' Q' h' p', ok M Q h p -> mlocked M = true -> 2 <= mrl M -> mlocked M' = true -> mrl M' = mrl M - 1 ->
  (forall x, x <> c -> wW (h' x) (p' x) <= wW (h x) (p x) /\ wR (h' x) (p' x) <= wR (h x) (p x)) ->
  wW (h' c) (p' c) <= wW (h c) (p c) -> tot h' p' c <= tot h p c - 1 -> ok M' Q' h' p'.
Proof.
  intros c M Q h p M' Q' h' p' O L R L1 L2 H HC1 HC2.
  assert (W : forall x, wW (h' x) (p' x) = 0).
  { intros x. pose proof (wW_pos (h' x) (p' x)). assert (W0 := ok_w _ _ _ _ O ltac:(lia) x). destruct (Z.eq_dec x c) as [->|N]; [lia|]. destruct (H x N). lia. }
  split.
  - lia.
  - congruence.
  - intros _. exact W.
  - lia.
  - unfold cap. rewrite L1, L2. destruct (Z.eqb_spec (mrl M - 1) 0); [lia|]. apply (bnd_pt (tot h p) _ c (-1)).
    + pose proof (ok_b _ _ _ _ O) as B. unfold cap in B. rewrite L in B. destruct (Z.eqb_spec (mrl M) 0); [lia | exact B].
    + apply tot_pos.
    + intros x N. destruct (H x N). unfold tot. lia.
    + lia.
Qed.
Lemma ok_rel0 : forall c M Q h p h' p', ok M Q h p -> mrl M <= 1 ->
  (forall x, x <> c -> tot h' p' x <= tot h p x) -> tot h' p' c <= tot h p c - 1 -> forall x, tot h' p' x = 0.
Proof.
  intros c M Q h p h' p' O R H HC. assert (B1 : bnd (tot h p) 1).
  { pose proof (ok_b _ _ _ _ O) as B. pose proof (ok_pos _ _ _ _ O). intros L ND. specialize (B L ND). unfold cap in B. destruct (mlocked M); [|lia].
    destruct (Z.eqb_spec (mrl M) 0); lia. }
  assert (B0 : bnd (tot h' p') (1 + -1)) by (eapply (bnd_pt (tot h p) _ c); [exact B1 | apply tot_pos | exact H | lia]).
  intros x. pose proof (bnd_one _ _ x B0). pose proof (tot_pos h' p' x). lia.
Qed.
Lemma ok_unlocked : forall M h p, mlocked M = false -> mrl M = 0 -> (forall x, tot h p x = 0) -> ok M [] h p.
Proof.
  intros M h p L R Z0. split; [lia | auto | lia | |].
  - intros _ x. apply (tot_zero h p x (Z0 x)).
  - unfold cap. rewrite L. intros K ND. rewrite (sumf_eq (fun _ => 0) (tot h p)) by auto. clear. induction K; cbn; lia.
Qed.
(** granting to a set of waiters when nobody holds it *)
Lemma ok_grantW : forall x0 M Q h p p', mlocked M = true -> mrl M = 0 -> (forall x, tot h p x = 0) ->
  (forall x, x <> x0 -> wW (h x) (p' x) <= wW (h x) (p x) /\ wR (h x) (p' x) <= wR (h x) (p x)) -> p' x0 = Some false -> ok M Q h p'.
Proof.
  intros x0 M Q h p p' L R Z0 H P0.
  assert (Z1 : forall x, wW (h x) (p x) = 0 /\ wR (h x) (p x) = 0) by (intros x; apply tot_zero, Z0).
  assert (HX : wW (h x0) (p' x0) <= 1 /\ wR (h x0) (p' x0) = 0).
  { rewrite P0. destruct (Z1 x0) as [A B]. unfold wW, wR in *. destruct (h x0) as [| |n], (p x0) as [[]|]; lia. }
  split; [lia | congruence | lia | |].
  - intros _ x. destruct (Z.eq_dec x x0) as [->|N]; [apply HX|]. destruct (H x N) as [_ A]. destruct (Z1 x) as [_ B]. pose proof (wR_pos (h x) (p' x)). lia.
  - unfold cap. rewrite L, R. cbn. change 1 with (Z.of_nat (length [x0])). apply (bnd_le (ind [x0])); [apply bnd_ind|]. intros x. unfold ind, tot.
    cbn [mem existsb]. destruct (Z.eqb_spec x x0) as [->|N]; cbn; [lia|]. destruct (H x N). destruct (Z1 x). lia.
Qed.
Lemma ok_grantR : forall P M Q h p p', mlocked M = true -> mrl M = Z.of_nat (length P) -> P <> [] -> (forall x, tot h p x = 0) ->
  (forall x, ~ In x P -> wW (h x) (p' x) <= wW (h x) (p x) /\ wR (h x) (p' x) <= wR (h x) (p x)) -> (forall x, In x P -> p' x = Some true) -> ok M Q h p'.
Proof.
  intros P M Q h p p' L R NP Z0 H P0. assert (0 < mrl M) by (destruct P; [congruence | cbn [length] in R; lia]).
  assert (Z1 : forall x, wW (h x) (p x) = 0 /\ wR (h x) (p x) = 0) by (intros x; apply tot_zero, Z0).
  assert (HX : forall x, In x P -> wW (h x) (p' x) = 0 /\ wR (h x) (p' x) = 1).
  { intros x IX. rewrite (P0 x IX). destruct (Z1 x) as [A B]. unfold wW, wR in *. destruct (h x) as [| |n], (p x) as [[]|]; lia. }
  assert (HN : forall x, ~ In x P -> wW (h x) (p' x) = 0 /\ wR (h x) (p' x) = 0).
  { intros x IX. destruct (H x IX). destruct (Z1 x). pose proof (wW_pos (h x) (p' x)). pose proof (wR_pos (h x) (p' x)). lia. }
  split; [lia | congruence | | lia |].
  - intros _ x. destruct (in_dec Z.eq_dec x P) as [I|I]; [apply HX, I | apply HN, I].
  - unfold cap. rewrite L. destruct (Z.eqb_spec (mrl M) 0); [lia|]. rewrite R. apply (bnd_le (ind P)); [apply bnd_ind|]. intros x. unfold ind, tot.
    destruct (mem x P) eqn:ME; [apply mem_In in ME; destruct (HX x ME); lia | apply mem_In_false in ME; destruct (HN x ME); lia].
Qed.
Lemma lows_grant : forall P M h p', NoDup P -> cap M = Z.of_nat (length P) ->
  (forall x, In x P -> 1 <= tot h p' x) -> lows M h p'.
Proof.
  intros P M h p' ND C H L. rewrite C. destruct (low_ind P ND) as (K & NK & B). exists K. split; [exact NK|].
  apply (Z.le_trans _ _ _ B). apply sumf_le. intros x. unfold ind. destruct (mem x P) eqn:ME; [apply mem_In in ME; auto | apply tot_pos].
Qed.
