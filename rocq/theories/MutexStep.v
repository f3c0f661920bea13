(** How one step may change who holds a mutex, and why that keeps the mutex's fields
    in agreement with it. *)
From Coq Require Import List ZArith Bool Lia.
From Verif Require Import AATreeSpec AATreeHist Util Runtime SchedInv StepInv StackShape RuntimeSpec TraceInv Immediate Prims StaticInv Footprint QueueInv OwnInv WaitInv CallInv SpecInv TraceStep Wake Awake AllInv PausedInv ResultInv JoinInv PairedInv WaiterInv MutexSpec MutexW MutexEff MutexTok MutexRt.
Import ListNotations.
Local Open Scope Z_scope.

Section Step.
Variables (dr rs : Prop) (c : Z) (M : murec) (Q : list node) (h : Z -> held) (p : Z -> option bool).
Variables (M' : murec) (Q' : list node) (h' : Z -> held) (p' : Z -> option bool).
Let oth : Prop := forall x, x <> c -> h' x = h x /\ p' x = p x.
Inductive mstep : Prop :=
| ms_keep : mlocked M' = mlocked M -> mrl M' = mrl M -> (mlocked M = false -> Q' = []) -> oth ->
    wW (h' c) (p' c) <= wW (h c) (p c) -> wR (h' c) (p' c) <= wR (h c) (p c) ->
    (dr \/ (wW (h' c) (p' c) = wW (h c) (p c) /\ wR (h' c) (p' c) = wR (h c) (p c))) -> mstep
| ms_take (rd : bool) : oth -> mlocked M' = true ->
    (if rd then (mlocked M = false \/ mrl M <> 0) /\ mrl M' = mrl M + 1 else mlocked M = false /\ mrl M' = mrl M) ->
    wW (h' c) (p' c) = wW (h c) (p c) + (if rd then 0 else 1) -> wR (h' c) (p' c) = wR (h c) (p c) + (if rd then 1 else 0) -> mstep
| ms_dec : mlocked M = true -> 2 <= mrl M -> mlocked M' = true -> mrl M' = mrl M - 1 -> oth ->
    wW (h' c) (p' c) <= wW (h c) (p c) -> tot h' p' c = tot h p c - 1 -> mstep
| ms_free : mrl M <= 1 -> mlocked M' = false -> mrl M' = 0 -> Q' = [] -> oth -> tot h' p' c = tot h p c - 1 -> mstep
| ms_grant (rd : bool) P : mrl M <= 1 -> mlocked M' = true -> NoDup P -> P <> [] -> ~ In c P ->
    (forall x, x <> c -> h' x = h x) -> (forall x, x <> c -> ~ In x P -> p' x = p x) -> (forall x, In x P -> p' x = Some rd) ->
    (rd = false -> exists x, P = [x]) -> mrl M' = (if rd then Z.of_nat (length P) else 0) -> tot h' p' c = tot h p c - 1 -> mstep
| ms_reset : rs -> mlocked M' = false -> mrl M' = 0 -> Q' = [] -> (forall x, tot h' p' x = 0) -> mstep.

Lemma mstep_ok : ok M Q h p -> mstep -> ok M' Q' h' p'.
Proof.
  intros O ST.
  destruct ST as [L R QE OT W1 W2 _|rd OT L D W1 W2|L R L1 R1 OT W1 W2|R L1 R1 QE OT W2|rd P R L1 ND NP NC OH OP GP SG R1 W2|RS0 L1 R1 QE Z0].
  - eapply (ok_mono M Q h p); try eassumption. intros x. destruct (Z.eq_dec x c) as [->|N]; [auto|]. destruct (OT x N) as [-> ->]. lia.
  - destruct rd.
    + destruct D as [D1 D2]. eapply (ok_takeR c M Q h p); try eassumption; [|lia|lia]. intros x N. destruct (OT x N) as [-> ->]. lia.
    + destruct D as [D1 D2]. eapply (ok_takeW c M Q h p); try eassumption; [|lia|lia]. intros x N. destruct (OT x N) as [-> ->]. lia.
  - eapply (ok_relR c M Q h p); try eassumption; [|lia]. intros x N. destruct (OT x N) as [-> ->]. lia.
  - rewrite QE. apply ok_unlocked; [assumption..|]. eapply (ok_rel0 c M Q h p); try eassumption; [|lia].
    intros x N. unfold tot. destruct (OT x N) as [-> ->]. lia.
  - pose (p0 := fun x => if mem x P then p x else p' x).
    assert (PN : forall x, ~ In x P -> p0 x = p' x) by (intros x NI; unfold p0; apply mem_In_false in NI; rewrite NI; reflexivity).
    assert (PI : forall x, In x P -> p0 x = p x) by (intros x NI; unfold p0; apply mem_In in NI; rewrite NI; reflexivity).
    assert (Z0 : forall x, tot h' p0 x = 0).
    { eapply (ok_rel0 c M Q h p); try eassumption.
      - intros x N. unfold tot. rewrite (OH x N). destruct (in_dec Z.eq_dec x P) as [I|I]; [rewrite (PI x I) | rewrite (PN x I), (OP x N I)]; lia.
      - unfold tot in *. rewrite (PN c NC). lia. }
    destruct rd.
    + eapply (ok_grantR P M' Q' h' p0); try eassumption. intros x NI. rewrite (PN x NI). lia.
    + destruct (SG eq_refl) as (x0 & ->). eapply (ok_grantW x0 M' Q' h' p0); try eassumption; [|apply GP; left; reflexivity].
      intros x N. rewrite (PN x) by (intros [?|[]]; congruence). lia.
  - rewrite QE. apply ok_unlocked; assumption.
Qed.
Lemma mstep_lows : ~ dr -> ok M Q h p -> lows M h p -> mstep -> lows M' h' p'.
Proof.
  intros ND0 O LO ST.
  destruct ST as [L R QE OT W1 W2 EQ|rd OT L D W1 W2|L R L1 R1 OT W1 W2|R L1 R1 QE OT W2|rd P R L1 ND NP NC OH OP GP SG R1 W2|RS0 L1 R1 QE Z0].
  - intros L0. unfold cap. rewrite L, R. eapply low_ext; [apply LO; congruence|]. intros x. unfold tot.
    destruct (Z.eq_dec x c) as [->|N]; [destruct EQ as [|[-> ->]]; [contradiction | reflexivity]|]. destruct (OT x N) as [-> ->]. reflexivity.
  - intros _.
    assert (ONE : mlocked M = false -> cap M' = 1 -> low (tot h' p') (cap M')).
    { intros _ ->. exists [c]. split; [constructor; [intros [] | constructor]|]. cbn. unfold tot. pose proof (wW_pos (h c) (p c)). pose proof (wR_pos (h c) (p c)).
      destruct rd; lia. }
    destruct (mlocked M) eqn:LM; [|apply ONE; [reflexivity|]; destruct (ok_free _ _ _ _ O LM) as [R0 _]; unfold cap; rewrite L; destruct rd; destruct D as [D1 D2]; rewrite D2, R0; reflexivity].
    destruct rd; [|destruct D; discriminate]. destruct D as [[D1|D1] D2]; [discriminate D1|].
    assert (CP : cap M' = cap M + 1).
    { unfold cap. rewrite L, LM, D2. destruct (Z.eqb_spec (mrl M) 0); [contradiction|]. pose proof (ok_pos _ _ _ _ O). destruct (Z.eqb_spec (mrl M + 1) 0); lia. }
    rewrite CP. eapply (low_pt (tot h p) _ c); [apply LO; exact LM | apply tot_pos | | unfold tot; lia].
    intros x N. unfold tot. destruct (OT x N) as [-> ->]. reflexivity.
  - intros _. assert (CP : cap M' = cap M + -1).
    { unfold cap. rewrite L1, L, R1. destruct (Z.eqb_spec (mrl M) 0); [lia|]. destruct (Z.eqb_spec (mrl M - 1) 0); lia. }
    rewrite CP. eapply (low_pt (tot h p) _ c); [apply LO; exact L | apply tot_pos | | lia].
    intros x N. unfold tot. destruct (OT x N) as [-> ->]. reflexivity.
  - intros K. congruence.
  - eapply (lows_grant P); [exact ND | |].
    + unfold cap. rewrite L1, R1. destruct rd.
      * destruct (Z.eqb_spec (Z.of_nat (length P)) 0); [destruct P; [congruence | cbn in e; lia] | reflexivity].
      * destruct (SG eq_refl) as (x & ->). reflexivity.
    + intros x IX. unfold tot. rewrite (GP x IX). unfold wW, wR. destruct (h' x), rd; lia.
  - intros K. congruence.
Qed.
End Step.
