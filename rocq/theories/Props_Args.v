(** C46: coroutine arguments. *)
From Coq Require Import List ZArith Bool Lia.
From Verif Require Import Args.
Import ListNotations.
Local Open Scope nat_scope.

Definition writable (n : nat) (r : argrec) (h : heap) : Prop :=
  match argv r with
  | ANull => n = 0
  | AInline => n <= NARGV
  | AHeap a => exists k m, h a = Some (k, m) /\ n <= k
  end.
Lemma awrite_ok : forall i v r h n, writable n r h -> i < n -> exists r' h', awrite i v r h = Some (r', h') /\ writable n r' h' /\
  argc r' = argc r /\ aread i r' h' = Some v /\ (forall j, j <> i -> aread j r' h' = aread j r h).
Proof.
  intros i v r h n W L. unfold writable, awrite in *. destruct (argv r) as [| |a] eqn:A.
  - lia.
  - destruct (Nat.ltb_spec i NARGV); [|lia]. do 2 eexists. split; [reflexivity|]. unfold aread. cbn [argv aargv argc]. rewrite ?A. split; [exact W|]. split; [reflexivity|].
    split; [destruct (Nat.ltb_spec i NARGV); [rewrite Nat.eqb_refl; reflexivity | lia]|]. intros j NE.
    destruct (Nat.eqb_spec j i); [contradiction | reflexivity].
  - destruct W as (k & m & H & W). rewrite H. destruct (Nat.ltb_spec i k); [|lia]. do 2 eexists. split; [reflexivity|]. unfold aread. rewrite A. unfold hset.
    rewrite Nat.eqb_refl. split; [eauto|]. split; [reflexivity|]. rewrite H. split.
    + destruct (Nat.ltb_spec i k); [rewrite Nat.eqb_refl; reflexivity | lia].
    + intros j NE. destruct (Nat.eqb_spec j i); [contradiction | reflexivity].
Qed.
Lemma acopy_ok : forall n i src r h, writable (i + n) r h -> exists r' h', acopy n i src r h = Some (r', h') /\ argc r' = argc r /\
  (forall j, i <= j < i + n -> aread j r' h' = Some (src j)) /\ (forall j, j < i -> aread j r' h' = aread j r h).
Proof.
  induction n as [|n IH]; intros i src r h W; cbn [acopy].
  - do 2 eexists. split; [reflexivity|]. split; [reflexivity|]. split; [intros; lia | auto].
  - destruct (awrite_ok i (src i) r h _ W ltac:(lia)) as (r1 & h1 & E & W1 & C1 & R1 & O1). rewrite E.
    replace (i + S n) with (S i + n) in W1 by lia. destruct (IH (S i) src r1 h1 W1) as (r2 & h2 & E2 & C2 & R2 & O2).
    exists r2, h2. split; [exact E2|]. split; [congruence|]. split.
    + intros j J. destruct (Nat.eq_dec j i) as [->|NE]; [rewrite O2 by lia; exact R1 | apply R2; lia].
    + intros j J. rewrite O2 by lia. apply O1. lia.
Qed.
Lemma areads_ok : forall n i src r h, (forall j, i <= j < i + n -> aread j r h = Some (src j)) -> areads n i r h = Some (map src (seq i n)).
Proof.
  induction n as [|n IH]; intros i src r h H; cbn; [reflexivity|]. rewrite (H i) by lia. rewrite (IH (S i) src) by (intros; apply H; lia). reflexivity.
Qed.

(** The coroutine function receives exactly the arguments given to neco_start (the
    variadic ones) or neco_startv (the array), in order, for every number of them,
    whatever the recycled coroutine record and the heap contained. The only other
    outcome is NECO_NOMEM; nothing is ever read or written out of bounds. *)
Theorem C46_arguments : forall args m r h,
  match set_args (length args) (fun i => nth i args 0%Z) m r h with
  | ADone r' h' => received r' h' = Some (length args, args)
  | ANomem => NARGV < length args
  | AUB => False
  end.
Proof.
  intros args m r h. unfold set_args.
  assert (G : forall r0 h0, argc r0 = length args -> writable (length args) r0 h0 ->
    match (match acopy (length args) 0 (fun i => nth i args 0%Z) r0 h0 with Some (r', h') => ADone r' h' | None => AUB end) with
    | ADone r' h' => received r' h' = Some (length args, args) | ANomem => NARGV < length args | AUB => False end).
  { intros r0 h0 C W. destruct (acopy_ok (length args) 0 (fun i => nth i args 0%Z) r0 h0 W) as (r1 & h1 & E & C1 & R1 & _). rewrite E.
    unfold received. rewrite C1, C. rewrite (areads_ok _ _ (fun i => nth i args 0%Z)) by exact R1. f_equal. f_equal.
    clear. induction args as [|x l IH]; [reflexivity|]. cbn [length seq map nth]. rewrite <- seq_shift, map_map. cbn. f_equal. exact IH. }
  destruct (Nat.leb_spec (length args) NARGV).
  - apply G; [reflexivity|]. unfold writable. cbn. exact H.
  - destruct m as [a|]; [|exact H]. destruct (h a) eqn:HA; [exact H|]. apply G; [reflexivity|].
    unfold writable. cbn [argv]. unfold hset. rewrite Nat.eqb_refl. do 2 eexists. split; [reflexivity | lia].
Qed.
(** malloc0's success is all that is needed. *)
Theorem C46_arguments_total : forall args a r h, h a = None ->
  exists r' h', set_args (length args) (fun i => nth i args 0%Z) (Some a) r h = ADone r' h'.
Proof.
  intros args a r h H. pose proof (C46_arguments args (Some a) r h) as P. destruct (set_args _ _ _ _ _) eqn:E; [eauto| |contradiction].
  exfalso. unfold set_args in E. destruct (Nat.leb_spec (length args) NARGV); [lia|]. rewrite H in E. destruct (acopy _ _ _ _ _) as [[? ?]|]; discriminate.
Qed.
(** Freeing them afterwards is defined, releases the block if there was one, touches no
    other block, and may be repeated. *)
Theorem C46_freed : forall args m r h r' h', set_args (length args) (fun i => nth i args 0%Z) m r h = ADone r' h' ->
  exists r2 h2, free_args r' h' = Some (r2, h2) /\ argv r2 = ANull /\ (forall b, h2 b = h b) /\ free_args r2 h2 = Some (r2, h2).
Proof.
  intros args m r h r' h' E.
  assert (KP : forall n i src r0 h0 r1 h1, acopy n i src r0 h0 = Some (r1, h1) -> argv r1 = argv r0 /\
     match argv r0 with AHeap a => (forall b, b <> a -> h1 b = h0 b) /\ (h0 a <> None -> h1 a <> None) | _ => forall b, h1 b = h0 b end).
  { induction n as [|n IH]; intros i src r0 h0 r1 h1 Q; cbn [acopy] in Q.
    - injection Q as <- <-. split; [reflexivity|]. destruct (argv r0); auto.
    - destruct (awrite i (src i) r0 h0) as [[r2 h2]|] eqn:W; [|discriminate]. apply IH in Q. destruct Q as [Q1 Q2]. unfold awrite in W.
      destruct (argv r0) as [| |a] eqn:A; [discriminate| |].
      + destruct (_ <? _); [|discriminate]. injection W as <- <-. cbn in Q1, Q2. rewrite ?A in Q1, Q2. rewrite Q1. split; [reflexivity | exact Q2].
      + destruct (h0 a) as [[k mm]|] eqn:HA; [|discriminate]. destruct (_ <? _); [|discriminate]. injection W as <- <-. rewrite A in Q1, Q2. rewrite Q1. split; [reflexivity|].
        destruct Q2 as [Q2 Q3]. split.
        * intros b NE. rewrite Q2 by exact NE. unfold hset. destruct (Nat.eqb_spec b a); [contradiction | reflexivity].
        * intros _. apply Q3. unfold hset. rewrite Nat.eqb_refl. discriminate. }
  unfold set_args in E. destruct (_ <=? _).
  - destruct (acopy _ _ _ _ _) as [[r1 h1]|] eqn:Q; [|discriminate]. injection E as <- <-. apply KP in Q. cbn in Q. destruct Q as [Q1 Q2].
    unfold free_args. rewrite Q1. do 2 eexists. split; [reflexivity|]. split; [reflexivity|]. split; [exact Q2 | reflexivity].
  - destruct m as [a|]; [|discriminate]. destruct (h a) eqn:HA; [discriminate|]. destruct (acopy _ _ _ _ _) as [[r1 h1]|] eqn:Q; [|discriminate]. injection E as <- <-.
    apply KP in Q. cbn [argv] in Q. destruct Q as (Q1 & Q2 & Q3). unfold free_args. rewrite Q1.
    destruct (h1 a) eqn:H1; [|exfalso; apply Q3; [unfold hset; rewrite Nat.eqb_refl; discriminate | reflexivity]].
    do 2 eexists. split; [reflexivity|]. split; [reflexivity|]. split; [|reflexivity].
    intros b. unfold hset at 1. destruct (Nat.eqb_spec b a) as [->|NE]; [congruence|]. rewrite Q2 by exact NE. unfold hset. destruct (Nat.eqb_spec b a); [contradiction | reflexivity].
Qed.
(** Non-vacuity: six arguments, a recycled record with stale inline values. *)
Example C46_example : match set_args 6 (fun i => nth i [11; 12; 13; 14; 15; 16]%Z 0%Z) (Some 3) (mkar (fun _ => 99%Z) ANull 0) (fun _ => None) with
  | ADone r h => received r h = Some (6, [11; 12; 13; 14; 15; 16]%Z) | _ => False end.
Proof. vm_compute. reflexivity. Qed.
Print Assumptions C46_arguments.
Print Assumptions C46_arguments_total.
Print Assumptions C46_freed.
