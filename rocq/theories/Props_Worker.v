(** C37: the background worker pool. *)
From Coq Require Import List ZArith Bool Lia.
From Verif Require Import ChanMem Props_ChanMem Worker.
Import ListNotations.
Local Open Scope Z_scope.

(** * Specification vocabulary: the log of a run, newest event first *)
Fixpoint accepted (i : nat) (l : list wobs) : list Z :=
  match l with [] => [] | WAccept k j :: r => accepted i r ++ (if Nat.eqb k i then [j] else []) | _ :: r => accepted i r end.
Fixpoint begun (i : nat) (l : list wobs) : list Z :=
  match l with [] => [] | WBegin k j :: r => begun i r ++ (if Nat.eqb k i then [j] else []) | _ :: r => begun i r end.
Fixpoint ended (i : nat) (l : list wobs) : list Z :=
  match l with [] => [] | WEnd k j :: r => ended i r ++ (if Nat.eqb k i then [j] else []) | _ :: r => ended i r end.
(** the number of entries a thread's queue is configured to hold *)
Definition entries (nentries : Z) : Z := if nentries <=? 0 then 32 else if 65536 <? nentries then 65536 else nentries.
(** pthread_create always succeeds *)
Definition creates (e : wevent) : Prop := match e with WSubmit _ _ _ c => c = CrOk | _ => True end.

Definition winv (ne : Z) (p : wpool) : Prop := forall i, let t := threads p i in
  exists l, holds (wq t) l /\ accepted i (wlog p) = begun i (wlog p) ++ l /\ bcap (wq t) = entries ne /\
    begun i (wlog p) = ended i (wlog p) ++ match wph t with WRun j => [j] | _ => [] end /\
    (wth t = true <-> wph t <> WGone) /\ (wph t = WGone -> l = []) /\
    (forall l1 j l2, wlog p = l1 ++ WRefuse i j :: l2 -> Z.of_nat (length (accepted i l2)) = Z.of_nat (length (begun i l2)) + entries ne).

Lemma entries_pos : forall n, 0 < entries n.
Proof. intros n. unfold entries. destruct (Z.leb_spec n 0), (Z.ltb_spec 65536 n); lia. Qed.
Lemma holds_len : forall b l, holds b l -> blen b = Z.of_nat (length l).
Proof. intros b l H. unfold holds in H. tauto. Qed.
Lemma winv_init : forall n ne, winv ne (worker_new n ne).
Proof.
  intros n ne i. cbn zeta. exists []. unfold worker_new. cbn -[ring0]. pose proof (entries_pos ne) as P. fold (entries ne).
  split; [apply C01_ring_empty; lia|]. split; [reflexivity|]. split; [reflexivity|]. split; [reflexivity|]. split; [split; congruence|]. split; [reflexivity|].
  intros l1 j l2 E. destruct l1; discriminate.
Qed.
Lemma cons_split : forall (A : Type) (o : A) L l1 x l2, o :: L = l1 ++ x :: l2 -> (l1 = [] /\ o = x /\ L = l2) \/ exists l1', l1 = o :: l1' /\ L = l1' ++ x :: l2.
Proof. intros A o L [|y l1] x l2 E; injection E as -> E; [left; auto | right; eexists; eauto]. Qed.
Lemma winv_step : forall ne p e, winv ne p -> creates e -> winv ne (wstep p e).
Proof.
  intros ne p e I C i. pose proof (I i) as (l & H & A & B & R & T & G & F). cbn zeta.
  pose proof (holds_len _ _ H) as HL.
  destruct e as [u pin job cr|k|k]; cbn [wstep creates] in *.
  - subst cr. unfold submit. set (c := chosen p u pin). cbn [threads nth_ nexts wlog]. destruct (Z.ltb_spec (blen (wq (threads p c))) (bcap (wq (threads p c)))) as [L|L].
    + destruct (Nat.eqb_spec c i) as [->|NE].
      * exists (l ++ [job]). destruct (C01_ring_push _ _ job H L) as [H' _].
        assert (NF : forall X l1 j l2, X = WAccept i job -> X :: wlog p = l1 ++ WRefuse i j :: l2 -> Z.of_nat (length (accepted i l2)) = Z.of_nat (length (begun i l2)) + entries ne).
        { intros X l1 j l2 -> E. apply cons_split in E. destruct E as [(_ & E & _)|(l1' & _ & E)]; [discriminate | eapply F; exact E]. }
        destruct (wth (threads p i)) eqn:TH; cbn [logw setw threads wlog wq wth wend wph accepted begun ended]; rewrite Nat.eqb_refl; cbn [wq wth wend wph].
        -- split; [exact H'|]. split; [rewrite A, app_assoc; reflexivity|]. split; [exact B|]. split; [exact R|]. split; [exact T|].
           split; [intros Q; apply T in Q; [contradiction | reflexivity]|]. intros l1 j l2. apply NF. reflexivity.
        -- split; [exact H'|]. split; [rewrite A, app_assoc; reflexivity|]. split; [exact B|].
           assert (GN : wph (threads p i) = WGone) by (destruct (wph (threads p i)); try reflexivity; exfalso; assert (false = true) by (apply T; discriminate); discriminate).
           rewrite GN in R. split; [exact R|]. split; [split; congruence|].
           split; [intros Q; discriminate|]. intros l1 j l2. apply NF. reflexivity.
      * exists l. assert (E1 : forall X, threads (setw c X p) i = threads p i) by (intros X; cbn; destruct (Nat.eqb_spec i c); [congruence | reflexivity]).
        destruct (wth (threads p c)); cbn [logw setw threads wlog accepted begun ended];
          (destruct (Nat.eqb_spec i c); [congruence|]); (destruct (Nat.eqb_spec c i); [congruence|]); rewrite ?app_nil_r;
          (repeat (split; [assumption|])); intros l1 j l2 E; (apply cons_split in E; destruct E as [(_ & E & _)|(l1' & _ & E)]; [discriminate | eapply F; exact E]).
    + exists l. cbn [logw threads wlog accepted begun ended]. repeat (split; [assumption|]).
      intros l1 j l2 E. apply cons_split in E. destruct E as [(_ & E & E2)|(l1' & _ & E)]; [|eapply F; exact E]. injection E as E _. subst l2.
      rewrite E in L. rewrite A, app_length, B in *. destruct H as (_ & H). lia.
  - unfold work_turn. destruct (Nat.eq_dec k i) as [->|NE].
    + assert (T' : wph (threads p i) <> WGone -> wth (threads p i) = true) by (apply T). destruct (wph (threads p i)) as [| | |job] eqn:PH.
      * exists l. rewrite PH. repeat (split; [assumption|]). exact F.
      * destruct (Z.ltb_spec 0 (blen (wq (threads p i)))) as [L|L].
        -- destruct l as [|v l]; [cbn in HL; lia|]. destruct (C01_ring_pop _ _ _ H) as (V & H' & _). destruct (cbuf_pop (wq (threads p i))) as [job q] eqn:PO.
           cbn [fst snd] in V, H'. subst job. exists l. cbn [logw setw threads wlog accepted begun ended]. rewrite Nat.eqb_refl. cbn [wq wth wend wph].
           split; [exact H'|]. split; [rewrite A, <- app_assoc; reflexivity|]. split; [unfold cbuf_pop in PO; injection PO as _ <-; exact B|].
           split; [rewrite R, app_nil_r; reflexivity|]. split; [split; [congruence | intros _; apply T'; discriminate]|]. split; [discriminate|].
           intros l1 j l2 E. apply cons_split in E. destruct E as [(_ & E & _)|(l1' & _ & E)]; [discriminate | eapply F; exact E].
        -- exists l. cbn [setw threads wlog]. rewrite Nat.eqb_refl. cbn [wq wth wend wph]. split; [exact H|]. split; [exact A|]. split; [exact B|]. split; [exact R|].
           split; [split; [congruence | intros _; apply T'; discriminate]|]. split; [discriminate | exact F].
      * destruct (Z.eqb_spec (blen (wq (threads p i))) 0) as [L|L]; exists l; cbn [setw threads wlog]; rewrite Nat.eqb_refl; cbn [wq wth wend wph].
        -- split; [exact H|]. split; [exact A|]. split; [exact B|]. split; [exact R|]. split; [split; congruence|]. split; [|exact F].
           intros _. destruct l; [reflexivity | cbn in HL; lia].
        -- split; [exact H|]. split; [exact A|]. split; [exact B|]. split; [exact R|]. split; [split; [congruence | intros _; apply T'; discriminate]|]. split; [discriminate | exact F].
      * exists l. cbn [logw setw threads wlog accepted begun ended]. rewrite Nat.eqb_refl. cbn [wq wth wend wph]. split; [exact H|]. split; [exact A|]. split; [exact B|].
        split; [rewrite R, app_nil_r; reflexivity|]. split; [split; [congruence | intros _; apply T'; discriminate]|]. split; [discriminate|].
        intros l1 j l2 E. apply cons_split in E. destruct E as [(_ & E & _)|(l1' & _ & E)]; [discriminate | eapply F; exact E].
    + exists l. assert (NE1 : Nat.eqb i k = false) by (apply Nat.eqb_neq; congruence). assert (NE2 : Nat.eqb k i = false) by (apply Nat.eqb_neq; congruence).
      destruct (wph (threads p k)); [|destruct (0 <? _); [destruct (cbuf_pop _)|] |destruct (_ =? 0)|]; cbn [logw setw threads wlog accepted begun ended];
        rewrite ?NE1, ?NE2, ?app_nil_r; (repeat (split; [assumption|])); try exact F;
        intros l1 j l2 E; (apply cons_split in E; destruct E as [(_ & E & _)|(l1' & _ & E)]; [discriminate | eapply F; exact E]).
  - unfold shutdown. exists l. cbn [setw threads wlog]. destruct (Nat.eqb_spec i k) as [->|NE]; cbn [wq wth wend wph]; repeat (split; [assumption|]); exact F.
Qed.
Definition wrun (n ne : Z) (es : list wevent) : wpool := fold_left wstep es (worker_new n ne).
Lemma winv_run : forall n ne es, Forall creates es -> winv ne (wrun n ne es).
Proof.
  intros n ne es F. unfold wrun. assert (G : forall es p, winv ne p -> Forall creates es -> winv ne (fold_left wstep es p)).
  { clear. induction es as [|e es IH]; intros p I F; [exact I|]. cbn. inversion F; subst. apply IH; [apply winv_step; assumption | assumption]. }
  apply G; [apply winv_init | exact F].
Qed.

(** Each thread begins the jobs accepted for it in the order they were submitted, each
    once and none that was not accepted; and ends each job it began before beginning the
    next: what it has ended, is running and has queued is exactly what it accepted. *)
Theorem C37_in_order_exactly_once_partial : forall n ne es i, Forall creates es ->
  let L := wlog (wrun n ne es) in
  exists queued running, accepted i L = begun i L ++ queued /\ begun i L = ended i L ++ running /\
    (length running <= 1)%nat /\ Z.of_nat (length queued) <= entries ne.
Proof.
  intros n ne es i F L. destruct (winv_run n ne es F i) as (l & H & A & B & R & T & G & FF). subst L.
  eexists. eexists. split; [exact A|]. split; [exact R|]. split; [destruct (wph _); cbn; lia|].
  rewrite <- B. unfold holds in H. lia.
Qed.
(** A submission is refused only when the queue of the chosen thread is full: it has
    accepted and not yet begun as many jobs as the queue has entries. *)
Theorem C37_refused_only_if_full_partial : forall n ne es i, Forall creates es -> forall l1 j l2, wlog (wrun n ne es) = l1 ++ WRefuse i j :: l2 ->
  Z.of_nat (length (accepted i l2)) = Z.of_nat (length (begun i l2)) + entries ne.
Proof. intros n ne es i F. destruct (winv_run n ne es F i) as (l & H & A & B & R & T & G & FF). exact FF. Qed.
(** Nothing accepted is stranded: whatever happened before, once the thread gets enough
    turns everything it accepted has ended; and before shutdown returns (the thread is
    gone) everything accepted has ended. *)
Theorem C37_drains_partial : forall n ne es i, Forall creates es -> exists k,
  let L := wlog (fold_left wstep (repeat (WTurn i) k) (wrun n ne es)) in
  ended i L = accepted i (wlog (wrun n ne es)) /\ accepted i L = accepted i (wlog (wrun n ne es)).
Proof.
  intros n ne es i F. generalize (winv_run n ne es F). generalize (wrun n ne es). intros p I.
  assert (M : forall m p, winv ne p -> (2 * length (accepted i (wlog p)) - length (begun i (wlog p)) - length (ended i (wlog p)) + (match wph (threads p i) with WWait => 1 | _ => 0 end) <= m)%nat ->
     exists k, let L := wlog (fold_left wstep (repeat (WTurn i) k) p) in ended i L = accepted i (wlog p) /\ accepted i L = accepted i (wlog p)).
  { clear. induction m as [|m IH]; intros p I LE; pose proof (I i) as (l & H & A & B & R & T & G & _); cbn zeta in *; pose proof (holds_len _ _ H) as HL;
      assert (LN : length (accepted i (wlog p)) = (length (begun i (wlog p)) + length l)%nat) by (rewrite A at 1; apply app_length);
      assert (LN2 : length (begun i (wlog p)) = (length (ended i (wlog p)) + length (match wph (threads p i) with WRun j => [j] | _ => [] end))%nat) by (rewrite R at 1; apply app_length).
    - exists 0%nat. cbn. assert (l = []) by (destruct l; [reflexivity | cbn in LN; lia]). subst l. rewrite app_nil_r in A. split; [|reflexivity].
      rewrite A, R. destruct (wph (threads p i)); rewrite ?app_nil_r; try reflexivity. cbn in LN2, LN. lia.
    - assert (ST : accepted i (wlog (wstep p (WTurn i))) = accepted i (wlog p)).
      { cbn [wstep]. unfold work_turn. destruct (wph _); [|destruct (0 <? _); [destruct (cbuf_pop _)|] |destruct (_ =? 0)|]; reflexivity. }
      assert (GO : (2 * length (accepted i (wlog (wstep p (WTurn i)))) - length (begun i (wlog (wstep p (WTurn i)))) - length (ended i (wlog (wstep p (WTurn i)))) + (match wph (threads (wstep p (WTurn i)) i) with WWait => 1 | _ => 0 end) <= m)%nat ->
         exists k, let L := wlog (fold_left wstep (repeat (WTurn i) k) p) in ended i L = accepted i (wlog p) /\ accepted i L = accepted i (wlog p)).
      { intros Q. destruct (IH _ (winv_step _ _ (WTurn i) I Logic.I) Q) as (k & K1 & K2). exists (Datatypes.S k). cbn [repeat fold_left]. rewrite ST in K1, K2. split; assumption. }
      destruct (wph (threads p i)) as [| | |job] eqn:PH; cbn [length] in *.
      + exists 0%nat. cbn. rewrite (G eq_refl), app_nil_r in A. rewrite app_nil_r in R. split; congruence.
      + destruct l as [|v l].
        * exists 0%nat. cbn. rewrite app_nil_r in A, R. split; congruence.
        * apply GO. rewrite ST. cbn [wstep]. unfold work_turn. rewrite PH. cbn [length] in HL. destruct (Z.ltb_spec 0 (blen (wq (threads p i)))); [|lia].
          destruct (cbuf_pop _) as [job q]. cbn [logw setw threads wlog begun ended]. rewrite Nat.eqb_refl. cbn [wph]. rewrite app_length. cbn [length] in *. lia.
      + destruct l as [|v l].
        * exists 0%nat. cbn. rewrite app_nil_r in A, R. split; congruence.
        * apply GO. rewrite ST. cbn [wstep]. unfold work_turn. rewrite PH. cbn [length] in HL. destruct (Z.eqb_spec (blen (wq (threads p i))) 0); [lia|].
          cbn [setw threads wlog begun ended]. rewrite Nat.eqb_refl. cbn [wph length] in *. lia.
      + apply GO. rewrite ST. cbn [wstep]. unfold work_turn. rewrite PH. cbn [logw setw threads wlog begun ended]. rewrite Nat.eqb_refl. cbn [wph]. rewrite app_length. cbn [length] in *. lia. }
  exact (M _ p I (le_n _)).
Qed.
Theorem C37_gone_is_done_partial : forall n ne es i, Forall creates es -> wph (threads (wrun n ne es) i) = WGone ->
  ended i (wlog (wrun n ne es)) = accepted i (wlog (wrun n ne es)).
Proof.
  intros n ne es i F PH. destruct (winv_run n ne es F i) as (l & H & A & B & R & T & G & FF). cbn zeta in *. rewrite PH in *. rewrite (G eq_refl), app_nil_r in A.
  rewrite app_nil_r in R. congruence.
Qed.
(** A pinned submission goes to the thread numbered by the pin modulo the number of threads. *)
Theorem C37_pinned : forall u pin job cr p, 0 <= pin -> (0 < nth_ p)%nat ->
  exists o, wlog (wstep p (WSubmit u pin job cr)) = o :: wlog p /\ let i := Z.to_nat (pin mod Z.of_nat (nth_ p)) in (i < nth_ p)%nat /\ (o = WAccept i job \/ o = WRefuse i job).
Proof.
  intros u pin job cr p P N. cbn [wstep]. unfold submit. cbn [threads nth_ nexts wlog].
  assert (E : chosen p u pin = Z.to_nat (pin mod Z.of_nat (nth_ p))) by (unfold chosen; destruct (Z.ltb_spec pin 0); [lia | reflexivity]). rewrite E.
  assert (LT : (Z.to_nat (pin mod Z.of_nat (nth_ p)) < nth_ p)%nat) by (pose proof (Z.mod_pos_bound pin (Z.of_nat (nth_ p))); lia).
  destruct (_ <? _); [destruct (wth _); [|destruct cr]|]; eexists; (split; [cbn; reflexivity|]); cbn zeta; auto.
Qed.
(** What is missing for the full claim: if pthread_create fails, the code does not notice
    (POSIX reports failure by a positive number, the code compares with -1). The job is
    accepted and never runs, however many turns the threads get. *)
Theorem C37_create_failure_refuted : exists es i, let p := wrun 1 0 es in
  accepted i (wlog p) = [7] /\ forall k, begun i (wlog (fold_left wstep (repeat (WTurn i) k) p)) = [].
Proof.
  exists [WSubmit 0 0 7 (CrErr true)], 0%nat. cbn zeta. split; [reflexivity|]. intros k.
  assert (FX : forall k p, wph (threads p 0%nat) = WGone -> fold_left wstep (repeat (WTurn 0) k) p = p).
  { clear. induction k as [|k IH]; intros p H; [reflexivity|]. cbn [repeat fold_left wstep]. unfold work_turn. rewrite H. apply IH. exact H. }
  rewrite FX; reflexivity.
Qed.
(** And in the branch the code does check, the refused job stays in the queue and runs
    once a later submission starts the thread. *)
Theorem C37_refused_but_run_refuted : exists es, let L := wlog (wrun 1 0 es) in In (WRefuse 0 7) L /\ ~ In (WAccept 0 7) L /\ begun 0 L = [7].
Proof.
  exists [WSubmit 0 0 7 (CrMinus1 false); WSubmit 0 0 8 CrOk; WTurn 0]. cbn. split; [auto|]. split; [|reflexivity].
  intros [H|[H|[H|[]]]]; discriminate.
Qed.
(** Non-vacuity: two threads, two submitters, a full queue, a thread that times out and
    is started again. *)
Example C37_example : let es := [WSubmit 0 (-1) 1 CrOk; WSubmit 0 0 2 CrOk; WTurn 0; WSubmit 1 0 3 CrOk; WSubmit 1 0 4 CrOk; WTurn 0; WTurn 0; WTurn 0; WTurn 0; WTurn 0; WTurn 0; WTurn 0; WSubmit 0 0 5 CrOk; WTurn 0] in
  Forall creates es /\ rev (wlog (wrun 2 2 es)) =
    [WAccept 0 1; WAccept 0 2; WBegin 0 1; WAccept 0 3; WRefuse 0 4; WEnd 0 1; WBegin 0 2; WEnd 0 2; WBegin 0 3; WEnd 0 3; WAccept 0 5; WBegin 0 5].
Proof. cbn zeta. split; [repeat constructor | vm_compute; reflexivity]. Qed.
Print Assumptions C37_in_order_exactly_once_partial.
Print Assumptions C37_refused_only_if_full_partial.
Print Assumptions C37_drains_partial.
Print Assumptions C37_gone_is_done_partial.
Print Assumptions C37_pinned.
Print Assumptions C37_create_failure_refuted.
Print Assumptions C37_refused_but_run_refuted.
