(** C01, C02, C03, C04: channels.
    [reach s]: [s] is the state after some history of a freshly started runtime.
    [sends ch t], [receives ch t] (ChanSpec): the calls to neco_chan_send on [ch], to
    neco_chan_recv and neco_chan_tryrecv on [ch] that have not failed, in the order in
    which they were made. [simple_chan ch t] (ChanSpec): on [ch] nobody gives a
    deadline, broadcasts or selects; cancels have no deadlines and spare the coroutines
    that use [ch]. [orderly ch s] (below): that, or no call on [ch] failed by a cancel or a
    deadline. [spared t x] (CancelOrd): no cancel was aimed at [x], nor at a
    coroutine that had ended when [x] was started (whose record, with its pending
    cancellation, [x] may have taken over). *)
From Coq Require Import List ZArith Bool Lia Permutation.
From Verif Require Import AATreeSpec AATreeHist Util Runtime SchedInv StepInv StackShape RuntimeSpec TraceInv Immediate Prims StaticInv Footprint QueueInv OwnInv WaitInv CallInv SpecInv TraceStep Wake Awake DeadlineInv AllInv PausedInv ResultInv JoinInv WaiterInv DldInv CancelInv CancelOrd CancelSt MutexEff MutexTok MutexRt MutexOrd MutexLeak AtCall WgInv ChanShape ChanSpec ChanLists ChanEff ChanQuiet ChanFifo ChanLeak ChanProv ChanStatic GenInv ChanOrder BlockSpec Promise OneStep Stuck Scripts Props_Mutex.
Import ListNotations.
Local Open Scope Z_scope.

(** [ch] is the handle that a successful neco_chan_make with capacity [n] has returned *)
Definition chan_made (s : state) (ch : nat) (n : Z) : Prop := exists k c t, In (TRet k c (OpChMake n) OK (Z.of_nat ch) t) (tr s).
Definition is_recv (ch : nat) (o : op) : Prop := match o with OpRecv ch' _ | OpTryRecv ch' => ch' = ch | _ => False end.
Lemma is_recv_isr : forall ch o, is_recv ch o <-> isr ch o = true.
Proof. intros ch o. destruct o; cbn; try rewrite Nat.eqb_eq; intuition discriminate. Qed.

(** ** The invariant of plain channels *)
Definition fiP (ch : nat) (s : state) V Rsat Rq Rx Sacc Sx : Prop := fiW (fun _ => None) s ch (receives ch (tr s)) (sends ch (tr s)) V Rsat Rq Rx Sacc Sx.
Lemma put_plain : forall ch x o, put_of (fun _ => None) ch x o = send_of ch x o.
Proof. intros ch x o. destruct o; reflexivity. Qed.
Lemma live_sel : forall A (sel sel' : Z -> op -> option A) t, (forall c o, sel c o = sel' c o) -> live sel t = live sel' t.
Proof. intros. apply live_ext. auto. Qed.
Lemma put_gen : forall G ch x o, (forall y, G y <> Some ch) -> put_of G ch x o = send_of ch x o.
Proof. intros G ch x o H. destruct o; try reflexivity. cbn. destruct (G x) as [g|] eqn:E; [|reflexivity]. destruct (Nat.eqb_spec g ch) as [->|]; [destruct (H _ E) | reflexivity]. Qed.
Lemma simple_gen : forall G ch t, (forall y, G y <> Some ch) -> simple_chan ch t -> simple_on G ch t.
Proof.
  intros G ch t H [[N0 N1] N2]. split.
  { split; [exact N0|]. intros k c o tm IN U. eapply N1; [exact IN|]. destruct o; try exact U. destruct (H _ U). }
  intros k c o tm IN. specialize (N2 _ _ _ _ IN). destruct o; try exact N2. intros E. destruct (H _ E).
Qed.
(** ** The discipline under which a channel keeps its order *)
(** nobody's call is just returning *)
Definition settled (s : state) : Prop := ~ over (mode s) /\ forall r, mode s <> MRet r.
(** [unfailing ch s]: nobody broadcasts or selects on [ch], and every send to and every
    receive from [ch] has returned with another result than NECO_CANCELED and
    NECO_TIMEDOUT, or its coroutine is still in that call. Deadlines may be given and
    anyone may be canceled, as long as no call on [ch] fails by it. *)
Definition unfailing (ch : nat) (s : state) : Prop :=
  plain_on ch (tr s) /\
  forall k x o tm, In (TCall k x o tm) (tr s) -> (exists m dl, o = OpSend ch m dl) \/ (exists dl, o = OpRecv ch dl) \/ o = OpTryRecv ch ->
    (exists r v t, In (TRet k x o r v t) (tr s) /\ r <> ECANCELED /\ r <> ETIMEDOUT) \/ exists w, at_call s x w k o.
Definition orderly (ch : nat) (s : state) : Prop := simple_chan ch (tr s) \/ (settled s /\ unfailing ch s).
Lemma orderly_plain : forall ch s, orderly ch s -> plain_on ch (tr s).
Proof. intros ch s [H|[_ [H _]]]; [eapply simple_plain; exact H | exact H]. Qed.
Lemma ret_inj : forall s k x o r v t x' o' r' v' t', reach s -> In (TRet k x o r v t) (tr s) -> In (TRet k x' o' r' v' t') (tr s) -> r = r'.
Proof.
  intros s k x o r v t x' o' r' v' t' RE I1 I2. apply in_split in I1. destruct I1 as (l1 & l2 & E1). destruct (ci_ret _ (reach_cinv _ RE) _ _ _ _ _ _ _ _ E1) as (_ & N1 & _).
  rewrite E1 in I2. apply in_app_or in I2. destruct I2 as [I2|[I2|I2]]; [|congruence|destruct N1; unfold returned; eauto 8].
  apply in_split in I2. destruct I2 as (m1 & m2 & ->). rewrite <- app_assoc in E1. destruct (ci_ret _ (reach_cinv _ RE) _ _ _ _ _ _ _ _ E1) as (_ & N2 & _).
  destruct N2. do 5 eexists. apply in_or_app. right. left. reflexivity.
Qed.
Lemma unfailing_sound : forall G ch s, reach s -> settled s -> plain_on ch (tr s) ->
  (forall k x o tm, In (TCall k x o tm) (tr s) -> uses G ch x o -> (exists r v t, In (TRet k x o r v t) (tr s) /\ r <> ECANCELED /\ r <> ETIMEDOUT) \/ exists w, at_call s x w k o) ->
  sound G ch s.
Proof.
  intros G ch s RE (NO & NM) PL H. split; [exact NO|]. split; [exact PL|].
  intros [k x o r v t IN U B|k x o tm IN U NR NA|c k o v st M CU SK U B|c f rest NN CU TP FF FL].
  - pose proof IN as IR. apply in_split in IR. destruct IR as (l1 & l2 & E1).
    destruct (ci_ret _ (reach_cinv _ RE) _ _ _ _ _ _ _ _ E1) as ((t0 & IC & _) & _).
    assert (IC' : In (TCall k x o t0) (tr s)) by (rewrite E1; apply in_or_app; right; right; exact IC).
    destruct (H _ _ _ _ IC' U) as [(r' & v' & t' & IN' & N1 & N2)|(w & A)].
    + pose proof (ret_inj _ _ _ _ _ _ _ _ _ _ _ _ RE IN IN') as ->. destruct B; congruence.
    + destruct (at_tcall _ _ _ _ _ RE A) as [_ NR]. apply NR. unfold returned. eauto 8.
  - destruct (H _ _ _ _ IN U) as [(r' & v' & t' & IN' & _)|(w & A)]; [apply NR; unfold returned; eauto 8 | exact (NA _ _ A)].
  - exact (NM _ M).
  - assert (MU : mode s = MUser). { destruct (mode s) eqn:Q; try reflexivity; try (destruct (NO Logic.I)); [destruct (NM _ eq_refl) | congruence]. }
    assert (US : ustack (stk (sc s) c)) by (apply (proj2 (reach_full _ RE)); assumption).
    inversion US as [EQ|k0 st U0 EQ|st EQ]; rewrite <- EQ in TP; cbn in TP; injection TP as <- _; destruct FF; discriminate.
Qed.
Lemma orderly_gen : forall G ch s, reach s -> (forall y, G y <> Some ch) -> orderly ch s -> good G ch s.
Proof.
  intros G ch s RE NG [SI|(SE & PL & H)]; [left; apply simple_gen; assumption|]. right. apply unfailing_sound; auto.
  intros k x o tm IN U. apply (H _ _ _ _ IN). destruct o; cbn in U; try contradiction; try (subst; eauto 6; fail). destruct (NG _ U).
Qed.
Lemma plain : forall s ch n, reach s -> chan_made s ch n -> exists G, ginv G s /\ (forall y, G y <> Some ch) /\
  forall ch, good G ch s -> ordered G ch (tr s) /\ (~ over (mode s) -> fi G ch s).
Proof.
  intros s ch n RE (k & c & t & IN). destruct (reach_chans _ RE) as (G & GI & H & _). exists G. split; [exact GI|]. split; [|exact H].
  destruct (g3 _ _ GI _ _ _ _ _ IN) as (g & E & _ & NG). apply Nat2Z.inj in E. subst g. exact NG.
Qed.
Lemma plain_fi : forall s ch n, reach s -> chan_made s ch n -> orderly ch s -> ~ over (mode s) -> exists V Rsat Rq Rx Sacc Sx, fiP ch s V Rsat Rq Rx Sacc Sx.
Proof.
  intros s ch n RE MK SI NO. destruct (plain _ _ _ RE MK) as (G & GI & NG & H). destruct (H ch (orderly_gen _ _ _ RE NG SI)) as [_ FI].
  destruct (FI NO) as (V & Rsat & Rq & Rx & Sacc & Sx & F). exists V, Rsat, Rq, Rx, Sacc, Sx. unfold fiP, receives, sends.
  rewrite (live_sel _ (send_of ch) (put_of G ch)) by (intros; symmetry; apply put_gen, NG).
  destruct F as [F1 F2 F3 F4 F5 F6 F7 F8 F9 F10 F11]. constructor; auto. eapply Forall_impl; [|exact F8]. intros p (x & o & m & AC & PU & R). exists x, o, m. rewrite put_plain, <- (put_gen G) by exact NG. auto.
Qed.

(** the messages that neco_chan_recv and neco_chan_tryrecv on [ch] have returned with
    NECO_OK, and the messages of all neco_chan_send calls on [ch], whatever they returned *)
Definition received (ch : nat) (t : list obs) : list Z :=
  flat_map (fun z => match z with TRet _ _ (OpRecv g _) r v _ | TRet _ _ (OpTryRecv g) r v _ => if Nat.eqb g ch && (r =? 0) then [v] else [] | _ => [] end) t.
Definition offered (ch : nat) (t : list obs) : list Z :=
  flat_map (fun z => match z with TCall _ _ (OpSend g m _) _ => if Nat.eqb g ch then [m] else [] | _ => [] end) t.

(** ** C01 *)
(** A receive that has obtained a message obtained the message of the send with the
    same position: the n-th receive gets the n-th message. *)
Theorem C01_fifo : forall s ch n, reach s -> chan_made s ch n -> orderly ch s ->
  forall k c o v t, In (TRet k c o OK v t) (tr s) -> is_recv ch o ->
  exists i j, nth_error (receives ch (tr s)) i = Some (k, c) /\ nth_error (sends ch (tr s)) i = Some (j, v).
Proof.
  intros s ch n RE MK SI k c o v t IN IS. destruct (plain _ _ _ RE MK) as (G & GI & NG & H). destruct (H ch (orderly_gen _ _ _ RE NG SI)) as [OR _].
  destruct (OR _ _ _ _ _ IN (proj1 (is_recv_isr _ _) IS)) as (i & j & A & B). exists i, j. split; [exact A|]. unfold sends. rewrite (live_sel _ (send_of ch) (put_of G ch)) by (intros; symmetry; apply put_gen, NG). exact B.
Qed.
(** No send is taken twice: the positions of two different receives differ. *)
Lemma calls_fst : forall A (sel : Z -> op -> option A) t k a, In (k, a) (calls_of sel t) -> In k (callnos t).
Proof. intros A sel t k a IN. apply calls_of_in in IN. destruct IN as (c & o & tm & I & _). revert I. clear. induction t as [|z t IH]; [intros []|]. intros [->|I]; [left; reflexivity|]. destruct z; cbn; auto. Qed.
Lemma nodup_keep : forall A B (f : A -> B) (g : A -> bool) l, NoDup (map f l) -> NoDup (map f (filter g l)).
Proof.
  intros A B f g l. induction l as [|a l IH]; intros N; [constructor|]. cbn in N. apply NoDup_cons_iff in N. destruct N as [N1 N2]. cbn. destruct (g a); [|auto]. cbn. constructor; [|auto].
  intros IN. apply N1. apply in_map_iff in IN. destruct IN as (b & <- & IN). apply filter_In in IN. apply in_map, IN.
Qed.
Lemma nodup_calls : forall A (sel : Z -> op -> option A) t, NoDup (callnos t) -> NoDup (map fst (calls_of sel t)).
Proof.
  intros A sel t. induction t as [|z t IH]; intros N; [constructor|].
  destruct z; cbn [calls_of]; try (apply IH; exact N). unfold callnos in N. cbn in N. apply NoDup_cons_iff in N. destruct N as [N1 N2]. destruct (sel c o) as [a|]; [|rewrite app_nil_r; apply IH, N2].
  rewrite map_app. cbn [map fst]. apply NoDup_Add with (a := k) (l := map fst (calls_of sel t)); [rewrite <- (app_nil_r (map fst (calls_of sel t))) at 1; apply Add_app|].
  split; [apply IH, N2|]. intros IN. apply in_map_iff in IN. destruct IN as ([k' a'] & EQ & IN). cbn in EQ. subst k'. apply N1. apply (calls_fst _ _ _ _ _ IN).
Qed.
Theorem C01_once : forall s ch, reach s -> NoDup (map fst (receives ch (tr s))) /\ NoDup (map fst (sends ch (tr s))).
Proof. intros s ch RE. split; apply nodup_keep, nodup_calls, (ci_uc _ (reach_cinv _ RE)). Qed.

(** *** Nothing is invented and nothing is received twice, whatever fails *)
Lemma received_got : forall ch t, received ch t = got ch t.
Proof. intros ch t. unfold received, got. apply flat_map_ext. intros z. destruct z as [ | k c o r v tm | | | | | ]; try reflexivity. destruct o; reflexivity. Qed.
Lemma offered_given : forall G ch t, (forall y, G y <> Some ch) -> Permutation (given G ch t) (offered ch t).
Proof.
  intros G ch t NG. unfold given. induction t as [|z t IH]; [constructor|]. destruct z; try exact IH. cbn [calls_of]. rewrite map_app, put_gen by exact NG. rewrite Permutation_app_comm.
  change (offered ch (TCall k c o t0 :: t)) with (match o with OpSend g m _ => if Nat.eqb g ch then [m] else [] | _ => [] end ++ offered ch t). apply Permutation_app; [|exact IH].
  destruct o; cbn; try constructor. destruct (Nat.eqb ch0 ch); repeat constructor.
Qed.
(** Whatever is canceled, times out or fails, with buffered and unbuffered channels: the
    messages received from a channel are among the messages given to the sends on it, each
    counted as often as it was given (used without select and broadcast). So no receive
    obtains a message nobody sent and no send's message is received twice. *)
Theorem C01_source : forall s ch n, reach s -> chan_made s ch n -> plain_on ch (tr s) ->
  exists rest, Permutation (received ch (tr s) ++ rest) (offered ch (tr s)).
Proof.
  intros s ch n RE (k & c & t & IN) PL. destruct (reach_chans _ RE) as (G & GI & _ & H). destruct (H ch PL) as [(rest & P) _]. exists rest.
  rewrite received_got, P. apply offered_given. destruct (g3 _ _ GI _ _ _ _ _ IN) as (g & E & _ & NG). apply Nat2Z.inj in E. subst g. exact NG.
Qed.
Theorem C01_source_count : forall s ch n m, reach s -> chan_made s ch n -> plain_on ch (tr s) ->
  (count_occ Z.eq_dec (received ch (tr s)) m <= count_occ Z.eq_dec (offered ch (tr s)) m)%nat.
Proof.
  intros s ch n m RE MK PL. destruct (C01_source _ _ _ RE MK PL) as (rest & P). rewrite (Permutation_count_occ Z.eq_dec) in P. rewrite <- (P m), count_occ_app. lia.
Qed.
(** The messages still in the channel are not among those already received. *)
Theorem C01_source_held : forall s ch n, reach s -> chan_made s ch n -> plain_on ch (tr s) -> ~ over (mode s) ->
  exists rest, Permutation (received ch (tr s) ++ buf (chn (dt s) ch) ++ rest) (offered ch (tr s)).
Proof.
  intros s ch n RE (k & c & t & IN) PL NO. destruct (reach_chans _ RE) as (G & GI & _ & H). destruct (H ch PL) as [_ PV]. destruct (PV NO) as (_ & L & rest & _ & P).
  exists (map snd L ++ smsgs ch (dt s) ++ rest). destruct (g3 _ _ GI _ _ _ _ _ IN) as (g & E & _ & NG). apply Nat2Z.inj in E. subst g.
  rewrite received_got, <- (offered_given G ch (tr s) NG). pc.
Qed.

Lemma made_isch : forall s ch n, reach s -> ~ over (mode s) -> chan_made s ch n -> isch (dt s) ch /\ bufcap (chn (dt s) ch) = n.
Proof.
  intros s ch n RE NO (k & c & t & IN). destruct (st_mk _ (reach_cstat _ RE NO) _ _ _ _ _ IN) as (g & E & I & B). apply Nat2Z.inj in E. subst g. auto.
Qed.
Lemma isch_chk : forall d ch, chd d -> isch d ch -> chk_chan ch d = OK.
Proof. intros d ch (_ & _ & P) (_ & K). unfold chk_chan. rewrite K. destruct (Z.eqb_spec (rtid d) 0); [lia|]. rewrite Z.eqb_refl. reflexivity. Qed.
Lemma forall2_len : forall A B (R : A -> B -> Prop) l l', Forall2 R l l' -> length l = length l'.
Proof. intros A B R l l' F. induction F; cbn; congruence. Qed.
Lemma no_sx : forall G s ch l, (forall r, mode s <> MRet r) -> Forall (sx G s ch) l -> l = [].
Proof. intros G s ch l M F. destruct F as [|p l (x & o & m & _ & _ & r & MR & _) _]; [reflexivity | destruct (M _ MR)]. Qed.
Lemma fip_count : forall ch s V Rsat Rq Rx Sacc Sx, fiP ch s V Rsat Rq Rx Sacc Sx -> (forall r, mode s <> MRet r) ->
  length (sends ch (tr s)) = (length Rsat + length (buf (chn (dt s) ch)) + length (smsgs ch (dt s)))%nat /\ (length Rsat <= length (receives ch (tr s)))%nat.
Proof.
  intros ch s V Rsat Rq Rx Sacc Sx F M. split.
  - rewrite (f_s _ _ _ _ _ _ _ _ _ _ _ F), (no_sx _ _ _ _ M (f_sx _ _ _ _ _ _ _ _ _ _ _ F)), app_nil_r.
    assert (E : length (map snd Sacc) = length (V ++ buf (chn (dt s) ch) ++ smsgs ch (dt s))) by (rewrite (f_v _ _ _ _ _ _ _ _ _ _ _ F); reflexivity).
    rewrite map_length, !app_length in E. rewrite (forall2_len _ _ _ _ _ (f_sat _ _ _ _ _ _ _ _ _ _ _ F)). lia.
  - rewrite (f_r _ _ _ _ _ _ _ _ _ _ _ F), app_length. lia.
Qed.
Lemma no_ret_now : forall s c o r v t, reach s -> ~ In (TRet (ncalls s) c o r v t) (tr s).
Proof.
  intros s c o r v t RE IN. apply in_split in IN. destruct IN as (l1 & l2 & E). destruct (ci_ret _ (reach_cinv _ RE) _ _ _ _ _ _ _ _ E) as ((t0 & IC & _) & _).
  assert (IC' : In (TCall (ncalls s) c o t0) (tr s)) by (rewrite E; apply in_or_app; right; right; exact IC). pose proof (ci_lt _ (reach_cinv _ RE) _ _ _ _ IC'). lia.
Qed.
(** a call that is answered at once, or handed on *)
Lemma promise_now : forall ok s c o d fs k, reach s -> mode s = MUser -> cur (sc s) = Some c -> ~ handing o -> o <> OpCleanupPop true -> o <> OpReturn -> o <> OpStats ->
  hcall c o (now s) (dt s) = (d, fs, k) -> (fs = [] /\ k = CRet ok) \/ (quick ok fs /\ (k = CYield \/ (exists y, k = CResume y) \/ exists r, k = CRet r)) ->
  promised ok (ncalls s) (step s (ECall o)) /\ runnable (step s (ECall o)) c.
Proof.
  intros ok s c o d fs k RE MU CU NH NP NR NS E FK. pose proof (reach_full _ RE) as F. destruct (exec c k (set_stk (zupd (stk (sc s)) c (fs ++ FApi (ncalls s) o :: stk (sc s) c)) (sc s))) as [sch md] eqn:X.
  assert (RE' : reach (step s (ECall o))) by (apply reach_step, RE).
  rewrite (step_call_eq s c o d fs k sch md MU CU NR E X) in *. set (s' := mkst _ _ _ _ _ _) in *.
  assert (U : ustack (stk (sc s) c)) by (apply (proj2 F); assumption).
  split.
  - constructor.
    + exists c, o, (now s). split; [|auto]. apply call_tr_new.
    + intros _ x w p AC. destruct (call_at _ _ _ _ _ _ _ _ _ _ _ _ F CU U E X AC) as [(-> & -> & _ & _ & SH & NF)|(NE & A0)].
      * destruct FK as [[-> ->]|(Q & _)]; [|auto]. right. cbn in X. injection X as <- <-. auto.
      * exfalso. destruct (at_called _ _ _ _ _ RE A0) as (tm & IC). pose proof (ci_lt _ (reach_cinv _ RE) _ _ _ _ IC). lia.
    + intros x p r v t IN. apply call_tr_rets in IN. destruct (no_ret_now _ _ _ _ _ _ RE IN).
  - apply notpaused_runnable; [exact RE' | |].
    + unfold s'. cbn [sc]. destruct (exec_stk_cases _ _ _ _ _ X (cur_notfresh _ _ F CU) c) as [(_ & Q)|[(D & _)|(D & _)]]; [|destruct (D eq_refl)|destruct (D eq_refl)].
      rewrite Q. destruct FK as [[_ ->]|(_ & [-> | [(y & ->)|(r0 & ->)]])]; cbn; rewrite zupd_eq; destruct fs; discriminate.
    + unfold s'. cbn [sc]. pose proof (exec_paused _ _ _ _ _ X) as PE. rewrite PE. cbn [paused set_stk]. pose proof (cur_notpaused _ _ F CU) as NPP.
      destruct FK as [[-> ->]|(_ & [-> | [(y & ->)|(r0 & ->)]])]; [exact NPP | exact NPP| |exact NPP]. cbn. destruct (mem y _); [|exact NPP]. intros IN. apply remove1_In in IN. apply NPP, IN.
Qed.
(** In the state [s] call number [k] of coroutine [c] goes ahead: [c] can run, and
    whatever happens from now on the call never blocks and can only return [v]. *)
Definition goes_ahead (s : state) (c : Z) (k : nat) (v : Z) : Prop :=
  runnable s c /\ forall es, let z := run s es in
    (forall x p r w t, In (TRet k x p r w t) (tr z) -> r = v) /\ (~ over (mode z) -> forall x p, ~ blocked z x k p).
Lemma promise_goes : forall ok s c o d fs k, reach s -> mode s = MUser -> cur (sc s) = Some c -> ~ handing o -> o <> OpCleanupPop true -> o <> OpReturn -> o <> OpStats ->
  hcall c o (now s) (dt s) = (d, fs, k) -> (fs = [] /\ k = CRet ok) \/ (quick ok fs /\ (k = CYield \/ (exists y, k = CResume y) \/ exists r, k = CRet r)) -> goes_ahead (step s (ECall o)) c (ncalls s) ok.
Proof.
  intros ok s c o d fs k RE MU CU NH NP NR NS E FK. destruct (promise_now ok s c o d fs k) as [PR RU]; auto.
  split; [exact RU|]. intros es z. assert (RE' : reach (step s (ECall o))) by (apply reach_step, RE). pose proof (promised_run ok (ncalls s) es _ RE' PR) as PZ. split; [apply PZ|].
  intros NU x p. apply (promised_unblocked ok); [apply reach_run, RE' | exact NU | exact PZ].
Qed.
(** Nothing is lost: if more sends than receives have been made (not counting those
    that failed), a receive call now goes ahead with NECO_OK; by [C01_fifo] it then
    returns the message of the send with its position. *)
Theorem C01_next_receive : forall s ch n c o, reach s -> chan_made s ch n -> orderly ch s -> mode s = MUser -> cur (sc s) = Some c -> spared (tr s) c ->
  (length (receives ch (tr s)) < length (sends ch (tr s)))%nat -> is_recv ch o -> goes_ahead (step s (ECall o)) c (ncalls s) OK.
Proof.
  intros s ch n c o RE MK SI MU CU SPC LT OO. assert (NO : ~ over (mode s)) by (rewrite MU; exact (fun z => z)).
  destruct (plain_fi _ _ _ RE MK SI NO) as (V & Rsat & Rq & Rx & Sacc & Sx & F). destruct (fip_count _ _ _ _ _ _ _ _ F) as [C1 C2]; [rewrite MU; discriminate|].
  destruct (made_isch _ _ _ RE NO MK) as [IC _]. pose proof (proj1 (reach_chinv _ RE)) as D. pose proof (isch_chk _ _ D IC) as CK.
  assert (AV : buf (chn (dt s) ch) <> [] \/ (qrecv (chn (dt s) ch) = false /\ q (dt s) (QChan ch) <> [])).
  { destruct (buf (chn (dt s) ch)) as [|b0 b1] eqn:EB; [right | left; discriminate]. cbn in C1. unfold smsgs in C1. destruct (qrecv (chn (dt s) ch)); [cbn in C1; lia|]. split; [reflexivity|]. intros EQ. rewrite EQ in C1. cbn in C1. lia. }
  assert (RC : rclosed (chn (dt s) ch) = false). { destruct (rclosed (chn (dt s) ch)) eqn:R; [|reflexivity]. destruct (ck_rc _ _ (proj1 D ch) R) as (_ & B & Q). exfalso. destruct AV as [H|[_ H]]; congruence. }
  assert (CA : canceled (cof (dt s) c) = false) by (apply spared_flag; assumption).
  assert (HO : exists try dl, hcall c o (now s) (dt s) = do_recv c ch try dl (dt s)) by (destruct o; try destruct OO; subst; cbn [hcall]; eauto). destruct HO as (try & dl & HO).
  assert (HH : exists d fs k, hcall c o (now s) (dt s) = (d, fs, k) /\ ((fs = [] /\ k = CRet OK) \/ (quick OK fs /\ (k = CYield \/ (exists y, k = CResume y) \/ exists r, k = CRet r)))).
  { rewrite HO. unfold do_recv. rewrite CK, RC, CA. destruct (take ch (dt s)) as [[[m [y|]] d1]|] eqn:TK.
    - do 3 eexists. split; [reflexivity|]. right. split; [apply qk_recv; reflexivity | eauto].
    - do 3 eexists. split; [reflexivity|]. auto.
    - destruct (take_none _ _ D TK) as [B [Q|Q]]; exfalso; destruct AV as [H|[H1 H2]]; congruence. }
  destruct HH as (d & fs & k & E & FK). apply (promise_goes OK s c o d fs k); auto; destruct o; try destruct OO; (discriminate || exact (fun z => z)).
Qed.

(** ** Who waits *)
Definition waits_on (ch : nat) (o : op) : Prop := match o with OpRecv g _ | OpSend g _ _ => g = ch | _ => False end.
Definition dir (o : op) : bool := match o with OpRecv _ _ => true | _ => false end.
Lemma blocked_at : forall s x k o, reach s -> blocked s x k o -> exists w, at_call s x w k o /\ blk_frames o w.
Proof.
  intros s x k o RE B. destruct (blocked_frames _ _ _ _ RE B) as (w & st & SK & BF). exists w. split; [|exact BF].
  assert (NN : stk (sc s) x <> []) by (rewrite SK; destruct w; discriminate).
  exists st. split; [exact SK|]. pose proof (stk_lstack _ _ RE NN) as L. rewrite SK in L. inversion L as [st0 U EQ|k0 o0 w0 st0 U SH EQ|w0 st0 ES EQ].
  - exfalso. inversion BF; subst; inversion U.
  - destruct (app_api_inj _ _ _ _ _ _ _ _ EQ (shape_noapi2 _ _ SH) (blk_noapi _ _ BF)) as (-> & -> & -> & ->). exact SH.
  - exfalso. inversion ES as [a1 s1 w1 Y|a1 s1|a1 w1 Y]; subst; try (inversion Y; subst); inversion BF; subst; discriminate EQ.
Qed.
Lemma chan_blocked : forall s x k o ch, reach s -> blocked s x k o -> waits_on ch o ->
  to_resume s x \/ (In (NCo x) (q (dt s) (QChan ch)) /\ qrecv (chn (dt s) ch) = dir o).
Proof.
  intros s x k o ch RE B IS. pose proof (reach_wlc _ RE) as WL. assert (PA : In x (paused (sc s))) by apply B.
  destruct (blocked_frames _ _ _ _ RE B) as (l & st & SK & BF).
  destruct BF as [f o WF H|v m0 dl ret|b]; [|destruct IS..].
  assert (QF : f = if dir o then FRecvWait ch else FSendWait ch) by (destruct o; try destruct IS; destruct f; try destruct H; try discriminate WF; reflexivity).
  assert (TP : top (stk (sc s) x) = f :: FApi k o :: st) by (rewrite SK; reflexivity).
  destruct (WL x f (FApi k o :: st) (QChan ch)) as [IN|IN]; [exact TP | rewrite QF; destruct (dir o); reflexivity | exact (fun z => z) | exact PA | right | left; exact IN].
  split; [exact IN|]. pose proof (proj2 (reach_chinv _ RE) ch _ IN) as SD. cbn [node_co] in SD. rewrite SK, QF in SD. destruct (dir o); cbn in SD; congruence.
Qed.
(** A receiver that is blocked (and not about to be resumed) has not been forgotten:
    every message sent so far belongs to an earlier receive. *)
Theorem C01_waiting : forall s ch n x k dl, reach s -> chan_made s ch n -> orderly ch s -> settled s -> blocked s x k (OpRecv ch dl) -> ~ to_resume s x ->
  exists i, nth_error (receives ch (tr s)) i = Some (k, x) /\ (length (sends ch (tr s)) <= i)%nat.
Proof.
  intros s ch n x k dl RE MK SI [NO ST] B NT. destruct (plain_fi _ _ _ RE MK SI NO) as (V & Rsat & Rq & Rx & Sacc & Sx & F). destruct (fip_count _ _ _ _ _ _ _ _ F ST) as [C1 _].
  destruct (chan_blocked _ _ _ _ ch RE B eq_refl) as [D|[IN QR]]; [destruct (NT D)|]. cbn in QR.
  assert (B0 : buf (chn (dt s) ch) = []) by (apply (ck_recv _ _ (proj1 (proj1 (reach_chinv _ RE)) ch)); [intros Q; rewrite Q in IN; destruct IN | exact QR]).
  assert (LS : length (sends ch (tr s)) = length Rsat) by (rewrite C1, B0; unfold smsgs; rewrite QR; cbn; lia).
  pose proof (f_q _ _ _ _ _ _ _ _ _ _ _ F) as FQ. unfold rqs in FQ. rewrite QR in FQ. rewrite <- FQ in IN. apply in_map_iff in IN. destruct IN as ([k' x'] & EX & IN). cbn in EX. injection EX as ->.
  destruct (proj1 (Forall_forall _ _) (f_wt _ _ _ _ _ _ _ _ _ _ _ F) _ IN) as (w & o & AC & _). destruct (blocked_at _ _ _ _ RE B) as (w' & AC' & _). destruct (at_fun _ _ _ _ _ _ _ _ RE AC AC') as (_ & EK & _). cbn in EK. subst k'.
  apply In_nth_error in IN. destruct IN as (j & NJ). exists (length Rsat + j)%nat. split; [|lia]. rewrite (f_r _ _ _ _ _ _ _ _ _ _ _ F), nth_error_app2 by lia.
  replace (length Rsat + j - length Rsat)%nat with j by lia. rewrite nth_error_app1; [exact NJ | apply nth_error_Some; congruence].
Qed.

(** ** C02 *)
(** At most [n] messages are ever held by the channel, a sender is blocked only while
    it holds [n], a receiver only while it holds none, and never both a sender and a
    receiver at once. No restriction on how the channel is used. *)
Theorem C02_bound : forall s ch n, reach s -> ~ over (mode s) -> chan_made s ch n -> 0 <= n /\ Z.of_nat (length (buf (chn (dt s) ch))) <= n.
Proof. intros s ch n RE NO MK. destruct (made_isch _ _ _ RE NO MK) as [_ <-]. apply (ck_cap _ _ (proj1 (proj1 (reach_chinv _ RE)) ch)). Qed.
Theorem C02_sender_blocked : forall s ch n x k m dl, reach s -> ~ over (mode s) -> chan_made s ch n -> blocked s x k (OpSend ch m dl) -> ~ to_resume s x ->
  Z.of_nat (length (buf (chn (dt s) ch))) = n.
Proof.
  intros s ch n x k m dl RE NO MK B NT. destruct (made_isch _ _ _ RE NO MK) as [_ <-]. destruct (chan_blocked _ _ _ _ ch RE B eq_refl) as [D|[IN QR]]; [destruct (NT D)|].
  apply (ck_send _ _ (proj1 (proj1 (reach_chinv _ RE)) ch)); [intros Q; rewrite Q in IN; destruct IN | exact QR].
Qed.
Theorem C02_receiver_blocked : forall s ch x k dl, reach s -> blocked s x k (OpRecv ch dl) -> ~ to_resume s x -> buf (chn (dt s) ch) = [].
Proof.
  intros s ch x k dl RE B NT. destruct (chan_blocked _ _ _ _ ch RE B eq_refl) as [D|[IN QR]]; [destruct (NT D)|].
  apply (ck_recv _ _ (proj1 (proj1 (reach_chinv _ RE)) ch)); [intros Q; rewrite Q in IN; destruct IN | exact QR].
Qed.
Theorem C02_not_both : forall s ch x k dl y j m dl', reach s -> blocked s x k (OpRecv ch dl) -> blocked s y j (OpSend ch m dl') -> to_resume s x \/ to_resume s y.
Proof.
  intros s ch x k dl y j m dl' RE B1 B2. destruct (chan_blocked _ _ _ _ ch RE B1 eq_refl) as [D|[_ Q1]]; [auto|]. destruct (chan_blocked _ _ _ _ ch RE B2 eq_refl) as [D|[_ Q2]]; [auto|]. cbn in *. congruence.
Qed.

(** Counting under the discipline of C01: a send goes ahead exactly when fewer than
    receives + n sends were made before it, otherwise it blocks. *)
Lemma fip_recv : forall ch s V Rsat Rq Rx Sacc Sx, fiP ch s V Rsat Rq Rx Sacc Sx -> settled s ->
  length (receives ch (tr s)) = (length Rsat + length (rqs ch (dt s)) + length Rx)%nat /\ (Rx <> [] -> rclosed (chn (dt s) ch) = true).
Proof.
  intros ch s V Rsat Rq Rx Sacc Sx F [_ ST]. split.
  - rewrite (f_r _ _ _ _ _ _ _ _ _ _ _ F), <- (f_q _ _ _ _ _ _ _ _ _ _ _ F), !app_length, map_length. lia.
  - destruct Rx as [|p l]; [congruence|]. intros _. pose proof (f_x _ _ _ _ _ _ _ _ _ _ _ F) as FX. inversion FX as [|p' l' (w & o & _ & _ & [(_ & r & MR & _)|(_ & _ & _ & R)])]; [destruct (ST _ MR) | exact R].
Qed.
Inductive sent (c : Z) (ch : nat) (dl : Z) (d : dat) : list frame -> ctl -> Prop :=
| st_hand r l : q d (QChan ch) = NCo r :: l -> qrecv (chn d ch) = true -> sent c ch dl d [FSendResumed] (CResume r)
| st_room : q d (QChan ch) = [] \/ qrecv (chn d ch) = false -> Z.of_nat (length (buf (chn d ch))) < bufcap (chn d ch) -> sent c ch dl d [] (CRet OK)
| st_full fs k d1 d2 : q d (QChan ch) = [] \/ qrecv (chn d ch) = false -> bufcap (chn d ch) <= Z.of_nat (length (buf (chn d ch))) ->
    canceled (cof d1 c) = canceled (cof d c) -> deadlined (cof d1 c) = deadlined (cof d c) -> copause c dl [FSendWait ch] d1 = (d2, fs, k) -> sent c ch dl d fs k.
Lemma do_send_sent : forall c ch m dl d d' fs k, allnco (q d (QChan ch)) -> chk_chan ch d = OK -> sclosed (chn d ch) = false -> canceled (cof d c) = false ->
  do_send c ch m dl d = (d', fs, k) -> sent c ch dl d fs k.
Proof.
  intros c ch m dl d d' fs k AN CK SC CA E. unfold do_send in E. rewrite CK, SC, CA in E. change (negb (OK =? OK)) with false in E. cbv iota in E.
  assert (B : (exists r l, q d (QChan ch) = NCo r :: l /\ qrecv (chn d ch) = true /\ send_loop ch m (recvn ch d) d = (Some r, upco r (set_rbuf m) (set_q (qupd (q d) (QChan ch) l) d))) \/
    ((q d (QChan ch) = [] \/ qrecv (chn d ch) = false) /\ send_loop ch m (recvn ch d) d = (None, d))).
  { unfold recvn. destruct (qrecv (chn d ch)) eqn:QR; [|right; split; [auto|]; reflexivity].
    destruct (q d (QChan ch)) as [|n l] eqn:QQ; [right; split; [auto|]; reflexivity|]. left. pose proof (AN n (or_introl eq_refl)) as EN. destruct n as [r|]; [|discriminate EN]. exists r, l.
    split; [reflexivity|]. split; [reflexivity|]. cbn [length send_loop]. unfold popq. rewrite QQ. reflexivity. }
  destruct B as [(r & l & QQ & QR & SL)|(QQ & SL)]; rewrite SL in E; clear SL.
  - injection E as <- <- <-. eapply st_hand; eassumption.
  - destruct (Z.ltb_spec (Z.of_nat (length (buf (chn d ch)))) (bufcap (chn d ch))) as [LB|LB].
    + injection E as <- <- <-. apply st_room; assumption.
    + eapply st_full; try eassumption; cbn; rewrite zupd_eq; reflexivity.
Qed.
Theorem C02_send_ahead : forall s ch n c m dl, reach s -> chan_made s ch n -> orderly ch s -> mode s = MUser -> cur (sc s) = Some c -> spared (tr s) c ->
  Z.of_nat (length (sends ch (tr s))) < Z.of_nat (length (receives ch (tr s))) + n ->
  let s' := step s (ECall (OpSend ch m dl)) in goes_ahead s' c (ncalls s) OK \/ goes_ahead s' c (ncalls s) ECLOSED.
Proof.
  intros s ch n c m dl RE MK SI MU CU SPC LT s'. assert (SE : settled s) by (split; rewrite MU; [exact (fun z => z) | discriminate]). destruct SE as [NO ST].
  destruct (plain_fi _ _ _ RE MK SI NO) as (V & Rsat & Rq & Rx & Sacc & Sx & F). destruct (fip_count _ _ _ _ _ _ _ _ F ST) as [C1 _]. destruct (fip_recv _ _ _ _ _ _ _ _ F (conj NO ST)) as [C2 C3].
  destruct (made_isch _ _ _ RE NO MK) as [IC BC]. pose proof (proj1 (reach_chinv _ RE)) as D. pose proof (isch_chk _ _ D IC) as CK.
  assert (CA : canceled (cof (dt s) c) = false) by (apply spared_flag; assumption).
  destruct (hcall c (OpSend ch m dl) (now s) (dt s)) as [[d fs] k] eqn:E. pose proof E as E0. cbn [hcall] in E0. destruct (sclosed (chn (dt s) ch)) eqn:SC.
  - right. apply (promise_goes ECLOSED s c (OpSend ch m dl) d fs k); auto; try discriminate; try exact (fun z => z). unfold do_send in E0. rewrite CK, SC in E0. injection E0 as <- <- <-. auto.
  - left. assert (RX : Rx = []). { destruct Rx; [reflexivity|]. destruct (ck_rc _ _ (proj1 D ch) (C3 ltac:(discriminate))). congruence. } rewrite RX in C2. cbn in C2.
    apply (promise_goes OK s c (OpSend ch m dl) d fs k); auto; try discriminate; try exact (fun z => z).
    pose proof (do_send_sent _ _ _ _ _ _ _ _ (chan_nco _ _ RE (orderly_plain _ _ SI)) CK SC CA E0) as SN. destruct SN as [r l QQ QR|QQ LB|fs k d1 d2 QQ LB _ _ _]; [right; split; [apply qk_send; reflexivity | eauto] | left; auto | exfalso].
    unfold smsgs, rqs in *. destruct (qrecv (chn (dt s) ch)) eqn:QR; [|cbn in C2; lia]. destruct QQ as [QQ|QQ]; [rewrite QQ in *; cbn in *; lia | discriminate QQ].
Qed.
Lemma ecall_blocked : forall s c o d f, reach s -> mode s = MUser -> cur (sc s) = Some c -> o <> OpReturn -> hcall c o (now s) (dt s) = (d, [FPause; f], CPause) ->
  (forall j p, f <> FApi j p) -> blocked (step s (ECall o)) c (ncalls s) o.
Proof.
  intros s c o d f RE MU CU NR E NF. pose proof (reach_full _ RE) as F. destruct (exec c CPause (set_stk (zupd (stk (sc s)) c ([FPause; f] ++ FApi (ncalls s) o :: stk (sc s) c)) (sc s))) as [sch md] eqn:X.
  rewrite (step_call_eq s c o d [FPause; f] CPause sch md MU CU NR E X). split; cbn [sc].
  - rewrite (exec_paused _ _ _ _ _ X). apply in_or_app. right. left. reflexivity.
  - exists [FPause; f], (stk (sc s) c). split.
    + destruct (exec_stk_cases _ _ _ _ _ X (cur_notfresh _ _ F CU) c) as [(_ & Q)|[(N & _)|(N & _)]]; [|destruct (N eq_refl)|destruct (N eq_refl)]. rewrite Q. cbn. rewrite zupd_eq. reflexivity.
    + intros j p [D|[D|[]]]; [discriminate D | exact (NF _ _ D)].
Qed.
Lemma cur_nodl : forall s c, reach s -> nofincancel (tr s) -> mode s = MUser -> cur (sc s) = Some c -> deadlined (cof (dt s) c) = false.
Proof.
  intros s c RE NC MU CU. assert (U : ustack (stk (sc s) c)) by (apply (proj2 (reach_full _ RE)); assumption).
  exact (ustack_nodl _ _ (reach_wsh _ RE) (reach_dld _ RE NC) U).
Qed.
Theorem C02_send_blocks : forall s ch n c m, reach s -> chan_made s ch n -> orderly ch s -> nofincancel (tr s) -> mode s = MUser -> cur (sc s) = Some c -> spared (tr s) c ->
  Z.of_nat (length (receives ch (tr s))) + n <= Z.of_nat (length (sends ch (tr s))) ->
  let o := OpSend ch m MAXI in let s' := step s (ECall o) in blocked s' c (ncalls s) o \/ goes_ahead s' c (ncalls s) ECLOSED.
Proof.
  intros s ch n c m RE MK SI NF MU CU SPC LT o s'. assert (SE : settled s) by (split; rewrite MU; [exact (fun z => z) | discriminate]). destruct SE as [NO ST].
  destruct (plain_fi _ _ _ RE MK SI NO) as (V & Rsat & Rq & Rx & Sacc & Sx & F). destruct (fip_count _ _ _ _ _ _ _ _ F ST) as [C1 _]. destruct (fip_recv _ _ _ _ _ _ _ _ F (conj NO ST)) as [C2 _].
  destruct (made_isch _ _ _ RE NO MK) as [IC BC]. pose proof (proj1 (reach_chinv _ RE)) as D. pose proof (isch_chk _ _ D IC) as CK.
  assert (CA : canceled (cof (dt s) c) = false) by (apply spared_flag; assumption). pose proof (cur_nodl _ _ RE NF MU CU) as DE.
  destruct (hcall c o (now s) (dt s)) as [[d fs] k] eqn:E. pose proof E as E0. unfold o in E0. cbn [hcall] in E0. destruct (sclosed (chn (dt s) ch)) eqn:SC.
  - right. apply (promise_goes ECLOSED s c o d fs k); auto; try discriminate; try exact (fun z => z). unfold do_send in E0. rewrite CK, SC in E0. injection E0 as <- <- <-. auto.
  - left. pose proof (do_send_sent _ _ _ _ _ _ _ _ (chan_nco _ _ RE (orderly_plain _ _ SI)) CK SC CA E0) as SN. pose proof (C02_bound _ _ _ RE NO MK) as [N0 _]. unfold smsgs, rqs in *.
    inversion SN as [r l QQ QR EF EK|QQ LB EF EK|fs0 k0 d1 d2 QQ LB E1 E2 CP EF EK]; subst.
    + exfalso. rewrite QR, QQ in *. pose proof (ck_recv _ _ (proj1 D ch)) as B0. rewrite QQ, QR in B0. rewrite B0 in C1 by (auto; discriminate). cbn in *. lia.
    + exfalso. destruct (qrecv (chn (dt s) ch)) eqn:QR; [cbn in *; lia|]. destruct (q (dt s) (QChan ch)) as [|y l] eqn:Q0; [cbn in *; lia|].
      pose proof (ck_send _ _ (proj1 D ch)) as B0. rewrite Q0, QR in B0. specialize (B0 ltac:(discriminate) eq_refl). lia.
    + apply copause_max in CP; [|congruence|congruence]. destruct CP as (-> & -> & ->). apply (ecall_blocked s c o d (FSendWait ch)); auto; discriminate.
Qed.
Lemma waits_maxi : forall s ch x w k o, reach s -> simple_chan ch (tr s) -> at_call s x w k o -> waits_on ch o -> op_dl o = MAXI.
Proof. intros s ch x w k o RE SI AC WO. destruct (at_called _ _ _ _ _ RE AC) as (tm & IC). pose proof (proj2 SI _ _ _ _ IC) as P. destruct o; try destruct WO; cbn in *; auto. Qed.
Theorem C02_recv_blocks : forall s ch n c, reach s -> chan_made s ch n -> orderly ch s -> nofincancel (tr s) -> mode s = MUser -> cur (sc s) = Some c -> spared (tr s) c ->
  (length (sends ch (tr s)) <= length (receives ch (tr s)))%nat ->
  (let o := OpRecv ch MAXI in let s' := step s (ECall o) in blocked s' c (ncalls s) o \/ goes_ahead s' c (ncalls s) ECLOSED) /\
  (let s' := step s (ECall (OpTryRecv ch)) in goes_ahead s' c (ncalls s) EEMPTY \/ goes_ahead s' c (ncalls s) ECLOSED).
Proof.
  intros s ch n c RE MK SI NF MU CU SPC LT. assert (SE : settled s) by (split; rewrite MU; [exact (fun z => z) | discriminate]). destruct SE as [NO ST].
  destruct (plain_fi _ _ _ RE MK SI NO) as (V & Rsat & Rq & Rx & Sacc & Sx & F). destruct (fip_count _ _ _ _ _ _ _ _ F ST) as [C1 _]. destruct (fip_recv _ _ _ _ _ _ _ _ F (conj NO ST)) as [C2 C3].
  destruct (made_isch _ _ _ RE NO MK) as [IC BC]. pose proof (proj1 (reach_chinv _ RE)) as D. pose proof (isch_chk _ _ D IC) as CK.
  assert (CA : canceled (cof (dt s) c) = false) by (apply spared_flag; assumption). pose proof (cur_nodl _ _ RE NF MU CU) as DE.
  assert (CC : rclosed (chn (dt s) ch) = true \/ (rclosed (chn (dt s) ch) = false /\ take ch (dt s) = None)).
  { destruct (rclosed (chn (dt s) ch)) eqn:RC; [auto|]. right. split; [reflexivity|].
    assert (RX : Rx = []) by (destruct Rx; [reflexivity | discriminate (C3 ltac:(discriminate))]). rewrite RX in C2. cbn in C2. unfold smsgs, rqs in *.
    unfold take. destruct (buf (chn (dt s) ch)) as [|b0 b1] eqn:EB.
    - destruct (qrecv (chn (dt s) ch)); [reflexivity|]. unfold popq. destruct (q (dt s) (QChan ch)); [reflexivity | cbn in *; lia].
    - exfalso. destruct (qrecv (chn (dt s) ch)) eqn:QR; [|cbn in *; lia]. destruct (q (dt s) (QChan ch)) as [|y l] eqn:Q0; [cbn in *; lia|].
      pose proof (ck_recv _ _ (proj1 D ch)) as B0. rewrite Q0, QR, EB in B0. discriminate (B0 ltac:(discriminate) eq_refl). }
  split.
  - intros o s'. destruct (hcall c o (now s) (dt s)) as [[d fs] k] eqn:E. pose proof E as E0. unfold o in E0. cbn [hcall] in E0. unfold do_recv in E0. rewrite CK in E0. change (negb (OK =? OK)) with false in E0. cbv iota in E0.
    destruct CC as [RC|[RC TK]]; rewrite RC in E0; [right | left; rewrite CA, TK in E0].
    + apply (promise_goes ECLOSED s c o d fs k); auto; try discriminate; try exact (fun z => z). injection E0 as <- <- <-. auto.
    + apply copause_max in E0; [|cbn; rewrite zupd_eq; exact CA | cbn; rewrite zupd_eq; exact DE]. destruct E0 as (-> & -> & ->). apply (ecall_blocked s c o _ (FRecvWait ch)) in E; auto; discriminate.
  - intros s'. destruct (hcall c (OpTryRecv ch) (now s) (dt s)) as [[d fs] k] eqn:E. pose proof E as E0. cbn [hcall] in E0. unfold do_recv in E0. rewrite CK in E0. change (negb (OK =? OK)) with false in E0. cbv iota in E0.
    destruct CC as [RC|[RC TK]]; rewrite RC in E0; [right | left; rewrite CA, TK in E0].
    + apply (promise_goes ECLOSED s c _ d fs k); auto; try discriminate; try exact (fun z => z). injection E0 as <- <- <-. auto.
    + apply (promise_goes EEMPTY s c _ d fs k); auto; try discriminate; try exact (fun z => z). injection E0 as <- <- <-. auto.
Qed.

(** At most receives + n sends have completed. *)
Definition succeeded (t : list obs) (k : nat) : bool := existsb (fun z => match z with TRet k' _ _ r _ _ => Nat.eqb k' k && (r =? OK) | _ => false end) t.
Definition completed (ch : nat) (t : list obs) : list (nat * Z) := filter (fun p => succeeded t (fst p)) (sends ch t).
Lemma succeeded_in : forall t k, succeeded t k = true -> exists c o v tm, In (TRet k c o OK v tm) t.
Proof. intros t k H. apply existsb_exists in H. destruct H as (z & IN & E). destruct z; try discriminate E. apply andb_true_iff in E. destruct E as [E1 E2]. apply Nat.eqb_eq in E1. apply Z.eqb_eq in E2. subst. eauto 6. Qed.
Lemma waiting_keys : forall s ch n, reach s -> chan_made s ch n -> orderly ch s -> qrecv (chn (dt s) ch) = false -> forall l, NoDup l -> incl l (q (dt s) (QChan ch)) ->
  exists ks, length ks = length l /\ NoDup ks /\ forall k, In k ks -> exists x w m dl, In (NCo x) l /\ at_call s x w k (OpSend ch m dl) /\ In (FSendWait ch) w.
Proof.
  intros s ch n RE MK SI QR. destruct (plain _ _ _ RE MK) as (G & GI & NG & _). induction l as [|y l IH]; intros ND IN; [exists []; split; [reflexivity | split; [constructor | intros k []]]|].
  apply NoDup_cons_iff in ND. destruct ND as [N1 N2]. destruct (IH N2) as (ks & L & NK & H); [intros z Z; apply IN; right; exact Z|].
  pose proof (IN y (or_introl eq_refl)) as IY. pose proof (chan_nco _ _ RE (orderly_plain _ _ SI) _ IY) as YN. destruct y as [x|]; [|discriminate YN].
  pose proof (proj2 (reach_chinv _ RE) _ _ IY) as SD. cbn [node_co] in SD. rewrite QR in SD. pose proof (reach_qloc _ RE _ (QChan ch) Logic.I IY) as M. cbn [node_co] in M.
  destruct (matched_chan _ _ _ M) as [[_ W]|(N & k & chs & dl & st' & TP & _)]; [|unfold sdir in SD; cbn [node_co] in TP; rewrite TP in SD; discriminate SD].
  destruct (chan_wait _ _ _ RE W) as (f & w & k & o & rest & TF & AC & FF & WW & SDL). assert (EF : f = FSendWait ch) by (unfold sdir in SD; rewrite TF in SD; destruct FF as [-> | ->]; [reflexivity | discriminate SD]).
  assert (IF : In (FSendWait ch) w) by (rewrite <- EF; destruct WW as [-> | ->]; cbn; auto). destruct AC as (st & SX & SH).
  destruct (wait_op _ _ _ ch SH IF (or_introl eq_refl)) as [(m & dl & _ & ->)|[(m & dl & _ & ->)|(dl & D & _)]]; [|exfalso|discriminate D].
  - exists (k :: ks). split; [cbn; congruence|]. split.
    + constructor; [|exact NK]. intros IK. destruct (H _ IK) as (x' & w' & m' & dl' & IX & AC' & _). apply N1. replace x with x'; [exact IX|].
      destruct (at_called _ _ _ _ _ RE AC') as (t1 & I1). destruct (at_called s x w k (OpSend ch m dl) RE) as (t2 & I2); [exists st; auto|]. destruct (callnos_inj _ _ _ _ _ _ _ _ (ci_uc _ (reach_cinv _ RE)) I1 I2) as (E & _). exact E.
    + intros k' [<-|IK]; [exists x, w, m, dl; split; [left; reflexivity|]; split; [exists st; auto | exact IF]|]. destruct (H _ IK) as (x' & w' & m' & dl' & IX & AC' & IF'). exists x', w', m', dl'. split; [right; exact IX | auto].
  - apply (NG x). eapply (g4 _ _ GI); [exists st; split; [exact SX | exact SH] | exact IF].
Qed.
Lemma pending_noret : forall s x w k o c o' r v t, reach s -> at_call s x w k o -> ~ In (TRet k c o' r v t) (tr s).
Proof.
  intros s x w k o c o' r v t RE (st & SX & _) IN. assert (IF : In (FApi k o) (stk (sc s) x)) by (rewrite SX; apply in_or_app; right; left; reflexivity).
  apply (ci_pend _ (reach_cinv _ RE) x k o IF). do 5 eexists; exact IN.
Qed.
Lemma live_pending : forall A (sel : Z -> op -> option A) s x w k o a, reach s -> at_call s x w k o -> sel x o = Some a -> In (k, a) (live sel (tr s)).
Proof.
  intros A sel s x w k o a RE AC SE. unfold live. apply filter_In. destruct (at_called _ _ _ _ _ RE AC) as (tm & IC). split.
  - clear -IC SE. induction (tr s) as [|z l IH]; [destruct IC|]. destruct IC as [->|IC]; [cbn; rewrite SE; apply in_or_app; right; left; reflexivity|]. destruct z; cbn; auto. apply in_or_app. auto.
  - cbn [fst]. rewrite failed_not; [reflexivity|]. intros c o' r m t IN. destruct (pending_noret _ _ _ _ _ _ _ _ _ _ RE AC IN).
Qed.
Theorem C02_completed : forall s ch n, reach s -> ~ over (mode s) -> chan_made s ch n -> orderly ch s ->
  Z.of_nat (length (completed ch (tr s))) <= Z.of_nat (length (receives ch (tr s))) + n.
Proof.
  intros s ch n RE NO MK SI. destruct (plain_fi _ _ _ RE MK SI NO) as (V & Rsat & Rq & Rx & Sacc & Sx & F). destruct (C02_bound _ _ _ RE NO MK) as [_ BN].
  assert (LR : (length Rsat <= length (receives ch (tr s)))%nat) by (rewrite (f_r _ _ _ _ _ _ _ _ _ _ _ F), app_length; lia).
  assert (LA : length Sacc = (length Rsat + length (buf (chn (dt s) ch)) + length (smsgs ch (dt s)))%nat).
  { assert (E : length (map snd Sacc) = length (V ++ buf (chn (dt s) ch) ++ smsgs ch (dt s))) by (rewrite (f_v _ _ _ _ _ _ _ _ _ _ _ F); reflexivity).
    rewrite map_length, !app_length in E. rewrite (forall2_len _ _ _ _ _ (f_sat _ _ _ _ _ _ _ _ _ _ _ F)). lia. }
  enough (length (completed ch (tr s)) + length (smsgs ch (dt s)) <= length Sacc)%nat by lia.
  assert (KS : exists ks, length ks = length (smsgs ch (dt s)) /\ NoDup ks /\ forall k, In k ks -> exists x w m dl, at_call s x w k (OpSend ch m dl) /\ In (FSendWait ch) w).
  { unfold smsgs. destruct (qrecv (chn (dt s) ch)) eqn:QR; [exists []; split; [reflexivity | split; [constructor | intros k []]]|].
    destruct (waiting_keys _ _ _ RE MK SI QR (q (dt s) (QChan ch)) (proj1 (reach_uniq _ RE) _) (incl_refl _)) as (ks & L & ND & H). exists ks. rewrite map_length. split; [exact L|]. split; [exact ND|].
    intros k IK. destruct (H _ IK) as (x & w & m & dl & _ & A & B). eauto 6. }
  destruct KS as (ks & <- & ND & KS). rewrite <- (map_length fst (completed ch (tr s))), <- (map_length fst Sacc), <- app_length.
  assert (SX : forall k, In k (map fst Sx) -> exists x o, at_call s x [] k o /\ exists r, mode s = MRet r /\ bad r).
  { intros k IK. apply in_map_iff in IK. destruct IK as (p & <- & IP). destruct (proj1 (Forall_forall _ _) (f_sx _ _ _ _ _ _ _ _ _ _ _ F) _ IP) as (x & o & m & A & _ & R). eauto. }
  apply NoDup_incl_length.
  - apply NoDup_app_intro.
    + apply nodup_keep, (proj2 (C01_once s ch RE)).
    + exact ND.
    + intros k I1 I2. apply in_map_iff in I1. destruct I1 as (p & <- & I1). apply filter_In in I1. destruct (succeeded_in _ _ (proj2 I1)) as (c & o & v & tm & IN). destruct (KS _ I2) as (x & w & m & dl & AC & _). exact (pending_noret _ _ _ _ _ _ _ _ _ _ RE AC IN).
  - intros k IK. assert (IS : In k (map fst (sends ch (tr s))) /\ ~ In k (map fst Sx)).
    { apply in_app_or in IK. destruct IK as [IK|IK].
      - apply in_map_iff in IK. destruct IK as (p & <- & IP). apply filter_In in IP. split; [apply in_map, IP|]. intros D. destruct (SX _ D) as (x & o & AC & _). destruct (succeeded_in _ _ (proj2 IP)) as (c & o' & v & tm & IN). exact (pending_noret _ _ _ _ _ _ _ _ _ _ RE AC IN).
      - destruct (KS _ IK) as (x & w & m & dl & AC & IF). split.
        + apply in_map_iff. exists (k, m). split; [reflexivity|]. apply (live_pending _ _ _ _ _ _ _ _ RE AC). cbn. rewrite Nat.eqb_refl. reflexivity.
        + intros D. destruct (SX _ D) as (x' & o & AC' & _). destruct (at_called _ _ _ _ _ RE AC) as (t1 & I1). destruct (at_called _ _ _ _ _ RE AC') as (t2 & I2).
          destruct (callnos_inj _ _ _ _ _ _ _ _ (ci_uc _ (reach_cinv _ RE)) I1 I2) as (<- & _). destruct (at_fun _ _ _ _ _ _ _ _ RE AC AC') as (-> & _). destruct IF. }
    destruct IS as [IS NX]. rewrite (f_s _ _ _ _ _ _ _ _ _ _ _ F), map_app in IS. apply in_app_or in IS. destruct IS as [IS|IS]; [exact IS | destruct (NX IS)].
Qed.

(** ** C04 *)
Definition closed (s : state) (ch : nat) : Prop := exists k c v t, In (TRet k c (OpClose ch) OK v t) (tr s).
Theorem C04_after_close : forall s ch c o, reach s -> closed s ch -> mode s = MUser -> cur (sc s) = Some c ->
  (exists m dl, o = OpSend ch m dl) \/ (exists m, o = OpBcast ch m) \/ o = OpClose ch -> goes_ahead (step s (ECall o)) c (ncalls s) ECLOSED.
Proof.
  intros s ch c o RE (k0 & c0 & v0 & t0 & CL) MU CU OO. assert (NO : ~ over (mode s)) by (rewrite MU; exact (fun z => z)).
  destruct (st_cl _ (reach_cstat _ RE NO) _ _ _ _ _ CL) as [IC SC]. pose proof (isch_chk _ _ (proj1 (reach_chinv _ RE)) IC) as CK.
  assert (E : hcall c o (now s) (dt s) = (dt s, [], CRet ECLOSED)).
  { destruct OO as [(m & dl & ->)|[(m & ->)| ->]]; cbn [hcall]; [unfold do_send | unfold do_bcast | unfold do_close]; rewrite CK, SC; reflexivity. }
  apply (promise_goes ECLOSED s c o (dt s) [] (CRet ECLOSED)); auto; destruct OO as [(m & dl & ->)|[(m & ->)| ->]]; (discriminate || exact (fun z => z)).
Qed.
Lemma closed_drained : forall s ch n, reach s -> settled s -> chan_made s ch n -> orderly ch s -> closed s ch ->
  (length (sends ch (tr s)) <= length (receives ch (tr s)))%nat -> rclosed (chn (dt s) ch) = true.
Proof.
  intros s ch n RE [NO ST] MK SI (k0 & c0 & v0 & t0 & CL) LE. destruct (st_cl _ (reach_cstat _ RE NO) _ _ _ _ _ CL) as [_ SC]. pose proof (proj1 (reach_chinv _ RE)) as D.
  destruct (plain_fi _ _ _ RE MK SI NO) as (V & Rsat & Rq & Rx & Sacc & Sx & F). destruct (fip_count _ _ _ _ _ _ _ _ F ST) as [C1 _]. destruct (fip_recv _ _ _ _ _ _ _ _ F (conj NO ST)) as [C2 C3].
  destruct (rclosed (chn (dt s) ch)) eqn:RC; [reflexivity|]. assert (RX : Rx = []) by (destruct Rx; [reflexivity | discriminate (C3 ltac:(discriminate))]). rewrite RX in C2. cbn in C2. unfold smsgs, rqs in *.
  destruct (f_clo _ _ _ _ _ _ _ _ _ _ _ F SC) as [R|[B|[Q QR]]]; [congruence | |].
  - exfalso. destruct (qrecv (chn (dt s) ch)) eqn:QR.
    + destruct (q (dt s) (QChan ch)) as [|y l] eqn:Q0; [destruct (buf (chn (dt s) ch)); [congruence | cbn in *; lia]|]. apply B. apply (ck_recv _ _ (proj1 D ch)); [rewrite Q0; discriminate | exact QR].
    + destruct (buf (chn (dt s) ch)); [congruence | cbn in *; lia].
  - exfalso. rewrite QR in *. destruct (q (dt s) (QChan ch)); [congruence | cbn in *; lia].
Qed.
(** After a close, once every message was taken, every receive fails with NECO_CLOSED ... *)
Theorem C04_drained : forall s ch n c o, reach s -> chan_made s ch n -> orderly ch s -> closed s ch -> mode s = MUser -> cur (sc s) = Some c ->
  (length (sends ch (tr s)) <= length (receives ch (tr s)))%nat -> is_recv ch o -> goes_ahead (step s (ECall o)) c (ncalls s) ECLOSED.
Proof.
  intros s ch n c o RE MK SI CL MU CU LE IS. assert (SE : settled s) by (split; rewrite MU; [exact (fun z => z) | discriminate]).
  pose proof (closed_drained _ _ _ RE SE MK SI CL LE) as RC. destruct (made_isch _ _ _ RE (proj1 SE) MK) as [IC _]. pose proof (isch_chk _ _ (proj1 (reach_chinv _ RE)) IC) as CK.
  assert (E : hcall c o (now s) (dt s) = (dt s, [], CRet ECLOSED)) by (destruct o; try destruct IS; subst; cbn [hcall]; unfold do_recv; rewrite CK, RC; reflexivity).
  apply (promise_goes ECLOSED s c o (dt s) [] (CRet ECLOSED)); auto; destruct o; try destruct IS; (discriminate || exact (fun z => z)).
Qed.
(** a neco_chan_close call on the channel that has passed its checks is in progress *)
Definition closing (s : state) (ch : nat) : Prop := exists c w k, w <> [] /\ at_call s c w k (OpClose ch).
(** ... and no receiver stays blocked, whether messages are left or not. *)
Theorem C04_receivers_resume : forall s ch n x k dl, reach s -> ~ over (mode s) -> chan_made s ch n -> orderly ch s -> closed s ch \/ closing s ch -> blocked s x k (OpRecv ch dl) -> to_resume s x.
Proof.
  intros s ch n x k dl RE NO MK SI CL B. destruct (chan_blocked _ _ _ _ ch RE B eq_refl) as [D|[IN QR]]; [exact D|]. cbn in QR. exfalso.
  assert (SC : sclosed (chn (dt s) ch) = true). { destruct CL as [(k0 & c0 & v0 & t0 & CL)|(c0 & w0 & k0 & WN & CL)]; [apply (st_cl _ (reach_cstat _ RE NO) _ _ _ _ _ CL) | apply (st_clp _ (reach_cstat _ RE NO) _ _ _ _ CL); auto]. } pose proof (proj1 (proj1 (reach_chinv _ RE)) ch) as CO. assert (QN : q (dt s) (QChan ch) <> []) by (intros Q; rewrite Q in IN; destruct IN).
  destruct (plain_fi _ _ _ RE MK SI NO) as (V & Rsat & Rq & Rx & Sacc & Sx & F). destruct (f_clo _ _ _ _ _ _ _ _ _ _ _ F SC) as [R|[BN|[_ Q]]]; [| |congruence].
  - apply QN, (ck_rc _ _ CO R).
  - apply BN, (ck_recv _ _ CO QN QR).
Qed.

(** The full claim would drop [simple_chan]; a sender that is canceled or times out
    after the close breaks it: [C04_stuck_refuted]. *)
Definition ex04 : state := script [ECall (OpChMake 0); ECall OpStart; ECall (OpSend 0 42 MAXI); ECall (OpClose 0); ECall (OpCancel 2 MAXI); ECall OpYield; ECall (OpSuspend MAXI); ECall OpYield; ECall (OpRecv 0 MAXI)].
(** 2 is blocked sending, 1 closes the channel (NECO_OK), 2 is canceled and gives up;
    1 then receives from the closed and empty channel and stays blocked forever. *)
Theorem C04_stuck_refuted : exists s ch x k, reach s /\ chan_made s ch 0 /\ closed s ch /\ sends ch (tr s) = [] /\
  forall es, blocked (run s es) x k (OpRecv ch MAXI).
Proof.
  exists ex04, 0%nat, 1, 8%nat. split; [apply script_reach|]. split; [exists 0%nat, 1, 1000; vm_compute; tauto|]. split; [exists 3%nat, 1, 0, 1000; vm_compute; tauto|]. split; [vm_compute; reflexivity|].
  intros es. apply stuck_forever; [apply stuckb_ok; vm_compute; reflexivity|]. apply blockedb_ok. split; [vm_compute; auto|]. exists 2%nat. eexists. split; vm_compute; reflexivity.
Qed.

(** ** C03 *)
Lemma failed_ret : forall s k c o r v t, reach s -> In (TRet k c o r v t) (tr s) -> failed (tr s) k = false -> r = OK.
Proof.
  intros s k c o r v t RE IN FA. destruct (Z.eq_dec r OK) as [E|NE]; [exact E|]. exfalso. unfold failed in FA.
  assert (T : existsb (fun z => match z with TRet k' _ _ r _ _ => Nat.eqb k' k && negb (r =? OK) | _ => false end) (tr s) = true); [|congruence].
  apply existsb_exists. eexists. split; [exact IN|]. cbn. rewrite Nat.eqb_refl. apply Z.eqb_neq in NE. rewrite NE. reflexivity.
Qed.
(** A send that returned NECO_OK: its message was received (by the receive with its
    position, which can have returned nothing else), or is still available (then
    [C01_next_receive] applies). *)
Theorem C03_ok_partial : forall s ch n k x m dl v t, reach s -> chan_made s ch n -> orderly ch s -> In (TRet k x (OpSend ch m dl) OK v t) (tr s) ->
  exists i, nth_error (sends ch (tr s)) i = Some (k, m) /\
    ((length (receives ch (tr s)) <= i < length (sends ch (tr s)))%nat \/
     exists j y, nth_error (receives ch (tr s)) i = Some (j, y) /\ forall o r w t', In (TRet j y o r w t') (tr s) -> is_recv ch o -> r = OK /\ w = m).
Proof.
  intros s ch n k x m dl v t RE MK SI IN. assert (IL : In (k, m) (sends ch (tr s))) by (eapply live_of; [exact RE | exact IN | cbn; rewrite Nat.eqb_refl; reflexivity]).
  apply In_nth_error in IL. destruct IL as (i & NI). exists i. split; [exact NI|]. assert (LT : (i < length (sends ch (tr s)))%nat) by (apply nth_error_Some; congruence).
  destruct (nth_error (receives ch (tr s)) i) as [[j y]|] eqn:NR; [right | left; apply nth_error_None in NR; lia]. exists j, y. split; [reflexivity|]. intros o r w t' IR IS.
  assert (FA : failed (tr s) j = false). { pose proof (nth_error_In _ _ NR) as IL. apply filter_In in IL. destruct IL as [_ F]. cbn in F. apply negb_true_iff, F. }
  pose proof (failed_ret _ _ _ _ _ _ _ RE IR FA) as ->. split; [reflexivity|]. destruct (C01_fifo _ _ _ RE MK SI _ _ _ _ _ IR IS) as (i' & j' & N1 & N2).
  assert (i' = i) as ->. { pose proof (proj1 (C01_once s ch RE)) as ND. pose proof (proj1 (NoDup_nth_error _) ND i' i) as Q. rewrite !nth_error_map, N1, NR in Q. apply Q; [|reflexivity]. rewrite map_length. apply nth_error_Some. congruence. }
  congruence.
Qed.
(** With cancellation (or a deadline) both halves fail, because a coroutine that was
    already resumed can still be canceled before it runs: *)
(** the send returns NECO_OK, the message went to a receive that returns NECO_CANCELED,
    and the channel is empty: nobody obtains the message ... *)
Definition ex03a : state := script [ECall (OpChMake 0); ECall OpStart; ECall (OpRecv 0 MAXI); ECall OpStart; ECall OpYield; ECall (OpSend 0 42 MAXI); ECall (OpCancel 2 MAXI); ECall OpYield].
Theorem C03_ok_refuted : exists s ch k x m t j y v t', reach s /\ chan_made s ch 0 /\ In (TRet k x (OpSend ch m MAXI) OK v t) (tr s) /\
  In (TRet j y (OpRecv ch MAXI) ECANCELED m t') (tr s) /\ receives ch (tr s) = [] /\ buf (chn (dt s) ch) = [] /\ q (dt s) (QChan ch) = [].
Proof.
  exists ex03a, 0%nat, 5%nat, 1, 42, 1000, 2%nat, 2, 0, 1000. split; [apply script_reach|]. split; [exists 0%nat, 1, 1000; vm_compute; tauto|]. split; [vm_compute; tauto|]. split; [vm_compute; tauto|]. split; [vm_compute; reflexivity|]. split; vm_compute; reflexivity.
Qed.
(** ... and the send returns NECO_CANCELED although its message was received. *)
Definition ex03b : state := script [ECall (OpChMake 0); ECall OpStart; ECall (OpSend 0 42 MAXI); ECall OpStart; ECall OpYield; ECall (OpRecv 0 MAXI); ECall (OpCancel 2 MAXI); ECall OpYield].
Theorem C03_canceled_refuted : exists s ch k x m t j y v t', reach s /\ chan_made s ch 0 /\ In (TRet k x (OpSend ch m MAXI) ECANCELED v t) (tr s) /\
  In (TRet j y (OpRecv ch MAXI) OK m t') (tr s) /\ calls_of (send_of ch) (tr s) = [(k, m)].
Proof.
  exists ex03b, 0%nat, 2%nat, 2, 42, 1000, 5%nat, 1, 0, 1000. split; [apply script_reach|]. split; [exists 0%nat, 1, 1000; vm_compute; tauto|]. split; [vm_compute; tauto|]. split; [vm_compute; tauto|]. vm_compute; reflexivity.
Qed.
(** Deadlines alone have both effects, with nobody canceled: a coroutine whose deadline
    has expired but which has not run yet is still in the queue of the channel. *)
Definition ex03c : state := script [ECall (OpChMake 0); ECall OpStart; ECall (OpRecv 0 1500); ECall OpStart; ECall OpYield; EAdv 5000; ECall OpYield; ECall OpYield; ECall (OpSend 0 42 MAXI); ECall OpYield].
Theorem C03_timeout_ok_refuted : exists s ch k x m t j y dl v t', reach s /\ chan_made s ch 0 /\ In (TRet k x (OpSend ch m MAXI) OK v t) (tr s) /\
  In (TRet j y (OpRecv ch dl) ETIMEDOUT m t') (tr s) /\ receives ch (tr s) = [] /\ buf (chn (dt s) ch) = [] /\ q (dt s) (QChan ch) = [] /\
  forall j c id d2 u, ~ In (TCall j c (OpCancel id d2) u) (tr s).
Proof.
  exists ex03c, 0%nat, 7%nat, 1, 42, 5000, 2%nat, 2, 1500, 0, 5000. split; [apply script_reach|]. split; [exists 0%nat, 1, 1000; vm_compute; tauto|]. split; [vm_compute; tauto|]. split; [vm_compute; tauto|].
  split; [vm_compute; reflexivity|]. split; [vm_compute; reflexivity|]. split; [vm_compute; reflexivity|].
  assert (B : forallb (fun z => match z with TCall _ _ (OpCancel _ _) _ => false | _ => true end) (tr ex03c) = true) by (vm_compute; reflexivity).
  intros j c id d2 u H. rewrite forallb_forall in B. apply B in H. discriminate H.
Qed.
Definition ex03d : state := script [ECall (OpChMake 0); ECall OpStart; ECall (OpSend 0 42 1500); ECall OpStart; ECall OpYield; EAdv 5000; ECall OpYield; ECall OpYield; ECall (OpRecv 0 MAXI); ECall OpYield].
Theorem C03_timedout_refuted : exists s ch k x m dl t j y v t', reach s /\ chan_made s ch 0 /\ In (TRet k x (OpSend ch m dl) ETIMEDOUT v t) (tr s) /\
  In (TRet j y (OpRecv ch MAXI) OK m t') (tr s) /\ calls_of (send_of ch) (tr s) = [(k, m)] /\ forall j c id d2 u, ~ In (TCall j c (OpCancel id d2) u) (tr s).
Proof.
  exists ex03d, 0%nat, 2%nat, 2, 42, 1500, 5000, 7%nat, 1, 0, 5000. split; [apply script_reach|]. split; [exists 0%nat, 1, 1000; vm_compute; tauto|]. split; [vm_compute; tauto|]. split; [vm_compute; tauto|]. split; [vm_compute; reflexivity|].
  assert (B : forallb (fun z => match z with TCall _ _ (OpCancel _ _) _ => false | _ => true end) (tr ex03d) = true) by (vm_compute; reflexivity).
  intros j c id d2 u H. rewrite forallb_forall in B. apply B in H. discriminate H.
Qed.

(** ** Non-vacuity *)
Definition simpleb (ch : nat) (t : list obs) : bool := forallb (fun z => match z with
  | TCall _ _ (OpCancel _ dl) _ => dl =? MAXI
  | TCall _ _ (OpSend g _ dl) _ | TCall _ _ (OpRecv g dl) _ => negb (Nat.eqb g ch) || (dl =? MAXI)
  | TCall _ _ (OpBcast g _) _ => negb (Nat.eqb g ch)
  | TCall _ _ (OpSelect gs _) _ | TCall _ _ (OpTrySelect gs) _ => negb (existsb (Nat.eqb ch) gs)
  | _ => true end) t &&
  forallb (fun z => match z with TCall _ c (OpSend g _ _) _ | TCall _ c (OpRecv g _) _ | TCall _ c (OpTryRecv g) _ => negb (Nat.eqb g ch) || sparedb t c | _ => true end) t.
Lemma simpleb_ok : forall ch t, simpleb ch t = true -> simple_chan ch t.
Proof.
  intros ch t H. unfold simpleb in H. apply andb_true_iff in H. destruct H as [H H2]. rewrite forallb_forall in H, H2. split; [split|].
  - intros k c id dl tm IN. specialize (H _ IN). apply Z.eqb_eq, H.
  - intros k c o tm IN U. specialize (H2 _ IN). apply sparedb_ok. destruct o; try discriminate U; try destruct U; cbn in H2; rewrite ?Nat.eqb_refl in H2; exact H2.
  - intros k c o tm IN. specialize (H _ IN). destruct o; cbn in H; auto.
    + intros ->. rewrite Nat.eqb_refl in H. apply Z.eqb_eq, H.
    + intros ->. rewrite Nat.eqb_refl in H. discriminate H.
    + intros ->. rewrite Nat.eqb_refl in H. apply Z.eqb_eq, H.
    + intros I. apply negb_true_iff in H. rewrite (proj2 (existsb_exists _ _)) in H; [discriminate H|]. exists ch. split; [exact I | apply Nat.eqb_refl].
    + intros I. apply negb_true_iff in H. rewrite (proj2 (existsb_exists _ _)) in H; [discriminate H|]. exists ch. split; [exact I | apply Nat.eqb_refl].
    + discriminate.
Qed.
(** a channel of capacity 1 with two sends and one receive; 1 runs *)
Definition ex01 : state := script [ECall (OpChMake 1); ECall OpStart; ECall (OpSend 0 41 MAXI); ECall (OpSend 0 42 MAXI); ECall OpStart; ECall (OpRecv 0 MAXI)].
Example C01_example : reach ex01 /\ chan_made ex01 0 1 /\ simple_chan 0 (tr ex01) /\ mode ex01 = MUser /\ cur (sc ex01) = Some 1 /\
  sends 0 (tr ex01) = [(2%nat, 41); (3%nat, 42)] /\ receives 0 (tr ex01) = [(5%nat, 3)].
Proof.
  split; [apply script_reach|]. split; [exists 0%nat, 1, 1000; vm_compute; tauto|]. split; [apply simpleb_ok; vm_compute; reflexivity|]. split; [vm_compute; reflexivity|]. split; [vm_compute; reflexivity|]. split; vm_compute; reflexivity.
Qed.
(** here a further send blocks (receives + 1 <= sends) and a receive goes ahead *)
Example C01_next_example : goes_ahead (step ex01 (ECall (OpRecv 0 5000))) 1 6 OK.
Proof. destruct C01_example as (A & B & C & D & E & F & G). apply (C01_next_receive ex01 0 1 1); try assumption; [left; exact C | apply sparedb_ok; vm_compute; reflexivity | rewrite F, G; cbn; lia | cbn; auto]. Qed.
Example C02_blocks_example : Z.of_nat (length (receives 0 (tr ex01))) + 1 <= Z.of_nat (length (sends 0 (tr ex01))).
Proof. destruct C01_example as (A & B & C & D & E & F & G). rewrite F, G. cbn. lia. Qed.
(** everything was received: 41 by the first receive (call 5), 42 by the second (call 6);
    three more receivers are blocked *)
Definition ex01w : state := script [ECall (OpChMake 1); ECall OpStart; ECall (OpSend 0 41 MAXI); ECall (OpSend 0 42 MAXI); ECall OpStart; ECall (OpRecv 0 MAXI); ECall (OpRecv 0 MAXI); ECall (OpRecv 0 MAXI); ECall (OpRecv 0 MAXI); ECall (OpRecv 0 MAXI)].
Example C01_fifo_example : In (TRet 6 1 (OpRecv 0 MAXI) OK 42 1000) (tr ex01w) /\ In (TRet 5 3 (OpRecv 0 MAXI) OK 41 1000) (tr ex01w) /\ simple_chan 0 (tr ex01w).
Proof. split; [vm_compute; tauto|]. split; [vm_compute; tauto|]. apply simpleb_ok; vm_compute; reflexivity. Qed.
(** 2 sends with a deadline and is later canceled, while it is suspended; 1 receives with a deadline *)
Definition ex01u : state := script [ECall (OpChMake 0); ECall OpStart; ECall (OpSend 0 41 5000); ECall (OpRecv 0 9000); ECall (OpSuspend MAXI); ECall (OpCancel 2 7000); ECall OpYield].
Definition ex01ut : list obs := [TRet 6 2 OpYield OK 0 1000; TCall 6 2 OpYield 1000; TRet 4 2 (OpSuspend MAXI) ECANCELED 0 1000; TCall 5 1 (OpCancel 2 7000) 1000; TRet 3 1 (OpRecv 0 9000) OK 41 1000;
  TCall 4 2 (OpSuspend MAXI) 1000; TRet 2 2 (OpSend 0 41 5000) OK 0 1000; TCall 3 1 (OpRecv 0 9000) 1000; TRet 1 1 OpStart OK 0 1000; TCall 2 2 (OpSend 0 41 5000) 1000;
  TStart 1 2; TCall 1 1 OpStart 1000; TRet 0 1 (OpChMake 0) OK 0 1000; TCall 0 1 (OpChMake 0) 1000; TStart 0 1].
Lemma ex01u_tr : tr ex01u = ex01ut.
Proof. vm_compute. reflexivity. Qed.
Lemma ex01u_mode : mode ex01u = MUser.
Proof. vm_compute. reflexivity. Qed.
Lemma unfailing_lit : forall s, tr s = ex01ut -> unfailing 0 s.
Proof.
  intros s T. unfold unfailing, plain_on. rewrite T. split.
  - intros k c o tm IN. repeat (destruct IN as [IN|IN]; [discriminate IN || (injection IN as <- <- <- <-; exact Logic.I)|]). destruct IN.
  - intros k x o tm IN U. left. unfold ex01ut in IN.
    repeat (destruct IN as [IN|IN]; [try discriminate IN; injection IN as <- <- <- <-; (exfalso; destruct U as [(m & dl & U)|[(dl & U)|U]]; discriminate U) || idtac|]); [| |destruct IN].
    + exists OK, 41, 1000. split; [cbn; auto 12 | split; discriminate].
    + exists OK, 0, 1000. split; [cbn; auto 12 | split; discriminate].
Qed.
Example C01_unfailing_example : reach ex01u /\ chan_made ex01u 0 0 /\ orderly 0 ex01u /\ ~ simple_chan 0 (tr ex01u) /\ In (TRet 3 1 (OpRecv 0 9000) OK 41 1000) (tr ex01u) /\
  In (TRet 2 2 (OpSend 0 41 5000) OK 0 1000) (tr ex01u) /\ In (TRet 4 2 (OpSuspend MAXI) ECANCELED 0 1000) (tr ex01u).
Proof.
  split; [apply script_reach|]. pose proof (unfailing_lit _ ex01u_tr) as UF. pose proof ex01u_mode as M. unfold orderly, settled, chan_made. rewrite ex01u_tr. revert UF M. generalize ex01u. intros s UF M.
  split; [exists 0%nat, 1, 1000; cbn; auto 20|]. split; [right; split; [rewrite M; split; [exact (fun z => z) | discriminate] | exact UF]|].
  split; [|split; [|split]; cbn; auto 20].
  intros [_ H]. assert (IN : In (TCall 3 1 (OpRecv 0 9000) 1000) ex01ut) by (cbn; auto 20). specialize (H _ _ _ _ IN eq_refl). discriminate H.
Qed.
Example C01_unfailing_fifo : exists i j, nth_error (receives 0 (tr ex01u)) i = Some (3%nat, 1) /\ nth_error (sends 0 (tr ex01u)) i = Some (j, 41).
Proof. destruct C01_unfailing_example as (A & B & C & _ & D & _). exact (C01_fifo _ _ _ A B C _ _ _ _ _ D eq_refl). Qed.
(** C01_source with failing calls: in [ex03b] the send of 42 has returned NECO_CANCELED
    and 42 was received; here 41 is lost with a canceled receive, 42 is received and 43
    waits in the channel *)
Definition ex01s : state := script [ECall (OpChMake 1); ECall OpStart; ECall (OpRecv 0 MAXI); ECall OpStart; ECall OpYield; ECall (OpSend 0 41 MAXI); ECall (OpCancel 2 MAXI); ECall OpYield; ECall OpYield; ECall (OpSend 0 42 MAXI); ECall (OpRecv 0 5000); ECall (OpSend 0 43 MAXI); ECall OpYield].
Definition plainb (ch : nat) (t : list obs) : bool := forallb (fun z => match z with
  | TCall _ _ (OpBcast g _) _ => negb (Nat.eqb g ch)
  | TCall _ _ (OpSelect gs _) _ | TCall _ _ (OpTrySelect gs) _ => negb (existsb (Nat.eqb ch) gs)
  | _ => true end) t.
Lemma plainb_ok : forall ch t, plainb ch t = true -> plain_on ch t.
Proof.
  intros ch t H k c o tm IN. unfold plainb in H. rewrite forallb_forall in H. specialize (H _ IN). destruct o; cbn in H; auto.
  - intros ->. rewrite Nat.eqb_refl in H. discriminate H.
  - intros I. apply negb_true_iff in H. rewrite (proj2 (existsb_exists _ _)) in H; [discriminate H|]. exists ch. split; [exact I | apply Nat.eqb_refl].
  - intros I. apply negb_true_iff in H. rewrite (proj2 (existsb_exists _ _)) in H; [discriminate H|]. exists ch. split; [exact I | apply Nat.eqb_refl].
Qed.
Example C01_source_example : reach ex01s /\ chan_made ex01s 0 1 /\ plain_on 0 (tr ex01s) /\ received 0 (tr ex01s) = [42] /\ buf (chn (dt ex01s) 0) = [43] /\ offered 0 (tr ex01s) = [43; 42; 41].
Proof.
  split; [apply script_reach|]. split; [exists 0%nat, 1, 1000; vm_compute; tauto|]. split; [apply plainb_ok; vm_compute; reflexivity|]. split; [vm_compute; reflexivity|]. split; vm_compute; reflexivity.
Qed.
Example C01_source_canceled : reach ex03b /\ chan_made ex03b 0 0 /\ plain_on 0 (tr ex03b) /\ received 0 (tr ex03b) = [42] /\ sends 0 (tr ex03b) = [].
Proof. split; [apply script_reach|]. split; [exists 0%nat, 1, 1000; vm_compute; tauto|]. split; [apply plainb_ok; vm_compute; reflexivity|]. split; vm_compute; reflexivity. Qed.
(** 2 is canceled and ends meanwhile *)
Definition ex01c : state := script [ECall (OpChMake 1); ECall OpStart; ECall (OpSuspend MAXI); ECall OpStart; ECall (OpRecv 0 MAXI); ECall (OpCancel 2 MAXI); ECall OpReturn; ECall (OpSend 0 41 MAXI); ECall OpYield].
Example C01_cancel_example : chan_made ex01c 0 1 /\ simple_chan 0 (tr ex01c) /\ In (TRet 2 2 (OpSuspend MAXI) ECANCELED 0 1000) (tr ex01c) /\ In (TExit 2) (tr ex01c) /\ In (TRet 4 3 (OpRecv 0 MAXI) OK 41 1000) (tr ex01c).
Proof. split; [exists 0%nat, 1, 1000; vm_compute; tauto|]. split; [apply simpleb_ok; vm_compute; reflexivity|]. split; [vm_compute; tauto|]. split; vm_compute; tauto. Qed.
Example C01_waiting_example : settled ex01w /\ blocked ex01w 3 9 (OpRecv 0 MAXI) /\ ~ to_resume ex01w 3 /\ length (receives 0 (tr ex01w)) = 5%nat /\ length (completed 0 (tr ex01w)) = 2%nat.
Proof.
  split; [split; vm_compute; [exact (fun z => z) | discriminate]|]. split; [apply blockedb_ok; split; [vm_compute; auto|]; exists 2%nat; eexists; split; vm_compute; reflexivity|]. split; [vm_compute; tauto|]. split; vm_compute; reflexivity.
Qed.
(** a send that goes ahead: nothing was sent yet and there is room for one message *)
Definition ex02 : state := script [ECall (OpChMake 1)].
Example C02_ahead_example : goes_ahead (step ex02 (ECall (OpSend 0 41 MAXI))) 1 1 OK \/ goes_ahead (step ex02 (ECall (OpSend 0 41 MAXI))) 1 1 ECLOSED.
Proof.
  apply (C02_send_ahead ex02 0 1 1); [apply script_reach | exists 0%nat, 1, 1000; vm_compute; tauto | left; apply simpleb_ok; vm_compute; reflexivity | vm_compute; reflexivity | vm_compute; reflexivity | apply sparedb_ok; vm_compute; reflexivity | vm_compute; reflexivity].
Qed.
Example C02_not_both_example : blocked ex01w 1 7 (OpRecv 0 MAXI) /\ buf (chn (dt ex01w) 0) = [].
Proof. split; [apply blockedb_ok; split; [vm_compute; auto|]; exists 2%nat; eexists; split; vm_compute; reflexivity | vm_compute; reflexivity]. Qed.
(** 2 is blocked sending on a channel that holds its maximum of one message *)
Definition ex02s : state := script [ECall (OpChMake 1); ECall OpStart; ECall (OpSend 0 41 MAXI); ECall (OpSend 0 42 MAXI)].
Example C02_sender_example : chan_made ex02s 0 1 /\ blocked ex02s 2 3 (OpSend 0 42 MAXI) /\ ~ to_resume ex02s 2 /\ buf (chn (dt ex02s) 0) = [41].
Proof.
  split; [exists 0%nat, 1, 1000; vm_compute; tauto|]. split; [apply blockedb_ok; split; [vm_compute; auto|]; exists 2%nat; eexists; split; vm_compute; reflexivity|]. split; [vm_compute; tauto | vm_compute; reflexivity].
Qed.
(** closed with one message left; then received, then drained *)
Definition ex04a : state := script [ECall (OpChMake 1); ECall (OpSend 0 41 MAXI); ECall (OpClose 0)].
Definition ex04b : state := script [ECall (OpChMake 1); ECall (OpSend 0 41 MAXI); ECall (OpClose 0); ECall (OpRecv 0 MAXI)].
Example C04_example : closed ex04a 0 /\ goes_ahead (step ex04a (ECall (OpSend 0 1 MAXI))) 1 3 ECLOSED /\ goes_ahead (step ex04a (ECall (OpRecv 0 MAXI))) 1 3 OK /\
  goes_ahead (step ex04b (ECall (OpRecv 0 MAXI))) 1 4 ECLOSED.
Proof.
  assert (CA : closed ex04a 0) by (exists 2%nat, 1, 0, 1000; vm_compute; tauto). assert (CB : closed ex04b 0) by (exists 2%nat, 1, 0, 1000; vm_compute; tauto).
  split; [exact CA|]. split; [apply (C04_after_close ex04a 0 1); [apply script_reach | exact CA | vm_compute; reflexivity | vm_compute; reflexivity | eauto]|].
  split; [apply (C01_next_receive ex04a 0 1 1) | apply (C04_drained ex04b 0 1 1)]; try exact CB; try apply script_reach; try (match goal with |- orderly _ _ => left; apply simpleb_ok; vm_compute; reflexivity end); try (apply sparedb_ok; vm_compute; reflexivity); try (vm_compute; reflexivity);
    try (exists 0%nat, 1, 1000; vm_compute; tauto); vm_compute; lia.
Qed.
(** 2 was blocked receiving when 1 called close: it is about to be resumed *)
Definition ex04r : state := step (script [ECall (OpChMake 1); ECall OpStart; ECall (OpRecv 0 MAXI)]) (ECall (OpClose 0)).
Example C04_resume_example : closing ex04r 0 /\ blocked ex04r 2 2 (OpRecv 0 MAXI) /\ to_resume ex04r 2.
Proof.
  split; [exists 1, [FCoyield; FYfsr; FClose], 3%nat; split; [discriminate | exists [FEntry]; split; [vm_compute; reflexivity | apply sh_close, yf_3]]|].
  split; [apply blockedb_ok; split; [vm_compute; auto|]; exists 2%nat; eexists; split; vm_compute; reflexivity | vm_compute; tauto].
Qed.

Print Assumptions C01_fifo.
Print Assumptions C01_once.
Print Assumptions C01_source.
Print Assumptions C01_source_count.
Print Assumptions C01_source_held.
Print Assumptions C01_next_receive.
Print Assumptions C01_waiting.
Print Assumptions C02_bound.
Print Assumptions C02_sender_blocked.
Print Assumptions C02_receiver_blocked.
Print Assumptions C02_not_both.
Print Assumptions C02_send_ahead.
Print Assumptions C02_send_blocks.
Print Assumptions C02_recv_blocks.
Print Assumptions C02_completed.
Print Assumptions C03_ok_partial.
Print Assumptions C03_ok_refuted.
Print Assumptions C03_canceled_refuted.
Print Assumptions C04_after_close.
Print Assumptions C04_drained.
Print Assumptions C04_receivers_resume.
Print Assumptions C04_stuck_refuted.
Print Assumptions C03_timeout_ok_refuted.
Print Assumptions C03_timedout_refuted.
