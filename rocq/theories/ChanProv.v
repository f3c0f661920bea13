(** Where the messages that are received come from, in every history: whatever is
    canceled, times out or fails, the messages received from a channel, together with
    those still in it, are among the messages given to sends. *)
From Coq Require Import List ZArith Bool Lia Permutation.
From Verif Require Import AATreeSpec AATreeHist Util Runtime SchedInv StepInv StackShape RuntimeSpec TraceInv Immediate Prims StaticInv Footprint QueueInv OwnInv WaitInv CallInv SpecInv TraceStep Wake Awake DeadlineInv AllInv PausedInv ResultInv JoinInv WaiterInv DldInv CancelInv CancelOrd MutexEff MutexTok MutexRt MutexOrd MutexLeak AtCall WgInv ChanShape ChanSpec ChanLists ChanEff ChanQuiet ChanFifo ChanLeak.
Import ListNotations.
Local Open Scope Z_scope.

(** the messages that receives from [ch] have returned with NECO_OK *)
Definition got (ch : nat) (t : list obs) : list Z :=
  flat_map (fun z => match z with TRet _ _ o r v _ => if isr ch o && (r =? OK) then [v] else [] | _ => [] end) t.
Definition given (G : Z -> option nat) (ch : nat) (t : list obs) : list Z := map snd (calls_of (put_of G ch) t).

(** a receive in progress has its message *)
Definition hasm (s : state) (ch : nat) (x : Z) (w : list frame) : Prop :=
  (w = [] -> mode s = MRet OK) /\ (In (FRecvWait ch) w -> ~ inq s ch x /\ cclosed (cof (dt s) x) = false).
Definition pv (G : Z -> option nat) (ch : nat) (s : state) : Prop :=
  newok ch (dt s) /\ exists (H : list (nat * Z * Z)) (rest : list Z),
    (forall x w k o, at_call s x w k o -> isr ch o = true -> hasm s ch x w -> In (k, x, rbuf (cof (dt s) x)) H) /\
    Permutation (got ch (tr s) ++ map snd H ++ buf (chn (dt s) ch) ++ smsgs ch (dt s) ++ rest) (given G ch (tr s)).
Definition covered (G : Z -> option nat) (ch : nat) (t : list obs) : Prop := exists rest, Permutation (got ch t ++ rest) (given G ch t).
Lemma pv_covered : forall G ch s, pv G ch s -> covered G ch (tr s).
Proof. intros G ch s (_ & H & rest & _ & P). eexists. exact P. Qed.

(** ** The trace *)
Lemma got_app : forall ch a b, got ch (a ++ b) = got ch a ++ got ch b.
Proof. intros. unfold got. apply flat_map_app. Qed.
Lemma got_quiets : forall ch l, Forall quietz l -> got ch l = [].
Proof. intros ch l F. induction F as [|z l Q F IH]; [reflexivity|]. destruct z; try destruct Q; cbn; exact IH. Qed.
Lemma given_quiets : forall G ch l t, Forall quietz l -> given G ch (l ++ t) = given G ch t.
Proof. intros G ch l t F. induction F as [|z l Q F IH]; [reflexivity|]. destruct z; try destruct Q; cbn; exact IH. Qed.
Lemma got_call : forall ch s c o fs k, got ch (call_tr s c o fs k) = got ch (tr s).
Proof.
  intros. unfold call_tr. destruct (obs_quiet c (nextid (sc s) + 1) k fs (dt s)) as [Q1 Q2]. rewrite !got_app, (got_quiets _ _ Q1), (got_quiets _ _ Q2). destruct o; reflexivity.
Qed.
Lemma given_call : forall G ch s c o fs k, given G ch (call_tr s c o fs k) = given G ch (tr s) ++ match put_of G ch c o with Some a => [a] | None => [] end.
Proof.
  intros. unfold call_tr. destruct (obs_quiet c (nextid (sc s) + 1) k fs (dt s)) as [Q1 Q2]. rewrite (given_quiets _ _ _ _ Q1), (given_quiets _ _ _ _ Q2).
  assert (B : given G ch (TCall (ncalls s) c o (now s) :: tr s) = given G ch (tr s) ++ match put_of G ch c o with Some a => [a] | None => [] end).
  { unfold given. cbn [calls_of]. rewrite map_app. destruct (put_of G ch c o); reflexivity. }
  destruct o; exact B.
Qed.
Lemma got_tick : forall ch s c v f d fs k, got ch (tick_tr s c v f d fs k) = got ch (ret_obs c f v (d, fs, k) s) ++ got ch (tr s).
Proof. intros. unfold tick_tr. destruct (obs_quiet c (nextid (sc s) + 1) k fs (dt s)) as [Q1 Q2]. rewrite !got_app, (got_quiets _ _ Q1), (got_quiets _ _ Q2). reflexivity. Qed.
Lemma given_tick : forall G ch s c v f d fs k, given G ch (tick_tr s c v f d fs k) = given G ch (tr s).
Proof.
  intros. unfold tick_tr. destruct (obs_quiet c (nextid (sc s) + 1) k fs (dt s)) as [Q1 Q2]. rewrite (given_quiets _ _ _ _ Q1), (given_quiets _ _ _ _ Q2).
  unfold ret_obs. destruct f; try reflexivity. destruct fs; try reflexivity. destruct k; reflexivity.
Qed.

(** ** Steps *)
Ltac pc := rewrite (Permutation_count_occ Z.eq_dec) in *; let z := fresh "z" in intros z;
  repeat match goal with H : forall x : Z, count_occ _ _ x = _ |- _ => specialize (H z) end; repeat rewrite count_occ_app in *; lia.

Lemma pv_step : forall G ch s s' P HN r, pv G ch s -> newok ch (dt s') -> got ch (tr s') = got ch (tr s) -> given G ch (tr s') = given G ch (tr s) ++ P ->
  Permutation (map snd HN ++ buf (chn (dt s') ch) ++ smsgs ch (dt s') ++ r) (P ++ buf (chn (dt s) ch) ++ smsgs ch (dt s)) ->
  (forall x w k o, at_call s' x w k o -> isr ch o = true -> hasm s' ch x w -> In (k, x, rbuf (cof (dt s') x)) HN \/
    (rbuf (cof (dt s') x) = rbuf (cof (dt s) x) /\ exists w0, at_call s x w0 k o /\ hasm s ch x w0)) -> pv G ch s'.
Proof.
  intros G ch s s' P HN r (_ & H & rest & C & PE) NW EG EP PP HC. split; [exact NW|]. exists (HN ++ H), (r ++ rest). split.
  - intros x w k o A IS HM. apply in_or_app. destruct (HC _ _ _ _ A IS HM) as [I|(-> & w0 & A0 & H0)]; [auto | right; eapply C; eassumption].
  - rewrite EG, EP, map_app. pc.
Qed.
Lemma pv_ret : forall G ch s s' c k o, pv G ch s -> dt s' = dt s -> got ch (tr s') = rbuf (cof (dt s) c) :: got ch (tr s) -> given G ch (tr s') = given G ch (tr s) ->
  at_call s c [] k o -> isr ch o = true -> mode s = MRet OK ->
  (forall x w j p, at_call s' x w j p -> isr ch p = true -> x <> c /\ at_call s x w j p /\ w <> []) -> pv G ch s'.
Proof.
  intros G ch s s' c k o (NW & H & rest & C & PE) ED EG EP A IS M HC. split; [rewrite ED; exact NW|].
  assert (IN : In (k, c, rbuf (cof (dt s) c)) H) by (eapply C; [exact A | exact IS | split; [intros _; exact M | intros []]]).
  apply in_split in IN. destruct IN as (H1 & H2 & ->). exists (H1 ++ H2), rest. split.
  - intros x w j p A' IS' [_ HM]. destruct (HC _ _ _ _ A' IS') as (NE & A0 & NN). rewrite ED. specialize (C _ _ _ _ A0 IS').
    assert (HM0 : hasm s ch x w) by (split; [intros Q; contradiction | intros IW; destruct (HM IW) as [Q1 Q2]; unfold inq in Q1; rewrite ED in Q1, Q2; auto]).
    specialize (C HM0). apply in_app_or in C. apply in_or_app. destruct C as [C|[C|C]]; [auto | congruence | auto].
  - rewrite !map_app in *. rewrite EG, EP, ED. cbn [map snd] in PE. change (rbuf (cof (dt s) c) :: map snd H2) with ([rbuf (cof (dt s) c)] ++ map snd H2) in PE.
    change (rbuf (cof (dt s) c) :: got ch (tr s)) with ([rbuf (cof (dt s) c)] ++ got ch (tr s)). pc.
Qed.

Lemma node_dec : forall a b : node, {a = b} + {a <> b}.
Proof. repeat decide equality. Defined.
(** the queue of waiting receivers holds no sender and vice versa *)
Lemma inq_dir : forall s ch x w k o, reach s -> at_call s x w k o -> isr ch o = true -> inq s ch x -> qrecv (chn (dt s) ch) = true.
Proof.
  intros s ch x w k o RE AC IS IN. pose proof (inq_wait _ _ _ _ _ _ RE AC IS IN) as IW. pose proof (proj2 (reach_chinv _ RE) ch _ IN) as SD. cbn [node_co] in SD. destruct AC as (st & SX & SH). rewrite SX in SD.
  destruct (isr_wait _ _ _ IS SH) as [-> |[-> |[-> | ->]]]; cbn in IW; try tauto; cbn in SD; try congruence.
Qed.
Lemma perm_filter : forall A B (g : A -> B) (f : A -> bool) l, Permutation (map g (filter f l) ++ map g (filter (fun x => negb (f x)) l)) (map g l).
Proof.
  intros A B g f l. induction l as [|a l IH]; [constructor|]. cbn. destruct (f a); cbn; [constructor; exact IH|]. rewrite <- Permutation_middle. constructor. exact IH.
Qed.

(** what a step does to the channel and to the receives of the other coroutines *)
Record eff (s : state) (c : Z) (ch : nat) (d : dat) : Prop := {
  e_new : newok ch d;
  e_mess : exists r, Permutation (buf (chn d ch) ++ smsgs ch d ++ r) (buf (chn (dt s) ch) ++ smsgs ch (dt s));
  e_oth : forall x w k o, x <> c -> at_call s x w k o -> isr ch o = true -> (In (FRecvWait ch) w -> ~ In (NCo x) (q d (QChan ch)) /\ cclosed (cof d x) = false) ->
    rbuf (cof d x) = rbuf (cof (dt s) x) /\ (In (FRecvWait ch) w -> ~ inq s ch x /\ cclosed (cof (dt s) x) = false) }.

Lemma smsgs_quiet : forall ch d d', allnco (q d (QChan ch)) -> quietc ch d d' -> (forall x, In (NCo x) (q d (QChan ch)) -> smsg (cof d' x) = smsg (cof d x)) -> smsgs ch d' = smsgs ch d.
Proof.
  intros ch d d' AN (_ & Q & QR & _) H. unfold smsgs. rewrite Q. destruct (q d (QChan ch)) as [|n l] eqn:QQ; [destruct (qrecv _), (qrecv _); reflexivity|]. rewrite QR by discriminate.
  destruct (qrecv (chn d ch)); [reflexivity|]. apply map_ext_in. intros a IA. pose proof (AN _ IA) as EA. rewrite EA in IA. apply H, IA.
Qed.
Lemma smsgs_recv : forall ch d, q d (QChan ch) = [] \/ qrecv (chn d ch) = true -> smsgs ch d = [].
Proof. intros ch d [Q|Q]; unfold smsgs; rewrite Q; [destruct (qrecv _)|]; reflexivity. Qed.
Lemma smsgs_send : forall ch d, q d (QChan ch) = [] \/ qrecv (chn d ch) = false -> smsgs ch d = map (fun n => smsg (cof d (node_co n))) (q d (QChan ch)).
Proof. intros ch d [Q|Q]; unfold smsgs; rewrite Q; [destruct (qrecv _)|]; reflexivity. Qed.

Lemma out_eff : forall s c ch d k, reach s -> unhurt ch s -> newok ch (dt s) -> cur (sc s) = Some c -> step_out s c ch d -> eff s c ch (ctl_dat c (nextid (sc s) + 1) k d).
Proof.
  intros s c ch d k RE SI NW CU TO. pose proof (cur_notin _ _ _ RE SI CU) as NI. pose proof (chan_nco _ _ RE (proj1 SI)) as AN.
  assert (NID : ~ In (NCo c) (q d (QChan ch))).
  { destruct TO as [(_ & Q2 & _) _|A1 A2 A3 A4 A5 A6 A7 A8 A9]; [rewrite Q2; exact NI | rewrite A4; exact (fun z => z)]. }
  assert (NWD : newok ch d).
  { destruct TO as [QC _|A1 A2 A3 A4 A5 A6 A7 A8 A9]; [eapply newok_quiet; eassumption | intros Z; lia]. }
  assert (QND : q d (QChan ch) = [] \/ (ch < nchan d)%nat).
  { destruct TO as [(Q1 & Q2 & Q3 & Q4 & Q5) _|A1 A2 A3 A4 A5 A6 A7 A8 A9]; [|auto]. rewrite Q2. destruct (Nat.lt_ge_cases ch (nchan (dt s))) as [LT|GE]; [right; lia|].
    left. destruct (reach_chinv _ RE) as [(D1 & D2 & D3) _]. apply (ck_nil _ _ (D1 ch)), D2, GE. }
  destruct (quiet_ctl s c ch k d RE CU NID QND NWD) as [CQ CC]. set (d' := ctl_dat c (nextid (sc s) + 1) k d) in *. clearbody d'.
  assert (NC : forall x, In (NCo x) (q (dt s) (QChan ch)) -> x <> c) by (intros x IX ->; exact (NI IX)).
  constructor.
  - eapply newok_quiet; eassumption.
  - exists []. rewrite app_nil_r. destruct CQ as (CQ1 & CQ2 & CQ3 & CQ4 & CQ5 & CQ6). destruct TO as [QC ST|A1 A2 A3 A4 A5 A6 A7 A8 A9].
    + pose proof QC as (Q1 & Q2 & Q3 & Q4 & Q5 & Q6). rewrite CQ1, Q1. apply Permutation_app_head. rewrite (smsgs_quiet ch (dt s) d'); [reflexivity | exact AN | |].
      * unfold quietc. repeat split; [congruence | congruence | | congruence | lia | auto]. intros NE. rewrite CQ3 by congruence. auto.
      * intros x IX. rewrite CC; [|apply NC, IX | left; exact IX]. apply ST; [apply NC, IX | left; exact IX].
    + rewrite CQ1, A5, A2, (smsgs_recv ch (dt s)) by exact A3. rewrite smsgs_recv; [reflexivity|]. left. congruence.
  - intros x w kk o NE AC IS HM. assert (PE : pend s ch x) by (right; eauto). rewrite CC in * by assumption. destruct CQ as (CQ1 & CQ2 & CQ3 & CQ4 & CQ5 & CQ6). rewrite CQ2 in HM.
    destruct TO as [QC ST|A1 A2 A3 A4 A5 A6 A7 A8 A9].
    + destruct (ST x NE PE) as (S1 & S2 & S3). pose proof QC as (Q1 & Q2 & Q3 & Q4 & Q5 & Q6). split; [exact S1|]. intros IW. destruct (HM IW) as [H1 H2]. unfold inq. rewrite <- Q2, <- S3. auto.
    + assert (D : inq s ch x \/ ~ inq s ch x) by (unfold inq; destruct (in_dec node_dec (NCo x) (q (dt s) (QChan ch))); auto). destruct D as [D|D].
      * rewrite A8 in * by exact D. split; [destruct (cof (dt s) x); reflexivity|]. intros IW. destruct (HM IW) as [_ H2]. destruct (cof (dt s) x); discriminate H2.
      * rewrite A9 in * by assumption. split; [reflexivity|]. intros IW. destruct (HM IW). auto.
Qed.

Lemma rm_eff : forall s c ch d, reach s -> plain_on ch (tr s) -> newok ch (dt s) ->
  (q d (QChan ch) = q (dt s) (QChan ch) \/ q d (QChan ch) = filter (fun n => negb (node_eqb (NCo c) n)) (q (dt s) (QChan ch))) ->
  chn d = chn (dt s) -> nchan d = nchan (dt s) -> (forall x, x <> c -> cof d x = cof (dt s) x) -> smsg (cof d c) = smsg (cof (dt s) c) -> eff s c ch d.
Proof.
  intros s c ch d RE PL NW QQ CE NE CO SM.
  assert (SA : forall x, smsg (cof d x) = smsg (cof (dt s) x)) by (intros x; destruct (Z.eq_dec x c) as [->|N]; [exact SM | rewrite CO by exact N; reflexivity]).
  constructor.
  - unfold newok. rewrite CE, NE. exact NW.
  - rewrite CE. unfold smsgs. rewrite CE. destruct (qrecv (chn (dt s) ch)); [exists []; rewrite !app_nil_r; reflexivity|]. 
    assert (ME : forall l, map (fun n => smsg (cof d (node_co n))) l = map (fun n => smsg (cof (dt s) (node_co n))) l) by (intros l; apply map_ext; intros n; apply SA). rewrite ME.
    destruct QQ as [-> | ->]; [exists []; rewrite !app_nil_r; reflexivity|]. eexists. apply Permutation_app_head. apply perm_filter.
  - intros x w k o N AC IS HM. rewrite CO in * by exact N. split; [reflexivity|]. intros IW. destruct (HM IW) as [H1 H2]. split; [|exact H2]. intros IX. apply H1. destruct QQ as [-> | ->]; [exact IX|].
    apply filter_In. split; [exact IX|]. cbn. destruct (Z.eqb_spec c x); [congruence | reflexivity].
Qed.
Lemma hurt_dec : forall s ch c, plain_on ch (tr s) -> cur (sc s) = Some c -> unhurt ch s \/
  ((exists rest, top (stk (sc s) c) = FSendWait ch :: rest \/ top (stk (sc s) c) = FRecvWait ch :: rest) /\ (canceled (cof (dt s) c) = true \/ deadlined (cof (dt s) c) = true)).
Proof.
  intros s ch c PL CU.
  assert (D : (exists rest, top (stk (sc s) c) = FSendWait ch :: rest \/ top (stk (sc s) c) = FRecvWait ch :: rest) \/ ~ (exists rest, top (stk (sc s) c) = FSendWait ch :: rest \/ top (stk (sc s) c) = FRecvWait ch :: rest)).
  { destruct (top (stk (sc s) c)) as [|f rest]; [right; intros (r & [D|D]); discriminate D|].
    destruct f; try (right; intros (r & [D|D]); discriminate D); (destruct (Nat.eq_dec ch0 ch) as [->|N]; [left; eauto | right; intros (r & [D|D]); congruence]). }
  destruct D as [D|D].
  - destruct (canceled (cof (dt s) c)) eqn:CA; [auto|]. destruct (deadlined (cof (dt s) c)) eqn:DE; [auto|]. left. split; [exact PL|]. intros x CX _. assert (x = c) by congruence. subst x. auto.
  - left. split; [exact PL|]. intros x CX W. assert (x = c) by congruence. subst x. contradiction.
Qed.
Lemma checkdl_data : forall c dl nw d v d', checkdl c dl nw d = (v, d') -> q d' = q d /\ chn d' = chn d /\ nchan d' = nchan d /\ (forall x, x <> c -> cof d' x = cof d x) /\
  smsg (cof d' c) = smsg (cof d c).
Proof.
  intros c dl nw d v d' E. unfold checkdl in E. match type of E with (if ?b then _ else _) = _ => destruct b end; injection E as _ <-; [repeat split|].
  cbn. unfold upco. cbn. rewrite zupd_eq. repeat split. intros x N. rewrite zupd_neq by exact N. reflexivity.
Qed.

Section Tick.
Variables (G : Z -> option nat) (s : state) (c v : Z) (f : frame) (rest : list frame) (b : bool) (d : dat) (fs : list frame) (k : ctl) (sch : sched) (md : emode) (ch : nat).
Hypothesis RE : reach s.
Hypothesis PL : plain_on ch (tr s).
Hypothesis GY : gyw G s.
Hypothesis M : mode s = MRet v.
Hypothesis CU : cur (sc s) = Some c.
Hypothesis SK : stk (sc s) c = f :: rest.
Hypothesis L : lstack (f :: rest).
Hypothesis E : hret c f v b (now s) (dt s) = (d, fs, k).
Hypothesis X : exec c k (set_stk (zupd (stk (sc s)) c (fs ++ rest)) (sc s)) = (sch, md).
Hypothesis PV : pv G ch s.
Let s' := tickst s c v f d fs k sch md.
Lemma tk_over : ~ over (mode s). Proof. rewrite M. exact (fun z => z). Qed.
Lemma tk_oth : eff s c ch (dt s') -> forall x w j o, x <> c -> at_call s x w j o -> isr ch o = true -> hasm s' ch x w ->
  rbuf (cof (dt s') x) = rbuf (cof (dt s) x) /\ exists w0, at_call s x w0 j o /\ hasm s ch x w0.
Proof.
  intros EF x w j o NE A IS [H1 H2]. destruct (e_oth _ _ _ _ EF x w j o NE A IS H2) as [R1 R2]. split; [exact R1|]. exists w. split; [exact A|]. split; [|exact R2].
  intros ->. exfalso. destruct (at_ret _ _ _ _ RE A (isr_hand _ _ IS) tk_over) as [CX _]. congruence.
Qed.
Lemma tick_pv : pv G ch s'.
Proof.
  pose proof (reach_full _ RE) as F. pose proof (proj1 PV) as NW.
  assert (GT : given G ch (tr s') = given G ch (tr s) ++ []) by (unfold s', tickst; cbn [tr]; rewrite given_tick, app_nil_r; reflexivity).
  assert (STEP : eff s c ch (dt s') -> got ch (tr s') = got ch (tr s) -> (forall w j o w1, w = fs ++ w1 -> at_call s' c w j o -> at_call s c (f :: w1) j o -> isr ch o = true -> hasm s' ch c w ->
      rbuf (cof (dt s') c) = rbuf (cof (dt s) c) /\ hasm s ch c (f :: w1)) -> pv G ch s').
  { intros EF EG OWN. destruct (e_mess _ _ _ _ EF) as (r & PM). eapply (pv_step G ch s s' [] [] r); [exact PV | apply (e_new _ _ _ _ EF) | exact EG | exact GT | exact PM|].
    intros x w j o A IS HM. right. destruct (tick_at _ _ _ _ _ _ _ _ _ _ _ _ _ _ _ F CU SK L E X A) as [(-> & NF & w1 & EW & SH & A0)|[(-> & _ & _ & D)|(NE & A0)]].
    - destruct (OWN w j o w1 EW A A0 IS HM) as [R1 R2]. split; [exact R1|]. eauto.
    - subst o. discriminate IS.
    - apply (tk_oth EF x w j o NE A0 IS HM). }
  assert (NAPI : forall j o j' o' w1, f = FApi j o -> ~ at_call s c (f :: w1) j' o').
  { intros j o j' o' w1 -> (st & _ & SH). eapply shape_noapi2; [exact SH | left; reflexivity]. }
  assert (GOT : (forall j o, f = FApi j o -> isr ch o = true -> v <> OK) -> got ch (tr s') = got ch (tr s)).
  { intros H. unfold s', tickst. cbn [tr]. rewrite got_tick. unfold ret_obs. destruct f; try reflexivity. destruct fs; [|reflexivity]. destruct k; try reflexivity. cbn.
    destruct (isr ch o) eqn:IS; [|reflexivity]. specialize (H _ _ eq_refl IS). apply Z.eqb_neq in H. rewrite H. reflexivity. }
  destruct (hurt_dec s ch c PL CU) as [SI|[(r0 & TP) FL]].
  - assert (EF : eff s c ch (dt s')) by (apply out_eff; auto; eapply tick_out; eassumption).
    assert (OT : forall w kk o, at_call s c w kk o -> isr ch o = true -> _) by (intros w kk o AC IS; exact (own_tick _ _ _ _ _ _ _ _ _ _ _ _ _ _ _ _ (tick_tr s c v f d fs k) RE SI GY M CU SK E X AC IS)).
    cbv zeta in OT. change (mkst sch (ctl_dat c (nextid (sc s) + 1) k d) md (now s) (ncalls s) (tick_tr s c v f d fs k)) with s' in OT.
    assert (OWN : forall w j o w1, w = fs ++ w1 -> at_call s' c w j o -> at_call s c (f :: w1) j o -> isr ch o = true -> hasm s' ch c w -> rbuf (cof (dt s') c) = rbuf (cof (dt s) c) /\ hasm s ch c (f :: w1)).
    { intros w j o w1 EW A A0 IS [H1 H2]. destruct (OT _ _ _ A0 IS) as [(D & _)|(r & Ek & Em & C)]; [discriminate D|].
      assert (ED : dt s' = d) by (unfold s', tickst; cbn [dt]; rewrite Ek; reflexivity). rewrite ED in *. pose proof (cur_notin _ _ _ RE SI CU) as NI.
      destruct C as [(EW0 & A1 & S1 & S2 & S3)|[(EW0 & A1 & -> & Ed)|(EW0 & A1 & C1 & C2)]]; pose proof EW0 as EW1; injection EW1 as EW1 EW2; rewrite EW0.
      - split; [exact S1|]. split; [discriminate|]. intros _. split; [exact NI|]. rewrite <- S3. apply H2.
        destruct A as (st & SX & _). destruct A1 as (st' & SX' & _). rewrite SX in SX'. destruct w as [|g w]; [discriminate SX'|]. cbn in SX'. injection SX' as -> _. left. reflexivity.
      - rewrite Ed. split; [reflexivity|]. split; [discriminate|]. intros [D|[]]; discriminate D.
      - assert (w = []). { destruct A as (st & SX & SH). destruct A1 as (st' & SX' & _). rewrite SX in SX'. destruct w as [|g w]; [reflexivity|]. cbn in SX'. injection SX' as -> _. exfalso. eapply shape_noapi2; [exact SH | left; reflexivity]. }
        assert (RO : r = OK) by (specialize (H1 H); cbn in H1; rewrite Em in H1; congruence).
        destruct (cclosed (cof (dt s) c)) eqn:CC; [destruct (C2 eq_refl); contradiction|]. destruct (C1 eq_refl) as [_ RB]. split; [exact RB|]. split; [discriminate|]. auto. }
    destruct (Z.eq_dec v OK) as [VO|VN]; [|apply STEP; auto].
    assert (FD : (exists j o, f = FApi j o /\ isr ch o = true) \/ (forall j o, f = FApi j o -> isr ch o = true -> v <> OK)).
    { destruct f; try (right; intros; discriminate). destruct (isr ch o) eqn:IS; [left; eauto | right; intros j p Q IP; injection Q as <- <-; congruence]. }
    destruct FD as [(j & o & QF & IS)|FD]; [|apply STEP; auto].
    pose proof SK as SK0. rewrite QF in SK0. assert (A : at_call s c [] j o) by (exists rest; split; [exact SK0 | constructor]).
    destruct (OT _ _ _ A IS) as [(_ & _ & Q)|(r & _ & _ & C)]; [|destruct C as [(D & _)|[(D & _)|(D & _)]]; discriminate D].
    destruct Q as (Ed & Ef & Ek); [rewrite VO; discriminate|].
    eapply (pv_ret G ch s s' c j o); [exact PV | unfold s', tickst; cbn [dt]; rewrite Ek, Ed; reflexivity | | unfold s', tickst; cbn [tr]; apply given_tick | exact A | exact IS | rewrite M, VO; reflexivity|].
    + unfold s', tickst. cbn [tr]. rewrite got_tick, QF, Ef, Ek. cbn. rewrite IS, VO. reflexivity.
    + intros x w j' p A' IP. destruct (tick_at _ _ _ _ _ _ _ _ _ _ _ _ _ _ _ F CU SK L E X A') as [(-> & NF & w1 & EW & SH & A0)|[(-> & _ & _ & D)|(NE & A0)]].
      * destruct (NAPI _ _ _ _ _ QF A0).
      * subst p. discriminate IP.
      * split; [exact NE|]. split; [exact A0|]. intros ->. destruct (at_ret _ _ _ _ RE A0 (isr_hand _ _ IP) tk_over) as [CX _]. congruence.
  - assert (TP' : exists rest0, top (stk (sc s) c) = FSendWait ch :: rest0 \/ top (stk (sc s) c) = FRecvWait ch :: rest0) by eauto.
    destruct (chan_wait s ch c RE TP') as (g & w & j & p & r1 & TF & AC & GG & WW & _). pose proof AC as (st & SX & SH). rewrite SK in SX.
    assert (NF : forall j0 o0, f = FApi j0 o0 -> isr ch o0 = true -> v <> OK) by (intros j0 o0 Q; exfalso; destruct WW as [-> | ->]; cbn in SX; injection SX as SX _; destruct GG; congruence).
    destruct WW as [-> | ->]; cbn [app] in SX; injection SX as QF QR.
    + (* the wait ends *)
      assert (EE : exists w, fs = [] /\ k = CRet w /\ w <> OK /\ q d (QChan ch) = filter (fun n => negb (node_eqb (NCo c) n)) (q (dt s) (QChan ch)) /\
        chn d = chn (dt s) /\ nchan d = nchan (dt s) /\ (forall x, x <> c -> cof d x = cof (dt s) x) /\ smsg (cof d c) = smsg (cof (dt s) c)).
      { pose proof E as E0. rewrite QF in E0. destruct GG as [-> | ->]; cbn [hret] in E0.
        - unfold send_end in E0. destruct (checkdl c MAXI (now s) _) as [w d1] eqn:CK. injection E0 as <- <- <-. exists w.
          assert (WO : w <> OK). { intros ->. apply checkdl_ok in CK. destruct CK as [K1 K2]. cbn in K1, K2. destruct FL; congruence. }
          destruct (checkdl_data _ _ _ _ _ _ CK) as (C1 & C2 & C3 & C4 & C5). rewrite C1, C2, C3, C5. split; [reflexivity|]. split; [reflexivity|]. split; [exact WO|]. split; [reflexivity|]. split; [reflexivity|]. split; [reflexivity|]. split; [|reflexivity].
          intros x N. rewrite C4 by exact N. reflexivity.
        - unfold recv_end in E0. destruct (checkdl c MAXI (now s) _) as [w d1] eqn:CK.
          assert (WO : w <> OK). { intros ->. apply checkdl_ok in CK. destruct CK as [K1 K2]. cbn in K1, K2. destruct FL; congruence. }
          pose proof WO as WB. apply Z.eqb_neq in WB. rewrite WB in E0. cbn [negb] in E0. injection E0 as <- <- <-. exists w.
          destruct (checkdl_data _ _ _ _ _ _ CK) as (C1 & C2 & C3 & C4 & C5). rewrite C1, C2, C3, C5. split; [reflexivity|]. split; [reflexivity|]. split; [exact WO|]. split; [reflexivity|]. split; [reflexivity|]. split; [reflexivity|]. split; [|reflexivity].
          intros x N. rewrite C4 by exact N. reflexivity. }
      destruct EE as (w & Ef & Ek & WO & D1 & D2 & D3 & D4 & D5).
      assert (ED : dt s' = d) by (unfold s', tickst; cbn [dt]; rewrite Ek; reflexivity).
      apply STEP; [rewrite ED; apply rm_eff; auto | apply GOT, NF|].
      intros w' j' p' w1 EW A A0 IS [H1 _]. exfalso. pose proof X as X0. rewrite Ek in X0. cbn [exec] in X0. injection X0 as _ X2.
      rewrite Ef in EW. cbn [app] in EW. subst w'. destruct A0 as (st0 & SX0 & SH0). rewrite SK, QF, QR in SX0. cbn in SX0.
      assert (w1 = []) as ->. { destruct w1 as [|h w1]; [reflexivity|]. cbn in SX0. injection SX0 as <- _. exfalso. eapply shape_noapi2; [exact SH0 | right; left; reflexivity]. }
      specialize (H1 eq_refl). unfold s', tickst in H1. cbn [mode] in H1. congruence.
    + (* the pause ends *)
      pose proof E as E0. rewrite QF in E0. cbn [hret] in E0. injection E0 as Ed Ef Ek.
      assert (ED : dt s' = d) by (unfold s', tickst; cbn [dt]; rewrite <- Ek; reflexivity).
      assert (CO : forall x, x <> c -> cof d x = cof (dt s) x) by (intros x N; rewrite <- Ed; unfold pause_end; rewrite upco_neq by exact N; destruct (_ <? _); reflexivity).
      assert (C3 : same3 (cof (dt s) c) (cof d c)) by (rewrite <- Ed; unfold pause_end; rewrite upco_eq; destruct (_ <? _); repeat split).
      assert (QE : q d (QChan ch) = q (dt s) (QChan ch)) by (rewrite <- Ed; unfold pause_end; destruct (_ <? _); reflexivity).
      apply STEP; [rewrite ED; apply rm_eff; auto; [rewrite <- Ed; unfold pause_end; destruct (_ <? _); reflexivity.. | apply C3] | apply GOT, NF|].
      intros w' j' p' w1 EW A A0 IS [H1 H2]. rewrite ED in *. split; [apply C3|]. split; [discriminate|]. intros [D|IW]; [congruence|].
      rewrite <- Ef in EW. cbn [app] in EW. subst w'. destruct (H2 IW) as [H3 H4]. unfold inq in *. rewrite ED, QE in H3. split; [exact H3|]. destruct C3 as (_ & _ & C3). congruence.
Qed.
End Tick.

(** ** Calls *)
(** a call that finds its coroutine canceled, and a wait that ends at once *)
Definition refused (c : Z) (d d' : dat) (fs : list frame) (k : ctl) : Prop := fs = [] /\ k = CRet ECANCELED /\ d' = upco c (set_canceled false) d.
Lemma send_eff2 : forall c ch m dl d d' fs k, chd d -> allnco (q d (QChan ch)) -> ~ In (NCo c) (q d (QChan ch)) -> do_send c ch m dl d = (d', fs, k) ->
  send_out c ch m d d' fs k \/ refused c d d' fs k \/ (fs = [FSendWait ch] /\ k = CRet 0 /\ send_out c ch m d d' [FPause; FSendWait ch] CPause).
Proof.
  intros c ch m dl d d' fs k D AN NI E. destruct (canceled (cof d c)) eqn:CA.
  - unfold do_send in E.
    destruct (negb (chk_chan ch d =? OK)) eqn:CK; [injection E as <- <- <-; destruct (chk_chan_rej _ _ CK); left; eapply so_rej; eauto|].
    destruct (sclosed (chn d ch)) eqn:SC; [injection E as <- <- <-; left; eapply so_rej; eauto; discriminate|]. rewrite CA in E. injection E as <- <- <-. right; left. repeat split.
  - destruct (send_eff _ _ _ _ _ _ _ _ D AN NI (or_introl CA) E) as [SO|(DE & -> & -> & _)]; [auto|]. right; right. split; [reflexivity|]. split; [reflexivity|].
    unfold do_send in E. destruct (negb (chk_chan ch d =? OK)) eqn:CK; [discriminate E|]. pose proof (chk_valid _ _ D CK) as LT.
    destruct (sclosed (chn d ch)) eqn:SC; [discriminate E|]. rewrite CA in E. destruct (proj1 D ch) as [K1 K2 K3 K4 K5].
    assert (B : (exists r d1, send_loop ch m (recvn ch d) d = (Some r, d1)) \/ ((q d (QChan ch) = [] \/ qrecv (chn d ch) = false) /\ send_loop ch m (recvn ch d) d = (None, d))).
    { unfold recvn. destruct (qrecv (chn d ch)) eqn:QR; [|right; split; [auto|]; reflexivity].
      destruct (q d (QChan ch)) as [|n l] eqn:QQ; [right; split; [auto|]; reflexivity|]. left. pose proof (AN n (or_introl eq_refl)) as EN. destruct n as [r|]; [|discriminate EN]. exists r. eexists.
      cbn [length send_loop]. unfold popq. rewrite QQ. reflexivity. }
    destruct B as [(r & d1 & SL)|(QQ & SL)]; rewrite SL in E; [discriminate E|].
    destruct (Z.ltb_spec (Z.of_nat (length (buf (chn d ch)))) (bufcap (chn d ch))) as [LB|LB]; [discriminate E|].
    apply copause_eff in E; [| cbn; rewrite zupd_eq; exact CA]. destruct E as [(_ & -> & _ & _)|(D1 & _)]; [|discriminate D1].
    eapply so_wait; try eassumption; try reflexivity.
    + lia.
    + change (q (pushq (QChan ch) (NCo c) d) (QChan ch) = q d (QChan ch) ++ [NCo c]). apply push_new, NI.
    + cbn. rewrite nupd_eq. reflexivity.
    + cbn. rewrite nupd_eq. reflexivity.
    + intros x N. cbn. rewrite zupd_neq by exact N. reflexivity.
    + cbn. rewrite zupd_eq. reflexivity.
    + cbn. rewrite nupd_eq. exact SC.
Qed.
Lemma recv_eff2 : forall c ch try dl d d' fs k, chd d -> ~ In (NCo c) (q d (QChan ch)) -> do_recv c ch try dl d = (d', fs, k) ->
  recv_out c ch d d' fs k \/ refused c d d' fs k \/ (fs = [FRecvWait ch] /\ k = CRet 0 /\ recv_out c ch d d' [FPause; FRecvWait ch] CPause).
Proof.
  intros c ch try dl d d' fs k D NI E. destruct (canceled (cof d c)) eqn:CA.
  - unfold do_recv in E.
    destruct (negb (chk_chan ch d =? OK)) eqn:CK; [injection E as <- <- <-; destruct (chk_chan_rej _ _ CK); left; eapply ro_rej; eauto|].
    destruct (rclosed (chn d ch)) eqn:SC; [injection E as <- <- <-; left; eapply ro_rej; eauto; discriminate|]. rewrite CA in E. injection E as <- <- <-. right; left. repeat split.
  - destruct (recv_eff _ _ _ _ _ _ _ _ D NI (or_introl CA) E) as [SO|(DE & -> & -> & _)]; [auto|]. right; right. split; [reflexivity|]. split; [reflexivity|].
    unfold do_recv in E. destruct (negb (chk_chan ch d =? OK)) eqn:CK; [discriminate E|]. pose proof (chk_valid _ _ D CK) as LT.
    destruct (rclosed (chn d ch)) eqn:SC; [discriminate E|]. rewrite CA in E.
    destruct (take ch d) as [[[m [s|]] d1]|] eqn:TK; [discriminate E | discriminate E|]. destruct try; [discriminate E|]. destruct (take_none _ _ D TK) as [BF QD].
    apply copause_eff in E; [| cbn; rewrite zupd_eq; exact CA]. destruct E as [(_ & -> & _ & _)|(D1 & _)]; [|discriminate D1].
    eapply ro_wait; try eassumption; try reflexivity.
    + change (q (pushq (QChan ch) (NCo c) d) (QChan ch) = q d (QChan ch) ++ [NCo c]). apply push_new, NI.
    + cbn. rewrite nupd_eq. reflexivity.
    + cbn. rewrite nupd_eq. exact BF.
    + intros x N. cbn. rewrite zupd_neq by exact N. reflexivity.
    + cbn. rewrite !zupd_eq. reflexivity.
    + cbn. rewrite nupd_eq. reflexivity.
Qed.
Lemma ustack_unhurt : forall s ch c, plain_on ch (tr s) -> cur (sc s) = Some c -> ustack (stk (sc s) c) -> unhurt ch s.
Proof.
  intros s ch c PL CU US. split; [exact PL|]. intros x CX (rest & W). assert (x = c) by congruence. subst x. exfalso.
  inversion US as [EQ|k0 st U0 EQ|st EQ]; rewrite <- EQ in W; cbn in W; destruct W as [W|W]; discriminate W.
Qed.

Section Call.
Variables (G : Z -> option nat) (s : state) (c : Z) (o : op) (d : dat) (fs : list frame) (k : ctl) (sch : sched) (md : emode) (ch : nat).
Hypothesis RE : reach s.
Hypothesis PL : plain_on ch (call_tr s c o fs k).
Hypothesis GG : forall g, gen (cof (dt s) c) = Some g -> G c = Some g.
Hypothesis M : mode s = MUser.
Hypothesis CU : cur (sc s) = Some c.
Hypothesis U : ustack (stk (sc s) c).
Hypothesis E : hcall c o (now s) (dt s) = (d, fs, k).
Hypothesis X : exec c k (set_stk (zupd (stk (sc s)) c (fs ++ FApi (ncalls s) o :: stk (sc s) c)) (sc s)) = (sch, md).
Hypothesis PV : pv G ch s.
Let s' := callst s c o d fs k sch md.
Let P := match put_of G ch c o with Some a => [a] | None => [] end.
Lemma cp_plain : plain_on ch (tr s).
Proof. intros j x p t IN. apply (PL j x p t). apply call_tr_old, IN. Qed.
Lemma cp_unhurt : unhurt ch s.
Proof. eapply ustack_unhurt; [exact cp_plain | exact CU | exact U]. Qed.
Lemma cp_notin : ~ In (NCo c) (q (dt s) (QChan ch)).
Proof. apply (cur_notin _ _ _ RE cp_unhurt CU). Qed.
(** [own]: what has become of the receive just begun *)
Lemma cp_step : forall HN r, newok ch (dt s') ->
  Permutation (map snd HN ++ buf (chn (dt s') ch) ++ smsgs ch (dt s') ++ r) (P ++ buf (chn (dt s) ch) ++ smsgs ch (dt s)) ->
  (isr ch o = true -> hasm s' ch c fs -> In (ncalls s, c, rbuf (cof (dt s') c)) HN) ->
  (forall x w j p, x <> c -> at_call s x w j p -> isr ch p = true -> (In (FRecvWait ch) w -> ~ In (NCo x) (q (dt s') (QChan ch)) /\ cclosed (cof (dt s') x) = false) ->
    In (j, x, rbuf (cof (dt s') x)) HN \/ (rbuf (cof (dt s') x) = rbuf (cof (dt s) x) /\ (In (FRecvWait ch) w -> ~ inq s ch x /\ cclosed (cof (dt s) x) = false))) -> pv G ch s'.
Proof.
  intros HN r NW PM OWN OTH. eapply (pv_step G ch s s' P HN r); [exact PV | exact NW | apply got_call | apply given_call | exact PM|].
  intros x w j p A IS HM. destruct (call_at _ _ _ _ _ _ _ _ _ _ _ _ (reach_full _ RE) CU U E X A) as [(-> & -> & -> & -> & _ & _)|(NE & A0)]; [left; apply OWN; assumption|].
  destruct (OTH x w j p NE A0 IS (proj2 HM)) as [I|[R1 R2]]; [auto|]. right. split; [exact R1|]. exists w. split; [exact A0|]. split; [|exact R2].
  intros ->. exfalso. destruct (at_ret _ _ _ _ RE A0 (isr_hand _ _ IS)) as (_ & v & MV); [rewrite M; exact (fun z => z) | congruence].
Qed.
Lemma cp_eff : eff s c ch (dt s') -> (isr ch o = true -> ~ hasm s' ch c fs) -> pv G ch s'.
Proof.
  intros EF OWN. destruct (e_mess _ _ _ _ EF) as (r & PM). apply (cp_step [] (r ++ P)); [apply (e_new _ _ _ _ EF) | | intros IS HM; destruct (OWN IS HM)|].
  - cbn [map app]. pc.
  - intros x w j p NE A IS HM. right. eapply (e_oth _ _ _ _ EF); eassumption.
Qed.
Lemma cp_quiet : step_out s c ch d -> (isr ch o = true -> ~ hasm s' ch c fs) -> pv G ch s'.
Proof. intros TO. apply cp_eff. apply out_eff; auto; [apply cp_unhurt | apply (proj1 PV)]. Qed.
Lemma cp_refused : refused c (dt s) d fs k -> pv G ch s'.
Proof.
  intros (Ef & Ek & Ed). apply cp_quiet.
  - rewrite Ed. apply st_quiet; [unfold quietc; cbn; repeat split; auto | intros x N _; rewrite upco_neq by exact N; apply same3_refl].
  - intros _ [H1 _]. specialize (H1 Ef). pose proof X as X0. rewrite Ek in X0. cbn [exec] in X0. injection X0 as _ X2. unfold s', callst in H1. cbn [mode] in H1. rewrite H1 in X2. discriminate X2.
Qed.
Lemma cp_send : forall m fs0 k0, put_of G ch c o = Some m -> isr ch o = false -> send_out c ch m (dt s) d fs0 k0 -> ctl_dat c (nextid (sc s) + 1) k d = d -> pv G ch s'.
Proof.
  intros m fs0 k0 PU IS SO ED0. assert (ED : dt s' = d) by exact ED0. pose proof cp_notin as NI. pose proof (chan_nco _ _ RE cp_plain) as AN. assert (EP : P = [m]) by (unfold P; rewrite PU; reflexivity).
  assert (NC : forall n, In n (q (dt s) (QChan ch)) -> node_co n <> c) by (intros n IN EQ; apply NI; rewrite <- EQ, <- (AN n IN); exact IN).
  destruct SO as [r Ed Ef Ek R1 R2|r l SC LT QQ QR QE CE CO RB NN Ef Ek|SC LT Q0 Q1 LB BE CO NN SC' Ef Ek|SC LT QD LB QE QR' BE CO SM NN SC' Ef Ek].
  - apply cp_quiet; [rewrite Ed; apply st_quiet; [apply quietc_refl | intros x _ _; apply same3_refl] | congruence].
  - assert (IR : In (NCo r) (q (dt s) (QChan ch))) by (rewrite QQ; left; reflexivity).
    assert (RC : r <> c) by (intros ->; exact (NI IR)).
    assert (RW : exists w j p, at_call s r w j p).
    { pose proof (reach_qloc _ RE _ (QChan ch) Logic.I IR) as MA. cbn [node_co] in MA. destruct (matched_chan _ _ _ MA) as [[_ W]|(N & kk & chs & dl & st' & TP & IC)].
      - destruct (chan_wait _ _ _ RE W) as (f & w & j & p & rest & _ & A & _). eauto.
      - unfold matched in MA. rewrite TP in MA. destruct MA as (i & ch' & D & _). discriminate D. }
    destruct RW as (w & j & p & AR). apply (cp_step [(j, r, m)] []); rewrite ?ED.
    + intros Z. lia.
    + rewrite CE, EP. rewrite !smsgs_recv by (right; congruence). cbn. reflexivity.
    + congruence.
    + intros x w' j' p' NE A IP HM. destruct (Z.eq_dec x r) as [->|NR].
      * left. destruct (ChanFifo.at_fun _ _ _ _ _ _ _ _ RE AR A) as (_ & <- & _). rewrite RB. left. destruct (cof (dt s) r); reflexivity.
      * right. rewrite CO in * by exact NR. split; [reflexivity|]. intros IW. destruct (HM IW) as [H1 H2]. split; [|exact H2]. unfold inq. rewrite QQ. intros [D|D]; [congruence|]. apply H1. rewrite QE. exact D.
  - apply (cp_step [] []); rewrite ?ED.
    + intros Z. lia.
    + rewrite BE, EP. rewrite !smsgs_recv by (left; congruence). cbn [map app]. rewrite !app_nil_r. apply Permutation_app_comm.
    + congruence.
    + intros x w' j' p' NE A IP HM. right. rewrite CO in *. split; [reflexivity|]. intros IW. destruct (HM IW) as [H1 H2]. split; [|exact H2]. unfold inq. rewrite Q0. exact (fun z => z).
  - apply (cp_step [] []); rewrite ?ED.
    + intros Z. lia.
    + rewrite BE, EP, (smsgs_send ch d) by auto. rewrite (smsgs_send ch (dt s)) by exact QD. rewrite QE, map_app. cbn [map app node_co]. rewrite SM, app_nil_r.
      replace (map (fun n => smsg (cof d (node_co n))) (q (dt s) (QChan ch))) with (map (fun n => smsg (cof (dt s) (node_co n))) (q (dt s) (QChan ch)));
        [change (m :: buf (chn (dt s) ch) ++ map (fun n => smsg (cof (dt s) (node_co n))) (q (dt s) (QChan ch))) with ([m] ++ buf (chn (dt s) ch) ++ map (fun n => smsg (cof (dt s) (node_co n))) (q (dt s) (QChan ch))); rewrite app_assoc; apply Permutation_app_comm|].
      apply map_ext_in. intros n IN. rewrite CO by (apply NC, IN). reflexivity.
    + congruence.
    + intros x w' j' p' NE A IP HM. right. rewrite CO in * by exact NE. split; [reflexivity|]. intros IW. destruct (HM IW) as [H1 H2]. split; [|exact H2]. intros IX. apply H1. rewrite QE. apply in_or_app. auto.
Qed.
Lemma cp_recv : forall fs0 k0, put_of G ch c o = None -> (fs0 = fs /\ k0 = k \/ fs0 = [FPause; FRecvWait ch] /\ k0 = CPause /\ In (FRecvWait ch) fs) -> recv_out c ch (dt s) d fs0 k0 -> ctl_dat c (nextid (sc s) + 1) k d = d -> pv G ch s'.
Proof.
  intros fs0 k0 PU FK RO ED0. assert (ED : dt s' = d) by exact ED0. pose proof cp_notin as NI. pose proof (chan_nco _ _ RE cp_plain) as AN. assert (EP : P = []) by (unfold P; rewrite PU; reflexivity).
  assert (NC : forall n, In n (q (dt s) (QChan ch)) -> node_co n <> c) by (intros n IN EQ; apply NI; rewrite <- EQ, <- (AN n IN); exact IN).
  destruct RO as [r Ed Ef Ek R1 R2|m l LT RC QD BE BE' CO SUB QD' RB NN CL FK'|LT RC BF QD QE QR BF' CO CC NN CL Ef Ek].
  - apply cp_quiet; [rewrite Ed; apply st_quiet; [apply quietc_refl | intros x _ _; apply same3_refl]|]. intros IS [H1 _]. destruct FK as [[F1 F2]|(F1 & _ & _)]; [|congruence].
    assert (fs = []) by congruence. specialize (H1 H). pose proof X as X0. rewrite <- F2, Ek in X0. cbn [exec] in X0. injection X0 as _ X2. unfold s', callst in H1. cbn [mode] in H1. congruence.
  - apply (cp_step [(ncalls s, c, m)] []); rewrite ?ED.
    + intros Z. lia.
    + rewrite EP. cbn [app map snd]. rewrite app_nil_r, (smsgs_send ch d), (smsgs_send ch (dt s)) by assumption. rewrite BE, <- BE'.
      replace (map (fun n => smsg (cof d (node_co n))) (q d (QChan ch))) with (map (fun n => smsg (cof (dt s) (node_co n))) (q d (QChan ch))); [reflexivity|].
      apply map_ext_in. intros n IN. rewrite CO by (apply NC, SUB, IN). reflexivity.
    + intros _ _. left. rewrite RB. reflexivity.
    + intros x w' j' p' NE A IP HM. right. rewrite CO in * by exact NE. split; [reflexivity|]. intros IW. destruct (HM IW) as [H1 H2]. split; [|exact H2]. intros IX.
      pose proof (inq_dir _ _ _ _ _ _ RE A IP IX) as QT. destruct QD as [QD|QD]; [unfold inq in IX; rewrite QD in IX; exact IX | congruence].
  - apply (cp_step [] []); rewrite ?ED.
    + intros Z. lia.
    + rewrite EP, BF', BF, (smsgs_recv ch d), (smsgs_recv ch (dt s)) by auto. constructor.
    + intros IS [_ H2]. exfalso. assert (IW : In (FRecvWait ch) fs) by (destruct FK as [[<- _]|(_ & _ & IW)]; [rewrite Ef; right; left; reflexivity | exact IW]). destruct (H2 IW) as [H3 _]. apply H3. unfold inq. rewrite ED, QE. apply in_or_app. right. left. reflexivity.
    + intros x w' j' p' NE A IP HM. right. rewrite CO in * by exact NE. split; [reflexivity|]. intros IW. destruct (HM IW) as [H1 H2]. split; [|exact H2]. intros IX. apply H1. rewrite QE. apply in_or_app. auto.
Qed.
Lemma so_ctl : forall m, send_out c ch m (dt s) d fs k -> ctl_dat c (nextid (sc s) + 1) k d = d.
Proof. intros m SO. destruct SO as [r Ed Ef Ek R1 R2|r l SC LT QQ QR QE CE CO RB NN Ef Ek|SC LT Q0 Q1 LB BE CO NN SC' Ef Ek|SC LT QD LB QE QR' BE CO SM NN SC' Ef Ek]; rewrite Ek; reflexivity. Qed.
Lemma ro_ctl : recv_out c ch (dt s) d fs k -> ctl_dat c (nextid (sc s) + 1) k d = d.
Proof. intros RO. destruct RO as [r Ed Ef Ek R1 R2|m l LT RC QD BE BE' CO SUB QD' RB NN CL FK'|LT RC BF QD QE QR BF' CO CC NN CL Ef Ek]; try (rewrite Ek; reflexivity). destruct FK' as [[_ ->]|[_ (y & ->)]]; reflexivity. Qed.
Lemma cp_sends : forall m dl, do_send c ch m dl (dt s) = (d, fs, k) -> put_of G ch c o = Some m -> isr ch o = false -> pv G ch s'.
Proof.
  intros m dl ES PU IS. destruct (send_eff2 _ _ _ _ _ _ _ _ (proj1 (reach_chinv _ RE)) (chan_nco _ _ RE cp_plain) cp_notin ES) as [SO|[R|(Ef & Ek & SO)]].
  - eapply cp_send; try eassumption. eapply so_ctl; exact SO.
  - apply cp_refused, R.
  - eapply cp_send; try eassumption. rewrite Ek. reflexivity.
Qed.
Lemma cp_recvs : forall try dl, do_recv c ch try dl (dt s) = (d, fs, k) -> put_of G ch c o = None -> pv G ch s'.
Proof.
  intros try dl ER PU. destruct (recv_eff2 _ _ _ _ _ _ _ _ (proj1 (reach_chinv _ RE)) cp_notin ER) as [RO|[R|(Ef & Ek & RO)]].
  - eapply cp_recv; try eassumption; [auto | apply ro_ctl; exact RO].
  - apply cp_refused, R.
  - eapply cp_recv; try eassumption; [right; rewrite Ef; repeat split; left; reflexivity | rewrite Ek; reflexivity].
Qed.
End Call.
Lemma call_pv : forall G s c o d fs k sch md ch, reach s -> plain_on ch (call_tr s c o fs k) -> (forall g, gen (cof (dt s) c) = Some g -> G c = Some g) -> pv G ch s ->
  mode s = MUser -> cur (sc s) = Some c -> ustack (stk (sc s) c) -> hcall c o (now s) (dt s) = (d, fs, k) ->
  exec c k (set_stk (zupd (stk (sc s)) c (fs ++ FApi (ncalls s) o :: stk (sc s) c)) (sc s)) = (sch, md) -> pv G ch (callst s c o d fs k sch md).
Proof.
  intros G s c o d fs k sch md ch RE PL GG PV M CU U E X.
  pose proof (cp_unhurt _ _ _ _ _ _ PL CU U) as SI. pose proof (proj1 PV) as NW. pose proof (PL _ _ _ _ (call_tr_new s c o fs k)) as SO.
  assert (QU : isr ch o = false -> step_out s c ch d -> pv G ch (callst s c o d fs k sch md)) by (intros IS TO; eapply cp_quiet; try eassumption; congruence).
  assert (QC : isr ch o = false -> ~ kcall c (dt s) o (QChan ch) -> pv G ch (callst s c o d fs k sch md)).
  { intros IS NK. destruct (call_quiet _ _ _ _ _ _ ch RE SI NW CU E NK) as [Q1 Q2]. apply QU; [exact IS | apply st_quiet; assumption]. }
  pose proof E as E0.
  destruct o; try (apply QC; [reflexivity | intros K; first [exact K | discriminate K]]); cbn [hcall] in E0.
  - (* send *) destruct (Nat.eq_dec ch0 ch) as [->|NE]; [|apply QC; [reflexivity | cbn; congruence]]. eapply cp_sends; try eassumption; cbn; [rewrite Nat.eqb_refl|]; reflexivity.
  - (* broadcast *) apply QC; [reflexivity | cbn; congruence].
  - (* recv *) destruct (Nat.eq_dec ch0 ch) as [->|NE]; [|apply QC; [cbn; apply Nat.eqb_neq, NE | cbn; congruence]]. eapply cp_recvs; try eassumption; reflexivity.
  - (* tryrecv *) destruct (Nat.eq_dec ch0 ch) as [->|NE]; [|apply QC; [cbn; apply Nat.eqb_neq, NE | cbn; congruence]]. eapply cp_recvs; try eassumption; reflexivity.
  - (* close *) destruct (Nat.eq_dec ch0 ch) as [->|NE]; [|apply QC; [reflexivity | cbn; congruence]]. apply QU; [reflexivity|]. eapply close_step; try eassumption; try reflexivity. apply SI.
  - (* select *) apply QC; [reflexivity|]. intros (g & IG & EG). injection EG as <-. exact (SO IG).
  - apply QC; [reflexivity|]. intros (g & IG & EG). injection EG as <-. exact (SO IG).
  - (* case *) apply QU; [reflexivity|]. apply st_quiet.
    + unfold do_case in E0. destruct (negb _) in E0; [injection E0 as <- _ _; apply quietc_refl|]. destruct (negb _) in E0; injection E0 as <- _ _; unfold quietc; cbn; repeat split; auto.
    + unfold do_case in E0. intros x NE _. destruct (negb _) in E0; [injection E0 as <- _ _; apply same3_refl|]. destruct (negb _) in E0; injection E0 as <- _ _; [|rewrite upco_neq by exact NE]; apply same3_refl.
  - (* gen yield *) unfold do_genyield in E0. destruct (gen (cof (dt s) c)) as [g|] eqn:GN.
    + pose proof (GG _ eq_refl) as GC. destruct (Nat.eq_dec g ch) as [->|NE].
      * eapply cp_sends; try eassumption; cbn; [rewrite GC, Nat.eqb_refl|]; reflexivity.
      * apply QC; [reflexivity|]. cbn. intros (g' & A & B). rewrite GN in A. congruence.
    + apply QU; [reflexivity|]. injection E0 as <- _ _. apply st_quiet; [apply quietc_refl | intros x _ _; apply same3_refl].
  - (* cond wait *) apply QC; [reflexivity|]. cbn. intros [K|K]; discriminate K.
  - (* exit *) destruct (gen (cof (dt s) c)) as [g|] eqn:GN; [destruct (Nat.eq_dec g ch) as [->|NE]|].
    + apply QU; [reflexivity|]. eapply async_step; try eassumption. apply SI.
    + apply QC; [reflexivity|]. cbn. intros [K|[K|(g' & A & K)]]; try discriminate K. rewrite GN in A. congruence.
    + apply QC; [reflexivity|]. cbn. intros [K|[K|(g' & A & K)]]; try discriminate K. rewrite GN in A. congruence.
Qed.

(** ** Other steps *)
Lemma pv_still : forall G s s' ch, reach s -> ~ over (mode s) -> plain_on ch (tr s) -> pv G ch s ->
  (forall x w k o, at_call s x w k o <-> at_call s' x w k o) -> (forall x, same3 (cof (dt s) x) (cof (dt s') x)) -> quietc ch (dt s) (dt s') ->
  (mode s' = mode s \/ forall v, mode s <> MRet v) -> got ch (tr s') = got ch (tr s) -> given G ch (tr s') = given G ch (tr s) -> pv G ch s'.
Proof.
  intros G s s' ch RE NO PL PV AT S3 QC MD EG EP. pose proof QC as (Q1 & Q2 & _).
  eapply (pv_step G ch s s' [] [] []); [exact PV | eapply newok_quiet; [exact QC | apply (proj1 PV)] | exact EG | rewrite app_nil_r; exact EP | |].
  - cbn [map app]. rewrite app_nil_r, Q1, (smsgs_quiet ch (dt s) (dt s')); [reflexivity | eapply chan_nco; eassumption | exact QC | intros x _; apply S3].
  - intros x w k o A IS [H1 H2]. right. destruct (S3 x) as (R1 & R2 & R3). split; [exact R1|]. apply AT in A. exists w. split; [exact A|]. split.
    + intros ->. destruct MD as [MD|MD]; [rewrite <- MD; apply H1; reflexivity|]. destruct (at_ret _ _ _ _ RE A (isr_hand _ _ IS) NO) as (_ & v & MV). destruct (MD _ MV).
    + unfold inq in *. rewrite Q2, R3 in H2. exact H2.
Qed.
Lemma env_got : forall G ch s e, match e with ECall _ | ETick _ | EMain _ => False | _ => True end -> got ch (tr (step s e)) = got ch (tr s) /\ given G ch (tr (step s e)) = given G ch (tr s).
Proof. intros G ch s e H. destruct (env_tr s e H) as [->|(y & ->)]; split; reflexivity. Qed.

Lemma pv_given : forall G G' ch s, given G ch (tr s) = given G' ch (tr s) -> pv G ch s -> pv G' ch s.
Proof. intros G G' ch s E (NW & H & rest & C & P). split; [exact NW|]. exists H, rest. split; [exact C|]. rewrite <- E. exact P. Qed.
