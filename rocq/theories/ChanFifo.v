(** The order of the messages on a channel: what the queue of waiters, the buffer
    and the calls in progress have to do with the calls in the trace. *)
From Coq Require Import List ZArith Bool Lia.
From Verif Require Import AATreeSpec AATreeHist Util Runtime SchedInv StepInv StackShape RuntimeSpec TraceInv Immediate Prims StaticInv Footprint QueueInv OwnInv WaitInv CallInv SpecInv TraceStep Wake Awake DeadlineInv AllInv PausedInv ResultInv JoinInv WaiterInv DldInv CancelInv CancelOrd MutexEff MutexTok MutexRt MutexOrd AtCall WgInv ChanShape ChanSpec ChanLists ChanEff ChanQuiet.
Import ListNotations.
Local Open Scope Z_scope.

Definition bad (r : Z) : Prop := r <> OK /\ r <> ECANCELED.
(** receive call [fst p] of coroutine [snd p] has the message [v] *)
Inductive sat (s : state) (ch : nat) (p : nat * Z) (v : Z) : Prop :=
| sat_done o t : In (TRet (fst p) (snd p) o OK v t) (tr s) -> sat s ch p v
| sat_pend w o : at_call s (snd p) w (fst p) o -> isr ch o = true -> rbuf (cof (dt s) (snd p)) = v -> (w = [] -> mode s = MRet OK) ->
    (In (FRecvWait ch) w -> ~ inq s ch (snd p) /\ cclosed (cof (dt s) (snd p)) = false) -> sat s ch p v.
(** ... waits for one *)
Definition wt (s : state) (ch : nat) (p : nat * Z) : Prop :=
  exists w o, at_call s (snd p) w (fst p) o /\ isr ch o = true /\ In (FRecvWait ch) w /\ cclosed (cof (dt s) (snd p)) = false.
(** ... will fail *)
Definition rx (s : state) (ch : nat) (p : nat * Z) : Prop :=
  exists w o, at_call s (snd p) w (fst p) o /\ isr ch o = true /\
    ((w = [] /\ exists r, mode s = MRet r /\ bad r) \/
     (In (FRecvWait ch) w /\ cclosed (cof (dt s) (snd p)) = true /\ ~ inq s ch (snd p) /\ rclosed (chn (dt s) ch) = true)).
(** send call [fst p] is failing / has not failed *)
Definition sx (G : Z -> option nat) (s : state) (ch : nat) (p : nat * Z) : Prop :=
  exists x o m, at_call s x [] (fst p) o /\ put_of G ch x o = Some m /\ exists r, mode s = MRet r /\ bad r.
Definition acc (s : state) (k : nat) : Prop := forall x o, at_call s x [] k o -> mode s = MRet OK.

(** messages of the senders that wait, receivers that wait *)
Definition smsgs (ch : nat) (d : dat) : list Z := if qrecv (chn d ch) then [] else map (fun n => smsg (cof d (node_co n))) (q d (QChan ch)).
Definition rqs (ch : nat) (d : dat) : list node := if qrecv (chn d ch) then q d (QChan ch) else [].

Record fiW (G : Z -> option nat) (s : state) (ch : nat) (NR NS : list (nat * Z)) (V : list Z) (Rsat Rq Rx Sacc Sx : list (nat * Z)) : Prop := {
  f_r : NR = Rsat ++ Rq ++ Rx;
  f_s : NS = Sacc ++ Sx;
  f_v : map snd Sacc = V ++ buf (chn (dt s) ch) ++ smsgs ch (dt s);
  f_sat : Forall2 (sat s ch) Rsat V;
  f_q : map (fun p => NCo (snd p)) Rq = rqs ch (dt s);
  f_wt : Forall (wt s ch) Rq;
  f_x : Forall (rx s ch) Rx;
  f_sx : Forall (sx G s ch) Sx;
  f_acc : forall p, In p Sacc -> acc s (fst p);
  f_new : newok ch (dt s);
  f_clo : clo ch (dt s) }.
Definition fiL (G : Z -> option nat) (s : state) (ch : nat) (NR NS : list (nat * Z)) : Prop :=
  exists V Rsat Rq Rx Sacc Sx, fiW G s ch NR NS V Rsat Rq Rx Sacc Sx.
Definition fi (G : Z -> option nat) (ch : nat) (s : state) : Prop := fiL G s ch (live (recv_of ch) (tr s)) (live (put_of G ch) (tr s)).

(** ** Lists *)
Lemma Forall_keep : forall A (P Q : A -> Prop) (b : A -> bool) l, (forall x, In x l -> P x -> Q x /\ b x = true) -> Forall P l -> Forall Q l /\ filter b l = l.
Proof.
  intros A P Q b l H F. induction F as [|x l PX F IH]; [split; [constructor | reflexivity]|].
  destruct IH as [I1 I2]; [intros y IY; apply H; right; exact IY|]. destruct (H x (or_introl eq_refl) PX) as [A1 A2].
  split; [constructor; assumption|]. cbn. rewrite A2, I2. reflexivity.
Qed.
Lemma Forall2_keep : forall A B (P Q : A -> B -> Prop) (b : A -> bool) l l', (forall x y, P x y -> Q x y /\ b x = true) -> Forall2 P l l' -> Forall2 Q l l' /\ filter b l = l.
Proof.
  intros A B P Q b l l' H F. induction F as [|x y l l' PX F [I1 I2]]; [split; [constructor | reflexivity]|]. destruct (H x y PX) as [A1 A2].
  split; [constructor; assumption|]. cbn. rewrite A2, I2. reflexivity.
Qed.
Lemma Forall_drop : forall A (P Q : A -> Prop) (b : A -> bool) l, (forall x, P x -> b x = true -> Q x) -> Forall P l -> Forall Q (filter b l).
Proof. intros A P Q b l H F. induction F as [|x l PX F IH]; cbn; [constructor|]. destruct (b x) eqn:B; [constructor; auto | exact IH]. Qed.
Lemma filter_keepall : forall A (b : A -> bool) l, (forall x, In x l -> b x = true) -> filter b l = l.
Proof. intros A b l H. induction l as [|x l IH]; cbn; [reflexivity|]. rewrite (H x (or_introl eq_refl)), IH; [reflexivity | intros y IY; apply H; right; exact IY]. Qed.

(** ** Steps that leave the channel alone, and steps that close it *)
Lemma newok_quiet : forall ch d d', quietc ch d d' -> newok ch d -> newok ch d'.
Proof. intros ch d d' (A & _ & _ & B & C) N L. rewrite A, B. apply N. lia. Qed.
Lemma rqs_in : forall G s ch NR NS V Rsat Rq Rx Sacc Sx p, fiW G s ch NR NS V Rsat Rq Rx Sacc Sx -> In p Rq -> inq s ch (snd p).
Proof.
  intros G s ch NR NS V Rsat Rq Rx Sacc Sx p F IN. unfold inq. pose proof (f_q _ _ _ _ _ _ _ _ _ _ _ F) as Q. apply (in_map (fun p => NCo (snd p))) in IN. rewrite Q in IN.
  unfold rqs in IN. destruct (qrecv _); [exact IN | destruct IN].
Qed.
Lemma fi_quiet : forall G s s' ch NR NS kp, fiL G s ch NR NS -> allnco (q (dt s) (QChan ch)) -> quietc ch (dt s) (dt s') ->
  (forall x, inq s ch x -> smsg (cof (dt s') x) = smsg (cof (dt s) x)) ->
  (forall p v, sat s ch p v -> sat s' ch p v /\ kp (fst p) = true) ->
  (forall p, wt s ch p -> inq s ch (snd p) -> wt s' ch p /\ kp (fst p) = true) ->
  (forall p, rx s ch p -> kp (fst p) = true -> rx s' ch p) ->
  (forall p, sx G s ch p -> kp (fst p) = true -> sx G s' ch p) ->
  (forall p, In p NS -> acc s (fst p) -> acc s' (fst p) /\ kp (fst p) = true) ->
  fiL G s' ch (filter (fun p => kp (fst p)) NR) (filter (fun p => kp (fst p)) NS).
Proof.
  intros G s s' ch NR NS kp (V & Rsat & Rq & Rx & Sacc & Sx & F) AN QC HM HS HW HX HSX HA. pose proof (fun p => rqs_in _ _ _ _ _ _ _ _ _ _ _ p F) as RI.
  destruct F as [F1 F2 F3 F4 F5 F6 F7 F8 F9 F10 F11].
  destruct (Forall2_keep _ _ _ (sat s' ch) (fun p => kp (fst p)) _ _ HS F4) as [G4 K4].
  destruct (Forall_keep _ (wt s ch) (wt s' ch) (fun p => kp (fst p)) Rq) as [G6 K6]; [intros p IN W; apply HW; [exact W | apply RI, IN] | exact F6|].
  assert (K9 : filter (fun p => kp (fst p)) Sacc = Sacc).
  { apply filter_keepall. intros p IN. apply HA; [rewrite F2; apply in_or_app; auto | apply F9, IN]. }
  pose proof QC as (Q1 & Q2 & Q3 & Q4 & Q5 & Q6).
  assert (RQ : rqs ch (dt s') = rqs ch (dt s)).
  { unfold rqs. rewrite Q2. destruct (q (dt s) (QChan ch)) as [|n l] eqn:QQ; [destruct (qrecv _), (qrecv _); reflexivity|]. rewrite Q3 by congruence. reflexivity. }
  assert (SQ : smsgs ch (dt s') = smsgs ch (dt s)).
  { unfold smsgs. rewrite Q2. destruct (q (dt s) (QChan ch)) as [|n l] eqn:QQ; [destruct (qrecv _), (qrecv _); reflexivity|]. rewrite Q3 by congruence. destruct (qrecv (chn (dt s) ch)); [reflexivity|].
    apply map_ext_in. intros a IA. pose proof (AN _ IA) as EA. destruct a as [x|]; [|discriminate EA]. cbn [node_co]. apply HM. unfold inq. rewrite QQ. exact IA. }
  exists V, Rsat, Rq, (filter (fun p => kp (fst p)) Rx), Sacc, (filter (fun p => kp (fst p)) Sx). constructor.
  - rewrite F1, !filter_app, K4, K6. reflexivity.
  - rewrite F2, filter_app, K9. reflexivity.
  - rewrite Q1, SQ. exact F3.
  - exact G4.
  - rewrite RQ. exact F5.
  - exact G6.
  - eapply Forall_drop; [|exact F7]. auto.
  - eapply Forall_drop; [|exact F8]. auto.
  - intros p IN. apply HA; [rewrite F2; apply in_or_app; auto | apply F9, IN].
  - eapply newok_quiet; eassumption.
  - apply Q6, F11.
Qed.
Lemma fi_close : forall G s s' ch NR NS kp, fiL G s ch NR NS ->
  (ch < nchan (dt s'))%nat -> buf (chn (dt s) ch) = [] -> (q (dt s) (QChan ch) = [] \/ qrecv (chn (dt s) ch) = true) ->
  q (dt s') (QChan ch) = [] -> buf (chn (dt s') ch) = [] -> rclosed (chn (dt s') ch) = true ->
  (forall p v, sat s ch p v -> sat s' ch p v /\ kp (fst p) = true) ->
  (forall p, wt s ch p -> inq s ch (snd p) -> rx s' ch p /\ kp (fst p) = true) ->
  (forall p, rx s ch p -> kp (fst p) = true -> rx s' ch p) ->
  (forall p, sx G s ch p -> kp (fst p) = true -> sx G s' ch p) ->
  (forall p, In p NS -> acc s (fst p) -> acc s' (fst p) /\ kp (fst p) = true) ->
  fiL G s' ch (filter (fun p => kp (fst p)) NR) (filter (fun p => kp (fst p)) NS).
Proof.
  intros G s s' ch NR NS kp (V & Rsat & Rq & Rx & Sacc & Sx & F) LT B0 QD Q' B' RC' HS HW HX HSX HA. pose proof (fun p => rqs_in _ _ _ _ _ _ _ _ _ _ _ p F) as RI.
  destruct F as [F1 F2 F3 F4 F5 F6 F7 F8 F9 F10 F11].
  destruct (Forall2_keep _ _ _ (sat s' ch) (fun p => kp (fst p)) _ _ HS F4) as [G4 K4].
  destruct (Forall_keep _ (wt s ch) (rx s' ch) (fun p => kp (fst p)) Rq) as [G6 K6]; [intros p IN W; apply HW; [exact W | apply RI, IN] | exact F6|].
  assert (K9 : filter (fun p => kp (fst p)) Sacc = Sacc).
  { apply filter_keepall. intros p IN. apply HA; [rewrite F2; apply in_or_app; auto | apply F9, IN]. }
  exists V, Rsat, [], (Rq ++ filter (fun p => kp (fst p)) Rx), Sacc, (filter (fun p => kp (fst p)) Sx). constructor.
  - rewrite F1, !filter_app, K4, K6. reflexivity.
  - rewrite F2, filter_app, K9. reflexivity.
  - rewrite B'. unfold smsgs. rewrite Q'. cbn [map]. rewrite F3, B0. unfold smsgs. destruct QD as [QD|QD]; rewrite QD; destruct (qrecv (chn (dt s') ch)); try destruct (qrecv (chn (dt s) ch)); reflexivity.
  - exact G4.
  - unfold rqs. rewrite Q'. destruct (qrecv (chn (dt s') ch)); reflexivity.
  - constructor.
  - apply Forall_app. split; [exact G6|]. eapply Forall_drop; [|exact F7]. auto.
  - eapply Forall_drop; [|exact F8]. auto.
  - intros p IN. apply HA; [rewrite F2; apply in_or_app; auto | apply F9, IN].
  - intros L. lia.
  - intros _. left. exact RC'.
Qed.
Lemma fi_addR : forall G s ch NR NS p, fiL G s ch NR NS -> rx s ch p -> fiL G s ch (NR ++ [p]) NS.
Proof.
  intros G s ch NR NS p (V & Rsat & Rq & Rx & Sacc & Sx & F) R. destruct F as [F1 F2 F3 F4 F5 F6 F7 F8 F9 F10 F11].
  exists V, Rsat, Rq, (Rx ++ [p]), Sacc, Sx. constructor; auto; [rewrite F1, <- !app_assoc; reflexivity|]. apply Forall_app. auto.
Qed.
Lemma fi_addS : forall G s ch NR NS p, fiL G s ch NR NS -> sx G s ch p -> fiL G s ch NR (NS ++ [p]).
Proof.
  intros G s ch NR NS p (V & Rsat & Rq & Rx & Sacc & Sx & F) R. destruct F as [F1 F2 F3 F4 F5 F6 F7 F8 F9 F10 F11].
  exists V, Rsat, Rq, Rx, Sacc, (Sx ++ [p]). constructor; auto; [rewrite F2, <- !app_assoc; reflexivity|]. apply Forall_app. auto.
Qed.

(** ** Calls in progress over a step *)
Lemma at_keep : forall s c k fs st' sch md d n nc T nw x w kk o, full s -> cur (sc s) = Some c -> x <> c ->
  exec c k (set_stk (zupd (stk (sc s)) c (fs ++ st')) (sc s)) = (sch, md) ->
  at_call s x w kk o -> at_call (mkst sch (ctl_dat c n k d) md nw nc T) x w kk o.
Proof.
  intros s c k fs st' sch md d n nc T nw x w kk o F CU NE X (st & SX & SH). pose proof (cur_notfresh _ _ F CU) as NFR.
  destruct (exec_stk_cases _ _ _ _ _ X NFR x) as [[-> _]|[(_ & -> & _ & _)|(_ & QQ & NS)]]; [congruence | |].
  - exfalso. cbn [set_stk nextid] in SX. rewrite (stk_fresh _ F) in SX. destruct w; discriminate SX.
  - cbn [set_stk stk] in QQ. rewrite zupd_neq in QQ by exact NE. exists st. cbn [sc]. split; [congruence | exact SH].
Qed.
Lemma at_mine : forall s c k fs w kk o st sch md d n nc T nw, full s -> cur (sc s) = Some c -> (forall e, k <> CFinal e) ->
  exec c k (set_stk (zupd (stk (sc s)) c (fs ++ w ++ FApi kk o :: st)) (sc s)) = (sch, md) -> shape o (fs ++ w) ->
  at_call (mkst sch (ctl_dat c n k d) md nw nc T) c (fs ++ w) kk o.
Proof.
  intros s c k fs w kk o st sch md d n nc T nw F CU NF X SH. pose proof (cur_notfresh _ _ F CU) as NFR.
  destruct (exec_stk_cases _ _ _ _ _ X NFR c) as [[_ QQ]|[(N & _)|(N & _)]]; try congruence.
  exists st. split; [|exact SH]. cbn [sc]. rewrite QQ. cbn [set_stk stk]. rewrite zupd_eq, <- app_assoc. destruct k; try reflexivity. destruct (NF _ eq_refl).
Qed.
Lemma same_api : forall s x w j o' c o rest, reach s -> at_call s x w j o' -> stk (sc s) c = FApi j o :: rest -> x = c /\ w = [] /\ o' = o.
Proof.
  intros s x w j o' c o rest RE (st & SX & SH) SC. pose proof (reach_cinv _ RE) as C.
  destruct (ci_open _ C x j o') as (t1 & I1 & _); [rewrite SX; apply in_or_app; right; left; reflexivity|].
  destruct (ci_open _ C c j o) as (t2 & I2 & _); [rewrite SC; left; reflexivity|].
  destruct (callnos_inj _ _ _ _ _ _ _ _ (ci_uc _ C) I1 I2) as (-> & -> & _). split; [reflexivity|]. split; [|reflexivity].
  rewrite SC in SX. destruct w as [|g w]; [reflexivity|]. cbn in SX. injection SX as <- _. exfalso. eapply shape_noapi2; [exact SH | left; reflexivity].
Qed.
Lemma at_fun : forall s x w j o w' j' o', reach s -> at_call s x w j o -> at_call s x w' j' o' -> w = w' /\ j = j' /\ o = o'.
Proof.
  intros s x w j o w' j' o' RE (st & SX & SH) (st' & SX' & SH'). rewrite SX in SX'.
  pose proof (shape_noapi2 _ _ SH) as N1. pose proof (shape_noapi2 _ _ SH') as N2. apply api_split in SX'; [|exact N1].
  destruct SX' as (w1 & -> & E). destruct w1 as [|h w1]; [|cbn in E; injection E as <- _; exfalso; eapply N2; apply in_or_app; right; left; reflexivity].
  cbn in E. injection E as -> -> _. rewrite app_nil_r. auto.
Qed.
Lemma keep_cases : forall c v f fs k j, keep c v f fs k j = true \/ exists o, f = FApi j o /\ v <> OK /\ fs = [] /\ k = CUser.
Proof.
  intros c v f fs k j. unfold keep. destruct f; auto. destruct fs; auto. destruct k; auto. destruct (Z.eqb_spec v OK); [auto|]. match goal with |- context [Nat.eqb ?a j] => destruct (Nat.eqb_spec a j) as [->|] end; [|auto]. right. eauto.
Qed.
Lemma isr_wait : forall ch o w, isr ch o = true -> shape o w -> w = [] \/ w = [FRecvResumed] \/ w = [FRecvWait ch] \/ w = [FPause; FRecvWait ch].
Proof.
  intros ch o w IS SH. destruct o; try discriminate IS; cbn in IS; apply Nat.eqb_eq in IS; subst; inversion SH; subst; auto. match goal with H : pz _ _ |- _ => inversion H; subst; auto end.
Qed.
Lemma isr_hand : forall ch o, isr ch o = true -> ~ handing o.
Proof. intros ch o IS. destruct o; try discriminate IS; exact (fun z => z). Qed.
Lemma put_hand : forall G ch x o m, put_of G ch x o = Some m -> ~ handing o.
Proof. intros G ch x o m P. destruct o; try discriminate P; exact (fun z => z). Qed.
(** a receiver in the queue is at its wait *)
Lemma inq_wait : forall s ch x w k o, reach s -> at_call s x w k o -> isr ch o = true -> inq s ch x -> In (FRecvWait ch) w.
Proof.
  intros s ch x w k o RE (st & SX & SH) IS IN. pose proof (reach_qloc _ RE _ (QChan ch) Logic.I IN) as M. cbn [node_co] in M. unfold matched in M. rewrite SX in M.
  destruct (isr_wait _ _ _ IS SH) as [-> |[-> |[-> | ->]]]; cbn in *; auto; contradiction.
Qed.
Lemma sat_in : forall s ch p v, reach s -> sat s ch p v -> (exists o t, In (TRet (fst p) (snd p) o OK v t) (tr s)) \/
  (~ inq s ch (snd p) /\ exists w o, at_call s (snd p) w (fst p) o /\ isr ch o = true /\ rbuf (cof (dt s) (snd p)) = v /\ (w = [] -> mode s = MRet OK) /\
    (In (FRecvWait ch) w -> cclosed (cof (dt s) (snd p)) = false)).
Proof.
  intros s ch p v RE [o t IN|w o AC IS RB MD FW]; [left; eauto|]. right. split.
  - intros IQ. destruct (FW (inq_wait _ _ _ _ _ _ RE AC IS IQ)) as [N _]. exact (N IQ).
  - exists w, o. repeat split; auto. intros I0. apply FW, I0.
Qed.

(** ** A coroutine other than the running one keeps its place *)
Section Other.
Context (s s' : state) (c : Z) (ch : nat).
Hypothesis RE : reach s.
Hypothesis NO : ~ over (mode s).
Hypothesis CU : cur (sc s) = Some c.
Hypothesis HA : forall x w k o, x <> c -> at_call s x w k o -> at_call s' x w k o.
Hypothesis HT : forall z, In z (tr s) -> In z (tr s').
Lemma oth_busy : forall x w k o, x <> c -> at_call s x w k o -> isr ch o = true -> w <> [].
Proof. intros x w k o NE AC IS ->. destruct (at_ret _ _ _ _ RE AC (isr_hand _ _ IS) NO) as [C _]. congruence. Qed.
Lemma sat_other : forall p v, sat s ch p v -> (snd p <> c -> ~ inq s ch (snd p) -> pend s ch (snd p) -> same3 (cof (dt s) (snd p)) (cof (dt s') (snd p)) /\ ~ inq s' ch (snd p)) ->
  (snd p = c -> (exists w o, at_call s c w (fst p) o /\ isr ch o = true) -> sat s' ch p v) -> sat s' ch p v.
Proof.
  intros p v SA H3 HC. destruct (Z.eq_dec (snd p) c) as [EC|NE].
  - destruct SA as [o t IN|w o AC IS RB MD FW]; [eapply sat_done; apply HT, IN|]. apply HC; [exact EC|]. rewrite EC in AC. eauto.
  - destruct (sat_in _ _ _ _ RE SA) as [(o & t & IN)|(NI & w & o & AC & IS & RB & MD & FW)]; [eapply sat_done; apply HT, IN|].
    destruct (H3 NE NI) as [(S1 & S2 & S3) NI']; [right; eauto|]. eapply sat_pend; [apply HA; [exact NE | exact AC] | exact IS | congruence | |].
    + intros ->. exfalso. eapply oth_busy; [exact NE | exact AC | exact IS | reflexivity].
    + intros IW. split; [exact NI'|]. rewrite S3. apply FW, IW.
Qed.
Lemma wt_other : forall p, wt s ch p -> snd p <> c -> same3 (cof (dt s) (snd p)) (cof (dt s') (snd p)) -> wt s' ch p.
Proof. intros p (w & o & AC & IS & IW & CC) NE (S1 & S2 & S3). exists w, o. split; [apply HA; assumption|]. split; [exact IS|]. split; [exact IW | congruence]. Qed.
Lemma rx_other : forall p, rx s ch p -> snd p <> c -> (~ inq s ch (snd p) -> pend s ch (snd p) -> same3 (cof (dt s) (snd p)) (cof (dt s') (snd p)) /\ ~ inq s' ch (snd p)) ->
  (rclosed (chn (dt s) ch) = true -> rclosed (chn (dt s') ch) = true) -> rx s' ch p.
Proof.
  intros p (w & o & AC & IS & D) NE H3 HR. exists w, o. split; [apply HA; assumption|]. split; [exact IS|]. destruct D as [(-> & _)|(IW & CC & NI & RC)].
  - exfalso. eapply oth_busy; [exact NE | exact AC | exact IS | reflexivity].
  - right. destruct (H3 NI) as [(S1 & S2 & S3) NI']; [right; eauto|]. split; [exact IW|]. split; [congruence|]. auto.
Qed.
End Other.

(** ** A step of a coroutine inside a receive *)
Lemma own_tick : forall G s c v f rest b d fs k sch md ch w kk o T, reach s -> unhurt ch s -> gyw G s -> mode s = MRet v -> cur (sc s) = Some c ->
  stk (sc s) c = f :: rest -> hret c f v b (now s) (dt s) = (d, fs, k) -> exec c k (set_stk (zupd (stk (sc s)) c (fs ++ rest)) (sc s)) = (sch, md) ->
  at_call s c w kk o -> isr ch o = true ->
  let s' := mkst sch (ctl_dat c (nextid (sc s) + 1) k d) md (now s) (ncalls s) T in
  (w = [] /\ f = FApi kk o /\ (v <> ECANCELED -> d = dt s /\ fs = [] /\ k = CUser)) \/
  (exists r, k = CRet r /\ md = MRet r /\
   ((w = [FPause; FRecvWait ch] /\ at_call s' c [FRecvWait ch] kk o /\ same3 (cof (dt s) c) (cof d c)) \/
    (w = [FRecvResumed] /\ at_call s' c [] kk o /\ r = OK /\ d = dt s) \/
    (w = [FRecvWait ch] /\ at_call s' c [] kk o /\ (cclosed (cof (dt s) c) = false -> r = OK /\ rbuf (cof d c) = rbuf (cof (dt s) c)) /\ (cclosed (cof (dt s) c) = true -> bad r)))).
Proof.
  intros G s c v f rest b d fs k sch md ch w kk o T RE SI GY M CU SK E X AC IS. cbv zeta. pose proof (reach_full _ RE) as F. pose proof AC as (st & SX & SH). rewrite SK in SX.
  destruct (isr_wait _ _ _ IS SH) as [-> |[-> |[-> | ->]]]; cbn [app] in SX; injection SX as -> ->; cbn [hret] in E.
  - left. split; [reflexivity|]. split; [reflexivity|]. intros NC. destruct (is_async o && (v =? ECANCELED) && _) eqn:AS; [|injection E as <- <- <-; auto].
    apply andb_true_iff in AS. destruct AS as [AS _]. apply andb_true_iff in AS. destruct AS as [_ AS]. apply Z.eqb_eq in AS. congruence.
  - right. injection E as <- <- <-. exists OK. split; [reflexivity|]. pose proof X as X0. cbn [exec] in X0. injection X0 as _ <-. split; [reflexivity|]. right; left. split; [reflexivity|]. split; [|auto].
    apply (at_mine s c (CRet OK) [] [] kk o st); auto; [discriminate | constructor].
  - right. assert (W : exists rest, top (stk (sc s) c) = FSendWait ch :: rest \/ top (stk (sc s) c) = FRecvWait ch :: rest) by (exists (FApi kk o :: st); right; rewrite SK; reflexivity).
    destruct (proj2 SI c CU W) as [DE CA]. unfold recv_end, checkdl in E.
    change (cof (rmq (NCo c) (set_nreceivers (nreceivers (dt s) - 1) (dt s))) c) with (cof (dt s) c) in E. rewrite CA, DE, Z.eqb_refl in E.
    change (cof (rmq (NCo c) (set_nreceivers (nreceivers (dt s) - 1) (dt s))) c) with (cof (dt s) c) in E. cbn in E.
    assert (AN : forall r, k = CRet r -> fs = [] -> at_call (mkst sch (ctl_dat c (nextid (sc s) + 1) k d) md (now s) (ncalls s) T) c [] kk o).
    { intros r -> ->. apply (at_mine s c (CRet r) [] [] kk o st); auto; [discriminate | constructor]. }
    destruct (cclosed (cof (dt s) c)); injection E as <- <- <-; pose proof X as X0; cbn [exec] in X0; injection X0 as _ <-; eexists; (split; [reflexivity|]; split; [reflexivity|]; right; right; split; [reflexivity|];
      split; [eapply AN; reflexivity|]; split; [try discriminate; auto|]; try discriminate; intros _; split; discriminate).
  - right. injection E as <- <- <-. exists 0. split; [reflexivity|]. pose proof X as X0. cbn [exec] in X0. injection X0 as _ <-. split; [reflexivity|]. left. split; [reflexivity|]. split.
    + apply (at_mine s c (CRet 0) [] [FRecvWait ch] kk o st); auto; [discriminate|]. cbn [app].
      destruct o; try discriminate IS; inversion SH; subst. match goal with H : pz _ _ |- _ => inversion H; subst end. apply sh_recv_w. constructor.
    + unfold pause_end. rewrite upco_eq. destruct (_ <? _); repeat split.
Qed.

Definition tickst (s : state) (c v : Z) (f : frame) (d : dat) (fs : list frame) (k : ctl) (sch : sched) (md : emode) : state :=
  mkst sch (ctl_dat c (nextid (sc s) + 1) k d) md (now s) (ncalls s) (tick_tr s c v f d fs k).
Lemma put_call : forall G ch s j m x o, reach s -> In (j, m) (live (put_of G ch) (tr s)) -> (exists st w, stk (sc s) x = w ++ FApi j o :: st) -> put_of G ch x o = Some m.
Proof.
  intros G ch s j m x o RE IN (st & w & SX). apply live_in in IN. destruct IN as (c & p & t & I1 & P). pose proof (reach_cinv _ RE) as C.
  destruct (ci_open _ C x j o) as (t1 & I2 & _); [rewrite SX; apply in_or_app; right; left; reflexivity|].
  destruct (callnos_inj _ _ _ _ _ _ _ _ (ci_uc _ C) I1 I2) as (-> & -> & _). exact P.
Qed.
(** the step of [c] that leaves just the wrapper of a send *)
Lemma send_tick : forall G s c v f rest b d fs k sch md ch w kk o m, reach s -> unhurt ch s -> gyw G s -> mode s = MRet v -> cur (sc s) = Some c ->
  stk (sc s) c = f :: rest -> hret c f v b (now s) (dt s) = (d, fs, k) -> exec c k (set_stk (zupd (stk (sc s)) c (fs ++ rest)) (sc s)) = (sch, md) ->
  at_call s c (f :: w) kk o -> fs ++ w = [] -> put_of G ch c o = Some m -> md = MRet OK.
Proof.
  intros G s c v f rest b d fs k sch md ch w kk o m RE SI GY M CU SK E X AC EN P. apply app_eq_nil in EN. destruct EN as [-> ->]. pose proof AC as (st & SX & SH).
  assert (D : f = FSendResumed \/ f = FSendWait ch).
  { destruct o; try discriminate P; inversion SH; subst; auto; match goal with H : pz _ _ |- _ => inversion H; subst end.
    - cbn in P. destruct (Nat.eqb_spec ch0 ch); [subst; auto | discriminate P].
    - cbn in P. assert (GG := GY _ _ _ _ _ _ AC (or_introl eq_refl)). rewrite GG in P. destruct (Nat.eqb_spec ch0 ch); [subst; auto | discriminate P]. }
  destruct D as [-> | ->]; cbn [hret] in E.
  - injection E as _ <-. cbn in X. congruence.
  - assert (W : exists rest, top (stk (sc s) c) = FSendWait ch :: rest \/ top (stk (sc s) c) = FRecvWait ch :: rest) by (eexists; left; rewrite SX; reflexivity).
    destruct (proj2 SI c CU W) as [DE CA]. unfold send_end, checkdl in E.
    change (cof (rmq (NCo c) (set_nsenders (nsenders (dt s) - 1) (dt s))) c) with (cof (dt s) c) in E. rewrite CA, DE, Z.eqb_refl in E. cbn in E. injection E as _ <-. cbn in X. congruence.
Qed.
Lemma tick_fi : forall G s c v f rest b d fs k sch md ch, reach s -> unhurt ch s -> gyw G s -> fi G ch s -> mode s = MRet v -> cur (sc s) = Some c ->
  stk (sc s) c = f :: rest -> lstack (f :: rest) -> hret c f v b (now s) (dt s) = (d, fs, k) -> exec c k (set_stk (zupd (stk (sc s)) c (fs ++ rest)) (sc s)) = (sch, md) ->
  fi G ch (tickst s c v f d fs k sch md).
Proof.
  intros G s c v f rest b d fs k sch md ch RE SI GY FI M CU SK L E X. pose proof (reach_full _ RE) as F.
  assert (NW : newok ch (dt s)) by (destruct FI as (V & Rsat & Rq & Rx & Sacc & Sx & FI); apply (f_new _ _ _ _ _ _ _ _ _ _ _ FI)).
  pose proof (cur_notin _ _ _ RE SI CU) as NI. pose proof (chan_nco _ _ RE (proj1 SI)) as AN.
  assert (NO : ~ over (mode s)) by (rewrite M; exact (fun z => z)).
  pose proof (tick_out _ _ _ _ _ _ _ _ ch RE SI NW CU E) as TO.
  set (s' := tickst s c v f d fs k sch md).
  assert (HA : forall x w kk o, x <> c -> at_call s x w kk o -> at_call s' x w kk o) by (intros; eapply at_keep; eassumption).
  assert (HT : forall z, In z (tr s) -> In z (tr s')) by (intros z IZ; apply tick_tr_old, IZ).
  (* the effect on the data as a whole *)
  assert (NID : ~ In (NCo c) (q d (QChan ch))).
  { destruct TO as [(_ & Q2 & _) _|A1 A2 A3 A4 A5 A6 A7 A8 A9]; [rewrite Q2; exact NI | rewrite A4; exact (fun z => z)]. }
  assert (NWD : newok ch d).
  { destruct TO as [QC _|A1 A2 A3 A4 A5 A6 A7 A8 A9]; [eapply newok_quiet; eassumption | intros Z; lia]. }
  assert (QND : q d (QChan ch) = [] \/ (ch < nchan d)%nat).
  { destruct TO as [(Q1 & Q2 & Q3 & Q4 & Q5) _|A1 A2 A3 A4 A5 A6 A7 A8 A9]; [|auto]. rewrite Q2. destruct (Nat.lt_ge_cases ch (nchan (dt s))) as [LT|GE]; [right; lia|].
    left. destruct (reach_chinv _ RE) as [(D1 & D2 & D3) _]. apply (ck_nil _ _ (D1 ch)), D2, GE. }
  destruct (quiet_ctl s c ch k d RE CU NID QND NWD) as [CQ CC]. change (ctl_dat c (nextid (sc s) + 1) k d) with (dt s') in CQ, CC.
  destruct CQ as (CQ1 & CQ2 & CQ3 & CQ4 & CQ5 & CQ6).
  (* the other coroutines *)
  assert (H3 : forall x, x <> c -> ~ inq s ch x -> pend s ch x -> same3 (cof (dt s) x) (cof (dt s') x) /\ ~ inq s' ch x).
  { intros x NE NIX PE. split.
    - rewrite CC by assumption. destruct TO as [QC ST|A1 A2 A3 A4 A5 A6 A7 A8 A9]; [apply ST; assumption | rewrite A9 by assumption; apply same3_refl].
    - unfold inq. rewrite CQ2. destruct TO as [(Q1 & Q2 & Q3 & Q4 & Q5) ST|A1 A2 A3 A4 A5 A6 A7 A8 A9]; [rewrite Q2; exact NIX | rewrite A4; exact (fun z => z)]. }
  assert (RC : rclosed (chn (dt s) ch) = true -> rclosed (chn (dt s') ch) = true).
  { rewrite CQ4. destruct TO as [(Q1 & Q2 & Q3 & Q4 & Q5) ST|A1 A2 A3 A4 A5 A6 A7 A8 A9]; [rewrite Q4; auto | intros; exact A6]. }
  assert (NI' : ~ inq s' ch c) by (unfold inq; rewrite CQ2; exact NID).
  assert (OT : forall w kk o, at_call s c w kk o -> isr ch o = true -> _) by (intros w kk o AC IS; exact (own_tick _ _ _ _ _ _ _ _ _ _ _ _ _ _ _ _ (tick_tr s c v f d fs k) RE SI GY M CU SK E X AC IS)).
  cbv zeta in OT. change (mkst sch (ctl_dat c (nextid (sc s) + 1) k d) md (now s) (ncalls s) (tick_tr s c v f d fs k)) with s' in OT.
  set (kp := keep c v f fs k).
  assert (K1 : forall p w o, at_call s (snd p) w (fst p) o -> (w = [] -> mode s = MRet OK) -> kp (fst p) = true).
  { intros p w o AC H. destruct (keep_cases c v f fs k (fst p)) as [?|(o1 & -> & NV & _)]; [assumption|]. exfalso.
    destruct (same_api _ _ _ _ _ _ _ _ RE AC SK) as (_ & -> & _). rewrite M in H. specialize (H eq_refl). congruence. }
  assert (HS : forall p w, sat s ch p w -> sat s' ch p w /\ kp (fst p) = true).
  { intros p w0 SA. split.
    - eapply (sat_other s s' c ch RE NO CU HA HT); [exact SA | intros; apply H3; assumption|]. intros EC (w1 & o1 & AC1 & IS1).
      destruct SA as [o t IN|w o AC IS RB MD FW]; [eapply sat_done; apply HT, IN|]. rewrite EC in *. destruct (OT _ _ _ AC IS) as [(-> & QF & Q)|(r & -> & -> & D)].
      + specialize (MD eq_refl). assert (v = OK) by congruence. subst v. destruct Q as (-> & -> & ->); [discriminate|]. apply (sat_done _ _ _ _ o (now s)). unfold s', tickst. cbn [tr]. unfold tick_tr. rewrite EC, QF.
        apply in_or_app. right. apply in_or_app. right. cbn [ret_obs]. left. rewrite RB. reflexivity.
      + destruct D as [(-> & A1 & (S1 & S2 & S3))|[(-> & A1 & -> & ->)|(-> & A1 & HC & _)]].
        * apply (sat_pend _ _ _ _ [FRecvWait ch] o); rewrite ?EC; auto; [cbn; congruence | discriminate|]. intros _. split; [exact NI'|]. cbn. rewrite S3. apply FW. right. left. reflexivity.
        * apply (sat_pend _ _ _ _ [] o); rewrite ?EC; auto. intros [].
        * destruct (FW (or_introl eq_refl)) as [_ CF]. destruct (HC CF) as [-> RB']. apply (sat_pend _ _ _ _ [] o); rewrite ?EC; auto; [cbn; congruence | intros []].
    - destruct SA as [o t IN|w o AC IS RB MD FW]; [|eapply K1; eassumption].
      destruct (keep_cases c v f fs k (fst p)) as [?|(o1 & -> & NV & _)]; [assumption|]. exfalso. eapply (ci_pend _ (reach_cinv _ RE) c (fst p) o1); [rewrite SK; left; reflexivity | do 5 eexists; exact IN]. }
  assert (HX : forall p, rx s ch p -> kp (fst p) = true -> rx s' ch p).
  { intros p RX KP. destruct (Z.eq_dec (snd p) c) as [EC|NE]; [|eapply (rx_other s s' c ch RE NO CU HA); [exact RX | exact NE | intros; apply H3; assumption | exact RC]].
    destruct RX as (w & o & AC & IS & D). rewrite EC in *. destruct (OT _ _ _ AC IS) as [(-> & QF & Q)|(r & -> & -> & DD)].
    - exfalso. destruct D as [(_ & r & MR & B1 & B2)|([] & _)]. assert (v = r) by congruence. subst r. destruct (Q B2) as (-> & -> & ->). unfold kp, keep in KP. rewrite QF in KP.
      rewrite Nat.eqb_refl in KP. destruct (Z.eqb_spec v OK); [contradiction | discriminate KP].
    - destruct D as [(-> & _)|(IW & CL & NI0 & RC0)]; [destruct DD as [(D & _)|[(D & _)|(D & _)]]; discriminate D|].
      destruct DD as [(-> & A1 & (S1 & S2 & S3))|[(-> & _)|(-> & A1 & _ & HB)]].
      + exists [FRecvWait ch], o. rewrite EC. split; [exact A1|]. split; [exact IS|]. right. split; [left; reflexivity|]. split; [cbn; congruence|]. auto.
      + destruct IW as [IW|[]]. discriminate IW.
      + exists [], o. rewrite EC. split; [exact A1|]. split; [exact IS|]. left. split; [reflexivity|]. exists r. auto. }
  assert (HSX : forall p, sx G s ch p -> kp (fst p) = true -> sx G s' ch p).
  { intros p (x & o & m & AC & P & r & MR & B1 & B2) KP. exfalso. destruct (at_ret _ _ _ _ RE AC (put_hand _ _ _ _ _ P) NO) as [C1 _]. assert (x = c) by congruence. subst x.
    assert (v = r) by congruence. subst r. destruct AC as (st & SX & _). cbn in SX. rewrite SK in SX. injection SX as -> ->. cbn [hret] in E.
    assert (Q : is_async o && (v =? ECANCELED) && casync (cof (dt s) c) = false). { destruct (Z.eqb_spec v ECANCELED); [contradiction|]. rewrite andb_false_r. reflexivity. }
    rewrite Q in E. injection E as <- <- <-. unfold kp, keep in KP. rewrite Nat.eqb_refl in KP. destruct (Z.eqb_spec v OK); [contradiction | discriminate KP]. }
  assert (HAC : forall p, In p (live (put_of G ch) (tr s)) -> acc s (fst p) -> acc s' (fst p) /\ kp (fst p) = true).
  { intros [j m] IN AC. cbn [fst] in *. split.
    - intros x o A. destruct (tick_at _ _ _ _ _ _ _ _ _ _ _ _ _ _ _ F CU SK L E X A) as [(-> & NF & w1 & EW & SH & A0)|[(-> & _ & _ & D)|(NE & A0)]].
      + eapply send_tick; try eassumption; [symmetry; exact EW|]. eapply put_call; [exact RE | exact IN|]. destruct A0 as (st & SX & _). eauto.
      + subst o. exfalso. destruct (at_own _ _ _ _ _ _ _ _ _ _ _ _ _ _ _ F CU X A) as (_ & _ & st & EQ). cbn [app] in EQ.
        assert (IF : In (FApi j (OpCleanupPop true)) (fs ++ rest)) by (rewrite EQ; left; reflexivity). apply in_app_or in IF. destruct IF as [IF|IF].
        * eapply (tick_noapi _ _ _ _ _ _ _ _ _ _ L E); exact IF.
        * apply in_split in IF. destruct IF as (l1 & l2 & ->). assert (P : put_of G ch c (OpCleanupPop true) = Some m) by (eapply put_call; [exact RE | exact IN|]; exists l2, (f :: l1); rewrite SK; reflexivity). discriminate P.
      + exfalso. assert (P : put_of G ch x o = Some m) by (eapply put_call; [exact RE | exact IN|]; destruct A0 as (st & SX & _); eauto).
        destruct (at_ret _ _ _ _ RE A0 (put_hand _ _ _ _ _ P) NO) as [C1 _]. congruence.
    - destruct (keep_cases c v f fs k j) as [?|(o1 & -> & NV & _)]; [assumption|]. exfalso.
      inversion L as [st0 U|k0 o0 w st0 U SH EQ|w st0 ES EQ]; subst.
      + inversion U.
      + destruct w as [|g w]; [|cbn in EQ; injection EQ as -> _; eapply shape_noapi2; [exact SH | left; reflexivity]]. cbn in EQ. injection EQ as -> -> ->.
        assert (A0 : at_call s c [] j o1) by (exists rest; split; [exact SK | constructor]). specialize (AC _ _ A0). congruence.
      + inversion ES as [a0 sb w1 Y|a0 sb|a0 w1 Y]; subst w; try discriminate EQ; inversion Y; subst; discriminate EQ. }
  unfold fi. unfold s', tickst. cbn [tr]. rewrite !live_tick_tr. fold kp. fold (tickst s c v f d fs k sch md). fold s'.
  destruct TO as [QC ST|A1 A2 A3 A4 A5 A6 A7 A8 A9].
  - apply (fi_quiet G s s' ch _ _ kp FI AN); auto.
    + destruct QC as (Q1 & Q2 & Q3 & Q4 & Q5 & Q6). unfold quietc. repeat split; [congruence | congruence | | congruence | lia | auto]. intros NE. rewrite CQ3 by congruence. auto.
    + intros x IX. assert (x <> c) by (intros ->; contradiction). rewrite CC; [|assumption | left; exact IX]. apply ST; [assumption | left; exact IX].
    + intros p W IX. assert (NE : snd p <> c) by (intros QE; rewrite QE in IX; contradiction). split.
      * eapply (wt_other s s' c ch HA); [exact W | exact NE|]. rewrite CC; [|assumption | left; exact IX]. apply ST; [assumption | left; exact IX].
      * destruct W as (w & o & AC & IS & IW & _). eapply K1; [exact AC|]. intros ->. destruct IW.
  - apply (fi_close G s s' ch _ _ kp FI); auto.
    + change (ch < nchan (dt s'))%nat. lia.
    + congruence.
    + congruence.
    + congruence.
    + intros p W IX. assert (NE : snd p <> c) by (intros QE; rewrite QE in IX; contradiction). destruct W as (w & o & AC & IS & IW & _). split.
      * exists w, o. split; [apply HA; assumption|]. split; [exact IS|]. right. split; [exact IW|]. split; [rewrite CC; [|exact NE | left; exact IX]; rewrite A8 by exact IX; destruct (cof (dt s) (snd p)); reflexivity|].
        split; [unfold inq; rewrite CQ2, A4; exact (fun z => z) | congruence].
      * eapply K1; [exact AC|]. intros ->. destruct IW.
Qed.

(** ** Calls *)
Definition callst (s : state) (c : Z) (o : op) (d : dat) (fs : list frame) (k : ctl) (sch : sched) (md : emode) : state :=
  mkst sch (ctl_dat c (nextid (sc s) + 1) k d) md (now s) (S (ncalls s)) (call_tr s c o fs k).
Section Call.
Context (G : Z -> option nat) (s : state) (c : Z) (o : op) (d : dat) (fs : list frame) (k : ctl) (sch : sched) (md : emode) (ch : nat).
Hypothesis RE : reach s.
Hypothesis SI : unhurt ch s.
Hypothesis GY : gyw G s.
Hypothesis FI : fi G ch s.
Hypothesis M : mode s = MUser.
Hypothesis CU : cur (sc s) = Some c.
Hypothesis U : ustack (stk (sc s) c).
Hypothesis E : hcall c o (now s) (dt s) = (d, fs, k).
Hypothesis X : exec c k (set_stk (zupd (stk (sc s)) c (fs ++ FApi (ncalls s) o :: stk (sc s) c)) (sc s)) = (sch, md).
Let s' := callst s c o d fs k sch md.
Let NR := live (recv_of ch) (tr s).
Let NS := live (put_of G ch) (tr s).

Lemma cl_full : full s. Proof. apply reach_full, RE. Qed.
Lemma cl_over : ~ over (mode s). Proof. rewrite M. exact (fun z => z). Qed.
Lemma cl_mine : forall w kk p, ~ at_call s c w kk p.
Proof. intros w kk p (st & SX & SH). eapply ustack_clash; eassumption. Qed.
Lemma cl_keep : forall x w kk p, x <> c -> at_call s x w kk p -> at_call s' x w kk p.
Proof. intros. eapply at_keep; try eassumption. apply cl_full. Qed.
Lemma cl_old : forall z, In z (tr s) -> In z (tr s').
Proof. intros z IZ. apply call_tr_old, IZ. Qed.
Lemma cl_own : (forall e, k <> CFinal e) -> shape o fs -> at_call s' c fs (ncalls s) o.
Proof.
  intros NF SH. unfold s', callst. replace (at_call (mkst sch (ctl_dat c (nextid (sc s) + 1) k d) md (now s) (S (ncalls s)) (call_tr s c o fs k)) c fs (ncalls s) o) with (at_call (mkst sch (ctl_dat c (nextid (sc s) + 1) k d) md (now s) (S (ncalls s)) (call_tr s c o fs k)) c (fs ++ []) (ncalls s) o) by (rewrite app_nil_r; reflexivity). eapply (at_mine s c k fs []); [apply cl_full | exact CU | exact NF | exact X | rewrite app_nil_r; exact SH].
Qed.
Lemma cl_nil : forall x kk p, at_call s x [] kk p -> ~ handing p -> False.
Proof. intros x kk p AC NH. destruct (at_ret _ _ _ _ RE AC NH cl_over) as (_ & v & MV). congruence. Qed.
Lemma cl_acc : forall p, In p NS -> acc s' (fst p).
Proof.
  intros [j m] IN x p A. cbn [fst] in *. destruct (call_at _ _ _ _ _ _ _ _ _ _ _ _ cl_full CU U E X A) as [(-> & _ & -> & -> & _)|(NE & A0)].
  - exfalso. apply live_in in IN. destruct IN as (c1 & p1 & t1 & I1 & _). destruct (ci_lt _ (reach_cinv _ RE) _ _ _ _ I1). lia.
  - exfalso. eapply cl_nil; [exact A0|]. eapply put_hand. eapply put_call; [exact RE | exact IN|]. destruct A0 as (st & SX & _). eauto.
Qed.
Lemma cl_notin : ~ inq s ch c. Proof. apply (cur_notin _ _ _ RE SI CU). Qed.
Lemma cl_sat : forall p v, sat s ch p v -> (snd p <> c -> ~ inq s ch (snd p) -> pend s ch (snd p) -> same3 (cof (dt s) (snd p)) (cof (dt s') (snd p)) /\ ~ inq s' ch (snd p)) -> sat s' ch p v.
Proof.
  intros p v SA H. eapply (sat_other s s' c ch RE cl_over CU cl_keep cl_old); [exact SA | exact H|]. intros EC (w & p0 & AC & _). destruct (cl_mine _ _ _ AC).
Qed.
Lemma cl_newok : newok ch (dt s).
Proof. destruct FI as (V & Rsat & Rq & Rx & Sacc & Sx & F). apply (f_new _ _ _ _ _ _ _ _ _ _ _ F). Qed.
(** nothing is failing at the time of a call, and on an open channel no receive will *)
Lemma cl_parts : exists V Rsat Rq Rx, fiW G s ch NR NS V Rsat Rq Rx NS [] /\ (rclosed (chn (dt s) ch) = false -> Rx = []).
Proof.
  destruct FI as (V & Rsat & Rq & Rx & Sacc & Sx & F). exists V, Rsat, Rq, Rx.
  assert (SX : Sx = []).
  { destruct Sx as [|p Sx]; [reflexivity|]. pose proof (f_sx _ _ _ _ _ _ _ _ _ _ _ F) as H. inversion H as [|? ? (x & p0 & m & _ & _ & r & MR & _)]; subst. congruence. }
  subst Sx. pose proof (f_s _ _ _ _ _ _ _ _ _ _ _ F) as ES. rewrite app_nil_r in ES. split; [unfold NS, NR; rewrite ES at 2; exact F|].
  intros RC. destruct Rx as [|p Rx]; [reflexivity|]. pose proof (f_x _ _ _ _ _ _ _ _ _ _ _ F) as H. inversion H as [|? ? (w & p0 & AC & IS & D)]; subst.
  destruct D as [(_ & r & MR & _)|(_ & _ & _ & RT)]; congruence.
Qed.

Lemma call_base : step_out s c ch d -> fiL G s' ch NR NS.
Proof.
  intros TO. pose proof cl_notin as NI. pose proof (chan_nco _ _ RE (proj1 SI)) as AN. pose proof cl_newok as NW.
  assert (NID : ~ In (NCo c) (q d (QChan ch))).
  { destruct TO as [(_ & Q2 & _) _|A1 A2 A3 A4 A5 A6 A7 A8 A9]; [rewrite Q2; exact NI | rewrite A4; exact (fun z => z)]. }
  assert (NWD : newok ch d).
  { destruct TO as [QC _|A1 A2 A3 A4 A5 A6 A7 A8 A9]; [eapply newok_quiet; eassumption | intros Z; lia]. }
  assert (QND : q d (QChan ch) = [] \/ (ch < nchan d)%nat).
  { destruct TO as [(Q1 & Q2 & Q3 & Q4 & Q5) _|A1 A2 A3 A4 A5 A6 A7 A8 A9]; [|auto]. rewrite Q2. destruct (Nat.lt_ge_cases ch (nchan (dt s))) as [LT|GE]; [right; lia|].
    left. destruct (reach_chinv _ RE) as [(D1 & D2 & D3) _]. apply (ck_nil _ _ (D1 ch)), D2, GE. }
  destruct (quiet_ctl s c ch k d RE CU NID QND NWD) as [CQ CC]. change (ctl_dat c (nextid (sc s) + 1) k d) with (dt s') in CQ, CC.
  destruct CQ as (CQ1 & CQ2 & CQ3 & CQ4 & CQ5 & CQ6).
  assert (H3 : forall x, x <> c -> ~ inq s ch x -> pend s ch x -> same3 (cof (dt s) x) (cof (dt s') x) /\ ~ inq s' ch x).
  { intros x NE NIX PE. split.
    - rewrite CC by assumption. destruct TO as [QC ST|A1 A2 A3 A4 A5 A6 A7 A8 A9]; [apply ST; assumption | rewrite A9 by assumption; apply same3_refl].
    - unfold inq. rewrite CQ2. destruct TO as [(Q1 & Q2 & Q3 & Q4 & Q5) ST|A1 A2 A3 A4 A5 A6 A7 A8 A9]; [rewrite Q2; exact NIX | rewrite A4; exact (fun z => z)]. }
  assert (RC : rclosed (chn (dt s) ch) = true -> rclosed (chn (dt s') ch) = true).
  { rewrite CQ4. destruct TO as [(Q1 & Q2 & Q3 & Q4 & Q5) ST|A1 A2 A3 A4 A5 A6 A7 A8 A9]; [rewrite Q4; auto | intros; exact A6]. }
  assert (HS : forall p w, sat s ch p w -> sat s' ch p w /\ (fun _ : nat => true) (fst p) = true).
  { intros p w SA. split; [|reflexivity]. eapply cl_sat; [exact SA|]. intros. apply H3; assumption. }
  assert (HX : forall p, rx s ch p -> (fun _ : nat => true) (fst p) = true -> rx s' ch p).
  { intros p RX _. assert (NE : snd p <> c) by (destruct RX as (w & p0 & AC & _); intros EC; rewrite EC in AC; destruct (cl_mine _ _ _ AC)).
    eapply (rx_other s s' c ch RE cl_over CU cl_keep); [exact RX | exact NE | intros; apply H3; assumption | exact RC]. }
  assert (HSX : forall p, sx G s ch p -> (fun _ : nat => true) (fst p) = true -> sx G s' ch p).
  { intros p (x & p0 & m & AC & P & r & MR & B1 & B2) _. congruence. }
  assert (HAC : forall p, In p NS -> acc s (fst p) -> acc s' (fst p) /\ (fun _ : nat => true) (fst p) = true).
  { intros p IN _. split; [apply cl_acc, IN | reflexivity]. }
  assert (FA : forall l : list (nat * Z), filter (fun p => (fun _ => true) (fst p)) l = l) by (intros l; apply filter_keepall; reflexivity).
  rewrite <- (FA NR), <- (FA NS).
  destruct TO as [QC ST|A1 A2 A3 A4 A5 A6 A7 A8 A9].
  - apply (fi_quiet G s s' ch _ _ (fun _ => true) FI AN); auto.
    + destruct QC as (Q1 & Q2 & Q3 & Q4 & Q5 & Q6). unfold quietc. repeat split; [congruence | congruence | | congruence | lia | auto]. intros NE. rewrite CQ3 by congruence. auto.
    + intros x IX. assert (x <> c) by (intros ->; contradiction). rewrite CC; [|assumption | left; exact IX]. apply ST; [assumption | left; exact IX].
    + intros p W IX. assert (NE : snd p <> c) by (intros QE; rewrite QE in IX; contradiction). split; [|reflexivity].
      eapply (wt_other s s' c ch cl_keep); [exact W | exact NE|]. rewrite CC; [|assumption | left; exact IX]. apply ST; [assumption | left; exact IX].
  - apply (fi_close G s s' ch _ _ (fun _ => true) FI); auto.
    + change (ch < nchan (dt s'))%nat. lia.
    + congruence.
    + congruence.
    + congruence.
    + intros p W IX. assert (NE : snd p <> c) by (intros QE; rewrite QE in IX; contradiction). destruct W as (w & p0 & AC & IS & IW & _). split; [|reflexivity].
      exists w, p0. split; [apply cl_keep; assumption|]. split; [exact IS|]. right. split; [exact IW|]. split; [rewrite CC; [|exact NE | left; exact IX]; rewrite A8 by exact IX; destruct (cof (dt s) (snd p)); reflexivity|].
      split; [unfold inq; rewrite CQ2, A4; exact (fun z => z) | congruence].
Qed.

(** a call about the channel *)
Lemma call_recv : isr ch o = true -> recv_out c ch (dt s) d fs k -> fiL G s' ch (NR ++ [(ncalls s, c)]) NS.
Proof.
  intros IS RO. pose proof cl_notin as NI. destruct RO as [r Ed Ef Ek R1 R2|m l LT RC QD BE BE' CE SUB QD' RB NC CL FK|LT RC BF QD QE QR BF' CE CC NC CL Ef Ek].
  - apply fi_addR; [apply call_base; rewrite Ed; apply st_quiet; [apply quietc_refl | intros x _ _; apply same3_refl]|].
    exists [], o. cbn [fst snd]. split; [rewrite <- Ef; apply cl_own; [rewrite Ek; discriminate | rewrite Ef; constructor]|]. split; [exact IS|]. left. split; [reflexivity|]. exists r. split; [|split; assumption].
    pose proof X as X0. rewrite Ek in X0. cbn [exec] in X0. injection X0 as _ X0. exact (eq_sym X0).
  - destruct cl_parts as (V & Rsat & Rq & Rx & F & HR). rewrite (HR RC) in F. destruct F as [F1 F2 F3 F4 F5 F6 F7 F8 F9 F10 F11].
    assert (DT : dt s' = d) by (unfold s', callst; cbn [dt]; destruct FK as [[_ Ek]|[_ (y & Ek)]]; rewrite Ek; reflexivity).
    assert (RQ : rqs ch (dt s) = []) by (unfold rqs; destruct QD as [QD|QD]; rewrite QD; [destruct (qrecv (chn (dt s) ch))|]; reflexivity).
    rewrite RQ in F5. apply map_eq_nil in F5. subst Rq. rewrite !app_nil_r in F1.
    assert (SQ : smsgs ch (dt s) = map (fun n => smsg (cof (dt s) (node_co n))) (q (dt s) (QChan ch))).
    { unfold smsgs. destruct QD as [QD|QD]; rewrite QD; [destruct (qrecv (chn (dt s) ch))|]; reflexivity. }
    assert (SQ' : smsgs ch d = map (fun n => smsg (cof (dt s) (node_co n))) (q d (QChan ch))).
    { assert (H : smsgs ch d = map (fun n => smsg (cof d (node_co n))) (q d (QChan ch))) by (unfold smsgs; destruct QD' as [QD'|QD']; rewrite QD'; [destruct (qrecv (chn d ch))|]; reflexivity).
      rewrite H. apply map_ext_in. intros a IA. rewrite CE; [reflexivity|]. intros EC. apply NI. unfold inq. pose proof (chan_nco _ _ RE (proj1 SI) _ (SUB _ IA)) as EA. rewrite <- EC, <- EA. apply SUB, IA. }
    exists (V ++ [m]), (Rsat ++ [(ncalls s, c)]), [], [], NS, []. constructor.
    + rewrite F1, !app_nil_r. reflexivity.
    + rewrite app_nil_r. reflexivity.
    + rewrite DT, SQ', <- app_assoc. cbn [app]. rewrite BE', F3, SQ, BE. reflexivity.
    + apply Forall2_app.
      * clear -F4 CE NI SUB DT RE M CU U E X. induction F4 as [|p v lp lv SA F4 IH]; constructor; [|exact IH]. eapply cl_sat; [exact SA|]. intros NE NIX PE. rewrite DT, CE by exact NE. split; [apply same3_refl|]. unfold inq. rewrite DT. intros IX. apply NIX, SUB, IX.
      * constructor; [|constructor]. destruct FK as [[Ef Ek]|[Ef (y & Ek)]].
        -- apply (sat_pend _ _ _ _ [] o); cbn [fst snd]; [rewrite <- Ef; apply cl_own; [rewrite Ek; discriminate | rewrite Ef; constructor] | exact IS | rewrite DT; exact RB | | intros []].
           intros _. pose proof X as X0. rewrite Ek in X0. cbn [exec] in X0. injection X0 as _ X0. exact (eq_sym X0).
        -- apply (sat_pend _ _ _ _ [FRecvResumed] o); cbn [fst snd]; [rewrite <- Ef; apply cl_own; [rewrite Ek; discriminate|] | exact IS | rewrite DT; exact RB | discriminate | intros [D|[]]; discriminate D].
           rewrite Ef. clear -IS. destruct o; try discriminate IS; constructor.
    + rewrite DT. unfold rqs. destruct QD' as [QD'|QD']; rewrite QD'; [destruct (qrecv (chn d ch))|]; reflexivity.
    + constructor.
    + constructor.
    + constructor.
    + intros p IN. apply cl_acc, IN.
    + rewrite DT. intros Z. lia.
    + rewrite DT. exact CL.
  - destruct cl_parts as (V & Rsat & Rq & Rx & F & HR). rewrite (HR RC) in F. pose proof (fun p => rqs_in _ _ _ _ _ _ _ _ _ _ _ p F) as RI. destruct F as [F1 F2 F3 F4 F5 F6 F7 F8 F9 F10 F11].
    rewrite app_nil_r in F1. assert (DT : dt s' = d) by (unfold s', callst; cbn [dt]; rewrite Ek; reflexivity).
    assert (AC : at_call s' c [FPause; FRecvWait ch] (ncalls s) o).
    { rewrite <- Ef. apply cl_own; [rewrite Ek; discriminate|]. rewrite Ef. clear -IS E Ef. destruct o; try discriminate IS; cbn in IS; apply Nat.eqb_eq in IS; subst; [apply sh_recv_w; constructor|]. cbn [hcall] in E. unfold do_recv in E.
      destruct (negb _) in E; [injection E as _ E _; congruence|]. destruct (rclosed _) in E; [injection E as _ E _; congruence|]. destruct (canceled _) in E; [injection E as _ E _; congruence|]. destruct (take _ _) as [[[? [?|]] ?]|] in E; injection E as _ E _; congruence. }
    assert (RQ : rqs ch (dt s) = q (dt s) (QChan ch)) by (unfold rqs; destruct QD as [QD|QD]; rewrite QD; [destruct (qrecv (chn (dt s) ch))|]; reflexivity).
    assert (SQ : smsgs ch (dt s) = []) by (unfold smsgs; destruct QD as [QD|QD]; rewrite QD; [destruct (qrecv (chn (dt s) ch))|]; reflexivity).
    exists V, Rsat, (Rq ++ [(ncalls s, c)]), [], NS, []. constructor.
    + rewrite F1, !app_nil_r, app_assoc. reflexivity.
    + rewrite app_nil_r. reflexivity.
    + rewrite DT, BF'. unfold smsgs. rewrite QR. rewrite F3, BF, SQ. reflexivity.
    + clear -F4 CE NI QE DT RE M CU U E X. induction F4 as [|p v lp lv SA F4 IH]; constructor; [|exact IH]. eapply cl_sat; [exact SA|]. intros NE NIX PE. rewrite DT, CE by exact NE. split; [apply same3_refl|]. unfold inq. rewrite DT, QE.
      intros IX. apply in_app_or in IX. destruct IX as [IX|[IX|[]]]; [exact (NIX IX) | congruence].
    + rewrite map_app, F5, DT. cbn [map snd]. unfold rqs at 2. rewrite QR, QE, RQ. reflexivity.
    + apply Forall_app. split.
      * rewrite Forall_forall in *. intros p IN. pose proof (RI p IN) as IX. assert (NE : snd p <> c) by (intros EC; rewrite EC in IX; contradiction). eapply (wt_other s s' c ch cl_keep); [apply F6, IN | exact NE|]. rewrite DT, CE by exact NE. apply same3_refl.
      * constructor; [|constructor]. exists [FPause; FRecvWait ch], o. cbn [fst snd]. split; [exact AC|]. split; [exact IS|]. split; [right; left; reflexivity | rewrite DT; exact CC].
    + constructor.
    + constructor.
    + intros p IN. apply cl_acc, IN.
    + rewrite DT. intros Z. lia.
    + rewrite DT. intros SC. rewrite CL in SC. destruct (F11 SC) as [H|[H|[H1 H2]]]; [congruence | contradiction | destruct QD; congruence].
Qed.
Lemma call_send : forall m, put_of G ch c o = Some m -> shape o [FSendResumed] -> shape o [FPause; FSendWait ch] -> send_out c ch m (dt s) d fs k -> fiL G s' ch NR (NS ++ [(ncalls s, m)]).
Proof.
  intros m P SH1 SH2 SO. pose proof cl_notin as NI. destruct (reach_chinv _ RE) as [(D1 & D2 & D3) _]. destruct (D1 ch) as [K1 K2 K3 K4 K5].
  assert (NA : forall f w, fs = f :: w -> acc s' (ncalls s)).
  { intros f w Ef x p A. destruct (call_at _ _ _ _ _ _ _ _ _ _ _ _ cl_full CU U E X A) as [(-> & W & _)|(NE & A0)]; [congruence|]. exfalso.
    destruct A0 as (st & SX & _). destruct (ci_open _ (reach_cinv _ RE) x (ncalls s) p) as (t & IT & _); [rewrite SX; left; reflexivity|]. destruct (ci_lt _ (reach_cinv _ RE) _ _ _ _ IT). lia. }
  destruct SO as [r Ed Ef Ek R1 R2|r l SC LT QQ QR Q' CH CE RB NC Ef Ek|SC LT QQ Q' LB B' CE NC CL Ef Ek|SC LT QD LB Q' QR B' CE SM NC CL Ef Ek].
  - apply fi_addS; [apply call_base; rewrite Ed; apply st_quiet; [apply quietc_refl | intros x _ _; apply same3_refl]|].
    exists c, o, m. cbn [fst]. split; [rewrite <- Ef; apply cl_own; [rewrite Ek; discriminate | rewrite Ef; constructor]|]. split; [exact P|]. exists r. split; [|split; assumption].
    pose proof X as X0. rewrite Ek in X0. cbn [exec] in X0. injection X0 as _ X0. exact (eq_sym X0).
  - destruct cl_parts as (V & Rsat & Rq & Rx & F & HR). pose proof (fun p => rqs_in _ _ _ _ _ _ _ _ _ _ _ p F) as RI. destruct F as [F1 F2 F3 F4 F5 F6 F7 F8 F9 F10 F11].
    assert (DT : dt s' = d) by (unfold s', callst; cbn [dt]; rewrite Ek; reflexivity).
    assert (BF : buf (chn (dt s) ch) = []) by (apply K2; [rewrite QQ; discriminate | exact QR]).
    assert (RC : rclosed (chn (dt s) ch) = false). { destruct (rclosed (chn (dt s) ch)) eqn:RC; [|reflexivity]. destruct (K4 eq_refl) as (? & _). congruence. }
    rewrite (HR RC) in *. unfold rqs in F5. rewrite QR, QQ in F5. destruct Rq as [|[k0 r0] Rq]; [discriminate F5|]. cbn [map snd] in F5. injection F5 as -> F5.
    pose proof (proj1 (reach_uniq _ RE) (QChan ch)) as ND. rewrite QQ in ND. apply NoDup_cons_iff in ND. destruct ND as [ND _].
    assert (RX : r <> c). { intros ->. apply NI. unfold inq. rewrite QQ. left. reflexivity. }
    assert (NIN : forall x, ~ inq s ch x -> ~ inq s' ch x). { intros x H. unfold inq in *. rewrite DT, Q'. rewrite QQ in H. intros IX. apply H. right. exact IX. }
    exists (V ++ [m]), (Rsat ++ [(k0, r)]), Rq, [], (NS ++ [(ncalls s, m)]), []. constructor.
    + rewrite F1, !app_nil_r, <- app_assoc. reflexivity.
    + rewrite app_nil_r. reflexivity.
    + rewrite DT, CH, BF. unfold smsgs. rewrite CH, QR, map_app, F3, BF. unfold smsgs. rewrite QR. cbn. rewrite !app_nil_r. reflexivity.
    + apply Forall2_app.
      * clear -F4 CE RB NIN QQ DT RE M CU U E X. induction F4 as [|p v lp lv SA F4 IH]; constructor; [|exact IH]. eapply cl_sat; [exact SA|]. intros NE NIX PE. split; [|apply NIN, NIX]. rewrite DT.
        rewrite CE; [apply same3_refl|]. intros ER. apply NIX. unfold inq. rewrite QQ, ER. left. reflexivity.
      * constructor; [|constructor]. destruct (Forall_inv F6) as (w & p & AC & IS & IW & CCL). cbn [fst snd] in *.
        apply (sat_pend _ _ _ _ w p); cbn [fst snd]; [apply cl_keep; assumption | exact IS | rewrite DT, RB; reflexivity | intros ->; destruct IW|].
        intros _. split; [unfold inq; rewrite DT, Q'; exact ND|]. rewrite DT, RB. exact CCL.
    + unfold rqs. rewrite DT, CH, QR, Q'. exact F5.
    + pose proof (Forall_inv_tail F6) as F6'. rewrite Forall_forall in *. intros p IN. pose proof (RI p (or_intror IN)) as IX. assert (NE : snd p <> c) by (intros EC; rewrite EC in IX; contradiction).
      eapply (wt_other s s' c ch cl_keep); [apply F6', IN | exact NE|]. rewrite DT, CE; [apply same3_refl|]. intros ER.
      apply ND. rewrite <- ER, <- F5. apply (in_map (fun p => NCo (snd p))), IN.
    + constructor.
    + constructor.
    + intros p IN. apply in_app_or in IN. destruct IN as [IN|[<-|[]]]; [apply cl_acc, IN | eapply NA; exact Ef].
    + rewrite DT. intros Z. lia.
    + rewrite DT. unfold clo. rewrite CH. congruence.
  - destruct cl_parts as (V & Rsat & Rq & Rx & F & HR). destruct F as [F1 F2 F3 F4 F5 F6 F7 F8 F9 F10 F11].
    assert (DT : dt s' = d) by (unfold s', callst; cbn [dt]; rewrite Ek; reflexivity).
    assert (RC : rclosed (chn (dt s) ch) = false). { destruct (rclosed (chn (dt s) ch)) eqn:RC; [|reflexivity]. destruct (K4 eq_refl) as (? & _). congruence. }
    rewrite (HR RC) in *.
    assert (RQ : forall d0, q d0 (QChan ch) = [] -> rqs ch d0 = [] /\ smsgs ch d0 = []) by (intros d0 H; unfold rqs, smsgs; rewrite H; destruct (qrecv (chn d0 ch)); auto).
    destruct (RQ _ QQ) as [RQ1 RQ2]. destruct (RQ _ Q') as [RQ3 RQ4]. rewrite RQ1 in F5. apply map_eq_nil in F5. subst Rq.
    exists V, Rsat, [], [], (NS ++ [(ncalls s, m)]), []. constructor.
    + exact F1.
    + rewrite app_nil_r. reflexivity.
    + rewrite DT, B', RQ4, map_app, F3, RQ2, !app_nil_r, app_assoc. reflexivity.
    + clear -F4 CE QQ Q' DT RE M CU U E X. induction F4 as [|p v lp lv SA F4 IH]; constructor; [|exact IH]. eapply cl_sat; [exact SA|]. intros NE NIX PE. rewrite DT, CE. split; [apply same3_refl|].
      unfold inq. rewrite DT, Q'. exact (fun z => z).
    + rewrite DT, RQ3. reflexivity.
    + constructor.
    + constructor.
    + constructor.
    + intros p IN. apply in_app_or in IN. destruct IN as [IN|[<-|[]]]; [apply cl_acc, IN|]. intros x p _. pose proof X as X0. rewrite Ek in X0. cbn [exec] in X0. injection X0 as _ X0. exact (eq_sym X0).
    + rewrite DT. intros Z. lia.
    + rewrite DT. unfold clo. rewrite CL. discriminate.
  - destruct cl_parts as (V & Rsat & Rq & Rx & F & HR). destruct F as [F1 F2 F3 F4 F5 F6 F7 F8 F9 F10 F11].
    assert (DT : dt s' = d) by (unfold s', callst; cbn [dt]; rewrite Ek; reflexivity).
    assert (RC : rclosed (chn (dt s) ch) = false). { destruct (rclosed (chn (dt s) ch)) eqn:RC; [|reflexivity]. destruct (K4 eq_refl) as (? & _). congruence. }
    rewrite (HR RC) in *.
    assert (RQ : rqs ch (dt s) = []) by (unfold rqs; destruct QD as [QD|QD]; rewrite QD; [destruct (qrecv (chn (dt s) ch))|]; reflexivity).
    rewrite RQ in F5. apply map_eq_nil in F5. subst Rq.
    assert (SQ : smsgs ch (dt s) = map (fun n => smsg (cof (dt s) (node_co n))) (q (dt s) (QChan ch))).
    { unfold smsgs. destruct QD as [QD|QD]; rewrite QD; [destruct (qrecv (chn (dt s) ch))|]; reflexivity. }
    exists V, Rsat, [], [], (NS ++ [(ncalls s, m)]), []. constructor.
    + exact F1.
    + rewrite app_nil_r. reflexivity.
    + rewrite DT, B'. unfold smsgs. rewrite QR, Q', !map_app, F3, SQ. cbn [map node_co snd]. rewrite SM, <- !app_assoc. do 2 f_equal. f_equal. apply map_ext_in. intros a IA.
      rewrite CE; [reflexivity|]. intros EC. apply NI. unfold inq. pose proof (chan_nco _ _ RE (proj1 SI) _ IA) as EA. rewrite <- EC, <- EA. exact IA.
    + clear -F4 CE Q' DT RE M CU U E X. induction F4 as [|p v lp lv SA F4 IH]; constructor; [|exact IH]. eapply cl_sat; [exact SA|]. intros NE NIX PE. rewrite DT, CE by exact NE. split; [apply same3_refl|].
      unfold inq. rewrite DT, Q'. intros IX. apply in_app_or in IX. destruct IX as [IX|[IX|[]]]; [exact (NIX IX) | congruence].
    + unfold rqs. rewrite DT, QR. reflexivity.
    + constructor.
    + constructor.
    + constructor.
    + intros p IN. apply in_app_or in IN. destruct IN as [IN|[<-|[]]]; [apply cl_acc, IN | eapply NA; exact Ef].
    + rewrite DT. intros Z. lia.
    + rewrite DT. unfold clo. rewrite CL. discriminate.
Qed.

End Call.
Lemma call_fi : forall G s c o d fs k sch md ch, reach s -> unhurt ch s -> plain_on ch (call_tr s c o fs k) -> (uses G ch c o -> canceled (cof (dt s) c) = false \/ ~ (fs = [] /\ k = CRet ECANCELED)) ->
  (uses G ch c o -> forall f, f = FSendWait ch \/ f = FRecvWait ch -> ~ cut c f (dt s) d fs k) -> (forall g, gen (cof (dt s) c) = Some g -> G c = Some g) -> gyw G s -> fi G ch s ->
  mode s = MUser -> cur (sc s) = Some c -> ustack (stk (sc s) c) -> hcall c o (now s) (dt s) = (d, fs, k) ->
  exec c k (set_stk (zupd (stk (sc s)) c (fs ++ FApi (ncalls s) o :: stk (sc s) c)) (sc s)) = (sch, md) -> fi G ch (callst s c o d fs k sch md).
Proof.
  intros G s c o d fs k sch md ch RE SI SI' CN HD GG GY FI M CU U E X.
  pose proof (SI' _ _ _ _ (call_tr_new s c o fs k)) as SO. unfold fi. unfold callst at 2 3. cbn [tr]. rewrite !live_call_tr by exact RE.
  pose proof (proj1 (reach_chinv _ RE)) as CD. pose proof (cur_notin _ _ _ RE SI CU) as NI. pose proof (chan_nco _ _ RE (proj1 SI)) as AN.
  assert (QU : recv_of ch c o = None -> put_of G ch c o = None -> step_out s c ch d ->
    fiL G (callst s c o d fs k sch md) ch (live (recv_of ch) (tr s) ++ match recv_of ch c o with Some a => [(ncalls s, a)] | None => [] end) (live (put_of G ch) (tr s) ++ match put_of G ch c o with Some a => [(ncalls s, a)] | None => [] end)).
  { intros -> -> TO. rewrite !app_nil_r. eapply call_base; eassumption. }
  assert (QC : recv_of ch c o = None -> put_of G ch c o = None -> ~ kcall c (dt s) o (QChan ch) ->
    fiL G (callst s c o d fs k sch md) ch (live (recv_of ch) (tr s) ++ match recv_of ch c o with Some a => [(ncalls s, a)] | None => [] end) (live (put_of G ch) (tr s) ++ match put_of G ch c o with Some a => [(ncalls s, a)] | None => [] end)).
  { intros A B NK. apply QU; [exact A | exact B|]. destruct (call_quiet _ _ _ _ _ _ ch RE SI (cl_newok _ _ _ FI) CU E NK) as [Q1 Q2]. apply st_quiet; assumption. }
  destruct o; try (apply QC; [reflexivity | reflexivity | intros K; first [exact K | discriminate K]]); cbn [hcall] in E.
  - (* send *) destruct (Nat.eq_dec ch0 ch) as [->|NE]; [|apply QC; [reflexivity | cbn; apply Nat.eqb_neq in NE; rewrite NE; reflexivity | cbn; congruence]].
    cbn [recv_of put_of]. rewrite Nat.eqb_refl, app_nil_r. destruct (send_eff _ _ _ _ _ _ _ _ CD AN NI (CN eq_refl) E) as [SE|SE]; [|destruct (HD eq_refl _ (or_introl eq_refl) SE)].
    eapply call_send; try eassumption; [cbn; rewrite Nat.eqb_refl; reflexivity | constructor | apply sh_send_w; constructor].
  - (* broadcast *) apply QC; [reflexivity | reflexivity | cbn; congruence].
  - (* recv *) destruct (Nat.eq_dec ch0 ch) as [->|NE]; [|apply QC; [cbn; apply Nat.eqb_neq in NE; rewrite NE; reflexivity | reflexivity | cbn; congruence]].
    cbn [recv_of put_of]. rewrite Nat.eqb_refl, app_nil_r. destruct (recv_eff _ _ _ _ _ _ _ _ CD NI (CN eq_refl) E) as [RO|RO]; [|destruct (HD eq_refl _ (or_intror eq_refl) RO)].
    eapply call_recv; try eassumption; cbn; apply Nat.eqb_refl.
  - (* tryrecv *) destruct (Nat.eq_dec ch0 ch) as [->|NE]; [|apply QC; [cbn; apply Nat.eqb_neq in NE; rewrite NE; reflexivity | reflexivity | cbn; congruence]].
    cbn [recv_of put_of]. rewrite Nat.eqb_refl, app_nil_r. destruct (recv_eff _ _ _ _ _ _ _ _ CD NI (CN eq_refl) E) as [RO|RO]; [|destruct (HD eq_refl _ (or_intror eq_refl) RO)].
    eapply call_recv; try eassumption; cbn; apply Nat.eqb_refl.
  - (* close *) destruct (Nat.eq_dec ch0 ch) as [->|NE]; [|apply QC; [reflexivity | reflexivity | cbn; congruence]].
    apply QU; [reflexivity | reflexivity|]. eapply close_step; try eassumption; try reflexivity. apply SI.
  - (* select *) apply QC; [reflexivity | reflexivity|]. intros (g & IG & EG). injection EG as <-. exact (SO IG).
  - apply QC; [reflexivity | reflexivity|]. intros (g & IG & EG). injection EG as <-. exact (SO IG).
  - (* case *) apply QU; [reflexivity | reflexivity|]. apply st_quiet.
    + unfold do_case in E. destruct (negb _) in E; [injection E as <- _ _; apply quietc_refl|]. destruct (negb _) in E; injection E as <- _ _; unfold quietc; cbn; repeat split; auto.
    + unfold do_case in E. intros x NE _. destruct (negb _) in E; [injection E as <- _ _; apply same3_refl|]. destruct (negb _) in E; injection E as <- _ _; [|rewrite upco_neq by exact NE]; apply same3_refl.
  - (* gen yield *) unfold do_genyield in E. destruct (gen (cof (dt s) c)) as [g|] eqn:GN.
    + pose proof (GG _ eq_refl) as GC. destruct (Nat.eq_dec g ch) as [->|NE].
      * cbn [recv_of put_of]. rewrite GC, Nat.eqb_refl, app_nil_r. destruct (send_eff _ _ _ _ _ _ _ _ CD AN NI (CN GC) E) as [SE|SE]; [|destruct (HD GC _ (or_introl eq_refl) SE)].
        eapply call_send; try eassumption; [cbn [hcall]; unfold do_genyield; rewrite GN; exact E | cbn; rewrite GC, Nat.eqb_refl; reflexivity | constructor | eapply sh_gy_w; constructor].
      * apply QC; [reflexivity | cbn; rewrite GC; apply Nat.eqb_neq in NE; rewrite NE; reflexivity|]. cbn. intros (g' & A & B). rewrite GN in A. congruence.
    + injection E as <- <- <-. cbn [recv_of]. rewrite app_nil_r.
      assert (TO : step_out s c ch (dt s)) by (apply st_quiet; [apply quietc_refl | intros x _ _; apply same3_refl]).
      assert (E : hcall c (OpGenYield m dl) (now s) (dt s) = (dt s, [], CRet ENOTGENERATOR)) by (cbn [hcall]; unfold do_genyield; rewrite GN; reflexivity).
      destruct (put_of G ch c (OpGenYield m dl)) as [a|] eqn:P; [|rewrite app_nil_r; eapply call_base; eassumption].
      apply fi_addS; [eapply call_base; eassumption|]. exists c, (OpGenYield m dl), a. cbn [fst]. split; [eapply (cl_own s c (OpGenYield m dl) (dt s) []); try eassumption; [discriminate | constructor]|]. split; [exact P|].
      exists ENOTGENERATOR. pose proof X as X0. cbn [exec] in X0. injection X0 as _ <-. split; [reflexivity|]. split; discriminate.
  - (* cond wait *) apply QC; [reflexivity | reflexivity|]. cbn. intros [K|K]; discriminate K.
  - (* exit *) destruct (gen (cof (dt s) c)) as [g|] eqn:GN; [destruct (Nat.eq_dec g ch) as [->|NE]|].
    + apply QU; [reflexivity | reflexivity|]. eapply async_step; try eassumption. apply SI.
    + apply QC; [reflexivity | reflexivity|]. cbn. intros [K|[K|(g' & A & K)]]; try discriminate K. rewrite GN in A. congruence.
    + apply QC; [reflexivity | reflexivity|]. cbn. intros [K|[K|(g' & A & K)]]; try discriminate K. rewrite GN in A. congruence.
Qed.
