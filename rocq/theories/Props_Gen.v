(** C25: generators. neco_gen_next, neco_gen_close are neco_chan_recv, neco_chan_close on
    the generator's handle (/repo/neco.c:8584-8612), so they appear here as [OpRecv],
    [OpTryRecv] (no API name of its own) and [OpClose]. *)
From Coq Require Import List ZArith Bool Lia Permutation.
From Verif Require Import AATreeSpec AATreeHist Util Runtime SchedInv StepInv StackShape RuntimeSpec TraceInv Immediate Prims StaticInv Footprint QueueInv OwnInv WaitInv CallInv SpecInv TraceStep Wake Awake DeadlineInv AllInv PausedInv ResultInv JoinInv WaiterInv DldInv CancelInv CancelOrd CancelSt MutexEff MutexTok MutexRt MutexOrd AtCall WgInv ChanShape ChanSpec ChanLists ChanEff ChanQuiet ChanFifo ChanLeak ChanProv ChanStatic GenInv ChanOrder BlockSpec Promise OneStep Stuck Scripts Props_Mutex Props_Chan.
Import ListNotations.
Local Open Scope Z_scope.

(** ** Specification *)
(** [g] is the handle a neco_gen_start call has returned, [y] the coroutine that call
    has started *)
Definition generator (s : state) (g : nat) (y : Z) : Prop :=
  exists k c t, In (TRet k c OpGenStart OK (Z.of_nat g) t) (tr s) /\ started_by (tr s) k c y.
(** what [y] yields *)
Definition yield_of (y x : Z) (o : op) : option Z := match o with OpGenYield m _ => if x =? y then Some m else None | _ => None end.
(** the neco_gen_yield calls of [y] that have not failed, in the order of the calls *)
Definition yields (y : Z) (t : list obs) : list (nat * Z) := live (yield_of y) t.
(** cancels have no deadlines and spare [y] and everyone who calls neco_gen_next; the
    generator is used only through neco_gen_next, neco_gen_yield and neco_gen_close,
    without deadlines *)
Definition plain_use (g : nat) (y : Z) (t : list obs) : Prop :=
  (nofincancel t /\ spared t y /\ forall k c o tm, In (TCall k c o tm) t -> match o with OpRecv ch _ | OpTryRecv ch => ch = g -> spared t c | _ => True end) /\
  forall k c o tm, In (TCall k c o tm) t ->
    match o with
    | OpRecv ch dl => ch = g -> dl = MAXI
    | OpGenYield _ dl => c = y -> dl = MAXI
    | OpSend ch _ _ | OpBcast ch _ => ch <> g
    | OpSelect chs _ | OpTrySelect chs => ~ In g chs
    | _ => True
    end.
(** or: the generator is used only through neco_gen_next, neco_gen_yield and
    neco_gen_close, and every next and every yield has returned with another result than
    NECO_CANCELED and NECO_TIMEDOUT, or its coroutine is still in that call (deadlines may
    be given and anyone may be canceled, as long as none of these calls fails by it) *)
Definition unfailing_use (g : nat) (y : Z) (s : state) : Prop :=
  (forall k c o tm, In (TCall k c o tm) (tr s) -> match o with OpSend ch _ _ | OpBcast ch _ => ch <> g | OpSelect chs _ | OpTrySelect chs => ~ In g chs | _ => True end) /\
  forall k x o tm, In (TCall k x o tm) (tr s) -> (exists m dl, o = OpGenYield m dl /\ x = y) \/ (exists dl, o = OpRecv g dl) \/ o = OpTryRecv g ->
    (exists r v t, In (TRet k x o r v t) (tr s) /\ r <> ECANCELED /\ r <> ETIMEDOUT) \/ exists w, at_call s x w k o.
Definition orderly_use (g : nat) (y : Z) (s : state) : Prop := plain_use g y (tr s) \/ (settled s /\ unfailing_use g y s).

(** the generator is used only through neco_gen_next, neco_gen_yield and neco_gen_close *)
Definition gen_use (g : nat) (t : list obs) : Prop :=
  forall k c o tm, In (TCall k c o tm) t -> match o with OpSend ch _ _ | OpBcast ch _ => ch <> g | OpSelect chs _ | OpTrySelect chs => ~ In g chs | _ => True end.
(** the values of all neco_gen_yield calls of [y], whatever they returned *)
Definition yielded (y : Z) (t : list obs) : list Z :=
  flat_map (fun z => match z with TCall _ x (OpGenYield m _) _ => if x =? y then [m] else [] | _ => [] end) t.

(** ** Coroutines are started by neco_start and neco_gen_start only *)
Ltac nsp E := repeat (cbv zeta in E; match type of E with
  | (_, _, _) = (_, _, _) => injection E as <- <- <-; try discriminate; try congruence
  | copause _ _ _ _ = _ => let H := fresh in apply copause_cases in E; destruct E as [H|H]; decompose [and] H; subst; discriminate
  | yfsr _ _ = _ => let H := fresh in apply yfsr_cases in E; decompose [and] E; subst; discriminate
  | (match ?x with _ => _ end) = _ => destruct x eqn:?
  | (if ?x then _ else _) = _ => destruct x eqn:?
  | (let '(_, _) := ?x in _) = _ => destruct x eqn:?
  | ?f _ = _ => unfold f in E
  | ?f _ _ = _ => unfold f in E
  | ?f _ _ _ = _ => unfold f in E
  | ?f _ _ _ _ = _ => unfold f in E
  | ?f _ _ _ _ _ = _ => unfold f in E
  | ?f _ _ _ _ _ _ = _ => unfold f in E
  end).
Lemma hcall_spawn : forall c o nw d d' fs k g, hcall c o nw d = (d', fs, k) -> k = CSpawn g -> fs = [] /\ (if g then o = OpGenStart else o = OpStart).
Proof.
  intros c o nw d d' fs k g E Q. destruct o; cbn [hcall] in E.
  all: try (injection E as <- <- <-; injection Q as <-; auto; fail).
  all: exfalso; revert g Q; nsp E.
  all: match goal with H : do_close _ _ = _ |- _ => apply do_close_cases in H; destruct H as [(_ & ? & ->)|(-> & _)]; discriminate end.
Qed.
Lemma hret_nospawn : forall c f v b nw d d' fs k g, hret c f v b nw d = (d', fs, k) -> k <> CSpawn g.
Proof. intros c f v b nw d d' fs k g E. revert g. destruct f; cbn [hret] in E; nsp E.
  all: try match goal with H : do_close _ _ = _ |- _ => apply do_close_cases in H; destruct H as [(_ & ? & ->)|(-> & _)]; discriminate end.
Qed.

(** ** From the invariant of channels *)
Lemma started_by_one : forall t k c c' y y', NoDup (callnos t) -> started_by t k c y -> started_by t k c' y' -> y = y'.
Proof.
  intros t k c c' y y' ND (l1 & l2 & tm & E1) (m1 & m2 & tm' & E2). revert l1 m1 E1 E2. induction t as [|z t IH]; intros l1 m1 E1 E2; [destruct l1; discriminate E1|].
  destruct l1 as [|u l1], m1 as [|u' m1]; cbn [app] in *.
  - congruence.
  - exfalso. injection E1 as -> E1. injection E2 as <- E2. rewrite E1 in E2, ND. clear E1. change (NoDup (k :: callnos l2)) in ND. apply NoDup_cons_iff in ND. destruct ND as [N _].
    destruct m1 as [|u m1]; cbn [app] in E2; [discriminate E2|]. injection E2 as <- E2. apply N, In_callnos. exists c', OpGenStart, tm'. rewrite E2. apply in_or_app. right. right. left. reflexivity.
  - exfalso. injection E2 as -> E2. injection E1 as <- E1. rewrite E2 in E1, ND. clear E2. change (NoDup (k :: callnos m2)) in ND. apply NoDup_cons_iff in ND. destruct ND as [N _].
    destruct l1 as [|u l1]; cbn [app] in E1; [discriminate E1|]. injection E1 as <- E1. apply N, In_callnos. exists c, OpGenStart, tm. rewrite E1. apply in_or_app. right. right. left. reflexivity.
  - injection E1 as <- E1. injection E2 as <- E2. eapply IH; [|exact E1|exact E2]. destruct z; try exact ND. apply NoDup_cons_iff in ND. apply ND.
Qed.
Lemma gen_map : forall s g y, reach s -> generator s g y -> exists G, ginv G s /\ G y = Some g /\
  forall ch, good G ch s -> ordered G ch (tr s) /\ (~ over (mode s) -> fi G ch s).
Proof.
  intros s g y RE (k & c & t & IN & SB). destruct (reach_chans _ RE) as (G & GI & H & _). exists G. split; [exact GI|]. split; [|exact H].
  destruct (g5 _ _ GI _ _ _ _ IN) as (g' & y' & E & GY & SB'). apply Nat2Z.inj in E. subst g'. rewrite (started_by_one _ _ _ _ _ _ (ci_uc _ (reach_cinv _ RE)) SB SB'). exact GY.
Qed.
Lemma use_simple : forall G s g y, ginv G s -> G y = Some g -> plain_use g y (tr s) -> simple_on G g (tr s).
Proof.
  intros G s g y GI GY [(N0 & NY & N1) N2]. split.
  { split; [exact N0|]. intros k c o tm IN U. pose proof (N1 _ _ _ _ IN) as H1. pose proof (N2 _ _ _ _ IN) as H2. destruct o; cbn in U; try contradiction; try (apply H1; exact U).
    replace c with y; [exact NY|]. symmetry. eapply g6; eassumption. }
  intros k c o tm IN. specialize (N2 _ _ _ _ IN). destruct o; try exact N2.
  - intros E. destruct (N2 E).
  - intros E. apply N2. eapply g6; eassumption.
Qed.
Lemma use_good : forall G s g y, reach s -> ginv G s -> G y = Some g -> orderly_use g y s -> good G g s.
Proof.
  intros G s g y RE GI GY [PU|(SE & N2 & H)]; [left; eapply use_simple; eassumption|]. right. apply unfailing_sound; auto.
  - intros k c o tm IN. specialize (N2 _ _ _ _ IN). destruct o; auto.
  - intros k x o tm IN U. apply (H _ _ _ _ IN). pose proof (N2 _ _ _ _ IN) as Q. destruct o; cbn in U; try contradiction; try (subst; eauto 8; fail). left. do 2 eexists. split; [reflexivity|]. eapply g6; eassumption.
Qed.
Lemma use_nosend : forall g y s, orderly_use g y s -> forall k c ch m dl tm, In (TCall k c (OpSend ch m dl) tm) (tr s) -> ch <> g.
Proof. intros g y s [[_ H]|(_ & H & _)] k c ch m dl tm IN; exact (H _ _ _ _ IN). Qed.
Lemma use_puts : forall G s g y, ginv G s -> G y = Some g -> orderly_use g y s -> live (put_of G g) (tr s) = yields y (tr s).
Proof.
  intros G s g y GI GY PU. pose proof (use_nosend _ _ _ PU) as N2. apply live_ext. intros k c o tm IN. destruct o; try reflexivity; cbn.
  - specialize (N2 _ _ _ _ _ _ IN). destruct (Nat.eqb_spec ch g); [contradiction | reflexivity].
  - destruct (Z.eqb_spec c y) as [->|NE]; [rewrite GY, Nat.eqb_refl; reflexivity|]. destruct (G c) as [g'|] eqn:EG; [|reflexivity].
    destruct (Nat.eqb_spec g' g) as [->|]; [destruct NE; eapply g6; eassumption | reflexivity].
Qed.

(** ** C25 *)
(** The n-th neco_gen_next (not counting those that failed) obtains the value of the
    n-th neco_gen_yield of the generator's coroutine. *)
Theorem C25_order_partial : forall s g y, reach s -> generator s g y -> orderly_use g y s ->
  forall k c o v t, In (TRet k c o OK v t) (tr s) -> is_recv g o ->
  exists i j, nth_error (receives g (tr s)) i = Some (k, c) /\ nth_error (yields y (tr s)) i = Some (j, v).
Proof.
  intros s g y RE GE PU k c o v t IN IS. destruct (gen_map _ _ _ RE GE) as (G & GI & GY & H). destruct (H g (use_good _ _ _ _ RE GI GY PU)) as [OR _].
  destruct (OR _ _ _ _ _ IN (proj1 (is_recv_isr _ _) IS)) as (i & j & A & B). exists i, j. split; [exact A|]. rewrite <- (use_puts _ _ _ _ GI GY PU). exact B.
Qed.
(** No value is obtained twice: positions belong to different calls. *)
Theorem C25_once : forall s g y, reach s -> NoDup (map fst (receives g (tr s))) /\ NoDup (map fst (yields y (tr s))).
Proof. intros s g y RE. split; apply nodup_keep, nodup_calls, (ci_uc _ (reach_cinv _ RE)). Qed.

(** Whatever is canceled, times out or fails: the values neco_gen_next has obtained are
    among those the generator's coroutine has yielded, each as often as it was yielded. *)
Lemma yielded_given : forall G g y t, (forall x, G x = Some g <-> x = y) -> gen_use g t -> Permutation (given G g t) (yielded y t).
Proof.
  intros G g y t GY. unfold given. induction t as [|z t IH]; intros GU; [constructor|].
  assert (IH' : Permutation (map snd (calls_of (put_of G g) t)) (yielded y t)) by (apply IH; intros k c o tm IN; apply (GU k c o tm); right; exact IN). clear IH.
  destruct z; try exact IH'. cbn [calls_of]. rewrite map_app. rewrite Permutation_app_comm.
  change (yielded y (TCall k c o t0 :: t)) with (match o with OpGenYield m _ => if c =? y then [m] else [] | _ => [] end ++ yielded y t). apply Permutation_app; [|exact IH'].
  specialize (GU _ _ _ _ (or_introl eq_refl)). destruct o; cbn; try constructor.
  - destruct (Nat.eqb_spec ch g); [contradiction | constructor].
  - destruct (Z.eqb_spec c y) as [->|NE]; [rewrite (proj2 (GY y) eq_refl), Nat.eqb_refl; repeat constructor|]. destruct (G c) as [g'|] eqn:EG; [|constructor].
    destruct (Nat.eqb_spec g' g) as [->|]; [destruct NE; apply GY, EG | constructor].
Qed.
Theorem C25_source : forall s g y, reach s -> generator s g y -> gen_use g (tr s) ->
  exists rest, Permutation (received g (tr s) ++ rest) (yielded y (tr s)).
Proof.
  intros s g y RE (k & c & t & IN & SB) GU. destruct (reach_chans _ RE) as (G & GI & _ & H).
  assert (GY : G y = Some g).
  { destruct (g5 _ _ GI _ _ _ _ IN) as (g' & y' & E & GY & SB'). apply Nat2Z.inj in E. subst g'. rewrite (started_by_one _ _ _ _ _ _ (ci_uc _ (reach_cinv _ RE)) SB SB'). exact GY. }
  assert (PL : plain_on g (tr s)) by (intros k' c' o tm IN'; specialize (GU _ _ _ _ IN'); destruct o; auto).
  destruct (H g PL) as [(rest & P) _]. exists rest. rewrite received_got, P. apply yielded_given; [|exact GU]. intros x. split; [intros E; eapply g6; eassumption | intros ->; exact GY].
Qed.

(** the invariant when nobody's call is just returning *)
Lemma gen_fi : forall s g y, reach s -> generator s g y -> orderly_use g y s -> settled s ->
  isch (dt s) g /\ exists V Rsat Rq Rx, fiW (fun _ => None) s g (receives g (tr s)) (yields y (tr s)) V Rsat Rq Rx (yields y (tr s)) [].
Proof.
  intros s g y RE GE PU [NO ST]. destruct (gen_map _ _ _ RE GE) as (G & GI & GY & H). destruct (H g (use_good _ _ _ _ RE GI GY PU)) as [_ FI].
  split; [apply (g7 _ _ GI _ _ GY)|]. destruct (FI NO) as (V & Rsat & Rq & Rx & Sacc & Sx & F). rewrite (use_puts _ _ _ _ GI GY PU) in F. exists V, Rsat, Rq, Rx.
  pose proof (no_sx _ _ _ _ ST (f_sx _ _ _ _ _ _ _ _ _ _ _ F)) as ->. pose proof (f_s _ _ _ _ _ _ _ _ _ _ _ F) as Q. rewrite app_nil_r in Q. rewrite <- Q in F. clear Q Sacc.
  destruct F as [F1 F2 F3 F4 F5 F6 F7 F8 F9 F10 F11]. constructor; auto.
Qed.
Lemma gen_count : forall s g NR NS V Rsat Rq Rx, fiW (fun _ => None) s g NR NS V Rsat Rq Rx NS [] -> settled s ->
  length NS = (length Rsat + length (buf (chn (dt s) g)) + length (smsgs g (dt s)))%nat /\
  length NR = (length Rsat + length (rqs g (dt s)) + length Rx)%nat /\ (Rx <> [] -> rclosed (chn (dt s) g) = true).
Proof.
  intros s g NR NS V Rsat Rq Rx F [_ ST]. split; [|split].
  - assert (E : length (map snd NS) = length (V ++ buf (chn (dt s) g) ++ smsgs g (dt s))) by (rewrite (f_v _ _ _ _ _ _ _ _ _ _ _ F); reflexivity).
    rewrite map_length, !app_length in E. rewrite (forall2_len _ _ _ _ _ (f_sat _ _ _ _ _ _ _ _ _ _ _ F)). lia.
  - rewrite (f_r _ _ _ _ _ _ _ _ _ _ _ F), <- (f_q _ _ _ _ _ _ _ _ _ _ _ F), !app_length, map_length. lia.
  - destruct Rx as [|p l]; [congruence|]. intros _. pose proof (f_x _ _ _ _ _ _ _ _ _ _ _ F) as FX. inversion FX as [|p' l' (w & o & _ & _ & [(_ & r & MR & _)|(_ & _ & _ & R)])]; [destruct (ST _ MR) | exact R].
Qed.
(** Nothing is lost: if more yields than nexts have been made, neco_gen_next goes ahead
    with NECO_OK (and by [C25_order_partial] returns the value with its position). *)
Theorem C25_next_partial : forall s g y c o, reach s -> generator s g y -> orderly_use g y s -> mode s = MUser -> cur (sc s) = Some c -> spared (tr s) c ->
  (length (receives g (tr s)) < length (yields y (tr s)))%nat -> is_recv g o -> goes_ahead (step s (ECall o)) c (ncalls s) OK.
Proof.
  intros s g y c o RE GE PU MU CU SPC LT OO. assert (SE : settled s) by (split; rewrite MU; [exact (fun z => z) | discriminate]).
  destruct (gen_fi _ _ _ RE GE PU SE) as (IC & V & Rsat & Rq & Rx & F). destruct (gen_count _ _ _ _ _ _ _ _ F SE) as (C1 & C2 & C3).
  pose proof (proj1 (reach_chinv _ RE)) as D. pose proof (isch_chk _ _ D IC) as CK.
  assert (AV : buf (chn (dt s) g) <> [] \/ (qrecv (chn (dt s) g) = false /\ q (dt s) (QChan g) <> [])).
  { destruct (buf (chn (dt s) g)) as [|b0 b1] eqn:EB; [right | left; discriminate]. cbn in C1. unfold smsgs in C1. destruct (qrecv (chn (dt s) g)); [cbn in C1; lia|]. split; [reflexivity|]. intros EQ. rewrite EQ in C1. cbn in C1. lia. }
  assert (RC : rclosed (chn (dt s) g) = false). { destruct (rclosed (chn (dt s) g)) eqn:R; [|reflexivity]. destruct (ck_rc _ _ (proj1 D g) R) as (_ & B & Q). exfalso. destruct AV as [H|[_ H]]; congruence. }
  assert (CA : canceled (cof (dt s) c) = false) by (apply spared_flag; assumption).
  assert (HO : exists try dl, hcall c o (now s) (dt s) = do_recv c g try dl (dt s)) by (destruct o; try destruct OO; subst; cbn [hcall]; eauto). destruct HO as (try & dl & HO).
  assert (HH : exists d fs k, hcall c o (now s) (dt s) = (d, fs, k) /\ ((fs = [] /\ k = CRet OK) \/ (quick OK fs /\ (k = CYield \/ (exists y, k = CResume y) \/ exists r, k = CRet r)))).
  { rewrite HO. unfold do_recv. rewrite CK, RC, CA. destruct (take g (dt s)) as [[[m [z|]] d1]|] eqn:TK.
    - do 3 eexists. split; [reflexivity|]. right. split; [apply qk_recv; reflexivity | eauto].
    - do 3 eexists. split; [reflexivity|]. auto.
    - destruct (take_none _ _ D TK) as [B [Q|Q]]; exfalso; destruct AV as [H|[H1 H2]]; congruence. }
  destruct HH as (d & fs & k & E & FK). apply (promise_goes OK s c o d fs k); auto; destruct o; try destruct OO; (discriminate || exact (fun z => z)).
Qed.
(** When the generator's coroutine has terminated, its channel is closed *)
Lemma gen_shut : forall s g y, reach s -> generator s g y -> In (TExit y) (tr s) -> sclosed (chn (dt s) g) = true.
Proof.
  intros s g y RE GE EX. destruct (gen_map _ _ _ RE GE) as (G & GI & GY & _). destruct (g7 _ _ GI _ _ GY) as (_ & _ & [H|H] & _); [|apply H].
  rewrite (gx_exit _ (reach_gx _ RE)) in H by (apply exited_In, EX). discriminate H.
Qed.
(** ... and when all its values were obtained, neco_gen_next fails with NECO_CLOSED ... *)
Theorem C25_closed_partial : forall s g y c o, reach s -> generator s g y -> orderly_use g y s -> In (TExit y) (tr s) -> mode s = MUser -> cur (sc s) = Some c ->
  (length (yields y (tr s)) <= length (receives g (tr s)))%nat -> is_recv g o -> goes_ahead (step s (ECall o)) c (ncalls s) ECLOSED.
Proof.
  intros s g y c o RE GE PU EX MU CU LE IS. assert (SE : settled s) by (split; rewrite MU; [exact (fun z => z) | discriminate]).
  pose proof (gen_shut _ _ _ RE GE EX) as SC. pose proof (proj1 (reach_chinv _ RE)) as D.
  destruct (gen_fi _ _ _ RE GE PU SE) as (IC & V & Rsat & Rq & Rx & F). destruct (gen_count _ _ _ _ _ _ _ _ F SE) as (C1 & C2 & C3).
  assert (RC : rclosed (chn (dt s) g) = true).
  { destruct (rclosed (chn (dt s) g)) eqn:RC; [reflexivity|]. assert (RX : Rx = []) by (destruct Rx; [reflexivity | discriminate (C3 ltac:(discriminate))]). rewrite RX in C2. cbn in C2. unfold smsgs, rqs in *.
    destruct (f_clo _ _ _ _ _ _ _ _ _ _ _ F SC) as [R|[B|[Q QR]]]; [congruence | |].
    - exfalso. destruct (qrecv (chn (dt s) g)) eqn:QR.
      + destruct (q (dt s) (QChan g)) as [|z l] eqn:Q0; [destruct (buf (chn (dt s) g)); [congruence | cbn in *; lia]|]. apply B. apply (ck_recv _ _ (proj1 D g)); [rewrite Q0; discriminate | exact QR].
      + destruct (buf (chn (dt s) g)); [congruence | cbn in *; lia].
    - exfalso. rewrite QR in *. destruct (q (dt s) (QChan g)); [congruence | cbn in *; lia]. }
  pose proof (isch_chk _ _ D IC) as CK.
  assert (E : hcall c o (now s) (dt s) = (dt s, [], CRet ECLOSED)) by (destruct o; try destruct IS; subst; cbn [hcall]; unfold do_recv; rewrite CK, RC; reflexivity).
  apply (promise_goes ECLOSED s c o (dt s) [] (CRet ECLOSED)); auto; destruct o; try destruct IS; (discriminate || exact (fun z => z)).
Qed.
(** ... and nobody stays blocked in neco_gen_next. *)
Theorem C25_nexts_resume_partial : forall s g y x k dl, reach s -> settled s -> generator s g y -> orderly_use g y s -> In (TExit y) (tr s) ->
  blocked s x k (OpRecv g dl) -> to_resume s x.
Proof.
  intros s g y x k dl RE SE GE PU EX B. destruct (chan_blocked _ _ _ _ g RE B eq_refl) as [D|[IN QR]]; [exact D|]. cbn in QR. exfalso.
  pose proof (gen_shut _ _ _ RE GE EX) as SC. pose proof (proj1 (proj1 (reach_chinv _ RE)) g) as CO. assert (QN : q (dt s) (QChan g) <> []) by (intros Q; rewrite Q in IN; destruct IN).
  destruct (gen_fi _ _ _ RE GE PU SE) as (IC & V & Rsat & Rq & Rx & F). destruct (f_clo _ _ _ _ _ _ _ _ _ _ _ F SC) as [R|[BN|[_ Q]]]; [| |congruence].
  - apply QN, (ck_rc _ _ CO R).
  - apply BN, (ck_recv _ _ CO QN QR).
Qed.

(** Only a coroutine started by neco_gen_start can yield. *)
Definition gmade (s : state) : Prop := forall x g, gen (cof (dt s) x) = Some g -> exists k c, started_by (tr s) k c x.
Lemma sb_app : forall l t k c x, started_by t k c x -> started_by (l ++ t) k c x.
Proof. intros l t k c x (l1 & l2 & tm & ->). exists (l ++ l1), l2, tm. rewrite app_assoc. reflexivity. Qed.
Theorem reach_gmade : forall s, reach s -> gmade s.
Proof.
  apply rrun_preserves.
  - intros s c o d fs k sch md RE I M CU U NR E X x g H. cbn [dt tr] in *. pose proof (hcall_prims _ _ _ _ _ _ _ E) as P.
    destruct (Z.eq_dec x (nextid (sc s) + 1)) as [->|NE].
    + assert (CS : (exists b, k = CSpawn b) \/ gen (cof d (nextid (sc s) + 1)) = Some g) by (destruct k; eauto). destruct CS as [(b & ->)|H0].
      * destruct (spawn_gen2 _ _ _ _ _ _ RE P H) as (-> & _). destruct (hcall_spawn _ _ _ _ _ _ _ _ E eq_refl) as [-> ->]. exists (ncalls s), c, [], (tr s), (now s). reflexivity.
      * apply (prims_gen _ _ _ P), I in H0. destruct H0 as (k0 & c0 & SB). exists k0, c0. rewrite !app_assoc. apply sb_app, SB.
    + rewrite ctl_gen in H by exact NE. apply (prims_gen _ _ _ P), I in H. destruct H as (k0 & c0 & SB). exists k0, c0. rewrite !app_assoc. apply sb_app, SB.
  - intros s c v f rest b d fs k sch md RE I M CU SK L E X x g H. cbn [dt tr] in *. pose proof (hret_prims _ _ _ _ _ _ _ _ _ E) as P.
    assert (H0 : gen (cof d x) = Some g) by (destruct k; try exact H; destruct (hret_nospawn _ _ _ _ _ _ _ _ _ _ E eq_refl)).
    apply (prims_gen _ _ _ P), I in H0. destruct H0 as (k0 & c0 & SB). exists k0, c0. rewrite !app_assoc. apply sb_app, SB.
  - intros s d ws sch md ios RE I M A K X x g H. cbn [dt tr] in *. apply (I x g). rewrite <- H.
    assert (C : forall dd d', mprims dd d' -> gen (cof d' x) = gen (cof dd x)).
    { clear. intros dd d' P. induction P; [auto|]. rewrite <- IHP. destruct H; cbn; auto; unfold zupd; destruct (Z.eqb_spec x c); subst; auto. }
    symmetry. apply C, (mp_main _ _ _ _ _ _ _ K).
  - intros s m RE I _. exact I.
  - intros s e RE I H M x g HG. rewrite (env_cof s e H) in HG. apply I in HG. destruct (env_tr s e H) as [->|(y & ->)]; [exact HG|]. destruct HG as (k0 & c0 & SB). exists k0, c0. apply (sb_app [_]), SB.
  - intros g O x v H. cbn in H. unfold zupd in H. destruct (_ =? _); discriminate H.
Qed.
Theorem C25_only_generators : forall s c m dl b, reach s -> mode s = MUser -> cur (sc s) = Some c -> (forall k p, ~ started_by (tr s) k p c) ->
  let s' := step (step s (ECall (OpGenYield m dl))) (ETick b) in
  dt s' = dt s /\ exists v, tr s' = TRet (ncalls s) c (OpGenYield m dl) ENOTGENERATOR v (now s) :: TCall (ncalls s) c (OpGenYield m dl) (now s) :: tr s.
Proof.
  intros s c m dl b RE M CU N s'.
  assert (GN : gen (cof (dt s) c) = None). { destruct (gen (cof (dt s) c)) as [g|] eqn:EG; [|reflexivity]. destruct (reach_gmade _ RE _ _ EG) as (k & p & SB). destruct (N _ _ SB). }
  assert (E : hcall c (OpGenYield m dl) (now s) (dt s) = (dt s, [], CRet ENOTGENERATOR)) by (cbn [hcall]; unfold do_genyield; rewrite GN; reflexivity).
  pose proof (call_returns s c (OpGenYield m dl) (dt s) ENOTGENERATOR b RE M CU) as CR. cbv zeta in CR. unfold s'. clear s'.
  set (z := step (step s (ECall (OpGenYield m dl))) (ETick b)) in *. clearbody z.
  destruct CR as (A & A2 & _ & B & C & D); [split; discriminate | discriminate | exact E|]. split; [exact A2|]. eexists. exact D.
Qed.

(** ** Without the restriction *)
(** A consumer canceled after a value was handed to it loses the value: the generator's
    yield returned NECO_OK, its coroutine has ended, every neco_gen_next has failed, the
    last one with NECO_CLOSED. *)
Definition ex25r : state := script [ECall OpGenStart; ECall OpYield; ECall OpStart; ECall (OpRecv 0 MAXI); ECall OpYield; ECall (OpGenYield 42 MAXI); ECall (OpCancel 3 MAXI); ECall OpReturn; ECall OpReturn; ECall (OpRecv 0 MAXI); ECall OpYield].
Theorem C25_lost_refuted : exists s g y k v t j c, reach s /\ generator s g y /\
  In (TRet k y (OpGenYield 42 MAXI) OK v t) (tr s) /\ In (TExit y) (tr s) /\
  In (TRet j c (OpRecv g MAXI) ECLOSED 0 t) (tr s) /\
  forall i x o r w u, In (TRet i x o r w u) (tr s) -> is_recv g o -> r <> OK.
Proof.
  exists ex25r, 0%nat, 2, 5%nat, 0, 1000, 7%nat, 1. split; [apply script_reach|].
  split. { exists 0%nat, 1, 1000. split; [vm_compute; tauto|]. exists (firstn (length (tr ex25r) - 3) (tr ex25r)), [TStart 0 1], 1000. vm_compute. reflexivity. }
  split; [vm_compute; tauto|]. split; [vm_compute; tauto|]. split; [vm_compute; tauto|].
  assert (B : forallb (fun z => match z with TRet _ _ (OpRecv _ _) r _ _ | TRet _ _ (OpTryRecv _) r _ _ => negb (r =? OK) | _ => true end) (tr ex25r) = true) by (vm_compute; reflexivity).
  rewrite forallb_forall in B. intros i x o r w u IN IS ->. specialize (B _ IN). destruct o; try destruct IS; cbn in B; discriminate B.
Qed.

(** ** Examples *)
Definition plainb (g : nat) (y : Z) (t : list obs) : bool := forallb (fun z => match z with
  | TCall _ _ (OpCancel _ dl) _ => dl =? MAXI
  | TCall _ _ (OpRecv ch dl) _ => negb (Nat.eqb ch g) || (dl =? MAXI)
  | TCall _ c (OpGenYield _ dl) _ => negb (c =? y) || (dl =? MAXI)
  | TCall _ _ (OpSend ch _ _) _ | TCall _ _ (OpBcast ch _) _ => negb (Nat.eqb ch g)
  | TCall _ _ (OpSelect gs _) _ | TCall _ _ (OpTrySelect gs) _ => negb (existsb (Nat.eqb g) gs)
  | _ => true end) t && sparedb t y &&
  forallb (fun z => match z with TCall _ c (OpRecv ch _) _ | TCall _ c (OpTryRecv ch) _ => negb (Nat.eqb ch g) || sparedb t c | _ => true end) t.
Lemma plainb_ok : forall g y t, plainb g y t = true -> plain_use g y t.
Proof.
  intros g y t H. unfold plainb in H. apply andb_true_iff in H. destruct H as [H H2]. apply andb_true_iff in H. destruct H as [H H1]. rewrite forallb_forall in H, H2. split.
  - split; [intros k c id dl tm IN; specialize (H _ IN); apply Z.eqb_eq, H|]. split; [apply sparedb_ok, H1|]. intros k c o tm IN. specialize (H2 _ IN).
    destruct o; try exact Logic.I; intros ->; rewrite Nat.eqb_refl in H2; apply sparedb_ok, H2.
  - intros k c o tm IN. specialize (H _ IN). destruct o; cbn in H; auto.
    + intros ->. rewrite Nat.eqb_refl in H. discriminate H.
    + intros ->. rewrite Nat.eqb_refl in H. discriminate H.
    + intros ->. rewrite Nat.eqb_refl in H. apply Z.eqb_eq, H.
    + intros I0. apply negb_true_iff in H. rewrite (proj2 (existsb_exists _ _)) in H; [discriminate H|]. exists g. split; [exact I0 | apply Nat.eqb_refl].
    + intros I0. apply negb_true_iff in H. rewrite (proj2 (existsb_exists _ _)) in H; [discriminate H|]. exists g. split; [exact I0 | apply Nat.eqb_refl].
    + intros ->. rewrite Z.eqb_refl in H. apply Z.eqb_eq, H.
Qed.
(** two yields, one next: the next one goes ahead *)
Definition ex25a : state := script [ECall OpGenStart; ECall (OpGenYield 41 MAXI); ECall (OpRecv 0 MAXI); ECall (OpGenYield 42 MAXI); ECall OpStart; ECall OpYield].
Example C25_example : reach ex25a /\ generator ex25a 0 2 /\ plain_use 0 2 (tr ex25a) /\ mode ex25a = MUser /\ cur (sc ex25a) = Some 1 /\
  In (TRet 2 1 (OpRecv 0 MAXI) OK 41 1000) (tr ex25a) /\ receives 0 (tr ex25a) = [(2%nat, 1)] /\ yields 2 (tr ex25a) = [(1%nat, 41); (3%nat, 42)] /\
  goes_ahead (step ex25a (ECall (OpRecv 0 MAXI))) 1 6 OK.
Proof.
  assert (A : reach ex25a) by apply script_reach.
  assert (B : generator ex25a 0 2). { exists 0%nat, 1, 1000. split; [vm_compute; tauto|]. exists (firstn 10 (tr ex25a)), [TStart 0 1], 1000. vm_compute. reflexivity. }
  assert (C : plain_use 0 2 (tr ex25a)) by (apply plainb_ok; vm_compute; reflexivity).
  assert (D : receives 0 (tr ex25a) = [(2%nat, 1)]) by (vm_compute; reflexivity).
  assert (E : yields 2 (tr ex25a) = [(1%nat, 41); (3%nat, 42)]) by (vm_compute; reflexivity).
  split; [exact A|]. split; [exact B|]. split; [exact C|]. split; [vm_compute; reflexivity|]. split; [vm_compute; reflexivity|]. split; [vm_compute; tauto|]. split; [exact D|]. split; [exact E|].
  apply (C25_next_partial ex25a 0 2 1 (OpRecv 0 MAXI)); try assumption; [left; exact C | vm_compute; reflexivity | vm_compute; reflexivity | apply sparedb_ok; vm_compute; reflexivity | rewrite D, E; cbn; lia | cbn; auto].
Qed.
(** yields and nexts with deadlines; 2 is canceled while it is suspended *)
Definition ex25u : state := script [ECall OpGenStart; ECall (OpGenYield 41 5000); ECall (OpRecv 0 9000); ECall (OpSuspend MAXI); ECall (OpCancel 2 7000); ECall OpYield].
Definition ex25ut : list obs := [TRet 5 2 OpYield OK 0 1000; TCall 5 2 OpYield 1000; TRet 3 2 (OpSuspend MAXI) ECANCELED 0 1000; TCall 4 1 (OpCancel 2 7000) 1000; TRet 2 1 (OpRecv 0 9000) OK 41 1000;
  TCall 3 2 (OpSuspend MAXI) 1000; TRet 1 2 (OpGenYield 41 5000) OK 0 1000; TCall 2 1 (OpRecv 0 9000) 1000; TRet 0 1 OpGenStart OK 0 1000; TCall 1 2 (OpGenYield 41 5000) 1000; TStart 1 2;
  TCall 0 1 OpGenStart 1000; TStart 0 1].
Lemma ex25u_tr : tr ex25u = ex25ut.
Proof. vm_compute. reflexivity. Qed.
Lemma ex25u_mode : mode ex25u = MUser.
Proof. vm_compute. reflexivity. Qed.
Lemma unfailing_use_lit : forall s, tr s = ex25ut -> unfailing_use 0 2 s.
Proof.
  intros s T. unfold unfailing_use. rewrite T. split.
  - intros k c o tm IN. repeat (destruct IN as [IN|IN]; [discriminate IN || (injection IN as <- <- <- <-; exact Logic.I)|]). destruct IN.
  - intros k x o tm IN U. left. unfold ex25ut in IN.
    repeat (destruct IN as [IN|IN]; [try discriminate IN; injection IN as <- <- <- <-; (exfalso; destruct U as [(m & dl & U & _)|[(dl & U)|U]]; discriminate U) || idtac|]); [| |destruct IN].
    + exists OK, 41, 1000. split; [cbn; auto 12 | split; discriminate].
    + exists OK, 0, 1000. split; [cbn; auto 12 | split; discriminate].
Qed.
Example C25_unfailing_example : reach ex25u /\ generator ex25u 0 2 /\ orderly_use 0 2 ex25u /\ ~ plain_use 0 2 (tr ex25u) /\ In (TRet 2 1 (OpRecv 0 9000) OK 41 1000) (tr ex25u).
Proof.
  split; [apply script_reach|]. pose proof (unfailing_use_lit _ ex25u_tr) as UF. pose proof ex25u_mode as M. unfold orderly_use, settled, generator. rewrite ex25u_tr. revert UF M. generalize ex25u. intros s UF M.
  split; [exists 0%nat, 1, 1000; split; [cbn; auto 20 | exists (firstn 10 ex25ut), [TStart 0 1], 1000; reflexivity]|].
  split; [right; split; [rewrite M; split; [exact (fun z => z) | discriminate] | exact UF]|]. split; [|cbn; auto 20].
  intros [_ H]. assert (IN : In (TCall 2 1 (OpRecv 0 9000) 1000) ex25ut) by (cbn; auto 20). specialize (H _ _ _ _ IN eq_refl). discriminate H.
Qed.
(** the generator has ended; the third next fails *)
Definition ex25b : state := script [ECall OpGenStart; ECall (OpGenYield 41 MAXI); ECall (OpRecv 0 MAXI); ECall (OpGenYield 42 MAXI); ECall (OpRecv 0 MAXI); ECall OpReturn; ECall OpYield].
Example C25_closed_example : reach ex25b /\ generator ex25b 0 2 /\ plain_use 0 2 (tr ex25b) /\ In (TExit 2) (tr ex25b) /\
  goes_ahead (step ex25b (ECall (OpRecv 0 MAXI))) 1 (ncalls ex25b) ECLOSED.
Proof.
  assert (A : reach ex25b) by apply script_reach.
  assert (B : generator ex25b 0 2). { exists 0%nat, 1, 1000. split; [vm_compute; tauto|]. exists (firstn (length (tr ex25b) - 3) (tr ex25b)), [TStart 0 1], 1000. vm_compute. reflexivity. }
  assert (C : plain_use 0 2 (tr ex25b)) by (apply plainb_ok; vm_compute; reflexivity).
  assert (X : In (TExit 2) (tr ex25b)) by (vm_compute; tauto).
  split; [exact A|]. split; [exact B|]. split; [exact C|]. split; [exact X|].
  assert (M : mode ex25b = MUser) by (vm_compute; reflexivity). assert (CU : cur (sc ex25b) = Some 1) by (vm_compute; reflexivity).
  assert (L : (length (yields 2 (tr ex25b)) <=? length (receives 0 (tr ex25b)))%nat = true) by (vm_compute; reflexivity). apply Nat.leb_le in L.
  exact (C25_closed_partial ex25b 0 2 1 (OpRecv 0 MAXI) A B (or_introl C) X M CU L eq_refl).
Qed.
(** 3 is blocked in neco_gen_next, 1 closes the generator, whose coroutine 2 then ends: 3
    is about to be resumed *)
Definition ex25c0 : state := script [ECall OpGenStart; ECall OpYield; ECall OpStart; ECall (OpRecv 0 MAXI); ECall OpYield; ECall OpStart; ECall OpYield; ECall (OpClose 0)].
Definition ex25c : state := run ex25c0 [ECall OpReturn; ETick true; ETick true].
Example C25_nexts_resume_example : reach ex25c /\ settled ex25c /\ generator ex25c 0 2 /\ plain_use 0 2 (tr ex25c) /\ In (TExit 2) (tr ex25c) /\ blocked ex25c 3 3 (OpRecv 0 MAXI) /\ to_resume ex25c 3.
Proof.
  split; [apply reach_run, script_reach|]. split; [split; vm_compute; [exact (fun z => z) | discriminate]|].
  split. { exists 0%nat, 1, 1000. split; [vm_compute; tauto|]. exists (firstn (length (tr ex25c) - 3) (tr ex25c)), [TStart 0 1], 1000. vm_compute. reflexivity. }
  split; [apply plainb_ok; vm_compute; reflexivity|]. split; [vm_compute; tauto|].
  split; [apply blockedb_ok; split; [vm_compute; auto|]; exists 2%nat; eexists; split; vm_compute; reflexivity | vm_compute; tauto].
Qed.
(** the main coroutine cannot yield *)
Example C25_only_example : reach ex25a /\ mode ex25a = MUser /\ cur (sc ex25a) = Some 1 /\ forall k p, ~ started_by (tr ex25a) k p 1.
Proof.
  split; [apply script_reach|]. split; [vm_compute; reflexivity|]. split; [vm_compute; reflexivity|]. intros k p (l1 & l2 & tm & E).
  assert (B : forallb (fun z => match z with TStart p 1 => p =? 0 | TCall _ p _ _ => negb (p =? 0) | _ => true end) (tr ex25a) = true) by (vm_compute; reflexivity).
  rewrite forallb_forall, E in B. pose proof (B (TStart p 1) ltac:(apply in_or_app; right; left; reflexivity)) as B1. pose proof (B (TCall k p OpGenStart tm) ltac:(apply in_or_app; right; right; left; reflexivity)) as B2. cbn beta iota in B1, B2. rewrite B1 in B2. discriminate B2.
Qed.

(** 41 is obtained, 42 is lost with a canceled next *)
Definition ex25s : state := script [ECall OpGenStart; ECall (OpGenYield 41 MAXI); ECall (OpRecv 0 MAXI); ECall OpYield; ECall OpStart; ECall (OpRecv 0 MAXI); ECall OpYield; ECall (OpGenYield 42 MAXI); ECall (OpCancel 3 MAXI); ECall OpReturn; ECall OpYield].
Definition gen_useb (g : nat) (t : list obs) : bool := forallb (fun z => match z with
  | TCall _ _ (OpSend ch _ _) _ | TCall _ _ (OpBcast ch _) _ => negb (Nat.eqb ch g)
  | TCall _ _ (OpSelect gs _) _ | TCall _ _ (OpTrySelect gs) _ => negb (existsb (Nat.eqb g) gs)
  | _ => true end) t.
Lemma gen_useb_ok : forall g t, gen_useb g t = true -> gen_use g t.
Proof.
  intros g t H k c o tm IN. unfold gen_useb in H. rewrite forallb_forall in H. specialize (H _ IN). destruct o; cbn in H; auto.
  - intros ->. rewrite Nat.eqb_refl in H. discriminate H.
  - intros ->. rewrite Nat.eqb_refl in H. discriminate H.
  - intros I. apply negb_true_iff in H. rewrite (proj2 (existsb_exists _ _)) in H; [discriminate H|]. exists g. split; [exact I | apply Nat.eqb_refl].
  - intros I. apply negb_true_iff in H. rewrite (proj2 (existsb_exists _ _)) in H; [discriminate H|]. exists g. split; [exact I | apply Nat.eqb_refl].
Qed.
Example C25_source_example : reach ex25s /\ generator ex25s 0 2 /\ gen_use 0 (tr ex25s) /\ received 0 (tr ex25s) = [41] /\ yielded 2 (tr ex25s) = [42; 41] /\
  existsb (fun z => match z with TRet _ 3 (OpRecv 0 _) r _ _ => r =? ECANCELED | _ => false end) (tr ex25s) = true.
Proof.
  split; [apply script_reach|]. split. { exists 0%nat, 1, 1000. split; [vm_compute; tauto|]. exists (firstn (length (tr ex25s) - 3) (tr ex25s)), [TStart 0 1], 1000. vm_compute. reflexivity. }
  split; [apply gen_useb_ok; vm_compute; reflexivity|]. split; [vm_compute; reflexivity|]. split; vm_compute; reflexivity.
Qed.

Print Assumptions C25_order_partial.
Print Assumptions C25_once.
Print Assumptions C25_next_partial.
Print Assumptions C25_closed_partial.
Print Assumptions C25_nexts_resume_partial.
Print Assumptions C25_only_generators.
Print Assumptions C25_lost_refuted.
Print Assumptions C25_source.
