(** When neco_chan_select_dl or neco_signal_wait_dl reports a timeout, its deadline has
    passed. Both return values other than error codes, so the proof needs that an index
    and a signal number are never the code of a timeout. *)
From Coq Require Import List ZArith Bool Lia.
From Verif Require Import AATreeSpec AATreeHist Util Runtime SchedInv StepInv StackShape RuntimeSpec TraceInv Immediate Prims StaticInv Footprint QueueInv OwnInv WaitInv DeadlineInv CallInv SpecInv TraceStep Wake Awake AllInv PausedInv DldInv ResultInv JoinInv AtCall TimeoutInv WatchInv SigInv SigTold CancelInv CancelFate SelWait.
Import ListNotations.
Local Open Scope Z_scope.

(** ** Masks of signals are not negative *)
Definition mnn (d : dat) : Prop := forall x, 0 <= sigwatch (cof d x) /\ 0 <= sigmask (cof d x).
Lemma prim_mnn : forall c d d', prim c d d' -> mnn d -> mnn d'.
Proof.
  intros c d d' P I. destruct P; try exact I; intros x; specialize (I x); unfold upco; cbn; unfold zupd; (match goal with |- context [x =? ?z] => destruct (Z.eqb_spec x z) as [->|]; cbn; [|exact I] end); try exact I.
  - split; [apply Z.lor_nonneg; split; [apply I | apply Z.shiftl_nonneg; lia] | apply I].
  - split; [apply Z.ldiff_nonneg; left; apply I | apply I].
  - split; apply I.
  - split; [apply I | lia].
Qed.
Lemma spawn_mnn : forall p n g d, mnn d -> mnn (spawn_dat p n g d).
Proof.
  intros p n g d I x. unfold spawn_dat, popq. pose proof (I x) as Ix. destruct (q d QPool) as [|y l].
  - destruct g, p; cbn; unfold zupd; repeat (match goal with |- context [if ?b then _ else _] => destruct b end; cbn); try lia; auto.
  - pose proof (I (node_co y)) as Iy. destruct g, p; cbn; unfold zupd; repeat (match goal with |- context [if ?b then _ else _] => destruct b end; cbn); try lia; auto.
Qed.
Lemma ctl_mnn : forall c n k d, mnn d -> mnn (ctl_dat c n k d).
Proof. intros c n k d I. destruct k; cbn [ctl_dat]; try exact I. apply spawn_mnn, I. Qed.
Theorem reach_mnn : forall s, reach s -> mnn (dt s).
Proof.
  apply (rrun_preserves (fun s => mnn (dt s))).
  - intros s c o d fs k sch md RE I M CU U NR E X. cbn [dt]. apply ctl_mnn. eapply (prims_ind_pres c mnn (prim_mnn c)); [eapply hcall_prims; exact E | exact I].
  - intros s c v f rest b d fs k sch md RE I M CU SK L E X. cbn [dt]. apply ctl_mnn. eapply (prims_ind_pres c mnn (prim_mnn c)); [eapply hret_prims; exact E | exact I].
  - intros s d ws sch md ios RE I M A K X x. cbn [dt set_sc set_dt set_mode].
    destruct (mprims_sw _ _ (mp_main _ _ _ _ _ _ _ K)) as [_ SQ]. rewrite SQ. split; [apply I|].
    destruct (rc_sig (now s) d) as [_ B]. rewrite B. destruct (0 <? npsd (sc s)); [|injection K as <- _; apply I].
    destruct (paused_step_sig _ _ _ _ _ _ K (reach_sgok _ RE)) as (d3 & d4 & w4 & S4 & _ & _ & C & _ & _ & MM & IW).
    apply signal_step_ss in S4. rewrite MM. inversion S4 as [H1 H2|n y H0 H1 H2 H3 H4]; subst; rewrite H2; [rewrite C; apply I|].
    destruct (x =? y); [|rewrite C; apply I]. destruct (Z_lt_le_dec n 0); [|assumption]. rewrite Z.testbit_neg_r in H4 by assumption. discriminate H4.
  - intros s m RE I _. exact I.
  - intros s e RE I H M x. rewrite (env_cof s e H). apply I.
  - intros g O x. cbn. unfold zupd. destruct (_ =? _); cbn; lia.
Qed.

(** ** The results *)
Definition timed2 (o : op) : bool := match o with OpSelect _ _ | OpSigWait _ => true | _ => false end.
Theorem timeout_result2 : forall s, reach s -> nofincancel (tr s) ->
  forall k c o m t, In (TRet k c o ETIMEDOUT m t) (tr s) -> timed2 o = true -> op_dl o < t.
Proof.
  intros s RE G k c o m t H T.
  assert (P : transit nofincancel (fun _ _ o v _ t _ => timed2 o = true -> v = ETIMEDOUT -> op_dl o < t) s /\
              landed nofincancel (fun _ _ o v _ t _ => timed2 o = true -> v = ETIMEDOUT -> op_dl o < t) s).
  { clear H T k c o m t G. revert s RE. apply result_principle.
    - intros t t' S G kk cc id dl tm H. eapply G, S, H.
    - intros k c o v m n n' t t' _ LE Q T V. specialize (Q T V). lia.
    - intros s c o d v RE M CU U NR E G T ->. exfalso. destruct o; try discriminate T; cbn [hcall] in E.
      + unfold do_sigwait in E. destruct (negb _); [discriminate E|]. destruct (_ =? 0); [discriminate E|]. destruct (canceled _); [discriminate E|]. destruct (copause_noret _ _ _ _ _ _ _ E).
      + unfold do_select in E. destruct (negb _) eqn:B.
        * injection E as _ E. clear -E. induction chs as [|ch chs IH]; cbn in E; [discriminate E|]. destruct (chk_chan_val ch (dt s)) as [Q|[Q|Q]]; rewrite Q in E; cbn in E; try discriminate E. apply IH, E.
        * destruct (canceled _); [discriminate E|]. destruct (first_ready _ _ _) as [[ch i]|].
          -- destruct (rclosed _); [discriminate E|]. destruct (take _ _) as [[[? [?|]] ?]|]; discriminate E.
          -- destruct (copause_noret _ _ _ _ _ _ _ E).
    - intros s c f w b d v k o st RE M CU SK L NH E G T ->. assert (NO : ~ over (mode s)) by (rewrite M; exact (fun z => z)).
      assert (G0 : nofincancel (tr s)) by (intros kk cc id dl tm H; eapply G; apply (tick_tr_old s c w f d [] (CRet ETIMEDOUT)); exact H).
      assert (DD : waitf f = true -> deadlined (cof (dt s) c) = true -> op_dl o < now s).
      { intros W D. destruct (reach_dld _ RE G0 c D) as (g & r & TP & _ & LT & _). rewrite SK in TP.
        replace (top (f :: FApi k o :: st)) with (f :: FApi k o :: st) in TP by (destruct f; try reflexivity; discriminate W).
        injection TP as <- <-. rewrite sdl_api in LT. exact LT. }
      destruct (api_frame _ _ _ _ _ _ _ _ _ _ _ L E) as [[SH _]|[[-> ->]|(b0 & H)]]; [|discriminate T|discriminate H].
      assert (AC : at_call s c [f] k o) by (exists st; split; [exact SK | exact SH]).
      inversion SH; subst; try discriminate T; try (match goal with H : pz _ [_] |- _ => inversion H; subst; clear H end); cbn [hret] in E.
      + unfold sigwait_end in E. destruct (checkdl _ _ _ _) as [v1 d1] eqn:CK. injection E as _ E. destruct (Z.eqb_spec v1 OK) as [->|NV].
        * exfalso. pose proof (proj2 (reach_mnn _ RE c)) as Q. cbn in E. unfold ETIMEDOUT in E. lia.
        * subst v1. apply DD; [reflexivity|]. apply checkdl_max in CK; [|reflexivity]. cbn in CK. rewrite zupd_eq in CK. exact CK.
      + exfalso. destruct (se_at _ (reach_seli _ RE) NO _ _ _ _ _ AC eq_refl) as [(g & n & W & _)|[[IW _]|(W & _)]]; [|destruct IW as [W|[]]; discriminate W | discriminate W].
        injection E as _ E. destruct W as [W|W]; [|discriminate W]. injection W as _ ->. unfold ETIMEDOUT in E. lia.
      + destruct (se_at _ (reach_seli _ RE) NO _ _ _ _ _ AC eq_refl) as [(g & n & W & _)|[[_ SN]|(W & _)]]; [destruct W; discriminate | | discriminate W].
        unfold select_end in E. destruct (checkdl _ _ _ _) as [v1 d1] eqn:CK. injection E as _ E. pose proof (checkdl_idx _ _ _ _ _ _ CK) as [RX _].
        destruct (Z.eqb_spec v1 OK) as [->|NV].
        * exfalso. rewrite RX in E. rewrite rm_cases_cof2 in E. cbn in E. unfold ETIMEDOUT in E. destruct SN as [[SN _]|(n & _ & SN & _)]; lia.
        * subst v1. apply DD; [reflexivity|]. apply checkdl_max in CK; [|reflexivity]. rewrite rm_cases_cof2 in CK. exact CK. }
  destruct P as [_ P]. eapply P; eauto. destruct o; try discriminate T; exact (fun H => H).
Qed.
