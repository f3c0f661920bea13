(** Nobody waits in the cancel queue of a coroutine that has ended; the cancel state
    of a coroutine is the one it set last. *)
From Coq Require Import ZArith List Bool Lia PeanoNat.
From Verif Require Import Util Runtime SchedInv StepInv StackShape RuntimeSpec TraceInv Immediate Prims StaticInv
  Footprint QueueInv OwnInv WaitInv CallInv TraceStep Wake Awake SpecInv AllInv PausedInv ResultInv JoinInv WaiterInv BlockSpec JoinWake CancelRes.
Import ListNotations.
Open Scope Z_scope.

Lemma resume_all_stays : forall k k' n d, k <> QRes -> q d k = [] -> q (resume_all k' n d) k = [].
Proof.
  intros k k' n. induction n as [|n IH]; intros d N L; cbn [resume_all]; [exact L|]. unfold popq. destruct (q d k') as [|y l] eqn:Q; [exact L|]. apply IH; [exact N|].
  unfold sched_resume, pushq. cbn. rewrite qupd_neq by exact N. unfold qupd. destruct (qid_eqb_spec k k') as [NE|NE]; [subst k'|].
  - rewrite L in Q. discriminate Q.
  - rewrite L. reflexivity.
Qed.
Lemma coexit_rest_cq : forall c a d d' fs k, coexit_rest c a d = (d', fs, k) -> q d' (QCancel c) = [].
Proof.
  intros c a d d' fs k E. unfold coexit_rest in E. cbv zeta in E.
  match type of E with context [resume_all (QJoin c) ?n (resume_all (QCancel c) ?m ?y)] => assert (Z0 : q (resume_all (QJoin c) n (resume_all (QCancel c) m y)) (QCancel c) = []) by
    (apply resume_all_stays; [discriminate | apply resume_all_empty; [discriminate | cbn; lia]]);
    set (dd := resume_all (QJoin c) n _) in * end.
  destruct (gen (cof dd c)) as [g|].
  - destruct (do_close g dd) as [[d1 fs1] k1] eqn:C. inj E. eapply (fp_do_close c (fun z => z = QChan g) (fun _ _ => False)) in C; [|reflexivity].
    destruct C as (R & F). destruct (q d' (QCancel c)) as [|n l] eqn:Q; [reflexivity|]. exfalso.
    destruct (fps_q_in _ _ _ _ _ _ _ F n (QCancel c) Logic.I) as [H|[_ []]]; [rewrite Q; left; reflexivity | rewrite Z0 in H; destruct H].
  - destruct (negb _); [apply yfsr_cases in E; destruct E as (-> & _); exact Z0 | inj E; exact Z0].
Qed.
Definition cqs (c : Z) (d d' : dat) : Prop := all d' = all d \/ (all d' = remove1 c (all d) /\ q d' (QCancel c) = []).
Lemma exits_cq : forall c d d' fs k, exits c d d' fs k -> cqs c d d'.
Proof.
  intros c d d' fs k [h l CL -> _ _|a ER]; [left; reflexivity | right]. split; [eapply coexit_rest_all | eapply coexit_rest_cq]; exact ER.
Qed.
Lemma hcall_cq : forall c o nw d d' fs k, hcall c o nw d = (d', fs, k) -> cqs c d d'.
Proof.
  intros c o nw d d' fs k E. destruct (special o) eqn:S.
  - pose proof (hcall_special _ _ _ _ _ _ _ E S) as H. destruct o; try discriminate S.
    + left. destruct (do_cancel_all _ _ _ _ _ _ _ _ H) as (A & _). exact A.
    + left. destruct H as (-> & _). reflexivity.
    + left. destruct H as (-> & _). reflexivity.
    + left. unfold do_sigwatch in H. repeat match type of H with context [if ?b then _ else _] => destruct b end; inj H; reflexivity.
    + left. unfold do_sigunwatch in H. repeat match type of H with context [if ?b then _ else _] => destruct b end; inj H; reflexivity.
    + left. destruct H as (-> & _). reflexivity.
    + left. unfold do_cleanup_pop in H. destruct (cleanups (cof d c)); [inj H; reflexivity|]. destruct exec; inj H; reflexivity.
    + eapply exits_cq; exact H.
  - apply hcall_sp in E; [|exact S]. apply sp_env in E. left. apply E.
Qed.
Lemma hret_cq : forall c f v b nw d d' fs k, hret c f v b nw d = (d', fs, k) -> cqs c d d'.
Proof.
  intros c f v b nw d d' fs k E. apply hret_sp in E.
  destruct f; try (left; apply sp_env in E; apply E);
    try (destruct E as [E|(_ & _ & E)]; [left; apply sp_env in E; apply E | eapply exits_cq; eassumption]).
  - right. split; [eapply coexit_rest_all | eapply coexit_rest_cq]; exact E.
  - left. apply do_cancel_all in E. apply E.
  - eapply exits_cq; eassumption.
  - left. destruct E as (-> & _). reflexivity.
  - left. destruct E as (-> & _). reflexivity.
Qed.
Lemma cqs_keep : forall c d d' n id, cqs c d d' -> In n (q d' (QCancel id)) -> In id (all d) -> In id (all d').
Proof.
  intros c d d' n id [A|[A Q]] J I; rewrite A; [exact I|]. apply remove1_In. split; [exact I|]. intros ->. rewrite Q in J. destruct J.
Qed.
Lemma do_cancel_wait : forall c id dl nw d d' fs k, do_cancel c id dl nw d = (d', fs, k) -> fs <> [] -> In id (all d).
Proof.
  intros c id dl nw d d' fs k E NF. unfold do_cancel in E. destruct (mem id (all d)) eqn:ME; cbn in E; [|inj E; congruence].
  apply mem_In in ME. exact ME.
Qed.
Definition cz (s : state) : Prop := forall n id, In n (q (dt s) (QCancel id)) -> In id (all (dt s)).
Lemma ctl_cz : forall c n k d x id, In x (q (ctl_dat c n k d) (QCancel id)) -> In x (q d (QCancel id)).
Proof.
  intros c n k d x id I. destruct k; cbn [ctl_dat] in I; auto.
  - rewrite spawn_q_eq in I by discriminate. exact I.
  - unfold final_dat in I. cbn [q set_npool] in I. apply In_pushq in I. destruct I as [[I _]|[I _]]; [exact I | discriminate I].
Qed.
Theorem reach_cz : forall s, reach s -> cz s.
Proof.
  apply (rrun_preserves cz).
  - intros s c o d fs k sch md RE I M CU U NR E X n id J. cbn [sc dt] in *. apply ctl_cz in J. apply ctl_all.
    destruct (hcall_fp _ _ _ _ _ _ _ (ncalls s) (stk (sc s) c) E) as (R & P & FP & _ & _).
    destruct (fps_q_in _ _ _ _ _ _ _ FP n (QCancel id) Logic.I J) as [H|[_ [[NF MA] W]]].
    + eapply cqs_keep; [eapply hcall_cq, E | exact J | exact (I n id H)].
    + destruct o; cbn in W; try discriminate W; try (destruct W as (? & _ & W); discriminate W); try (destruct W as [W|W]; discriminate W); try contradiction.
      * injection W as <-. pose proof (do_cancel_wait _ _ _ _ _ _ _ _ E NF) as IA. apply do_cancel_all in E. destruct E as (A & _). rewrite A. exact IA.
      * destruct W as [W|[W|(? & _ & W)]]; try discriminate W. injection W as <-. exfalso.
        pose proof (hcall_special _ _ _ _ _ _ _ E eq_refl) as EX. cbn in EX. destruct EX as [h l CL -> -> ->|a ER].
        -- cbn in MA. unfold matched in MA. cbn in MA. exact MA.
        -- apply coexit_rest_cq in ER. rewrite ER in J. destruct J.
  - intros s c v f rest b d fs k sch md RE I M CU SK L E X n id J. cbn [sc dt] in *. apply ctl_cz in J. apply ctl_all.
    destruct (hret_fp _ _ _ _ _ _ _ _ _ rest E) as (R & P & FP & _ & _).
    destruct (fps_q_in _ _ _ _ _ _ _ FP n (QCancel id) Logic.I J) as [H|[_ [[NF MA] W]]].
    + apply leave_in in H. eapply cqs_keep; [eapply hret_cq, E | exact J | exact (I n id H)].
    + destruct f; cbn in W; try discriminate W; try contradiction. injection W as <-. cbn [hret] in E.
      pose proof (do_cancel_wait _ _ _ _ _ _ _ _ E NF) as IA. apply do_cancel_all in E. destruct E as (A & _). rewrite A. exact IA.
  - intros s d ws sch md ios RE I M A K X n id J. pose proof (mp_main _ _ _ _ _ _ _ K) as MP. cbn [set_sc set_dt set_mode sc dt] in *.
    rewrite (mprims_wq _ _ _ MP) in J by exact Logic.I. rewrite (mprims_all _ _ MP). exact (I n id J).
  - intros s m RE I HM. exact I.
  - intros s e RE I H M n id J. rewrite (env_all s e H). apply (I n id).
    destruct (env_q s e H) as [Q|(c & _ & _ & _ & Q)]; rewrite Q in J; [exact J|]. apply In_pushq in J. destruct J as [[J _]|[J _]]; [exact J | discriminate J].
  - intros g O n id J. destruct J.
Qed.
