(** Fields that only a few operations can change: the set of live coroutines, the
    cancellation settings, cleanup stacks, signal registrations, and other
    coroutines' cancel marks. *)
From Coq Require Import List ZArith Bool Lia.
From Verif Require Import AATreeSpec AATreeHist Util Runtime SchedInv StepInv StackShape Prims.
Import ListNotations.
Local Open Scope Z_scope.

Definition spg (d : dat) := (all d, allcount d, sigw d, sigq d, sigm d, (rtid d, env_async d, env_enabled d, mainthread d)).
Definition spc (r : corec) := (casync r, cenabled r, cleanups r, gen r, sigwatch r, (starterid r, lastid r)).
(** coroutine [c] changed none of them; it may have cleared its own cancel mark *)
Record sp (c : Z) (d d' : dat) : Prop := mksp {
  sp_g : spg d' = spg d;
  sp_c : forall x, spc (cof d' x) = spc (cof d x);
  sp_x : forall x, x <> c -> canceled (cof d' x) = canceled (cof d x);
  sp_o : canceled (cof d' c) = true -> canceled (cof d c) = true
}.
Lemma sp_refl : forall c d, sp c d d.
Proof. intros. split; auto. Qed.
Lemma sp_trans : forall c a b d, sp c a b -> sp c b d -> sp c a d.
Proof.
  intros c a b d [A1 A2 A3 A4] [B1 B2 B3 B4]. split; [congruence| | |auto].
  - intros x. rewrite B2. apply A2.
  - intros x N. rewrite B3 by exact N. apply A3, N.
Qed.
Lemma sp_snoc : forall c a b d, sp c a b -> sp c b d -> sp c a d.
Proof. exact sp_trans. Qed.
Lemma sp_upco : forall c r f d, (forall z, spc (f z) = spc z) -> (forall z, canceled (f z) = canceled z \/ (r = c /\ canceled (f z) = false)) ->
  sp c d (upco r f d).
Proof.
  intros c r f d A B. split.
  - reflexivity.
  - intros x. cbn. unfold zupd. destruct (Z.eqb_spec x r); subst; auto.
  - intros x N. cbn. unfold zupd. destruct (Z.eqb_spec x r) as [->|]; [|reflexivity]. destruct (B (cof d r)) as [H|[H _]]; [exact H | contradiction].
  - cbn. unfold zupd. destruct (Z.eqb_spec c r) as [->|]; [|auto]. destruct (B (cof d r)) as [H|[_ H]]; congruence.
Qed.
Lemma sp_dat : forall c d d', spg d' = spg d -> cof d' = cof d -> sp c d d'.
Proof. intros c d d' A B. split; rewrite ?B; auto. Qed.
Ltac sp1 := solve [ apply sp_upco; [intros []; reflexivity | intros []; cbn; auto]
                  | apply sp_dat; reflexivity ].
(* one update, read off the outermost function of the new state *)
Ltac sppeel := first [ apply sp_refl | assumption |
  match goal with
  | |- sp _ _ (upco ?r ?f ?x) => apply (sp_snoc _ _ x); [|sp1]
  | |- sp _ _ (_ ?x) => apply (sp_snoc _ _ x); [|sp1]
  end ].
Ltac spt := repeat sppeel.

(** ** Pieces *)
Lemma sp_copause : forall c dl fs d d' fs' k, copause c dl fs d = (d', fs', k) -> sp c d d'.
Proof.
  intros c dl fs d d' fs' k E. unfold copause in E. destruct (_ || _); [inj E; spt|].
  destruct (_ <? _); inj E; spt.
Qed.
Lemma sp_checkdl : forall c dl nw d v d', checkdl c dl nw d = (v, d') -> sp c d d'.
Proof. intros c dl nw d v d' E. unfold checkdl in E. destruct (_ && _); inj E; spt. Qed.
Lemma sp_yfsr : forall c fs d d' fs' k, yfsr fs d = (d', fs', k) -> sp c d d'.
Proof. intros c fs d d' fs' k E. apply yfsr_cases in E. destruct E as (-> & _). spt. Qed.
Lemma sp_pause_end : forall c d, sp c d (pause_end c d).
Proof. intros. unfold pause_end. destruct (_ <? _); spt. Qed.
Lemma sp_deliver : forall c ch m n d r d', deliver ch m n d = Some (r, d') -> sp c d d'.
Proof. intros c ch m n d r d' E. unfold deliver in E. destruct n; [inj E; spt|]. destruct (negb _); [discriminate|]. inj E; spt. Qed.
Lemma sp_pop : forall c k n l d, popq_ok k -> q d k = n :: l -> sp c d (set_q (qupd (q d) k l) d).
Proof. intros. eapply sp_snoc; [apply sp_refl|]. sp1. Qed.

Lemma sp_popq : forall c k d n d', popq_ok k -> popq k d = (n, d') -> sp c d d'.
Proof.
  intros c k d n d' K E. unfold popq in E. destruct (q d k) as [|x l] eqn:Q; inj E; [spt|].
  eapply sp_pop; eassumption.
Qed.

Lemma sp_send_loop : forall c ch m n d r d', send_loop ch m n d = (r, d') -> sp c d d'.
Proof.
  intros c ch m. induction n as [|n IH]; intros d r d' E; cbn in E; [inj E; spt|].
  destruct (popq (QChan ch) d) as [[x|] d1] eqn:P; apply (sp_popq c) in P; try exact I.
  - destruct (deliver ch m x d1) as [[r1 d2]|] eqn:D.
    + inj E. eapply sp_trans; [exact P | eapply sp_deliver; exact D].
    + eapply sp_trans; [exact P | eapply IH; exact E].
  - inj E. exact P.
Qed.
Lemma sp_bcast_loop : forall c ch m n sent d r d', bcast_loop ch m n sent d = (r, d') -> sp c d d'.
Proof.
  intros c ch m. induction n as [|n IH]; intros sent d r d' E; cbn in E; [inj E; spt|].
  destruct (popq (QChan ch) d) as [[x|] d1] eqn:P; apply (sp_popq c) in P; try exact I.
  - destruct (deliver ch m x d1) as [[r1 d2]|] eqn:D.
    + eapply sp_trans; [exact P|]. eapply sp_trans; [eapply sp_deliver; exact D|].
      eapply sp_trans; [|eapply IH; exact E]. spt.
    + eapply sp_trans; [exact P | eapply IH; exact E].
  - inj E. exact P.
Qed.
Lemma sp_close_loop : forall c ch n d, sp c d (close_loop ch n d).
Proof.
  intros c ch. induction n as [|n IH]; intros d; cbn; [spt|].
  destruct (popq (QChan ch) d) as [[[x|x i]|] d1] eqn:P; apply (sp_popq c) in P; try exact I.
  - eapply sp_trans; [exact P|]. eapply sp_trans; [|apply IH]. spt.
  - destruct (negb _).
    + eapply sp_trans; [exact P | apply IH].
    + eapply sp_trans; [exact P|]. eapply sp_trans; [|apply IH]. spt.
  - exact P.
Qed.
Lemma sp_resume_all : forall c k n d, popq_ok k -> sp c d (resume_all k n d).
Proof.
  intros c k n d K. revert d. induction n as [|n IH]; intros d; cbn; [spt|].
  destruct (popq k d) as [[x|] d1] eqn:P; apply (sp_popq c) in P; try exact K.
  - eapply sp_trans; [exact P|]. eapply sp_trans; [|apply IH]. spt.
  - exact P.
Qed.
Lemma sp_grant : forall c m n d, sp c d (grant m n d).
Proof.
  intros c m. induction n as [|n IH]; intros d; cbn [grant]; [spt|].
  destruct (popq (QMu m) d) as [[x|] d1] eqn:P; apply (sp_popq c) in P; try exact I; [|exact P].
  eapply sp_trans; [exact P|]. clear P. destruct (rlocked _); [|spt].
  match goal with |- context [grant m n ?x] => assert (P : sp c d1 x) by spt; set (d2 := x) in * end.
  destruct (q d2 (QMu m)); [exact P|]. destruct (rlocked _); [|exact P].
  eapply sp_trans; [exact P | apply IH].
Qed.
Lemma sp_push_cases : forall c chs i d, sp c d (push_cases c chs i d).
Proof.
  intros c. induction chs as [|ch chs IH]; intros i d; cbn; [spt|].
  eapply sp_trans; [|apply IH]. spt.
Qed.
Lemma sp_rm_cases : forall c n d, sp c d (rm_cases c n d).
Proof. intros c. induction n as [|n IH]; intros d; cbn; [spt|]. eapply sp_trans; [|apply IH]. spt. Qed.
Lemma sp_close_if_drained : forall c ch d, sp c d (close_if_drained ch d).
Proof. intros. unfold close_if_drained. destruct (_ && _); spt. Qed.
Lemma sp_take : forall c ch d m s d', take ch d = Some (m, s, d') -> sp c d d'.
Proof.
  intros c ch d m s d' E. unfold take in E. destruct (buf (chn d ch)) as [|m0 b].
  - destruct (qrecv _); [discriminate|].
    destruct (popq (QChan ch) d) as [[x|] d1] eqn:P; apply (sp_popq c) in P; try exact I; [|discriminate].
    inj E. eapply sp_trans; [exact P | apply sp_close_if_drained].
  - destruct (popq (QChan ch) _) as [[x|] d1] eqn:P; apply (sp_popq c) in P; try exact I; inj E.
    + eapply sp_trans; [|apply sp_close_if_drained]. sppeel.
      eapply sp_trans; [|exact P]. spt.
    + eapply sp_trans; [|apply sp_close_if_drained]. eapply sp_trans; [|exact P]. spt.
Qed.
Lemma sp_check_mu : forall c m d v d', check_mu m d = (v, d') -> sp c d d'.
Proof.
  intros c m d v d' E. unfold check_mu, mu_init in E. repeat match type of E with context [if ?x then _ else _] => destruct x end; inj E; spt.
Qed.
Lemma sp_check_wg : forall c m d v d', check_wg m d = (v, d') -> sp c d d'.
Proof.
  intros c m d v d' E. unfold check_wg, wg_init in E. repeat match type of E with context [if ?x then _ else _] => destruct x end; inj E; spt.
Qed.
Lemma sp_check_cv : forall c m d v d', check_cv m d = (v, d') -> sp c d d'.
Proof.
  intros c m d v d' E. unfold check_cv, cv_init in E. repeat match type of E with context [if ?x then _ else _] => destruct x end; inj E; spt.
Qed.
Lemma sp_trylock : forall c m t dl nw d v d', mu_trylock c m t dl nw d = (v, d') -> sp c d d'.
Proof.
  intros c m t dl nw d v d' E. unfold mu_trylock in E.
  destruct (if t then _ else _) as [v1 d1] eqn:C.
  assert (P : sp c d d1) by (destruct t; [inj C; spt | eapply sp_checkdl; exact C]).
  destruct (negb _); [inj E; exact P|]. destruct (mlocked _); inj E; [exact P|]. spt.
Qed.
Lemma sp_tryrdlock : forall c m t dl nw d v d', mu_tryrdlock c m t dl nw d = (v, d') -> sp c d d'.
Proof.
  intros c m t dl nw d v d' E. unfold mu_tryrdlock in E.
  destruct (if t then _ else _) as [v1 d1] eqn:C.
  assert (P : sp c d d1) by (destruct t; [inj C; spt | eapply sp_checkdl; exact C]).
  destruct (negb _); [inj E; exact P|]. destruct (_ || _); inj E; [exact P|]. spt.
Qed.
Lemma sp_fastunlock : forall c m fs d d' fs' k, fastunlock m fs d = (d', fs', k) -> sp c d d'.
Proof.
  intros c m fs d d' fs' k E. unfold fastunlock in E. destruct (negb _); [inj E; spt|].
  destruct (0 <? mrl (mux d m)); cbn [andb] in E.
  - destruct (0 <? _); [inj E; spt|]. destruct (emptyq _ _); [inj E; spt|].
    apply (sp_yfsr c) in E. eapply sp_trans; [|exact E]. eapply sp_trans; [|apply sp_grant]. spt.
  - destruct (emptyq _ _); [inj E; spt|].
    apply (sp_yfsr c) in E. eapply sp_trans; [|exact E]. apply sp_grant.
Qed.

(** Follow a handler: split its conditionals, collect the pieces. *)
Ltac sph E :=
  match type of E with
  | copause _ _ _ ?x = _ => apply sp_copause in E; eapply sp_trans; [|exact E]; spt
  | yfsr _ ?x = _ => eapply sp_yfsr in E; eapply sp_trans; [|exact E]; spt
  | fastunlock _ _ ?x = _ => eapply sp_fastunlock in E; eapply sp_trans; [|exact E]; spt
  | (_, _, _) = (_, _, _) => inj E; spt
  | coyield _ _ = _ => unfold coyield in E; inj E; spt
  | (if ?x then _ else _) = _ => destruct x; sph E
  | context [checkdl ?a ?b ?c ?d] => let P := fresh "P" in destruct (checkdl a b c d) eqn:P; apply sp_checkdl in P;
       eapply sp_trans; [eapply sp_trans; [|exact P]; solve [spt]|]; clear P; sph E
  | context [check_mu ?a ?b] => let P := fresh "P" in destruct (check_mu a b) eqn:P; eapply sp_check_mu in P;
       eapply sp_trans; [eapply sp_trans; [|exact P]; solve [spt]|]; clear P; sph E
  | context [check_wg ?a ?b] => let P := fresh "P" in destruct (check_wg a b) eqn:P; eapply sp_check_wg in P;
       eapply sp_trans; [eapply sp_trans; [|exact P]; solve [spt]|]; clear P; sph E
  | context [check_cv ?a ?b] => let P := fresh "P" in destruct (check_cv a b) eqn:P; eapply sp_check_cv in P;
       eapply sp_trans; [eapply sp_trans; [|exact P]; solve [spt]|]; clear P; sph E
  | context [if ?x then _ else _] => destruct x; sph E
  end.

Lemma sp_do_send : forall c ch m dl d d' fs k, do_send c ch m dl d = (d', fs, k) -> sp c d d'.
Proof.
  intros c ch m dl d d' fs k E. unfold do_send in E.
  destruct (negb _); [sph E|]. destruct (sclosed _); [sph E|]. destruct (canceled _); [sph E|].
  destruct (send_loop _ _ _ _) as [[r|] d1] eqn:S; apply (sp_send_loop c) in S.
  - inj E. exact S.
  - eapply sp_trans; [exact S|]. clear S. sph E.
Qed.
Lemma sp_do_close : forall c ch d d' fs k, do_close ch d = (d', fs, k) -> sp c d d'.
Proof.
  intros c ch d d' fs k E. unfold do_close in E.
  destruct (negb _); [sph E|]. destruct (sclosed _); [sph E|]. destruct (_ || _); [sph E|].
  eapply sp_yfsr in E. eapply sp_trans; [|exact E]. sppeel.
  eapply sp_trans; [|apply sp_close_loop]. spt.
Qed.
Lemma sp_cv_relock : forall c m ret nw d d' fs k, cv_relock c m ret nw d = (d', fs, k) -> sp c d d'.
Proof.
  intros c m ret nw d d' fs k E. unfold cv_relock in E. destruct (negb _); [sph E|].
  destruct (mu_trylock c m false MAXI nw d) as [v d1] eqn:T. apply sp_trylock in T.
  eapply sp_trans; [exact T|]. clear T. unfold finish_lock in E. sph E.
Qed.
Lemma sp_do_recv : forall c ch t dl d d' fs k, do_recv c ch t dl d = (d', fs, k) -> sp c d d'.
Proof.
  intros c ch t dl d d' fs k E. unfold do_recv in E.
  destruct (negb _); [sph E|]. destruct (rclosed _); [sph E|]. destruct (canceled _); [sph E|].
  destruct (take ch d) as [[[m [s|]] d1]|] eqn:T.
  - apply (sp_take c) in T. eapply sp_trans; [exact T|]. sph E.
  - apply (sp_take c) in T. eapply sp_trans; [exact T|]. sph E.
  - sph E.
Qed.
Lemma sp_do_select : forall c chs t dl d d' fs k, do_select c chs t dl d = (d', fs, k) -> sp c d d'.
Proof.
  intros c chs t dl d d' fs k E. unfold do_select in E.
  destruct (negb _); [sph E|]. destruct (canceled _); [sph E|].
  destruct (first_ready chs 0 d) as [[ch i]|].
  - destruct (rclosed _); [sph E|]. destruct (take ch d) as [[[m [s|]] d1]|] eqn:T.
    + apply (sp_take c) in T. eapply sp_trans; [exact T|]. sph E.
    + apply (sp_take c) in T. eapply sp_trans; [exact T|]. sph E.
    + sph E.
  - destruct t; [sph E|]. apply sp_copause in E. eapply sp_trans; [|exact E].
    sppeel. eapply sp_trans; [|apply sp_push_cases]. spt.
Qed.

Definition special (o : op) : bool :=
  match o with
  | OpCancel _ _ | OpSigWatch _ | OpSigUnwatch _ | OpSetType _ | OpSetState _ | OpCleanupPush _ | OpCleanupPop _ | OpExit => true
  | _ => false
  end.
Theorem hcall_sp : forall c o nw d d' fs k, hcall c o nw d = (d', fs, k) -> special o = false -> sp c d d'.
Proof.
  intros c o nw d d' fs k E SO. destruct o; cbn [hcall] in E; try discriminate SO; clear SO; try (sph E; fail).
  - unfold do_sleep in E. sph E.
  - unfold do_sigwait in E. sph E.
  - unfold do_wait in E. sph E.
  - unfold do_chmake in E. destruct (_ || _); [sph E|]. destruct (new_chan cap d) as [ch d1] eqn:N.
    inj E. sppeel. replace d1 with (snd (new_chan cap d)) by (rewrite N; reflexivity). apply sp_dat; reflexivity.
  - eapply sp_do_send; exact E.
  - unfold do_bcast in E. destruct (negb _); [sph E|]. destruct (sclosed _); [sph E|].
    destruct (bcast_loop _ _ _ _ _) as [n d1] eqn:B. apply (sp_bcast_loop c) in B.
    eapply sp_trans; [exact B|]. sph E.
  - eapply sp_do_recv; exact E.
  - eapply sp_do_recv; exact E.
  - eapply sp_do_close; exact E.
  - eapply sp_do_select; exact E.
  - eapply sp_do_select; exact E.
  - unfold do_case in E. sph E.
  - unfold do_genyield in E. destruct (gen (cof d c)); [eapply sp_do_send; exact E | sph E].
  - unfold do_trylock in E. destruct (check_mu m d) as [v d1] eqn:C. apply (sp_check_mu c) in C.
    eapply sp_trans; [exact C|]. destruct (negb _); [sph E|].
    destruct (mu_trylock _ _ _ _ _ _) as [v2 d2] eqn:T. apply sp_trylock in T. inj E. exact T.
  - unfold do_trylock in E. destruct (check_mu m d) as [v d1] eqn:C. apply (sp_check_mu c) in C.
    eapply sp_trans; [exact C|]. destruct (negb _); [sph E|].
    destruct (mu_tryrdlock _ _ _ _ _ _) as [v2 d2] eqn:T. apply sp_tryrdlock in T. inj E. exact T.
  - unfold do_lock in E. destruct (check_mu m d) as [v d1] eqn:C. apply (sp_check_mu c) in C.
    eapply sp_trans; [exact C|]. clear C. destruct (negb _); [sph E|].
    destruct (mu_trylock _ _ _ _ _ _) as [v2 d2] eqn:T. apply sp_trylock in T.
    eapply sp_trans; [exact T|]. clear T. unfold finish_lock in E. sph E.
  - unfold do_lock in E. destruct (check_mu m d) as [v d1] eqn:C. apply (sp_check_mu c) in C.
    eapply sp_trans; [exact C|]. clear C. destruct (negb _); [sph E|].
    destruct (mu_tryrdlock _ _ _ _ _ _) as [v2 d2] eqn:T. apply sp_tryrdlock in T.
    eapply sp_trans; [exact T|]. clear T. unfold finish_lock in E. sph E.
  - unfold do_unlock in E. sph E.
  - unfold do_mudestroy in E. sph E.
  - unfold do_wgadd in E. sph E.
  - unfold do_wgdone in E. destruct (check_wg w d) as [v d1] eqn:C. apply (sp_check_wg c) in C.
    eapply sp_trans; [exact C|]. clear C. destruct (negb _); [sph E|].
    destruct (_ =? _); [sph E|].
    match type of E with context [q ?x (QWg w)] => assert (P : sp c d1 x) by spt; set (dd := x) in * end.
    eapply sp_trans; [exact P|]. clear P.
    destruct (negb _); [sph E|]. destruct (q dd (QWg w)) as [|n1 [|n2 l]] eqn:Q.
    + sph E.
    + inj E. apply (sp_pop c (QWg w) n1 [] dd I Q).
    + eapply sp_yfsr in E. eapply sp_trans; [|exact E]. apply sp_resume_all. exact I.
  - unfold do_wgwait in E. sph E.
  - unfold do_cvsignal in E. destruct (check_cv v d) as [e d1] eqn:C. apply (sp_check_cv c) in C.
    eapply sp_trans; [exact C|]. clear C. destruct (negb _); [sph E|].
    destruct (popq (QCv v) d1) as [[x|] d2] eqn:P; apply (sp_popq c) in P; try exact I; inj E; exact P.
  - unfold do_cvbcast in E. destruct (check_cv v d) as [e d1] eqn:C. apply (sp_check_cv c) in C.
    eapply sp_trans; [exact C|]. clear C. destruct (negb _); [sph E|].
    eapply sp_yfsr in E. eapply sp_trans; [|exact E]. apply sp_resume_all. exact I.
  - unfold do_cvwait in E. sph E.
  - unfold do_join in E. sph E.
  - unfold do_suspend in E. sph E.
  - unfold do_resume in E. sph E.
  - unfold do_work, work_submit in E. sph E.
Qed.

(** ** Exits *)
Definition xspg (d : dat) := (sigw d, sigq d, sigm d, (rtid d, env_async d, env_enabled d, mainthread d)).
Lemma coexit_rest_sp : forall c a d d' fs k, coexit_rest c a d = (d', fs, k) ->
  sp c (set_allcount (allcount d - 1) (set_all (remove1 c (all d)) d)) d'.
Proof.
  intros c a d d' fs k E. unfold coexit_rest in E.
  match type of E with context [gen (cof ?x c)] => assert (P : sp c (set_allcount (allcount d - 1) (set_all (remove1 c (all d)) d)) x); [|set (dd := x) in *] end.
  { eapply sp_trans; [|apply sp_resume_all; exact I]. apply sp_resume_all; exact I. }
  eapply sp_trans; [exact P|]. clear P.
  destruct (gen (cof dd c)).
  - destruct (do_close n dd) as [[d1 fs1] k1] eqn:C. inj E. eapply sp_do_close; exact C.
  - destruct (negb _); sph E.
Qed.
(** the exit either starts the next cleanup handler or takes the coroutine off the
    list of live ones *)
Inductive exits (c : Z) (d d' : dat) (fs : list frame) (k : ctl) : Prop :=
| ex_clean h l : cleanups (cof d c) = h :: l -> d' = upco c (set_cleanups l) d -> fs = [FExitLoop] -> k = CUser -> exits c d d' fs k
| ex_rest a : coexit_rest c a d = (d', fs, k) -> exits c d d' fs k.
Lemma coexit_async_exits : forall c d d' fs k, coexit_async c d = (d', fs, k) -> exits c d d' fs k.
Proof.
  intros c d d' fs k E. unfold coexit_async in E. destruct (cleanups (cof d c)) eqn:CL.
  - eapply ex_rest; exact E.
  - inj E. eapply ex_clean; [exact CL | reflexivity | reflexivity | reflexivity].
Qed.
Lemma do_cancel_sp : forall c id dl nw d d' fs k, do_cancel c id dl nw d = (d', fs, k) ->
  (sp c d d' /\ forall x, k <> CResume x) \/
  (mem id (all d) = true /\ exists d1, sp c d d1 /\ cenabled (cof d1 id) = true /\ d' = upco id (set_canceled true) d1 /\ fs = [FCancelGo] /\ k = CResume id).
Proof.
  intros c id dl nw d d' fs k E. unfold do_cancel in E. destruct (mem id (all d)); cbn [negb] in E; [|left; split; [sph E | inj E; discriminate]].
  destruct (checkdl c dl nw d) as [v d1] eqn:C. apply sp_checkdl in C.
  destruct (negb _); [inj E; left; split; [exact C | discriminate]|].
  destruct (cenabled (cof d1 id)) eqn:CE.
  - inj E. right. split; [reflexivity|]. exists d1. auto.
  - left. split; [apply sp_copause in E; eapply sp_trans; [|exact E]; spt|]. apply copause_cases in E. destruct E as [(-> & _)|(-> & _)]; discriminate.
Qed.
Theorem hret_sp : forall c f v b nw d d' fs k, hret c f v b nw d = (d', fs, k) ->
  match f with
  | FCancelWait id dl => do_cancel c id dl nw (rmq (NCo c) d) = (d', fs, k)
  | FEntry => coexit_rest c false d = (d', fs, k)
  | FExitLoop => exits c d d' fs k
  | FExitGen a s => d' = upco c (set_gen None) d /\ (fs = [] /\ k = CFinal a \/ yfsr [FExitFin a] d' = (d', fs, k))
  | FExitFin a => d' = d /\ fs = [] /\ k = CFinal a
  | FApi _ _ => sp c d d' \/ (v = ECANCELED /\ casync (cof d c) = true /\ exits c d d' fs k)
  | FCvRelock _ _ => sp c d d' \/ (v = ECANCELED /\ casync (cof d c) = true /\ exits c d d' fs k)
  | FCoyield => sp c d d' \/ (canceled (cof d c) = true /\ casync (cof d c) = true /\ exits c d d' fs k)
  | _ => sp c d d'
  end.
Proof.
  intros c f v b nw d d' fs k E. destruct f; cbn [hret] in E; try (sph E; fail).
  - exact E.
  - destruct (is_async o && (v =? ECANCELED) && casync (cof d c)) eqn:B; [right | left; sph E].
    apply andb_true_iff in B. destruct B as [B B3]. apply andb_true_iff in B. destruct B as [_ B2].
    split; [lia|]. split; [exact B3|]. apply coexit_async_exits, E.
  - destruct (canceled _ && _) eqn:B; [right | left; sph E]. apply andb_true_iff in B. destruct B.
    split; [assumption|]. split; [assumption|]. apply coexit_async_exits, E.
  - inj E. apply sp_pause_end.
  - unfold sleep_end in E. sph E.
  - exact E.
  - unfold sigwait_end in E. sph E.
  - unfold wait_end in E. sph E.
  - unfold send_end in E. sph E.
  - unfold recv_end in E. sph E.
  - unfold select_end in E. destruct (checkdl c MAXI nw _) as [v1 d1] eqn:C. inj E. apply sp_checkdl in C.
    eapply sp_trans; [|exact C]. eapply sp_trans; [|apply sp_rm_cases]. spt.
  - unfold lock_end in E. sph E.
  - unfold wgwait_end in E. sph E.
  - unfold cvwait_unlocked in E. sph E.
  - unfold cvwait_end in E. destruct (checkdl c MAXI nw _) as [v1 d1] eqn:C. apply sp_checkdl in C.
    apply sp_cv_relock in E. eapply sp_trans; [|exact E]. eapply sp_trans; [|exact C]. spt.
  - destruct (v =? OK); [left; sph E|]. destruct ((v =? ECANCELED) && casync (cof d c)) eqn:B; [right | left; eapply sp_cv_relock; exact E].
    apply andb_true_iff in B. destruct B as [B B3]. split; [lia|]. split; [exact B3|]. apply coexit_async_exits, E.
  - unfold join_end in E. sph E.
  - unfold suspend_end in E. sph E.
  - unfold work_submit in E. sph E.
  - apply coexit_async_exits, E.
  - unfold exit_gen in E. destruct sched; [|inj E; auto]. pose proof E as E2. apply yfsr_cases in E. destruct E as (-> & _).
    split; [reflexivity|]. right. exact E2.
  - inj E. auto.
Qed.
(** the special operations themselves *)
Theorem hcall_special : forall c o nw d d' fs k, hcall c o nw d = (d', fs, k) -> special o = true ->
  match o with
  | OpCancel id dl => do_cancel c id dl nw d = (d', fs, k)
  | OpExit => exits c d d' fs k
  | OpSetType b => d' = upco c (set_casync b) d /\ fs = [] /\ k = CRet OK
  | OpSetState b => d' = upco c (set_cenabled b) d /\ fs = [] /\ k = CRet OK
  | OpCleanupPush h => d' = upco c (fun r => set_cleanups (h :: cleanups r) r) d /\ fs = [] /\ k = CRet 0
  | OpCleanupPop x => do_cleanup_pop c x d = (d', fs, k)
  | OpSigWatch n => do_sigwatch c n d = (d', fs, k)
  | OpSigUnwatch n => do_sigunwatch c n d = (d', fs, k)
  | _ => True
  end.
Proof.
  intros c o nw d d' fs k E S. destruct o; try discriminate S; cbn [hcall] in E; try exact E; try (inj E; auto; fail).
  apply coexit_async_exits, E.
Qed.
