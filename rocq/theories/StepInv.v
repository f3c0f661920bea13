(** The scheduler invariant holds in every reachable state; relation between the
    trace and the set of live coroutines. *)
From Coq Require Import List ZArith Bool Lia Permutation.
From Verif Require Import Util Runtime SchedInv.
Import ListNotations.
Local Open Scope Z_scope.

(** Break the matches of a handler body in hypothesis [H]. *)
Ltac brk H :=
  match type of H with
  | context [match ?x with _ => _ end] =>
      match x with
      | context [match _ with _ => _ end] => fail 1
      | _ => destruct x eqn:?
      end
  end.

Definition not_final (k : ctl) : Prop := forall b, k <> CFinal b.

Lemma yfsr_shape : forall fs d, exists g, yfsr fs d = (d, FCoyield :: g ++ fs, CYield).
Proof.
  intros. unfold yfsr, coyield. destruct (0 <? nresumers d); [exists [FYfsr] | exists []]; reflexivity.
Qed.

Lemma do_close_not_final : forall ch d, not_final (snd (do_close ch d)).
Proof.
  intros ch d b. unfold do_close.
  destruct (negb _); [cbn; discriminate|]. destruct (sclosed _); [cbn; discriminate|].
  destruct (_ || _); [cbn; discriminate|].
  destruct (yfsr_shape [FClose]
     (upch ch (fun x => set_qrecv false (set_rclosed true x))
       (close_loop ch (length (q (upch ch (set_sclosed true) d) (QChan ch))) (upch ch (set_sclosed true) d)))) as (g & ->).
  cbn. discriminate.
Qed.

Lemma coexit_rest_stack : forall c a d d' fs k,
  coexit_rest c a d = (d', fs, k) -> not_final k -> stack_ok fs = true.
Proof.
  intros c a d d' fs k E NF. unfold coexit_rest in E.
  match type of E with context [gen (cof ?x c)] => set (dd := x) in E end.
  match type of E with context [if ?x then yfsr _ _ else _] => set (sb := x) in E end.
  destruct (gen (cof dd c)) as [g|].
  - destruct (do_close g dd) as [[d1 fs1] k1]. inversion E; subst. apply stack_ok_app. reflexivity.
  - destruct sb.
    + destruct (yfsr_shape [FExitFin a] dd) as (g & Y). rewrite Y in E. inversion E; subst.
      change (FCoyield :: g ++ [FExitFin a]) with ((FCoyield :: g) ++ [FExitFin a]).
      apply stack_ok_app. reflexivity.
    + inversion E; subst. exfalso. apply (NF a). reflexivity.
Qed.

Lemma coexit_async_stack : forall c d d' fs k,
  coexit_async c d = (d', fs, k) -> not_final k -> stack_ok fs = true.
Proof.
  intros c d d' fs k E NF. unfold coexit_async in E.
  destruct (cleanups (cof d c)); [eapply coexit_rest_stack; eassumption|].
  inversion E; subst. reflexivity.
Qed.

Lemma exit_gen_stack : forall c a s d d' fs k,
  exit_gen c a s d = (d', fs, k) -> not_final k -> stack_ok fs = true.
Proof.
  intros c a s d d' fs k E NF. unfold exit_gen in E. destruct s.
  - destruct (yfsr_shape [FExitFin a] (upco c (set_gen None) d)) as (g & Y). rewrite Y in E. inversion E; subst.
    change (FCoyield :: g ++ [FExitFin a]) with ((FCoyield :: g) ++ [FExitFin a]).
    apply stack_ok_app. reflexivity.
  - inversion E; subst. exfalso. apply (NF a). reflexivity.
Qed.

Lemma hret_stack : forall c f v b nw d d' fs k rest,
  hret c f v b nw d = (d', fs, k) -> stack_ok (f :: rest) = true -> not_final k ->
  stack_ok (fs ++ rest) = true.
Proof.
  intros c f v b nw d d' fs k rest E S NF.
  destruct rest as [|g rest].
  - rewrite app_nil_r. cbn in S. destruct f; try discriminate S; cbn in E.
    + eapply coexit_rest_stack; eassumption.
    + eapply coexit_async_stack; eassumption.
    + eapply exit_gen_stack; eassumption.
    + inversion E; subst. exfalso. eapply NF; reflexivity.
  - apply stack_ok_app. exact S.
Qed.

(** The invariant of the whole machine. *)
Definition inv (s : state) : Prop := sinv (sc s) /\ mode_ok (sc s) (mode s).

Lemma apply_res_inv : forall c d fs k rest o s,
  xinv c k (set_stk (zupd (stk (sc s)) c (fs ++ rest)) (sc s)) -> inv (apply_res c (d, fs, k) rest o s).
Proof.
  intros c d fs k rest o s X. unfold apply_res.
  destruct (exec c k _) as [sch md] eqn:E.
  destruct (exec_inv _ _ _ _ _ X E) as (A & B & _).
  split; cbn; assumption.
Qed.

Lemma zupd_eq : forall A (f : Z -> A) k v, zupd f k v k = v.
Proof. intros. unfold zupd. rewrite Z.eqb_refl. reflexivity. Qed.
Lemma zupd_neq : forall A (f : Z -> A) k v x, x <> k -> zupd f k v x = f x.
Proof. intros. unfold zupd. destruct (Z.eqb_spec x k); congruence. Qed.
Lemma nupd_eq : forall A (f : nat -> A) k v, nupd f k v k = v.
Proof. intros. unfold nupd. rewrite Nat.eqb_refl. reflexivity. Qed.
Lemma nupd_neq : forall A (f : nat -> A) k v x, x <> k -> nupd f k v x = f x.
Proof. intros. unfold nupd. destruct (Nat.eqb_spec x k); congruence. Qed.
Lemma qid_eqb_spec : forall a b, reflect (a = b) (qid_eqb a b).
Proof.
  intros a b. destruct a, b; cbn; try (constructor; congruence);
    try (destruct (Nat.eqb_spec ch ch0); constructor; congruence);
    try (destruct (Nat.eqb_spec m m0); constructor; congruence);
    try (destruct (Nat.eqb_spec w w0); constructor; congruence);
    try (destruct (Nat.eqb_spec v v0); constructor; congruence);
    destruct (Z.eqb_spec c c0); constructor; congruence.
Qed.
Lemma qupd_eq : forall f k v, qupd f k v k = v.
Proof. intros. unfold qupd. destruct (qid_eqb_spec k k); congruence. Qed.
Lemma qupd_neq : forall f k v x, x <> k -> qupd f k v x = f x.
Proof. intros. unfold qupd. destruct (qid_eqb_spec x k); congruence. Qed.
Lemma node_eqb_spec : forall a b, reflect (a = b) (node_eqb a b).
Proof.
  intros a b. destruct a, b; cbn; try (constructor; congruence).
  - destruct (Z.eqb_spec c c0); constructor; congruence.
  - destruct (Z.eqb_spec c c0), (Z.eqb_spec i i0); cbn; constructor; congruence.
Qed.

(** Building [xinv] for a call and for a return. *)
Lemma xinv_of : forall c k s st' ,
  sinv s -> cur s = Some c ->
  (not_final k -> stack_ok st' = true) ->
  xinv c k (set_stk (zupd (stk s) c st') s).
Proof.
  intros c k s st' [[C1 C2 C3] ND AL ST ID] CU OK.
  assert (A : stk s c <> []).
  { apply AL. unfold everyone, curl. rewrite CU. left. reflexivity. }
  split; cbn; auto.
  - split; assumption.
  - intros x N. rewrite zupd_neq by exact N. apply AL.
  - intros x N. rewrite zupd_neq by exact N. apply ST.
  - intros NF. rewrite zupd_eq. apply OK. exact NF.
  - intros x N. rewrite zupd_neq by exact N. apply ID.
Qed.

Lemma step_call : forall s o, step s (ECall o) =
  match mode s, cur (sc s) with
  | MUser, Some c => match o with OpReturn => set_mode (MRet 0) s | _ => do_call s c o end
  | _, _ => s
  end.
Proof. reflexivity. Qed.
Lemma step_tick : forall s b, step s (ETick b) =
  match mode s, cur (sc s) with
  | MRet v, Some c => match stk (sc s) c with [] => set_mode MUB s | f :: rest => do_tick s c v f rest b end
  | _, _ => s
  end.
Proof. reflexivity. Qed.
Lemma step_main : forall s ios, step s (EMain ios) = match mode s with MMain => do_main s ios | _ => s end.
Proof. reflexivity. Qed.
Global Opaque do_call do_tick do_main.

Lemma do_call_inv : forall s c o, inv s -> cur (sc s) = Some c -> inv (do_call s c o).
Proof.
  intros s c o [SI MO] CU.
  Transparent do_call. unfold do_call. Opaque do_call.
  destruct (hcall c o (now s) (dt s)) as [[d fs] k] eqn:E.
  change (inv (apply_res c (d, fs, k) (FApi (ncalls s) o :: stk (sc s) c) (call_obs c (ncalls s) o s) s)).
  apply apply_res_inv. apply xinv_of; [exact SI | exact CU|].
  intros _. apply stack_ok_app.
  assert (A : stk (sc s) c <> []).
  { apply (si_alive _ SI). unfold everyone, curl. rewrite CU. left. reflexivity. }
  pose proof (si_stack _ SI c A) as B. cbn. destruct (stk (sc s) c); [congruence | exact B].
Qed.

Lemma do_tick_inv : forall s c v f rest b,
  inv s -> cur (sc s) = Some c -> stk (sc s) c = f :: rest -> inv (do_tick s c v f rest b).
Proof.
  intros s c v f rest b [SI MO] CU SK.
  Transparent do_tick. unfold do_tick. Opaque do_tick.
  destruct (hret c f v b (now s) (dt s)) as [[d fs] k] eqn:E.
  apply apply_res_inv. apply xinv_of; [exact SI | exact CU|].
  intros NF. eapply hret_stack; [exact E | | exact NF].
  rewrite <- SK. apply (si_stack _ SI). rewrite SK. discriminate.
Qed.

Lemma wake_swinv : forall id s, swinv s -> swinv (wake id s).
Proof.
  intros id s [C ND AL ST ID]. pose proof (wake_perm id s ND) as P.
  destruct (wake_frame id s) as (W1 & W2 & _).
  split; rewrite ?W1, ?W2; auto.
  - apply wake_counts; assumption.
  - apply (Permutation_NoDup (Permutation_sym P)). exact ND.
  - intros c. rewrite <- AL. split; intros H;
      [apply (Permutation_in _ P H) | apply (Permutation_in _ (Permutation_sym P) H)].
Qed.
Lemma wakes_swinv : forall ws s, swinv s -> swinv (fold_left (fun a id => wake id a) ws s).
Proof. induction ws as [|w ws IH]; intros s H; [exact H|]. cbn. apply IH, wake_swinv, H. Qed.

Lemma sinv_main_swinv : forall s, sinv s -> cur s = None -> swinv s.
Proof.
  intros s [C ND AL ST ID] CU. unfold everyone, curl in *. rewrite CU in *. cbn in *. split; auto.
Qed.

Lemma active_false : forall s, counts s -> active s = false -> everyone s = [].
Proof.
  intros s [C1 C2 C3] A. unfold active in A. apply Z.ltb_ge in A. rewrite C1, C2, C3 in A.
  unfold everyone, curl, parked. destruct (cur s); [lia|].
  destruct (runners s); [|cbn [length] in A; lia]. destruct (yielders s); [|cbn [length] in A; lia].
  destruct (paused s); [reflexivity | cbn [length] in A; lia].
Qed.

Lemma do_main_inv : forall s ios, inv s -> mode s = MMain -> inv (do_main s ios).
Proof.
  intros s ios [SI MO] M. rewrite M in MO. destruct MO as (CU & RU & EX).
  Transparent do_main. unfold do_main. Opaque do_main.
  destruct (active (sc s)) eqn:A; cbn [negb].
  - destruct (if 0 <? npsd (sc s) then _ else _) as [[d ws] [n|]].
    + split; [exact SI | exact I].
    + destruct (sco_switch true _) as [sch md] eqn:E.
      assert (W : swinv (fold_left (fun a id => wake id a) ws (sc s))).
      { apply wakes_swinv, sinv_main_swinv; assumption. }
      destruct (sco_switch_inv _ _ _ _ W E) as (S1 & S2 & _). split; assumption.
  - split; [exact SI|]. cbn. apply active_false; [apply SI | exact A].
Qed.

Lemma mode_ok_ext : forall s s' m,
  cur s' = cur s -> runners s' = runners s -> yielders s' = yielders s -> paused s' = paused s ->
  exitreq s' = exitreq s -> mode_ok s m -> mode_ok s' m.
Proof.
  intros s s' m E1 E2 E3 E4 E5 H. destruct m; cbn in *; rewrite ?E1, ?E2, ?E5; auto.
  unfold everyone, curl, parked in *. rewrite E1, E2, E3, E4. exact H.
Qed.

Theorem step_inv : forall e s, inv s -> inv (step s e).
Proof.
  intros e s H. pose proof H as [SI MO]. destruct e.
  - rewrite step_call. destruct (mode s) eqn:M; auto. destruct (cur (sc s)) as [c|] eqn:CU; auto.
    destruct o; try (apply do_call_inv; assumption).
    split; [exact SI|]. exists c. exact CU.
  - rewrite step_tick. destruct (mode s) eqn:M; auto. destruct (cur (sc s)) as [c|] eqn:CU; auto.
    destruct (stk (sc s) c) eqn:SK; [split; [exact SI | exact I]|].
    apply do_tick_inv; assumption.
  - rewrite step_main. destruct (mode s) eqn:M; auto. apply do_main_inv; assumption.
  - cbn. destruct (now s <? t); auto.
  - cbn. destruct (mode s) eqn:M; auto;
      (destruct (_ || _); [exact H|]; destruct (sigw (dt s) n =? 0);
        [destruct (n =? 13); [exact H | split; [exact SI | exact I]] | split; cbn; [exact SI | rewrite M; exact MO]]).
  - cbn. destruct (mode s) eqn:M; auto;
      (destruct (mem c (inflight (dt s))); [|exact H];
       destruct (stk (sc s) c) as [|[] ?]; try (split; [exact SI | exact I]);
       split; cbn; [exact SI | rewrite M; exact MO]).
  - split.
    + destruct SI as [[C1 C2 C3] ND AL ST ID]. split; cbn; auto.
      * split; assumption.
      * intros c Hc. apply ID in Hc. lia.
    + cbn. eapply mode_ok_ext; [| | | | |exact MO]; reflexivity.
  - cbn. destruct (_ =? 0); exact H.
  - exact H.
  - cbn. destruct (_ =? 0); exact H.
  - cbn. destruct (_ =? 0); exact H.
Qed.

Lemma init_inv : forall g, inv (init g).
Proof.
  intros g. unfold init. split; cbn.
  - split; cbn.
    + split; reflexivity.
    + repeat constructor. intros [].
    + intros c. unfold zupd. destruct (Z.eqb_spec c (cfg_lastid g + 1)) as [->|N].
      * split; [discriminate | left; reflexivity].
      * split; [intros [H|[]]; congruence | congruence].
    + intros c. unfold zupd. destruct (Z.eqb_spec c (cfg_lastid g + 1)); [reflexivity | congruence].
    + intros c. unfold zupd. destruct (Z.eqb_spec c (cfg_lastid g + 1)); [lia | congruence].
  - eexists. reflexivity.
Qed.

Lemma run_ind : forall (P : state -> Prop),
  (forall s e, P s -> P (step s e)) -> forall es s, P s -> P (run s es).
Proof.
  intros P HS. unfold run. induction es as [|e es IH]; intros s H; [exact H|].
  cbn. apply IH, HS, H.
Qed.

Theorem run_inv : forall g es, inv (run (init g) es).
Proof. intros. apply run_ind; [intros; apply step_inv; assumption | apply init_inv]. Qed.
