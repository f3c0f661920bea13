(** Single calls, as steps of the state. *)
From Coq Require Import List ZArith Bool Lia.
From Verif Require Import Util Runtime SchedInv StepInv StackShape RuntimeSpec TraceInv TraceStep BlockSpec.
Import ListNotations.
Local Open Scope Z_scope.

Lemma step_call_eq : forall s c o d fs k sch md, mode s = MUser -> cur (sc s) = Some c -> o <> OpReturn ->
  hcall c o (now s) (dt s) = (d, fs, k) ->
  exec c k (set_stk (zupd (stk (sc s)) c (fs ++ FApi (ncalls s) o :: stk (sc s) c)) (sc s)) = (sch, md) ->
  step s (ECall o) = mkst sch (ctl_dat c (nextid (sc s) + 1) k d) md (now s) (S (ncalls s)) (call_tr s c o fs k).
Proof.
  intros s c o d fs k sch md M CU NR E X. rewrite step_call, M, CU.
  assert (Q : (match o with OpReturn => set_mode (MRet 0) s | _ => do_call s c o end) = do_call s c o) by (destruct o; congruence).
  rewrite Q. Transparent do_call. unfold do_call. rewrite E. unfold apply_res. rewrite X. Opaque do_call. reflexivity.
Qed.
Lemma step_tick_eq : forall s c v f rest b d fs k sch md, mode s = MRet v -> cur (sc s) = Some c -> stk (sc s) c = f :: rest ->
  hret c f v b (now s) (dt s) = (d, fs, k) ->
  exec c k (set_stk (zupd (stk (sc s)) c (fs ++ rest)) (sc s)) = (sch, md) ->
  step s (ETick b) = mkst sch (ctl_dat c (nextid (sc s) + 1) k d) md (now s) (ncalls s) (tick_tr s c v f d fs k).
Proof.
  intros s c v f rest b d fs k sch md M CU SK E X. rewrite step_tick, M, CU, SK.
  Transparent do_tick. unfold do_tick. rewrite E. unfold apply_res. rewrite X. Opaque do_tick. reflexivity.
Qed.

(** A call that the library answers at once: the trace shows the call and the return,
    next to each other, and the ready lists are as before. *)
Lemma call_returns : forall s c o d v b, reach s -> mode s = MUser -> cur (sc s) = Some c ->
  (o <> OpReturn /\ o <> OpStats) -> v <> ECANCELED -> hcall c o (now s) (dt s) = (d, [], CRet v) ->
  let s' := step (step s (ECall o)) (ETick b) in
  mode s' = MUser /\ dt s' = d /\ cur (sc s') = Some c /\ ready s' = ready s /\ paused (sc s') = paused (sc s) /\
  tr s' = TRet (ncalls s) c o v (rbuf (cof d c)) (now s) :: TCall (ncalls s) c o (now s) :: tr s.
Proof.
  intros s c o d v b RE M CU [N1 N2] NV E s'. unfold s'. clear s'. rewrite step_call, M, CU.
  assert (Q : (match o with OpReturn => set_mode (MRet 0) s | _ => do_call s c o end) = do_call s c o) by (destruct o; congruence).
  rewrite Q. clear Q.
  assert (S1 : mode (do_call s c o) = MRet v /\ sc (do_call s c o) = set_stk (zupd (stk (sc s)) c (FApi (ncalls s) o :: stk (sc s) c)) (sc s) /\
    dt (do_call s c o) = d /\ now (do_call s c o) = now s /\ tr (do_call s c o) = TCall (ncalls s) c o (now s) :: tr s).
  { Transparent do_call. unfold do_call. rewrite E. Opaque do_call. repeat split. cbn. destruct o; try reflexivity. congruence. }
  destruct S1 as (S1 & S2 & S3 & S4 & S5). set (z := do_call s c o) in *. clearbody z.
  rewrite step_tick, S1, S2. cbn [cur set_stk stk]. rewrite CU, zupd_eq.
  assert (S6 : hret c (FApi (ncalls s) o) v b (now z) (dt z) = (dt z, [], CUser)) 
    by (cbn [hret]; rewrite (proj2 (Z.eqb_neq _ _) NV), andb_false_r; reflexivity).
  Transparent do_tick. unfold do_tick. rewrite S6. Opaque do_tick. unfold apply_res. cbn. rewrite S2, S3, S4, S5. cbn.
  unfold ready, curl. cbn. rewrite CU. repeat split.
Qed.

