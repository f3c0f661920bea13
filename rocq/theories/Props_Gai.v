(** C52: name lookups in a background thread. *)
From Coq Require Import ZArith List Bool Lia.
From Verif Require Import Util Runtime Gai.
Import ListNotations.
Local Open Scope Z_scope.

(** ** Specification *)
(** the call is over: it has returned, or its coroutine was ended by a cancellation *)
Definition over (s : gst) : Prop := g_call s = GDead \/ exists r l, g_call s = GDone r l.
(** the thread is not there (any more) *)
Definition no_thread (s : gst) : Prop := g_th s = TNone \/ g_th s = TGone.
(** the list that the caller got *)
Definition got (s : gst) : option Z := match g_call s with GDone _ (Some l) => l | _ => None end.
(** pipe does not hand out descriptor 0 (which it does when stdin is closed) *)
Definition nonzero (e : gev) : Prop := match e with ESetup _ _ _ _ _ _ _ _ _ (Some (f0, f1)) _ _ => f0 <> 0 /\ f1 <> 0 | _ => True end.

(** ** Invariant *)
Definition some {A} (o : option A) : bool := match o with Some _ => true | None => false end.
Definition lst (s : gst) : option Z := match g_look s with Some (_, l) => l | None => None end.
Definition took (c : gphase) : bool := match c with GPopping _ (Some _) | GDone _ (Some _) => true | _ => false end.
Definition ended (c : gphase) : bool := match c with GDone _ _ | GDead => true | _ => false end.
(** what the coroutine returns or will return is right *)
Definition right_result (s : gst) : Prop :=
  match g_call s with
  | GPopping r (Some l) | GDone r (Some l) => g_look s = Some (r, l)
  | GPopping r None | GDone r None => r = EAI_SYSTEM
  | GIdle => False
  | _ => True
  end.
Record gw (s : gst) : Prop := {
  w_own : forall x, g_own s x = match x with
    | RArgs | RFd0 | RFd1 => true | RNode => a_node (g_args s) | RService => a_service (g_args s) | RHints => a_hints (g_args s)
    | RList => some (lst s) end;
  w_flag : a_flag (g_args s) = ended (g_call s);
  w_res : a_res (g_args s) = if took (g_call s) then None else lst s;
  w_ret : forall r l, g_look s = Some (r, l) -> a_ret (g_args s) = r;
  w_right : right_result s;
  w_th : match g_th s with
    | TLook => g_look s = None /\ g_pipe s = false /\ took (g_call s) = false
    | TNotify => g_look s <> None /\ g_pipe s = false /\ took (g_call s) = false
    | TSpin => g_look s <> None /\ (g_call s = GWait -> g_pipe s = true)
    | _ => False
    end }.
Lemma when_release : forall b r s, g_ub s = false -> (b = true -> g_own s r = true) ->
  let s' := when b (release r) s in g_ub s' = false /\ (forall x, g_own s' x = if res_eqb x r && b then false else g_own s x) /\
  g_call s' = g_call s /\ g_args s' = g_args s /\ g_look s' = g_look s.
Proof.
  intros b r s U H. destruct b; cbn.
  - unfold release. rewrite H by reflexivity. cbn. repeat split; auto. intros x. rewrite andb_true_r. reflexivity.
  - repeat split; auto. intros x. rewrite andb_false_r. reflexivity.
Qed.
Lemma free_spec : forall s, g_ub s = false -> g_own s RArgs = true -> (a_service (g_args s) = true -> g_own s RService = true) ->
  (a_node (g_args s) = true -> g_own s RNode = true) -> (a_hints (g_args s) = true -> g_own s RHints = true) ->
  (some (a_res (g_args s)) = true -> g_own s RList = true) -> g_own s RFd0 = true -> g_own s RFd1 = true ->
  let s' := args_free s in g_ub s' = false /\
  (forall x, g_own s' x = if match x with
      | RArgs => true | RNode => a_node (g_args s) | RService => a_service (g_args s) | RHints => a_hints (g_args s)
      | RFd0 => negb (a_fd0 (g_args s) =? 0) | RFd1 => negb (a_fd1 (g_args s) =? 0) | RList => some (a_res (g_args s)) end then false else g_own s x) /\
  g_call s' = g_call s /\ g_args s' = g_args s /\ g_look s' = g_look s.
Proof.
  intros s U OA OS ON OH OL O0 O1. cbn zeta. unfold args_free. rewrite OA.
  destruct (when_release (a_service (g_args s)) RService s U OS) as (U1 & F1 & C1 & A1 & L1). set (s1 := when (a_service (g_args s)) (release RService) s) in *.
  destruct (when_release (a_node (g_args s)) RNode s1 U1) as (U2 & F2 & C2 & A2 & L2); [rewrite F1; cbn; exact ON|]. set (s2 := when (a_node (g_args s)) (release RNode) s1) in *.
  destruct (when_release (a_hints (g_args s)) RHints s2 U2) as (U3 & F3 & C3 & A3 & L3); [rewrite F2, F1; cbn; exact OH|]. set (s3 := when (a_hints (g_args s)) (release RHints) s2) in *.
  destruct (when_release (some (a_res (g_args s))) RList s3 U3) as (U4 & F4 & C4 & A4 & L4); [rewrite F3, F2, F1; cbn; exact OL|].
  change (match a_res (g_args s) with Some _ => true | None => false end) with (some (a_res (g_args s))). set (s4 := when (some (a_res (g_args s))) (release RList) s3) in *.
  destruct (when_release (negb (a_fd0 (g_args s) =? 0)) RFd0 s4 U4) as (U5 & F5 & C5 & A5 & L5); [rewrite F4, F3, F2, F1; cbn; auto|]. set (s5 := when _ (release RFd0) s4) in *.
  destruct (when_release (negb (a_fd1 (g_args s) =? 0)) RFd1 s5 U5) as (U6 & F6 & C6 & A6 & L6); [rewrite F5, F4, F3, F2, F1; cbn; auto|]. set (s6 := when _ (release RFd1) s5) in *.
  destruct (when_release true RArgs s6 U6) as (U7 & F7 & C7 & A7 & L7); [rewrite F6, F5, F4, F3, F2, F1; cbn; auto|]. cbn [when] in *.
  split; [exact U7|]. split; [|split; [congruence | split; congruence]]. intros x. rewrite F7, F6, F5, F4, F3, F2, F1. destruct x; cbn; try reflexivity;
    match goal with |- (if ?b then _ else _) = _ => destruct b; reflexivity end.
Qed.
Section Inv.
  Variable NZ : Prop.
  Definition gi (s : gst) : Prop := g_ub s = false /\
    (s = ginit
     \/ (g_th s = TNone /\ (exists r l, g_call s = GDone r l /\ (l = None -> r = EAI_SYSTEM \/ r = EAI_MEMORY)) /\
         (forall x, x <> RList -> x <> RFd0 -> x <> RFd1 -> g_own s x = false) /\ (NZ -> g_own s RFd0 = false /\ g_own s RFd1 = false) /\ g_own s RList = some (got s))
     \/ (gw s /\ (NZ -> a_fd0 (g_args s) <> 0 /\ a_fd1 (g_args s) <> 0))
     \/ (g_th s = TGone /\ ended (g_call s) = true /\ right_result s /\ g_look s <> None /\
         (forall x, x <> RList -> x <> RFd0 -> x <> RFd1 -> g_own s x = false) /\ (NZ -> g_own s RFd0 = false /\ g_own s RFd1 = false) /\ g_own s RList = some (got s))).
  Lemma gi_setup : forall c ip nd sv hi ma mn ms mh pp nb th, (NZ -> nonzero (ESetup c ip nd sv hi ma mn ms mh pp nb th)) ->
    gi (setup c ip nd sv hi ma mn ms mh pp nb th ginit).
  Proof.
    intros c ip nd sv hi ma mn ms mh pp nb th N. unfold setup. destruct (c =? OK); cbn [negb]; [|split; [reflexivity|right; left; cbn; repeat split; eauto]].
    destruct ip as [[r l]|]; [split; [destruct l; reflexivity|]; right; left; destruct l; cbn; repeat split; eauto; try (do 2 eexists; split; [reflexivity | discriminate]); intros []; cbn; congruence|].
    destruct ma; cbn [negb]; [|split; [reflexivity|right; left; cbn; repeat split; eauto]].
    assert (B : forall r s, r = EAI_SYSTEM \/ r = EAI_MEMORY -> g_ub s = false -> g_th s = TNone ->
       (forall x, x <> RFd0 -> x <> RFd1 -> g_own s x = false) -> (NZ -> g_own s RFd0 = false /\ g_own s RFd1 = false) -> gi (setcall (GDone r None) s)).
    { intros r s R U T O F. split; [exact U|]. right. left. cbn. split; [exact T|]. split; [eauto|]. split; [auto|]. split; [exact F|]. apply O; discriminate. }
    destruct nd, mn; cbn [andb negb]; try (apply B; [auto | reflexivity | reflexivity | intros []; reflexivity | intros; split; reflexivity]);
    destruct sv, ms; cbn [andb negb]; try (apply B; [auto | reflexivity | reflexivity | intros []; reflexivity | intros; split; reflexivity]);
    destruct hi, mh; cbn [andb negb]; try (apply B; [auto | reflexivity | reflexivity | intros []; reflexivity | intros; split; reflexivity]);
    (destruct pp as [[f0 f1]|]; [|apply B; [auto | reflexivity | reflexivity | intros []; reflexivity | intros; split; reflexivity]]);
    cbn in N; destruct nb, th; cbn [negb];
    try (split; [reflexivity|]; right; right; left; split; [constructor; cbn; auto; [intros []; reflexivity | discriminate] | exact N]);
    (apply B; [auto| | | |]; unfold args_free; cbn;
      destruct (Z.eqb_spec f0 0), (Z.eqb_spec f1 0); cbn; try reflexivity; try (intros []; cbn; congruence); intros H; destruct (N H); try contradiction; split; reflexivity).
  Qed.
  Lemma gi_free : forall s, g_ub s = false -> gw s -> (NZ -> a_fd0 (g_args s) <> 0 /\ a_fd1 (g_args s) <> 0) -> g_look s <> None -> ended (g_call s) = true ->
    gi (setth TGone (args_free s)).
  Proof.
    intros s U W FD LK EN. destruct W as [O F RS RT RR T].
    destruct (free_spec s) as (A1 & A2 & A3 & A4 & A5); [exact U | apply (O RArgs) | rewrite (O RService); auto | rewrite (O RNode); auto | rewrite (O RHints); auto | | apply (O RFd0) | apply (O RFd1)|].
    { rewrite (O RList), RS. destruct (took (g_call s)); cbn; auto; discriminate. }
    split; [exact A1|]. right. right. right. cbn [setth g_th g_call g_own g_look]. rewrite A3, A5.
    assert (GT : got (setth TGone (args_free s)) = got s) by (unfold got; cbn [setth g_call]; rewrite A3; reflexivity).
    split; [reflexivity|]. split; [exact EN|]. split; [unfold right_result in *; cbn [setth g_call g_look]; rewrite A3, A5; exact RR|].
    split; [exact LK|]. split; [intros x N1 N2 N3; rewrite A2, O; destruct x; try congruence; match goal with |- (if ?b then _ else _) = _ => destruct b; reflexivity end|]. split.
    - intros H. destruct (FD H) as [D0 D1]. rewrite !A2. apply Z.eqb_neq in D0, D1. rewrite D0, D1. auto.
    - rewrite A2, GT, RS, (O RList). unfold got, right_result, lst in *. destruct (g_call s) as [| |? [?|]|? [?|]|]; cbn in *; try discriminate EN.
      + rewrite RR. reflexivity.
      + match goal with |- (if ?b then false else ?b) = _ => destruct b; reflexivity end.
      + match goal with |- (if ?b then false else ?b) = _ => destruct b; reflexivity end.
  Qed.
  Lemma gi_work : forall s e, g_ub s = false -> gw s -> (NZ -> a_fd0 (g_args s) <> 0 /\ a_fd1 (g_args s) <> 0) -> gi
    match e with
    | ESetup c ip nd sv hi ma mn ms mh pp nb th => match g_call s with GIdle => setup c ip nd sv hi ma mn ms mh pp nb th s | _ => s end
    | _ => gstep s e
    end.
  Proof.
    intros s e U W FD. assert (ME : gi s) by (split; [exact U|]; right; right; left; auto).
    destruct W as [O F RS RT RR T]. unfold gstep. rewrite U.
    pose proof (O RArgs) as OA. pose proof (O RFd1) as OF. pose proof (O RFd0) as O0. pose proof (O RNode) as ON. pose proof (O RService) as OS. pose proof (O RHints) as OH. pose proof (O RList) as OL.
    destruct s as [ca th own [an asv ah f0 f1 ar art fl] pi lk u]. cbn in *. subst u fl.
    destruct e as [c ip nd sv hi ma mn ms mh pp nb th'|r l| | |ok| |].
    - destruct ca; try exact ME. contradiction.
    - destruct th; try exact ME. destruct T as (-> & -> & TK). cbn in OL. destruct l as [l|]; cbn; unfold setargs, alloc; cbn; rewrite OA; cbn; (split; [reflexivity|]); right; right; left; (split; [|exact FD]);
        (constructor; cbn; [intros []; cbn; auto | reflexivity | rewrite TK; reflexivity | intros r' l' Q; injection Q; auto | | repeat split; auto; discriminate]);
        unfold right_result in *; cbn in *; destruct ca as [| |? [?|]|? [?|]|]; auto; discriminate TK.
    - destruct th; try exact ME. rewrite OA, OF. cbn. split; [reflexivity|]. right. right. left. split; [|exact FD]. destruct T as (A & B & C). constructor; cbn; auto.
    - destruct th; try exact ME. rewrite OA. cbn. destruct (ended ca) eqn:EN; [|exact ME]. destruct T as (T1 & T2).
      match goal with |- gi (setth TGone (args_free ?z)) => apply (gi_free z eq_refl) end; [constructor; cbn; auto | exact FD | exact T1 | exact EN].
    - destruct ca; try exact ME. cbn in *. destruct ok.
      + destruct pi; [|exact ME]. unfold setargs. cbn. rewrite OA. cbn. split; [reflexivity|]. right. right. left. split; [|exact FD].
        destruct th; try contradiction; try (destruct T as (_ & D & _); discriminate D). destruct T as (LK & _). destruct lk as [[r l]|]; [|congruence].
        constructor; cbn; auto; [unfold right_result; cbn; rewrite (RT r l eq_refl), RS; reflexivity | split; [exact LK | discriminate]].
      + split; [reflexivity|]. right. right. left. split; [|exact FD]. constructor; cbn; auto. destruct th; auto. split; [apply T | discriminate].
    - destruct ca as [| |r l|r l|]; try exact ME. cbn in *. unfold setflag, setargs. cbn. rewrite OA. cbn. split; [reflexivity|]. right. right. left. split; [|exact FD].
      constructor; cbn; auto. destruct th; auto. split; [apply T | discriminate].
    - destruct ca; try exact ME. cbn in *. unfold setflag, setargs. cbn. rewrite OA. cbn. split; [reflexivity|]. right. right. left. split; [|exact FD].
      constructor; cbn; auto. destruct th; auto. split; [apply T | discriminate].
  Qed.
  Lemma gi_step : forall s e, (NZ -> nonzero e) -> gi s -> gi (gstep s e).
  Proof.
    intros s e NE (U & G). unfold gstep. rewrite U. destruct G as [->|[(TH & (r & l & CA & RR) & O)|[(W & FD)|(TH & EN & RR & LK & O)]]].
    - destruct e; cbn; try (split; [reflexivity | left; reflexivity]). apply gi_setup, NE.
    - assert (ME : gi s) by (split; [exact U|]; right; left; eauto 8). destruct e; rewrite ?TH, ?CA; exact ME.
    - pose proof (gi_work s e U W FD) as H. unfold gstep in H. rewrite U in H. destruct e; exact H.
    - assert (ME : gi s) by (split; [exact U|]; right; right; right; auto 8). destruct e; rewrite ?TH; try exact ME; destruct (g_call s) eqn:CA; try exact ME; discriminate EN.
  Qed.
End Inv.
Lemma gi_run : forall (NZ : Prop) es, (NZ -> Forall nonzero es) -> gi NZ (grun ginit es).
Proof.
  intros NZ es. induction es as [|e es IH] using rev_ind; intros N; [split; [reflexivity | left; reflexivity]|].
  unfold grun. rewrite fold_left_app. cbn. apply gi_step; [intros H; specialize (N H); apply Forall_app in N; destruct N as [_ N]; inversion N; assumption|].
  apply IH. intros H. specialize (N H). apply Forall_app in N. apply N.
Qed.
Lemma gi_any : forall es, gi False (grun ginit es).
Proof. intros es. apply gi_run. intros []. Qed.

(** ** The claims *)
(** No use of freed memory, no double free and no double close, whatever the
    interleaving, whatever fails, and however the wait ends. *)
Theorem C52_no_ub : forall es, g_ub (grun ginit es) = false.
Proof. intros es. apply gi_any. Qed.
(** While the coroutine is in the call, the thread does not free what they share; when
    the coroutine reads the result, the thread has finished writing it and only polls the
    (atomic) flag. *)
Theorem C52_no_race : forall es, let s := grun ginit es in g_call s = GWait -> g_own s RArgs = true /\ (g_pipe s = true -> g_th s = TSpin).
Proof.
  intros es s C. pose proof (gi_any es) as (_ & G). fold s in G. destruct G as [Q|[(_ & (r & l & C' & _) & _)|[(W & _)|(_ & E & _)]]].
  - rewrite Q in C. discriminate C.
  - congruence.
  - split; [apply (w_own _ W RArgs)|]. intros P. pose proof (w_th _ W) as T. destruct (g_th s); try contradiction; try reflexivity; destruct T as (_ & D & _); congruence.
  - rewrite C in E. discriminate E.
Qed.
(** The caller gets the value and the list of its own lookup, or an error and no list. *)
Theorem C52_result : forall es r, let s := grun ginit es in
  (forall l, g_call s = GDone r (Some l) -> g_th s <> TNone -> g_look s = Some (r, l)) /\
  (g_call s = GDone r None -> r = EAI_SYSTEM \/ r = EAI_MEMORY).
Proof.
  intros es r s. pose proof (gi_any es) as (_ & G). fold s in G. destruct G as [Q|[(T & (r' & l' & C' & N) & _)|[(W & _)|(T & _ & R & _)]]].
  - rewrite Q. split; [intros l|]; intros C; discriminate C.
  - split; [congruence|]. intros C. rewrite C' in C. injection C as -> ->. auto.
  - pose proof (w_right _ W) as R. unfold right_result in R. split; [intros l C _ | intros C]; rewrite C in R; auto.
  - unfold right_result in R. split; [intros l C _ | intros C]; rewrite C in R; auto.
Qed.
(** Nothing leaks: when the call is over and the thread gone, everything has been freed and
    closed except the list that the caller got, which is the caller's to free. *)
Theorem C52_no_leak : forall es, Forall nonzero es -> let s := grun ginit es in over s -> no_thread s ->
  forall x, g_own s x = true <-> x = RList /\ got s <> None.
Proof.
  intros es N s OV NT x. destruct (gi_run True es (fun _ => N)) as (_ & G). fold s in G.
  assert (K : (forall x, x <> RList -> x <> RFd0 -> x <> RFd1 -> g_own s x = false) -> (True -> g_own s RFd0 = false /\ g_own s RFd1 = false) -> g_own s RList = some (got s) -> g_own s x = true <-> x = RList /\ got s <> None).
  { intros H1 H2 H3. destruct (H2 Logic.I) as [F0 F1]. destruct x; try (rewrite ?F0, ?F1, ?H1 by discriminate; split; [discriminate | intros [D _]; discriminate D]).
    rewrite H3. destruct (got s); cbn; split; intros; try split; auto; try discriminate. destruct H as [_ H]. congruence. }
  destruct G as [Q|[(_ & _ & A & B & C)|[(W & _)|(_ & _ & _ & _ & A & B & C)]]]; [| exact (K A B C) | | exact (K A B C)].
  - exfalso. rewrite Q in OV. destruct OV as [D|(r & l & D)]; discriminate D.
  - exfalso. pose proof (w_th _ W) as T. destruct NT as [D|D]; rewrite D in T; exact T.
Qed.
(** The list goes to exactly one side: as long as the caller has not got it, it is the
    thread's, and if the caller never gets it, the thread frees it ([C52_no_leak]); a list
    the caller got is not freed by the thread. *)
Theorem C52_list_kept : forall es, let s := grun ginit es in got s <> None -> g_own s RList = true.
Proof.
  intros es s H. pose proof (gi_any es) as (_ & G). fold s in G. destruct G as [Q|[(_ & _ & _ & _ & C)|[(W & _)|(_ & _ & _ & _ & _ & _ & C)]]].
  - rewrite Q in H. cbn in H. congruence.
  - rewrite C. destruct (got s); [reflexivity | congruence].
  - rewrite (w_own _ W RList). pose proof (w_right _ W) as R. unfold right_result, got, lst in *. destruct (g_call s) as [| |? ?|? [?|]|]; try congruence. rewrite R. destruct o; [reflexivity | congruence].
  - rewrite C. destruct (got s); [reflexivity | congruence].
Qed.
(** The thread ends: once the call is over and the lookup has answered, the thread's own
    next steps end it; nothing else is needed. *)
Theorem C52_thread_ends : forall es r l, let s := grun ginit es in over s -> no_thread (grun s [ELookup r l; ENotify; ESpin]).
Proof.
  intros es r l s OV. pose proof (gi_any es) as (U & G). fold s in U, G. destruct G as [Q|[(T & (r' & l' & C & _) & _)|[(W & _)|(T & _)]]].
  - exfalso. rewrite Q in OV. destruct OV as [D|(r' & l' & D)]; discriminate D.
  - left. cbn. unfold gstep. rewrite !U. rewrite !T. rewrite !U, !T. reflexivity.
  - assert (EN : ended (g_call s) = true) by (destruct OV as [D|(r' & l' & D)]; rewrite D; reflexivity).
    assert (SP : forall z, gw z -> g_ub z = false -> ended (g_call z) = true -> g_th z = TSpin -> g_th (gstep z ESpin) = TGone).
    { intros z WZ UZ EZ TZ. unfold gstep. rewrite UZ, TZ, (w_own _ WZ RArgs), (w_flag _ WZ), EZ. reflexivity. }
    assert (GW : forall z, gi False z -> ended (g_call z) = true -> (g_th z = TLook \/ g_th z = TNotify \/ g_th z = TSpin) -> gw z /\ g_ub z = false).
    { intros z (UZ & GZ) EZ TZ. split; [|exact UZ]. destruct GZ as [Q|[(T & _)|[(WZ & _)|(T & _)]]]; [rewrite Q in EZ; discriminate EZ | | exact WZ |]; rewrite T in TZ; destruct TZ as [D|[D|D]]; discriminate D. }
    assert (ST : forall z e, gi False z -> gi False (gstep z e)) by (intros z e; apply gi_step; intros []).
    assert (NO : forall z, gi False z -> ended (g_call z) = true -> g_th z = TNotify -> g_th (gstep z ENotify) = TSpin /\ ended (g_call (gstep z ENotify)) = true).
    { intros z GZ EZ TZ. destruct (GW z GZ EZ) as [WZ UZ]; [auto|]. unfold gstep. rewrite UZ, TZ, (w_own _ WZ RArgs), (w_own _ WZ RFd1). cbn. auto. }
    assert (LO : forall z, gi False z -> ended (g_call z) = true -> g_th z = TLook -> g_th (gstep z (ELookup r l)) = TNotify /\ ended (g_call (gstep z (ELookup r l))) = true).
    { intros z GZ EZ TZ. destruct (GW z GZ EZ) as [WZ UZ]; [auto|]. unfold gstep. rewrite UZ, TZ. pose proof (w_own _ WZ RArgs) as OA. destruct l; cbn; unfold setargs; cbn; rewrite OA; cbn; auto. }
    assert (SK : forall z e, g_ub z = false -> (e = ELookup r l /\ g_th z <> TLook \/ e = ENotify /\ g_th z <> TNotify) -> gstep z e = z).
    { intros z e UZ [[-> NZ]|[-> NZ]]; unfold gstep; rewrite UZ; destruct (g_th z); congruence. }
    assert (G : gi False s) by apply gi_any.
    right. cbn. pose proof (w_th _ W) as T. destruct (g_th s) eqn:TH; try contradiction.
    + destruct (LO s G EN TH) as [T1 E1]. destruct (NO _ (ST _ (ELookup r l) G) E1 T1) as [T2 E2]. destruct (GW _ (ST _ ENotify (ST _ (ELookup r l) G)) E2) as [W3 U3]; [auto|]. apply SP; assumption.
    + rewrite (SK s (ELookup r l) U) by (left; split; [reflexivity | congruence]). destruct (NO s G EN TH) as [T2 E2]. destruct (GW _ (ST _ ENotify G) E2) as [W3 U3]; [auto|]. apply SP; assumption.
    + rewrite (SK s (ELookup r l) U) by (left; split; [reflexivity | congruence]). rewrite (SK s ENotify U) by (right; split; [reflexivity | congruence]). apply SP; assumption.
  - right. cbn. unfold gstep. rewrite !U. rewrite !T. rewrite !U, !T. reflexivity.
Qed.
(** The errors of neco_getaddrinfo: none for 0, NECO_ERROR for a system error, NECO_GAIERROR
    otherwise. *)
Theorem C52_error : forall r, (gai_error r = OK <-> r = 0) /\ (gai_error r = -1 <-> r = EAI_SYSTEM) /\ (gai_error r = -14 <-> r <> 0 /\ r <> EAI_SYSTEM).
Proof.
  intros r. unfold gai_error, OK. destruct (Z.eqb_spec r 0) as [->|N0]; [repeat split; intros; try discriminate; try tauto; destruct H; congruence|].
  destruct (Z.eqb_spec r EAI_SYSTEM) as [->|N1]; repeat split; intros; try discriminate; try tauto; try congruence.
Qed.
(** When stdin is closed, pipe hands out descriptor 0, which is taken for "not open": it
    is never closed. *)
Definition ex52z : list gev := [ESetup OK None true true false true true true true (Some (0, 3)) true true; ELookup 0 (Some 77); ENotify; ERead true; EPop; ESpin].
Theorem C52_fd_zero_refuted : exists es, let s := grun ginit es in over s /\ no_thread s /\ g_own s RFd0 = true.
Proof. exists ex52z. intros s. split; [right; do 2 eexists; vm_compute; reflexivity|]. split; [right; vm_compute; reflexivity | vm_compute; reflexivity]. Qed.

(** A lookup that succeeds; one whose caller is canceled asynchronously before the
    answer comes; one that fails at the second malloc. *)
Definition ex52a : list gev := [ESetup OK None true true true true true true true (Some (5, 6)) true true; ELookup 0 (Some 77); ENotify; ESpin; ERead true; ESpin; EPop; ESpin].
Definition ex52b : list gev := [ESetup OK None true true true true true true true (Some (5, 6)) true true; EAsync; ELookup 0 (Some 77); ENotify; ESpin].
Definition ex52c : list gev := [ESetup OK None true true true true true false true (Some (5, 6)) true true].
Example C52_example : over (grun ginit ex52a) /\ no_thread (grun ginit ex52a) /\ g_call (grun ginit ex52a) = GDone 0 (Some (Some 77)) /\ Forall nonzero ex52a /\
  over (grun ginit ex52b) /\ no_thread (grun ginit ex52b) /\ g_own (grun ginit ex52b) RList = false /\ Forall nonzero ex52b /\
  over (grun ginit ex52c) /\ g_call (grun ginit ex52c) = GDone EAI_MEMORY None.
Proof.
  split; [right; do 2 eexists; vm_compute; reflexivity|].
  split; [right; vm_compute; reflexivity|].
  split; [vm_compute; reflexivity|].
  split; [repeat constructor; discriminate|].
  split; [left; vm_compute; reflexivity|].
  split; [right; vm_compute; reflexivity|].
  split; [vm_compute; reflexivity|].
  split; [repeat constructor; discriminate|].
  split; [right; do 2 eexists; vm_compute; reflexivity|].
  vm_compute; reflexivity.
Qed.
Example C52_example_wait : let s := grun ginit (firstn 3 ex52a) in g_call s = GWait /\ g_pipe s = true.
Proof. split; reflexivity. Qed.

Print Assumptions C52_no_ub.
Print Assumptions C52_no_race.
Print Assumptions C52_result.
Print Assumptions C52_no_leak.
Print Assumptions C52_list_kept.
Print Assumptions C52_thread_ends.
Print Assumptions C52_error.
Print Assumptions C52_fd_zero_refuted.
