(** C32, C33, C47, C48 (and accept, dial): the loops around system calls. *)
From Coq Require Import ZArith List Bool Lia.
From Verif Require Import Runtime Errors IoLoops.
Import ListNotations.
Local Open Scope Z_scope.

(** A script in which the coroutine is neither canceled nor timed out. *)
Definition undisturbed {A} (script : list (Z * A)) : Prop := Forall (fun t => fst t = OK) script.

Lemma write_spec : forall script data w o out, write_loop data w script = (o, out) -> 0 <= w ->
  (exists rest, data = out ++ rest) /\
  match o with
  | Ret r e =>
      (r = w + Z.of_nat (length out)) \/
      (r = -1 /\ ((w = 0 /\ out = [] /\ exists c, In (c, WErr e) script /\ retry e = false) \/
                  (exists c a, In (c, a) script /\ c <> OK /\ e = check_errno c)))
  | Blocked => True
  end.
Proof.
  induction script as [|[c a] script IH]; intros data w o out E W; cbn in E.
  - injection E as <- <-. split; [exists data; reflexivity | exact I].
  - destruct (Z.eqb_spec c OK) as [->|NC]; cbn [negb] in E.
    + destruct a as [k|e].
      * set (n := Nat.min k (length data)) in *.
        destruct (skipn n data) as [|x data'] eqn:SK.
        -- injection E as <- <-. split; [exists []; rewrite <- SK; symmetry; apply firstn_skipn|].
           left. rewrite firstn_length. unfold n. lia.
        -- destruct (write_loop (x :: data') (w + Z.of_nat n) script) as [o2 out2] eqn:R. injection E as <- <-.
           apply IH in R; [|lia]. destruct R as [[rest P] R]. split.
           ++ exists rest. rewrite <- app_assoc, <- P, <- SK. symmetry. apply firstn_skipn.
           ++ destruct o2 as [r e|]; [|exact I]. destruct R as [R|[R1 [(R2 & R3 & c & R4 & R5)|(c & a & R2 & R3 & R4)]]].
              ** left. rewrite app_length, firstn_length. unfold n in *. lia.
              ** right. split; [exact R1|]. left. split; [lia|]. split.
                 { rewrite R3, app_nil_r. replace n with 0%nat by lia. reflexivity. }
                 exists c. split; [right; exact R4 | exact R5].
              ** right. split; [exact R1|]. right. exists c, a. split; [right; exact R2 | split; assumption].
      * destruct (retry e) eqn:RE.
        -- destruct data as [|x data].
           ++ injection E as <- <-. split; [exists []; reflexivity|]. left. cbn. lia.
           ++ apply IH in E; [|exact W]. destruct E as [P R]. split; [exact P|]. destruct o as [r e2|]; [|exact I].
              destruct R as [R|[R1 [(R2 & R3 & c & R4 & R5)|(c & a & R2 & R3 & R4)]]]; [left; exact R| |].
              ** right. split; [exact R1|]. left. split; [exact R2|]. split; [exact R3|]. exists c. split; [right; exact R4 | exact R5].
              ** right. split; [exact R1|]. right. exists c, a. split; [right; exact R2 | split; assumption].
        -- destruct (Z.eqb_spec w 0) as [->|NW]; injection E as <- <-; (split; [exists data; reflexivity|]).
           ++ right. split; [reflexivity|]. left. repeat split; auto. exists OK. split; [left; reflexivity | exact RE].
           ++ left. cbn. lia.
    + injection E as <- <-. split; [exists data; reflexivity|]. right. split; [reflexivity|]. right. exists c, a.
      split; [left; reflexivity | split; [exact NC | reflexivity]].
Qed.

(** C32: the bytes the kernel takes are a prefix of the buffer, in order, each
    once, for every kernel behaviour, cancellation and deadline. *)
Theorem C32_prefix : forall data script o out, write_dl data script = (o, out) -> exists rest, data = out ++ rest.
Proof. intros data script o out E. apply (write_spec script data 0 o out E). lia. Qed.

(** C32: a non-negative result is exactly the number of bytes the kernel took. *)
Theorem C32_count : forall data script r e out, write_dl data script = (Ret r e, out) -> 0 <= r ->
  r = Z.of_nat (length out).
Proof.
  intros data script r e out E R. apply write_spec in E; [|lia]. destruct E as [_ [E|[E _]]]; lia.
Qed.

(** C32: the count is the full length unless the kernel reported an error. *)
Theorem C32_full : forall data script r e out, write_dl data script = (Ret r e, out) -> 0 <= r ->
  (forall c e', In (c, WErr e') script -> retry e' = true) -> out = data.
Proof.
  assert (G : forall script data w r e out, write_loop data w script = (Ret r e, out) -> 0 <= r ->
    (forall c e', In (c, WErr e') script -> retry e' = true) -> out = data).
  { induction script as [|[c a] script IH]; intros data w r e out E R H; cbn in E; [discriminate|].
    destruct (Z.eqb_spec c OK) as [->|NC]; cbn [negb] in E; [|injection E as <- <- <-; lia].
    destruct a as [k|e'].
    - set (n := Nat.min k (length data)) in *. destruct (skipn n data) as [|x data'] eqn:SK.
      + injection E as <- <- <-. rewrite <- (firstn_skipn n data) at 2. rewrite SK, app_nil_r. reflexivity.
      + destruct (write_loop (x :: data') _ script) as [o2 out2] eqn:RR. injection E as -> <-.
        apply IH in RR; [|exact R | intros; eapply H; right; eassumption]. rewrite RR, <- SK. apply firstn_skipn.
    - rewrite (H OK e' (or_introl eq_refl)) in E. destruct data as [|x data]; [injection E as <- <- <-; reflexivity|].
      eapply IH; [exact E | exact R | intros; eapply H; right; eassumption]. }
  intros data script. apply (G script data 0).
Qed.

(** C32, partial: if the coroutine is neither canceled nor timed out during the
    call, the caller can tell how many bytes were written: the count, or -1 for
    none. The full statement drops the hypothesis; it is false, see below. *)
Theorem C32_caller_knows_partial : forall data script r e out, undisturbed script ->
  write_dl data script = (Ret r e, out) ->
  (0 <= r /\ r = Z.of_nat (length out)) \/ (r = -1 /\ out = []).
Proof.
  intros data script r e out U E. apply write_spec in E; [|lia].
  destruct E as [_ [E|[E [(_ & O & _)|(c & a & I & N & _)]]]]; [left; lia | right; auto |].
  exfalso. unfold undisturbed in U. rewrite Forall_forall in U. apply N. apply (U _ I).
Qed.
(** A deadline (or cancel) after a partial write loses the count. *)
Theorem C32_caller_knows_refuted : exists data script out,
  write_dl data script = (Ret (-1) sysETIMEDOUT, out) /\ out = [10; 11; 12].
Proof. exists [10; 11; 12; 13; 14], [(OK, WN 3); (ETIMEDOUT, WN 0)]. eexists. split; reflexivity. Qed.

(** C32: the loop makes progress: once the kernel has taken everything the call
    returns. *)
Theorem C32_terminates : forall data script, undisturbed script ->
  fst (write_dl data script) = Blocked ->
  (length (snd (write_dl data script)) < length data)%nat \/ script = [].
Proof.
  assert (G : forall script data w o out, write_loop data w script = (o, out) -> undisturbed script -> o = Blocked ->
     (length out < length data)%nat \/ script = []).
  { induction script as [|[c a] script IH]; intros data w o out E U B; [right; reflexivity|]. left. cbn in E.
    inversion U as [|? ? C U']; subst. cbn in C. subst c. cbn in E. destruct a as [k|e].
    - set (n := Nat.min k (length data)) in *. destruct (skipn n data) as [|x data'] eqn:SK; [discriminate|].
      destruct (write_loop (x :: data') _ script) as [o2 out2] eqn:R. injection E as -> <-.
      assert (LD : length data = (length (firstn n data) + length (x :: data'))%nat) by (rewrite <- SK, <- app_length, firstn_skipn; reflexivity).
      destruct (IH _ _ _ _ R U' eq_refl) as [L| ->].
      + rewrite app_length. lia.
      + cbn in R. injection R as <-. rewrite app_nil_r. cbn [length] in LD. lia.
    - destruct (retry e); [|destruct (w =? 0); discriminate]. destruct data as [|x data]; [discriminate|].
      destruct (IH _ _ _ _ E U' eq_refl) as [L| ->]; [exact L|]. cbn in E. injection E as <-. cbn. lia. }
  intros data script U B. unfold write_dl in *. destruct (write_loop data 0 script) as [o out] eqn:E. exact (G _ _ _ _ _ E U B).
Qed.
Example C32_case : write_dl [1; 2; 3; 4; 5] [(OK, WN 2); (OK, WErr sysEAGAIN); (OK, WN 1); (OK, WN 9)] = (Ret 5 0, [1; 2; 3; 4; 5]).
Proof. reflexivity. Qed.
Example C32_case_error : write_dl [1; 2; 3; 4; 5] [(OK, WN 2); (OK, WErr 32)] = (Ret 2 32, [1; 2]).
Proof. reflexivity. Qed.

(** C33: a successful read returns exactly the bytes of one successful kernel
    read; the kernel reads before it all said "nothing now", and no byte taken
    from the descriptor is lost. *)
Theorem C33_read : forall count script r e got taken, read_loop count script = (Ret r e, got, taken) ->
  got = taken /\
  ((0 <= r /\ exists pre l post, script = pre ++ (OK, RN l) :: post /\
      Forall (fun t => fst t = OK /\ exists e', snd t = RErr e' /\ retry e' = true) pre /\
      got = firstn count l /\ r = Z.of_nat (length got)) \/
   (r = -1 /\ got = [])).
Proof.
  intros count. induction script as [|[c a] script IH]; intros r e got taken E; cbn in E; [discriminate|].
  destruct (Z.eqb_spec c OK) as [->|NC]; cbn [negb] in E.
  - destruct a as [l|e'].
    + injection E as <- <- <- <-. split; [reflexivity|]. left. split; [lia|]. exists [], l, script. repeat split; constructor.
    + destruct (retry e') eqn:RE.
      * apply IH in E. destruct E as [-> [(R & pre & l & post & -> & F & G & L)|R]]; (split; [reflexivity|]); [left|right; exact R].
        split; [exact R|]. exists ((OK, RErr e') :: pre), l, post. repeat split; auto. constructor; [|exact F].
        split; [reflexivity|]. exists e'. auto.
      * injection E as <- <- <- <-. split; [reflexivity|]. right. auto.
  - injection E as <- <- <- <-. split; [reflexivity|]. right. auto.
Qed.
(** C33: 0 is returned only if the kernel delivered an empty read: end of file,
    or a request for no bytes. *)
Theorem C33_zero_is_eof : forall count script e got taken, read_loop count script = (Ret 0 e, got, taken) ->
  count = 0%nat \/ In (OK, RN []) script.
Proof.
  intros count script e got taken E. apply C33_read in E. destruct E as [_ [(_ & pre & l & post & -> & _ & G & L)|[R _]]]; [|discriminate].
  destruct l as [|x l]; [right; apply in_or_app; right; left; reflexivity|].
  destruct count as [|count]; [left; reflexivity|]. subst got. cbn in L. lia.
Qed.
(** C33: it retries only if the kernel had nothing to give, and a failure is the
    kernel's error, a cancellation or a time-out. *)
Theorem C33_blocks_only_if_nothing : forall count script, fst (fst (read_loop count script)) = Blocked ->
  Forall (fun t => fst t = OK /\ exists e', snd t = RErr e' /\ retry e' = true) script.
Proof.
  intros count. induction script as [|[c a] script IH]; intros E; [constructor|]. cbn in E.
  destruct (Z.eqb_spec c OK) as [->|NC]; cbn [negb] in E; [|discriminate].
  destruct a as [l|e']; [discriminate|]. destruct (retry e') eqn:RE; [|discriminate].
  constructor; [split; [reflexivity | exists e'; auto] | apply IH, E].
Qed.
Theorem C33_error : forall count script e got taken, read_loop count script = (Ret (-1) e, got, taken) ->
  (exists c a, In (c, a) script /\ c <> OK /\ e = check_errno c) \/
  (In (OK, RErr e) script /\ retry e = false).
Proof.
  intros count. induction script as [|[c a] script IH]; intros e got taken E; cbn in E; [discriminate|].
  destruct (Z.eqb_spec c OK) as [->|NC]; cbn [negb] in E.
  - destruct a as [l|e'].
    + injection E. lia.
    + destruct (retry e') eqn:RE.
      * apply IH in E. destruct E as [(c & a & I & N & X)|[I R]]; [left; exists c, a | right]; repeat split; auto; right; auto.
      * injection E as <- _ _. right. split; [left; reflexivity | exact RE].
  - injection E as <- _ _. left. exists c, a. split; [left; reflexivity | auto].
Qed.
Example C33_case : read_loop 4 [(OK, RErr sysEAGAIN); (OK, RErr sysEINTR); (OK, RN [7; 8; 9])] = (Ret 3 0, [7; 8; 9], [7; 8; 9]).
Proof. reflexivity. Qed.

(** C49: neco_accept. *)
(** A descriptor that is returned is non-blocking; no other descriptor is left open. *)
Theorem C49_accept : forall script r e op cl, accept_loop script = (Ret r e, op, cl) ->
  (exists fd, op = [fd] /\ cl = [] /\ r = fd /\ exists e', In (OK, AFd fd true e') script) \/
  (r = -1 /\ op = cl).
Proof.
  induction script as [|[c a] script IH]; intros r e op cl E; cbn in E; [discriminate|].
  destruct (Z.eqb_spec c OK) as [->|NC]; cbn [negb] in E.
  - destruct a as [fd nb e'|e'].
    + destruct nb; injection E as <- <- <- <-; [left; exists fd; repeat split; exists e'; left; reflexivity | right; auto].
    + destruct (retry e'); [|injection E as <- <- <- <-; right; auto]. apply IH in E.
      destruct E as [(fd & A & B & C & e2 & D)|E]; [left | right; exact E]. exists fd. repeat split; auto. exists e2. right. exact D.
  - injection E as <- <- <- <-. right. auto.
Qed.
Example C49_case : accept_loop [(OK, AErr sysEAGAIN); (OK, AFd 9 false 22)] = (Ret (-1) 22, [9], [9]) /\
                   accept_loop [(OK, AErr sysEAGAIN); (OK, AFd 9 true 0)] = (Ret 9 0, [9], []).
Proof. split; reflexivity. Qed.

(** Specification for connect: the kernel says the socket is connected by
    accepting the call, or by EISCONN. *)
Definition says_connected (a : cans) : Prop := a = COk \/ a = CErr sysEISCONN.

(** C47: 0 is returned only if the last answer says the socket is connected, and
    all answers before it said "in progress" or "interrupted, try again". *)
Theorem C47_ok_means_connected : forall script e, connect_dl script = Ret 0 e ->
  exists pre a post, script = pre ++ (OK, a) :: post /\ says_connected a /\
    Forall (fun t => fst t = OK /\ In (snd t) [CErr sysEINPROGRESS; CErr sysEINTR; CErr sysENOMEM]) pre.
Proof.
  unfold connect_dl. generalize false as b. intros b script. revert b.
  induction script as [|[c a] script IH]; intros b e E; cbn in E; [discriminate|].
  destruct (Z.eqb_spec c OK) as [->|NC]; cbn [negb] in E; [|discriminate].
  destruct a as [|e'].
  - exists [], COk, script. repeat split; [left; reflexivity | constructor].
  - destruct (Z.eqb_spec e' sysEISCONN) as [->|].
    + exists [], (CErr sysEISCONN), script. repeat split; [right; reflexivity | constructor].
    + destruct (Z.eqb_spec e' sysEAGAIN); [discriminate|].
      assert (G : In (CErr e') [CErr sysEINPROGRESS; CErr sysEINTR; CErr sysENOMEM] -> (exists b', connect_loop b' script = Ret 0 e) ->
        exists pre a post, (OK, CErr e') :: script = pre ++ (OK, a) :: post /\ says_connected a /\
        Forall (fun t => fst t = OK /\ In (snd t) [CErr sysEINPROGRESS; CErr sysEINTR; CErr sysENOMEM]) pre).
      { intros I [b' X]. apply IH in X. destruct X as (pre & a & post & -> & A & F).
        exists ((OK, CErr e') :: pre), a, post. repeat split; auto. }
      destruct (Z.eqb_spec e' sysEINPROGRESS) as [->|]; [apply G; [cbn; tauto | exists true; exact E]|].
      destruct (Z.eqb_spec e' sysEINTR) as [->|]; [apply G; [cbn; tauto | exists b; exact E]|].
      destruct (Z.eqb_spec e' sysENOMEM) as [->|]; [apply G; [cbn; tauto | exists b; exact E]|]. discriminate.
Qed.
(** C47: a failure reports the reason: cancel, time-out, or the kernel's error
    (EAGAIN is reported as ECONNREFUSED). *)
Theorem C47_error_reported : forall script e, connect_dl script = Ret (-1) e ->
  (exists c a, In (c, a) script /\ c <> OK /\ e = check_errno c) \/
  (exists e', In (OK, CErr e') script /\ e' <> sysEINPROGRESS /\ e' <> sysEINTR /\
     e = if e' =? sysEAGAIN then sysECONNREFUSED else e').
Proof.
  unfold connect_dl. generalize false as b. intros b script. revert b.
  induction script as [|[c a] script IH]; intros b e E; cbn in E; [discriminate|].
  destruct (Z.eqb_spec c OK) as [->|NC]; cbn [negb] in E.
  - destruct a as [|e']; [discriminate|].
    assert (G : forall b', connect_loop b' script = Ret (-1) e ->
      (exists c a, In (c, a) ((OK, CErr e') :: script) /\ c <> OK /\ e = check_errno c) \/
      (exists e'0, In (OK, CErr e'0) ((OK, CErr e') :: script) /\ e'0 <> sysEINPROGRESS /\ e'0 <> sysEINTR /\ e = if e'0 =? sysEAGAIN then sysECONNREFUSED else e'0)).
    { intros b' X. apply IH in X. destruct X as [(c & a & I & N & Y)|(e2 & I & N & M & Y)]; [left; exists c, a | right; exists e2]; repeat split; auto; right; auto. }
    destruct (Z.eqb_spec e' sysEISCONN) as [->|].
    + destruct b; [discriminate|]. injection E as <-. right. exists sysEISCONN. repeat split; try discriminate. left; reflexivity.
    + destruct (Z.eqb_spec e' sysEAGAIN) as [->|NA].
      * injection E as <-. right. exists sysEAGAIN. repeat split; try discriminate. left; reflexivity.
      * destruct (Z.eqb_spec e' sysEINPROGRESS); [eapply G; exact E|]. destruct (Z.eqb_spec e' sysEINTR); [eapply G; exact E|].
        destruct (Z.eqb_spec e' sysENOMEM); cbn [orb] in E; [eapply G; exact E|].
        injection E as <-. right. exists e'. repeat split; auto; [left; reflexivity|].
        destruct (Z.eqb_spec e' sysEAGAIN); [contradiction | reflexivity].
  - injection E as <-. left. exists c, a. repeat split; auto. left; reflexivity.
Qed.
(** C47: it keeps going only while the connection is in progress or the call was
    interrupted. *)
Theorem C47_blocked : forall script, connect_dl script = Blocked ->
  Forall (fun t => fst t = OK /\ In (snd t) [CErr sysEINPROGRESS; CErr sysEINTR; CErr sysENOMEM]) script.
Proof.
  unfold connect_dl. generalize false as b. intros b script. revert b.
  induction script as [|[c a] script IH]; intros b E; [constructor|]. cbn in E.
  destruct (Z.eqb_spec c OK) as [->|NC]; cbn [negb] in E; [|discriminate]. destruct a as [|e']; [discriminate|].
  destruct (Z.eqb_spec e' sysEISCONN); [discriminate|]. destruct (Z.eqb_spec e' sysEAGAIN); [discriminate|].
  destruct (Z.eqb_spec e' sysEINPROGRESS) as [->|]; [constructor; [cbn; tauto | eapply IH; exact E]|].
  destruct (Z.eqb_spec e' sysEINTR) as [->|]; [constructor; [cbn; tauto | eapply IH; exact E]|].
  destruct (Z.eqb_spec e' sysENOMEM) as [->|]; [constructor; [cbn; tauto | eapply IH; exact E]|]. discriminate.
Qed.
(** The converse of the first claim is false. (1) A connect interrupted by a
    signal goes on in the background (POSIX); the retry then sees EISCONN and the
    call fails although it has connected the socket. (2) A connect that is woken
    while still in progress sees EALREADY and fails. *)
Theorem C47_connected_but_error_refuted :
  connect_dl [(OK, CErr sysEINTR); (OK, CErr sysEISCONN)] = Ret (-1) sysEISCONN /\
  connect_dl [(OK, CErr sysEINPROGRESS); (OK, CErr sysEALREADY)] = Ret (-1) sysEALREADY.
Proof. split; reflexivity. Qed.
Example C47_case : connect_dl [(OK, CErr sysEINPROGRESS); (OK, CErr sysEISCONN)] = Ret 0 sysEISCONN.
Proof. reflexivity. Qed.
Example C47_case_fail : connect_dl [(OK, CErr sysEINPROGRESS); (OK, CErr sysECONNREFUSED)] = Ret (-1) sysECONNREFUSED.
Proof. reflexivity. Qed.

(** C50: neco_dial over several addresses. *)
(** If it returns a descriptor, that is the only one left open and it belongs to
    the first address that could be connected; otherwise none is left open. *)
Theorem C50_dial : forall addrs r e op cl,
  (forall a fd, In a addrs -> match a with DNb f _ | DConn f _ => f = fd | DSockErr _ => False end -> 0 <= fd) ->
  (forall fd r' e', In (DConn fd (Ret r' e')) addrs -> r' = 0 \/ r' = -1) ->
  dial_loop addrs = (Ret r e, op, cl) ->
  (0 <= r /\ op = cl ++ [r] /\ exists pre post e0, addrs = pre ++ DConn r (Ret 0 e0) :: post /\
     forall fd e', ~ In (DConn fd (Ret 0 e')) pre) \/
  (r < 0 /\ op = cl).
Proof.
  induction addrs as [|a rest IH]; intros r e op cl P K E; cbn in E; [discriminate|].
  assert (P' : forall a fd, In a rest -> match a with DNb f _ | DConn f _ => f = fd | DSockErr _ => False end -> 0 <= fd) by (intros; eapply P; [right; eassumption | assumption]).
  assert (K' : forall fd r' e', In (DConn fd (Ret r' e')) rest -> r' = 0 \/ r' = -1) by (intros; eapply K; right; eassumption).
  assert (FAIL : forall (op0 cl0 : list Z) e0, op0 = cl0 ->
    (forall fd e', a <> DConn fd (Ret 0 e')) ->
    match rest with [] => (Ret (errconv_from_sys e0) e0, op0, cl0) | _ => let '(o2, op2, cl2) := dial_loop rest in (o2, op0 ++ op2, cl0 ++ cl2) end = (Ret r e, op, cl) ->
    (0 <= r /\ op = cl ++ [r] /\ exists pre post e1, a :: rest = pre ++ DConn r (Ret 0 e1) :: post /\ forall fd e', ~ In (DConn fd (Ret 0 e')) pre) \/ (r < 0 /\ op = cl)).
  { intros op0 cl0 e0 -> NA X. destruct rest as [|b rest].
    - injection X as <- <- <- <-. right. split; [|reflexivity]. unfold errconv_from_sys.
      repeat match goal with |- context [if e0 =? ?x then _ else _] => destruct (e0 =? x); [reflexivity|] end. reflexivity.
    - destruct (dial_loop (b :: rest)) as [[o2 op2] cl2]. injection X as -> <- <-.
      destruct (IH _ _ _ _ P' K' eq_refl) as [(R & -> & pre & post & e1 & -> & NP)|[R ->]]; [left|right; auto].
      split; [exact R|]. split; [rewrite app_assoc; reflexivity|]. exists (a :: pre), post, e1. split; [reflexivity|].
      intros fd e' [X|X]; [exact (NA _ _ X) | exact (NP _ _ X)]. }
  destruct a as [e0|fd e0|fd [r0 e0|]]; cbn in E; try discriminate.
  - apply (FAIL [] [] e0 eq_refl); [discriminate | exact E].
  - apply (FAIL [fd] [fd] e0 eq_refl); [discriminate | exact E].
  - destruct (Z.eqb_spec r0 0) as [->|NZ].
    + assert (FD : 0 <= fd) by (eapply P; [left; reflexivity | reflexivity]).
      destruct (Z.eqb_spec fd (-1)); [lia|]. injection E as <- <- <- <-. left. split; [exact FD|]. split; [reflexivity|].
      exists [], rest, e0. split; [reflexivity|]. intros fd' e' [].
    + destruct (K fd r0 e0 (or_introl eq_refl)) as [->| ->]; [congruence|]. cbn in E.
      apply (FAIL [fd] [fd] e0 eq_refl); [congruence | exact E].
Qed.
(** A cancel (or deadline) during the first connection attempt does not end the
    dial: the flag is consumed by that attempt and the next address is tried. *)
Theorem C50_cancel_ignored_refuted : exists addrs, hd_error addrs = Some (DConn 5 (Ret (-1) sysECANCELED)) /\
  fst (fst (dial_loop addrs)) = Ret 6 0.
Proof. exists [DConn 5 (Ret (-1) sysECANCELED); DConn 6 (Ret 0 0)]. split; reflexivity. Qed.
Example C50_case : dial_loop [DSockErr 97; DConn 5 (Ret (-1) sysECONNREFUSED); DConn 6 (Ret 0 0); DConn 7 (Ret 0 0)] = (Ret 6 0, [5; 6], [5]).
Proof. reflexivity. Qed.

(** C48: setting the non-blocking mode changes exactly bit 11 (O_NONBLOCK),
    reports the previous mode, and restoring it restores the flags. *)
Theorem C48_only_flag : forall flags nb i, 0 <= i ->
  Z.testbit (fst (setnonblock flags nb)) i = if i =? 11 then nb else Z.testbit flags i.
Proof.
  intros flags nb i I. unfold setnonblock, O_NONBLOCK. cbn [fst]. change 2048 with (2 ^ 11).
  assert (P : Z.testbit (2 ^ 11) i = (i =? 11)) by (rewrite Z.pow2_bits_eqb by lia; apply Z.eqb_sym).
  destruct nb.
  - rewrite Z.lor_spec, P. destruct (i =? 11); [apply orb_true_r | apply orb_false_r].
  - rewrite Z.land_spec, Z.lnot_spec, P by lia. destruct (i =? 11); [apply andb_false_r | apply andb_true_r].
Qed.
Theorem C48_reports_old : forall flags nb, snd (setnonblock flags nb) = Z.testbit flags 11.
Proof.
  intros flags nb. unfold setnonblock, O_NONBLOCK. cbn [snd]. change 2048 with (2 ^ 11).
  destruct (Z.testbit flags 11) eqn:T.
  - apply Z.eqb_eq. apply Z.bits_inj'. intros i I. rewrite Z.land_spec, Z.pow2_bits_eqb by lia.
    destruct (Z.eqb_spec 11 i) as [<-|]; [rewrite T; reflexivity | apply andb_false_r].
  - apply Z.eqb_neq. intros E. apply (f_equal (fun x => Z.testbit x 11)) in E. rewrite Z.land_spec, T in E. discriminate.
Qed.
Theorem C48_restore : forall flags nb,
  let '(f1, old) := setnonblock flags nb in fst (setnonblock f1 old) = flags.
Proof.
  intros flags nb. pose proof (C48_reports_old flags nb) as O. pose proof (C48_only_flag flags nb) as F.
  destruct (setnonblock flags nb) as [f1 old]. cbn in O, F. apply Z.bits_inj'. intros i I.
  rewrite C48_only_flag by exact I. destruct (Z.eqb_spec i 11) as [->|N]; [exact O|].
  rewrite F by exact I. destruct (Z.eqb_spec i 11); [contradiction | reflexivity].
Qed.
Example C48_case : setnonblock 32770 true = (34818, false) /\ setnonblock 34818 false = (32770, true).
Proof. split; reflexivity. Qed.

Print Assumptions C32_prefix.
Print Assumptions C32_count.
Print Assumptions C32_full.
Print Assumptions C32_caller_knows_partial.
Print Assumptions C32_caller_knows_refuted.
Print Assumptions C32_terminates.
Print Assumptions C33_read.
Print Assumptions C33_zero_is_eof.
Print Assumptions C33_blocks_only_if_nothing.
Print Assumptions C33_error.
Print Assumptions C49_accept.
Print Assumptions C47_ok_means_connected.
Print Assumptions C47_error_reported.
Print Assumptions C47_blocked.
Print Assumptions C47_connected_but_error_refuted.
Print Assumptions C50_dial.
Print Assumptions C50_cancel_ignored_refuted.
Print Assumptions C48_only_flag.
Print Assumptions C48_reports_old.
Print Assumptions C48_restore.
