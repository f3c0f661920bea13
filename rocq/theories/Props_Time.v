(** C29, C30: deadline arithmetic and the scheduler's wait time. *)
From Coq Require Import ZArith List Bool Lia.
From Verif Require Import Runtime SchedTimeout.
Import ListNotations.
Local Open Scope Z_scope.

(** Specification: the representable value nearest to [x]. *)
Definition nearest64 (x y : Z) : Prop :=
  in64 y /\ forall z, in64 z -> Z.abs (y - x) <= Z.abs (z - x).

Lemma chk_in : forall x, in64 x -> chk x = Some x.
Proof. intros x [A B]. unfold chk, in64b. apply Z.leb_le in A, B. rewrite A, B. reflexivity. Qed.

Lemma add_clamp_spec : forall a b, in64 a -> in64 b ->
  i64_add_clamp a b = Some (Z.max MINI (Z.min MAXI (a + b))).
Proof.
  intros a b A B. unfold i64_add_clamp.
  assert (X : (Z.lxor a b <? 0) = xorb (a <? 0) (b <? 0)).
  { destruct (Z.ltb_spec (Z.lxor a b) 0) as [L|L].
    - destruct (Z.ltb_spec a 0), (Z.ltb_spec b 0); cbn; try reflexivity; exfalso;
        apply Z.lt_nge in L; apply L, Z.lxor_nonneg; lia.
    - apply Z.lxor_nonneg in L. destruct (Z.ltb_spec a 0), (Z.ltb_spec b 0); cbn; try reflexivity; exfalso; lia. }
  rewrite X. clear X. unfold in64, MINI, MAXI in *.
  destruct (Z.ltb_spec a 0), (Z.ltb_spec b 0); cbn [xorb negb].
  - destruct (Z.ltb_spec 0 a); [lia|]. rewrite chk_in by (unfold in64, MINI, MAXI; lia). cbn [obind].
    destruct (Z.ltb_spec b (-9223372036854775808 - a)); [f_equal; lia | rewrite chk_in by (unfold in64, MINI, MAXI; lia); f_equal; lia].
  - rewrite chk_in by (unfold in64, MINI, MAXI; lia). f_equal; lia.
  - rewrite chk_in by (unfold in64, MINI, MAXI; lia). f_equal; lia.
  - destruct (Z.ltb_spec 0 a).
    + rewrite chk_in by (unfold in64, MINI, MAXI; lia). cbn [obind].
      destruct (Z.ltb_spec (9223372036854775807 - a) b); [f_equal; lia | rewrite chk_in by (unfold in64, MINI, MAXI; lia); f_equal; lia].
    + rewrite chk_in by (unfold in64, MINI, MAXI; lia). cbn [obind].
      destruct (Z.ltb_spec b (-9223372036854775808 - a)); [f_equal; lia | rewrite chk_in by (unfold in64, MINI, MAXI; lia); f_equal; lia].
Qed.

(** C29: for all pairs of 64-bit integers the addition is defined (no signed
    overflow anywhere) and gives the nearest representable value, which is the
    exact sum whenever that is representable. *)
Theorem C29_add_saturates : forall a b, in64 a -> in64 b ->
  exists r, i64_add_clamp a b = Some r /\ nearest64 (a + b) r /\ (in64 (a + b) -> r = a + b).
Proof.
  intros a b A B. exists (Z.max MINI (Z.min MAXI (a + b))). split; [apply add_clamp_spec; assumption|].
  unfold nearest64, in64, MINI, MAXI in *. repeat split; intros; lia.
Qed.

(** C29: sleeping for a non-negative duration, however long, gives a deadline
    that is not in the past and not before the requested moment unless that
    moment is unrepresentable, in which case it is the end of time; a negative
    duration gives a deadline in the past. *)
Theorem C29_sleep_deadline : forall nw ns, in64 nw -> in64 ns ->
  exists d, sleep_deadline nw ns = Some d /\
    (0 <= ns -> nw <= d /\ (d = nw + ns \/ (d = MAXI /\ MAXI < nw + ns))) /\
    (ns < 0 -> MINI < nw -> d < nw).
Proof.
  intros nw ns A B. exists (Z.max MINI (Z.min MAXI (nw + ns))). split; [apply add_clamp_spec; assumption|].
  unfold in64, MINI, MAXI in *. repeat split; intros; lia.
Qed.

Example C29_case_high : i64_add_clamp 9223372036854775800 100 = Some 9223372036854775807.
Proof. reflexivity. Qed.
Example C29_case_low : i64_add_clamp (-9223372036854775800) (-100) = Some (-9223372036854775808).
Proof. reflexivity. Qed.
Example C29_case_mixed : i64_add_clamp (-9223372036854775808) 9223372036854775807 = Some (-1).
Proof. reflexivity. Qed.
Example C29_case_sleep : sleep_deadline 1000 9223372036854775807 = Some MAXI.
Proof. reflexivity. Qed.

(** C30: whenever the runtime's count of timers is the number of its timers, the
    computation is defined and the wait is between 0 and 500 ms. *)
Theorem C30_bounds : forall scheduled mask dl nw iow,
  (forall d c, In (d, c) dl -> in64 d) -> in64 nw -> in64 (- nw) ->
  exists t, sched_timeout scheduled mask (Z.of_nat (length dl)) dl nw iow = Some t /\ 0 <= t <= 500000000.
Proof.
  intros sched mask dl nw iow D N M. unfold sched_timeout, MAX_TIMEOUT.
  assert (CL : forall x, 0 <= CLAMP x 0 500000000 <= 500000000).
  { intros x. unfold CLAMP. destruct (Z.leb_spec x 0); [lia|]. destruct (Z.leb_spec 500000000 x); lia. }
  match goal with |- context [obind (if ?b && _ then _ else Some ?t) _] => set (bb := b); set (tt := t) end.
  assert (E : exists t, (if bb && (0 <? Z.of_nat (length dl))
         then match dl with [] => None | (d, _) :: _ =>
                  obind (chk (- nw)) (fun n => obind (i64_add_clamp d n) (fun t0 => Some (if t0 <? tt then t0 else tt))) end
         else Some tt) = Some t).
  { destruct bb; [|eexists; reflexivity]. destruct dl as [|[d c] dl]; [eexists; reflexivity|].
    cbn [andb length]. rewrite (proj2 (Z.ltb_lt _ _)) by lia.
    rewrite chk_in by assumption. cbn [obind]. rewrite add_clamp_spec; [|apply (D d c); left; reflexivity | assumption].
    cbn [obind]. eexists; reflexivity. }
  destruct E as [t E]. rewrite E. cbn [obind].
  eexists. split; [reflexivity|]. destruct (0 <? iow); [lia | apply CL].
Qed.

(** C30: the wait is zero when a coroutine is ready, a signal is pending or
    background work is outstanding. *)
Theorem C30_zero : forall scheduled mask ndl dl nw iow t,
  sched_timeout scheduled mask ndl dl nw iow = Some t ->
  0 < scheduled \/ mask <> 0 \/ 0 < iow -> t = 0.
Proof.
  intros sched mask ndl dl nw iow t E H. unfold sched_timeout, MAX_TIMEOUT in E.
  destruct (Z.ltb_spec 0 iow).
  - destruct (if _ && (0 <? ndl) then _ else _); cbn [obind] in E; [injection E; auto | discriminate].
  - destruct (Z.ltb_spec 0 sched).
    + cbn in E. injection E; auto.
    + destruct (Z.eqb_spec mask 0); [lia|]. cbn in E. injection E; auto.
Qed.

(** C30: the wait never reaches past the earliest deadline (nor past any other). *)
Theorem C30_not_past_deadline : forall scheduled mask ndl d c dl nw iow t, 0 < ndl -> in64 d -> in64 (- nw) ->
  sched_timeout scheduled mask ndl ((d, c) :: dl) nw iow = Some t ->
  (nw + t <= d \/ t = 0).
Proof.
  intros sched mask ndl d c dl nw iow t N D M E. unfold sched_timeout, MAX_TIMEOUT in E.
  rewrite (proj2 (Z.ltb_lt _ _) N), chk_in in E by assumption. cbn [obind] in E.
  rewrite add_clamp_spec in E by assumption. cbn [obind] in E.
  revert E. generalize (0 <? sched) as b1, (negb (mask =? 0)) as b2, (0 <? iow) as b3.
  unfold CLAMP, in64, MINI, MAXI in *.
  intros b1 b2 b3. destruct b1; [cbn; destruct b3; intros E; injection E; lia|].
  destruct b2; [cbn; destruct b3; intros E; injection E; lia|]. destruct b3; cbn -[Z.add Z.min Z.max].
  - intros E; injection E; lia.
  - intros E. injection E as <-.
    destruct (Z.ltb_spec (Z.max (-9223372036854775808) (Z.min 9223372036854775807 (d + - nw))) 500000000);
      match goal with |- context [if ?a <=? 0 then _ else _] => destruct (Z.leb_spec a 0) end; try lia;
      match goal with |- context [if 500000000 <=? ?a then _ else _] => destruct (Z.leb_spec 500000000 a) end; lia.
Qed.

(** C30: what is passed to the kernel: whole milliseconds not exceeding the wait,
    or a well-formed timespec equal to it. *)
Theorem C30_kernel_arguments : forall t, 0 <= t <= 500000000 ->
  0 <= epoll_ms t * 1000000 <= t /\ epoll_ms t <= 500 /\
  (let '(s, n) := nanosleep_arg t in 0 <= s /\ 0 <= n < 1000000000 /\ s * 1000000000 + n = t).
Proof.
  intros t T. unfold epoll_ms, nanosleep_arg. rewrite !Z.quot_div_nonneg, Z.rem_mod_nonneg by lia.
  pose proof (Z.div_mod t 1000000 ltac:(lia)). pose proof (Z.mod_pos_bound t 1000000 ltac:(lia)).
  pose proof (Z.div_mod t 1000000000 ltac:(lia)). pose proof (Z.mod_pos_bound t 1000000000 ltac:(lia)).
  repeat split; try lia; apply Z.div_pos; lia.
Qed.

Example C30_case : (* idle, two timers, the nearer one 7 ms ahead *)
  sched_timeout 0 0 2 [(5007000000, 4); (6000000000, 3)] 5000000000 0 = Some 7000000.
Proof. reflexivity. Qed.
Example C30_case_late : sched_timeout 0 0 1 [(MINI, 4)] 5000000000 0 = Some 0.
Proof. reflexivity. Qed.

Print Assumptions C29_add_saturates.
Print Assumptions C29_sleep_deadline.
Print Assumptions C30_bounds.
Print Assumptions C30_zero.
Print Assumptions C30_not_past_deadline.
Print Assumptions C30_kernel_arguments.
