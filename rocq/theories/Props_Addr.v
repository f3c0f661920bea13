(** C41: address parsing. *)
From Coq Require Import ZArith List Bool Lia.
From Verif Require Import Addr.
Import ListNotations.

(** Specification: one pair of enclosing brackets is stripped. *)
Inductive stripped : list nat -> list nat -> Prop :=
| Brackets : forall x, stripped (lbr :: x ++ [rbr]) x
| Bare : forall h, (forall x, h <> lbr :: x ++ [rbr]) -> stripped h h.

Lemma rd_in : forall a i, i < length a -> rd a (Z.of_nat i) = nth_error a i.
Proof.
  intros a i L. unfold rd. destruct (Z.ltb_spec (Z.of_nat i) 0); [lia|].
  destruct (Z.eqb_spec (Z.of_nat i) (Z.of_nat (length a))); [lia|]. rewrite Nat2Z.id. reflexivity.
Qed.
Lemma copy_spec : forall n a o, o + n <= length a -> copy a (Z.of_nat o) n = Some (firstn n (skipn o a)).
Proof.
  induction n as [|n IH]; intros a o L; [reflexivity|]. cbn [copy].
  rewrite rd_in by lia. replace (Z.of_nat o + 1)%Z with (Z.of_nat (S o)) by lia. rewrite IH by lia.
  destruct (nth_error a o) eqn:E; [|apply nth_error_None in E; lia].
  replace (skipn o a) with (n0 :: skipn (S o) a); [reflexivity|].
  revert a E L. clear IH. induction o as [|o IH]; intros [|x a] E L; cbn in *; try discriminate; [congruence|].
  apply IH; [exact E | lia].
Qed.
Lemma find_none : forall a i, i < length a -> ~ In colon (firstn (S i) a) -> find_colon a i = Some None.
Proof.
  intros a. induction i as [|i IH]; intros L N; cbn [find_colon]; rewrite rd_in by lia.
  - destruct a as [|x a]; [cbn in L; lia|]. cbn in *. destruct (Nat.eqb_spec x colon); [exfalso; apply N; auto | reflexivity].
  - destruct (nth_error a (S i)) eqn:E; [|apply nth_error_None in E; lia].
    assert (F : firstn (S (S i)) a = firstn (S i) a ++ [n]).
    { clear - E. revert a E. generalize (S i) as k. induction k as [|k IH]; intros [|x a] E; cbn in *; try discriminate; [congruence|].
      f_equal. apply IH, E. }
    rewrite F in N. destruct (Nat.eqb_spec n colon).
    + exfalso. apply N, in_or_app. right. left. auto.
    + apply IH; [lia|]. intros H. apply N, in_or_app. left. exact H.
Qed.
Lemma find_last : forall h p k, k < length p -> ~ In colon p ->
  find_colon (h ++ colon :: p) (length h + 1 + k) = Some (Some (length h)).
Proof.
  intros h p. induction k as [|k IH]; intros L N.
  - replace (length h + 1 + 0) with (S (length h)) by lia. cbn [find_colon].
    rewrite rd_in by (rewrite app_length; cbn; lia). rewrite nth_error_app2 by lia.
    replace (S (length h) - length h) with 1 by lia. cbn [nth_error].
    destruct p as [|x p]; [cbn in L; lia|]. cbn [nth_error].
    destruct (Nat.eqb_spec x colon); [exfalso; apply N; left; auto|].
    destruct (length h) as [|m] eqn:LH; cbn [find_colon].
    + rewrite rd_in by (rewrite app_length; cbn; lia). rewrite nth_error_app2 by lia. rewrite LH. reflexivity.
    + rewrite rd_in by (rewrite app_length; cbn; lia). rewrite nth_error_app2 by lia. rewrite LH, Nat.sub_diag. reflexivity.
  - replace (length h + 1 + S k) with (S (length h + 1 + k)) by lia. cbn [find_colon].
    rewrite rd_in by (rewrite app_length; cbn; lia). rewrite nth_error_app2 by lia.
    replace (S (length h + 1 + k) - length h) with (S (S k)) by lia.
    change (nth_error (colon :: p) (S (S k))) with (nth_error p (S k)).
    destruct (nth_error p (S k)) eqn:E; [|apply nth_error_None in E; lia].
    destruct (Nat.eqb_spec n colon) as [->|_]; [exfalso; apply N; eapply nth_error_In; exact E|].
    apply IH; [lia | exact N].
Qed.
Lemma find_here : forall h p, ~ In colon p ->
  find_colon (h ++ colon :: p) (length (h ++ colon :: p) - 1) = Some (Some (length h)).
Proof.
  intros h p N. rewrite app_length. cbn [length].
  destruct p as [|x p].
  - replace (length h + S (length (@nil nat)) - 1) with (length h) by (cbn; lia).
    destruct (length h) as [|m] eqn:LH; cbn [find_colon];
      rewrite rd_in by (rewrite app_length; cbn; lia); rewrite nth_error_app2 by lia; rewrite LH, ?Nat.sub_diag; reflexivity.
  - replace (length h + S (length (x :: p)) - 1) with (length h + 1 + length p) by (cbn [length]; lia).
    apply find_last; [cbn; lia | exact N].
Qed.

(** C41: an address is split at its last colon; the part before it, without one
    pair of enclosing brackets, is the host, the part after it the port. *)
Theorem C41_split : forall h p, ~ In colon p ->
  exists host, parse_tcp_addr (h ++ colon :: p) = POk host p /\ stripped h host.
Proof.
  intros h p N. unfold parse_tcp_addr.
  destruct (Nat.eqb_spec (length (h ++ colon :: p)) 0) as [E|_]; [rewrite app_length in E; cbn in E; lia|].
  rewrite find_here by exact N.
  assert (TL : tail_at (h ++ colon :: p) (length h + 1) = p).
  { unfold tail_at. rewrite skipn_app.
    replace (length h + 1 - length h) with 1 by lia. rewrite skipn_all2 by lia. reflexivity. }
  rewrite TL. clear TL.
  assert (B0 : exists b0, rd (h ++ colon :: p) 0 = Some b0 /\ (b0 = lbr <-> exists t, h = lbr :: t)).
  { change 0%Z with (Z.of_nat 0). rewrite rd_in by (rewrite app_length; cbn; lia). destruct h as [|x h].
    - exists colon. split; [reflexivity|]. split; [discriminate | intros [t E]; discriminate].
    - exists x. split; [reflexivity|]. split; [intros ->; eauto | intros [t E]; congruence]. }
  destruct B0 as (b0 & -> & B0).
  destruct (Nat.eqb_spec b0 lbr) as [E|NE].
  - apply B0 in E. destruct E as [t ->]. cbn [length].
    replace (Z.of_nat (S (length t)) - 1)%Z with (Z.of_nat (length t)) by lia.
    rewrite rd_in by (rewrite app_length; cbn; lia).
    destruct (exists_last (l := lbr :: t)) as (t' & z & E); [discriminate|].
    assert (NT : nth_error ((lbr :: t) ++ colon :: p) (length t) = Some z).
    { assert (LT : length t = length t') by (apply (f_equal (@length nat)) in E; rewrite app_length in E; cbn in E; lia).
      rewrite E, <- app_assoc, nth_error_app2 by lia. rewrite LT, Nat.sub_diag. reflexivity. }
    cbn [app] in NT |- *. rewrite NT. destruct (Nat.eqb_spec z rbr) as [->|NZ].
    + destruct t' as [|y t'].
      { cbn in E. injection E as E _. discriminate E. }
      cbn in E. injection E as <- ->. rewrite app_length. cbn [length].
      replace (Z.of_nat (S (length t' + 1)) - 2)%Z with (Z.of_nat (length t')) by lia.
      destruct (Z.ltb_spec (Z.of_nat (length t')) 0); [lia|]. rewrite Nat2Z.id.
      change 1%Z with (Z.of_nat 1). rewrite copy_spec by (cbn [length]; rewrite !app_length; cbn; lia).
      exists t'. split; [|constructor]. cbn [skipn]. rewrite <- app_assoc, firstn_app, Nat.sub_diag, firstn_all, app_nil_r. reflexivity.
    + destruct (Z.ltb_spec (Z.of_nat (S (length t))) 0); [lia|]. rewrite Nat2Z.id.
      change 0%Z with (Z.of_nat 0). rewrite copy_spec by (cbn [length]; rewrite !app_length; cbn; lia).
      exists (lbr :: t). split.
      * cbn [skipn]. change (lbr :: t ++ colon :: p) with ((lbr :: t) ++ colon :: p).
        change (S (length t)) with (length (lbr :: t)). rewrite firstn_app, Nat.sub_diag, firstn_all, app_nil_r. reflexivity.
      * constructor. intros x EX. apply NZ. rewrite E in EX. change (lbr :: x ++ [rbr]) with ((lbr :: x) ++ [rbr]) in EX.
        apply app_inj_tail in EX. apply EX.
  - destruct (Z.ltb_spec (Z.of_nat (length h)) 0); [lia|]. rewrite Nat2Z.id.
    change 0%Z with (Z.of_nat 0). rewrite copy_spec by (rewrite app_length; cbn; lia).
    exists h. split.
    + cbn [skipn]. rewrite firstn_app, Nat.sub_diag, firstn_all, app_nil_r. reflexivity.
    + constructor. intros x ->. apply NE, B0. eauto.
Qed.

(** C41: an address without a colon is rejected. *)
Theorem C41_no_colon : forall a, ~ In colon a -> parse_tcp_addr a = PInval.
Proof.
  intros a N. unfold parse_tcp_addr. destruct (Nat.eqb_spec (length a) 0) as [E|E]; [reflexivity|].
  rewrite find_none; [reflexivity | lia |]. replace (S (length a - 1)) with (length a) by lia. rewrite firstn_all. exact N.
Qed.

Lemma last_colon : forall a, In colon a -> exists h p, a = h ++ colon :: p /\ ~ In colon p.
Proof.
  induction a as [|x a IH]; intros I; [contradiction|].
  destruct (in_dec Nat.eq_dec colon a) as [J|J].
  - destruct (IH J) as (h & p & -> & N). exists (x :: h), p. auto.
  - destruct I as [->|I]; [|contradiction]. exists [], a. auto.
Qed.

(** C41: no byte outside the string (with its terminator) is read, for any string. *)
Theorem C41_in_bounds : forall a, parse_tcp_addr a <> PUB.
Proof.
  intros a. destruct (in_dec Nat.eq_dec colon a) as [J|J].
  - destruct (last_colon a J) as (h & p & -> & N). destruct (C41_split h p N) as (host & -> & _). discriminate.
  - rewrite C41_no_colon by exact J. discriminate.
Qed.

(** C41: the result determines the address up to the brackets. *)
Theorem C41_exact : forall a host port, parse_tcp_addr a = POk host port ->
  exists h, a = h ++ colon :: port /\ ~ In colon port /\ stripped h host.
Proof.
  intros a host port E. destruct (in_dec Nat.eq_dec colon a) as [J|J].
  - destruct (last_colon a J) as (h & p & -> & N). destruct (C41_split h p N) as (host' & E' & ST).
    rewrite E' in E. injection E as <- <-. eauto.
  - rewrite C41_no_colon in E by exact J. discriminate.
Qed.

(** the string [::1]:8080 and its parts *)
Example C41_case : parse_tcp_addr [91; 58; 58; 49; 93; 58; 56; 48; 56; 48] = POk [58; 58; 49] [56; 48; 56; 48].
Proof. reflexivity. Qed.
Example C41_case_edge : (* ":80", "[]:", "[:1", "]:1" *)
  parse_tcp_addr [58; 56; 48] = POk [] [56; 48] /\ parse_tcp_addr [91; 93; 58] = POk [] [] /\
  parse_tcp_addr [91; 58; 49] = POk [91] [49] /\ parse_tcp_addr [93; 58; 49] = POk [93] [49].
Proof. repeat split; reflexivity. Qed.

Print Assumptions C41_split.
Print Assumptions C41_no_colon.
Print Assumptions C41_in_bounds.
Print Assumptions C41_exact.
