(** C42: error reporting. *)
From Coq Require Import ZArith List Bool String Lia.
From Verif Require Import Runtime Errors.
Import ListNotations.
Local Open Scope Z_scope.

(** C42: converting to errno and back is the identity exactly on the error codes
    that have an errno (whatever errno was before). *)
Theorem C42_errno_round_trip : forall c errno,
  In c [EINVAL; EPERM; ENOMEM; ECANCELED; ETIMEDOUT] ->
  errconv_from_sys (errconv_to_sys c errno) = c.
Proof. intros c errno [<-|[<-|[<-|[<-|[<-|[]]]]]]; reflexivity. Qed.
Theorem C42_errno_back : forall e errno, errconv_from_sys e <> EERROR ->
  errconv_to_sys (errconv_from_sys e) errno = e.
Proof.
  intros e errno. unfold errconv_from_sys.
  repeat match goal with |- context [if e =? ?x then _ else _] => destruct (Z.eqb_spec e x) as [->|]; [reflexivity|] end.
  congruence.
Qed.
(** ... and other codes leave errno alone (NECO_OK clears it). *)
Theorem C42_errno_others : forall c errno, ~ In c [OK; EINVAL; EPERM; ENOMEM; ECANCELED; ETIMEDOUT] ->
  errconv_to_sys c errno = errno.
Proof.
  intros c errno N. unfold errconv_to_sys.
  repeat match goal with |- context [if c =? ?x then _ else _] =>
    destruct (Z.eqb_spec c x) as [->|]; [exfalso; apply N; cbn; tauto|] end.
  reflexivity.
Qed.

(** C42 (descriptions), partial: every code but NECO_EOF has a description of
    its own, and the short names are distinct. The full statement would be
    [forall c, In c all_codes -> ...]; NECO_EOF is missing, see below. *)
Theorem C42_described_partial : forall errno gai c, In c all_codes -> c <> EEOF ->
  (forall n, strerror errno gai c <> DUndefined n) /\ shortstrerror c <> "UNKNOWN"%string.
Proof.
  intros errno gai c I N. cbn in I.
  repeat match type of I with _ \/ _ => destruct I as [<-|I] end; try contradiction;
    try (exfalso; apply N; reflexivity); split; try discriminate; intros n; cbn; try discriminate.
  destruct (gai =? EAI_SYSTEM); discriminate.
Qed.
Theorem C42_names_distinct : forall c c', In c all_codes -> In c' all_codes ->
  shortstrerror c = shortstrerror c' -> c = c'.
Proof.
  intros c c' I J. cbn in I, J.
  repeat match type of I with _ \/ _ => destruct I as [<-|I] end; try contradiction;
  (repeat match type of J with _ \/ _ => destruct J as [<-|J] end); try contradiction; try reflexivity; discriminate.
Qed.
(** The missing code: NECO_EOF is a documented code but is reported as undefined. *)
Theorem C42_described_refuted : exists c, In c all_codes /\
  (forall errno gai, strerror errno gai c = DUndefined c) /\ shortstrerror c = "UNKNOWN"%string.
Proof. exists EEOF. split; [cbn; tauto|]. split; reflexivity. Qed.

(** Specification: after a call the last error is right. *)
Definition reports (ret errno lasterr : Z) : Prop :=
  (0 <= ret -> lasterr = OK) /\
  (ret < -1 -> lasterr = ret) /\
  (ret = -1 -> lasterr = errconv_from_sys errno) /\
  (ret < 0 -> lasterr < 0).

Lemma from_sys_neg : forall e, errconv_from_sys e < 0.
Proof.
  intros e. unfold errconv_from_sys.
  repeat match goal with |- context [if e =? ?x then _ else _] => destruct (e =? x); [reflexivity|] end. reflexivity.
Qed.
Lemma guard_reports : forall panic ret errno l, error_guard panic ret errno = Some l -> reports ret errno l.
Proof.
  intros panic ret errno l E. unfold error_guard in E. unfold reports. pose proof (from_sys_neg errno).
  destruct (Z.ltb_spec ret 0).
  - destruct (Z.eqb_spec ret (-1)); destruct (_ && _); try discriminate; injection E as <-; repeat split; intros; try lia; auto.
  - injection E as <-. repeat split; intros; try lia; reflexivity.
Qed.

(** C42 (last error), partial: a function that guards all its returns leaves
    neco_lasterr = NECO_OK on success and the error otherwise. The full statement
    is the same for every wrapper; missing are the early returns below. *)
Theorem C42_lasterr_partial : forall panic w ret errno last r l, finish panic w ret errno last = Some (r, l) ->
  match w with
  | WGuard => True
  | WMutex check => check = OK
  | WGenYield in_co isgen => in_co = true /\ isgen = true
  | WWrite _ => False
  end -> r = ret /\ reports r errno l.
Proof.
  intros panic w ret errno last r l E H. destruct w; cbn [finish] in E.
  - destruct (error_guard panic ret errno) eqn:G; [|discriminate]. injection E as <- <-. split; [reflexivity|]. eapply guard_reports; exact G.
  - subst check. cbn in E. destruct (error_guard panic ret errno) eqn:G; [|discriminate]. injection E as <- <-. split; [reflexivity|]. eapply guard_reports; exact G.
  - destruct H as [-> ->]. cbn in E. destruct (error_guard panic ret errno) eqn:G; [|discriminate]. injection E as <- <-. split; [reflexivity|]. eapply guard_reports; exact G.
  - contradiction.
Qed.
(** neco_write: a short count is reported as NECO_PARTIALWRITE. *)
Theorem C42_partial_write : forall panic count ret errno last r l,
  finish panic (WWrite count) ret errno last = Some (r, l) ->
  r = ret /\ (0 <= ret < count -> l = EPARTIALWRITE) /\ (count <= ret -> 0 <= ret -> l = OK) /\ (ret < 0 -> reports ret errno l).
Proof.
  intros panic count ret errno last r l E. cbn [finish] in E.
  destruct (error_guard panic ret errno) as [g|] eqn:G; [|discriminate]. apply guard_reports in G. injection E as <- <-.
  split; [reflexivity|]. destruct (Z.leb_spec 0 ret), (Z.ltb_spec ret count); cbn [andb]; repeat split; intros; try lia; auto; try (apply G; lia).
Qed.
(** The early returns: a failed call that leaves neco_lasterr at NECO_OK
    (neco_gen_yield outside a generator; a mutex of another runtime). *)
Theorem C42_lasterr_refuted :
  (exists r l, finish false (WGenYield true false) 0 0 OK = Some (r, l) /\ r < 0 /\ l = OK) /\
  (exists r l, finish false (WMutex EPERM) 0 0 OK = Some (r, l) /\ r < 0 /\ l = OK).
Proof. split; do 2 eexists; (split; [reflexivity|]); split; reflexivity. Qed.

Example C42_case : finish false WGuard (-1) sysECANCELED 0 = Some (-1, ECANCELED) /\
  finish true WGuard EINVAL 0 0 = None /\ finish false (WWrite 100) 60 0 0 = Some (60, EPARTIALWRITE).
Proof. repeat split; reflexivity. Qed.

Print Assumptions C42_errno_round_trip.
Print Assumptions C42_errno_back.
Print Assumptions C42_errno_others.
Print Assumptions C42_described_partial.
Print Assumptions C42_names_distinct.
Print Assumptions C42_described_refuted.
Print Assumptions C42_lasterr_partial.
Print Assumptions C42_partial_write.
Print Assumptions C42_lasterr_refuted.
