(** C54: neco_pipe. *)
From Coq Require Import ZArith List Bool Lia.
From Verif Require Import Pipe.
Import ListNotations.
Open Scope Z_scope.

(** ** Specification *)
(** No other process sends the (random) secret over the connection it made. *)
Fixpoint unguessed (secret : Z) (s : pst) (es : list pev) : Prop :=
  match es with
  | [] => True
  | e :: r => ~ (p_acc s = Some false /\ e = ERead (Some secret)) /\ unguessed secret (pstep secret s e) r
  end.

(** ** Invariant *)
Section Inv.
Context (secret : Z) (cs : bool) (G : Prop).

Record live (s : pst) : Prop := {
  l_old : p_old s = cs; l_cs : p_cs s = true; l_user : p_user s = None; l_ub : p_ub s = false; l_end : p_ended s = false; l_ln : 0 < p_ln s;
  l_ch : match p_ch s with
         | CNone => False
         | CDial => p_dialed s = None /\ p_fd0 s = -2 /\ p_sent s = false
         | CWrite fd => p_dialed s = Some fd /\ p_fd0 s = -2 /\ 0 <= fd
         | CEnd => p_dialed s = Some (p_fd0 s) /\ 0 <= p_fd0 s \/ p_dialed s = None /\ p_fd0 s = -1 /\ p_sent s = false
         end;
  l_open : forall x, In x (p_open s) <-> (p_ph s <> PJoin /\ x = p_ln s) \/ p_dialed s = Some x \/ (p_ph s <> PAccept /\ x = p_fd1 s);
  l_ph : match p_ph s with
         | PAccept => p_acc s = None /\ p_file s = true /\ p_fd1 s = -2
         | PRead => 0 < p_fd1 s /\ p_acc s <> None /\ p_file s = true /\ p_fd1 s <> p_ln s
         | PJoin => 0 < p_fd1 s /\ (G -> p_acc s = Some true /\ p_sent s = true) /\ p_file s = false
         | _ => False
         end;
  l_dist : forall x, p_dialed s = Some x -> x <> p_ln s /\ (p_ph s <> PAccept -> x <> p_fd1 s);
  l_pend : (In true (p_pend s) \/ p_acc s = Some true) -> p_dialed s <> None }.
Record okst (s : pst) : Prop := {
  k_ph : p_ph s = PRet 0; k_cs : p_cs s = cs; k_ub : p_ub s = false; k_ch : p_ch s = CEnd; k_file : p_file s = false; k_end : p_ended s = true;
  k_user : exists a b, p_user s = Some (a, b) /\ (G -> p_dialed s = Some a /\ p_acc s = Some true /\ p_sent s = true /\ 0 <= a /\ a <> b /\ forall x, In x (p_open s) <-> x = a \/ x = b) }.
Record failst (s : pst) : Prop := {
  f_ph : p_ph s = PRet (-1); f_cs : p_cs s = cs; f_user : p_user s = None; f_end : p_ended s = true;
  f_zero : p_ln s <> 0 -> p_file s = false /\ (p_ub s = true \/ forall x, In x (p_open s) <-> p_ch s = CWrite x) }.
Definition pinv (s : pst) : Prop := s = pinit cs \/ live s \/ okst s \/ failst s.

Lemma in_rm : forall x fd l, In x (rm fd l) <-> In x l /\ x <> fd.
Proof. intros x fd l. unfold rm. rewrite filter_In, negb_true_iff, Z.eqb_neq. tauto. Qed.
Lemma fresh_spec : forall fd s, fresh fd s = true -> 0 <= fd /\ ~ In fd (p_open s).
Proof.
  intros fd s H. apply andb_true_iff in H as [A B]. apply Z.leb_le in A. split; [exact A|]. intros I. apply negb_true_iff in B.
  assert (X : existsb (Z.eqb fd) (p_open s) = true) by (apply existsb_exists; exists fd; split; [exact I | apply Z.eqb_refl]). congruence.
Qed.
(** Every failing end from a live state (the accept may just have given a descriptor). *)
Lemma fail_live : forall s, p_old s = cs -> p_user s = None -> p_ub s = false -> 0 < p_ln s ->
  (match p_ch s with
   | CNone => False | CDial => p_dialed s = None | CWrite fd => p_dialed s = Some fd /\ p_fd0 s = -2 /\ 0 <= fd /\ fd <> p_ln s /\ fd <> p_fd1 s
   | CEnd => p_dialed s = Some (p_fd0 s) \/ p_dialed s = None end) ->
  (forall x, In x (p_open s) -> x = p_ln s \/ p_dialed s = Some x \/ x = p_fd1 s) ->
  (forall x, p_dialed s = Some x -> In x (p_open s)) -> failst (fail s).
Proof.
  intros s O U B L C OP DI. unfold fail, close_ln. destruct (Z.ltb_spec 0 (p_ln s)) as [_|]; [|lia].
  constructor; cbn -[rm]; auto. intros _. split; [reflexivity|]. right. intros x. rewrite !in_rm.
  destruct (p_ch s) as [| |fd|].
  - contradiction.
  - split; [|discriminate]. intros (((I & N1) & N2) & N3). destruct (OP x I) as [E|[E|E]]; congruence.
  - destruct C as (D & F0 & P & N1 & N2). split.
    + intros (((I & M1) & M2) & M3). destruct (OP x I) as [E|[E|E]]; congruence.
    + intros E. injection E as ->. repeat split; auto. lia.
  - split; [|discriminate]. intros (((I & N1) & N2) & N3). destruct (OP x I) as [E|[E|E]]; try congruence. destruct C as [C|C]; congruence.
Qed.
Lemma live_fail : forall s, live s -> failst (fail s).
Proof.
  intros s H. destruct H as [O C U B E L CH OP PH DI PE]. apply fail_live; auto.
  - destruct (p_ch s) as [| |fd|]; [contradiction | tauto | | tauto].
    destruct CH as (D & F & P). destruct (DI fd D) as [N1 N2]. repeat split; auto.
    destruct (p_ph s) eqn:PP; try contradiction; [lia | apply N2; discriminate | apply N2; discriminate].
  - intros x I. apply OP in I. tauto.
  - intros x D. apply OP. auto.
Qed.
Lemma child_out_live : forall s fd, live s -> (p_dialed s = Some fd /\ 0 <= fd \/ p_dialed s = None /\ fd = -1 /\ p_sent s = false) -> live (child_out fd s).
Proof.
  intros s fd [O C U B E L CH OP PH DI PE] D. constructor; cbn; auto.
  - rewrite B, E. reflexivity.
  - rewrite E. exact D.
Qed.
Lemma child_out_fail : forall s fd, failst s -> failst (child_out fd s).
Proof.
  intros s fd [P C U E Z]. constructor; cbn; auto. intros N. destruct (Z N) as [F _]. split; [exact F|]. left. rewrite E. apply orb_true_r.
Qed.
Lemma pinv_step : forall s e, (G -> ~ (p_acc s = Some false /\ e = ERead (Some secret))) -> pinv s -> pinv (pstep secret s e).
Proof.
  intros s e NG [->|[L|[K|F]]].
  - (* not begun *)
    destruct e as [ln st| |r| | |r|d|]; try (left; reflexivity). cbn. destruct ln as [fd|].
    + unfold fresh. cbn. destruct (Z.leb_spec 0 fd) as [P|]; [|left; reflexivity]. cbn. destruct (Z.ltb_spec 0 fd) as [Q|Q]; cbn.
      * destruct st.
        -- right. left. constructor; cbn; auto; try discriminate.
           ++ intros x. split; [intros [->|[]]; left; split; [discriminate | reflexivity] | intros [[_ ->]|[H|[H _]]]; [auto | discriminate H | congruence]].
           ++ intros [[]|H]; discriminate H.
        -- right. right. right. unfold fail, close_ln. cbn. destruct (Z.ltb_spec 0 fd); [|lia]. constructor; cbn; auto. intros _. split; [reflexivity|]. right. intros x. rewrite Z.eqb_refl. cbn. split; [tauto | discriminate].
      * right. right. right. unfold fail, close_ln. cbn. destruct (Z.ltb_spec 0 fd); [lia|]. constructor; cbn; auto. intros N. lia.
    + right. right. right. constructor; cbn; auto. intros _. split; [reflexivity|]. right. intros x. split; [tauto | discriminate].
  - (* in the call *)
    pose proof L as [O C U B E LN CH OP PH DI PE].
    destruct e as [ln st| |r| | |r|d|]; cbn.
    + destruct (p_ph s); try contradiction; right; left; exact L.
    + destruct (p_ph s) eqn:PP; try contradiction; [|right; left; exact L | right; left; exact L].
      right. left. constructor; cbn; rewrite ?PP; auto. rewrite in_app_iff. intros [[H|[H|[]]]|H]; [apply PE; auto | discriminate H | apply PE; auto].
    + destruct (p_ch s) eqn:CC; try (right; left; exact L). destruct r as [fd|].
      * destruct (fresh fd s) eqn:FR; [|right; left; exact L]. apply fresh_spec in FR as [P NI]. cbn [andb].
        destruct (p_ph s) eqn:PP; try contradiction; [| |right; left; exact L]; right; left; destruct CH as (D & F0 & SE); (constructor; cbn; rewrite ?PP; auto).
        -- intros x. rewrite OP. rewrite D. split.
           ++ intros [->|H]; [auto|]. destruct H as [H|[H|H]]; auto; discriminate H.
           ++ intros [H|[H|H]]; auto. injection H as ->. auto.
        -- intros x H. injection H as <-. split; [|congruence]. intros ->. apply NI. apply OP. left. split; [discriminate | reflexivity].
        -- discriminate.
        -- intros x. rewrite OP. rewrite D. split.
           ++ intros [->|H]; [auto|]. destruct H as [H|[H|H]]; auto; discriminate H.
           ++ intros [H|[H|H]]; auto. injection H as ->. auto.
        -- intros x H. injection H as <-. split; [|intros _]; intros ->; apply NI, OP; [left | right; right]; split; auto; discriminate.
        -- discriminate.
      * right. left. apply child_out_live; [exact L|]. right. tauto.
    + destruct (p_ch s) eqn:CC; try (right; left; exact L). right. left. constructor; cbn; rewrite ?CC; auto.
      destruct (p_ph s); try contradiction; auto. split; [tauto|]. split; [|tauto]. intros g. split; [tauto | reflexivity].
    + destruct (p_ch s) eqn:CC; try (right; left; exact L). right. left. apply child_out_live; [exact L|]. left. tauto.
    + destruct (p_ph s) eqn:PP; try contradiction; try (right; left; exact L). destruct PH as (AC & FI & F1). destruct r as [fd|].
      * destruct (p_pend s) as [|who pend] eqn:PN; [right; left; exact L|]. destruct (fresh fd s) eqn:FR; [|right; left; exact L]. apply fresh_spec in FR as [P NI].
        assert (NL : fd <> p_ln s) by (intros ->; apply NI, OP; left; split; [discriminate | reflexivity]).
        assert (ND : forall x, p_dialed s = Some x -> x <> fd) by (intros x D ->; apply NI, OP; auto).
        assert (OP' : forall x, In x (fd :: p_open s) <-> x = p_ln s \/ p_dialed s = Some x \/ x = fd).
        { intros x. cbn. rewrite OP. split; [intros [H|[[_ H]|[H|[H _]]]]; [auto | auto | auto | congruence] | intros [-> |[H| ->]]; auto]. right. left. split; [discriminate | reflexivity]. }
        destruct (Z.ltb_spec 0 fd) as [Q|Q].
        -- right. left. constructor; cbn; auto.
           ++ intros x. rewrite (OP' x : (fd = x \/ In x (p_open s)) <-> _). split; [intros [H|[H|H]] | intros [[_ H]|[H|[_ H]]]]; auto; [left | right; right]; split; auto; discriminate.
           ++ repeat split; auto. discriminate.
           ++ intros x D. split; [apply DI, D | intros _; apply ND, D].
           ++ intros H. apply PE. destruct H as [H|H]; [left; right; exact H|]. injection H as ->. left. left. reflexivity.
        -- right. right. right. apply fail_live; cbn; auto.
           ++ destruct (p_ch s) as [| |f|]; [contradiction | tauto | | tauto]. destruct CH as (D & F & P'). repeat split; auto. apply (DI _ D).
           ++ intros x H. apply OP', H.
           ++ intros x D. apply (OP' x). auto.
      * right. right. right. apply fail_live; cbn; auto.
        -- destruct (p_ch s) as [| |f|]; [contradiction | tauto | | tauto]. destruct CH as (D & F & P'). repeat split; auto; [apply (DI _ D) | lia].
        -- intros x H. apply OP in H. destruct H as [[_ H]|[H|[H _]]]; [auto | auto | congruence].
        -- intros x D. apply OP. auto.
    + destruct (p_ph s) eqn:PP; try contradiction; try (right; left; exact L). destruct d as [x|]; [|right; right; right; apply live_fail, L].
      destruct PH as (P1 & AC & FI & NL).
      set (b := match p_acc s with Some true => _ | _ => _ end). destruct b eqn:BB; subst b; [|right; left; exact L].
      destruct (Z.eqb_spec x secret) as [->|NE]; [|right; right; right; apply live_fail, L].
      right. left. unfold close_ln. destruct (Z.ltb_spec 0 (p_ln s)); [|lia]. constructor; cbn -[rm]; auto.
      * intros y. rewrite in_rm, OP. split.
        -- intros [[[_ ->]|[H1|[_ H1]]] N]; [congruence | auto | right; right; split; [discriminate | exact H1]].
        -- intros [[H1 _]|[H1|[_ ->]]]; [congruence | |]; (split; [|]); auto; [apply (DI _ H1)|]. right. right. split; [discriminate | reflexivity].
      * split; [exact P1|]. split; [|reflexivity]. intros g. destruct (p_acc s) as [[|]|] eqn:AA; [|exfalso; apply (NG g); auto | congruence]. apply andb_true_iff in BB. tauto.
      * intros y D. split; [apply DI, D | intros _; apply DI; [exact D | congruence]].
    + destruct (p_ph s) eqn:PP; try contradiction; try (right; left; exact L). destruct (p_ch s) eqn:CC; try (right; left; exact L).
      destruct PH as (P1 & GA & FI). right. right. left. constructor; cbn; auto. exists (p_fd0 s), (p_fd1 s). split; [reflexivity|]. intros g. destruct (GA g) as [A SE].
      destruct CH as [[D P0]|(D & _ & S0)]; [|congruence]. repeat split; auto.
      * apply DI; [exact D | congruence].
      * intros H. apply OP in H. rewrite D in H. destruct H as [[H _]|[H|[_ H]]]; [congruence | left; congruence | auto].
      * intros [->| ->]; apply OP; auto. right. right. split; [congruence | reflexivity].
  - (* returned 0 *)
    pose proof K as [P C U CH FI E US]. destruct e as [ln st| |r| | |r|d|]; cbn; rewrite ?P, ?CH; right; right; left; exact K.
  - (* returned -1 *)
    pose proof F as [P C U E Z]. right. right. right. destruct e as [ln st| |r| | |r|d|]; cbn; rewrite ?P; try exact F.
    + destruct (p_ch s); try exact F. destruct r as [fd|]; [rewrite andb_false_r; exact F | apply child_out_fail, F].
    + destruct (p_ch s) eqn:CC; try exact F. constructor; cbn; rewrite ?CC; auto.
    + destruct (p_ch s); try exact F. apply child_out_fail, F.
Qed.
Lemma pinv_run : forall es s, (G -> unguessed secret s es) -> pinv s -> pinv (prun secret s es).
Proof.
  induction es as [|e es IH]; intros s U I; [exact I|]. apply (IH (pstep secret s e)).
  - intros g. apply U in g. apply g.
  - apply pinv_step; [intros g; apply U in g; apply g | exact I].
Qed.
End Inv.

(** ** The claims *)
(** Success: the array holds two different open descriptors, the first connected by the
    helper and the second accepted from that very connection, over which the secret
    came; no other descriptor stays open, the helper has ended, the socket file is gone
    and the cancel state is what it was. *)
Theorem C54_success : forall secret cs es, unguessed secret (pinit cs) es -> let s := prun secret (pinit cs) es in
  p_ph s = PRet 0 -> exists a b, p_user s = Some (a, b) /\ p_dialed s = Some a /\ p_acc s = Some true /\ a <> b /\
    (forall x, In x (p_open s) <-> x = a \/ x = b) /\ p_ch s = CEnd /\ p_file s = false /\ p_cs s = cs /\ p_ub s = false.
Proof.
  intros secret cs es U s R. destruct (pinv_run secret cs True es (pinit cs) (fun _ => U) (or_introl eq_refl)) as [H|[H|[H|H]]]; fold s in H.
  - rewrite H in R. discriminate R.
  - pose proof (l_ph _ _ _ H) as P. rewrite R in P. contradiction.
  - destruct H as [P C B CH FI E (a & b & US & H)]. destruct (H Logic.I) as (D & A & SE & P0 & N & OP). exists a, b. repeat split; auto; apply OP.
  - rewrite (f_ph _ _ H) in R. discriminate R.
Qed.
(** Failure: the value is -1, the array is untouched and the cancel state is what it was.
    If the listener was not descriptor 0, it is closed and the socket file is gone. *)
Theorem C54_failure : forall secret cs es r, let s := prun secret (pinit cs) es in
  p_ph s = PRet r -> r <> 0 -> r = -1 /\ p_user s = None /\ p_cs s = cs /\ (p_ln s <> 0 -> p_file s = false).
Proof.
  intros secret cs es r s R N. destruct (pinv_run secret cs False es (pinit cs) (fun x => match x with end) (or_introl eq_refl)) as [H|[H|[H|H]]]; fold s in H.
  - rewrite H in R. discriminate R.
  - pose proof (l_ph _ _ _ H) as P. rewrite R in P. contradiction.
  - rewrite (k_ph _ _ _ H) in R. congruence.
  - destruct H as [P C U E Z]. rewrite P in R. injection R as <-. repeat split; auto. intros L. apply (Z L).
Qed.
(** After a failure nothing stays open and no dead memory is written, if the helper ended
    before the call returned. Missing: the helper is still busy, see
    [C54_dangling_refuted], and descriptor 0. *)
Theorem C54_no_leak_partial : forall secret cs es es', let s := prun secret (pinit cs) es in
  p_ph s = PRet (-1) -> p_ln s <> 0 -> (p_ch s = CNone \/ p_ch s = CEnd) -> p_ub s = false ->
  p_open (prun secret s es') = [] /\ p_ub (prun secret s es') = false.
Proof.
  intros secret cs es es' s R N CH B.
  assert (OP : p_open s = []).
  { destruct (pinv_run secret cs False es (pinit cs) (fun x => match x with end) (or_introl eq_refl)) as [H|[H|[H|H]]]; fold s in H.
    - rewrite H in R. discriminate R.
    - pose proof (l_ph _ _ _ H) as P. rewrite R in P. contradiction.
    - rewrite (k_ph _ _ _ H) in R. congruence.
    - destruct (f_zero _ _ H N) as [_ [X|X]]; [congruence|]. destruct (p_open s) as [|y l]; [reflexivity|]. destruct (X y) as [X1 _]. specialize (X1 (or_introl eq_refl)). destruct CH; congruence. }
  assert (ST : forall e, pstep secret s e = s).
  { intros e. destruct e as [ln st| |r| | |r|d|]; cbn; rewrite ?R; try reflexivity; destruct CH as [-> | ->]; reflexivity. }
  assert (RUN : prun secret s es' = s).
  { induction es' as [|e es' IH]; [reflexivity|]. cbn [prun fold_left]. rewrite ST. exact IH. }
  rewrite RUN. auto.
Qed.
(** accept fails (no descriptors left, say: the helper took the last one) while the
    helper's write is with a worker thread: neco_pipe returns -1, and later the helper
    writes into the stack frame that is gone and its descriptor stays open. *)
Definition ex54 : list pev := [EBegin (Some 5) true; EDial (Some 6); EAccept None].
Theorem C54_dangling_refuted : exists secret es, let s := prun secret (pinit false) es in let s' := prun secret s [ESend; EWrite] in
  p_ph s = PRet (-1) /\ p_ub s = false /\ p_ub s' = true /\ p_ch s' = CEnd /\ p_open s' = [6].
Proof. exists 77, ex54. vm_compute. auto. Qed.
(** The listener is descriptor 0: neco_pipe fails, keeps it open and leaves the socket
    file behind. *)
Theorem C54_fd_zero_refuted : exists es, let s := prun 77 (pinit false) es in p_ph s = PRet (-1) /\ p_open s = [0] /\ p_file s = true.
Proof. exists [EBegin (Some 0) true]. vm_compute. auto. Qed.

(** Success with the handshake arriving before the helper ends; failure because another
    process connected first and the helper had ended. *)
Definition ex54ok : list pev := [EBegin (Some 5) true; EDial (Some 6); EForeign; EAccept (Some 7); ESend; ERead (Some 77); EWrite; EJoin].
Definition ex54bad : list pev := [EBegin (Some 5) true; EForeign; EDial (Some 6); ESend; EWrite; EAccept (Some 7); ERead (Some 12)].
Example C54_example : p_ph (prun 77 (pinit true) ex54ok) = PRet 0 /\ p_user (prun 77 (pinit true) ex54ok) = Some (6, 7) /\ unguessed 77 (pinit true) ex54ok /\
  p_ph (prun 77 (pinit true) ex54bad) = PRet (-1) /\ p_ch (prun 77 (pinit true) ex54bad) = CEnd /\ p_ub (prun 77 (pinit true) ex54bad) = false /\ p_ln (prun 77 (pinit true) ex54bad) = 5.
Proof.
  split; [vm_compute; reflexivity|]. split; [vm_compute; reflexivity|].
  split; [repeat (split; [vm_compute; intros [A B]; discriminate|]); exact Logic.I|]. vm_compute. auto.
Qed.

Print Assumptions C54_success.
Print Assumptions C54_failure.
Print Assumptions C54_no_leak_partial.
Print Assumptions C54_dangling_refuted.
Print Assumptions C54_fd_zero_refuted.
