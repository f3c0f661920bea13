(** C51: neco_write with background threads. *)
From Coq Require Import ZArith List Bool Lia.
From Verif Require Import Util Runtime Errors IoLoops IoBg.
Import ListNotations.
Local Open Scope Z_scope.

(** ** Specification *)
(** what the caller sees *)
Definition seen (s : bst) : outcome := match b_ph s with PDone r e => Ret r e | _ => Blocked end.
(** the call has returned *)
Definition returned (s : bst) : Prop := exists r e, b_ph s = PDone r e.
(** nobody cancels the caller while a background thread has its write in hand *)
Definition uncanceled (data : list Z) (es : list bev) : Prop :=
  forall l1 l2 n rest w, es = l1 ++ BCancel :: l2 -> b_ph (brun (binit data) l1) <> PBg n rest w.

(** ** Proofs *)
Definition going (data : list Z) (script : list (Z * wans)) (rest : list Z) (w : Z) (out : list Z) : Prop :=
  forall tail, write_loop data 0 (script ++ tail) = (fst (write_loop rest w tail), out ++ snd (write_loop rest w tail)).
Lemma going_0 : forall data, going data [] data 0 [].
Proof. intros data tail. cbn. destruct (write_loop data 0 tail); reflexivity. Qed.
Lemma turn_eq : forall rest w a tail, write_loop rest w ((OK, a) :: tail) =
  match after rest w a with
  | PDone r e => (Ret r e, taken rest a)
  | PTop r w' => (fst (write_loop r w' tail), taken rest a ++ snd (write_loop r w' tail))
  | PBg _ _ _ => (Blocked, [])
  end.
Proof.
  intros rest w a tail. cbn. destruct a as [k|e]; cbn.
  - destruct (skipn (Nat.min k (length rest)) rest) as [|x r] eqn:SK; [reflexivity|]. destruct (write_loop _ _ tail); reflexivity.
  - destruct (retry e); [destruct rest; [reflexivity|]; destruct (write_loop _ _ tail); reflexivity|]. destruct (w =? 0); reflexivity.
Qed.
Lemma going_turn : forall data script rest w out a, going data script rest w out ->
  match after rest w a with
  | PDone r e => write_dl data (script ++ [(OK, a)]) = (Ret r e, out ++ taken rest a)
  | PTop r w' => going data (script ++ [(OK, a)]) r w' (out ++ taken rest a)
  | PBg _ _ _ => False
  end.
Proof.
  intros data script rest w out a G. destruct (after rest w a) as [r w'|n r w'|r e] eqn:A.
  - intros tail. rewrite <- app_assoc. cbn [app]. rewrite G, turn_eq, A. cbn [fst snd]. rewrite app_assoc. reflexivity.
  - unfold after in A. destruct a; [destruct (skipn _ _); discriminate A|]. destruct (retry e); [destruct rest; discriminate A|]. destruct (w =? 0); discriminate A.
  - unfold write_dl. rewrite G, turn_eq, A. reflexivity.
Qed.
Lemma going_check : forall data script rest w out c, going data script rest w out -> c <> OK ->
  write_dl data (script ++ [(c, WN 0)]) = (Ret (-1) (check_errno c), out).
Proof.
  intros data script rest w out c G N. unfold write_dl. rewrite G. cbn. destruct (Z.eqb_spec c OK); [congruence|]. cbn. rewrite app_nil_r. reflexivity.
Qed.
Lemma going_blocked : forall data script rest w out, going data script rest w out -> write_dl data script = (Blocked, out).
Proof. intros data script rest w out G. pose proof (G []) as H. rewrite app_nil_r in H. unfold write_dl. rewrite H. cbn. rewrite app_nil_r. reflexivity. Qed.

Definition binv (data : list Z) (s : bst) : Prop :=
  b_ub s = false /\ exists script,
  match b_ph s with
  | PTop rest w => b_jobs s = [] /\ b_io s = false /\ going data script rest w (b_out s)
  | PBg n rest w => exists out, going data script rest w out /\
      ((b_res s = None /\ b_io s = false /\ b_out s = out /\ exists b, b_jobs s = [mkjob n rest b]) \/
       (exists a, b_res s = Some a /\ b_io s = true /\ b_jobs s = [] /\ b_out s = out ++ taken rest a))
  | PDone r e => b_jobs s = [] /\ b_io s = false /\ write_dl data script = (Ret r e, b_out s)
  end.
Lemma binv_step : forall data s e, binv data s -> (e = BCancel -> forall n rest w, b_ph s <> PBg n rest w) -> binv data (bstep s e).
Proof.
  intros data s e (UB & script & I) NC. unfold bstep. rewrite UB. destruct e as [c sub a|n|n a| |].
  - destruct (b_ph s) as [rest w|m rest w|r e] eqn:PH; [|split; [exact UB|]; exists script; rewrite PH; exact I..].
    destruct I as (J & IO & G). destruct (Z.eqb_spec c OK) as [->|NO]; cbn [negb].
    + destruct sub.
      * split; [reflexivity|]. exists script. cbn. exists (b_out s). split; [exact G|]. left. rewrite J. cbn. eauto.
      * split; [reflexivity|]. exists (script ++ [(OK, a)]). cbn [b_ph b_jobs b_io b_out b_res]. pose proof (going_turn _ _ _ _ _ a G) as T.
        destruct (after rest w a); [auto | contradiction | auto].
    + split; [reflexivity|]. exists (script ++ [(c, WN 0)]). cbn. split; [exact J|]. split; [exact IO|]. eapply going_check; eassumption.
  - destruct (b_ph s) as [rest w|m rest w|r e] eqn:PH.
    + destruct I as (J & IO & G). rewrite J. cbn. split; [exact UB|]. exists script. rewrite PH. auto.
    + destruct I as (out & G & [(R & IO & O & b & J)|(a & R & IO & J & O)]); rewrite J; cbn.
      * unfold find_job. cbn. destruct (Nat.eqb_spec m n) as [->|NE]; [|split; [exact UB|]; exists script; rewrite PH; exists out; split; [exact G|left; eauto 6]].
        destruct b; [split; [exact UB|]; exists script; rewrite PH; exists out; split; [exact G|left; eauto 6]|]. cbn. rewrite ?Nat.eqb_refl.
        split; [reflexivity|]. exists script. cbn. exists out. split; [exact G|]. left. rewrite ?Nat.eqb_refl. eauto 6.
      * split; [exact UB|]. exists script. rewrite PH. exists out. split; [exact G|]. right. eauto 6.
    + destruct I as (J & IO & G). rewrite J. cbn. split; [exact UB|]. exists script. rewrite PH. auto.
  - destruct (b_ph s) as [rest w|m rest w|r e] eqn:PH.
    + destruct I as (J & IO & G). rewrite J. cbn. split; [exact UB|]. exists script. rewrite PH. auto.
    + destruct I as (out & G & [(R & IO & O & b & J)|(a' & R & IO & J & O)]); rewrite J; cbn.
      * unfold find_job. cbn. destruct (Nat.eqb_spec m n) as [->|NE]; [|split; [exact UB|]; exists script; rewrite PH; exists out; split; [exact G|left; eauto 6]].
        destruct b; [|split; [exact UB|]; exists script; rewrite PH; exists out; split; [exact G|left; eauto 6]]. cbn. rewrite ?Nat.eqb_refl.
        split; [reflexivity|]. exists script. cbn. exists out. split; [exact G|]. right. exists a. rewrite O. auto.
      * split; [exact UB|]. exists script. rewrite PH. exists out. split; [exact G|]. right. eauto 6.
    + destruct I as (J & IO & G). rewrite J. cbn. split; [exact UB|]. exists script. rewrite PH. auto.
  - destruct (b_io s) eqn:IO; [|split; [exact UB|]; exists script; rewrite IO; exact I].
    destruct (b_ph s) as [rest w|m rest w|r e] eqn:PH; [destruct I as (_ & D & _); discriminate D| |destruct I as (_ & D & _); discriminate D].
    destruct I as (out & G & [(R & D & O & b & J)|(a & R & _ & J & O)]); [discriminate D|].
    unfold resume. cbn. rewrite R. split; [reflexivity|]. exists (script ++ [(OK, a)]). cbn [b_ph b_jobs b_io b_out b_res]. pose proof (going_turn _ _ _ _ _ a G) as T.
    rewrite O. destruct (after rest w a); [auto | contradiction | auto].
  - unfold resume. destruct (b_ph s) as [rest w|m rest w|r e] eqn:PH; [| destruct (NC eq_refl m rest w eq_refl) |]; split; try exact UB; exists script; rewrite PH; exact I.
Qed.
Lemma brun_app : forall s l1 l2, brun s (l1 ++ l2) = brun (brun s l1) l2.
Proof. intros. apply fold_left_app. Qed.
Lemma binv_run : forall data es, uncanceled data es -> binv data (brun (binit data) es).
Proof.
  intros data es. induction es as [|e es IH] using rev_ind; intros U.
  - split; [reflexivity|]. exists []. cbn. split; [reflexivity|]. split; [reflexivity|]. apply going_0.
  - rewrite brun_app. cbn. apply binv_step.
    + apply IH. intros l1 l2 n rest w Q. apply (U l1 (l2 ++ [e])). rewrite Q, <- app_assoc. reflexivity.
    + intros -> n rest w. apply (U es []). reflexivity.
Qed.

(** Whatever the background threads, the scheduler and the kernel do, and whether
    or not the jobs are accepted: no thread touches memory of a finished call; the
    bytes the kernel has taken are those the plain loop of C32 gives for some answers of the
    kernel; and when the call has returned, its result is that of the plain loop. So all of C32 holds
    for it. The full statement drops [uncanceled]; it is false, see below. *)
Theorem C51_as_if_direct_partial : forall data es, uncanceled data es ->
  let s := brun (binit data) es in
  b_ub s = false /\ exists script, snd (write_dl data script) = b_out s /\
    (forall r e, seen s = Ret r e -> fst (write_dl data script) = Ret r e).
Proof.
  intros data es U s. destruct (binv_run data es U) as (UB & script & I). fold s in UB, I. split; [exact UB|]. unfold seen.
  destruct (b_ph s) as [rest w|m rest w|r e].
  - exists script. destruct I as (_ & _ & G). rewrite (going_blocked _ _ _ _ _ G). split; [reflexivity | discriminate].
  - destruct I as (out & G & [(_ & _ & O & _)|(a & _ & _ & _ & O)]).
    + exists script. rewrite (going_blocked _ _ _ _ _ G). split; [symmetry; exact O | discriminate].
    + exists (script ++ [(OK, a)]). split; [|discriminate]. pose proof (going_turn _ _ _ _ _ a G) as T. rewrite O.
      destruct (after rest w a) as [r w'|? ? ?|r e]; [rewrite (going_blocked _ _ _ _ _ T); reflexivity | contradiction | rewrite T; reflexivity].
  - exists script. destruct I as (_ & _ & I). rewrite I. split; [reflexivity | intros r' e' Q; exact Q].
Qed.
(** When the call has returned, the kernel and the threads are done with the caller's
    data: nothing that happens afterwards writes another byte or touches memory
    of the call. *)
Lemma done_still : forall s e, returned s -> b_jobs s = [] -> b_ub s = false ->
  returned (bstep s e) /\ b_jobs (bstep s e) = [] /\ b_ub (bstep s e) = false /\ b_out (bstep s e) = b_out s.
Proof.
  intros s e (r & e0 & PH) J UB. unfold bstep. rewrite UB. destruct e as [c sub a|n|n a| |].
  - rewrite PH. unfold returned. rewrite PH. eauto 6.
  - rewrite J. cbn. unfold returned. rewrite PH. eauto 6.
  - rewrite J. cbn. unfold returned. rewrite PH. eauto 6.
  - destruct (b_io s); unfold resume; cbn; rewrite ?PH; unfold returned; cbn; rewrite ?PH; eauto 6.
  - unfold resume. rewrite PH. unfold returned. rewrite PH. eauto 6.
Qed.
Theorem C51_quiet_after_return_partial : forall data es es', uncanceled data es ->
  let s := brun (binit data) es in returned s ->
  b_out (brun s es') = b_out s /\ b_ub (brun s es') = false.
Proof.
  intros data es es' U s RT. destruct (binv_run data es U) as (UB & script & I). fold s in UB, I. pose proof RT as (r & e & PH). rewrite PH in I. destruct I as (J & _ & _).
  clear script U PH. revert RT UB J. generalize s. clear s. induction es' as [|e' es' IH]; intros s RT UB J; [split; [reflexivity | exact UB]|].
  cbn [brun fold_left]. destruct (done_still s e' RT J UB) as (A & B & C & D). rewrite <- D. apply (IH (bstep s e')); assumption.
Qed.
(** The caller does not stay blocked: from every moment of its wait, the thread
    carrying out the write and the scheduler bring it back to the loop with
    the kernel's answer [a]. *)
Theorem C51_progress : forall data es n rest w, uncanceled data es -> b_ph (brun (binit data) es) = PBg n rest w ->
  exists es', (forall e, In e es' -> e <> BCancel) /\ forall n' rest' w', b_ph (brun (binit data) (es ++ es')) <> PBg n' rest' w'.
Proof.
  intros data es n rest w U PH. destruct (binv_run data es U) as (UB & script & I). set (s := brun (binit data) es) in *. rewrite PH in I.
  assert (AF : forall a n' r' w', after rest w a <> PBg n' r' w').
  { intros a n' r' w' A. unfold after in A. destruct a; [destruct (skipn _ _); discriminate A|]. destruct (retry e); [destruct rest; discriminate A|]. destruct (w =? 0); discriminate A. }
  destruct I as (out & G & [(R & IO & O & b & J)|(a & R & IO & J & O)]).
  - destruct b.
    + exists [BFinish n (WN 1); BIo]. split; [intros e [<-|[<-|[]]]; discriminate|]. rewrite brun_app. fold s. intros n' rest' w'. cbn [brun fold_left].
      unfold bstep at 2. rewrite UB. rewrite J. unfold find_job. cbn [find j_no]. rewrite ?Nat.eqb_refl. rewrite PH. cbn [live]. rewrite ?Nat.eqb_refl. cbn -[after]. apply AF.
    + exists [BBegin n; BFinish n (WN 1); BIo]. split; [intros e [<-|[<-|[<-|[]]]]; discriminate|]. rewrite brun_app. fold s. intros n' rest' w'. cbn [brun fold_left].
      unfold bstep at 3. rewrite UB. rewrite J. unfold find_job. cbn [find j_no]. rewrite ?Nat.eqb_refl. rewrite PH. cbn [live map j_no j_bytes]. rewrite ?Nat.eqb_refl.
      unfold bstep at 2. cbn [b_ub b_jobs b_ph]. unfold find_job. cbn [find j_no]. rewrite ?Nat.eqb_refl. cbn [live]. rewrite ?Nat.eqb_refl. cbn -[after]. apply AF.
  - exists [BIo]. split; [intros e [<-|[]]; discriminate|]. rewrite brun_app. fold s. intros n' rest' w'. cbn [brun fold_left]. unfold bstep. rewrite UB, IO. unfold resume. cbn -[after]. rewrite PH, R. cbn -[after]. apply AF.
Qed.

(** ** A cancellation breaks it *)
(** The caller is canceled while its job waits for a thread: neco_write returns -1 with
    ECANCELED, and then the thread reads the local variable of the finished call. *)
Definition ex51a : list bev := [BTurn OK true (WN 0); BCancel; BTurn ECANCELED true (WN 0)].
Theorem C51_dangling_refuted : exists data es e, let s := brun (binit data) es in
  seen s = Ret (-1) sysECANCELED /\ b_ub s = false /\ b_ub (bstep s e) = true.
Proof. exists [10; 11; 12], ex51a, (BBegin 0). vm_compute. auto. Qed.
(** The caller is canceled while the thread is in the system call: neco_write returns -1
    with ECANCELED and nothing written; afterwards the bytes are written. *)
Definition ex51b : list bev := [BTurn OK true (WN 0); BBegin 0; BCancel; BTurn ECANCELED true (WN 0)].
Theorem C51_written_later_refuted : exists data es e, let s := brun (binit data) es in
  seen s = Ret (-1) sysECANCELED /\ b_out s = [] /\ b_out (bstep s e) = data /\ data <> [].
Proof. exists [10; 11; 12], ex51b, (BFinish 0 (WN 3)). vm_compute. repeat split; discriminate. Qed.

(** A write in two background jobs, the second refused by the full queue and made
    directly; a cancellation that comes between the jobs does no harm. *)
Definition ex51c : list bev := [BTurn OK true (WN 0); BBegin 0; BFinish 0 (WN 2); BIo; BTurn OK false (WErr sysEAGAIN); BTurn OK true (WN 0); BBegin 1; BFinish 1 (WN 9); BIo].
Example C51_example : seen (brun (binit [1; 2; 3; 4]) ex51c) = Ret 4 0 /\ b_out (brun (binit [1; 2; 3; 4]) ex51c) = [1; 2; 3; 4] /\ uncanceled [1; 2; 3; 4] ex51c.
Proof.
  split; [reflexivity|]. split; [reflexivity|]. intros l1 l2 n rest w Q. exfalso.
  assert (I : In BCancel ex51c) by (rewrite Q; apply in_or_app; right; left; reflexivity). cbn in I. intuition discriminate.
Qed.
Definition ex51d : list bev := [BTurn OK true (WN 0); BBegin 0; BFinish 0 (WN 2); BIo; BCancel; BTurn ECANCELED false (WN 0)].
Example C51_example_canceled : seen (brun (binit [1; 2; 3; 4]) ex51d) = Ret (-1) sysECANCELED /\ b_out (brun (binit [1; 2; 3; 4]) ex51d) = [1; 2] /\ uncanceled [1; 2; 3; 4] ex51d.
Proof.
  split; [reflexivity|]. split; [reflexivity|]. intros l1 l2 n rest w Q.
  do 4 (destruct l1 as [|? l1]; [discriminate Q | cbn in Q; injection Q as <- Q]). destruct l1 as [|? l1]; [cbn; discriminate|].
  cbn in Q. injection Q as <- Q. destruct l1 as [|? l1]; [discriminate Q|]. cbn in Q. injection Q as <- Q. destruct l1; discriminate Q.
Qed.
Example C51_example_progress : exists n rest w, b_ph (brun (binit [1; 2]) [BTurn OK true (WN 0); BBegin 0]) = PBg n rest w.
Proof. do 3 eexists. reflexivity. Qed.

Print Assumptions C51_as_if_direct_partial.
Print Assumptions C51_quiet_after_return_partial.
Print Assumptions C51_progress.
Print Assumptions C51_dangling_refuted.
Print Assumptions C51_written_later_refuted.
