(** Concrete histories in which handlers are popped before coroutine functions return. *)
From Coq Require Import List ZArith Bool Lia.
From Verif Require Import Runtime StackShape PairedInv Scripts.
Import ListNotations.
Local Open Scope Z_scope.

Definition poppedb (s : state) : bool :=
  match mode s, cur (sc s) with
  | MRet _, Some c => match stk (sc s) c with [FEntry] => match cleanups (cof (dt s) c) with [] => true | _ => false end | _ => true end
  | _, _ => true
  end.
Lemma poppedb_ok : forall s, poppedb s = true -> popped s.
Proof.
  intros s H c v M CU SK. unfold poppedb in H. rewrite M, CU, SK in H. destruct (cleanups (cof (dt s) c)); [reflexivity | discriminate].
Qed.
Fixpoint prunb (s : state) (es : list event) : bool :=
  match es with [] => true | e :: es => poppedb s && prunb (step s e) es end.
Lemma prunb_ok : forall es s, preach s -> prunb s es = true -> preach (run s es).
Proof.
  induction es as [|e es IH]; intros s P H; [exact P|]. cbn [prunb] in H. apply andb_true_iff in H. destruct H as [A B].
  apply (IH (step s e)); [apply pr_step; [exact P | apply poppedb_ok, A] | exact B].
Qed.
Lemma script_preach : forall l, prunb (init g0) (scr l) = true -> preach (script l).
Proof. intros l H. apply prunb_ok; [apply pr_init, g0_ok | exact H]. Qed.
Lemma script1_preach : forall l, prunb (init g1) (scr l) = true -> preach (script1 l).
Proof. intros l H. apply prunb_ok; [apply pr_init, g1_ok | exact H]. Qed.
