(** Concrete histories, for the examples and counterexamples next to the theorems. *)
From Coq Require Import List ZArith Bool Lia.
From Verif Require Import Runtime StackShape.
Import ListNotations.
Local Open Scope Z_scope.

(** a process's first runtime: first coroutine id 1, runtime id 1, clock 1000 ns,
    deferred cancellation type, cancellation enabled, main thread *)
Definition g0 : config := mkcfg 0 1 1000 false true true.
(** the same with asynchronous cancellation *)
Definition g1 : config := mkcfg 0 1 1000 true true true.
(** run library code and the scheduler loop for up to [n] steps each (steps that do
    not apply change nothing) *)
Fixpoint settle (n : nat) : list event := match n with O => [] | S n => ETick true :: EMain [] :: settle n end.
(** give control back to client code after each event *)
Definition scr (l : list event) : list event := flat_map (fun e => e :: settle 12) l.
Definition script (l : list event) : state := run (init g0) (scr l).
Definition script1 (l : list event) : state := run (init g1) (scr l).

Lemma g0_ok : cfg_ok g0. Proof. split; cbn; lia. Qed.
Lemma g1_ok : cfg_ok g1. Proof. split; cbn; lia. Qed.
Lemma script_reach : forall l, reach (script l).
Proof. intros l. exists g0, (scr l). split; [exact g0_ok | reflexivity]. Qed.
Lemma script1_reach : forall l, reach (script1 l).
Proof. intros l. exists g1, (scr l). split; [exact g1_ok | reflexivity]. Qed.
