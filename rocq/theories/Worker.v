(** The background worker pool: worker.c, /repo/neco.c:2640-2834. Each event is one
    critical section of a thread's mutex, or the run of one job outside it; the events
    of all submitters and worker threads interleave freely. Jobs are values of Z (a
    non-null function with its data). The time-outs are the environment's: a timed wait
    may end at any moment, for any reason. Not modelled: worker_new's allocation
    (the state starts as it leaves it), pthread_detach. *)
From Coq Require Import List ZArith Bool.
From Verif Require Import ChanMem.
Import ListNotations.
Local Open Scope Z_scope.

(** What pthread_create does: starts a thread, whose handle is stored; or fails with a
    positive error number as POSIX specifies, leaving th zero or not (its contents
    are undefined); or returns -1, the value the code checks for. *)
Inductive created := CrOk | CrErr (th : bool) | CrMinus1 (th : bool).
Inductive wphase := WGone | WIdle | WWait | WRun (job : Z).
(** [wq]: entries/pos/len/nentries; [wth]: th is not zero; [wend]: end; [wph]: where the
    OS thread running worker_entry is: none, about to test len, in the timed wait, or
    running a job *)
Record wthread := mkwt { wq : ring; wth : bool; wend : bool; wph : wphase }.
(** [nexts]: the thread-local worker_next_index of each submitter;
    [wlog]: what happened, newest first *)
Inductive wobs := WAccept (i : nat) (job : Z) | WRefuse (i : nat) (job : Z) | WBegin (i : nat) (job : Z) | WEnd (i : nat) (job : Z).
Record wpool := mkwp { nth_ : nat; threads : nat -> wthread; nexts : nat -> Z; wlog : list wobs }.
Definition setw (i : nat) (t : wthread) (p : wpool) : wpool :=
  mkwp (nth_ p) (fun k => if Nat.eqb k i then t else threads p k) (nexts p) (wlog p).
Definition logw (o : wobs) (p : wpool) : wpool := mkwp (nth_ p) (threads p) (nexts p) (o :: wlog p).

(** worker_new, 2704-2753 *)
Definition worker_new (nthreads nentries : Z) : wpool :=
  let n := if nthreads <=? 0 then 2 else if 65536 <? nthreads then 65536 else nthreads in
  let e := if nentries <=? 0 then 32 else if 65536 <? nentries then 65536 else nentries in
  mkwp (Z.to_nat n) (fun _ => mkwt (ring0 e) false false WGone) (fun _ => 0) [].

(** the thread worker_submit chooses, 2802-2808 *)
Definition chosen (p : wpool) (u : nat) (pin : Z) : nat :=
  Z.to_nat ((if pin <? 0 then nexts p u else pin) mod (Z.of_nat (nth_ p))).
(** worker_submit, 2798-2833: [u] the submitting OS thread *)
Definition submit (u : nat) (pin job : Z) (cr : created) (p : wpool) : wpool :=
  let i := chosen p u pin in
  let p := mkwp (nth_ p) (threads p) (fun v => if Nat.eqb v u then (nexts p u + 1) mod 4294967296 else nexts p v) (wlog p) in
  let t := threads p i in
  if blen (wq t) <? bcap (wq t) then
    let q := cbuf_push job (wq t) in
    if wth t then logw (WAccept i job) (setw i (mkwt q (wth t) (wend t) (wph t)) p)
    else match cr with
         | CrOk => logw (WAccept i job) (setw i (mkwt q true (wend t) WIdle) p)
         | CrErr h => logw (WAccept i job) (setw i (mkwt q h (wend t) (wph t)) p)
         | CrMinus1 h => logw (WRefuse i job) (setw i (mkwt q h (wend t) (wph t)) p)
         end
  else logw (WRefuse i job) p.
(** one turn of worker_entry in thread [i], 2756-2789 *)
Definition work_turn (i : nat) (p : wpool) : wpool :=
  let t := threads p i in
  match wph t with
  | WGone => p
  | WIdle => (* 2761-2768: while (thread->len > 0) take an entry and unlock, else wait *)
      if 0 <? blen (wq t) then
        let '(job, q) := cbuf_pop (wq t) in
        logw (WBegin i job) (setw i (mkwt q (wth t) (wend t) (WRun job)) p)
      else setw i (mkwt (wq t) (wth t) (wend t) WWait) p
  | WRun job => (* 2769-2772: the job returns, lock again *)
      logw (WEnd i job) (setw i (mkwt (wq t) (wth t) (wend t) WIdle) p)
  | WWait => (* 2777-2786: the timed wait is over *)
      if blen (wq t) =? 0 then setw i (mkwt (wq t) false false WGone) p
      else setw i (mkwt (wq t) (wth t) (wend t) WIdle) p
  end.
(** worker_free, first half, 2685-2689 *)
Definition shutdown (i : nat) (p : wpool) : wpool :=
  let t := threads p i in setw i (mkwt (wq t) (wth t) true (wph t)) p.

Inductive wevent := WSubmit (u : nat) (pin job : Z) (cr : created) | WTurn (i : nat) | WShutdown (i : nat).
Definition wstep (p : wpool) (e : wevent) : wpool :=
  match e with
  | WSubmit u pin job cr => submit u pin job cr p
  | WTurn i => work_turn i p
  | WShutdown i => shutdown i p
  end.
