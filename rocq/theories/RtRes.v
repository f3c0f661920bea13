(** What a runtime owns: coroutine records (each with its stack) and their pool, the
    event queue descriptor, and the jobs of worker threads that point into them. *)
From Coq Require Import ZArith List Bool Arith.
Import ListNotations.
Open Scope Z_scope.

(** Records are numbered in the order of their allocation; [r_next] is the next number.
    [r_live]: records with a coroutine on them; [r_pool]: rt->pool from head to tail, with
    pool_ts; [r_freed]: every coroutine_free so far, in order; [r_qfd], [r_qcreated]:
    rt->qfd, rt->qfdcreated; [r_open]: open event queues; [r_wait]: rt->nevwaiters;
    [r_jobs]: records whose coroutine has handed a job to a worker thread that has not
    finished; [r_over]: run has returned; [r_ub]: a job used a freed record. *)
Record rst := mkr { r_next : nat; r_live : list nat; r_pool : list (nat * Z); r_npool : Z; r_freed : list nat;
                    r_qfd : Z; r_qcreated : Z; r_open : list Z; r_wait : nat; r_jobs : list nat; r_over : bool; r_ub : bool }.
Definition rinit : rst := mkr 0 [] [] 0 [] 0 0 [] 0 [] false false.

Definition keep_ms : Z := 100000000. (* NECO_MILLISECOND * 100 *)
Definition drop1 (n : nat) (l : list nat) : list nat := filter (fun x => negb (Nat.eqb x n)) l.
Definition member (n : nat) (l : list nat) : bool := existsb (Nat.eqb n) l.
Definition rmz (fd : Z) (l : list Z) : list Z := filter (fun x => negb (x =? fd)) l.

(** start, /repo/neco.c:3837-3900, as far as the record is concerned: from the pool, else
    coroutine_new (3743-3761; [rec] says whether malloc and the stack succeed); [rest]
    says whether the generator and the argument array can be allocated, otherwise
    coroutine_free (3897). *)
Definition r_start (rec rest : bool) (s : rst) : rst :=
  match r_pool s with
  | (n, _) :: p =>
      if rest then mkr (r_next s) (r_live s ++ [n]) p (r_npool s - 1) (r_freed s) (r_qfd s) (r_qcreated s) (r_open s) (r_wait s) (r_jobs s) (r_over s) (r_ub s)
      else mkr (r_next s) (r_live s) p (r_npool s - 1) (r_freed s ++ [n]) (r_qfd s) (r_qcreated s) (r_open s) (r_wait s) (r_jobs s) (r_over s) (r_ub s)
  | [] =>
      if rec then
        let n := r_next s in
        if rest then mkr (S n) (r_live s ++ [n]) [] (r_npool s) (r_freed s) (r_qfd s) (r_qcreated s) (r_open s) (r_wait s) (r_jobs s) (r_over s) (r_ub s)
        else mkr (S n) (r_live s) [] (r_npool s) (r_freed s ++ [n]) (r_qfd s) (r_qcreated s) (r_open s) (r_wait s) (r_jobs s) (r_over s) (r_ub s)
      else s
  end.
(** cleanup, /repo/neco.c:3803-3817, after the coroutine has ended: pool_ts is 0 since
    start (3845) or the memset (3748). *)
Definition r_exit (n : nat) (s : rst) : rst :=
  if member n (r_live s)
  then mkr (r_next s) (drop1 n (r_live s)) (r_pool s ++ [(n, 0)]) (r_npool s + 1) (r_freed s) (r_qfd s) (r_qcreated s) (r_open s) (r_wait s) (r_jobs s) (r_over s) (r_ub s)
  else s.
(** the first loop of rt_rc_step, 4255-4259: stamps from the tail on as long as pool_ts
    is 0; on the reversed pool *)
Fixpoint stamp (now : Z) (l : list (nat * Z)) : list (nat * Z) :=
  match l with
  | (n, ts) :: r => if ts =? 0 then (n, now) :: stamp now r else l
  | [] => []
  end.
(** the second loop, 4260-4268: what stays, and what is freed *)
Fixpoint expire (now : Z) (l : list (nat * Z)) : list (nat * Z) * list nat :=
  match l with
  | (n, ts) :: r => if now - ts <? keep_ms then (l, []) else let '(p, f) := expire now r in (p, n :: f)
  | [] => ([], [])
  end.
(** rt_rc_step, /repo/neco.c:4240-4270 *)
Definition r_rc (now : Z) (s : rst) : rst :=
  let close := Nat.eqb (r_wait s) 0 && (0 <? r_qfd s) && (keep_ms <? now - r_qcreated s) in
  let qfd := if close then 0 else r_qfd s in
  let opn := if close then rmz (r_qfd s) (r_open s) else r_open s in
  if 0 <? r_npool s then
    let '(p, f) := expire now (rev (stamp now (rev (r_pool s)))) in
    mkr (r_next s) (r_live s) p (r_npool s - Z.of_nat (length f)) (r_freed s ++ f) qfd (r_qcreated s) opn (r_wait s) (r_jobs s) (r_over s) (r_ub s)
  else mkr (r_next s) (r_live s) (r_pool s) (r_npool s) (r_freed s) qfd (r_qcreated s) opn (r_wait s) (r_jobs s) (r_over s) (r_ub s).
(** The beginning of wait_dl, /repo/neco.c:4915-4943: a queue is made if there is none;
    [fd] is evqueue's answer. (Registering fails for other reasons than these, which
    leaves everything as it is.) *)
Definition r_begin_wait (fd : option Z) (now : Z) (s : rst) : rst :=
  if r_qfd s =? 0 then
    match fd with
    | None => s
    | Some fd =>
        if (0 <=? fd) && negb (existsb (Z.eqb fd) (r_open s)) then
          mkr (r_next s) (r_live s) (r_pool s) (r_npool s) (r_freed s) fd now (fd :: r_open s) (S (r_wait s)) (r_jobs s) (r_over s) (r_ub s)
        else s
    end
  else mkr (r_next s) (r_live s) (r_pool s) (r_npool s) (r_freed s) (r_qfd s) (r_qcreated s) (r_open s) (S (r_wait s)) (r_jobs s) (r_over s) (r_ub s).
(** its end, 4949-4950 *)
Definition r_end_wait (s : rst) : rst :=
  mkr (r_next s) (r_live s) (r_pool s) (r_npool s) (r_freed s) (r_qfd s) (r_qcreated s) (r_open s) (pred (r_wait s)) (r_jobs s) (r_over s) (r_ub s).
(** neco_work or a background write hands a job to a thread (8727-8731, 5231-5233); the
    thread finishes it and puts the record on rt->iolist (8706-8712): a use of the
    record and of its stack, where the job's description lies. *)
Definition r_job (n : nat) (s : rst) : rst :=
  if member n (r_live s) then mkr (r_next s) (r_live s) (r_pool s) (r_npool s) (r_freed s) (r_qfd s) (r_qcreated s) (r_open s) (r_wait s) (n :: r_jobs s) (r_over s) (r_ub s) else s.
Definition r_job_done (n : nat) (s : rst) : rst :=
  if member n (r_jobs s)
  then mkr (r_next s) (r_live s) (r_pool s) (r_npool s) (r_freed s) (r_qfd s) (r_qcreated s) (r_open s) (r_wait s) (drop1 n (r_jobs s)) (r_over s) (r_ub s || member n (r_freed s)) else s.
(** The end of rt_scheduler, 4284-4293, and of run, 4390-4398, when no coroutine is left:
    the queue is closed, the pooled records are freed, then worker_free waits for the
    threads, which finish their jobs, and the runtime is released. *)
Definition r_finish (s : rst) : rst :=
  match r_live s with
  | [] =>
      let freed := r_freed s ++ map fst (r_pool s) in
      mkr (r_next s) [] [] (r_npool s) freed (r_qfd s) (r_qcreated s) (if r_qfd s =? 0 then r_open s else rmz (r_qfd s) (r_open s)) (r_wait s) []
          true (r_ub s || existsb (fun n => member n freed) (r_jobs s))
  | _ => s
  end.

Inductive rop := OStart (rec rest : bool) | OExit (n : nat) | ORc (now : Z) | OWait (fd : option Z) (now : Z) | OWaitEnd
  | OJob (n : nat) | OJobDone (n : nat) | OFinish.
Definition rstep (s : rst) (o : rop) : rst :=
  if r_over s then s
  else match o with
  | OStart rec rest => r_start rec rest s
  | OExit n => r_exit n s
  | ORc now => r_rc now s
  | OWait fd now => match r_live s with [] => s | _ => r_begin_wait fd now s end
  | OWaitEnd => r_end_wait s
  | OJob n => r_job n s
  | OJobDone n => r_job_done n s
  | OFinish => match r_wait s with O => r_finish s | _ => s end
  end.
Definition resrun (s : rst) (os : list rop) : rst := fold_left rstep os s.
