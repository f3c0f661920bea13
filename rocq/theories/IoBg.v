(** neco_write with its write workers, which are on by default on Linux
    (/repo/neco.c:62-63): write3 hands the system call to a background thread and
    pauses until the thread is done. One caller inside one neco_write call, the
    background threads, the scheduler and the other coroutines interleave freely. *)
From Coq Require Import ZArith List Bool Lia.
From Verif Require Import Runtime Errors IoLoops.
Import ListNotations.
Local Open Scope Z_scope.

(** Where the caller is: at the head of the loop of write_dl (or in the cowait or
    coyield before it), in the sco_pause of its [n]-th write3 (5234), or back from the
    call. [rest] are the bytes still to be written, [w] is [written]. *)
Inductive bphase :=
| PTop (rest : list Z) (w : Z)
| PBg (n : nat) (rest : list Z) (w : Z)
| PDone (r errno : Z).
(** A submitted job: the write3 call whose local variable [info] it points to, the bytes
    [info] describes, and whether a thread has begun it (read [info]). *)
Record bjob := mkjob { j_no : nat; j_bytes : list Z; j_begun : bool }.
(** [b_res]: what the thread has stored in the current [info]; [b_io]: the caller is
    on rt->iolist; [b_out]: the bytes the kernel has taken; [b_ub]: a thread has used an
    [info] that does not exist any more. *)
Record bst := mkb { b_ph : bphase; b_jobs : list bjob; b_res : option wans; b_io : bool; b_next : nat; b_out : list Z; b_ub : bool }.
Definition binit (data : list Z) : bst := mkb (PTop data 0) [] None false 0 [] false.

(** the bytes the kernel takes with answer [a] *)
Definition taken (rest : list Z) (a : wans) : list Z := match a with WN k => firstn (Nat.min k (length rest)) rest | WErr _ => [] end.
(** the loop of write_dl after write3 has returned, 5269-5299 *)
Definition after (rest : list Z) (w : Z) (a : wans) : bphase :=
  match a with
  | WErr e =>
      if retry e then match rest with [] => PDone w e | _ => PTop rest w end
      else if w =? 0 then PDone (-1) e else PDone w e
  | WN k =>
      let n := Nat.min k (length rest) in
      match skipn n rest with [] => PDone (w + Z.of_nat n) 0 | r => PTop r (w + Z.of_nat n) end
  end.

(** [BTurn]: the caller runs the loop head: [c] is the result of checkdl, [sub] says
    whether worker_submit accepts the job; if it does not, the caller makes the
    system call itself, with answer [a] (5243-5245). [BBegin], [BFinish]: a thread runs iowrite
    (5200-5209), up to and from the system call. [BIo]: the scheduler takes the caller
    off rt->iolist and resumes it (4192-4203). [BCancel]: another coroutine cancels the
    caller, which resumes it wherever it is paused (cancel_dl, 4660-4661). *)
Inductive bev := BTurn (c : Z) (sub : bool) (a : wans) | BBegin (n : nat) | BFinish (n : nat) (a : wans) | BIo | BCancel.
Definition live (p : bphase) (n : nat) : bool := match p with PBg m _ _ => Nat.eqb m n | _ => false end.
Definition find_job (n : nat) (l : list bjob) : option bjob := find (fun j => Nat.eqb (j_no j) n) l.
Definition drop_job (n : nat) (l : list bjob) : list bjob := filter (fun j => negb (Nat.eqb (j_no j) n)) l.
(** the caller continues after sco_pause: info.res is 0 if nothing was stored (5225) *)
Definition resume (s : bst) : bst :=
  match b_ph s with
  | PBg n rest w =>
      mkb (after rest w (match b_res s with Some a => a | None => WN 0 end)) (b_jobs s) None (b_io s) (b_next s) (b_out s) (b_ub s)
  | _ => s
  end.
Definition bstep (s : bst) (e : bev) : bst :=
  if b_ub s then s
  else match e with
  | BTurn c sub a =>
      match b_ph s with
      | PTop rest w =>
          if negb (c =? OK) then mkb (PDone (-1) (check_errno c)) (b_jobs s) (b_res s) (b_io s) (b_next s) (b_out s) false
          else if sub then
            mkb (PBg (b_next s) rest w) (b_jobs s ++ [mkjob (b_next s) rest false]) None (b_io s) (S (b_next s)) (b_out s) false
          else mkb (after rest w a) (b_jobs s) (b_res s) (b_io s) (b_next s) (b_out s ++ taken rest a) false
      | _ => s
      end
  | BBegin n =>
      match find_job n (b_jobs s) with
      | Some (mkjob _ bs false) =>
          if live (b_ph s) n then
            mkb (b_ph s) (map (fun j => if Nat.eqb (j_no j) n then mkjob n (j_bytes j) true else j) (b_jobs s)) (b_res s) (b_io s) (b_next s) (b_out s) false
          else mkb (b_ph s) (b_jobs s) (b_res s) (b_io s) (b_next s) (b_out s) true
      | _ => s
      end
  | BFinish n a =>
      match find_job n (b_jobs s) with
      | Some (mkjob _ bs true) =>
          let out := b_out s ++ taken bs a in
          if live (b_ph s) n then mkb (b_ph s) (drop_job n (b_jobs s)) (Some a) true (b_next s) out false
          else mkb (b_ph s) (drop_job n (b_jobs s)) (b_res s) (b_io s) (b_next s) out true
      | _ => s
      end
  | BIo =>
      if b_io s then
        let s1 := mkb (b_ph s) (b_jobs s) (b_res s) false (b_next s) (b_out s) false in resume s1
      else s
  | BCancel => resume s
  end.
Definition brun (s : bst) (es : list bev) : bst := fold_left bstep es s.
