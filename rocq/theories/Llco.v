(** The C side of the low-level coroutines (llco, neco.c:1120-1320): who is
    current, and when the clean-up function of an ended coroutine is called.
    The change of stacks itself ([_llco_asm_switch]) is one assignment to
    [phys] here; [Asm.v] has its instructions.

    Simplified: no Valgrind registration, no record for stack unwinding; a
    coroutine is named by the number of its start instead of by the address of
    the [struct llco] on its stack. *)
From Coq Require Import List Bool PeanoNat Lia.
Import ListNotations.

(** [struct llco_desc] (neco.c:218-225).  [d_cleanup] is the clean-up function:
    [None] is NULL, [Some true] one that calls a function of llco. *)
Record desc := mkd { d_stack : nat; d_cleanup : option bool }.

(** Whose stack or [struct llco]: the thread's or that of a coroutine. *)
Inductive ctx := Thread | Co (n : nat).

Definition ctx_eqb (a b : ctx) : bool :=
  match a, b with
  | Thread, Thread => true
  | Co n, Co k => Nat.eqb n k
  | _, _ => false
  end.

(** What happens, newest first: coroutine [n] begins; coroutine [n]
    is left for good; the clean-up function is called for a stack, on the stack
    of [p]; code of the user runs on the stack of [p]. *)
Inductive ev :=
| EStart (n : nat) (d : desc)
| EFinal (n : nat)
| EClean (stack : nat) (p : ctx)
| EUser (p : ctx).

Inductive mode := Ok | Aborted | Exited | Undefined.

Record st := mkst {
  descs : list (nat * desc);   (* desc of each coroutine that began *)
  nxt : nat;
  live : list nat;             (* began and not left for good *)
  phys : ctx;                  (* on whose stack the thread runs *)
  curp : option ctx;           (* llco_cur (neco.c:1147); None is NULL *)
  ldesc : desc;                (* llco_desc (neco.c:1148) *)
  needed : bool;               (* llco_cleanup_needed *)
  cdesc : desc;                (* llco_cleanup_desc *)
  active : bool;               (* llco_cleanup_active *)
  md : mode;
  log : list ev
}.

Definition no_desc : desc := mkd 0 None.

Fixpoint find_desc (l : list (nat * desc)) (n : nat) : desc :=
  match l with
  | [] => no_desc
  | (k, d) :: r => if Nat.eqb k n then d else find_desc r n
  end.

(** [x->desc] ([llco_thread] has none: neco.c:1146). *)
Definition desc_of (s : st) (x : ctx) : desc :=
  match x with Thread => no_desc | Co n => find_desc (descs s) n end.

Definition init : st :=
  mkst [] 0 [] Thread None no_desc false no_desc false Ok [].

Definition w_md m s := mkst (descs s) (nxt s) (live s) (phys s) (curp s) (ldesc s)
  (needed s) (cdesc s) (active s) m (log s).
Definition w_log e s := mkst (descs s) (nxt s) (live s) (phys s) (curp s) (ldesc s)
  (needed s) (cdesc s) (active s) (md s) (e :: log s).
Definition w_cur c s := mkst (descs s) (nxt s) (live s) (phys s) c (ldesc s)
  (needed s) (cdesc s) (active s) (md s) (log s).
Definition w_phys p s := mkst (descs s) (nxt s) (live s) p (curp s) (ldesc s)
  (needed s) (cdesc s) (active s) (md s) (log s).
Definition w_needed b s := mkst (descs s) (nxt s) (live s) (phys s) (curp s) (ldesc s)
  b (cdesc s) (active s) (md s) (log s).
Definition w_cdesc d s := mkst (descs s) (nxt s) (live s) (phys s) (curp s) (ldesc s)
  (needed s) d (active s) (md s) (log s).
Definition w_active b s := mkst (descs s) (nxt s) (live s) (phys s) (curp s) (ldesc s)
  (needed s) (cdesc s) b (md s) (log s).
Definition w_ldesc d s := mkst (descs s) (nxt s) (live s) (phys s) (curp s) d
  (needed s) (cdesc s) (active s) (md s) (log s).
Definition w_live l s := mkst (descs s) (nxt s) l (phys s) (curp s) (ldesc s)
  (needed s) (cdesc s) (active s) (md s) (log s).

(** llco_cleanup_guard (neco.c:1153-1158). *)
Definition guarded (s : st) (k : st -> st) : st :=
  if active s then w_md Aborted s else k s.

(** llco_cleanup_last (neco.c:1160-1173).  A clean-up function that calls llco
    runs into the guard. *)
Definition cleanup_last (s : st) : st :=
  if needed s then
    match d_cleanup (cdesc s) with
    | Some calls =>
        let s := w_active true s in
        let s := w_log (EClean (d_stack (cdesc s)) (phys s)) s in
        let s := if calls then guarded s (fun s => s) else s in
        match md s with
        | Ok => w_needed false (w_active false s)
        | _ => s
        end
    | None => w_needed false s
    end
  else s.

(** The user's code on the current stack. *)
Definition user (s : st) : st :=
  match md s with Ok => w_log (EUser (phys s)) s | _ => s end.

(** llco_entry_wrap (neco.c:1175-1189), reached through [_llco_asm_entry] and
    llco_entry on the new stack: clean up, make the own [struct llco] from
    [llco_desc], make it current, call the entry function. *)
Definition entry_wrap (s : st) : st :=
  let s := cleanup_last s in
  match md s with
  | Ok =>
      let n := nxt s in
      let s := mkst ((n, ldesc s) :: descs s) (S n) (n :: live s) (phys s)
        (Some (Co n)) (ldesc s) (needed s) (cdesc s) (active s) (md s)
        (EStart n (ldesc s) :: log s) in
      user s
  | _ => s
  end.

(** Continue on the stack of [p] behind the call that switched away (the tail of
    llco_switch0, neco.c:1270, or of llco_switch, neco.c:1301): clean up and
    return to the user.  It is undefined to continue on the stack of a coroutine
    that was left for good. *)
Definition resume_at (p : ctx) (s : st) : st :=
  let ok := match p with Thread => true | Co n => existsb (Nat.eqb n) (live s) end in
  if ok then user (cleanup_last (w_phys p s)) else w_md Undefined s.

(** Leaving for good is noted in the log; it is not a variable of the code. *)
Definition note_final (final : bool) (s : st) : st :=
  if final then
    match phys s with
    | Thread => s
    | Co n => w_log (EFinal n) (w_live (remove Nat.eq_dec n (live s)) s)
    end
  else s.

(** llco_switch0 with llco_switch1 (neco.c:1199-1272). *)
Definition switch0 (d : option desc) (co : option ctx) (final : bool) (s : st) : st :=
  let from := match curp s with Some c => c | None => Thread end in
  let to := match d with
            | Some _ => None
            | None => Some (match co with Some c => c | None => Thread end)
            end in
  let same := match to with Some t => ctx_eqb from t | None => false end in
  if same then user s
  else
    let s := if final then w_cdesc (desc_of s from) (w_needed true s) else s in
    let s := note_final final s in
    match d, to with
    | Some d, _ => entry_wrap (w_phys (Co (nxt s)) (w_ldesc d s))
    | None, Some t => resume_at t (w_cur (Some t) s)
    | None, None => s
    end.

(** llco_start (neco.c:1281-1288); [big]: the stack is large enough. *)
Definition start (d : desc) (big final : bool) (s : st) : st :=
  if big then guarded s (switch0 (Some d) None final) else w_md Aborted s.

(** llco_switch (neco.c:1291-1307) with the short cut. *)
Definition switch (co : option ctx) (final : bool) (s : st) : st :=
  match curp s, co with
  | Some c, Some t =>
      if negb (active s) && negb (ctx_eqb c t) && negb final then
        resume_at t (w_cur (Some t) s)
      else guarded s (switch0 None co final)
  | _, _ => guarded s (switch0 None co final)
  end.

(** llco_current (neco.c:1311-1315): [None] is NULL. *)
Definition current (s : st) : option ctx :=
  match curp s with Some Thread => None | x => x end.

(** What the running code may do; a coroutine whose entry function returns ends
    the process (llco_entry, neco.c:1192-1196). *)
Inductive op :=
| OStart (d : desc) (big final : bool)
| OSwitch (co : option ctx) (final : bool)
| OReturn.

Definition step (s : st) (o : op) : st :=
  match md s with
  | Ok =>
      match o with
      | OStart d big final => start d big final s
      | OSwitch co final => switch co final s
      | OReturn => w_md Exited s
      end
  | _ => s
  end.

Definition run (ops : list op) : st := fold_left step ops init.
