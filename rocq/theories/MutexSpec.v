(** What it means to hold a mutex, told from the calls and returns a client sees. *)
From Coq Require Import List ZArith Bool.
From Verif Require Import Runtime.
Import ListNotations.
Local Open Scope Z_scope.

(** not at all, as a writer, or as a reader (so many times) *)
Inductive held := HNone | HW | HR (n : nat).

(** How coroutine [c] holds mutex [m] after the history [t] (newest entry first):
    a lock or trylock call that returned NECO_OK makes it a writer, an rdlock or
    tryrdlock call that returned NECO_OK a reader once more; calling unlock gives one
    hold up; calling cond_wait gives the hold up, and its return takes it back. *)
Fixpoint hold (m : nat) (c : Z) (t : list obs) : held :=
  match t with
  | [] => HNone
  | x :: r =>
      let h := hold m c r in
      match x with
      | TRet _ c' o v _ _ =>
          if c' =? c then
            match o with
            | OpLock m' _ | OpTryLock m' => if Nat.eqb m' m && (v =? OK) then HW else h
            | OpRdLock m' _ | OpTryRdLock m' =>
                if Nat.eqb m' m && (v =? OK) then match h with HR n => HR (S n) | _ => HR 1 end else h
            | OpCvWait _ m' _ => if Nat.eqb m' m then HW else h
            | _ => h
            end
          else h
      | TCall _ c' o _ =>
          if c' =? c then
            match o with
            | OpUnlock m' => if Nat.eqb m' m then match h with HR (S (S n)) => HR (S n) | _ => HNone end else h
            | OpCvWait _ m' _ => if Nat.eqb m' m then HNone else h
            | _ => h
            end
          else h
      | _ => h
      end
  end.

(** The rules clients have to keep: unlock only what one holds, call cond_wait only as
    the writer, and do not initialise a mutex again while somebody holds it. *)
Definition proper (t : list obs) : Prop :=
  forall l1 l2 k c o tm, t = l1 ++ TCall k c o tm :: l2 ->
  match o with
  | OpUnlock m => hold m c l2 <> HNone
  | OpCvWait _ m _ => hold m c l2 = HW
  | OpMuInit m => forall x, hold m x l2 = HNone
  | _ => True
  end.

(** a lock or rdlock call on [m] *)
Definition locking (o : op) (m : nat) : Prop := match o with OpLock m' _ | OpRdLock m' _ => m' = m | _ => False end.
(** some lock or rdlock call on [m] has ended with NECO_CANCELED or NECO_TIMEDOUT *)
Definition failed (m : nat) (t : list obs) : Prop :=
  exists k c o v mm tm, In (TRet k c o v mm tm) t /\ locking o m /\ (v = ECANCELED \/ v = ETIMEDOUT).
