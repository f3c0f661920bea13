(** What the value of a wait group is, from the calls that were made, and what
    it means that it was zero while a call was going on. *)
From Coq Require Import List ZArith Bool.
From Verif Require Import Runtime.
Import ListNotations.
Local Open Scope Z_scope.

(** the counter of wait group [w] after the history [t] (newest event first): an
    add or done that would make it negative is ignored *)
Fixpoint wg_count (w : nat) (t : list obs) : Z :=
  match t with
  | [] => 0
  | TCall _ _ (OpWgInit w') _ :: r | TCall _ _ (OpWgDestroy w') _ :: r => if Nat.eqb w' w then 0 else wg_count w r
  | TCall _ _ (OpWgAdd w' n) _ :: r =>
      if Nat.eqb w' w then (if wg_count w r + n <? 0 then wg_count w r else wg_count w r + n) else wg_count w r
  | TCall _ _ (OpWgDone w') _ :: r =>
      if Nat.eqb w' w then (if wg_count w r =? 0 then 0 else wg_count w r - 1) else wg_count w r
  | _ :: r => wg_count w r
  end.
(** at some moment of history [t] after call [k] was made the counter was zero *)
Definition zero_during (w k : nat) (t : list obs) : Prop :=
  exists t1 t2, t = t1 ++ t2 /\ (exists c o tm, In (TCall k c o tm) t2) /\ wg_count w t2 = 0.
