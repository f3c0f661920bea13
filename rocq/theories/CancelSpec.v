(** Specification vocabulary for cancellation, read off the trace (newest entry
    first): the cancel state and type a coroutine has chosen, and its cleanup
    handlers that are pushed and neither popped nor run. *)
From Coq Require Import List ZArith.
From Verif Require Import Runtime.
Import ListNotations.
Local Open Scope Z_scope.

Fixpoint cancel_state (x : Z) (dflt : bool) (t : list obs) : bool :=
  match t with
  | [] => dflt
  | TCall _ c (OpSetState b) _ :: r => if c =? x then b else cancel_state x dflt r
  | _ :: r => cancel_state x dflt r
  end.
Fixpoint cancel_type (x : Z) (dflt : bool) (t : list obs) : bool :=
  match t with
  | [] => dflt
  | TCall _ c (OpSetType b) _ :: r => if c =? x then b else cancel_type x dflt r
  | _ :: r => cancel_type x dflt r
  end.
Fixpoint handlers (x : Z) (t : list obs) : list Z :=
  match t with
  | [] => []
  | TCall _ c (OpCleanupPush h) _ :: r => if c =? x then h :: handlers x r else handlers x r
  | TCall _ c (OpCleanupPop false) _ :: r => if c =? x then tl (handlers x r) else handlers x r
  | THandler c h :: r => if c =? x then tl (handlers x r) else handlers x r
  | _ :: r => handlers x r
  end.
