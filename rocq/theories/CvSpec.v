(** What it means that a condition variable was signalled while a call was going on. *)
From Coq Require Import List ZArith.
From Verif Require Import Runtime.
Import ListNotations.
Local Open Scope Z_scope.

(** in the history [t], after call [k] was made, somebody called neco_cond_signal or
    neco_cond_broadcast on [v] *)
Definition signalled (v k : nat) (t : list obs) : Prop :=
  exists t1 t2 j c o tm, t = t1 ++ TCall j c o tm :: t2 /\ (o = OpCvSignal v \/ o = OpCvBcast v) /\
  exists c' o' tm', In (TCall k c' o' tm') t2.
