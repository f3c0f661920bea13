(** Vocabulary for stating properties of the runtime: functions of the trace of
    observable effects only. Traces are newest first. *)
From Coq Require Import List ZArith Bool.
From Verif Require Import Runtime.
Import ListNotations.
Local Open Scope Z_scope.

(** coroutines started / ended so far *)
Definition started (t : list obs) : list Z :=
  flat_map (fun o => match o with TStart _ c => [c] | _ => [] end) t.
Definition exited (t : list obs) : list Z :=
  flat_map (fun o => match o with TExit c => [c] | _ => [] end) t.
Definition alive (t : list obs) (c : Z) : Prop := In c (started t) /\ ~ In c (exited t).

(** the children a coroutine has started, newest first *)
Definition children (c : Z) (t : list obs) : list Z :=
  flat_map (fun o => match o with TStart p x => if p =? c then [x] else [] | _ => [] end) t.

(** API calls made, and returned, as (call number, coroutine, operation) *)
Definition calls (t : list obs) : list (nat * Z * op) :=
  flat_map (fun o => match o with TCall k c o _ => [(k, c, o)] | _ => [] end) t.
Definition rets (t : list obs) : list (nat * Z * op * Z) :=
  flat_map (fun o => match o with TRet k c o v _ _ => [(k, c, o, v)] | _ => [] end) t.

(** the state after a history *)
Definition hist (g : config) (es : list event) : state := run (init g) es.
