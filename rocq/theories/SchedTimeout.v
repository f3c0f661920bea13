(** Deadline arithmetic and the time the scheduler is willing to wait.
    Undefined behaviour (signed overflow, NULL dereference) is [None]. *)
From Coq Require Import ZArith List Bool Lia.
From Verif Require Import Runtime.
Import ListNotations.
Local Open Scope Z_scope.

(** INT64_MIN; INT64_MAX is [MAXI] *)
Definition MINI : Z := -9223372036854775808.
Definition in64 (x : Z) : Prop := MINI <= x <= MAXI.
Definition in64b (x : Z) : bool := (MINI <=? x) && (x <=? MAXI).
(** int64_t arithmetic: the exact result, or undefined behaviour *)
Definition chk (x : Z) : option Z := if in64b x then Some x else None.
Definition obind {A B} (o : option A) (f : A -> option B) : option B :=
  match o with Some a => f a | None => None end.

(** i64_add_clamp, /repo/neco.c:4140-4153 *)
Definition i64_add_clamp (a b : Z) : option Z :=
  if negb (Z.lxor a b <? 0) then
    if 0 <? a then
      obind (chk (MAXI - a)) (fun x => if x <? b then Some MAXI else chk (a + b))
    else
      obind (chk (MINI - a)) (fun x => if b <? x then Some MINI else chk (a + b))
  else chk (a + b).

(** neco_sleep, /repo/neco.c:4545-4547: the deadline handed to neco_sleep_dl;
    [nw] is getnow() *)
Definition sleep_deadline (nw nanosecs : Z) : option Z := i64_add_clamp nw nanosecs.

(** MAX_TIMEOUT, /repo/neco.c:4155 *)
Definition MAX_TIMEOUT : Z := 500000000.
(** CLAMP, /repo/neco.c:2898 *)
Definition CLAMP (x lo hi : Z) : Z := if x <=? lo then lo else if hi <=? x then hi else x.

(** The time-out computed by rt_sched_paused_step, /repo/neco.c:4169-4206, after
    the resumers were woken. [scheduled]: sco_info_scheduled() (2126);
    [mask]: rt->sigmask; [ndl]: rt->ndeadlines; [dl]: the entries of
    rt->deadlines in order; [nw]: getnow(); [iow]: rt->niowaiters. *)
Definition sched_timeout (scheduled mask ndl : Z) (dl : list (Z * Z)) (nw iow : Z) : option Z :=
  let t := MAX_TIMEOUT in
  let t := if (0 <? t) && (0 <? scheduled) then 0 else t in
  let t := if (0 <? t) && negb (mask =? 0) then 0 else t in
  obind (if (0 <? t) && (0 <? ndl)
         then match dl with
              | [] => None
              | (d, _) :: _ =>
                  obind (chk (- nw)) (fun n =>
                  obind (i64_add_clamp d n) (fun t0 => Some (if t0 <? t then t0 else t)))
              end
         else Some t)
    (fun t => let t := CLAMP t 0 MAX_TIMEOUT in
              Some (if 0 <? iow then 0 else t)).

(** The wait itself: epoll_wait takes whole milliseconds (4082),
    nanosleep a pair (4219-4222) or nothing at all (4212). *)
Definition epoll_ms (t : Z) : Z := Z.quot t 1000000.
Definition nanosleep_arg (t : Z) : Z * Z := (Z.quot t 1000000000, Z.rem t 1000000000).
