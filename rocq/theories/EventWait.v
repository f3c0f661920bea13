(** Waiting for descriptors: the event-waiter map of the runtime and the epoll
    registrations of the kernel (one-shot, one registration per descriptor).
    The waiting coroutine is identified by its id; what it does besides waiting
    is in Runtime.v. *)
From Coq Require Import ZArith List Bool Lia.
From Verif Require Import AATree AATreeSpec AATreeHist ShardMap.
Import ListNotations.
Local Open Scope Z_scope.

Definition EVREAD : Z := 1.
Definition EVWRITE : Z := 2.
Notation evkey := (Z * Z * Z)%type (only parsing).
Definition is_event (fd kind : Z) (k : evkey) : bool := (fst (fst k) =? fd) && (snd (fst k) =? kind).

Record est := mkest {
  ev : smap (A := evkey);       (* rt->evwaiters *)
  armed : Z -> bool * bool;     (* kernel: interest in (EPOLLIN, EPOLLOUT) still armed, per descriptor *)
  woken : list Z                (* ids resumed by an event and not yet back from the wait *)
}.

(** evexists, /repo/neco.c:3683-3687 *)
Definition evexists (m : smap) (fd kind : Z) : bool :=
  match elt (miter evcompare ev_shard m (fd, kind, 0)) with
  | Some k => is_event fd kind k
  | None => false
  end.
(** the wake-up loop for one descriptor and kind, /repo/neco.c:4124-4135 *)
Definition wake_event (m : smap) (fd kind : Z) : option (list evkey) :=
  let t := m (ev_shard (fd, kind, 0)) in
  walk evcompare (S (length (elements t))) t (miter evcompare ev_shard m (fd, kind, 0)) (is_event fd kind).

Inductive eop :=
| EWait (fd kind id : Z)        (* wait_dl up to copause, /repo/neco.c:4855-4871, 4929-4943, epoll_ctl succeeding *)
| ELeave (fd kind id : Z)       (* wait_dl after copause, 4945-4952, for whatever reason it was resumed *)
| EEvent (fd : Z) (r w : bool). (* epoll_wait reports the descriptor, 4099-4137; r, w: EPOLLIN, EPOLLOUT in the event *)

Definition estep (s : est) (o : eop) : option est :=
  match o with
  | EWait fd kind id =>
      let mask := if kind =? EVREAD then (true, evexists (ev s) fd EVWRITE) else (evexists (ev s) fd EVREAD, true) in
      Some (mkest (fst (minsert evcompare ev_shard (ev s) (fd, kind, id)))
                  (fun f => if f =? fd then mask else armed s f) (woken s))
  | ELeave fd kind id =>
      match mdelete evcompare ev_shard (ev s) (fd, kind, id) with
      | Some (m, _) => Some (mkest m (armed s) (filter (fun i => negb (i =? id)) (woken s)))
      | None => None
      end
  | EEvent fd r w =>
      match (if r then wake_event (ev s) fd EVREAD else Some []), (if w then wake_event (ev s) fd EVWRITE else Some []) with
      | Some l1, Some l2 =>
          (* one-shot: reporting the event disarms the registration *)
          Some (mkest (ev s) (fun f => if f =? fd then (false, false) else armed s f)
                      (map snd (l1 ++ l2) ++ woken s))
      | _, _ => None
      end
  end.
Definition einit : est := mkest mempty (fun _ => (false, false)) [].
Fixpoint erun (s : est) (os : list eop) : option est :=
  match os with
  | [] => Some s
  | o :: os => match estep s o with Some s => erun s os | None => None end
  end.
