(** Waiting for descriptors on systems with kqueue (the BSDs, macOS): the same map of
    waiters as in EventWait.v, but the kernel keeps one registration per descriptor and
    direction, and neco adds it only when nobody waits for that event yet. *)
From Coq Require Import ZArith List Bool.
From Verif Require Import AATree AATreeSpec AATreeHist ShardMap EventWait.
Import ListNotations.
Local Open Scope Z_scope.

(** wait_dl_addevent for kqueue, /repo/neco.c:4878-4890: EV_ADD|EV_ONESHOT for the one
    filter of [kind], and only when evexists(fd, kind) is false; kevent succeeding *)
Definition kq_add (s : est) (fd kind : Z) : Z -> bool * bool :=
  if evexists (ev s) fd kind then armed s
  else fun f => if f =? fd then (if kind =? EVREAD then (true, snd (armed s f)) else (fst (armed s f), true)) else armed s f.

Definition kstep (s : est) (o : eop) : option est :=
  match o with
  | EWait fd kind id => (* wait_dl up to copause, 4929-4943 *)
      Some (mkest (fst (minsert evcompare ev_shard (ev s) (fd, kind, id))) (kq_add s fd kind) (woken s))
  | ELeave fd kind id => (* wait_dl after copause, 4945-4952; wait_dl_delevent does nothing, 4892-4895 *)
      match mdelete evcompare ev_shard (ev s) (fd, kind, id) with
      | Some (m, _) => Some (mkest m (armed s) (filter (fun i => negb (i =? id)) (woken s)))
      | None => None
      end
  | EEvent fd r w => (* 4104-4137; a kevent carries one filter, so r and w are not both set *)
      match (if r then wake_event (ev s) fd EVREAD else Some []), (if w then wake_event (ev s) fd EVWRITE else Some []) with
      | Some l1, Some l2 =>
          (* EV_ONESHOT: the registration of the reported filter is gone, the other one stays *)
          Some (mkest (ev s) (fun f => if f =? fd then (fst (armed s f) && negb r, snd (armed s f) && negb w) else armed s f)
                      (map snd (l1 ++ l2) ++ woken s))
      | _, _ => None
      end
  end.
Fixpoint krun (s : est) (os : list eop) : option est :=
  match os with
  | [] => Some s
  | o :: os => match kstep s o with Some s => krun s os | None => None end
  end.
