(** The neco coroutine runtime as an executable abstract machine.

    Every C function that can switch context is cut at its switch points; the
    rest of the function is a continuation [frame] on the coroutine's stack.
    A *handler* is the code between two cuts: it maps the data part of the state
    to new data, frames to push, and one terminal control action [ctl]. The
    control actions are interpreted by the model of the sco scheduler.

    The client program is not fixed: a history is any list of [event]s, where an
    [ECall] is an API call chosen freely by the running coroutine. *)
From Coq Require Import List ZArith Bool.
From Verif Require Import AATreeSpec AATreeHist.
Import ListNotations.
Local Open Scope Z_scope.

(** INT64_MAX *)
Definition MAXI : Z := 9223372036854775807.

(** Error codes, /repo/neco.h:360-378 *)
Definition OK := 0.
Definition EERROR := -1.
Definition EINVAL := -2.
Definition EPERM := -3.
Definition ENOTFOUND := -6.
Definition ENOSIGWATCH := -7.
Definition ECLOSED := -8.
Definition EEMPTY := -9.
Definition ETIMEDOUT := -10.
Definition ECANCELED := -11.
Definition EBUSY := -12.
Definition ENEGWAITGRP := -13.
Definition ENOTGENERATOR := -17.
Definition ENOTSUSPENDED := -18.

(** The API calls a client can make. [dl] parameters are the deadlines of the
    *_dl variants (MAXI for the plain ones). Channel, mutex, wait group and
    condition handles are natural numbers. [OpReturn] is the client's function
    (coroutine body or cleanup handler) returning. [fail] of [OpWait] and [sub]
    of [OpWork] are choices of the environment (event queue error; worker
    queue accepts the job). *)
Inductive op :=
| OpStart | OpGenStart | OpYield | OpSleep (dl : Z)
| OpGetid | OpLastid | OpStarterid | OpStats
| OpCancel (id dl : Z) | OpSetType (async : bool) | OpSetState (enable : bool)
| OpSigWatch (n : Z) | OpSigUnwatch (n : Z) | OpSigWait (dl : Z)
| OpWait (fd kind dl : Z) (fail : bool)
| OpChMake (cap : Z) | OpSend (ch : nat) (m dl : Z) | OpBcast (ch : nat) (m : Z)
| OpRecv (ch : nat) (dl : Z) | OpTryRecv (ch : nat) | OpClose (ch : nat)
| OpSelect (chs : list nat) (dl : Z) | OpTrySelect (chs : list nat) | OpCase (ch : nat)
| OpGenYield (m dl : Z)
| OpMuInit (m : nat) | OpTryLock (m : nat) | OpTryRdLock (m : nat)
| OpLock (m : nat) (dl : Z) | OpRdLock (m : nat) (dl : Z) | OpUnlock (m : nat) | OpMuDestroy (m : nat)
| OpWgInit (w : nat) | OpWgAdd (w : nat) (d : Z) | OpWgDone (w : nat) | OpWgWait (w : nat) (dl : Z) | OpWgDestroy (w : nat)
| OpCvInit (v : nat) | OpCvSignal (v : nat) | OpCvBcast (v : nat) | OpCvWait (v m : nat) (dl : Z) | OpCvDestroy (v : nat)
| OpJoin (id dl : Z) | OpSuspend (dl : Z) | OpResume (id : Z) | OpWork (sub : bool)
| OpCleanupPush (h : Z) | OpCleanupPop (exec : bool) | OpExit | OpReturn.

(** Continuation frames: "what remains to be done when the call underneath
    returns / the coroutine is switched in again". The comment gives the line
    of the cut. *)
Inductive frame :=
| FEntry                                (* coentry 3830-3834: client body runs on top *)
| FApi (k : nat) (o : op)               (* the public wrapper of API call number k: error guard *)
| FHandler                              (* cleanup_pop 7690-7692: handler runs on top *)
| FCoyield                              (* coyield 3655, after sco_yield *)
| FYfsr                                 (* yield_for_sched_resume 3678, between the two yields *)
| FPause                                (* copause 4500, after sco_pause *)
| FSleep                                (* sleep0 4513 *)
| FCancelWait (id dl : Z)               (* cancel_dl 4668 *)
| FCancelGo                             (* cancel_dl 4660, after sco_resume *)
| FSigWait                              (* signal_wait_dl 4783 *)
| FEvWait (fd kind : Z)                 (* wait_dl 4943 *)
| FSendResumed                          (* chan_send0 5994, after sco_resume *)
| FBcast (sent : Z)                     (* chan_send0 6004 *)
| FSendWait (ch : nat)                  (* chan_send0 6022 *)
| FRecvResumed                          (* chan_tryrecv0 6098/6117, after sco_resume *)
| FRecvWait (ch : nat)                  (* chan_tryrecv0 6134 *)
| FClose                                (* chan_close 6231 *)
| FSelRecv (ch : nat) (i : Z)           (* chan_select 6276, after neco_chan_recv *)
| FSelWait (n : Z)                      (* chan_select 6294 *)
| FLock (m : nat)                       (* finish_lock 7192 *)
| FUnlock                               (* mutex_unlock 7289, after mutex_fastunlock *)
| FWgDone                               (* waitgroup_done 7418/7425 *)
| FWgWait (w : nat)                     (* waitgroup_wait_dl 7458 *)
| FCvSignal                             (* cond_signal 7559 *)
| FCvBcast                              (* cond_broadcast 7581 *)
| FCvUnlocked (v m : nat) (dl : Z)      (* cond_wait_dl 7606, after mutex_fastunlock *)
| FCvWait (v m : nat)                   (* cond_wait_dl 7612 *)
| FCvRelock (m : nat) (ret : Z)         (* cond_wait_dl 7616, in the relock loop *)
| FJoin (id : Z)                        (* join_dl 7870 *)
| FSuspend                              (* suspend_dl 8647 *)
| FWorkRetry                            (* workfn 8731, after sco_yield *)
| FWork                                 (* workfn 8734, after sco_pause *)
| FExitLoop                             (* coexit 7721, in the cleanup loop (async) *)
| FExitGen (async sched : bool)         (* coexit 7748, after chan_close *)
| FExitFin (async : bool).              (* coexit 7759, after yield_for_sched_resume *)

(** Terminal control action of a handler. *)
Inductive ctl :=
| CRet (v : Z)          (* return v to the frame on top *)
| CUser                 (* continue with client code *)
| CYield                (* sco_yield *)
| CPause                (* sco_pause *)
| CResume (id : Z)      (* sco_resume(id) called by a coroutine *)
| CSpawn (isgen : bool) (* start(): sco_start of a new coroutine *)
| CFinal (tomain : bool)(* the coroutine is over; tomain: through sco_exit *)
| CUB.                  (* undefined behaviour in C *)

(** Nodes of the intrusive lists: a coroutine or a select-case (5736-5747). *)
Inductive node := NCo (c : Z) | NCase (c i : Z).
Definition node_eqb (a b : node) : bool :=
  match a, b with
  | NCo x, NCo y => x =? y
  | NCase x i, NCase y j => (x =? y) && (i =? j)
  | _, _ => false
  end.

(** The intrusive lists ([struct colist]) of the runtime. *)
Inductive qid :=
| QChan (ch : nat) | QMu (m : nat) | QWg (w : nat) | QCv (v : nat)
| QJoin (c : Z) | QCancel (c : Z) | QRes | QSig | QIo | QPool.
Definition qid_eqb (a b : qid) : bool :=
  match a, b with
  | QChan x, QChan y | QMu x, QMu y | QWg x, QWg y | QCv x, QCv y => Nat.eqb x y
  | QJoin x, QJoin y | QCancel x, QCancel y => x =? y
  | QRes, QRes | QSig, QSig | QIo, QIo | QPool, QPool => true
  | _, _ => false
  end.

(** One coroutine record: the fields of [struct coroutine], /repo/neco.c:3323-3375,
    that some function reads. [smsg] is the message a blocked sender offers
    ([cmsg] of a sender), [rbuf] the buffer the client passed to a receive
    ([cmsg] of a receiver points to it), [retidx] the local [ret_idx] of a
    blocked select (6326). Simplified: the message is copied when send is
    called, so a client that overwrites the buffer while blocked is not
    modelled; [paused], [ncancellist] and [njoinlist] are never read and are
    left out; [stack]/[argc]/[argv] are in StackMgr.v and Args.v. *)
Record corec := mkco {
  lastid : Z;
  starterid : Z;
  deadlined : bool;
  rlocked : bool;
  suspended : bool;
  deadline : Z;
  smsg : Z;
  rbuf : Z;
  cclosed : bool;
  retidx : Z;
  sigwatch : Z;
  sigmask : Z;
  casync : bool;
  cenabled : bool;
  canceled : bool;
  cleanups : list Z;
  gen : option nat;
  pool_ts : Z;
  evfd : Z;
  evkind : Z
}.
Definition set_lastid (v : Z) (r : corec) : corec := mkco v (starterid r) (deadlined r) (rlocked r) (suspended r) (deadline r) (smsg r) (rbuf r) (cclosed r) (retidx r) (sigwatch r) (sigmask r) (casync r) (cenabled r) (canceled r) (cleanups r) (gen r) (pool_ts r) (evfd r) (evkind r).
Definition set_starterid (v : Z) (r : corec) : corec := mkco (lastid r) v (deadlined r) (rlocked r) (suspended r) (deadline r) (smsg r) (rbuf r) (cclosed r) (retidx r) (sigwatch r) (sigmask r) (casync r) (cenabled r) (canceled r) (cleanups r) (gen r) (pool_ts r) (evfd r) (evkind r).
Definition set_deadlined (v : bool) (r : corec) : corec := mkco (lastid r) (starterid r) v (rlocked r) (suspended r) (deadline r) (smsg r) (rbuf r) (cclosed r) (retidx r) (sigwatch r) (sigmask r) (casync r) (cenabled r) (canceled r) (cleanups r) (gen r) (pool_ts r) (evfd r) (evkind r).
Definition set_rlocked (v : bool) (r : corec) : corec := mkco (lastid r) (starterid r) (deadlined r) v (suspended r) (deadline r) (smsg r) (rbuf r) (cclosed r) (retidx r) (sigwatch r) (sigmask r) (casync r) (cenabled r) (canceled r) (cleanups r) (gen r) (pool_ts r) (evfd r) (evkind r).
Definition set_suspended (v : bool) (r : corec) : corec := mkco (lastid r) (starterid r) (deadlined r) (rlocked r) v (deadline r) (smsg r) (rbuf r) (cclosed r) (retidx r) (sigwatch r) (sigmask r) (casync r) (cenabled r) (canceled r) (cleanups r) (gen r) (pool_ts r) (evfd r) (evkind r).
Definition set_deadline (v : Z) (r : corec) : corec := mkco (lastid r) (starterid r) (deadlined r) (rlocked r) (suspended r) v (smsg r) (rbuf r) (cclosed r) (retidx r) (sigwatch r) (sigmask r) (casync r) (cenabled r) (canceled r) (cleanups r) (gen r) (pool_ts r) (evfd r) (evkind r).
Definition set_smsg (v : Z) (r : corec) : corec := mkco (lastid r) (starterid r) (deadlined r) (rlocked r) (suspended r) (deadline r) v (rbuf r) (cclosed r) (retidx r) (sigwatch r) (sigmask r) (casync r) (cenabled r) (canceled r) (cleanups r) (gen r) (pool_ts r) (evfd r) (evkind r).
Definition set_rbuf (v : Z) (r : corec) : corec := mkco (lastid r) (starterid r) (deadlined r) (rlocked r) (suspended r) (deadline r) (smsg r) v (cclosed r) (retidx r) (sigwatch r) (sigmask r) (casync r) (cenabled r) (canceled r) (cleanups r) (gen r) (pool_ts r) (evfd r) (evkind r).
Definition set_cclosed (v : bool) (r : corec) : corec := mkco (lastid r) (starterid r) (deadlined r) (rlocked r) (suspended r) (deadline r) (smsg r) (rbuf r) v (retidx r) (sigwatch r) (sigmask r) (casync r) (cenabled r) (canceled r) (cleanups r) (gen r) (pool_ts r) (evfd r) (evkind r).
Definition set_retidx (v : Z) (r : corec) : corec := mkco (lastid r) (starterid r) (deadlined r) (rlocked r) (suspended r) (deadline r) (smsg r) (rbuf r) (cclosed r) v (sigwatch r) (sigmask r) (casync r) (cenabled r) (canceled r) (cleanups r) (gen r) (pool_ts r) (evfd r) (evkind r).
Definition set_sigwatch (v : Z) (r : corec) : corec := mkco (lastid r) (starterid r) (deadlined r) (rlocked r) (suspended r) (deadline r) (smsg r) (rbuf r) (cclosed r) (retidx r) v (sigmask r) (casync r) (cenabled r) (canceled r) (cleanups r) (gen r) (pool_ts r) (evfd r) (evkind r).
Definition set_sigmask (v : Z) (r : corec) : corec := mkco (lastid r) (starterid r) (deadlined r) (rlocked r) (suspended r) (deadline r) (smsg r) (rbuf r) (cclosed r) (retidx r) (sigwatch r) v (casync r) (cenabled r) (canceled r) (cleanups r) (gen r) (pool_ts r) (evfd r) (evkind r).
Definition set_casync (v : bool) (r : corec) : corec := mkco (lastid r) (starterid r) (deadlined r) (rlocked r) (suspended r) (deadline r) (smsg r) (rbuf r) (cclosed r) (retidx r) (sigwatch r) (sigmask r) v (cenabled r) (canceled r) (cleanups r) (gen r) (pool_ts r) (evfd r) (evkind r).
Definition set_cenabled (v : bool) (r : corec) : corec := mkco (lastid r) (starterid r) (deadlined r) (rlocked r) (suspended r) (deadline r) (smsg r) (rbuf r) (cclosed r) (retidx r) (sigwatch r) (sigmask r) (casync r) v (canceled r) (cleanups r) (gen r) (pool_ts r) (evfd r) (evkind r).
Definition set_canceled (v : bool) (r : corec) : corec := mkco (lastid r) (starterid r) (deadlined r) (rlocked r) (suspended r) (deadline r) (smsg r) (rbuf r) (cclosed r) (retidx r) (sigwatch r) (sigmask r) (casync r) (cenabled r) v (cleanups r) (gen r) (pool_ts r) (evfd r) (evkind r).
Definition set_cleanups (v : list Z) (r : corec) : corec := mkco (lastid r) (starterid r) (deadlined r) (rlocked r) (suspended r) (deadline r) (smsg r) (rbuf r) (cclosed r) (retidx r) (sigwatch r) (sigmask r) (casync r) (cenabled r) (canceled r) v (gen r) (pool_ts r) (evfd r) (evkind r).
Definition set_gen (v : option nat) (r : corec) : corec := mkco (lastid r) (starterid r) (deadlined r) (rlocked r) (suspended r) (deadline r) (smsg r) (rbuf r) (cclosed r) (retidx r) (sigwatch r) (sigmask r) (casync r) (cenabled r) (canceled r) (cleanups r) v (pool_ts r) (evfd r) (evkind r).
Definition set_pool_ts (v : Z) (r : corec) : corec := mkco (lastid r) (starterid r) (deadlined r) (rlocked r) (suspended r) (deadline r) (smsg r) (rbuf r) (cclosed r) (retidx r) (sigwatch r) (sigmask r) (casync r) (cenabled r) (canceled r) (cleanups r) (gen r) v (evfd r) (evkind r).
Definition set_evfd (v : Z) (r : corec) : corec := mkco (lastid r) (starterid r) (deadlined r) (rlocked r) (suspended r) (deadline r) (smsg r) (rbuf r) (cclosed r) (retidx r) (sigwatch r) (sigmask r) (casync r) (cenabled r) (canceled r) (cleanups r) (gen r) (pool_ts r) v (evkind r).
Definition set_evkind (v : Z) (r : corec) : corec := mkco (lastid r) (starterid r) (deadlined r) (rlocked r) (suspended r) (deadline r) (smsg r) (rbuf r) (cclosed r) (retidx r) (sigwatch r) (sigmask r) (casync r) (cenabled r) (canceled r) (cleanups r) (gen r) (pool_ts r) (evfd r) v.

(** struct neco_chan, /repo/neco.c:5718-5731. [buf] abstracts the ring buffer
    (RingBuffer.v proves that abstraction), [slot] is the extra entry used by
    select. The reference count is in Refcount.v. *)
Record chrec := mkch {
  crt : Z;
  sclosed : bool;
  rclosed : bool;
  qrecv : bool;
  lok : bool;
  bufcap : Z;
  buf : list Z;
  slot : Z
}.
Definition set_crt (v : Z) (r : chrec) : chrec := mkch v (sclosed r) (rclosed r) (qrecv r) (lok r) (bufcap r) (buf r) (slot r).
Definition set_sclosed (v : bool) (r : chrec) : chrec := mkch (crt r) v (rclosed r) (qrecv r) (lok r) (bufcap r) (buf r) (slot r).
Definition set_rclosed (v : bool) (r : chrec) : chrec := mkch (crt r) (sclosed r) v (qrecv r) (lok r) (bufcap r) (buf r) (slot r).
Definition set_qrecv (v : bool) (r : chrec) : chrec := mkch (crt r) (sclosed r) (rclosed r) v (lok r) (bufcap r) (buf r) (slot r).
Definition set_lok (v : bool) (r : chrec) : chrec := mkch (crt r) (sclosed r) (rclosed r) (qrecv r) v (bufcap r) (buf r) (slot r).
Definition set_bufcap (v : Z) (r : chrec) : chrec := mkch (crt r) (sclosed r) (rclosed r) (qrecv r) (lok r) v (buf r) (slot r).
Definition set_buf (v : list Z) (r : chrec) : chrec := mkch (crt r) (sclosed r) (rclosed r) (qrecv r) (lok r) (bufcap r) v (slot r).
Definition set_slot (v : Z) (r : chrec) : chrec := mkch (crt r) (sclosed r) (rclosed r) (qrecv r) (lok r) (bufcap r) (buf r) v.

(** struct neco_mutex, /repo/neco.c:7082-7087 *)
Record murec := mkmu {
  mrt : Z;
  mlocked : bool;
  mrl : Z
}.
Definition set_mrt (v : Z) (r : murec) : murec := mkmu v (mlocked r) (mrl r).
Definition set_mlocked (v : bool) (r : murec) : murec := mkmu (mrt r) v (mrl r).
Definition set_mrl (v : Z) (r : murec) : murec := mkmu (mrt r) (mlocked r) v.

(** struct neco_waitgroup, /repo/neco.c:7340-7344 *)
Record wgrec := mkwg {
  wrt : Z;
  wcount : Z
}.
Definition set_wrt (v : Z) (r : wgrec) : wgrec := mkwg v (wcount r).
Definition set_wcount (v : Z) (r : wgrec) : wgrec := mkwg (wrt r) v.

(** Everything but the sco scheduler: struct runtime, /repo/neco.c:3570-3633, the
    coroutine records and the synchronisation objects. [all] is the key set of
    rt->all and [allcount] its separate counter (3487-3509); [dls] the ordered
    contents of rt->deadlines, [evs] those of rt->evwaiters (the AA trees are
    proved to be sorted sets in Props_AATree.v); [armed] the one-shot epoll
    interest (read, write) per fd; [inflight] the submitted background jobs
    that have not completed (Worker.v models the ring). *)
Record dat := mkdat {
  q : qid -> list node;
  cof : Z -> corec;
  chn : nat -> chrec;
  mux : nat -> murec;
  wgx : nat -> wgrec;
  cvx : nat -> Z;
  all : list Z;
  allcount : Z;
  ntotal : Z;
  dls : list (Z * Z);
  ndls : Z;
  evs : list (Z * Z * Z);
  nevs : Z;
  armed : Z -> bool * bool;
  nsleepers : Z;
  nlocked : Z;
  nreceivers : Z;
  nsenders : Z;
  nwgs : Z;
  ncvs : Z;
  nsusp : Z;
  nsigs : Z;
  niow : Z;
  nresumers : Z;
  npool : Z;
  inflight : list Z;
  sigq : Z -> Z;
  sigw : Z -> Z;
  sigm : Z;
  nchan : nat;
  rtid : Z;
  env_async : bool;
  env_enabled : bool;
  mainthread : bool
}.
Definition set_q (v : qid -> list node) (r : dat) : dat := mkdat v (cof r) (chn r) (mux r) (wgx r) (cvx r) (all r) (allcount r) (ntotal r) (dls r) (ndls r) (evs r) (nevs r) (armed r) (nsleepers r) (nlocked r) (nreceivers r) (nsenders r) (nwgs r) (ncvs r) (nsusp r) (nsigs r) (niow r) (nresumers r) (npool r) (inflight r) (sigq r) (sigw r) (sigm r) (nchan r) (rtid r) (env_async r) (env_enabled r) (mainthread r).
Definition set_cof (v : Z -> corec) (r : dat) : dat := mkdat (q r) v (chn r) (mux r) (wgx r) (cvx r) (all r) (allcount r) (ntotal r) (dls r) (ndls r) (evs r) (nevs r) (armed r) (nsleepers r) (nlocked r) (nreceivers r) (nsenders r) (nwgs r) (ncvs r) (nsusp r) (nsigs r) (niow r) (nresumers r) (npool r) (inflight r) (sigq r) (sigw r) (sigm r) (nchan r) (rtid r) (env_async r) (env_enabled r) (mainthread r).
Definition set_chn (v : nat -> chrec) (r : dat) : dat := mkdat (q r) (cof r) v (mux r) (wgx r) (cvx r) (all r) (allcount r) (ntotal r) (dls r) (ndls r) (evs r) (nevs r) (armed r) (nsleepers r) (nlocked r) (nreceivers r) (nsenders r) (nwgs r) (ncvs r) (nsusp r) (nsigs r) (niow r) (nresumers r) (npool r) (inflight r) (sigq r) (sigw r) (sigm r) (nchan r) (rtid r) (env_async r) (env_enabled r) (mainthread r).
Definition set_mux (v : nat -> murec) (r : dat) : dat := mkdat (q r) (cof r) (chn r) v (wgx r) (cvx r) (all r) (allcount r) (ntotal r) (dls r) (ndls r) (evs r) (nevs r) (armed r) (nsleepers r) (nlocked r) (nreceivers r) (nsenders r) (nwgs r) (ncvs r) (nsusp r) (nsigs r) (niow r) (nresumers r) (npool r) (inflight r) (sigq r) (sigw r) (sigm r) (nchan r) (rtid r) (env_async r) (env_enabled r) (mainthread r).
Definition set_wgx (v : nat -> wgrec) (r : dat) : dat := mkdat (q r) (cof r) (chn r) (mux r) v (cvx r) (all r) (allcount r) (ntotal r) (dls r) (ndls r) (evs r) (nevs r) (armed r) (nsleepers r) (nlocked r) (nreceivers r) (nsenders r) (nwgs r) (ncvs r) (nsusp r) (nsigs r) (niow r) (nresumers r) (npool r) (inflight r) (sigq r) (sigw r) (sigm r) (nchan r) (rtid r) (env_async r) (env_enabled r) (mainthread r).
Definition set_cvx (v : nat -> Z) (r : dat) : dat := mkdat (q r) (cof r) (chn r) (mux r) (wgx r) v (all r) (allcount r) (ntotal r) (dls r) (ndls r) (evs r) (nevs r) (armed r) (nsleepers r) (nlocked r) (nreceivers r) (nsenders r) (nwgs r) (ncvs r) (nsusp r) (nsigs r) (niow r) (nresumers r) (npool r) (inflight r) (sigq r) (sigw r) (sigm r) (nchan r) (rtid r) (env_async r) (env_enabled r) (mainthread r).
Definition set_all (v : list Z) (r : dat) : dat := mkdat (q r) (cof r) (chn r) (mux r) (wgx r) (cvx r) v (allcount r) (ntotal r) (dls r) (ndls r) (evs r) (nevs r) (armed r) (nsleepers r) (nlocked r) (nreceivers r) (nsenders r) (nwgs r) (ncvs r) (nsusp r) (nsigs r) (niow r) (nresumers r) (npool r) (inflight r) (sigq r) (sigw r) (sigm r) (nchan r) (rtid r) (env_async r) (env_enabled r) (mainthread r).
Definition set_allcount (v : Z) (r : dat) : dat := mkdat (q r) (cof r) (chn r) (mux r) (wgx r) (cvx r) (all r) v (ntotal r) (dls r) (ndls r) (evs r) (nevs r) (armed r) (nsleepers r) (nlocked r) (nreceivers r) (nsenders r) (nwgs r) (ncvs r) (nsusp r) (nsigs r) (niow r) (nresumers r) (npool r) (inflight r) (sigq r) (sigw r) (sigm r) (nchan r) (rtid r) (env_async r) (env_enabled r) (mainthread r).
Definition set_ntotal (v : Z) (r : dat) : dat := mkdat (q r) (cof r) (chn r) (mux r) (wgx r) (cvx r) (all r) (allcount r) v (dls r) (ndls r) (evs r) (nevs r) (armed r) (nsleepers r) (nlocked r) (nreceivers r) (nsenders r) (nwgs r) (ncvs r) (nsusp r) (nsigs r) (niow r) (nresumers r) (npool r) (inflight r) (sigq r) (sigw r) (sigm r) (nchan r) (rtid r) (env_async r) (env_enabled r) (mainthread r).
Definition set_dls (v : list (Z * Z)) (r : dat) : dat := mkdat (q r) (cof r) (chn r) (mux r) (wgx r) (cvx r) (all r) (allcount r) (ntotal r) v (ndls r) (evs r) (nevs r) (armed r) (nsleepers r) (nlocked r) (nreceivers r) (nsenders r) (nwgs r) (ncvs r) (nsusp r) (nsigs r) (niow r) (nresumers r) (npool r) (inflight r) (sigq r) (sigw r) (sigm r) (nchan r) (rtid r) (env_async r) (env_enabled r) (mainthread r).
Definition set_ndls (v : Z) (r : dat) : dat := mkdat (q r) (cof r) (chn r) (mux r) (wgx r) (cvx r) (all r) (allcount r) (ntotal r) (dls r) v (evs r) (nevs r) (armed r) (nsleepers r) (nlocked r) (nreceivers r) (nsenders r) (nwgs r) (ncvs r) (nsusp r) (nsigs r) (niow r) (nresumers r) (npool r) (inflight r) (sigq r) (sigw r) (sigm r) (nchan r) (rtid r) (env_async r) (env_enabled r) (mainthread r).
Definition set_evs (v : list (Z * Z * Z)) (r : dat) : dat := mkdat (q r) (cof r) (chn r) (mux r) (wgx r) (cvx r) (all r) (allcount r) (ntotal r) (dls r) (ndls r) v (nevs r) (armed r) (nsleepers r) (nlocked r) (nreceivers r) (nsenders r) (nwgs r) (ncvs r) (nsusp r) (nsigs r) (niow r) (nresumers r) (npool r) (inflight r) (sigq r) (sigw r) (sigm r) (nchan r) (rtid r) (env_async r) (env_enabled r) (mainthread r).
Definition set_nevs (v : Z) (r : dat) : dat := mkdat (q r) (cof r) (chn r) (mux r) (wgx r) (cvx r) (all r) (allcount r) (ntotal r) (dls r) (ndls r) (evs r) v (armed r) (nsleepers r) (nlocked r) (nreceivers r) (nsenders r) (nwgs r) (ncvs r) (nsusp r) (nsigs r) (niow r) (nresumers r) (npool r) (inflight r) (sigq r) (sigw r) (sigm r) (nchan r) (rtid r) (env_async r) (env_enabled r) (mainthread r).
Definition set_armed (v : Z -> bool * bool) (r : dat) : dat := mkdat (q r) (cof r) (chn r) (mux r) (wgx r) (cvx r) (all r) (allcount r) (ntotal r) (dls r) (ndls r) (evs r) (nevs r) v (nsleepers r) (nlocked r) (nreceivers r) (nsenders r) (nwgs r) (ncvs r) (nsusp r) (nsigs r) (niow r) (nresumers r) (npool r) (inflight r) (sigq r) (sigw r) (sigm r) (nchan r) (rtid r) (env_async r) (env_enabled r) (mainthread r).
Definition set_nsleepers (v : Z) (r : dat) : dat := mkdat (q r) (cof r) (chn r) (mux r) (wgx r) (cvx r) (all r) (allcount r) (ntotal r) (dls r) (ndls r) (evs r) (nevs r) (armed r) v (nlocked r) (nreceivers r) (nsenders r) (nwgs r) (ncvs r) (nsusp r) (nsigs r) (niow r) (nresumers r) (npool r) (inflight r) (sigq r) (sigw r) (sigm r) (nchan r) (rtid r) (env_async r) (env_enabled r) (mainthread r).
Definition set_nlocked (v : Z) (r : dat) : dat := mkdat (q r) (cof r) (chn r) (mux r) (wgx r) (cvx r) (all r) (allcount r) (ntotal r) (dls r) (ndls r) (evs r) (nevs r) (armed r) (nsleepers r) v (nreceivers r) (nsenders r) (nwgs r) (ncvs r) (nsusp r) (nsigs r) (niow r) (nresumers r) (npool r) (inflight r) (sigq r) (sigw r) (sigm r) (nchan r) (rtid r) (env_async r) (env_enabled r) (mainthread r).
Definition set_nreceivers (v : Z) (r : dat) : dat := mkdat (q r) (cof r) (chn r) (mux r) (wgx r) (cvx r) (all r) (allcount r) (ntotal r) (dls r) (ndls r) (evs r) (nevs r) (armed r) (nsleepers r) (nlocked r) v (nsenders r) (nwgs r) (ncvs r) (nsusp r) (nsigs r) (niow r) (nresumers r) (npool r) (inflight r) (sigq r) (sigw r) (sigm r) (nchan r) (rtid r) (env_async r) (env_enabled r) (mainthread r).
Definition set_nsenders (v : Z) (r : dat) : dat := mkdat (q r) (cof r) (chn r) (mux r) (wgx r) (cvx r) (all r) (allcount r) (ntotal r) (dls r) (ndls r) (evs r) (nevs r) (armed r) (nsleepers r) (nlocked r) (nreceivers r) v (nwgs r) (ncvs r) (nsusp r) (nsigs r) (niow r) (nresumers r) (npool r) (inflight r) (sigq r) (sigw r) (sigm r) (nchan r) (rtid r) (env_async r) (env_enabled r) (mainthread r).
Definition set_nwgs (v : Z) (r : dat) : dat := mkdat (q r) (cof r) (chn r) (mux r) (wgx r) (cvx r) (all r) (allcount r) (ntotal r) (dls r) (ndls r) (evs r) (nevs r) (armed r) (nsleepers r) (nlocked r) (nreceivers r) (nsenders r) v (ncvs r) (nsusp r) (nsigs r) (niow r) (nresumers r) (npool r) (inflight r) (sigq r) (sigw r) (sigm r) (nchan r) (rtid r) (env_async r) (env_enabled r) (mainthread r).
Definition set_ncvs (v : Z) (r : dat) : dat := mkdat (q r) (cof r) (chn r) (mux r) (wgx r) (cvx r) (all r) (allcount r) (ntotal r) (dls r) (ndls r) (evs r) (nevs r) (armed r) (nsleepers r) (nlocked r) (nreceivers r) (nsenders r) (nwgs r) v (nsusp r) (nsigs r) (niow r) (nresumers r) (npool r) (inflight r) (sigq r) (sigw r) (sigm r) (nchan r) (rtid r) (env_async r) (env_enabled r) (mainthread r).
Definition set_nsusp (v : Z) (r : dat) : dat := mkdat (q r) (cof r) (chn r) (mux r) (wgx r) (cvx r) (all r) (allcount r) (ntotal r) (dls r) (ndls r) (evs r) (nevs r) (armed r) (nsleepers r) (nlocked r) (nreceivers r) (nsenders r) (nwgs r) (ncvs r) v (nsigs r) (niow r) (nresumers r) (npool r) (inflight r) (sigq r) (sigw r) (sigm r) (nchan r) (rtid r) (env_async r) (env_enabled r) (mainthread r).
Definition set_nsigs (v : Z) (r : dat) : dat := mkdat (q r) (cof r) (chn r) (mux r) (wgx r) (cvx r) (all r) (allcount r) (ntotal r) (dls r) (ndls r) (evs r) (nevs r) (armed r) (nsleepers r) (nlocked r) (nreceivers r) (nsenders r) (nwgs r) (ncvs r) (nsusp r) v (niow r) (nresumers r) (npool r) (inflight r) (sigq r) (sigw r) (sigm r) (nchan r) (rtid r) (env_async r) (env_enabled r) (mainthread r).
Definition set_niow (v : Z) (r : dat) : dat := mkdat (q r) (cof r) (chn r) (mux r) (wgx r) (cvx r) (all r) (allcount r) (ntotal r) (dls r) (ndls r) (evs r) (nevs r) (armed r) (nsleepers r) (nlocked r) (nreceivers r) (nsenders r) (nwgs r) (ncvs r) (nsusp r) (nsigs r) v (nresumers r) (npool r) (inflight r) (sigq r) (sigw r) (sigm r) (nchan r) (rtid r) (env_async r) (env_enabled r) (mainthread r).
Definition set_nresumers (v : Z) (r : dat) : dat := mkdat (q r) (cof r) (chn r) (mux r) (wgx r) (cvx r) (all r) (allcount r) (ntotal r) (dls r) (ndls r) (evs r) (nevs r) (armed r) (nsleepers r) (nlocked r) (nreceivers r) (nsenders r) (nwgs r) (ncvs r) (nsusp r) (nsigs r) (niow r) v (npool r) (inflight r) (sigq r) (sigw r) (sigm r) (nchan r) (rtid r) (env_async r) (env_enabled r) (mainthread r).
Definition set_npool (v : Z) (r : dat) : dat := mkdat (q r) (cof r) (chn r) (mux r) (wgx r) (cvx r) (all r) (allcount r) (ntotal r) (dls r) (ndls r) (evs r) (nevs r) (armed r) (nsleepers r) (nlocked r) (nreceivers r) (nsenders r) (nwgs r) (ncvs r) (nsusp r) (nsigs r) (niow r) (nresumers r) v (inflight r) (sigq r) (sigw r) (sigm r) (nchan r) (rtid r) (env_async r) (env_enabled r) (mainthread r).
Definition set_inflight (v : list Z) (r : dat) : dat := mkdat (q r) (cof r) (chn r) (mux r) (wgx r) (cvx r) (all r) (allcount r) (ntotal r) (dls r) (ndls r) (evs r) (nevs r) (armed r) (nsleepers r) (nlocked r) (nreceivers r) (nsenders r) (nwgs r) (ncvs r) (nsusp r) (nsigs r) (niow r) (nresumers r) (npool r) v (sigq r) (sigw r) (sigm r) (nchan r) (rtid r) (env_async r) (env_enabled r) (mainthread r).
Definition set_sigq (v : Z -> Z) (r : dat) : dat := mkdat (q r) (cof r) (chn r) (mux r) (wgx r) (cvx r) (all r) (allcount r) (ntotal r) (dls r) (ndls r) (evs r) (nevs r) (armed r) (nsleepers r) (nlocked r) (nreceivers r) (nsenders r) (nwgs r) (ncvs r) (nsusp r) (nsigs r) (niow r) (nresumers r) (npool r) (inflight r) v (sigw r) (sigm r) (nchan r) (rtid r) (env_async r) (env_enabled r) (mainthread r).
Definition set_sigw (v : Z -> Z) (r : dat) : dat := mkdat (q r) (cof r) (chn r) (mux r) (wgx r) (cvx r) (all r) (allcount r) (ntotal r) (dls r) (ndls r) (evs r) (nevs r) (armed r) (nsleepers r) (nlocked r) (nreceivers r) (nsenders r) (nwgs r) (ncvs r) (nsusp r) (nsigs r) (niow r) (nresumers r) (npool r) (inflight r) (sigq r) v (sigm r) (nchan r) (rtid r) (env_async r) (env_enabled r) (mainthread r).
Definition set_sigm (v : Z) (r : dat) : dat := mkdat (q r) (cof r) (chn r) (mux r) (wgx r) (cvx r) (all r) (allcount r) (ntotal r) (dls r) (ndls r) (evs r) (nevs r) (armed r) (nsleepers r) (nlocked r) (nreceivers r) (nsenders r) (nwgs r) (ncvs r) (nsusp r) (nsigs r) (niow r) (nresumers r) (npool r) (inflight r) (sigq r) (sigw r) v (nchan r) (rtid r) (env_async r) (env_enabled r) (mainthread r).
Definition set_nchan (v : nat) (r : dat) : dat := mkdat (q r) (cof r) (chn r) (mux r) (wgx r) (cvx r) (all r) (allcount r) (ntotal r) (dls r) (ndls r) (evs r) (nevs r) (armed r) (nsleepers r) (nlocked r) (nreceivers r) (nsenders r) (nwgs r) (ncvs r) (nsusp r) (nsigs r) (niow r) (nresumers r) (npool r) (inflight r) (sigq r) (sigw r) (sigm r) v (rtid r) (env_async r) (env_enabled r) (mainthread r).
Definition set_rtid (v : Z) (r : dat) : dat := mkdat (q r) (cof r) (chn r) (mux r) (wgx r) (cvx r) (all r) (allcount r) (ntotal r) (dls r) (ndls r) (evs r) (nevs r) (armed r) (nsleepers r) (nlocked r) (nreceivers r) (nsenders r) (nwgs r) (ncvs r) (nsusp r) (nsigs r) (niow r) (nresumers r) (npool r) (inflight r) (sigq r) (sigw r) (sigm r) (nchan r) v (env_async r) (env_enabled r) (mainthread r).
Definition set_env_async (v : bool) (r : dat) : dat := mkdat (q r) (cof r) (chn r) (mux r) (wgx r) (cvx r) (all r) (allcount r) (ntotal r) (dls r) (ndls r) (evs r) (nevs r) (armed r) (nsleepers r) (nlocked r) (nreceivers r) (nsenders r) (nwgs r) (ncvs r) (nsusp r) (nsigs r) (niow r) (nresumers r) (npool r) (inflight r) (sigq r) (sigw r) (sigm r) (nchan r) (rtid r) v (env_enabled r) (mainthread r).
Definition set_env_enabled (v : bool) (r : dat) : dat := mkdat (q r) (cof r) (chn r) (mux r) (wgx r) (cvx r) (all r) (allcount r) (ntotal r) (dls r) (ndls r) (evs r) (nevs r) (armed r) (nsleepers r) (nlocked r) (nreceivers r) (nsenders r) (nwgs r) (ncvs r) (nsusp r) (nsigs r) (niow r) (nresumers r) (npool r) (inflight r) (sigq r) (sigw r) (sigm r) (nchan r) (rtid r) (env_async r) v (mainthread r).
Definition set_mainthread (v : bool) (r : dat) : dat := mkdat (q r) (cof r) (chn r) (mux r) (wgx r) (cvx r) (all r) (allcount r) (ntotal r) (dls r) (ndls r) (evs r) (nevs r) (armed r) (nsleepers r) (nlocked r) (nreceivers r) (nsenders r) (nwgs r) (ncvs r) (nsusp r) (nsigs r) (niow r) (nresumers r) (npool r) (inflight r) (sigq r) (sigw r) (sigm r) (nchan r) (rtid r) (env_async r) (env_enabled r) v.

(** The sco scheduler: thread locals of /repo/neco.c:1908-1922 plus, per
    coroutine, its machine stack as a list of continuation frames. [disp] is a
    ghost log of the coroutines switched in (newest first). *)
Record sched := mksched {
  runners : list Z;
  yielders : list Z;
  paused : list Z;
  nrun : Z;
  nyld : Z;
  npsd : Z;
  cur : option Z;
  exitreq : bool;
  nextid : Z;
  stk : Z -> list frame;
  disp : list Z
}.
Definition set_runners (v : list Z) (r : sched) : sched := mksched v (yielders r) (paused r) (nrun r) (nyld r) (npsd r) (cur r) (exitreq r) (nextid r) (stk r) (disp r).
Definition set_yielders (v : list Z) (r : sched) : sched := mksched (runners r) v (paused r) (nrun r) (nyld r) (npsd r) (cur r) (exitreq r) (nextid r) (stk r) (disp r).
Definition set_paused (v : list Z) (r : sched) : sched := mksched (runners r) (yielders r) v (nrun r) (nyld r) (npsd r) (cur r) (exitreq r) (nextid r) (stk r) (disp r).
Definition set_nrun (v : Z) (r : sched) : sched := mksched (runners r) (yielders r) (paused r) v (nyld r) (npsd r) (cur r) (exitreq r) (nextid r) (stk r) (disp r).
Definition set_nyld (v : Z) (r : sched) : sched := mksched (runners r) (yielders r) (paused r) (nrun r) v (npsd r) (cur r) (exitreq r) (nextid r) (stk r) (disp r).
Definition set_npsd (v : Z) (r : sched) : sched := mksched (runners r) (yielders r) (paused r) (nrun r) (nyld r) v (cur r) (exitreq r) (nextid r) (stk r) (disp r).
Definition set_cur (v : option Z) (r : sched) : sched := mksched (runners r) (yielders r) (paused r) (nrun r) (nyld r) (npsd r) v (exitreq r) (nextid r) (stk r) (disp r).
Definition set_exitreq (v : bool) (r : sched) : sched := mksched (runners r) (yielders r) (paused r) (nrun r) (nyld r) (npsd r) (cur r) v (nextid r) (stk r) (disp r).
Definition set_nextid (v : Z) (r : sched) : sched := mksched (runners r) (yielders r) (paused r) (nrun r) (nyld r) (npsd r) (cur r) (exitreq r) v (stk r) (disp r).
Definition set_stk (v : Z -> list frame) (r : sched) : sched := mksched (runners r) (yielders r) (paused r) (nrun r) (nyld r) (npsd r) (cur r) (exitreq r) (nextid r) v (disp r).
Definition set_disp (v : list Z) (r : sched) : sched := mksched (runners r) (yielders r) (paused r) (nrun r) (nyld r) (npsd r) (cur r) (exitreq r) (nextid r) (stk r) v.

(** What the outside world can see. [k] is the number of the API call; [t] the
    clock. [m] of [TRet] is the client's output buffer (received message, new
    handle). *)
Inductive obs :=
| TCall (k : nat) (c : Z) (o : op) (t : Z)
| TRet (k : nat) (c : Z) (o : op) (v m t : Z)
| TStats (k : nat) (l : list Z)
| TStart (parent child : Z)
| THandler (c h : Z)
| TExit (c : Z)
| TWorkDone (c : Z) (k : nat).

Inductive emode :=
| MUser                 (* client code of [cur] is running *)
| MRet (v : Z)          (* library code of [cur]: v is returned to its top frame *)
| MMain                 (* rt_scheduler loop *)
| MDone                 (* neco_start returned *)
| MKilled (signo : Z)   (* the process was ended by sigexitnow *)
| MUB.                  (* undefined behaviour was reached *)

(** Machine state: scheduler, data, execution mode, clock, call counter and the
    trace of observable effects (newest first; ghost). *)
Record state := mkst {
  sc : sched;
  dt : dat;
  mode : emode;
  now : Z;
  ncalls : nat;
  tr : list obs
}.
Definition set_sc (v : sched) (r : state) : state := mkst v (dt r) (mode r) (now r) (ncalls r) (tr r).
Definition set_dt (v : dat) (r : state) : state := mkst (sc r) v (mode r) (now r) (ncalls r) (tr r).
Definition set_mode (v : emode) (r : state) : state := mkst (sc r) (dt r) v (now r) (ncalls r) (tr r).
Definition set_now (v : Z) (r : state) : state := mkst (sc r) (dt r) (mode r) v (ncalls r) (tr r).
Definition set_ncalls (v : nat) (r : state) : state := mkst (sc r) (dt r) (mode r) (now r) v (tr r).
Definition set_tr (v : list obs) (r : state) : state := mkst (sc r) (dt r) (mode r) (now r) (ncalls r) v.


(* ------------------------------------------------------------------------ *)
(** * Small accessors *)

Definition zupd {A} (f : Z -> A) (k : Z) (v : A) : Z -> A := fun x => if x =? k then v else f x.
Definition nupd {A} (f : nat -> A) (k : nat) (v : A) : nat -> A := fun x => if Nat.eqb x k then v else f x.
Definition qupd (f : qid -> list node) (k : qid) (v : list node) : qid -> list node :=
  fun x => if qid_eqb x k then v else f x.

Definition upco (c : Z) (f : corec -> corec) (d : dat) : dat :=
  set_cof (zupd (cof d) c (f (cof d c))) d.
Definition upch (c : nat) (f : chrec -> chrec) (d : dat) : dat :=
  set_chn (nupd (chn d) c (f (chn d c))) d.
Definition upmu (c : nat) (f : murec -> murec) (d : dat) : dat :=
  set_mux (nupd (mux d) c (f (mux d c))) d.
Definition upwg (c : nat) (f : wgrec -> wgrec) (d : dat) : dat :=
  set_wgx (nupd (wgx d) c (f (wgx d c))) d.

Definition mem (x : Z) (l : list Z) : bool := existsb (Z.eqb x) l.
Definition remove1 (x : Z) (l : list Z) : list Z := filter (fun y => negb (x =? y)) l.
Fixpoint remove_first (x : Z) (l : list Z) : list Z :=
  match l with [] => [] | y :: r => if x =? y then r else y :: remove_first x r end.

(** remove_from_list, /repo/neco.c:3281-3287: the node leaves whatever list it is
    in. (ColistHeap.v proves this reading of the pointer code.) *)
Definition rmq (n : node) (d : dat) : dat :=
  set_q (fun k => filter (fun x => negb (node_eqb n x)) (q d k)) d.
(** colist_push_back, /repo/neco.c:3296-3303 *)
Definition pushq (k : qid) (n : node) (d : dat) : dat :=
  let d := rmq n d in set_q (qupd (q d) k (q d k ++ [n])) d.
(** colist_pop_front, /repo/neco.c:3305-3312 *)
Definition popq (k : qid) (d : dat) : option node * dat :=
  match q d k with
  | [] => (None, d)
  | n :: r => (Some n, set_q (qupd (q d) k r) d)
  end.
(** colist_is_empty, /repo/neco.c:3314-3316 *)
Definition emptyq (k : qid) (d : dat) : bool := match q d k with [] => true | _ => false end.

(** the coroutine behind a node: itself, or the [co] of a select-case *)
Definition node_co (n : node) : Z := match n with NCo c => c | NCase c _ => c end.

Definition res : Type := dat * list frame * ctl.

(* ------------------------------------------------------------------------ *)
(** * Pausing, yielding, deadlines *)

(** coyield, /repo/neco.c:3654-3660 *)
Definition coyield (fs : list frame) (d : dat) : res := (d, FCoyield :: fs, CYield).

(** sched_resume, /repo/neco.c:3668-3671 *)
Definition sched_resume (c : Z) (d : dat) : dat :=
  let d := pushq QRes (NCo c) d in set_nresumers (nresumers d + 1) d.

(** yield_for_sched_resume, /repo/neco.c:3673-3681 *)
Definition yfsr (fs : list frame) (d : dat) : res :=
  if 0 <? nresumers d then coyield (FYfsr :: fs) d else coyield fs d.

(** copause, /repo/neco.c:4490-4508, up to the sco_pause; [FPause] is the rest *)
Definition copause (c dl : Z) (fs : list frame) (d : dat) : res :=
  if canceled (cof d c) || deadlined (cof d c) then (d, fs, CRet 0)
  else
    let d := upco c (set_deadline dl) d in
    let d := if dl <? MAXI
             then set_ndls (ndls d + 1) (set_dls (set_add dl_compare (dl, c) (dls d)) d)
             else d in
    (d, FPause :: fs, CPause).
Definition pause_end (c : Z) (d : dat) : dat :=
  let dl := deadline (cof d c) in
  let d := if dl <? MAXI
           then set_ndls (ndls d - 1) (set_dls (set_del dl_compare (dl, c) (dls d)) d)
           else d in
  upco c (set_deadline 0) d.

(** checkdl, /repo/neco.c:4603-4616; [nw] is getnow() *)
Definition checkdl (c dl nw : Z) (d : dat) : Z * dat :=
  let r := cof d c in
  if negb (canceled r) && negb (deadlined r) && (dl =? MAXI) then (OK, d)
  else
    let cn := canceled r in
    let de := deadlined r in
    let d := upco c (fun r => set_deadlined false (set_canceled false r)) d in
    let de := if negb cn && negb de && (dl <? MAXI) && (dl <? nw) then true else de in
    (if cn then ECANCELED else if de then ETIMEDOUT else OK, d).

(** sleep_dl and sleep0, /repo/neco.c:4510-4529 *)
Definition do_sleep (c dl nw : Z) (d : dat) : res :=
  if dl <? nw then (d, [], CRet ETIMEDOUT)
  else copause c dl [FSleep] (set_nsleepers (nsleepers d + 1) d).
Definition sleep_end (c : Z) (d : dat) : res :=
  let d := set_nsleepers (nsleepers d - 1) d in
  let v := if canceled (cof d c) then ECANCELED else OK in
  (upco c (fun r => set_deadlined false (set_canceled false r)) d, [], CRet v).

(* ------------------------------------------------------------------------ *)
(** * Cancellation, signals, events *)

(** cancel_dl, /repo/neco.c:4640-4671: one turn of the loop *)
Definition do_cancel (c id dl nw : Z) (d : dat) : res :=
  if negb (mem id (all d)) then (d, [], CRet ENOTFOUND)
  else
    let '(v, d) := checkdl c dl nw d in
    if negb (v =? OK) then (d, [], CRet v)
    else if cenabled (cof d id) then
      (upco id (set_canceled true) d, [FCancelGo], CResume id)
    else
      copause c dl [FCancelWait id dl] (pushq (QCancel id) (NCo c) d).

(** signal_watch, /repo/neco.c:4687-4700 *)
Definition do_sigwatch (c n : Z) (d : dat) : res :=
  if (n <? 1) || (31 <? n) then (d, [], CRet EINVAL)
  else if negb (mainthread d) then (d, [], CRet EPERM)
  else if Z.testbit (sigwatch (cof d c)) n then (d, [], CRet OK)
  else
    let d := upco c (fun r => set_sigwatch (Z.lor (sigwatch r) (Z.shiftl 1 n)) r) d in
    (set_sigw (zupd (sigw d) n (sigw d n + 1)) d, [], CRet OK).
(** signal_unwatch, /repo/neco.c:4744-4757 *)
Definition do_sigunwatch (c n : Z) (d : dat) : res :=
  if (n <? 1) || (31 <? n) then (d, [], CRet EINVAL)
  else if negb (mainthread d) then (d, [], CRet EPERM)
  else if negb (Z.testbit (sigwatch (cof d c)) n) then (d, [], CRet OK)
  else
    let d := upco c (fun r => set_sigwatch (Z.ldiff (sigwatch r) (Z.shiftl 1 n)) r) d in
    (set_sigw (zupd (sigw d) n (sigw d n - 1)) d, [], CRet OK).
(** signal_wait_dl, /repo/neco.c:4768-4791 *)
Definition do_sigwait (c dl : Z) (d : dat) : res :=
  if negb (mainthread d) then (d, [], CRet EPERM)
  else if sigwatch (cof d c) =? 0 then (d, [], CRet ENOSIGWATCH)
  else if canceled (cof d c) then (upco c (set_canceled false) d, [], CRet ECANCELED)
  else
    let d := upco c (fun r => set_sigmask (sigwatch r) r) d in
    let d := pushq QSig (NCo c) d in
    copause c dl [FSigWait] (set_nsigs (nsigs d + 1) d).
Definition sigwait_end (c nw : Z) (d : dat) : res :=
  let d := rmq (NCo c) d in
  let d := set_nsigs (nsigs d - 1) d in
  let signo := sigmask (cof d c) in
  let d := upco c (set_sigmask 0) d in
  let '(v, d) := checkdl c MAXI nw d in
  (d, [], CRet (if v =? OK then signo else v)).

(** evexists, /repo/neco.c:3683-3687 *)
Definition evexists (fd kind : Z) (d : dat) : bool :=
  existsb (fun e => let '(f, k, _) := e in (f =? fd) && (k =? kind)) (evs d).
(** wait_dl and (epoll) wait_dl_addevent, /repo/neco.c:4855-4873, 4900-4958.
    [fail]: creating the queue or epoll_ctl failed. Closing an idle queue
    (4242-4251) is not modelled: it happens only without waiters. *)
Definition do_wait (c fd kind dl : Z) (fail : bool) (d : dat) : res :=
  if negb (kind =? 1) && negb (kind =? 2) then (d, [], CRet EINVAL)
  else if fail then (d, [], CRet EERROR)
  else
    let r := (kind =? 1) || evexists fd 1 d in
    let w := (kind =? 2) || evexists fd 2 d in
    let d := set_armed (zupd (armed d) fd (r, w)) d in
    let d := upco c (fun r => set_evkind kind (set_evfd fd r)) d in
    let d := set_evs (set_add evcompare (fd, kind, c) (evs d)) d in
    copause c dl [FEvWait fd kind] (set_nevs (nevs d + 1) d).
Definition wait_end (c nw : Z) (d : dat) : res :=
  let r := cof d c in
  let d := set_evs (set_del evcompare (evfd r, evkind r, c) (evs d)) d in
  let d := set_nevs (nevs d - 1) d in
  let d := upco c (fun r => set_evkind 0 (set_evfd 0 r)) d in
  let '(v, d) := checkdl c MAXI nw d in
  (d, [], CRet v).

(* ------------------------------------------------------------------------ *)
(** * Channels *)

(** The three entry checks "!chan", "chan->rtid != rt->id" shared by the channel
    functions, e.g. /repo/neco.c:5957-5961. A handle that was never made stands
    for NULL. *)
Definition chk_chan (ch : nat) (d : dat) : Z :=
  if crt (chn d ch) =? 0 then EINVAL
  else if negb (crt (chn d ch) =? rtid d) then EPERM else OK.

(** chan_make/chan_fastmake, /repo/neco.c:5778-5818; the handle is written to the
    client's buffer. Allocation is assumed to succeed. *)
Definition new_chan (cap : Z) (d : dat) : nat * dat :=
  let ch := nchan d in
  let d := set_chn (nupd (chn d) ch (mkch (rtid d) false false false false cap [] 0)) d in
  (ch, set_nchan (S ch) d).
Definition do_chmake (c cap : Z) (d : dat) : res :=
  if (cap <? 0) || (2147483647 <? cap) then (d, [], CRet EINVAL)
  else let '(ch, d) := new_chan cap d in
       (upco c (set_rbuf (Z.of_nat ch)) d, [], CRet OK).

(** Hand message [m] to the popped receiver node [n], /repo/neco.c:5974-5991.
    [None]: a select-case that has already been handled ("continue"). *)
Definition deliver (ch : nat) (m : Z) (n : node) (d : dat) : option (Z * dat) :=
  match n with
  | NCo r => Some (r, upco r (set_rbuf m) d)
  | NCase r i =>
      if negb (retidx (cof d r) =? -1) then None
      else
        let d := upco r (set_retidx i) d in
        Some (r, upch ch (fun x => set_slot m (set_lok true x)) d)
  end.

(** The loop of chan_send0 for a plain send, /repo/neco.c:5969-6001. Each turn pops
    the queue, so the number of turns [n] is bounded by its length (here and in
    the loops below). Returns the resumed receiver, if any. *)
Fixpoint send_loop (ch : nat) (m : Z) (n : nat) (d : dat) : option Z * dat :=
  match n with
  | O => (None, d)
  | S n =>
      match popq (QChan ch) d with
      | (None, d) => (None, d)
      | (Some x, d) =>
          match deliver ch m x d with
          | None => send_loop ch m n d
          | Some (r, d) => (Some r, d)
          end
      end
  end.
(** The same loop for a broadcast. Returns the number of receivers. *)
Fixpoint bcast_loop (ch : nat) (m : Z) (n : nat) (sent : Z) (d : dat) : Z * dat :=
  match n with
  | O => (sent, d)
  | S n =>
      match popq (QChan ch) d with
      | (None, d) => (sent, d)
      | (Some x, d) =>
          match deliver ch m x d with
          | None => bcast_loop ch m n sent d
          | Some (r, d) => bcast_loop ch m n (sent + 1) (sched_resume r d)
          end
      end
  end.

(** how often the loops can turn: not at all if the queue holds senders *)
Definition recvn (ch : nat) (d : dat) : nat :=
  if qrecv (chn d ch) then length (q d (QChan ch)) else 0%nat.

(** chan_send0 with broadcast = false, /repo/neco.c:5954-6027 *)
Definition do_send (c : Z) (ch : nat) (m dl : Z) (d : dat) : res :=
  if negb (chk_chan ch d =? OK) then (d, [], CRet (chk_chan ch d))
  else if sclosed (chn d ch) then (d, [], CRet ECLOSED)
  else if canceled (cof d c) then (upco c (set_canceled false) d, [], CRet ECANCELED)
  else
    match send_loop ch m (recvn ch d) d with
    | (Some r, d) => (d, [FSendResumed], CResume r)
    | (None, d) =>
        if Z.of_nat (length (buf (chn d ch))) <? bufcap (chn d ch)
        then (upch ch (fun x => set_buf (buf x ++ [m]) x) d, [], CRet OK)
        else
          let d := pushq (QChan ch) (NCo c) d in
          let d := upch ch (set_qrecv false) d in
          let d := upco c (set_smsg m) d in
          copause c dl [FSendWait ch] (set_nsenders (nsenders d + 1) d)
    end.
Definition send_end (c nw : Z) (d : dat) : res :=
  let d := set_nsenders (nsenders d - 1) d in
  let d := rmq (NCo c) d in
  let '(v, d) := checkdl c MAXI nw d in
  (d, [], CRet v).

(** chan_send0 with broadcast = true *)
Definition do_bcast (ch : nat) (m : Z) (d : dat) : res :=
  if negb (chk_chan ch d =? OK) then (d, [], CRet (chk_chan ch d))
  else if sclosed (chn d ch) then (d, [], CRet ECLOSED)
  else let '(sent, d) := bcast_loop ch m (recvn ch d) 0 d in
       yfsr [FBcast sent] d.

(** "The channel was closed and there are no more messages", /repo/neco.c:6090-6096
    and 6110-6116 *)
Definition close_if_drained (ch : nat) (d : dat) : dat :=
  if sclosed (chn d ch) && emptyq (QChan ch) d &&
     match buf (chn d ch) with [] => true | _ => false end
  then upch ch (set_rclosed true) d else d.

(** The non-waiting part of chan_tryrecv0, /repo/neco.c:6080-6119: take a message
    and the sender to resume. [None]: no message. *)
Definition take (ch : nat) (d : dat) : option (Z * option Z * dat) :=
  match buf (chn d ch) with
  | m :: b =>
      let d := upch ch (set_buf b) d in
      match popq (QChan ch) d with
      | (Some n, d) =>
          let s := node_co n in
          let d := upch ch (fun x => set_buf (buf x ++ [smsg (cof d s)]) x) d in
          Some (m, Some s, close_if_drained ch d)
      | (None, d) => Some (m, None, close_if_drained ch d)
      end
  | [] =>
      if qrecv (chn d ch) then None
      else match popq (QChan ch) d with
           | (None, _) => None
           | (Some n, d) =>
               let s := node_co n in
               Some (smsg (cof d s), Some s, close_if_drained ch d)
           end
  end.

(** chan_tryrecv0, /repo/neco.c:6065-6153 *)
Definition do_recv (c : Z) (ch : nat) (try : bool) (dl : Z) (d : dat) : res :=
  if negb (chk_chan ch d =? OK) then (d, [], CRet (chk_chan ch d))
  else if rclosed (chn d ch) then (d, [], CRet ECLOSED)
  else if canceled (cof d c) then (upco c (set_canceled false) d, [], CRet ECANCELED)
  else match take ch d with
       | Some (m, None, d) => (upco c (set_rbuf m) d, [], CRet OK)
       | Some (m, Some s, d) => (upco c (set_rbuf m) d, [FRecvResumed], CResume s)
       | None =>
           if try then (d, [], CRet EEMPTY)
           else
             let d := pushq (QChan ch) (NCo c) d in
             let d := upch ch (set_qrecv true) d in
             let d := upco c (set_cclosed false) d in
             copause c dl [FRecvWait ch] (set_nreceivers (nreceivers d + 1) d)
       end.
Definition recv_end (c nw : Z) (d : dat) : res :=
  let d := set_nreceivers (nreceivers d - 1) d in
  let d := rmq (NCo c) d in
  let '(v, d) := checkdl c MAXI nw d in
  if negb (v =? OK) then (d, [], CRet v)
  else if cclosed (cof d c)
  then (upco c (fun r => set_rbuf 0 (set_cclosed false r)) d, [], CRet ECLOSED)
  else (d, [], CRet OK).

(** The wake-up loop of chan_close, /repo/neco.c:6211-6228 *)
Fixpoint close_loop (ch : nat) (n : nat) (d : dat) : dat :=
  match n with
  | O => d
  | S n =>
      match popq (QChan ch) d with
      | (None, d) => d
      | (Some (NCo r), d) => close_loop ch n (sched_resume r (upco r (set_cclosed true) d))
      | (Some (NCase r i), d) =>
          if negb (retidx (cof d r) =? -1) then close_loop ch n d
          else
            let d := upco r (fun x => set_cclosed true (set_retidx i x)) d in
            let d := upch ch (set_lok false) d in
            close_loop ch n (sched_resume r d)
      end
  end.
(** chan_close, /repo/neco.c:6195-6233 *)
Definition do_close (ch : nat) (d : dat) : res :=
  if negb (chk_chan ch d =? OK) then (d, [], CRet (chk_chan ch d))
  else if sclosed (chn d ch) then (d, [], CRet ECLOSED)
  else
    let d := upch ch (set_sclosed true) d in
    if negb (match buf (chn d ch) with [] => true | _ => false end) ||
       (negb (emptyq (QChan ch) d) && negb (qrecv (chn d ch)))
    then (d, [], CRet OK)
    else
      let d := close_loop ch (length (q d (QChan ch))) d in
      let d := upch ch (fun x => set_qrecv false (set_rclosed true x)) d in
      yfsr [FClose] d.

(** The validity loop of chan_select, /repo/neco.c:6251-6258 *)
Fixpoint chk_chans (chs : list nat) (d : dat) : Z :=
  match chs with
  | [] => OK
  | ch :: chs => if chk_chan ch d =? OK then chk_chans chs d else chk_chan ch d
  end.
(** First ready case, /repo/neco.c:6267-6279 *)
Fixpoint first_ready (chs : list nat) (i : Z) (d : dat) : option (nat * Z) :=
  match chs with
  | [] => None
  | ch :: chs =>
      if (negb (emptyq (QChan ch) d) && negb (qrecv (chn d ch))) ||
         negb (match buf (chn d ch) with [] => true | _ => false end) || rclosed (chn d ch)
      then Some (ch, i) else first_ready chs (i + 1) d
  end.
(** Enqueue all cases, /repo/neco.c:6285-6289 *)
Fixpoint push_cases (c : Z) (chs : list nat) (i : Z) (d : dat) : dat :=
  match chs with
  | [] => d
  | ch :: chs =>
      push_cases c chs (i + 1) (upch ch (set_qrecv true) (pushq (QChan ch) (NCase c i) d))
  end.
Fixpoint rm_cases (c : Z) (n : nat) (d : dat) : dat :=
  match n with
  | O => d
  | S n => rm_cases c n (rmq (NCase c (Z.of_nat n)) d)
  end.
(** chan_select/chan_selectv_dl, /repo/neco.c:6247-6348. The immediate case is the
    non-waiting part of neco_chan_recv with the channel's slot as buffer. *)
Definition do_select (c : Z) (chs : list nat) (try : bool) (dl : Z) (d : dat) : res :=
  if negb (chk_chans chs d =? OK) then (d, [], CRet (chk_chans chs d))
  else if canceled (cof d c) then (upco c (set_canceled false) d, [], CRet ECANCELED)
  else match first_ready chs 0 d with
       | Some (ch, i) =>
           if rclosed (chn d ch) then (d, [FSelRecv ch i], CRet ECLOSED)
           else match take ch d with
                | Some (m, None, d) => (upch ch (set_slot m) d, [FSelRecv ch i], CRet OK)
                | Some (m, Some s, d) =>
                    (upch ch (set_slot m) d, [FRecvResumed; FSelRecv ch i], CResume s)
                | None => (d, [], CUB) (* not reachable: the case is ready *)
                end
       | None =>
           if try then (d, [], CRet EEMPTY)
           else
             let d := upco c (set_retidx (-1)) d in
             let d := push_cases c chs 0 d in
             copause c dl [FSelWait (Z.of_nat (length chs))] (set_nreceivers (nreceivers d + 1) d)
       end.
Definition select_end (c n nw : Z) (d : dat) : res :=
  let d := set_nreceivers (nreceivers d - 1) d in
  let d := rm_cases c (Z.to_nat n) d in
  let '(v, d) := checkdl c MAXI nw d in
  (d, [], CRet (if v =? OK then retidx (cof d c) else v)).
(** chan_case, /repo/neco.c:6442-6455 *)
Definition do_case (c : Z) (ch : nat) (d : dat) : res :=
  if negb (chk_chan ch d =? OK) then (d, [], CRet (chk_chan ch d))
  else if negb (lok (chn d ch)) then (d, [], CRet ECLOSED)
  else (upco c (set_rbuf (slot (chn d ch))) d, [], CRet OK).
(** neco_gen_yield_dl, /repo/neco.c:8571-8580 *)
Definition do_genyield (c m dl : Z) (d : dat) : res :=
  match gen (cof d c) with
  | None => (d, [], CRet ENOTGENERATOR)
  | Some g => do_send c g m dl d
  end.

(* ------------------------------------------------------------------------ *)
(** * Mutexes *)

(** mutex_init, /repo/neco.c:7092-7103 *)
Definition mu_init (m : nat) (d : dat) : dat :=
  let d := set_mux (nupd (mux d) m (mkmu (rtid d) false 0)) d in
  set_q (qupd (q d) (QMu m) []) d.
(** check_mutex, /repo/neco.c:7112-7123: a zeroed mutex is initialised *)
Definition check_mu (m : nat) (d : dat) : Z * dat :=
  if mrt (mux d m) =? 0 then (OK, mu_init m d)
  else if negb (rtid d =? mrt (mux d m)) then (EPERM, d) else (OK, d).
(** mutex_trylock, /repo/neco.c:7126-7140; [try] = tryonly *)
Definition mu_trylock (c : Z) (m : nat) (try : bool) (dl nw : Z) (d : dat) : Z * dat :=
  let '(v, d) := if try then (OK, d) else checkdl c dl nw d in
  if negb (v =? OK) then (v, d)
  else if mlocked (mux d m) then (EBUSY, d)
  else (OK, upmu m (set_mlocked true) d).
(** mutex_tryrdlock, /repo/neco.c:7143-7158 *)
Definition mu_tryrdlock (c : Z) (m : nat) (try : bool) (dl nw : Z) (d : dat) : Z * dat :=
  let '(v, d) := if try then (OK, d) else checkdl c dl nw d in
  if negb (v =? OK) then (v, d)
  else if negb (emptyq (QMu m) d) || ((mrl (mux d m) =? 0) && mlocked (mux d m)) then (EBUSY, d)
  else (OK, upmu m (fun x => set_mlocked true (set_mrl (mrl x + 1) x)) d).
(** finish_lock, /repo/neco.c:7185-7196 *)
Definition finish_lock (c : Z) (m : nat) (rl : bool) (dl : Z) (fs : list frame) (d : dat) : res :=
  let d := upco c (set_rlocked rl) d in
  let d := pushq (QMu m) (NCo c) d in
  copause c dl (FLock m :: fs) (set_nlocked (nlocked d + 1) d).
Definition lock_end (c nw : Z) (d : dat) : res :=
  let d := set_nlocked (nlocked d - 1) d in
  let d := rmq (NCo c) d in
  let d := upco c (set_rlocked false) d in
  let '(v, d) := checkdl c MAXI nw d in
  (d, [], CRet v).
(** neco_mutex_trylock / tryrdlock, /repo/neco.c:7160-7182 *)
Definition do_trylock (c : Z) (m : nat) (rd : bool) (nw : Z) (d : dat) : res :=
  let '(v, d) := check_mu m d in
  if negb (v =? OK) then (d, [], CRet v)
  else let '(v, d) := (if rd then mu_tryrdlock else mu_trylock) c m true 0 nw d in
       (d, [], CRet v).
(** mutex_lock_dl, neco_mutex_lock_dl, neco_mutex_rdlock_dl, /repo/neco.c:7198-7239 *)
Definition do_lock (c : Z) (m : nat) (rd : bool) (dl nw : Z) (d : dat) : res :=
  let '(v, d) := check_mu m d in
  if negb (v =? OK) then (d, [], CRet v)
  else let '(v, d) := (if rd then mu_tryrdlock else mu_trylock) c m false dl nw d in
       if v =? EBUSY then finish_lock c m rd dl [] d else (d, [], CRet v).
(** The hand-over loop of mutex_fastunlock, /repo/neco.c:7263-7277 *)
Fixpoint grant (m : nat) (n : nat) (d : dat) : dat :=
  match n with
  | O => d
  | S n =>
      match popq (QMu m) d with
      | (None, d) => d
      | (Some x, d) =>
          let c := node_co x in
          let d := sched_resume c d in
          if rlocked (cof d c) then
            let d := upmu m (fun x => set_mrl (mrl x + 1) x) d in
            match q d (QMu m) with
            | n2 :: _ => if rlocked (cof d (node_co n2)) then grant m n d else d
            | [] => d
            end
          else d
      end
  end.
(** mutex_fastunlock, /repo/neco.c:7245-7279; returns to [fs] *)
Definition fastunlock (m : nat) (fs : list frame) (d : dat) : res :=
  if negb (mlocked (mux d m)) then (d, fs, CRet 0)
  else
    let rl := mrl (mux d m) in
    let d := if 0 <? rl then upmu m (set_mrl (rl - 1)) d else d in
    if (0 <? rl) && (0 <? rl - 1) then (d, fs, CRet 0)
    else if emptyq (QMu m) d then (upmu m (set_mlocked false) d, fs, CRet 0)
    else yfsr fs (grant m (length (q d (QMu m))) d).
(** mutex_unlock, /repo/neco.c:7281-7291 *)
Definition do_unlock (m : nat) (d : dat) : res :=
  let '(v, d) := check_mu m d in
  if negb (v =? OK) then (d, [], CRet v) else fastunlock m [FUnlock] d.
(** mutex_destroy, /repo/neco.c:7320-7332 *)
Definition do_mudestroy (m : nat) (d : dat) : res :=
  let '(v, d) := check_mu m d in
  if negb (v =? OK) then (d, [], CRet v)
  else if mlocked (mux d m) then (d, [], CRet EBUSY)
  else (set_q (qupd (q d) (QMu m) []) (set_mux (nupd (mux d) m (mkmu 0 false 0)) d), [], CRet OK).

(* ------------------------------------------------------------------------ *)
(** * Wait groups *)

(** waitgroup_init, check_waitgroup, /repo/neco.c:7349-7375. Initialising or
    destroying a wait group with waiters is a client error that this model
    renders as dropping the queue. *)
Definition wg_init (w : nat) (d : dat) : dat :=
  let d := set_wgx (nupd (wgx d) w (mkwg (rtid d) 0)) d in
  set_q (qupd (q d) (QWg w) []) d.
Definition check_wg (w : nat) (d : dat) : Z * dat :=
  if wrt (wgx d w) =? 0 then (OK, wg_init w d)
  else if negb (rtid d =? wrt (wgx d w)) then (EPERM, d) else (OK, d).
(** waitgroup_add, /repo/neco.c:7383-7395. Signed overflow of the addition is
    undefined behaviour. *)
Definition do_wgadd (w : nat) (delta : Z) (d : dat) : res :=
  let '(v, d) := check_wg w d in
  if negb (v =? OK) then (d, [], CRet v)
  else
    let n := wcount (wgx d w) + delta in
    if (n <? -2147483648) || (2147483647 <? n) then (d, [], CUB)
    else if n <? 0 then (d, [], CRet ENEGWAITGRP)
    else (upwg w (set_wcount n) d, [], CRet OK).
Fixpoint resume_all (k : qid) (n : nat) (d : dat) : dat :=
  match n with
  | O => d
  | S n =>
      match popq k d with
      | (None, d) => d
      | (Some x, d) => resume_all k n (sched_resume (node_co x) d)
      end
  end.
(** waitgroup_done, /repo/neco.c:7404-7429 *)
Definition do_wgdone (w : nat) (d : dat) : res :=
  let '(v, d) := check_wg w d in
  if negb (v =? OK) then (d, [], CRet v)
  else if wcount (wgx d w) =? 0 then (d, [], CRet ENEGWAITGRP)
  else
    let d := upwg w (set_wcount (wcount (wgx d w) - 1)) d in
    if negb (wcount (wgx d w) =? 0) then (d, [], CRet OK)
    else match q d (QWg w) with
         | [] => (d, [], CRet OK)
         | [n] => (set_q (qupd (q d) (QWg w) []) d, [FWgDone], CResume (node_co n))
         | l => yfsr [FWgDone] (resume_all (QWg w) (length l) d)
         end.
(** waitgroup_wait_dl, /repo/neco.c:7437-7461 *)
Definition do_wgwait (c : Z) (w : nat) (dl nw : Z) (d : dat) : res :=
  let '(v, d) := check_wg w d in
  if negb (v =? OK) then (d, [], CRet v)
  else
    let '(v, d) := checkdl c dl nw d in
    if negb (v =? OK) then (d, [], CRet v)
    else if wcount (wgx d w) =? 0 then coyield [] d
    else
      let d := pushq (QWg w) (NCo c) d in
      copause c dl [FWgWait w] (set_nwgs (nwgs d + 1) d).
Definition wgwait_end (c nw : Z) (d : dat) : res :=
  let d := set_nwgs (nwgs d - 1) d in
  let d := rmq (NCo c) d in
  let '(v, d) := checkdl c MAXI nw d in
  (d, [], CRet v).

(* ------------------------------------------------------------------------ *)
(** * Condition variables *)

(** cond_init0, check_cond, /repo/neco.c:7497-7536 *)
Definition cv_init (v : nat) (d : dat) : dat :=
  let d := set_cvx (nupd (cvx d) v (rtid d)) d in
  set_q (qupd (q d) (QCv v) []) d.
Definition check_cv (v : nat) (d : dat) : Z * dat :=
  if cvx d v =? 0 then (OK, cv_init v d)
  else if negb (rtid d =? cvx d v) then (EPERM, d) else (OK, d).
(** cond_signal, /repo/neco.c:7550-7561 *)
Definition do_cvsignal (v : nat) (d : dat) : res :=
  let '(e, d) := check_cv v d in
  if negb (e =? OK) then (d, [], CRet e)
  else match popq (QCv v) d with
       | (Some n, d) => (d, [FCvSignal], CResume (node_co n))
       | (None, d) => (d, [], CRet OK)
       end.
(** cond_broadcast, /repo/neco.c:7569-7582 *)
Definition do_cvbcast (v : nat) (d : dat) : res :=
  let '(e, d) := check_cv v d in
  if negb (e =? OK) then (d, [], CRet e)
  else yfsr [FCvBcast] (resume_all (QCv v) (length (q d (QCv v))) d).
(** cond_wait_dl, /repo/neco.c:7590-7618 *)
Definition do_cvwait (c : Z) (v m : nat) (dl : Z) (d : dat) : res :=
  let '(e, d) := check_cv v d in
  if negb (e =? OK) then (d, [], CRet e)
  else
    let '(e, d) := check_mu m d in
    if negb (e =? OK) then (d, [], CRet e)
    else if canceled (cof d c) then (upco c (set_canceled false) d, [], CRet ECANCELED)
    else fastunlock m [FCvUnlocked v m dl] d.
Definition cvwait_unlocked (c : Z) (v m : nat) (dl : Z) (d : dat) : res :=
  let d := pushq (QCv v) (NCo c) d in
  copause c dl [FCvWait v m] (set_ncvs (ncvs d + 1) d).
(** one attempt of [while (mutex_fastlock(...) != NECO_OK) { }], 7616 and
    mutex_fastlock 7300-7310 *)
Definition cv_relock (c : Z) (m : nat) (ret nw : Z) (d : dat) : res :=
  if negb (mlocked (mux d m)) then (upmu m (set_mlocked true) d, [], CRet ret)
  else
    let '(v, d) := mu_trylock c m false MAXI nw d in
    if v =? EBUSY then finish_lock c m false MAXI [FCvRelock m ret] d
    else (d, [FCvRelock m ret], CRet v).
Definition cvwait_end (c : Z) (m : nat) (nw : Z) (d : dat) : res :=
  let d := set_ncvs (ncvs d - 1) d in
  let d := rmq (NCo c) d in
  let '(v, d) := checkdl c MAXI nw d in
  cv_relock c m v nw d.

(* ------------------------------------------------------------------------ *)
(** * Join, suspend, resume, work *)

(** join_dl, /repo/neco.c:7852-7874 *)
Definition do_join (c id dl nw : Z) (d : dat) : res :=
  if negb (mem id (all d)) then (d, [], CRet OK)
  else
    let '(v, d) := checkdl c dl nw d in
    if negb (v =? OK) then (d, [], CRet v)
    else if id =? c then (d, [], CRet EPERM)
    else copause c dl [FJoin id] (pushq (QJoin id) (NCo c) d).
Definition join_end (c nw : Z) (d : dat) : res :=
  let d := rmq (NCo c) d in
  let '(v, d) := checkdl c MAXI nw d in
  (d, [], CRet v).
(** suspend_dl, /repo/neco.c:8639-8653 *)
Definition do_suspend (c dl : Z) (d : dat) : res :=
  let d := upco c (set_suspended true) d in
  copause c dl [FSuspend] (set_nsusp (nsusp d + 1) d).
Definition suspend_end (c nw : Z) (d : dat) : res :=
  let d := set_nsusp (nsusp d - 1) d in
  let d := upco c (set_suspended false) d in
  let '(v, d) := checkdl c MAXI nw d in
  (d, [], CRet v).
(** resume, /repo/neco.c:8671-8685 *)
Definition do_resume (id : Z) (d : dat) : res :=
  if negb (mem id (all d)) then (d, [], CRet ENOTFOUND)
  else if negb (suspended (cof d id)) then (d, [], CRet ENOTSUSPENDED)
  else (d, [], CResume id).
(** workfn, /repo/neco.c:8715-8738; [sub]: worker_submit accepted *)
Definition work_submit (c : Z) (sub : bool) (d : dat) : res :=
  if sub then (set_inflight (inflight d ++ [c]) d, [FWork], CPause)
  else (d, [FWorkRetry], CYield).
Definition do_work (c : Z) (sub : bool) (d : dat) : res :=
  work_submit c sub (set_niow (niow d + 1) d).

(* ------------------------------------------------------------------------ *)
(** * Coroutine start and exit *)

(** start and coentry, /repo/neco.c:3819-3900, for the new identifier [n]:
    the record comes from the front of the pool or is zeroed, only [coroutine],
    [canceltype], [cancelstate] (and [pool_ts], [gen], arguments) are reset.
    [parent]: coself(), [None] for the first coroutine. *)
Definition fresh_co : corec :=
  mkco 0 0 false false false 0 0 0 false 0 0 0 false false false [] None 0 0 0.
Definition spawn_dat (parent : option Z) (n : Z) (isgen : bool) (d : dat) : dat :=
  let '(p, d) := popq QPool d in
  let '(r, d) := match p with
                 | Some p => (set_pool_ts 0 (cof d (node_co p)), set_npool (npool d - 1) d)
                 | None => (fresh_co, d)
                 end in
  let r := set_casync (env_async d) (set_cenabled (env_enabled d) r) in
  let '(r, d) := if isgen then let '(g, d) := new_chan 0 d in (set_gen (Some g) r, d) else (r, d) in
  let r := set_starterid (match parent with Some p => p | None => 0 end) r in
  let d := match parent with
           | Some p => upco p (fun x => set_lastid n (if isgen then set_rbuf (Z.of_nat (nchan d - 1)) x else x)) d
           | None => d
           end in
  let d := set_cof (zupd (cof d) n r) d in
  let d := set_ntotal (ntotal d + 1) d in
  set_allcount (allcount d + 1) (set_all (all d ++ [n]) d).

(** coexit, /repo/neco.c:7715-7763. The cleanup loop: *)
Definition coexit_rest (c : Z) (async : bool) (d : dat) : res :=
  (* comap_delete decrements the counter even if the key is absent (3504-3508) *)
  let d := set_allcount (allcount d - 1) (set_all (remove1 c (all d)) d) in
  let sched := negb (emptyq (QCancel c) d && emptyq (QJoin c) d) in
  let d := resume_all (QCancel c) (length (q d (QCancel c))) d in
  let d := resume_all (QJoin c) (length (q d (QJoin c))) d in
  match gen (cof d c) with
  | Some g =>
      let '(d, fs, k) := do_close g d in (d, fs ++ [FExitGen async sched], k)
  | None =>
      if sched then yfsr [FExitFin async] d else (d, [], CFinal async)
  end.
Definition exit_gen (c : Z) (async sched : bool) (d : dat) : res :=
  let d := upco c (set_gen None) d in
  if sched then yfsr [FExitFin async] d else (d, [], CFinal async).
Definition coexit_async (c : Z) (d : dat) : res :=
  match cleanups (cof d c) with
  | h :: r => (upco c (set_cleanups r) d, [FExitLoop], CUser)
  | [] => coexit_rest c true d
  end.
(** cleanup, /repo/neco.c:3802-3817: the record goes to the back of the pool *)
Definition final_dat (c : Z) (d : dat) : dat :=
  let d := pushq QPool (NCo c) d in set_npool (npool d + 1) d.

(** cleanup_push, cleanup_pop, /repo/neco.c:7678-7695 *)
Definition do_cleanup_pop (c : Z) (exec : bool) (d : dat) : res :=
  match cleanups (cof d c) with
  | [] => (d, [], CUB)
  | h :: r => let d := upco c (set_cleanups r) d in
              if exec then (d, [FHandler], CUser) else (d, [], CRet 0)
  end.

(** getstats, /repo/neco.c:5663-5682 *)
Definition stats_of (d : dat) : list Z :=
  [allcount d; nsleepers d; nevs d; nsigs d; nsenders d; nreceivers d; nlocked d;
   nwgs d; ncvs d; nsusp d].

(* ------------------------------------------------------------------------ *)
(** * Dispatch *)

(** The code of an API call up to its first cut. *)
Definition hcall (c : Z) (o : op) (nw : Z) (d : dat) : res :=
  match o with
  | OpStart => (d, [], CSpawn false)
  | OpGenStart => (d, [], CSpawn true)
  | OpYield => coyield [] d                                  (* yield 4462-4468 *)
  | OpSleep dl => do_sleep c dl nw d
  | OpGetid => (d, [], CRet c)                               (* getid 4549-4554 *)
  | OpLastid => (d, [], CRet (lastid (cof d c)))             (* lastid 4567-4572 *)
  | OpStarterid => (d, [], CRet (starterid (cof d c)))       (* starterid 4593-4598 *)
  | OpStats => (d, [], CRet OK)
  | OpCancel id dl => do_cancel c id dl nw d
  | OpSetType b => (upco c (set_casync b) d, [], CRet OK)    (* setcanceltype 7636-7649 *)
  | OpSetState b => (upco c (set_cenabled b) d, [], CRet OK) (* setcancelstate 7657-7670 *)
  | OpSigWatch n => do_sigwatch c n d
  | OpSigUnwatch n => do_sigunwatch c n d
  | OpSigWait dl => do_sigwait c dl d
  | OpWait fd k dl fail => do_wait c fd k dl fail d
  | OpChMake cap => do_chmake c cap d
  | OpSend ch m dl => do_send c ch m dl d
  | OpBcast ch m => do_bcast ch m d
  | OpRecv ch dl => do_recv c ch false dl d
  | OpTryRecv ch => do_recv c ch true MAXI d
  | OpClose ch => do_close ch d
  | OpSelect chs dl => do_select c chs false dl d
  | OpTrySelect chs => do_select c chs true MAXI d
  | OpCase ch => do_case c ch d
  | OpGenYield m dl => do_genyield c m dl d
  | OpMuInit m => (mu_init m d, [], CRet OK)
  | OpTryLock m => do_trylock c m false nw d
  | OpTryRdLock m => do_trylock c m true nw d
  | OpLock m dl => do_lock c m false dl nw d
  | OpRdLock m dl => do_lock c m true dl nw d
  | OpUnlock m => do_unlock m d
  | OpMuDestroy m => do_mudestroy m d
  | OpWgInit w => (wg_init w d, [], CRet OK)
  | OpWgAdd w n => do_wgadd w n d
  | OpWgDone w => do_wgdone w d
  | OpWgWait w dl => do_wgwait c w dl nw d
  | OpWgDestroy w => let '(v, d) := check_wg w d in         (* 7474-7481 *)
                     if negb (v =? OK) then (d, [], CRet v)
                     else (set_q (qupd (q d) (QWg w) []) (set_wgx (nupd (wgx d) w (mkwg 0 0)) d), [], CRet OK)
  | OpCvInit v => (cv_init v d, [], CRet OK)
  | OpCvSignal v => do_cvsignal v d
  | OpCvBcast v => do_cvbcast v d
  | OpCvWait v m dl => do_cvwait c v m dl d
  | OpCvDestroy v => let '(e, d) := check_cv v d in         (* 7536-7544 *)
                     if negb (e =? OK) then (d, [], CRet e)
                     else (set_q (qupd (q d) (QCv v) []) (set_cvx (nupd (cvx d) v 0) d), [], CRet OK)
  | OpJoin id dl => do_join c id dl nw d
  | OpSuspend dl => do_suspend c dl d
  | OpResume id => do_resume id d
  | OpWork sub => do_work c sub d
  | OpCleanupPush h => (upco c (fun r => set_cleanups (h :: cleanups r) r) d, [], CRet 0)
  | OpCleanupPop b => do_cleanup_pop c b d
  | OpExit => coexit_async c d                               (* neco_exit 8461-8465 *)
  | OpReturn => (d, [], CRet 0)
  end.

(** Is the wrapper guarded by async_error_guard (3464-3474)? *)
Definition is_async (o : op) : bool :=
  match o with
  | OpSleep _ | OpCancel _ _ | OpSigWait _ | OpWait _ _ _ _ | OpSend _ _ _ | OpRecv _ _
  | OpTryRecv _ | OpSelect _ _ | OpTrySelect _ | OpGenYield _ _ | OpTryLock _ | OpTryRdLock _
  | OpLock _ _ | OpRdLock _ _ | OpWgWait _ _ | OpCvWait _ _ _ | OpJoin _ _ | OpSuspend _ => true
  | _ => false
  end.

(** The code that follows a cut: [v] is returned to frame [f] of coroutine [c].
    [b]: environment choice (worker queue accepts). *)
Definition hret (c : Z) (f : frame) (v : Z) (b : bool) (nw : Z) (d : dat) : res :=
  match f with
  | FEntry => coexit_rest c false d                          (* coentry 3833: coexit(false) *)
  | FApi k o =>
      if is_async o && (v =? ECANCELED) && casync (cof d c)
      then coexit_async c d else (d, [], CUser)
  | FHandler => (d, [], CRet 0)
  | FCoyield => if canceled (cof d c) && casync (cof d c) then coexit_async c d else (d, [], CRet 0)
  | FYfsr => coyield [] d
  | FPause => (pause_end c d, [], CRet 0)
  | FSleep => sleep_end c d
  | FCancelWait id dl => do_cancel c id dl nw (rmq (NCo c) d)
  | FCancelGo => coyield [] d
  | FSigWait => sigwait_end c nw d
  | FEvWait _ _ => wait_end c nw d
  | FSendResumed => (d, [], CRet OK)
  | FBcast sent => (d, [], CRet sent)
  | FSendWait _ => send_end c nw d
  | FRecvResumed => (d, [], CRet OK)
  | FRecvWait _ => recv_end c nw d
  | FClose => (d, [], CRet OK)
  | FSelRecv ch i => (upch ch (set_lok (v =? OK)) d, [], CRet i)
  | FSelWait n => select_end c n nw d
  | FLock _ => lock_end c nw d
  | FUnlock => coyield [] d
  | FWgDone => (d, [], CRet OK)
  | FWgWait _ => wgwait_end c nw d
  | FCvSignal => (d, [], CRet OK)
  | FCvBcast => (d, [], CRet OK)
  | FCvUnlocked cv m dl => cvwait_unlocked c cv m dl d
  | FCvWait _ m => cvwait_end c m nw d
  | FCvRelock m ret =>
      if v =? OK then (d, [], CRet ret)
      else if (v =? ECANCELED) && casync (cof d c) then coexit_async c d
      else cv_relock c m ret nw d
  | FJoin _ => join_end c nw d
  | FSuspend => suspend_end c nw d
  | FWorkRetry => work_submit c b d
  | FWork => (set_niow (niow d - 1) d, [], CRet OK)
  | FExitLoop => coexit_async c d
  | FExitGen a s => exit_gen c a s d
  | FExitFin a => (d, [], CFinal a)
  end.

(* ------------------------------------------------------------------------ *)
(** * The sco scheduler *)

(** sco_switch, /repo/neco.c:1982-2003. The second component is the new mode:
    back in rt_scheduler, or the next coroutine continues at its top frame.
    Popping an empty runner list would dereference NULL. *)
Definition sco_switch (from_main : bool) (s : sched) : sched * emode :=
  if (nrun s =? 0) &&
     ((nyld s =? 0) || exitreq s || (negb from_main && (0 <? npsd s)))
  then (set_exitreq false (set_cur None s), MMain)
  else
    let s := if nrun s =? 0
             then set_nyld 0 (set_yielders [] (set_nrun (nyld s) (set_runners (yielders s) s)))
             else s in
    match runners s with
    | [] => (s, MUB)
    | c :: r => (set_disp (c :: disp s) (set_cur (Some c) (set_nrun (nrun s - 1) (set_runners r s))), MRet 0)
    end.

(** push to the back of the yielders, as in sco_yield 2057-2063 and sco_resume
    2086-2087 *)
Definition push_yielder (c : Z) (s : sched) : sched :=
  set_nyld (nyld s + 1) (set_yielders (yielders s ++ [c]) s).
(** sco_resume(id) without the final sco_yield, /repo/neco.c:2081-2087: from the
    scheduler loop sco_yield does nothing because sco_cur is NULL *)
Definition wake (id : Z) (s : sched) : sched :=
  if mem id (paused s)
  then push_yielder id (set_npsd (npsd s - 1) (set_paused (remove1 id (paused s)) s))
  else s.

(** Interpretation of a control action for the running coroutine [c]. *)
Definition exec (c : Z) (k : ctl) (s : sched) : sched * emode :=
  match k with
  | CRet v => (s, MRet v)
  | CUser => (s, MUser)
  | CYield => sco_switch false (push_yielder c s)                 (* 2057-2063 *)
  | CPause => sco_switch false                                    (* 2066-2072 *)
                (set_npsd (npsd s + 1) (set_paused (paused s ++ [c]) s))
  | CResume id =>                                                 (* 2075-2092 *)
      if mem id (paused s) then sco_switch false (push_yielder c (wake id s))
      else (s, MRet 0)
  | CSpawn _ =>                                                   (* 2005-2027, 2038-2049 *)
      let n := nextid s + 1 in
      let s := set_nextid n s in
      let s := set_nrun (nrun s + 1) (set_runners (runners s ++ [c]) s) in
      (set_cur (Some n) (set_stk (zupd (stk s) n [FEntry]) s), MUser)
  | CFinal tomain =>                                              (* 2026, 2030-2035 *)
      let s := set_stk (zupd (stk s) c []) s in
      sco_switch false (if tomain then set_exitreq true s else s)
  | CUB => (s, MUB)
  end.

(* ------------------------------------------------------------------------ *)
(** * The scheduler loop *)

Definition signos : list Z := map Z.of_nat (seq 0 32).

(** rt_sched_signal_step, /repo/neco.c:4040-4074: the lowest pending signal
    only. Result: new data, coroutine to wake, signal that ends the process. *)
Definition dec_sigq (n : Z) (d : dat) : dat :=
  let d := set_sigq (zupd (sigq d) n (sigq d n - 1)) d in
  if sigq d n =? 0 then set_sigm (Z.ldiff (sigm d) (Z.shiftl 1 n)) d else d.
Definition signal_step (d : dat) : dat * list Z * option Z :=
  match find (fun n => negb (sigq d n =? 0)) signos with
  | None => (d, [], None)
  | Some n =>
      if sigw d n =? 0 then
        (dec_sigq n d, [], if n =? 13 then None else Some n)
      else
        match find (fun x => Z.testbit (sigmask (cof d (node_co x))) n) (q d QSig) with
        | None => (d, [], None)
        | Some x =>
            let c := node_co x in
            (dec_sigq n (upco c (set_sigmask n) d), [c], None)
        end
  end.

(** rt_sched_event_step, /repo/neco.c:4078-4139, for one returned event on [fd]:
    a one-shot registration is consumed by any event; readers are woken before
    writers, each in id order. An event that is neither readable nor writable
    (hang-up, error) wakes nobody. *)
Definition ev_waiters (fd kind : Z) (d : dat) : list Z :=
  map (fun e => snd e) (filter (fun e => let '(f, k, _) := e in (f =? fd) && (k =? kind)) (evs d)).
Definition event_step1 (d : dat) (io : Z * bool * bool) : dat * list Z :=
  let '(fd, r, w) := io in
  let '(ar, aw) := armed d fd in
  let r := r && ar in
  let w := w && aw in
  if ar || aw
  then (set_armed (zupd (armed d) fd (false, false)) d,
        (if r then ev_waiters fd 1 d else []) ++ (if w then ev_waiters fd 2 d else []))
  else (d, []).
Fixpoint event_step (d : dat) (ios : list (Z * bool * bool)) : dat * list Z :=
  match ios with
  | [] => (d, [])
  | io :: ios => let '(d, w1) := event_step1 d io in
                 let '(d, w2) := event_step d ios in (d, w1 ++ w2)
  end.

(** Expired deadlines in (deadline, id) order; marks them, /repo/neco.c:4226-4236 *)
Fixpoint dl_step (l : list (Z * Z)) (nw : Z) (d : dat) : dat * list Z :=
  match l with
  | [] => (d, [])
  | (dl, c) :: l =>
      if dl <? nw
      then let '(d, w) := dl_step l nw (upco c (set_deadlined true) d) in (d, c :: w)
      else (d, [])
  end.

(** rt_sched_paused_step, /repo/neco.c:4159-4237: data and the coroutines on which
    sco_resume is called, in order. (The time-out computation is SchedTimeout.v.
    [ios] are the events epoll returned.) *)
Definition paused_step (nw : Z) (ios : list (Z * bool * bool)) (d : dat) : dat * list Z * option Z :=
  let w1 := map node_co (q d QRes) in
  let d := set_nresumers (nresumers d - Z.of_nat (length w1)) (set_q (qupd (q d) QRes []) d) in
  let w2 := if 0 <? niow d then map node_co (q d QIo) else [] in
  let d := if 0 <? niow d then set_q (qupd (q d) QIo []) d else d in
  let '(d, w3) := if 0 <? nevs d then event_step d ios else (d, []) in
  let '(d, w4, kill) := if negb (sigm d =? 0) then signal_step d else (d, [], None) in
  let '(d, w5) := dl_step (dls d) nw d in
  (d, w1 ++ w2 ++ w3 ++ w4 ++ w5, kill).

(** rt_rc_step, /repo/neco.c:4240-4270: stamp newly pooled records (from the tail),
    free those older than 100 ms (from the head). *)
Fixpoint stamp (l : list node) (nw : Z) (d : dat) : dat :=
  match l with
  | [] => d
  | n :: l => let c := node_co n in
              if pool_ts (cof d c) =? 0 then stamp l nw (upco c (set_pool_ts nw) d) else d
  end.
Fixpoint drop_old (l : list node) (nw : Z) (d : dat) : list node :=
  match l with
  | [] => []
  | n :: r => if nw - pool_ts (cof d (node_co n)) <? 100000000 then l else drop_old r nw d
  end.
Definition rc_step (nw : Z) (d : dat) : dat :=
  if 0 <? npool d then
    let d := stamp (rev (q d QPool)) nw d in
    let l := drop_old (q d QPool) nw d in
    set_npool (npool d - (Z.of_nat (length (q d QPool)) - Z.of_nat (length l)))
      (set_q (qupd (q d) QPool l) d)
  else d.

(** sco_active, /repo/neco.c:2149-2152 *)
Definition active (s : sched) : bool :=
  0 <? nyld s + npsd s + nrun s + (match cur s with Some _ => 1 | None => 0 end).

(* ------------------------------------------------------------------------ *)
(** * The machine *)

Inductive event :=
| ECall (o : op)                          (* the running client makes an API call *)
| ETick (b : bool)                        (* library code runs to the next cut *)
| EMain (ios : list (Z * bool * bool))    (* one turn of rt_scheduler *)
| EAdv (t : Z)                            (* time passes *)
| ESignal (n : Z)                         (* the signal handler runs *)
| EWorkDone (c : Z)                       (* a worker thread finishes a job of c *)
| EOtherId                                (* another thread takes a coroutine id *)
| EForeignMu (m : nat) | EForeignCh | EForeignWg (w : nat) | EForeignCv (v : nat).
                                          (* another runtime initialises an object *)

Definition log (x : obs) (s : state) : state := set_tr (x :: tr s) s.

(** The effect of a control action on the data part and its trace entry; [n] is
    the next coroutine identifier. *)
Definition ctl_dat (c n : Z) (k : ctl) (d : dat) : dat :=
  match k with
  | CSpawn g => spawn_dat (Some c) n g d
  | CFinal _ => final_dat c d
  | _ => d
  end.
Definition ctl_obs (c n : Z) (k : ctl) : list obs :=
  match k with
  | CSpawn _ => [TStart c n]
  | CFinal _ => [TExit c]
  | _ => []
  end.
(** A cleanup handler starts: the handler popped by this step, for the trace. *)
Definition handler_obs (c : Z) (fs : list frame) (k : ctl) (d : dat) : list obs :=
  match k, fs, cleanups (cof d c) with
  | CUser, FExitLoop :: _, h :: _ => [THandler c h]
  | CUser, FHandler :: _, h :: _ => [THandler c h]
  | _, _, _ => []
  end.

(** Run a handler result for the running coroutine [c]; [rest] is its stack below
    the frames pushed by the handler, [o] the trace entries of this step. *)
Definition apply_res (c : Z) (r : res) (rest : list frame) (o : list obs) (s : state) : state :=
  let '(d, fs, k) := r in
  let n := nextid (sc s) + 1 in
  let '(sch, md) := exec c k (set_stk (zupd (stk (sc s)) c (fs ++ rest)) (sc s)) in
  mkst sch (ctl_dat c n k d) md (now s) (ncalls s)
    (ctl_obs c n k ++ handler_obs c fs k (dt s) ++ o ++ tr s).

(** The trace entries of a call and of a return to the client. *)
Definition call_obs (c : Z) (k : nat) (o : op) (s : state) : list obs :=
  match o with
  | OpStats => [TStats k (stats_of (dt s)); TCall k c o (now s)]
  | _ => [TCall k c o (now s)]
  end.
Definition ret_obs (c : Z) (f : frame) (v : Z) (r : res) (s : state) : list obs :=
  match f, r with
  | FApi k o, (_, [], CUser) => [TRet k c o v (rbuf (cof (dt s) c)) (now s)]
  | _, _ => []
  end.

(** An API call by the running coroutine. *)
Definition do_call (s : state) (c : Z) (o : op) : state :=
  let k := ncalls s in
  let r := hcall c o (now s) (dt s) in
  set_ncalls (S k) (apply_res c r (FApi k o :: stk (sc s) c) (call_obs c k o s) s).
(** The value [v] is returned to the top frame [f] of the running coroutine. *)
Definition do_tick (s : state) (c v : Z) (f : frame) (rest : list frame) (b : bool) : state :=
  let r := hret c f v b (now s) (dt s) in
  apply_res c r rest (ret_obs c f v r s) s.
(** One turn of rt_scheduler, /repo/neco.c:4277-4283. *)
Definition do_main (s : state) (ios : list (Z * bool * bool)) : state :=
  if negb (active (sc s)) then set_mode MDone s
  else
    let '(d, ws, kill) :=
      if 0 <? npsd (sc s) then paused_step (now s) ios (dt s) else (dt s, [], None) in
    match kill with
    | Some n => set_mode (MKilled n) s
    | None =>
        let sch := fold_left (fun a id => wake id a) ws (sc s) in
        let d := rc_step (now s) d in
        let '(sch, md) := sco_switch true sch in
        set_sc sch (set_dt d (set_mode md s))
    end.

(** the number of the API call whose frame is on top *)
Definition callno (w : list frame) : nat := match w with FApi k _ :: _ => k | _ => 0%nat end.
Definition allowed_signals : list Z := [1; 2; 3; 15; 13; 10; 12; 14].

Definition step (s : state) (e : event) : state :=
  match e with
  | ECall o =>
      match mode s, cur (sc s) with
      | MUser, Some c => match o with OpReturn => set_mode (MRet 0) s | _ => do_call s c o end
      | _, _ => s
      end
  | ETick b =>
      match mode s, cur (sc s) with
      | MRet v, Some c =>
          match stk (sc s) c with
          | [] => set_mode MUB s
          | f :: rest => do_tick s c v f rest b
          end
      | _, _ => s
      end
  | EMain ios => match mode s with MMain => do_main s ios | _ => s end
  | EAdv t => if now s <? t then set_now t s else s
  | ESignal n =>
      match mode s with
      | MDone | MKilled _ | MUB => s
      | _ =>
          if negb (mainthread (dt s)) || negb (mem n allowed_signals) then s
          else if sigw (dt s) n =? 0 then (if n =? 13 then s else set_mode (MKilled n) s)
          else let d := dt s in
               let d := set_sigm (Z.lor (sigm d) (Z.shiftl 1 n)) d in
               set_dt (set_sigq (zupd (sigq d) n (sigq d n + 1)) d) s
      end
  | EWorkDone c =>
      match mode s with
      | MDone | MKilled _ | MUB => s
      | _ =>
          if mem c (inflight (dt s)) then
            match stk (sc s) c with
            | FWork :: w =>
                let d := set_inflight (remove_first c (inflight (dt s))) (dt s) in
                log (TWorkDone c (callno w)) (set_dt (pushq QIo (NCo c) d) s)
            | _ => set_mode MUB s (* the job record lived on a stack frame that is gone *)
            end
          else s
      end
  | EOtherId => set_sc (set_nextid (nextid (sc s) + 1) (sc s)) s
  | EForeignMu m =>
      if mrt (mux (dt s) m) =? 0
      then set_dt (upmu m (set_mrt (rtid (dt s) + 1)) (dt s)) s else s
  | EForeignCh =>
      let d := dt s in let ch := nchan d in
      set_dt (set_nchan (S ch) (set_chn (nupd (chn d) ch (mkch (rtid d + 1) false false false false 0 [] 0)) d)) s
  | EForeignWg w =>
      if wrt (wgx (dt s) w) =? 0
      then set_dt (upwg w (set_wrt (rtid (dt s) + 1)) (dt s)) s else s
  | EForeignCv v =>
      if cvx (dt s) v =? 0
      then set_dt (set_cvx (nupd (cvx (dt s)) v (rtid (dt s) + 1)) (dt s)) s else s
  end.

(** State after neco_start created the runtime (run, /repo/neco.c:4339-4390) and its
    first coroutine is running. Parameters: last id taken in the process, runtime
    id, clock, default cancellation settings, main-thread flag. *)
Record config := mkcfg { cfg_lastid : Z; cfg_rtid : Z; cfg_now : Z; cfg_async : bool;
                         cfg_enabled : bool; cfg_main : bool }.
(** Both counters start at 1 and only grow (sco_next_id 1919, 2010; next_runtime_id
    3567, 4349; their overflow after 2^63 increments is not modelled). *)
Definition cfg_ok (g : config) : Prop := 0 <= cfg_lastid g /\ 0 < cfg_rtid g.
Definition dat0 (g : config) : dat :=
  mkdat (fun _ => []) (fun _ => fresh_co) (fun _ => mkch 0 false false false false 0 [] 0)
    (fun _ => mkmu 0 false 0) (fun _ => mkwg 0 0) (fun _ => 0)
    [] 0 0 [] 0 [] 0 (fun _ => (false, false)) 0 0 0 0 0 0 0 0 0 0 0 []
    (fun _ => 0) (fun _ => 0) 0 0%nat (cfg_rtid g) (cfg_async g) (cfg_enabled g) (cfg_main g).
Definition init (g : config) : state :=
  let n := cfg_lastid g + 1 in
  mkst (mksched [] [] [] 0 0 0 (Some n) false n (zupd (fun _ => []) n [FEntry]) [])
       (spawn_dat None n false (dat0 g)) MUser (cfg_now g) 0 [TStart 0 n].

Definition run (s : state) (es : list event) : state := fold_left step es s.
