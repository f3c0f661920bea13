(** neco_getaddrinfo_dl, /repo/neco.c:6470-6701: the coroutine that asks, and the
    detached thread that does the lookup and owns the arguments. Their steps
    interleave freely. What malloc, pipe, fcntl, pthread_create, getaddrinfo and
    the waiting read answer is the environment's choice. Using or freeing memory that
    is not allocated and closing a descriptor that is not open are undefined
    behaviour ([g_ub]). Simplified: freeaddrinfo(NULL) does nothing (glibc); the pipe
    write of 4 bytes is atomic; the FreeBSD branches are left out. *)
From Coq Require Import ZArith List Bool Lia.
From Verif Require Import Runtime.
Import ListNotations.
Local Open Scope Z_scope.

Definition EAI_SYSTEM : Z := -11.
Definition EAI_MEMORY : Z := -10.

(** what can be allocated or open *)
Inductive res := RArgs | RNode | RService | RHints | RFd0 | RFd1 | RList.
Definition res_eqb (a b : res) : bool :=
  match a, b with
  | RArgs, RArgs | RNode, RNode | RService, RService | RHints, RHints | RFd0, RFd0 | RFd1, RFd1 | RList, RList => true
  | _, _ => false
  end.
(** struct getaddrinfo_args, 6470-6482: which pointers are not NULL, the descriptors (0 after
    the memset), the list and the value of getaddrinfo, the flag [returned] *)
Record args := mkargs { a_node : bool; a_service : bool; a_hints : bool; a_fd0 : Z; a_fd1 : Z; a_res : option Z; a_ret : Z; a_flag : bool }.
(** the coroutine: before the call; in the read (6672); about to pop the cleanup handler, with the
    value to return and what it has stored in *res; returned; ended by an asynchronous
    cancellation *)
Inductive gphase := GIdle | GWait | GPopping (r : Z) (l : option (option Z)) | GDone (r : Z) (l : option (option Z)) | GDead.
(** the thread: none; in getaddrinfo; about to write to the pipe; in the loop on
    [returned]; ended *)
Inductive tphase := TNone | TLook | TNotify | TSpin | TGone.
(** [g_look]: the answer of the background getaddrinfo (not in the code) *)
Record gst := mkg { g_call : gphase; g_th : tphase; g_own : res -> bool; g_args : args; g_pipe : bool; g_look : option (Z * option Z); g_ub : bool }.
Definition args0 : args := mkargs false false false 0 0 None 0 false.
Definition ginit : gst := mkg GIdle TNone (fun _ => false) args0 false None false.

Definition ub (s : gst) : gst := mkg (g_call s) (g_th s) (g_own s) (g_args s) (g_pipe s) (g_look s) true.
Definition alloc (r : res) (s : gst) : gst := mkg (g_call s) (g_th s) (fun x => if res_eqb x r then true else g_own s x) (g_args s) (g_pipe s) (g_look s) (g_ub s).
(** free0 / close / freeaddrinfo of something that must be there *)
Definition release (r : res) (s : gst) : gst :=
  if g_own s r then mkg (g_call s) (g_th s) (fun x => if res_eqb x r then false else g_own s x) (g_args s) (g_pipe s) (g_look s) (g_ub s)
  else ub s.
Definition setargs (a : args) (s : gst) : gst := if g_own s RArgs then mkg (g_call s) (g_th s) (g_own s) a (g_pipe s) (g_look s) (g_ub s) else ub s.
Definition setcall (c : gphase) (s : gst) : gst := mkg c (g_th s) (g_own s) (g_args s) (g_pipe s) (g_look s) (g_ub s).
Definition setth (t : tphase) (s : gst) : gst := mkg (g_call s) t (g_own s) (g_args s) (g_pipe s) (g_look s) (g_ub s).
Definition when (b : bool) (f : gst -> gst) (s : gst) : gst := if b then f s else s.
(** gai_args_free, 6484-6503 *)
Definition args_free (s : gst) : gst :=
  if g_own s RArgs then
    let a := g_args s in
    let s := when (a_service a) (release RService) s in
    let s := when (a_node a) (release RNode) s in
    let s := when (a_hints a) (release RHints) s in
    let s := when (match a_res a with Some _ => true | None => false end) (release RList) s in
    let s := when (negb (a_fd0 a =? 0)) (release RFd0) s in
    let s := when (negb (a_fd1 a =? 0)) (release RFd1) s in
    release RArgs s
  else ub s.

(** The part of getaddrinfo_dl before the read, 6594-6670. [c]: checkdl; [ip]: the node
    is a numeric address, answered by getaddrinfo directly; [nd sv hi]: which arguments are
    given; [ma mn ms mh]: which mallocs succeed (gai_args_new, 6505-6543); [pp]: the
    descriptors pipe gives; [nb]: setnonblock; [th]: pthread_create. *)
Definition setup (c : Z) (ip : option (Z * option Z)) (nd sv hi ma mn ms mh : bool) (pp : option (Z * Z)) (nb th : bool) (s : gst) : gst :=
  let fin r s := setcall (GDone r None) s in
  if negb (c =? OK) then fin EAI_SYSTEM s
  else match ip with
  | Some (r, l) => setcall (GDone r (Some l)) (when (match l with Some _ => true | None => false end) (alloc RList) s)
  | None =>
    if negb ma then fin EAI_MEMORY s
    else
    let s := setargs args0 (alloc RArgs s) in
    if nd && negb mn then fin EAI_MEMORY (args_free s)
    else
    let s := when nd (fun s => setargs (mkargs true false false 0 0 None 0 false) (alloc RNode s)) s in
    if sv && negb ms then fin EAI_MEMORY (args_free s)
    else
    let s := when sv (fun s => setargs (mkargs nd true false 0 0 None 0 false) (alloc RService s)) s in
    if hi && negb mh then fin EAI_MEMORY (args_free s)
    else
    let s := when hi (fun s => setargs (mkargs nd sv true 0 0 None 0 false) (alloc RHints s)) s in
    match pp with
    | None => fin EAI_SYSTEM (args_free s)
    | Some (f0, f1) =>
      let s := setargs (mkargs nd sv hi f0 f1 None 0 false) (alloc RFd1 (alloc RFd0 s)) in
      if negb nb then fin EAI_SYSTEM (args_free s)
      else if negb th then fin EAI_SYSTEM (args_free s)
      else setth TLook (setcall GWait s)
    end
  end.

Inductive gev :=
| ESetup (c : Z) (ip : option (Z * option Z)) (nd sv hi ma mn ms mh : bool) (pp : option (Z * Z)) (nb th : bool)
| ELookup (r : Z) (l : option Z)   (* the thread: getaddrinfo answers, 6557-6558 *)
| ENotify                          (* the thread: write to the pipe, 6559 *)
| ESpin                            (* the thread: one turn of 6560-6562; when [returned] is set, 6563 *)
| ERead (ok : bool)                (* the coroutine: the read returns the data, or fails (cancel, timeout), 6672-6678 *)
| EPop                             (* the coroutine: coyield and the cleanup handler, 6679-6682, 6578-6583 *)
| EAsync.                          (* asynchronous cancellation in the read: coexit runs the cleanup handler *)
Definition setflag (s : gst) : gst :=
  let a := g_args s in setargs (mkargs (a_node a) (a_service a) (a_hints a) (a_fd0 a) (a_fd1 a) (a_res a) (a_ret a) true) s.
Definition gstep (s : gst) (e : gev) : gst :=
  if g_ub s then s
  else match e with
  | ESetup c ip nd sv hi ma mn ms mh pp nb th =>
      match g_call s with GIdle => setup c ip nd sv hi ma mn ms mh pp nb th s | _ => s end
  | ELookup r l =>
      match g_th s with
      | TLook =>
          let a := g_args s in
          let s := when (match l with Some _ => true | None => false end) (alloc RList) s in
          let s := setargs (mkargs (a_node a) (a_service a) (a_hints a) (a_fd0 a) (a_fd1 a) l r (a_flag a)) s in
          setth TNotify (mkg (g_call s) (g_th s) (g_own s) (g_args s) (g_pipe s) (Some (r, l)) (g_ub s))
      | _ => s
      end
  | ENotify =>
      match g_th s with
      | TNotify => if g_own s RArgs && g_own s RFd1 then mkg (g_call s) TSpin (g_own s) (g_args s) true (g_look s) (g_ub s) else ub s
      | _ => s
      end
  | ESpin =>
      match g_th s with
      | TSpin => if g_own s RArgs then if a_flag (g_args s) then setth TGone (args_free s) else s else ub s
      | _ => s
      end
  | ERead ok =>
      match g_call s with
      | GWait =>
          if ok then
            if g_pipe s then
              let a := g_args s in
              let s := setargs (mkargs (a_node a) (a_service a) (a_hints a) (a_fd0 a) (a_fd1 a) None (a_ret a) (a_flag a)) s in
              mkg (GPopping (a_ret a) (Some (a_res a))) (g_th s) (g_own s) (g_args s) false (g_look s) (g_ub s)
            else s
          else setcall (GPopping EAI_SYSTEM None) s
      | _ => s
      end
  | EPop => match g_call s with GPopping r l => setcall (GDone r l) (setflag s) | _ => s end
  | EAsync => match g_call s with GWait => setcall GDead (setflag s) | _ => s end
  end.
Definition grun (s : gst) (es : list gev) : gst := fold_left gstep es s.

(** neco_getaddrinfo_dl, 6687-6701: the neco error for a value of getaddrinfo *)
Definition gai_error (r : Z) : Z := if r =? 0 then OK else if r =? EAI_SYSTEM then -1 else -14.
