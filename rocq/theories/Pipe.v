(** neco_pipe: a coroutine and its helper over a unix listener. *)
From Coq Require Import ZArith List Bool.
Import ListNotations.
Open Scope Z_scope.

(** Where the caller is: before the listener was made, waiting in neco_accept_dl, in
    neco_read_dl, in neco_join, returned. *)
Inductive pphase := PBegin | PAccept | PRead | PJoin | PRet (r : Z).
(** Where the helper co_pipe is: not started, in neco_dial, in neco_write, ended. *)
Inductive cphase := CNone | CDial | CWrite (fd : Z) | CEnd.
(** [p_open]: open descriptors of the process that the call opened; [p_pend]: connections
    waiting on the listener (those of the helper are [true], those of other processes
    [false]); [p_acc]: who is behind the accepted connection; [p_sent]: the helper's 8
    bytes have been written; [p_fd0], [p_fd1], [p_ln]: the variables of the caller's
    frame; [p_user]: the caller's array; [p_cs]: cancellation disabled; [p_file]: the
    socket file exists; [p_ub]: memory of a frame that is gone was written. *)
Record pst := { p_ph : pphase; p_ch : cphase; p_open : list Z; p_pend : list bool; p_acc : option bool;
                p_sent : bool; p_fd0 : Z; p_fd1 : Z; p_ln : Z; p_user : option (Z * Z);
                p_old : bool; p_cs : bool; p_file : bool; p_ub : bool;
                p_dialed : option Z; p_ended : bool }.
(** [p_dialed] and [p_ended] are for the statements only: the helper's connected
    descriptor, and that the call has returned. *)
Definition pinit (cs : bool) : pst :=
  {| p_ph := PBegin; p_ch := CNone; p_open := []; p_pend := []; p_acc := None; p_sent := false;
     p_fd0 := -2; p_fd1 := -2; p_ln := -2; p_user := None; p_old := cs; p_cs := cs; p_file := false; p_ub := false;
     p_dialed := None; p_ended := false |}.

(** What happens: the listener is made (its descriptor, or [None]) and the helper started
    (or not); another process connects; the helper's dial ends (with a descriptor, or
    [None]); its 8 bytes are written (perhaps by a worker thread); its neco_write returns
    (whether or not it wrote them); the caller's accept ends (with a descriptor or [None]: error
    or deadline); its read ends (the 8 bytes, or [None]: error, deadline, fewer bytes);
    its join ends. *)
Inductive pev := EBegin (ln : option Z) (started : bool) | EForeign | EDial (fd : option Z) | ESend | EWrite
  | EAccept (fd : option Z) | ERead (d : option Z) | EJoin.

Definition rm (fd : Z) (l : list Z) : list Z := filter (fun x => negb (x =? fd)) l.
Definition fresh (fd : Z) (s : pst) : bool := (0 <=? fd) && negb (existsb (Z.eqb fd) (p_open s)).

(** close(ln), unlink(path): /repo/neco.c:7818-7819, only if [ln > 0] *)
Definition close_ln (s : pst) : pst :=
  if 0 <? p_ln s
  then {| p_ph := p_ph s; p_ch := p_ch s; p_open := rm (p_ln s) (p_open s); p_pend := p_pend s; p_acc := p_acc s; p_sent := p_sent s;
          p_fd0 := p_fd0 s; p_fd1 := p_fd1 s; p_ln := p_ln s; p_user := p_user s; p_old := p_old s; p_cs := p_cs s; p_file := false; p_ub := p_ub s;
          p_dialed := p_dialed s; p_ended := p_ended s |}
  else s.
(** The end with an error, /repo/neco.c:7821-7833: close both variables (values that are
    no descriptors are ignored), restore the cancel state, return -1. *)
Definition fail (s : pst) : pst :=
  let s := close_ln s in
  {| p_ph := PRet (-1); p_ch := p_ch s; p_open := rm (p_fd1 s) (rm (p_fd0 s) (p_open s)); p_pend := p_pend s; p_acc := p_acc s; p_sent := p_sent s;
     p_fd0 := p_fd0 s; p_fd1 := p_fd1 s; p_ln := p_ln s; p_user := p_user s; p_old := p_old s; p_cs := p_old s; p_file := p_file s; p_ub := p_ub s;
     p_dialed := p_dialed s; p_ended := true |}.
Definition setph (ph : pphase) (s : pst) : pst :=
  {| p_ph := ph; p_ch := p_ch s; p_open := p_open s; p_pend := p_pend s; p_acc := p_acc s; p_sent := p_sent s;
     p_fd0 := p_fd0 s; p_fd1 := p_fd1 s; p_ln := p_ln s; p_user := p_user s; p_old := p_old s; p_cs := p_cs s; p_file := p_file s; p_ub := p_ub s;
     p_dialed := p_dialed s; p_ended := p_ended s |}.
(** [*fd_out = fd] and the end of co_pipe, /repo/neco.c:7772: a write to the caller's
    frame. *)
Definition child_out (fd : Z) (s : pst) : pst :=
  {| p_ph := p_ph s; p_ch := CEnd; p_open := p_open s; p_pend := p_pend s; p_acc := p_acc s; p_sent := p_sent s;
     p_fd0 := if p_ended s then p_fd0 s else fd; p_fd1 := p_fd1 s; p_ln := p_ln s; p_user := p_user s; p_old := p_old s; p_cs := p_cs s; p_file := p_file s;
     p_ub := p_ub s || p_ended s; p_dialed := p_dialed s; p_ended := p_ended s |}.

(** _pipe_ and co_pipe, /repo/neco.c:7765-7850. The helper copies the path and the secret
    when neco_start runs it, so afterwards it only touches [fd0] of the frame. Cancellation
    of the caller is disabled. Simplified: nobody cancels the helper (its id is known to
    nobody); nobody else closes the descriptors; the kernel hands out descriptors that are
    not open; 8 bytes on a unix socket are written at once. Events that cannot happen in
    a state leave it as it is. *)
Definition pstep (secret : Z) (s : pst) (e : pev) : pst :=
  match e with
  | EBegin ln started =>
      match p_ph s with
      | PBegin =>
          (* neco_setcancelstate(NECO_CANCEL_DISABLE), 7785; neco_serve, 7795 *)
          let s0 := {| p_ph := PAccept; p_ch := CNone; p_open := []; p_pend := []; p_acc := None; p_sent := false;
                       p_fd0 := -2; p_fd1 := -2; p_ln := -1; p_user := None; p_old := p_old s; p_cs := true; p_file := false; p_ub := false;
                       p_dialed := None; p_ended := false |} in
          match ln with
          | None => fail s0
          | Some fd =>
              if fresh fd s then
                let s1 := {| p_ph := PAccept; p_ch := if (0 <? fd) && started then CDial else CNone; p_open := [fd]; p_pend := []; p_acc := None; p_sent := false;
                             p_fd0 := -2; p_fd1 := -2; p_ln := fd; p_user := None; p_old := p_old s; p_cs := true; p_file := true; p_ub := false;
                             p_dialed := None; p_ended := false |} in
                if (0 <? fd) && started then s1 else fail s1 (* 7797 [ln > 0], 7801 *)
              else s
          end
      | _ => s
      end
  | EForeign =>
      match p_ph s with
      | PAccept => {| p_ph := p_ph s; p_ch := p_ch s; p_open := p_open s; p_pend := p_pend s ++ [false]; p_acc := p_acc s; p_sent := p_sent s;
                      p_fd0 := p_fd0 s; p_fd1 := p_fd1 s; p_ln := p_ln s; p_user := p_user s; p_old := p_old s; p_cs := p_cs s; p_file := p_file s; p_ub := p_ub s;
                      p_dialed := p_dialed s; p_ended := p_ended s |}
      | _ => s
      end
  | EDial r =>
      match p_ch s with
      | CDial =>
          match r with
          | None => child_out (-1) s (* 7770-7772: the write to a bad descriptor fails *)
          | Some fd =>
              (* a connection can be made while the listener is there *)
              if fresh fd s && match p_ph s with PAccept | PRead => true | _ => false end then
                {| p_ph := p_ph s; p_ch := CWrite fd; p_open := fd :: p_open s; p_pend := p_pend s ++ [true]; p_acc := p_acc s; p_sent := p_sent s;
                   p_fd0 := p_fd0 s; p_fd1 := p_fd1 s; p_ln := p_ln s; p_user := p_user s; p_old := p_old s; p_cs := p_cs s; p_file := p_file s; p_ub := p_ub s;
                   p_dialed := Some fd; p_ended := p_ended s |}
              else s
          end
      | _ => s
      end
  | ESend =>
      match p_ch s with
      | CWrite _ => {| p_ph := p_ph s; p_ch := p_ch s; p_open := p_open s; p_pend := p_pend s; p_acc := p_acc s; p_sent := true;
                       p_fd0 := p_fd0 s; p_fd1 := p_fd1 s; p_ln := p_ln s; p_user := p_user s; p_old := p_old s; p_cs := p_cs s; p_file := p_file s; p_ub := p_ub s;
                       p_dialed := p_dialed s; p_ended := p_ended s |}
      | _ => s
      end
  | EWrite => match p_ch s with CWrite fd => child_out fd s | _ => s end
  | EAccept r =>
      match p_ph s with
      | PAccept =>
          match r with
          | None => fail {| p_ph := p_ph s; p_ch := p_ch s; p_open := p_open s; p_pend := p_pend s; p_acc := p_acc s; p_sent := p_sent s;
                            p_fd0 := p_fd0 s; p_fd1 := -1; p_ln := p_ln s; p_user := p_user s; p_old := p_old s; p_cs := p_cs s; p_file := p_file s; p_ub := p_ub s;
                            p_dialed := p_dialed s; p_ended := p_ended s |}
          | Some fd =>
              match p_pend s with
              | who :: pend =>
                  if fresh fd s then
                    let s1 := {| p_ph := PRead; p_ch := p_ch s; p_open := fd :: p_open s; p_pend := pend; p_acc := Some who; p_sent := p_sent s;
                                 p_fd0 := p_fd0 s; p_fd1 := fd; p_ln := p_ln s; p_user := p_user s; p_old := p_old s; p_cs := p_cs s; p_file := p_file s; p_ub := p_ub s;
                                 p_dialed := p_dialed s; p_ended := p_ended s |} in
                    if 0 <? fd then s1 else fail s1 (* 7806 [fd1 > 0] *)
                  else s
              | [] => s
              end
          end
      | _ => s
      end
  | ERead d =>
      match p_ph s with
      | PRead =>
          match d with
          | None => fail s
          | Some x =>
              (* the helper's connection carries its secret, once written; another
                 process may send anything *)
              if match p_acc s with Some true => p_sent s && (x =? secret) | _ => true end
              then if x =? secret then setph PJoin (close_ln s) else fail s (* 7811-7815 *)
              else s
          end
      | _ => s
      end
  | EJoin =>
      match p_ph s, p_ch s with
      | PJoin, CEnd =>
          (* 7822-7833 *)
          {| p_ph := PRet 0; p_ch := p_ch s; p_open := p_open s; p_pend := p_pend s; p_acc := p_acc s; p_sent := p_sent s;
             p_fd0 := -1; p_fd1 := -1; p_ln := p_ln s; p_user := Some (p_fd0 s, p_fd1 s); p_old := p_old s; p_cs := p_old s; p_file := p_file s; p_ub := p_ub s;
             p_dialed := p_dialed s; p_ended := true |}
      | _, _ => s
      end
  end.
Definition prun (secret : Z) (s : pst) (es : list pev) : pst := fold_left (pstep secret) es s.
