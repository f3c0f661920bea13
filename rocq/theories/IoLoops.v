(** The retry loops around the system calls, against an arbitrary kernel and an
    arbitrary scheduler. One element of the script is one turn of the loop: the
    result of checkdl at its start (which says whether the coroutine was canceled
    or timed out while it waited) and the answer of the system call. A script
    that ends before the loop does means "still blocked". *)
From Coq Require Import ZArith List Bool Lia.
From Verif Require Import Runtime Errors.
Import ListNotations.
Local Open Scope Z_scope.

(** errno set for a failed checkdl, e.g. /repo/neco.c:5264-5265 *)
Definition check_errno (c : Z) : Z := if c =? ECANCELED then sysECANCELED else sysETIMEDOUT.
Definition retry (e : Z) : bool := (e =? sysEINTR) || (e =? sysEAGAIN).

(** Result of a call: value returned and errno, or still blocked. *)
Inductive outcome := Ret (r errno : Z) | Blocked.

(** ** write *)
(** Answer of write(2): it took at most [k] of the bytes offered, or failed. *)
Inductive wans := WN (k : nat) | WErr (e : Z).

(** write_dl, /repo/neco.c:5254-5300: outcome and the bytes the kernel took.
    The broken-pipe exit for stdout/stderr (5172-5179) and the optional write
    workers (5189-5250) are not modelled here; IoBg.v models the workers. *)
Fixpoint write_loop (data : list Z) (written : Z) (script : list (Z * wans)) : outcome * list Z :=
  match script with
  | [] => (Blocked, [])
  | (c, a) :: script =>
      if negb (c =? OK) then (Ret (-1) (check_errno c), [])
      else match a with
           | WErr e =>
               if retry e then
                 (* cowait; then "if (nbytes == 0) break" *)
                 match data with
                 | [] => (Ret written e, [])
                 | _ => write_loop data written script
                 end
               else if written =? 0 then (Ret (-1) e, []) else (Ret written e, [])
           | WN k =>
               let n := Nat.min k (length data) in
               let out := firstn n data in
               let data := skipn n data in
               let written := written + Z.of_nat n in
               match data with
               | [] => (Ret written 0, out)
               | _ => let '(o, out2) := write_loop data written script in (o, out ++ out2)
               end
           end
  end.
Definition write_dl (data : list Z) (script : list (Z * wans)) : outcome * list Z := write_loop data 0 script.

(** ** read *)
(** Answer of read(2): the bytes read (at most as many as asked for), or failure. *)
Inductive rans := RN (bytes : list Z) | RErr (e : Z).

(** read_dl, /repo/neco.c:5092-5126: outcome, bytes put into the caller's buffer,
    bytes taken from the descriptor. Whether a retry waits for the descriptor or
    just yields (the burst counter) does not matter here. *)
Fixpoint read_loop (count : nat) (script : list (Z * rans)) : outcome * list Z * list Z :=
  match script with
  | [] => (Blocked, [], [])
  | (c, a) :: script =>
      if negb (c =? OK) then (Ret (-1) (check_errno c), [], [])
      else match a with
           | RErr e => if retry e then read_loop count script else (Ret (-1) e, [], [])
           | RN l => let l := firstn count l in (Ret (Z.of_nat (length l)) 0, l, l)
           end
  end.

(** ** accept *)
(** Answer of accept(2), and whether making the new descriptor non-blocking works. *)
Inductive aans := AFd (fd : Z) (nb : bool) (e : Z) | AErr (e : Z).
(** accept_dl, /repo/neco.c:5391-5419: outcome, descriptors opened, descriptors
    closed again *)
Fixpoint accept_loop (script : list (Z * aans)) : outcome * list Z * list Z :=
  match script with
  | [] => (Blocked, [], [])
  | (c, a) :: script =>
      if negb (c =? OK) then (Ret (-1) (check_errno c), [], [])
      else match a with
           | AErr e => if retry e then accept_loop script else (Ret (-1) e, [], [])
           | AFd fd true _ => (Ret fd 0, [fd], [])
           | AFd fd false e => (Ret (-1) e, [fd], [fd])
           end
  end.

(** ** connect *)
Definition sysEISCONN := 106.
Definition sysECONNREFUSED := 111.
Definition sysEALREADY := 114.
(** Answer of connect(2): success or errno. *)
Inductive cans := COk | CErr (e : Z).
(** connect_dl, /repo/neco.c:5449-5501 *)
Fixpoint connect_loop (inprog : bool) (script : list (Z * cans)) : outcome :=
  match script with
  | [] => Blocked
  | (c, a) :: script =>
      if negb (c =? OK) then Ret (-1) (check_errno c)
      else match a with
           | COk => Ret 0 0
           | CErr e =>
               if e =? sysEISCONN then Ret (if inprog then 0 else -1) e
               else if e =? sysEAGAIN then Ret (-1) sysECONNREFUSED
               else if e =? sysEINPROGRESS then connect_loop true script
               else if (e =? sysEINTR) || (e =? sysENOMEM) then connect_loop inprog script
               else Ret (-1) e
           end
  end.
Definition connect_dl (script : list (Z * cans)) : outcome := connect_loop false script.

(** ** dial *)
(** One address: result of socket(2), of making it non-blocking, and of
    neco_connect_dl. dial_connect_dl, /repo/neco.c:6855-6876: value, descriptors
    opened, descriptors closed. A connect that is still blocked blocks all. *)
Inductive dans := DSockErr (e : Z) | DNb (fd e : Z) | DConn (fd : Z) (o : outcome).
Definition dial_connect (a : dans) : outcome * list Z * list Z :=
  match a with
  | DSockErr e => (Ret (-1) e, [], [])
  | DNb fd e => (Ret (-1) e, [fd], [fd])
  | DConn fd (Ret r e) => if r =? 0 then (Ret fd e, [fd], []) else (Ret r e, [fd], [fd])
  | DConn fd Blocked => (Blocked, [fd], [])
  end.
(** the loop of dial_tcp_dl over the addresses, /repo/neco.c:6893-6905 *)
Fixpoint dial_loop (addrs : list dans) : outcome * list Z * list Z :=
  match addrs with
  | [] => (Blocked, [], []) (* not reached: getaddrinfo returned at least one *)
  | a :: rest =>
      let '(o, op, cl) := dial_connect a in
      match o with
      | Ret r e =>
          if r =? -1 then
            match rest with
            | [] => (Ret (errconv_from_sys e) e, op, cl)
            | _ => let '(o2, op2, cl2) := dial_loop rest in (o2, op ++ op2, cl ++ cl2)
            end
          else (Ret r e, op, cl)
      | Blocked => (Blocked, op, cl)
      end
  end.

(** ** non-blocking mode *)
(** O_NONBLOCK (Linux) *)
Definition O_NONBLOCK : Z := 2048.
(** setnonblock, /repo/neco.c:6822-6841, with fcntl succeeding: new flag word and
    the previous mode *)
Definition setnonblock (flags : Z) (nonblock : bool) : Z * bool :=
  let old := Z.land flags O_NONBLOCK =? O_NONBLOCK in
  let flags := if nonblock then Z.lor flags O_NONBLOCK else Z.land flags (Z.lnot O_NONBLOCK) in
  (flags, old).
