(** neco_serve and the unix part of neco_dial: what they ask of the kernel. *)
From Coq Require Import ZArith List Bool.
From Verif Require Import Addr IoLoops.
Import ListNotations.
Open Scope Z_scope.

(** What a socket is bound or connected to: the [i]-th address of a lookup, or the
    path in sun_path (the bytes before the first 0). *)
Inductive saddr := AInet (i : Z) | APath (p : list nat).
(** System and library calls, in order. *)
Inductive sev :=
  | SLookup (fam : Z) (host port : list nat)   (* neco_getaddrinfo_dl *)
  | SFree                                      (* freeaddrinfo *)
  | SOpen (fd : Z) | SReuse (fd : Z) | SBind (fd : Z) (a : saddr)
  | SListen (fd : Z) | SNonblock (fd : Z) | SConnect (fd : Z) (a : saddr)
  | SClose (fd : Z).
(** The answers: neco_getaddrinfo_dl's (an error code as neco_errconv_from_gai maps it,
    or the addresses), socket(2)'s, and whether the other calls work. *)
Record kans := { k_look : Z + list Z; k_sock : option Z;
                 k_reuse : bool; k_bind : bool; k_listen : bool; k_nb : bool; k_conn : bool }.

Definition NECO_OK := 0.
Definition NECO_ERROR := -1.
Definition NECO_INVAL := -2.
Definition NECO_PERM := -3.
Definition NECO_GAIERROR := -14.
Definition AF_INET := 2.
Definition AF_INET6 := 10.

Definition zeros4 : list nat := [48; 46; 48; 46; 48; 46; 48]%nat. (* "0.0.0.0" *)
Definition zeros6 : list nat := [58; 58]%nat.                     (* "::" *)
(** getaddrinfo_from_tcp_addr_dl, /repo/neco.c:6772-6810: error or the addresses. The
    host copy is always freed by the cleanup handler (not shown). *)
Definition resolve (k : kans) (addr : list nat) (fam : Z) : (Z + list Z) * list sev :=
  match parse_tcp_addr addr with
  | POk host port =>
      let vhost := match host with [] => if fam =? AF_INET6 then zeros6 else zeros4 | _ => host end in
      (match k_look k with
       | inl e => inl e
       | inr [] => inl NECO_GAIERROR
       | inr l => inr l
       end,
       SLookup fam vhost port ::
       (* an empty answer has nothing to free *) [])
  | _ => (inl NECO_INVAL, [])
  end.
(** [ok = ok && call]: the call is made only if all went well so far *)
Definition andthen (ok : bool) (e : sev) (ans : bool) (es : list sev) : bool * list sev :=
  if ok then (ans, es ++ [e]) else (false, es).
(** listen_tcp_dl, /repo/neco.c:6974-6995 *)
Definition listen_tcp (k : kans) (addr : list nat) (fam : Z) : Z * list sev :=
  match resolve k addr fam with
  | (inl e, es) => (e, es)
  | (inr l, es) =>
      match k_sock k with
      | None => (-1, es ++ [SFree])
      | Some fd =>
          let '(ok, es) := andthen true (SReuse fd) (k_reuse k) (es ++ [SOpen fd]) in
          let '(ok, es) := andthen ok (SBind fd (AInet (hd 0 l))) (k_bind k) es in
          let es := es ++ [SFree] in
          let '(ok, es) := andthen ok (SListen fd) (k_listen k) es in
          let '(ok, es) := andthen ok (SNonblock fd) (k_nb k) es in
          if ok then (fd, es) else (-1, es ++ [SClose fd])
      end
  end.
(** sizeof(sun_path) on Linux *)
Definition sun_path_size : nat := 108.
(** memset and strncpy(sun_path, addr, sizeof(sun_path) - 1) *)
Definition sun_path (addr : list nat) : list nat := firstn (sun_path_size - 1) addr.
(** listen_unix_dl, /repo/neco.c:6997-7024 *)
Definition listen_unix (k : kans) (addr : list nat) : Z * list sev :=
  match k_sock k with
  | None => (NECO_ERROR, [])
  | Some fd =>
      let es := [SOpen fd; SBind fd (APath (sun_path addr))] in
      if negb (k_bind k) then (NECO_ERROR, es ++ [SClose fd])
      else let es := es ++ [SListen fd] in
      if negb (k_listen k) then (NECO_ERROR, es ++ [SClose fd])
      else let es := es ++ [SNonblock fd] in
      if negb (k_nb k) then (NECO_ERROR, es ++ [SClose fd])
      else (fd, es)
  end.
(** The network names; a string that is none of them is [NOther]. *)
Inductive net := NTcp | NTcp4 | NTcp6 | NUnix | NOther.
(** serve_dl, /repo/neco.c:7026-7044; [None] is a NULL pointer, [id] the caller's
    neco_getid(). *)
Definition serve (k : kans) (id : Z) (n : option net) (a : option (list nat)) : Z * list sev :=
  match n, a with
  | Some n, Some a =>
      if id <=? 0 then (NECO_PERM, [])
      else match n with
           | NTcp => listen_tcp k a 0
           | NTcp4 => listen_tcp k a AF_INET
           | NTcp6 => listen_tcp k a AF_INET6
           | NUnix => listen_unix k a
           | NOther => (NECO_INVAL, [])
           end
  | _, _ => (NECO_INVAL, [])
  end.
(** dial_unix_dl, /repo/neco.c:6909-6927, with dial_connect_dl, 6855-6876. Simplified:
    neco_connect_dl is one answer, and every failure gives NECO_ERROR. *)
Definition dial_unix (k : kans) (addr : list nat) : Z * list sev :=
  if Nat.ltb (sun_path_size - 1) (length addr) then (NECO_INVAL, [])
  else match k_sock k with
       | None => (NECO_ERROR, [])
       | Some fd =>
           if negb (k_nb k) then (NECO_ERROR, [SOpen fd; SNonblock fd; SClose fd])
           else if negb (k_conn k) then (NECO_ERROR, [SOpen fd; SNonblock fd; SConnect fd (APath (sun_path addr)); SClose fd])
           else (fd, [SOpen fd; SNonblock fd; SConnect fd (APath (sun_path addr))])
       end.
