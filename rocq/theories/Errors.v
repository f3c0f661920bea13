(** Error codes, their conversion and reporting. *)
From Coq Require Import ZArith List Bool String Lia.
From Verif Require Import Runtime.
Import ListNotations.
Local Open Scope Z_scope.

(** The codes of /repo/neco.h:360-378 that Runtime.v does not name *)
Definition ENOMEM := -4.
Definition EEOF := -5.
Definition EGAI := -14.
Definition EUNREADFAIL := -15.
Definition EPARTIALWRITE := -16.
Definition all_codes : list Z :=
  [0; -1; -2; -3; -4; -5; -6; -7; -8; -9; -10; -11; -12; -13; -14; -15; -16; -17; -18].

(** errno values (Linux) *)
Definition sysEPERM := 1.
Definition sysEINTR := 4.
Definition sysEAGAIN := 11.
Definition sysENOMEM := 12.
Definition sysEBUSY := 16.
Definition sysEINVAL := 22.
Definition sysETIMEDOUT := 110.
Definition sysEINPROGRESS := 115.
Definition sysECANCELED := 125.

(** neco_errconv_to_sys, /repo/neco.c:5528-5549: the new errno *)
Definition errconv_to_sys (err errno : Z) : Z :=
  if err =? OK then 0
  else if err =? EINVAL then sysEINVAL
  else if err =? EPERM then sysEPERM
  else if err =? ENOMEM then sysENOMEM
  else if err =? ECANCELED then sysECANCELED
  else if err =? ETIMEDOUT then sysETIMEDOUT
  else errno.
(** neco_errconv_from_sys, /repo/neco.c:5551-5566 *)
Definition errconv_from_sys (errno : Z) : Z :=
  if errno =? sysEINVAL then EINVAL
  else if errno =? sysEPERM then EPERM
  else if errno =? sysENOMEM then ENOMEM
  else if errno =? sysECANCELED then ECANCELED
  else if errno =? sysETIMEDOUT then ETIMEDOUT
  else EERROR.

(** neco_shortstrerror, /repo/neco.c:5568-5609 *)
Definition shortstrerror (code : Z) : string :=
  if code =? 0 then "NECO_OK" else if code =? -1 then "NECO_ERROR"
  else if code =? -2 then "NECO_INVAL" else if code =? -3 then "NECO_PERM"
  else if code =? -4 then "NECO_NOMEM" else if code =? -6 then "NECO_NOTFOUND"
  else if code =? -7 then "NECO_NOSIGWATCH" else if code =? -8 then "NECO_CLOSED"
  else if code =? -9 then "NECO_EMPTY" else if code =? -10 then "NECO_TIMEDOUT"
  else if code =? -11 then "NECO_CANCELED" else if code =? -12 then "NECO_BUSY"
  else if code =? -13 then "NECO_NEGWAITGRP" else if code =? -14 then "NECO_GAIERROR"
  else if code =? -15 then "NECO_UNREADFAIL" else if code =? -16 then "NECO_PARTIALWRITE"
  else if code =? -17 then "NECO_NOTGENERATOR" else if code =? -18 then "NECO_NOTSUSPENDED"
  else "UNKNOWN".

(** What neco_strerror says: a text of the system for an errno, of getaddrinfo,
    a text of its own, or the fallback "Undefined error: %zd". *)
Inductive descr := DSys (errno : Z) | DGai (e : Z) | DText (s : string) | DUndefined (code : Z).
(** EAI_SYSTEM (Linux) *)
Definition EAI_SYSTEM := -11.
(** neco_strerror, /repo/neco.c:5613-5662 *)
Definition strerror (errno gai code : Z) : descr :=
  if code =? 0 then DText "Success" else if code =? -1 then DSys errno
  else if code =? -2 then DSys sysEINVAL else if code =? -3 then DSys sysEPERM
  else if code =? -4 then DSys sysENOMEM else if code =? -6 then DText "No such coroutine"
  else if code =? -7 then DText "Not watching on a signal" else if code =? -8 then DText "Channel closed"
  else if code =? -9 then DText "Channel empty" else if code =? -10 then DSys sysETIMEDOUT
  else if code =? -11 then DSys sysECANCELED else if code =? -12 then DSys sysEBUSY
  else if code =? -13 then DText "Negative waitgroup counter"
  else if code =? -14 then (if gai =? EAI_SYSTEM then DSys errno else DGai gai)
  else if code =? -15 then DText "Failed to unread byte" else if code =? -16 then DText "Failed to write all bytes"
  else if code =? -17 then DText "Coroutine is not a generator" else if code =? -18 then DText "Coroutine is not suspended"
  else DUndefined code.

(** error_guard and errhpnd, /repo/neco.c:3424-3458: the new lasterr, or a panic
    ([None]) if the process asked for it *)
Definition error_guard (panic : bool) (ret errno : Z) : option Z :=
  if ret <? 0 then
    let l := if ret =? -1 then errconv_from_sys errno else ret in
    if panic && ((l =? EINVAL) || (l =? EPERM) || (l =? ENOMEM)) then None else Some l
  else Some 0.

(** How a public function ends: most apply the guard to every return value
    ([WGuard]); the mutex functions return a failed check_mutex without it
    (7160-7239); neco_gen_yield_dl returns NECO_PERM/NECO_NOTGENERATOR without it
    (8582-8591); neco_write_dl reports a short count through lasterr (5301-5312).
    Result: value returned and lasterr afterwards; [last] is lasterr before. *)
Inductive wrapper := WGuard | WMutex (check : Z) | WGenYield (in_co isgen : bool) | WWrite (count : Z).
Definition finish (panic : bool) (w : wrapper) (ret errno last : Z) : option (Z * Z) :=
  match w with
  | WGuard => match error_guard panic ret errno with Some l => Some (ret, l) | None => None end
  | WMutex check =>
      if negb (check =? OK) then Some (check, last)
      else match error_guard panic ret errno with Some l => Some (ret, l) | None => None end
  | WGenYield in_co isgen =>
      if negb in_co then Some (EPERM, last)
      else if negb isgen then Some (ENOTGENERATOR, last)
      else match error_guard panic ret errno with Some l => Some (ret, l) | None => None end
  | WWrite count =>
      match error_guard panic ret errno with
      | Some l => Some (ret, if (0 <=? ret) && (ret <? count) then EPARTIALWRITE else l)
      | None => None
      end
  end.
