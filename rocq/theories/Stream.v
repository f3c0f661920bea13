(** Buffered streams, /repo/neco.c:7911-8309. The stream is used by one
    coroutine at a time; the descriptor operations are the loops of IoLoops.v
    run against an arbitrary kernel script. The two buffers are memory areas
    reached through the rd.data and wr.data pointers, because the code lets the
    first user of a buffer take the area inside the stream object. *)
From Coq Require Import ZArith List Bool Lia.
From Verif Require Import Runtime Errors IoLoops.
Import ListNotations.
Local Open Scope Z_scope.

Inductive area := AInline | ARd | AWr.
Definition area_eqb (a b : area) : bool :=
  match a, b with AInline, AInline | ARd, ARd | AWr, AWr => true | _, _ => false end.

(** struct neco_stream, /repo/neco.c:7922-7931; [None] is a NULL data pointer *)
Record stream := mkst {
  buffered : bool; cap : nat;
  rd_data : option area; rd_len : nat; rd_pos : nat;
  wr_data : option area; wr_len : nat;
  mem : area -> list Z
}.
(** stream_make_buffered_size, /repo/neco.c:7935-7961; the bytes of fresh memory
    are arbitrary, here [junk]. *)
Definition DEFAULT_BUFFER_SIZE : nat := Pos.to_nat 4096.
Definition make (buffered : bool) (size : nat) (junk : area -> list Z) : stream :=
  let size := if (size =? 0)%nat then DEFAULT_BUFFER_SIZE else size in
  let fit l := firstn size (l ++ repeat 0 size) in
  mkst buffered (if buffered then size else 0%nat) None 0 0 None 0 (fun a => fit (junk a)).

Definition setmem (m : area -> list Z) (a : area) (l : list Z) : area -> list Z := fun b => if area_eqb b a then l else m b.
(** memcpy of [l] to offset [off] of [buf] *)
Definition blit (buf : list Z) (off : nat) (l : list Z) : list Z := firstn off buf ++ l ++ skipn (off + length l) buf.

(** ensure_rd_data, /repo/neco.c:8008-8020; [ok] says whether malloc succeeds *)
Definition ensure_rd (s : stream) (ok : bool) : option (stream * area) :=
  match rd_data s with
  | Some a => Some (s, a)
  | None =>
      match wr_data s with
      | None => Some (mkst (buffered s) (cap s) (Some AInline) (rd_len s) (rd_pos s) (wr_data s) (wr_len s) (mem s), AInline)
      | Some _ => if ok then Some (mkst (buffered s) (cap s) (Some ARd) (rd_len s) (rd_pos s) (wr_data s) (wr_len s) (mem s), ARd) else None
      end
  end.
(** ensure_wr_data, /repo/neco.c:8022-8034 *)
Definition ensure_wr (s : stream) (ok : bool) : option (stream * area) :=
  match wr_data s with
  | Some a => Some (s, a)
  | None =>
      match rd_data s with
      | None => Some (mkst (buffered s) (cap s) (rd_data s) (rd_len s) (rd_pos s) (Some AInline) (wr_len s) (mem s), AInline)
      | Some _ => if ok then Some (mkst (buffered s) (cap s) (rd_data s) (rd_len s) (rd_pos s) (Some AWr) (wr_len s) (mem s), AWr) else None
      end
  end.

(** Result of a reading call: return value, bytes put into the caller's memory,
    bytes taken from the descriptor. [None] = the call is still blocked. *)
Definition rscript := list (Z * rans).
(** stream_read_dl and neco_stream_read_dl, /repo/neco.c:8036-8076 *)
Definition stream_read (s : stream) (n : nat) (ok : bool) (script : rscript) : option (stream * Z * list Z * list Z) :=
  let eof r := if (r =? 0) && negb (n =? 0)%nat then EEOF else r in
  if negb (buffered s) then
    match read_loop n script with
    | (Ret r e, got, taken) => Some (s, eof r, got, taken)
    | (Blocked, _, _) => None
    end
  else
    match ensure_rd s ok with
    | None => Some (s, ENOMEM, [], [])
    | Some (s, a) =>
        let serve s taken :=
          let k := Nat.min (rd_len s) n in
          Some (mkst (buffered s) (cap s) (rd_data s) (rd_len s - k) (rd_pos s + k) (wr_data s) (wr_len s) (mem s),
                eof (Z.of_nat k), firstn k (skipn (rd_pos s) (mem s a)), taken) in
        if (rd_len s =? 0)%nat then
          match read_loop (cap s) script with
          | (Blocked, _, _) => None
          | (Ret r e, got, taken) =>
              if r =? -1 then Some (s, errconv_from_sys e, [], taken)
              else serve (mkst (buffered s) (cap s) (rd_data s) (Z.to_nat r) 0 (wr_data s) (wr_len s)
                               (setmem (mem s) a (blit (mem s a) 0 got))) taken
          end
        else serve s []
    end.
(** stream_readfull_dl, /repo/neco.c:8081-8100; one kernel script per inner read *)
Fixpoint stream_readfull (s : stream) (n : nat) (nread : Z) (ok : bool) (scripts : list rscript) : option (stream * Z * list Z * list Z) :=
  match scripts with
  | [] => None
  | sc :: scripts =>
      match stream_read s n ok sc with
      | None => None
      | Some (s, r, got, taken) =>
          if r <=? 0 then Some (s, if nread =? 0 then r else nread, got, taken)
          else
            let n := (n - Z.to_nat r)%nat in
            let nread := nread + r in
            if (n =? 0)%nat then Some (s, nread, got, taken)
            else match stream_readfull s n nread ok scripts with
                 | None => None
                 | Some (s, r, got2, taken2) => Some (s, r, got ++ got2, taken ++ taken2)
                 end
      end
  end.
(** neco_stream_read_byte_dl, /repo/neco.c:8131-8149; [c] is the result of checkdl
    in the fast path *)
Definition read_byte (s : stream) (c : Z) (ok : bool) (script : rscript) : option (stream * Z * list Z * list Z) :=
  match rd_data s with
  | Some a =>
      if buffered s && (0 <? rd_len s)%nat && (c =? OK) then
        let b := nth (rd_pos s) (mem s a) 0 in
        Some (mkst (buffered s) (cap s) (rd_data s) (rd_len s - 1) (rd_pos s + 1) (wr_data s) (wr_len s) (mem s), b, [b], [])
      else match stream_read s 1 ok script with
           | Some (s, r, got, taken) => if r =? 1 then Some (s, nth 0 got 0, got, taken) else Some (s, r, got, taken)
           | None => None
           end
  | None =>
      match stream_read s 1 ok script with
      | Some (s, r, got, taken) => if r =? 1 then Some (s, nth 0 got 0, got, taken) else Some (s, r, got, taken)
      | None => None
      end
  end.
(** stream_unread_byte, /repo/neco.c:8154-8165 *)
Definition unread_byte (s : stream) : stream * Z :=
  if negb (buffered s) || (rd_pos s =? 0)%nat then (s, EUNREADFAIL)
  else (mkst (buffered s) (cap s) (rd_data s) (rd_len s + 1) (rd_pos s - 1) (wr_data s) (wr_len s) (mem s), OK).

(** Writing: return value and the bytes handed to the kernel. *)
Definition wscript := list (Z * wans).
Definition wbuf (s : stream) : list Z := match wr_data s with Some a => mem s a | None => [] end.
(** stream_flush_dl, /repo/neco.c:8174-8205; [c] is the result of checkdl for an
    unbuffered stream *)
Definition flush (s : stream) (c : Z) (script : wscript) : option (stream * Z * list Z) :=
  if negb (buffered s) then Some (s, c, [])
  else
    match write_dl (firstn (wr_len s) (wbuf s)) script with
    | (Blocked, _) => None
    | (Ret n e, out) =>
        if n <=? 0 then
          if (n =? 0) && (wr_len s =? 0)%nat then Some (s, OK, out) else Some (s, errconv_from_sys e, out)
        else if n <? Z.of_nat (wr_len s) then
          let k := Z.to_nat n in
          match wr_data s with
          | Some a =>
              let b := mem s a in
              let b := firstn (wr_len s - k) (skipn k b) ++ skipn (wr_len s - k) b in
              Some (mkst (buffered s) (cap s) (rd_data s) (rd_len s) (rd_pos s) (wr_data s) (wr_len s - k) (setmem (mem s) a b), EPARTIALWRITE, out)
          | None => None (* not reached: wr_len > 0 needs a buffer *)
          end
        else Some (mkst (buffered s) (cap s) (rd_data s) (rd_len s) (rd_pos s) (wr_data s) 0 (mem s), OK, out)
    end.
(** stream_write_dl, /repo/neco.c:8215-8251, buffered part; one script per flush;
    [fuel] bounds the loop (each turn but the last copies at least one byte) *)
Fixpoint write_buf (fuel : nat) (s : stream) (a : area) (data : list Z) (nwritten : Z) (scripts : list wscript) : option (stream * Z * list Z) :=
  match data with
  | [] => Some (s, nwritten, [])
  | _ =>
      match fuel with
      | O => None
      | S fuel =>
          let copy s scripts out :=
            let n := Nat.min (cap s - wr_len s) (length data) in
            let s := mkst (buffered s) (cap s) (rd_data s) (rd_len s) (rd_pos s) (wr_data s) (wr_len s + n)
                          (setmem (mem s) a (blit (mem s a) (wr_len s) (firstn n data))) in
            match write_buf fuel s a (skipn n data) (nwritten + Z.of_nat n) scripts with
            | Some (s, r, out2) => Some (s, r, out ++ out2)
            | None => None
            end in
          if (wr_len s =? cap s)%nat then
            match scripts with
            | [] => None
            | sc :: scripts =>
                match flush s OK sc with
                | None => None
                | Some (s, r, out) => if negb (r =? OK) then Some (s, if nwritten =? 0 then r else nwritten, out) else copy s scripts out
                end
            end
          else copy s scripts []
      end
  end.
Definition stream_write (s : stream) (data : list Z) (ok : bool) (scripts : list wscript) : option (stream * Z * list Z) :=
  if negb (buffered s) then
    match scripts with
    | [] => None
    | sc :: _ => match write_dl data sc with (Ret n e, out) => Some (s, n, out) | (Blocked, _) => None end
    end
  else match ensure_wr s ok with
       | None => Some (s, ENOMEM, [])
       | Some (s, a) => write_buf (S (length data)) s a data 0 scripts
       end.

(** A history of calls on one stream. The log collects what the client has read
    (minus unread bytes), what was taken from the descriptor, what the client
    was told has been written, and what was handed to the kernel. *)
Inductive sop :=
| SRead (n : nat) (ok : bool) (sc : rscript)
| SReadFull (n : nat) (ok : bool) (scs : list rscript)
| SReadByte (c : Z) (ok : bool) (sc : rscript)
| SUnread
| SWrite (data : list Z) (ok : bool) (scs : list wscript)
| SFlush (c : Z) (sc : wscript).
Record slog := mklog { got : list Z; taken : list Z; put : list Z; sent : list Z }.
Definition sstep (s : stream) (l : slog) (o : sop) : option (stream * slog * Z) :=
  match o with
  | SRead n ok sc => match stream_read s n ok sc with Some (s, r, g, t) => Some (s, mklog (got l ++ g) (taken l ++ t) (put l) (sent l), r) | None => None end
  | SReadFull n ok scs => match stream_readfull s n 0 ok scs with Some (s, r, g, t) => Some (s, mklog (got l ++ g) (taken l ++ t) (put l) (sent l), r) | None => None end
  | SReadByte c ok sc => match read_byte s c ok sc with Some (s, r, g, t) => Some (s, mklog (got l ++ g) (taken l ++ t) (put l) (sent l), r) | None => None end
  | SUnread => let '(s, r) := unread_byte s in Some (s, mklog (if r =? OK then removelast (got l) else got l) (taken l) (put l) (sent l), r)
  | SWrite data ok scs =>
      match stream_write s data ok scs with
      | Some (s, r, out) => Some (s, mklog (got l) (taken l) (put l ++ firstn (Z.to_nat r) data) (sent l ++ out), r)
      | None => None
      end
  | SFlush c sc => match flush s c sc with Some (s, r, out) => Some (s, mklog (got l) (taken l) (put l) (sent l ++ out), r) | None => None end
  end.
Fixpoint srun (s : stream) (l : slog) (os : list sop) : option (stream * slog * list Z) :=
  match os with
  | [] => Some (s, l, [])
  | o :: os => match sstep s l o with
               | Some (s, l, r) => match srun s l os with Some (s, l, rs) => Some (s, l, r :: rs) | None => None end
               | None => None
               end
  end.
Definition log0 := mklog [] [] [] [].
