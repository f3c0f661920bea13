(** parse_tcp_addr on a C string in memory. *)
From Coq Require Import ZArith List Bool Lia.
Import ListNotations.

(** A C string is its list of bytes (none of which is 0); the readable memory is
    exactly these bytes and the terminating 0. A read outside is [None]. *)
Definition rd (a : list nat) (i : Z) : option nat :=
  if (i <? 0)%Z then None
  else if (i =? Z.of_nat (length a))%Z then Some 0 else nth_error a (Z.to_nat i).
Definition colon := 58.
Definition lbr := 91.
Definition rbr := 93.

Inductive pres := PInval | POk (host port : list nat) | PUB.

(** The search loop, /repo/neco.c:6727-6736, from index [i] downwards. *)
Fixpoint find_colon (a : list nat) (i : nat) : option (option nat) :=
  match rd a (Z.of_nat i) with
  | None => None
  | Some b => if Nat.eqb b colon then Some (Some i)
              else match i with O => Some None | S j => find_colon a j end
  end.
(** memcpy of [n] bytes from offset [o] *)
Fixpoint copy (a : list nat) (o : Z) (n : nat) : option (list nat) :=
  match n with
  | O => Some []
  | S n => match rd a o, copy a (o + 1) n with
           | Some b, Some l => Some (b :: l)
           | _, _ => None
           end
  end.
(** the port is the C string that starts at offset [o] *)
Definition tail_at (a : list nat) (o : nat) : list nat := skipn o a.

(** parse_tcp_addr, /repo/neco.c:6722-6753. Simplified: the allocation of the host
    copy succeeds (NECO_NOMEM is not modelled). *)
Definition parse_tcp_addr (a : list nat) : pres :=
  let naddr := length a in
  if Nat.eqb naddr 0 then PInval
  else match find_colon a (naddr - 1) with
       | None => PUB
       | Some None => PInval
       | Some (Some i) =>
           let port := tail_at a (i + 1) in
           match rd a 0 with
           | None => PUB
           | Some b0 =>
               let brackets :=
                 if Nat.eqb b0 lbr
                 then match rd a (Z.of_nat i - 1) with
                      | None => None
                      | Some b1 => Some (Nat.eqb b1 rbr)
                      end
                 else Some false in
               match brackets with
               | None => PUB
               | Some br =>
                   let '(o, n) := if br then (1%Z, (Z.of_nat i - 2)%Z) else (0%Z, Z.of_nat i) in
                   if (n <? 0)%Z then PUB (* size_t would wrap *)
                   else match copy a o (Z.to_nat n) with
                        | None => PUB
                        | Some host => POk host port
                        end
               end
           end
       end.

(** getaddrinfo_from_tcp_addr_dl, /repo/neco.c:6776-6784: the host that is looked
    up; an empty host means any address. *)
Definition any4 : list nat := [48; 46; 48; 46; 48; 46; 48]. (* 0.0.0.0 *)
Definition any6 : list nat := [58; 58].                     (* :: *)
Definition lookup_host (v6 : bool) (host : list nat) : list nat :=
  match host with [] => if v6 then any6 else any4 | _ => host end.
