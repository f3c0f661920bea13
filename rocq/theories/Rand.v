(** The pseudorandom generator of neco, on machine integers. *)
From Coq Require Import ZArith List Bool Lia.
From Verif Require Import Runtime.
Import ListNotations.
Local Open Scope Z_scope.

Definition P32 : Z := 4294967296.
Definition P64 : Z := 18446744073709551616.
(** conversions int64_t -> uint64_t and back (two's complement) *)
Definition u64 (x : Z) : Z := x mod P64.
Definition i64 (u : Z) : Z := if u <? 9223372036854775808 then u else u - P64.

(** rincr, /repo/neco.c:8312-8314; unsigned arithmetic wraps *)
Definition rincr (seed : Z) : Z := i64 ((u64 seed * 6364136223846793005 + 1) mod P64).
(** rgen, /repo/neco.c:8316-8321 *)
Definition rgen (seed : Z) : Z :=
  let state := u64 seed in
  let xorshifted := Z.shiftr (Z.lxor (Z.shiftr state 18) state) 27 mod P32 in
  let rot := Z.shiftr state 59 mod P32 in
  Z.lor (Z.shiftr xorshifted rot) (Z.shiftl xorshifted (Z.land (- rot mod P32) 31) mod P32).
(** rnext, /repo/neco.c:8323-8327: value and new seed *)
Definition rnext (seed : Z) : Z * Z := let seed := rincr (rincr seed) in (rgen seed, seed).
(** byte [i] of the memory of a uint32_t. Simplified: little endian. *)
Definition byte_of (v : Z) (i : nat) : Z := Z.shiftr v (8 * Z.of_nat i) mod 256.

(** pcgrandom_buf, /repo/neco.c:8329-8346: the bytes written and the new seed *)
Fixpoint pcgrandom_buf (nbytes : nat) (seed : Z) : list Z * Z :=
  match nbytes with
  | S (S (S (S n))) =>
      let '(v, seed) := rnext seed in
      let '(l, seed) := pcgrandom_buf n seed in
      (byte_of v 0 :: byte_of v 1 :: byte_of v 2 :: byte_of v 3 :: l, seed)
  | O => ([], seed)
  | n => let '(v, seed) := rnext seed in (map (byte_of v) (seq 0 n), seed)
  end.

(** rand_setseed, /repo/neco.c:8348-8357, inside a coroutine: old seed, new seed *)
Definition rand_setseed (seed rt_seed : Z) : Z * Z := (rt_seed, seed).

(** The loop of rand_dl for NECO_PRNG, /repo/neco.c:8401-8423. [check i] is the
    result of checkdl in turn [i]; [others i] what the other coroutines do to
    the runtime's seed during the coyield after turn [i] (identity if they do
    not use the generator). Result: return value, bytes written, new seed. *)
Fixpoint rand_loop (check : nat -> Z) (others : nat -> Z -> Z) (fuel i nbytes : nat) (seed : Z)
  : Z * list Z * Z :=
  match fuel with
  | O => (0, [], seed)
  | S fuel =>
      if negb (check i =? 0) then (check i, [], seed)
      else if Nat.eqb nbytes 0 then (0, [], seed)
      else
        let partsz := if Nat.ltb nbytes 256 then nbytes else 256%nat in
        let '(l, seed) := pcgrandom_buf partsz seed in
        let nbytes := (nbytes - partsz)%nat in
        if Nat.eqb nbytes 0 then (0, l, seed)
        else
          let '(r, l2, seed) := rand_loop check others fuel (S i) nbytes (others i seed) in
          (r, l ++ l2, seed)
  end.
(** rand_dl with attr = NECO_PRNG in a coroutine; each turn consumes bytes, so
    [nbytes + 1] turns are enough *)
Definition rand_prng (check : nat -> Z) (others : nat -> Z -> Z) (nbytes : nat) (seed : Z) :=
  rand_loop check others (S nbytes) 0 nbytes seed.
(** the argument check, /repo/neco.c:8376-8381; NECO_CSPRNG = 0, NECO_PRNG = 1 *)
Definition rand_attr_ok (attr : Z) : bool := (attr =? 0) || (attr =? 1).
