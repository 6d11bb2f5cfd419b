(* Model of the bounded integer sampler of /repo/src/validate.h on the raw 64-bit words
   delivered by the random engine. The engine itself is an arbitrary sequence of words. *)
From Verif Require Import Base.

(* validate.h:1347  std::bitset<64>(x).count(): number of set bits among the lowest k *)
Fixpoint popcount (k : nat) (x : Z) : Z :=
  match k with
  | O => 0
  | S k' => (if Z.odd x then 1 else 0) + popcount k' (x / 2)
  end.

(* validate.h:1346-1348  bit() *)
Definition bitOf (w : Z) : bool := Z.odd (popcount 64 w).

(* validate.h:1350-1352  integer() *)
Definition anyInteger (w : Z) : Z := to_i64 w.

(* validate.h:1356-1359  s = uu - ul, wrapping *)
Definition spanOf (lower upper : Z) : Z := u64 (u64 upper - u64 lower).

(* validate.h:1366-1368  the word is scaled with a 128-bit product; the sum is taken in
   128 bits and cast to Integer *)
Definition scale128 (x s lower : Z) : Z :=
  to_i64 ((Z.shiftr ((x * s) mod two128) 64 + u64 lower) mod two128).

(* validate.h:1369-1382  the same with 32-bit limbs, all operations modulo 2^64 *)
Definition scalePortable (x s lower : Z) : Z :=
  let x0 := u32 x in
  let x1 := Z.shiftr x 32 in
  let y0 := u32 s in
  let y1 := Z.shiftr s 32 in
  let p11 := u64 (x1 * y1) in
  let p01 := u64 (x0 * y1) in
  let p10 := u64 (x1 * y0) in
  let p00 := u64 (x0 * y0) in
  let mid := u64 (u64 (p10 + Z.shiftr p00 32) + u32 p01) in
  let res := u64 (u64 (p11 + Z.shiftr mid 32) + Z.shiftr p01 32) in
  to_i64 (u64 (res + u64 lower)).

(* validate.h:1363  while (x * s < t) x = rng(): skips words; returns the accepted word
   and the remaining words, or Fuel if the finite supply of words is used up *)
Fixpoint skipWords (s t x : Z) (ws : list Z) : outcome (Z * list Z) :=
  if u64 (x * s) <? t then
    match ws with
    | [] => Fuel
    | w :: ws' => skipWords s t w ws'
    end
  else Ok (x, ws).

(* validate.h:1353-1383  integer(lower, upper), consuming words from the engine *)
Definition integerWith (scale : Z -> Z -> Z -> Z) (lower upper : Z) (ws : list Z)
  : outcome (Z * list Z) :=
  let! _ := judgeAssert (lower <? upper) in
  let s := spanOf lower upper in
  match ws with
  | [] => Fuel
  | x :: ws =>
    let! (x, ws) :=
      if u64 (x * s) <? s then
        if s =? 0 then UB
        else skipWords s (u64 (0 - s) mod s) x ws
      else Ok (x, ws) in
    Ok (scale x s lower, ws)
  end.
Definition integer := integerWith scale128.
Definition integerPortable := integerWith scalePortable.
