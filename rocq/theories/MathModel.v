(* Model of the number theory part of /repo/src/validate.h:994-1158. *)
From Verif Require Import Base.

(* validate.h:1005-1008  details::mulMod, branch with __uint128_t.
   The product is taken modulo 2^128, the result is cast to uint64_t. *)
Definition umulMod (lhs rhs m : Z) : outcome Z :=
  if m =? 0 then UB else Ok (u64 (((lhs * rhs) mod two128) mod m)).

(* validate.h:1010-1016  details::mulMod, portable branch; state (res, lhs, rhs).
   Every addition wraps modulo 2^64. The loop halves a 64-bit number, so 64 rounds
   always suffice (proved). *)
Definition umulModPortable (lhs rhs m : Z) : outcome Z :=
  let body (st : Z * Z * Z) :=
    let '(res, l, r) := st in
    if m =? 0 then UB else
    let res := if Z.odd r then u64 (l + res) mod m else res in
    let l := u64 (l + l) mod m in
    Ok (res, l, r / 2) in
  let! st := while 64 (fun st : Z * Z * Z => let '(_, _, r) := st in 0 <? r) body
                   (0, lhs, rhs) in
  let '(res, _, _) := st in Ok res.

(* validate.h:1020-1036  details::powMod.  mul is the mulMod of the platform. The
   direct path (mod <= 2^32) multiplies modulo 2^64. State (res, base, exp). *)
Definition upowMod (mul : Z -> Z -> Z -> outcome Z) (base exp m : Z) : outcome Z :=
  let direct (st : Z * Z * Z) :=
    let '(res, b, e) := st in
    if m =? 0 then UB else
    let res := if Z.odd e then u64 (b * res) mod m else res in
    Ok (res, u64 (b * b) mod m, e / 2) in
  let wide (st : Z * Z * Z) :=
    let '(res, b, e) := st in
    let! res := if Z.odd e then mul b res m else Ok res in
    let! b := mul b b m in
    Ok (res, b, e / 2) in
  let! st := while 64 (fun st : Z * Z * Z => let '(_, _, e) := st in 0 <? e)
                   (if m <=? two32 then direct else wide) (1, base, exp) in
  let '(res, _, _) := st in Ok res.

(* validate.h:1038-1051  details::extendedEuclid(a, b, x, y); returns (d, x, y).
   All signed operations are checked. The recursion is bounded by fuel. *)
Fixpoint extendedEuclid (fuel : nat) (a b : Z) : outcome (Z * Z * Z) :=
  match fuel with
  | O => Fuel
  | S f =>
    if a =? 0 then Ok (b, 0, 1)
    else
      let! r := crem b a in
      let! (d, x1, y1) := extendedEuclid f r a in
      let! q := cdiv b a in
      let! t := chk (q * x1) in
      let! x := chk (y1 - t) in
      Ok (d, x, x1)
  end.

(* validate.h:1054-1058 *)
Definition applyMod (x m : Z) : outcome Z :=
  let! x := crem x m in
  if x <? 0 then chk (x + m) else Ok x.

(* validate.h:1060-1066; mul selects the platform branch of details::mulMod *)
Definition mulModWith (mul : Z -> Z -> Z -> outcome Z) (lhs rhs m : Z) : outcome Z :=
  let! _ := judgeAssert (0 <? m) in
  let! l := applyMod lhs m in
  let! r := applyMod rhs m in
  let! p := mul (u64 l) (u64 r) (u64 m) in
  Ok (to_i64 p).
Definition mulMod := mulModWith umulMod.
Definition mulModPortable := mulModWith umulModPortable.

(* validate.h:1068-1075 *)
Definition powModWith (mul : Z -> Z -> Z -> outcome Z) (base exp m : Z) : outcome Z :=
  let! _ := judgeAssert (0 <? m) in
  let! _ := judgeAssert (0 <=? exp) in
  let! b := applyMod base m in
  let! p := upowMod mul (u64 b) (u64 exp) (u64 m) in
  Ok (to_i64 p).
Definition powMod := powModWith umulMod.
Definition powModPortable := powModWith umulModPortable.

(* validate.h:1077-1084. The fuel 2*log2|n|+3 bounds the recursion depth (proved for
   n >= 0). *)
Definition multInv (n m : Z) : outcome Z :=
  let! _ := judgeAssert (0 <? m) in
  let! (g, x, _) := extendedEuclid (Z.to_nat (2 * Z.log2 (Z.abs n) + 4)) n m in
  if negb (g =? 1) then Ok (-1) else applyMod x m.

(* validate.h:998-1002 *)
Definition TRIAL_PRIMES : list Z :=
  [2; 3; 5; 7; 11; 13; 17; 19; 23; 29; 31; 37; 41; 43; 47; 53;
   59; 61; 67; 71; 73; 79; 83; 89; 97; 101; 103; 107; 109; 113; 127; 131].
Definition MILLER_RABIN_WITNESS : list Z :=
  [2; 325; 9375; 28178; 450775; 9780504; 1795265022].

(* validate.h:1087-1091  trial division; Some answer = the function returns there.
   The primes are positive constants, so n % p has no undefined case. *)
Fixpoint trialDivision (ps : list Z) (n : Z) : option bool :=
  match ps with
  | [] => None
  | p :: ps' =>
    if (n <=? p) || (Z.rem n p =? 0) then Some (n =? p) else trialDivision ps' n
  end.

(* validate.h:1097-1102  split n-1 = d * 2^j; state (d, j) *)
Definition splitTwos (un : Z) : outcome (Z * Z) :=
  while 64 (fun st : Z * Z => fst st mod 2 =? 0)
        (fun st => Ok (fst st / 2, snd st + 1)) (un - 1, 0).

(* validate.h:1107-1110  inner loop, k = remaining iterations (j-1 at the start) *)
Fixpoint squareLoop (mul : Z -> Z -> Z -> outcome Z) (k : nat) (v un : Z) : outcome Z :=
  match k with
  | O => Ok v
  | S k' =>
    let! v := mul v v un in
    if (v =? un - 1) || (v <=? 1) then Ok v else squareLoop mul k' v un
  end.

(* validate.h:1103-1112  loop over the witnesses *)
Fixpoint witnessLoop (mul : Z -> Z -> Z -> outcome Z) (ws : list Z) (d j un : Z)
  : outcome bool :=
  match ws with
  | [] => Ok true
  | a :: ws' =>
    if a mod un =? 0 then witnessLoop mul ws' d j un
    else
      let! v := upowMod mul a d un in
      if (v =? 1) || (v =? un - 1) then witnessLoop mul ws' d j un
      else
        let! v := squareLoop mul (Z.to_nat (j - 1)) v un in
        if negb (v =? un - 1) then Ok false else witnessLoop mul ws' d j un
  end.

(* validate.h:1086-1114 *)
Definition isPrimeWith (mul : Z -> Z -> Z -> outcome Z) (n : Z) : outcome bool :=
  match trialDivision TRIAL_PRIMES n with
  | Some b => Ok b
  | None =>
    let un := u64 n in
    let! f := upowMod mul (last TRIAL_PRIMES 0 + 1) (un - 1) un in
    if negb (f =? 1) then Ok false
    else
      let! (d, j) := splitTwos un in
      witnessLoop mul MILLER_RABIN_WITNESS d j un
  end.
Definition isPrime := isPrimeWith umulMod.
Definition isPrimePortable := isPrimeWith umulModPortable.

(* validate.h:1116-1144  primes(lower, upper).
   notPrime and notPrimeSegment are lists of bools; out of range access is UB; every
   signed operation is checked. Loop counters use fuel derived from the trip count. *)
Definition markFrom (a : list bool) (start stop step : Z) (idx : Z -> Z) : outcome (list bool) :=
  let! (_, a) :=
    while (Z.to_nat (stop - start) + 1)
      (fun st : Z * list bool => fst st <? stop)
      (fun st => let! a := aset (snd st) (idx (fst st)) true in
                 let! j := chk (fst st + step) in
                 Ok (j, a))
      (start, a) in
  Ok a.

Definition sieveBody (lower upper count : Z) (st : Z * list bool * list bool)
  : outcome (Z * list bool * list bool) :=
  let '(i, np, seg) := st in
  let! composite := aget np (i / 2) in
  let! (np, seg) :=
    if negb composite then
      let! ii := chk (i * i) in
      let! np := markFrom np ii count (2 * i) (fun j => j / 2) in
      let! lowest := chk (lower - Z.rem lower (2 * i) + i) in
      let! lowest := if lowest <? lower then chk (lowest + 2 * i) else Ok lowest in
      let! seg := markFrom seg (Z.max ii lowest) upper (2 * i)
                           (fun j => Z.quot (j - lower) 2) in
      Ok (np, seg)
    else Ok (np, seg) in
  Ok (i + 2, np, seg).

Definition primesWith (mul : Z -> Z -> Z -> outcome Z) (lower upper : Z) : outcome (list Z) :=
  let! _ := judgeAssert (lower <? upper) in
  let lower := Z.max 2 lower in
  let upper := Z.max 2 upper in
  let count := Z.min 1073741823 (upper - lower) in
  let cache := (count + 1) / 2 in
  let! (_, _, seg) :=
    while (Z.to_nat count)
      (fun st : Z * list bool * list bool => let '(i, _, _) := st in i <? count)
      (sieveBody lower upper count)
      (3, repeat false (Z.to_nat cache), repeat false (Z.to_nat cache)) in
  let res := if (lower <=? 2) && (2 <? upper) then [2] else [] in
  let! (_, res) :=
    while (Z.to_nat (upper - lower) + 1)
      (fun st : Z * list Z => fst st <? upper)
      (fun st => let '(i, res) := st in
         let! c := aget seg (Z.quot (i - lower) 2) in
         let! add := if negb c then
                       if i <? count * count then Ok true else isPrimeWith mul i
                     else Ok false in
         let! i' := chk (i + 2) in
         Ok (i', if add : bool then res ++ [i] else res))
      (Z.lor lower 1, res) in
  Ok res.
Definition primes := primesWith umulMod.

(* validate.h:1150-1153  sign *)
Definition sign (x : Z) : Z := (if 0 <? x then 1 else 0) - (if x <? 0 then 1 else 0).
(* validate.h:1155-1158  dist *)
Definition dist (a b : Z) : outcome Z := if a >? b then chk (a - b) else chk (b - a).
