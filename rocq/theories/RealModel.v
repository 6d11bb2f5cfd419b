(* Model of the floating point random functions, /repo/src/validate.h:1393-1421, 1430-1586, and
   of randomGraph(n, p) and randomGrowingGraph, /repo/src/graph_gen.h:882-899.
   Real is the 80-bit long double of FloatModel.v. A draw from [0, 2^64) is one word of the
   random engine. *)
From Verif Require Import Base RndModel FloatModel RandIntModel RandSeqModel GenModel GenMakeModel.
Open Scope Z_scope.

Definition radd (x y : real) : real := SFadd prec emax x y.
Definition rmul (x y : real) : real := SFmul prec emax x y.
Definition ropp (x : real) : real := SFopp x.
(* conversion of an integer *)
Definition ofZ (z : Z) : real := binary_normalize prec emax z 0 false.
(* a decimal literal a / b: the quotient of two exact numbers, rounded once *)
Definition lit (a b : Z) : real := rdiv (ofZ a) (ofZ b).
Definition rone : real := ofZ 1.

(* 1328  details::PI, the number next to pi *)
Definition pi : real := S754_finite false 0xC90FDAA22168C235 (-62).

(* details::randomNumberGenerator() *)
Definition word : rnd Z := RDraw 0 (2 ^ 64) ret.

(* ---- real() ---- *)
(* 1399  std::bitset<64>(~x & (x-1)).count() *)
Definition zeros (x : Z) : Z := popcount 64 (Z.land (u64 (Z.lnot x)) (u64 (x - 1))).
(* 1396-1400  the loop; fuel bounds its iterations. That the int exponent overflows after 2^25
   words 0 is not modelled *)
Fixpoint exponentLoop (fuel : nat) (exponent : Z) : rnd Z :=
  match fuel with
  | O => RRet Fuel
  | S fuel =>
      let? x := word in
      let exponent := exponent - zeros x in
      if x =? 0 then exponentLoop fuel exponent else ret exponent
  end.
(* 1401  std::ldexp(mantissa, exponent): mantissa is a UInteger, and the overload of std::ldexp
   for integer types converts to double and returns double *)
Definition toDouble (m : Z) : spec_float := binary_normalize 53 1024 m 0 false.
Definition ldexpDouble (x : spec_float) (e : Z) : spec_float := SFldexp 53 1024 x e.
(* conversion of the double to long double *)
Definition widen (x : spec_float) : real :=
  match x with S754_finite s m e => binary_round prec emax s m e | _ => x end.
Definition realFrom (w exponent : Z) : real := widen (ldexpDouble (toDouble (Z.lor w (2 ^ 63))) exponent).
(* 1393-1402 *)
Definition randomReal (fuel : nat) : rnd real :=
  let? w := word in
  let? exponent := exponentLoop fuel (- (64)) in
  ret (realFrom w exponent).

(* 1404-1411  real(upper); the same fuel bounds both loops *)
Fixpoint realBelowLoop (fuel fuel' : nat) (upper : real) : rnd real :=
  match fuel with
  | O => RRet Fuel
  | S fuel =>
      let? x := randomReal fuel' in
      let res := rmul x upper in
      if SFleb rzero res && SFltb res upper then ret res else realBelowLoop fuel fuel' upper
  end.
Definition realBelow (fuel : nat) (upper : real) : rnd real :=
  let? _ := lift (judgeAssert (isfinite upper)) in
  let? _ := lift (judgeAssert (SFltb rzero upper)) in
  realBelowLoop fuel fuel upper.
(* 1412-1421  real(lower, upper) *)
Fixpoint realInLoop (fuel fuel' : nat) (lower upper : real) : rnd real :=
  match fuel with
  | O => RRet Fuel
  | S fuel =>
      let? x := randomReal fuel' in
      let res := radd (rmul lower (rsub rone x)) (rmul upper x) in
      if SFleb lower res && SFltb res upper then ret res else realInLoop fuel fuel' lower upper
  end.
Definition realIn (fuel : nat) (lower upper : real) : rnd real :=
  let? _ := lift (judgeAssert (isfinite lower)) in
  let? _ := lift (judgeAssert (isfinite upper)) in
  let? _ := lift (judgeAssert (SFltb lower upper)) in
  realInLoop fuel fuel lower upper.

(* ---- conversions to integers ---- *)
Definition signed (s : bool) (m : positive) : Z := if s then - Zpos m else Zpos m.
Definition floorZ (x : real) : option Z :=
  match x with
  | S754_zero _ => Some 0
  | S754_finite s m e => Some (if 0 <=? e then signed s m * 2 ^ e else signed s m / 2 ^ (- e))
  | _ => None
  end.
Definition truncZ (x : real) : option Z :=
  match x with
  | S754_zero _ => Some 0
  | S754_finite s m e => Some (if 0 <=? e then signed s m * 2 ^ e else Z.quot (signed s m) (2 ^ (- e)))
  | _ => None
  end.
(* static_cast<UInteger>, and the conversion to Integer: undefined out of range *)
Definition castU (x : real) : outcome Z :=
  match truncZ x with Some z => if (0 <=? z) && (z <? 2 ^ 64) then Ok z else UB | None => UB end.
Definition castI (x : real) : outcome Z :=
  match truncZ x with Some z => if (- 2 ^ 63 <=? z) && (z <? 2 ^ 63) then Ok z else UB | None => UB end.

Section Libm.
  (* functions of the C library: arguments of the model *)
  Variable sqrt sin cos log log1p log2 exp2 lgamma : real -> real.
  Variable lgammaZ : Z -> real.         (* std::lgamma of an Integer (computed in double) *)
  Variable unspecified : real -> Z.     (* std::llround of a number that is no Integer *)

  Definition llroundFloor (x : real) : Z :=
    match floorZ x with
    | Some z => if (- 2 ^ 63 <=? z) && (z <? 2 ^ 63) then z else unspecified x
    | None => unspecified x
    end.

  (* 1430-1436  normal(mean, stddev) *)
  Definition twoPi : real := rmul (ofZ 2) (pi).
  Definition normal (fuel : nat) (mean stddev : real) : rnd real :=
    let? _ := lift (judgeAssert (SFleb rzero stddev)) in
    let? u1 := randomReal fuel in
    let? u2 := randomReal fuel in
    let res := rmul (sqrt (rmul (ropp (ofZ 2)) (log u1))) (cos (rmul twoPi u2)) in
    ret (radd (rmul (sqrt stddev) res) mean).
  (* 1437-1455  normal(lower, upper, mean, stddev) *)
  Fixpoint normalLoop (fuel fuel' : nat) (lower upper mean stddev : real) : rnd real :=
    match fuel with
    | O => RRet Fuel
    | S fuel =>
        let? u1 := randomReal fuel' in
        let? u2 := randomReal fuel' in
        let res := radd (rmul (sqrt stddev) (rmul (sqrt (rmul (ropp (ofZ 2)) (log u1))) (cos (rmul twoPi u2)))) mean in
        if SFleb lower res && SFltb res upper then ret res else
        let res := radd (rmul (sqrt stddev) (rmul (sqrt (rmul (ropp (ofZ 2)) (log u1))) (sin (rmul twoPi u2)))) mean in
        if SFleb lower res && SFltb res upper then ret res else
        normalLoop fuel fuel' lower upper mean stddev
    end.
  Definition normalIn (fuel fuel' : nat) (lower upper mean stddev : real) : rnd real :=
    let? _ := lift (judgeAssert (negb (isnan lower))) in
    let? _ := lift (judgeAssert (negb (isnan upper))) in
    let? _ := lift (judgeAssert (SFltb lower upper)) in
    let? _ := lift (judgeAssert (SFleb rzero stddev)) in
    normalLoop fuel fuel' lower upper mean stddev.
  (* 1457-1460  exponential(lambda) *)
  Definition exponential (fuel : nat) (lambda : real) : rnd real :=
    let? _ := lift (judgeAssert (SFltb rzero lambda)) in
    let? u := randomReal fuel in
    ret (rdiv (ropp (log u)) lambda).
  (* 1461-1470  exponential(lower, upper, lambda) *)
  Fixpoint exponentialLoop (fuel fuel' : nat) (lower upper lambda : real) : rnd real :=
    match fuel with
    | O => RRet Fuel
    | S fuel =>
        let? u := randomReal fuel' in
        let res := rsub lower (rdiv (log u) lambda) in
        if SFltb res upper then ret res else exponentialLoop fuel fuel' lower upper lambda
    end.
  Definition exponentialIn (fuel fuel' : nat) (lower upper lambda : real) : rnd real :=
    let? _ := lift (judgeAssert (isfinite lower)) in
    let? _ := lift (judgeAssert (negb (isnan upper))) in
    let? _ := lift (judgeAssert (SFltb lower upper)) in
    let? _ := lift (judgeAssert (SFltb rzero lambda)) in
    exponentialLoop fuel fuel' lower upper lambda.

  (* 1472-1475  geometric(p) *)
  Definition geometric (fuel : nat) (p : real) : rnd Z :=
    let? _ := lift (judgeAssert (SFleb rzero p && SFltb p rone)) in
    let? u := randomReal fuel in
    ret (llroundFloor (rdiv (log u) (log1p (ropp p)))).
  (* 1476-1485  geometric(lower, upper, p) *)
  Fixpoint geometricLoop (fuel fuel' : nat) (lower upper : Z) (p : real) : rnd Z :=
    match fuel with
    | O => RRet Fuel
    | S fuel =>
        let? u := randomReal fuel' in
        let? res := lift (chk (lower + llroundFloor (rdiv (log u) (log1p (ropp p))))) in
        if res <? upper then ret res else geometricLoop fuel fuel' lower upper p
    end.
  Definition geometricIn (fuel fuel' : nat) (lower upper : Z) (p : real) : rnd Z :=
    let? _ := lift (judgeAssert (lower <? upper)) in
    let? _ := lift (judgeAssert (SFleb rzero p && SFltb p rone)) in
    geometricLoop fuel fuel' lower upper p.

  (* 1499-1503  the loop of the geometric method *)
  Fixpoint bgLoop (fuel fuel' : nat) (n : Z) (swap : bool) (lg : real) (res y : Z) : rnd Z :=
    match fuel with
    | O => RRet Fuel
    | S fuel =>
        let? u := randomReal fuel' in
        let? d := lift (chk (llroundFloor (rdiv (log u) lg) + 1)) in
        let? y := lift (chk (y + d)) in
        if n <? y then ret (if swap then n - res else res)
        else bgLoop fuel fuel' n swap lg (res + 1) y
    end.
  (* 1509-1540  the loop of BTRS; the values of 1530-1536, computed once there, are computed
     where they are used *)
  Fixpoint btrsLoop (fuel fuel' : nat) (n : Z) (swap : bool) (p : real) : rnd Z :=
    let nr := ofZ n in
    let q := rsub rone p in
    let spq := sqrt (rmul (rmul nr p) q) in
    let b := radd (lit 115 100) (rmul (lit 253 100) spq) in
    let a := radd (radd (ropp (lit 873 10000)) (rmul (lit 248 10000) b)) (rmul (lit 1 100) p) in
    let c := radd (rmul nr p) (lit 1 2) in
    let vr := rsub (lit 92 100) (rdiv (lit 42 10) b) in
    match fuel with
    | O => RRet Fuel
    | S fuel =>
        let? x := randomReal fuel' in
        let u := rsub x (lit 1 2) in
        let us := rsub (lit 1 2) (SFabs u) in
        let res := llroundFloor (radd (rmul (radd (rdiv (rmul (ofZ 2) a) us) b) u) c) in
        if (res <? 0) || (n <? res) then btrsLoop fuel fuel' n swap p
        else
          let? v := randomReal fuel' in
          if SFleb (lit 7 100) us && SFleb v vr then ret (if swap then n - res else res)
          else
            let alpha := rmul (radd (lit 283 100) (rdiv (lit 51 10) b)) spq in
            let lpq := log (rdiv p q) in
            let? n1 := lift (chk (n + 1)) in
            let m := match floorZ (rmul (ofZ n1) p) with Some z => ofZ z | None => S754_nan end in
            let h := radd (lgamma (radd m rone)) (lgamma (radd (rsub nr m) rone)) in
            let v := rmul v (rdiv alpha (radd (rdiv a (rmul us us)) b)) in
            let? r1 := lift (chk (res + 1)) in
            let? r2 := lift (chk (n - res + 1)) in
            if SFleb (log v) (radd (rsub (rsub h (lgammaZ r1)) (lgammaZ r2)) (rmul (rsub (ofZ res) m) lpq))
            then ret (if swap then n - res else res)
            else btrsLoop fuel fuel' n swap p
    end.
  (* 1487-1542  binomial(n, p) *)
  Definition binomial (fuel fuel' : nat) (n : Z) (p : real) : rnd Z :=
    let? _ := lift (judgeAssert (0 <=? n)) in
    let? _ := lift (judgeAssert (SFleb rzero p && SFleb p rone)) in
    let swap := SFltb (lit 1 2) p in
    let p := if SFltb (rsub rone p) p then rsub rone p else p in
    if SFltb (rmul p (ofZ n)) (ofZ 10) then
      let lg := log1p (ropp p) in
      if SFleb rzero lg then ret (if swap then n else 0)
      else bgLoop fuel fuel' n swap lg 0 0
    else btrsLoop fuel fuel' n swap p.
  (* 1543-1549  binomial(lower, upper, n, p) *)
  Fixpoint binomialLoop (fuel fuel' : nat) (lower upper n : Z) (p : real) : rnd Z :=
    match fuel with
    | O => RRet Fuel
    | S fuel =>
        let? res := binomial fuel fuel' n p in
        if (lower <=? res) && (res <? upper) then ret res else binomialLoop fuel fuel' lower upper n p
    end.
  Definition binomialIn (fuel fuel' : nat) (lower upper n : Z) (p : real) : rnd Z :=
    let? _ := lift (judgeAssert (lower <? upper)) in
    binomialLoop fuel fuel' lower upper n p.

  (* ---- maximum, minimum, minmax ---- *)
  (* 1555-1556 *)
  Fixpoint maxLoop (k : nat) (lower upper res : Z) : rnd Z :=
    match k with
    | O => ret res
    | S k => let? x := rint lower upper in maxLoop k lower upper (Z.max res x)
    end.
  (* 1551-1564 *)
  Definition maximum (fuel : nat) (lower upper n : Z) : rnd Z :=
    let? _ := lift (judgeAssert (0 <? n)) in
    let? _ := lift (judgeAssert (lower <? upper)) in
    if n <? 5 then maxLoop (Z.to_nat n) lower upper lower
    else
      let? u := randomReal fuel in
      let? res := lift (castU (rmul (ofZ (u64 (u64 upper - u64 lower))) (exp2 (rdiv (log2 u) (ofZ n))))) in
      ret (Z.min (upper - 1) (to_i64 (u64 (res + u64 lower)))).
  (* 1569-1571 *)
  Definition minimum (fuel : nat) (lower upper n : Z) : rnd Z :=
    let? d := lift (chk (upper - lower)) in
    let? u := lift (chk (upper - 1)) in
    let? m := maximum fuel 0 d n in
    lift (chk (u - m)).
  (* 1576-1583 *)
  Definition minmax (fuel : nat) (lower upper n : Z) : rnd Z :=
    let? _ := lift (judgeAssert (negb (n =? 0))) in
    if 0 <? n then maximum fuel lower upper n
    else let? k := lift (chk (- n)) in minimum fuel lower upper k.

  (* ---- graphs ---- *)
  Section Graphs.
    Variable E : Type.
    Variable dflt : E.
    (* graph_gen.h:884-887  randomGraph(n, p) *)
    Definition randomGraphP (dir : bool) (fuel fuel' : nat) (n : Z) (p : real) : rnd (graph E) :=
      let? l := lift (chk (n * (n - 1))) in
      let? m := binomial fuel fuel' (Z.quot l 2) p in
      randomGraph dflt dir n m.
    (* graph_gen.h:891-898  randomGrowingGraph(n, p) *)
    Fixpoint growLoop (fuel : nat) (k : nat) (i : Z) (p : real) (res : graph E) : rnd (graph E) :=
      match k with
      | O => ret res
      | S k =>
          let? r := realIn fuel rzero (ofZ (i + 1)) in
          let? deg := lift (castI (rmul p r)) in
          let? neighbours := distinct deg 0 i in
          let? res := lift (addPairs dflt false res (map (fun j => (i, j)) neighbours)) in
          growLoop fuel k (i + 1) p res
      end.
    Definition randomGrowingGraph (fuel : nat) (n : Z) (p : real) : rnd (graph E) :=
      let? _ := lift (judgeAssert (SFleb rzero p && SFleb p rone)) in
      let? res := lift (newGraph 0 n) in
      growLoop fuel (Z.to_nat n) 0 p res.
  End Graphs.
End Libm.
