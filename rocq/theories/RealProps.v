(* C76-C79: the floating point random functions. fuel bounds the iterations of the loops; a run
   that needs more ends with Fuel, and orFuel says nothing about it. *)
From Verif Require Import Tac RndModel RndLemmas FloatModel FloatSpec FloatProofs RandIntModel RandIntProofs.
From Verif Require Import GenModel GenSpec GenMakeModel GenMakeSpec GenRandSpec.
From Verif Require Import RealModel RealSpec RealProofs RealProofs2 RealProofs3 RealProofs4 RealProofs5 RealProofs6 RealProofs7 RealProofs8.
From Coq Require Import QArith ZArith SpecFloat.
Open Scope Z_scope.

(* ---- C76 ---- *)
Theorem C76_real : forall fuel, always (randomReal fuel) (orFuel (fun r => number r /\ (0 <= val r <= 1)%Q)).
Proof. exact real_range. Qed.
Print Assumptions C76_real.
Theorem C76_real_positive : forall fuel, (fuel <= 15)%nat ->
  always (randomReal fuel) (orFuel (fun r => (two (-64 * Z.of_nat fuel) <= val r)%Q)).
Proof. exact real_positive. Qed.
Print Assumptions C76_real_positive.
(* the thresholds M / 2^(53 + k) are all the doubles in (0, 1] down to 2^-1022; the terms behind
   1 - threshold are the error of rounding the mantissa to 53 bits *)
Theorem C76_real_distribution : forall fuel k M, 0 <= k <= 1021 -> k < 64 * Z.of_nat fuel -> 2 ^ 52 < M <= 2 ^ 53 ->
  (Pr (randomReal fuel) (atLeast (inject_Z M * two (-53 - k))) ==
   1 - inject_Z M * two (-53 - k) + two (-54 - k) - (if Z.odd M then two (-64 - k) else 0))%Q.
Proof. exact real_distribution. Qed.
Print Assumptions C76_real_distribution.
(* the documentation says [0, 1) *)
Theorem C76_real_below_one_refuted : forall fuel, (1 <= fuel)%nat -> (Pr (randomReal fuel) (atLeast 1) == two (-54))%Q.
Proof. exact real_one. Qed.
Print Assumptions C76_real_below_one_refuted.
Theorem C76_realBelow : forall fuel upper, number upper -> (0 < val upper)%Q ->
  always (realBelow fuel upper) (orFuel (fun r => number r /\ (0 <= val r < val upper)%Q)).
Proof. exact realBelow_range. Qed.
Print Assumptions C76_realBelow.
Theorem C76_realBelow_throws : forall fuel upper, realOk upper -> isfinite upper = false \/ (val upper <= 0)%Q ->
  realBelow fuel upper = RRet Throw.
Proof. exact realBelow_throws. Qed.
Print Assumptions C76_realBelow_throws.
Theorem C76_realIn : forall fuel lower upper, number lower -> number upper -> (val lower < val upper)%Q ->
  always (realIn fuel lower upper) (orFuel (fun r => number r /\ (val lower <= val r < val upper)%Q)).
Proof. exact realIn_range. Qed.
Print Assumptions C76_realIn.
Theorem C76_realIn_throws : forall fuel lower upper, realOk lower -> realOk upper ->
  isfinite lower = false \/ isfinite upper = false \/ (val upper <= val lower)%Q -> realIn fuel lower upper = RRet Throw.
Proof. exact realIn_throws. Qed.
Print Assumptions C76_realIn_throws.
(* words 0, 1 give 1/2; 0, 8 give 1/16; 2^64 - 1, 1 give 1. real(-1, 3) is -1 + 4 * 1/16 then *)
Example C76_ex :
  play (randomReal 2) [0; 1] = Ok (S754_finite false (2 ^ 63) (-64)) /\ play (randomReal 2) [0; 8] = Ok (S754_finite false (2 ^ 63) (-67)) /\
  play (randomReal 2) [2 ^ 64 - 1; 1] = Ok rone /\ play (randomReal 2) [0; 0; 1] = Ok (S754_finite false (2 ^ 63) (-128)) /\
  play (realBelow 3 (ofZ 3)) [2 ^ 64 - 1; 1; 0; 1] = Ok (lit 3 2) /\ play (realIn 3 (ofZ (-1)) (ofZ 3)) [2 ^ 64 - 1; 1; 0; 8] = Ok (lit (-3) 4) /\
  number (ofZ (-1)) /\ number (ofZ 3) /\ (val (ofZ (-1)) == -1)%Q /\ (val (ofZ 3) == 3)%Q.
Proof. repeat split; vm_compute; reflexivity. Qed.
(* the threshold is 3/4 *)
Example C76_ex_distribution : (Pr (randomReal 1) (atLeast (inject_Z (3 * 2 ^ 51) * two (-53 - 0))) == (1 # 4) + two (-54))%Q.
Proof. rewrite C76_real_distribution; [reflexivity|split; discriminate|reflexivity|split; [reflexivity|discriminate]]. Qed.

(* ---- C77 ---- *)
Theorem C77_maximum : forall log2 exp2, logLike log2 -> expLike exp2 -> forall fuel lower upper n,
  is_i64 lower -> is_i64 upper -> is_i64 n -> lower < upper -> 0 < n ->
  always (maximum log2 exp2 fuel lower upper n) (orFuel (fun x => lower <= x < upper)).
Proof. exact maximum_range. Qed.
Print Assumptions C77_maximum.
Theorem C77_maximum_throws : forall log2 exp2 fuel lower upper n, n <= 0 \/ upper <= lower ->
  maximum log2 exp2 fuel lower upper n = RRet Throw.
Proof. exact maximum_throws. Qed.
Print Assumptions C77_maximum_throws.
(* the distribution of the maximum of n independent numbers *)
Theorem C77_maximum_distribution : forall log2 exp2 fuel lower upper n t, lower < upper -> 0 < n < 5 -> lower <= t <= upper ->
  (Pr (maximum log2 exp2 fuel lower upper n) (lessZ t) == Qpower (inject_Z (t - lower) / inject_Z (upper - lower)) n)%Q.
Proof. exact maximum_below. Qed.
Print Assumptions C77_maximum_distribution.
Theorem C77_minimum : forall log2 exp2, logLike log2 -> expLike exp2 -> forall fuel lower upper n,
  is_i64 lower -> is_i64 upper -> is_i64 n -> lower < upper -> upper - lower < 2 ^ 63 -> 0 < n ->
  always (minimum log2 exp2 fuel lower upper n) (orFuel (fun x => lower <= x < upper)).
Proof. exact minimum_range. Qed.
Print Assumptions C77_minimum.
Theorem C77_minimum_distribution : forall log2 exp2, logLike log2 -> expLike exp2 -> forall fuel lower upper n t,
  is_i64 lower -> is_i64 upper -> lower < upper -> upper - lower < 2 ^ 63 -> 0 < n < 5 -> lower <= t <= upper ->
  (Pr (minimum log2 exp2 fuel lower upper n) (geZ t) == Qpower (inject_Z (upper - t) / inject_Z (upper - lower)) n)%Q.
Proof. exact minimum_above. Qed.
Print Assumptions C77_minimum_distribution.
(* wider intervals overflow, although maximum handles them *)
Theorem C77_minimum_wide_refuted : forall log2 exp2 fuel lower upper n, is_i64 lower -> is_i64 upper -> 2 ^ 63 <= upper - lower ->
  minimum log2 exp2 fuel lower upper n = RRet UB.
Proof. exact minimum_overflow. Qed.
Print Assumptions C77_minimum_wide_refuted.
Theorem C77_minmax : forall log2 exp2 fuel lower upper n, is_i64 n ->
  minmax log2 exp2 fuel lower upper n =
    if n =? 0 then RRet Throw else if 0 <? n then maximum log2 exp2 fuel lower upper n
    else if n =? - 2 ^ 63 then RRet UB else minimum log2 exp2 fuel lower upper (- n).
Proof. exact minmax_cases. Qed.
Print Assumptions C77_minmax.
Example C77_ex :
  (Pr (maximum id id 1 3 7 2) (lessZ 6) == 9 # 16)%Q /\ (Pr (minimum id id 1 3 7 2) (geZ 6) == 1 # 16)%Q /\
  (* (1/2)^(1/10), about 0.93, of the interval *)
  play (maximum (fun _ => ofZ (-1)) (fun _ => lit 93 100) 1 (- 2 ^ 62) (2 ^ 63 - 1) 10) [0; 1] = Ok 8254917972985024347 /\
  play (minmax id id 1 0 10 (-2)) [3; 5] = Ok 4.
Proof. repeat split; vm_compute; reflexivity. Qed.
Example C77_ex_libm : logLike (fun _ => ofZ (-1)) /\ expLike (fun _ => lit 93 100).
Proof. split; repeat split; try reflexivity; vm_compute; discriminate. Qed.

(* ---- C78 ---- *)
Theorem C78_exponential : forall log, logLike log -> forall fuel lambda, number lambda -> (0 < val lambda)%Q ->
  always (exponential log fuel lambda) (orFuel (fun r => notPositive (ropp r))).
Proof. exact (fun log L fuel lambda => exponential_range log fuel lambda L). Qed.
Print Assumptions C78_exponential.
Theorem C78_exponentialIn : forall log, logLike log -> forall fuel fuel' lower upper lambda,
  number lower -> realOk upper -> number lambda -> (0 < val lambda)%Q ->
  upper = S754_infinity false \/ isfinite upper = true /\ (val lower < val upper)%Q ->
  always (exponentialIn log fuel fuel' lower upper lambda)
    (orFuel (fun r => number r /\ (val lower <= val r)%Q /\ (isfinite upper = true -> (val r < val upper)%Q))).
Proof. exact (fun log L fuel fuel' lower upper lambda => exponentialIn_range log fuel fuel' lower upper lambda L). Qed.
Print Assumptions C78_exponentialIn.
Theorem C78_normalIn : forall sqrt sin cos log, (forall x, realOk (sqrt x)) -> (forall x, realOk (sin x)) -> (forall x, realOk (cos x)) ->
  forall fuel fuel' lower upper mean stddev, number lower -> number upper -> (val lower < val upper)%Q -> realOk mean -> SFleb rzero stddev = true ->
  always (normalIn sqrt sin cos log fuel fuel' lower upper mean stddev) (orFuel (fun r => number r /\ (val lower <= val r < val upper)%Q)).
Proof. exact (fun sqrt sin cos log A B C fuel fuel' lower upper mean stddev => normalIn_range sqrt sin cos log fuel fuel' lower upper mean stddev A B C). Qed.
Print Assumptions C78_normalIn.
(* stddev scales with its square root: where normal(0, 1) is z, normal(0, 4) is 2z and not 4z *)
Theorem C78_normal_stddev_refuted : exists sqrt cos log ws z, sqrt rone = rone /\ sqrt (ofZ 4) = ofZ 2 /\ z <> rzero /\
  play (normal sqrt cos log 3 rzero rone) ws = Ok z /\
  play (normal sqrt cos log 3 rzero (ofZ 4)) ws = Ok (rmul (ofZ 2) z) /\ rmul (ofZ 2) z <> rmul (ofZ 4) z.
Proof. exact normal_scale. Qed.
Print Assumptions C78_normal_stddev_refuted.
Theorem C78_geometric : forall log log1p unspecified fuel p, (fuel <= 15)%nat -> number p -> (0 <= val p < 1)%Q ->
  stepsFit log (log1p (ropp p)) 0 -> always (geometric log log1p unspecified fuel p) (orFuel (fun x => 0 <= x < 2 ^ 63)).
Proof. exact (fun log log1p u => geometric_range id log log1p id ofZ u). Qed.
Print Assumptions C78_geometric.
Theorem C78_geometric_throws : forall log log1p unspecified fuel p, realOk p -> isfinite p = false \/ (val p < 0)%Q \/ (1 <= val p)%Q ->
  geometric log log1p unspecified fuel p = RRet Throw.
Proof. exact geometric_throws. Qed.
Print Assumptions C78_geometric_throws.
Theorem C78_geometricIn : forall log log1p unspecified fuel fuel' lower upper p, (fuel' <= 15)%nat -> is_i64 lower -> is_i64 upper -> lower < upper ->
  number p -> (0 <= val p < 1)%Q -> stepsFit log (log1p (ropp p)) (Z.max lower 0) ->
  always (geometricIn log log1p unspecified fuel fuel' lower upper p) (orFuel (fun x => lower <= x < upper)).
Proof. exact (fun log log1p u => geometricIn_range id log log1p id ofZ u). Qed.
Print Assumptions C78_geometricIn.
(* p = 0 is allowed: log1p(-0) is -0, the quotient infinite, and llround returns the least
   Integer on x86 *)
Theorem C78_geometric_zero_refuted : let log := fun _ => minusLn2 in let log1p := fun _ => S754_zero true in
  play (geometric log log1p noInteger 5 rzero) [0; 1] = Ok (- 2 ^ 63) /\
  play (geometricIn log log1p noInteger 5 5 (-1) 10 rzero) [0; 1] = UB.
Proof. exact geometric_overflow. Qed.
Print Assumptions C78_geometric_zero_refuted.
Theorem C78_binomial : forall sqrt log log1p lgamma lgammaZ unspecified fuel fuel' n p, (fuel' <= 15)%nat -> 0 <= n < 2 ^ 63 - 1 ->
  number p -> (0 <= val p <= 1)%Q ->
  SFleb rzero (log1p (ropp (lesser p))) = true \/ stepsFit log (log1p (ropp (lesser p))) n ->
  always (binomial sqrt log log1p lgamma lgammaZ unspecified fuel fuel' n p) (orFuel (fun x => 0 <= x <= n)).
Proof. exact binomial_range. Qed.
Print Assumptions C78_binomial.
Theorem C78_binomial_throws : forall sqrt log log1p lgamma lgammaZ unspecified fuel fuel' n p, realOk p ->
  n < 0 \/ isfinite p = false \/ (val p < 0)%Q \/ (1 < val p)%Q ->
  binomial sqrt log log1p lgamma lgammaZ unspecified fuel fuel' n p = RRet Throw.
Proof. exact binomial_throws. Qed.
Print Assumptions C78_binomial_throws.
Theorem C78_binomial_zero : forall sqrt log log1p lgamma lgammaZ unspecified fuel fuel' n, 0 <= n < 2 ^ 63 ->
  SFleb rzero (log1p (S754_zero true)) = true -> binomial sqrt log log1p lgamma lgammaZ unspecified fuel fuel' n rzero = ret 0.
Proof. exact binomial_zero. Qed.
Print Assumptions C78_binomial_zero.
Theorem C78_binomial_one : forall sqrt log log1p lgamma lgammaZ unspecified fuel fuel' n, 0 <= n < 2 ^ 63 ->
  SFleb rzero (log1p (S754_zero true)) = true -> binomial sqrt log log1p lgamma lgammaZ unspecified fuel fuel' n rone = ret n.
Proof. exact binomial_one. Qed.
Print Assumptions C78_binomial_one.
Theorem C78_binomialIn : forall sqrt log log1p lgamma lgammaZ unspecified fuel fuel' lower upper n p, (fuel' <= 15)%nat -> 0 <= n < 2 ^ 63 - 1 -> lower < upper ->
  number p -> (0 <= val p <= 1)%Q -> SFleb rzero (log1p (ropp (lesser p))) = true \/ stepsFit log (log1p (ropp (lesser p))) n ->
  always (binomialIn sqrt log log1p lgamma lgammaZ unspecified fuel fuel' lower upper n p) (orFuel (fun x => lower <= x < upper /\ 0 <= x <= n)).
Proof. exact binomialIn_range. Qed.
Print Assumptions C78_binomialIn.
(* a p so small that a gap is no Integer *)
Theorem C78_binomial_tiny_refuted : let log := fun _ => minusLn2 in let log1p := fun _ => ropp tiny in
  play (binomial (fun x => x) log log1p (fun x => x) ofZ noInteger 5 5 1 tiny) [0; 1; 0; 1] = UB.
Proof. exact binomial_overflow. Qed.
Print Assumptions C78_binomial_tiny_refuted.
(* with log u = -1 and log1p(-p) = -1/2 every gap is 2 *)
Example C78_ex_fits : stepsFit (fun _ => ofZ (-1)) (lit (-1) 2) 100 /\ number (lit 1 3) /\ logLike (fun _ => ofZ (-1)).
Proof. repeat split; try reflexivity; vm_compute; discriminate. Qed.
Example C78_ex : let log := fun _ => ofZ (-1) in let log1p := fun _ => lit (-1) 2 in
  play (geometric log log1p noInteger 2 (lit 1 3)) [0; 1] = Ok 2 /\
  play (geometricIn log log1p noInteger 2 2 5 9 (lit 1 3)) [0; 1] = Ok 7 /\
  play (binomial id log log1p id ofZ noInteger 9 2 10 (lit 1 3)) [0; 1; 0; 1; 0; 1; 0; 1] = Ok 3 /\
  play (binomial id log log1p id ofZ noInteger 9 2 10 (lit 2 3)) [0; 1; 0; 1; 0; 1; 0; 1] = Ok 7 /\
  play (binomial (fun _ => ofZ 5) log log1p id ofZ noInteger 9 2 100 (lit 1 2)) [0; 1; 0; 1] = Ok 50 /\
  play (exponentialIn log 2 2 (ofZ 3) (ofZ 9) (lit 1 4)) [0; 1] = Ok (ofZ 7) /\
  play (normalIn (fun _ => ofZ 2) (fun _ => ofZ 1) (fun _ => ofZ (-1)) log 2 2 (ofZ 3) (ofZ 9) (ofZ 4) (ofZ 4)) [0; 1; 0; 1] = Ok (ofZ 8).
Proof. repeat split; vm_compute; reflexivity. Qed.

(* ---- C79 ---- *)
Theorem C79_randomGraph_p : forall sqrt log log1p lgamma lgammaZ unspecified E (dflt : E) dir fuel fuel' n p, (fuel' <= 15)%nat ->
  0 <= n -> is_i64 (n * (n - 1)) -> number p -> (0 <= val p <= 1)%Q ->
  SFleb rzero (log1p (ropp (lesser p))) = true \/ stepsFit log (log1p (ropp (lesser p))) (n * (n - 1) / 2) ->
  always (randomGraphP sqrt log log1p lgamma lgammaZ unspecified E dflt dir fuel fuel' n p)
    (orFuel (fun g => exists P, represents dir g 0 n (edgesBy dflt P) /\ 0 <= edgeCount g <= n * (n - 1) / 2)).
Proof. exact randomGraphP_range. Qed.
Print Assumptions C79_randomGraph_p.
Theorem C79_randomGraph_p_throws : forall sqrt log log1p lgamma lgammaZ unspecified E (dflt : E) dir fuel fuel' n p, 0 <= n -> is_i64 (n * (n - 1)) ->
  realOk p -> isfinite p = false \/ (val p < 0)%Q \/ (1 < val p)%Q ->
  randomGraphP sqrt log log1p lgamma lgammaZ unspecified E dflt dir fuel fuel' n p = RRet Throw.
Proof. exact randomGraphP_throws. Qed.
Print Assumptions C79_randomGraph_p_throws.
(* "each edge exists with probability p" fails for digraphs: with p = 1 only half of the arcs
   exist *)
Theorem C79_randomGraph_arcs_refuted : forall sqrt log log1p lgamma lgammaZ unspecified E (dflt : E) dir fuel fuel' n,
  0 <= n -> is_i64 (n * (n - 1)) -> SFleb rzero (log1p (S754_zero true)) = true ->
  always (randomGraphP sqrt log log1p lgamma lgammaZ unspecified E dflt dir fuel fuel' n rone)
    (returns (fun g => exists P, represents dir g 0 n (edgesBy dflt P) /\ edgeCount g = n * (n - 1) / 2)).
Proof. exact randomGraphP_one. Qed.
Print Assumptions C79_randomGraph_arcs_refuted.
Theorem C79_randomGrowingGraph : forall E (dflt : E) fuel n p, 0 <= n <= 2 ^ 63 - 1 -> number p -> (0 <= val p <= 1)%Q ->
  always (randomGrowingGraph E dflt fuel n p) (orFuel (fun g => exists P, represents false g 0 n (edgesBy dflt P))).
Proof. exact (randomGrowingGraph_range id id id id ofZ noInteger). Qed.
Print Assumptions C79_randomGrowingGraph.
Theorem C79_randomGrowingGraph_throws : forall E (dflt : E) fuel n p, realOk p ->
  n < 0 \/ isfinite p = false \/ (val p < 0)%Q \/ (1 < val p)%Q -> randomGrowingGraph E dflt fuel n p = RRet Throw.
Proof. exact (randomGrowingGraph_throws id id id id ofZ noInteger). Qed.
Print Assumptions C79_randomGrowingGraph_throws.
Example C79_ex :
  (let! g := play (randomGraphP id id id id ofZ noInteger unit tt true 2 2 3 rone) [1; 2; 3] in Ok (edgeCount g, alen (allPairs true 3))) = Ok (3, 6) /\
  (let! g := play (randomGrowingGraph unit tt 2 3 rone) [0; 1; 0; 1; 0; 0; 1; 1] in Ok (map (fun e => (efrom e, eto e)) (edges g))) = Ok [(1, 0); (2, 1)].
Proof. repeat split; vm_compute; reflexivity. Qed.
