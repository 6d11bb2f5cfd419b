(* C93: drawing until the result is inside an interval gives the conditioned distribution. *)
From Verif Require Import Base Tac RndModel RndLemmas FloatModel FloatSpec RandIntModel RealModel RealSpec RealFormSpec CollModel RejectSpec RejectProofs.
From Coq Require Import QArith Qpower ZArith SpecFloat.
From Verif Require Import FloatModel FloatSpec RealSpec.
Open Scope Z_scope.

(* the factor of the laws below: it does not depend on the event, and grows to 1 / (1 - q) *)
Theorem C93_rounds : forall q k, ((1 - q) * powers q k == 1 - Qpower q (Z.of_nat k))%Q.
Proof. exact powers_closed. Qed.
Print Assumptions C93_rounds.
Example C93_rounds_ex : (powers (1 # 2) 3 == 7 # 4)%Q.
Proof. vm_compute. reflexivity. Qed.

(* real(upper): the product with real(), given that it is less than upper *)
Theorem C93_realBelow : forall fuel upper p, number upper -> (0 < val upper)%Q ->
  let try := let? x := randomReal fuel in ret (rmul x upper) in
  let inside := fun r => SFltb r upper in
  (Pr (realBelow fuel upper) (holds p) == Pr try (holds (fun r => inside r && p r)) * powers (Pr try (holds (fun r => negb (inside r)))) fuel)%Q.
Proof. exact realBelow_law. Qed.
Print Assumptions C93_realBelow.
(* unless upper is subnormal, another round is needed exactly if real() is 1 *)
Theorem C93_realBelow_exact : forall fuel upper p, (1 <= fuel)%nat -> number upper -> (two (-16382) <= val upper)%Q ->
  (Pr (realBelow fuel upper) (holds p) == Pr (randomReal fuel) (holds (fun x => negb (Qle_bool 1 (val x)) && p (rmul x upper))) * powers (two (-54)) fuel)%Q.
Proof. exact realBelow_exact. Qed.
Print Assumptions C93_realBelow_exact.
Example C93_realBelow_ex : number (ofZ 3) /\ (two (-16382) <= val (ofZ 3))%Q.
Proof. split; [split; reflexivity|]. apply Qle_trans with 1%Q; vm_compute; discriminate. Qed.
(* the hypothesis is needed: half of the results are not less than the smallest subnormal number *)
Example C93_subnormal_ex : let least := S754_finite false 1 (-16445) in number least /\ rmul (lit 3 4) least = least /\ rmul (lit 1 2) least = rzero.
Proof. vm_compute. repeat split. Qed.

Theorem C93_realIn : forall fuel lower upper p, number lower -> number upper -> (val lower < val upper)%Q ->
  let try := let? x := randomReal fuel in ret (radd (rmul lower (rsub rone x)) (rmul upper x)) in
  let inside := fun r => SFleb lower r && SFltb r upper in
  (Pr (realIn fuel lower upper) (holds p) == Pr try (holds (fun r => inside r && p r)) * powers (Pr try (holds (fun r => negb (inside r)))) fuel)%Q.
Proof. exact realIn_law. Qed.
Print Assumptions C93_realIn.
Example C93_realIn_ex : number (ofZ (-1)) /\ number (ofZ 3) /\ (val (ofZ (-1)) < val (ofZ 3))%Q.
Proof. repeat split; vm_compute; reflexivity. Qed.

(* exponential(lower, upper, lambda): lower + exponential(lambda), given that it is less than upper *)
Theorem C93_exponentialIn : forall log fuel fuel' lower upper lambda p,
  isfinite lower = true -> isnan upper = false -> SFltb lower upper = true -> SFltb rzero lambda = true ->
  let try := let? e := exponential log fuel' lambda in ret (radd lower e) in
  let inside := fun r => SFltb r upper in
  (Pr (exponentialIn log fuel fuel' lower upper lambda) (holds p) == Pr try (holds (fun r => inside r && p r)) * powers (Pr try (holds (fun r => negb (inside r)))) fuel)%Q.
Proof. exact exponentialIn_law. Qed.
Print Assumptions C93_exponentialIn.
Example C93_exponentialIn_ex : isfinite (ofZ (-1)) = true /\ isnan (S754_infinity false) = false /\ SFltb (ofZ (-1)) (S754_infinity false) = true /\ SFltb rzero (ofZ 2) = true.
Proof. vm_compute. repeat split. Qed.

(* geometric(lower, upper, p): lower + geometric(p), given that it is less than upper *)
Theorem C93_geometricIn : forall log log1p unspecified fuel fuel' lower upper pr p,
  lower < upper -> SFleb rzero pr = true -> SFltb pr rone = true ->
  let try := let? g := geometric log log1p unspecified fuel' pr in lift (chk (lower + g)) in
  let inside := fun r => r <? upper in
  (Pr (geometricIn log log1p unspecified fuel fuel' lower upper pr) (holds p) == Pr try (holds (fun r => inside r && p r)) * powers (Pr try (holds (fun r => negb (inside r)))) fuel)%Q.
Proof. exact geometricIn_law. Qed.
Print Assumptions C93_geometricIn.
Example C93_geometricIn_ex : SFleb rzero (lit 1 3) = true /\ SFltb (lit 1 3) rone = true.
Proof. vm_compute. repeat split. Qed.

(* binomial(lower, upper, n, p): binomial(n, p), given that it is inside. The bound of the loops of
   binomial is that of the rounds left *)
Theorem C93_binomialIn : forall sqrt log log1p lgamma lgammaZ unspecified fuel fuel' lower upper n pr p, lower < upper ->
  (Pr (binomialIn sqrt log log1p lgamma lgammaZ unspecified fuel fuel' lower upper n pr) (holds p) ==
   firstInside (fun k => binomial sqrt log log1p lgamma lgammaZ unspecified k fuel' n pr) (fun r => (lower <=? r) && (r <? upper)) p fuel)%Q.
Proof. exact binomialIn_law. Qed.
Print Assumptions C93_binomialIn.
(* one coin, the result to be 1: after two rounds with probability 3/4 *)
Example C93_binomialIn_ex : (firstInside (fun _ => rint 0 2) (fun r => (1 <=? r) && (r <? 2)) (fun r => r =? 1) 2 == 3 # 4)%Q.
Proof. vm_compute. reflexivity. Qed.

(* normal(lower, upper, mean, stddev): the first of the two values of a pair that is inside, given that one is *)
Theorem C93_normalIn : forall sqrt sin cos log fuel fuel' lower upper mean stddev p,
  isnan lower = false -> isnan upper = false -> SFltb lower upper = true -> SFleb rzero stddev = true ->
  let try := let? u := randomReal fuel' in let? v := randomReal fuel' in
    ret [boxMuller sqrt cos log mean stddev (u, v); boxMuller sqrt sin log mean stddev (u, v)] in
  let first := List.find (fun r => SFleb lower r && SFltb r upper) in
  (Pr (normalIn sqrt sin cos log fuel fuel' lower upper mean stddev) (holds p) ==
   Pr try (holds (fun rs => match first rs with Some r => p r | None => false end)) *
   powers (Pr try (holds (fun rs => match first rs with Some _ => false | None => true end))) fuel)%Q.
Proof. exact normalIn_law. Qed.
Print Assumptions C93_normalIn.
Example C93_normalIn_ex : isnan (S754_infinity true) = false /\ isnan rzero = false /\ SFltb (S754_infinity true) rzero = true /\ SFleb rzero rone = true.
Proof. vm_compute. repeat split. Qed.

(* noncollinearPoints: the two factors drawn for the rotation are uniform among the pairs that are not (0, 0) *)
Theorem C93_rotation : forall fuel p a b, 0 < p -> is_i64 p -> 0 <= a < p -> 0 <= b < p -> (a, b) <> (0, 0) ->
  (Pr (rotLoop fuel p) (holds (fun r => (fst r =? a) && (snd r =? b))) == (1 / inject_Z (p * p)) * powers (1 / inject_Z (p * p)) fuel)%Q.
Proof. exact rotLoop_law. Qed.
Print Assumptions C93_rotation.
Example C93_rotation_ex : (Pr (rotLoop 2 3) (holds (fun r => (fst r =? 0) && (snd r =? 2))) == 10 # 81)%Q.
Proof. vm_compute. reflexivity. Qed.
