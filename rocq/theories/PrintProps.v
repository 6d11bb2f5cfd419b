(* C86: printed real numbers. *)
From Coq Require Import String.
From Verif Require Import Base FloatModel FloatSpec RealSpec InputSpec InputModel InputClient OutModel InitModel InitSpec DecimalSpec DecimalModel PrintModel PrintSpec PrintProofs PrintProofs2 PrintProofs3.
From Coq Require Import QArith Qabs ZArith SpecFloat.
Open Scope Z_scope.

(* a printed number is the decimal with p digits after the dot that is nearest to it *)
Theorem C86_notation : forall p x, 0 <= p -> number x -> exists k,
  strictReal (showFixed p x) p /\ decimalValue (showFixed p x) (units p k) /\ nearestUnits p (val x) k.
Proof. exact show_fixed. Qed.
Print Assumptions C86_notation.
Theorem C86_sign : forall p x, 0 <= p -> number x ->
  (hd 0 (showFixed p x) = 45 <-> match x with S754_zero s | S754_finite s _ _ => s = true | _ => False end).
Proof. exact show_sign. Qed.
Print Assumptions C86_sign.
Theorem C86_half_unit : forall p v k, nearestUnits p v k -> (Qabs (units p k - v) <= (1 # 2) * tenTo (- p))%Q.
Proof. exact nearest_half. Qed.
Print Assumptions C86_half_unit.
Theorem C86_monotone : forall p v w k j, nearestUnits p v k -> nearestUnits p w j -> (v <= w)%Q -> (units p k <= units p j)%Q.
Proof. exact units_mono. Qed.
Print Assumptions C86_monotone.

(* read back: at most 10^-p away, half of it up to the rounding of the reader, and exact if there are no more digits *)
Theorem C86_read : forall st parse p x s rest, fromChars parse -> 0 <= p <= 4000 -> number x -> nextToken (spaceSensitive st) s (showFixed p x) rest ->
  exists v k, readReal st parse s = Ret v rest /\ nearestUnits p (val x) k /\ nearest (units p k) v /\ (Qabs (val v - val x) <= tenTo (- p))%Q /\
    (Qabs (val v - val x) <= (1 # 2) * tenTo (- p) + slack (units p k))%Q.
Proof. exact read_back. Qed.
Print Assumptions C86_read.
Theorem C86_read_exact : forall st parse p x j s rest, fromChars parse -> 0 <= p <= 4000 -> number x -> (val x == units p j)%Q -> nextToken (spaceSensitive st) s (showFixed p x) rest ->
  exists v, readReal st parse s = Ret v rest /\ number v /\ (val v == val x)%Q.
Proof. exact read_exact. Qed.
Print Assumptions C86_read_exact.
(* with the default precision and tolerance the number read is taken to be equal *)
Theorem C86_equal : forall st parse x s rest, fromChars parse -> number x -> nextToken (spaceSensitive st) s (putReal x) rest ->
  exists v, readReal st parse s = Ret v rest /\ number v /\ (Qabs (val v - val x) <= 1 # 1000000)%Q /\ floatEqual v x DEFAULT_EPS DEFAULT_EPS = Ok true.
Proof. exact read_equal. Qed.
Print Assumptions C86_equal.
(* real(lower, upper) accepts what was in the bounds when it was printed, also the upper one *)
Theorem C86_bounds : forall st parse lower upper x s rest, fromChars parse -> number lower -> number upper -> number x ->
  SFleb DEFAULT_EPS (floatAbsTol st) = true -> SFleb DEFAULT_EPS (floatRelTol st) = true ->
  (val lower <= val x <= val upper)%Q -> nextToken (spaceSensitive st) s (putReal x) rest ->
  exists v, realIn st parse lower upper s = Ret v rest /\ number v /\ (Qabs (val v - val x) <= 1 # 1000000)%Q.
Proof. exact realIn_back. Qed.
Print Assumptions C86_bounds.
(* a line of numbers *)
Theorem C86_line : forall st parse lower upper sep xs, fromChars parse -> spaceSensitive st = true -> sep = 32 \/ sep = 10 -> number lower -> number upper ->
  SFleb DEFAULT_EPS (floatAbsTol st) = true -> SFleb DEFAULT_EPS (floatRelTol st) = true ->
  Forall (fun x => number x /\ (val lower <= val x <= val upper)%Q) xs ->
  exists vs, realFile st parse lower upper (alen xs) sep (join (map (fun x => IText (putReal x)) xs) sep ++ [10]) = Ret vs [] /\
    Forall2 (fun v x => number v /\ (Qabs (val v - val x) <= 1 # 1000000)%Q) vs xs.
Proof. exact file_back. Qed.
Print Assumptions C86_line.
(* infinities and NaN are printed as words that no reader of numbers accepts *)
Theorem C86_special : forall st parse p x s rest, isfinite x = false -> s = showFixed p x ++ rest -> endsToken rest ->
  readReal st parse s = Exit (onFail st).
Proof. exact special_text. Qed.
Print Assumptions C86_special.

(* realStrict has no tolerance: a number in its bounds is printed as one that is not; and different numbers are printed the same *)
Theorem C86_strict_refuted : exists x st, number x /\ (val rzero <= val x < val exOne)%Q /\
  realStrict st decimalReal rzero exOne 0 7 (putReal x ++ [10]) = Exit (onFail st).
Proof. exact rounded_up. Qed.
Print Assumptions C86_strict_refuted.
Theorem C86_injective_refuted : exists x y, number x /\ number y /\ (val x < val y)%Q /\ putReal x = putReal y.
Proof. exact lost_digits. Qed.
Print Assumptions C86_injective_refuted.

Definition third : real := S754_finite true 12297829382473034411 (-65).
Example C86_ex_text : putReal third = text "-0.333333" /\ putReal exTwo = text "2.000000" /\ putReal (S754_finite true 1 (-70)) = text "-0.000000" /\
  showFixed 0 (S754_finite false 5 (-1)) = text "2" /\ showFixed 0 (S754_finite false 7 (-1)) = text "4" /\ showFixed 3 (S754_finite false 1 70) = text "1180591620717411303424.000" /\
  showFixed 2 (S754_finite false 1 (-3)) = text "0.12" /\ putReal (S754_infinity true) = text "-inf".
Proof. vm_compute. repeat split. Qed.
Example C86_ex_hypotheses : number third /\ nextToken (spaceSensitive exCfg) (putReal third ++ [10]) (putReal third) [10] /\ fromChars decimalReal /\
  SFleb DEFAULT_EPS DEFAULT_EPS = true /\ (val exTwo == units 6 2000000)%Q /\ isfinite (S754_infinity true) = false.
Proof.
  split; [split; reflexivity|]. split; [|split; [exact DecimalProofs2.decimalReal_fromChars|split; [reflexivity|split; reflexivity]]].
  apply InputProofs2.nextToken_true. split; [reflexivity|]. split; [apply fixed_plain; [discriminate|split; reflexivity]|]. unfold endsToken, whitespace. lia.
Qed.
Example C86_ex_line : let st := mkCfg true true 43 DEFAULT_EPS DEFAULT_EPS in
  exists vs, realFile st decimalReal third exTwo 2 32 (join (map (fun x => IText (putReal x)) [third; exTwo]) 32 ++ [10]) = Ret vs [] /\ nth 1 vs third = exTwo.
Proof. eexists. split; vm_compute; reflexivity. Qed.
