(* C84: decimals in files and their comparison. *)
From Coq Require Import String.
From Verif Require Import Base FloatModel FloatSpec InputSpec InputModel InputClient InputProofs3 RealSpec InitModel InitSpec DecimalSpec DecimalModel DecimalProofs2 DecimalProofs3.
From Coq Require Import QArith Qabs ZArith SpecFloat.
Open Scope Z_scope.

(* the tokens of REAL_REGEX are the decimals, and each has one value *)
Theorem C84_value : forall t, realToken t <-> exists q, decimalValue t q.
Proof. exact token_value. Qed.
Print Assumptions C84_value.
Theorem C84_value_unique : forall t q q', decimalValue t q -> decimalValue t q' -> (q == q')%Q.
Proof. exact value_unique. Qed.
Print Assumptions C84_value_unique.
(* there is such a from_chars *)
Theorem C84_parse : fromChars decimalReal.
Proof. exact decimalReal_fromChars. Qed.
Print Assumptions C84_parse.
Theorem C84_read : forall st parse s raw rest q, fromChars parse -> nextToken (spaceSensitive st) s raw rest -> decimalValue raw q -> inRange q ->
  exists v, readReal st parse s = Ret v rest /\ nearest q v.
Proof. exact read_decimal. Qed.
Print Assumptions C84_read.
Theorem C84_read_nearest : forall st parse s v rest, fromChars parse -> readReal st parse s = Ret v rest ->
  exists raw q, nextToken (spaceSensitive st) s raw rest /\ decimalValue raw q /\ nearest q v.
Proof. exact read_nearest. Qed.
Print Assumptions C84_read_nearest.
(* the nearest number keeps the order, keeps numbers, and is near *)
Theorem C84_monotone : forall q v q' v', nearest q v -> nearest q' v' -> (q < q')%Q -> (val v <= val v')%Q.
Proof. exact nearest_mono. Qed.
Print Assumptions C84_monotone.
Theorem C84_exact : forall w v, number w -> nearest (val w) v -> (val v == val w)%Q.
Proof. exact nearest_number. Qed.
Print Assumptions C84_exact.
Theorem C84_error : forall q v, nearest q v -> (Qabs q <= val largest)%Q -> (Qabs (val v - q) <= slack q)%Q.
Proof. exact nearest_error. Qed.
Print Assumptions C84_error.
(* bounds of the strict reader: w is a number just below upper *)
Theorem C84_strict_accepts : forall st parse lower upper minD maxD s t k rest q w, fromChars parse -> number lower -> number upper -> number w ->
  nextToken (spaceSensitive st) s t rest -> strictReal t k -> minD <= k < maxD -> decimalValue t q -> inRange q -> (val lower <= q)%Q -> (q <= val w)%Q -> (val w < val upper)%Q ->
  exists v, realStrict st parse lower upper minD maxD s = Ret v rest /\ nearest q v.
Proof. exact strict_accepts. Qed.
Print Assumptions C84_strict_accepts.
Theorem C84_strict_sound : forall st parse lower upper minD maxD s v rest, fromChars parse -> number lower -> number upper -> realStrict st parse lower upper minD maxD s = Ret v rest ->
  exists t k q, nextToken (spaceSensitive st) s t rest /\ strictReal t k /\ minD <= k < maxD /\ decimalValue t q /\ nearest q v /\ (val lower <= val v < val upper)%Q /\ (q < val upper)%Q /\
    forall w, number w -> (val w < val lower)%Q -> (val w < q)%Q.
Proof. exact strict_nearest. Qed.
Print Assumptions C84_strict_sound.
(* a decimal below the lower bound is accepted, one below the upper bound rejected *)
Theorem C84_strict_lower_refuted : exists st upper v q, realStrict st decimalReal exOne upper 0 30 ninesText = Ret v [] /\ decimalValue ninesText q /\ (q < val exOne)%Q.
Proof. exact strict_lower. Qed.
Print Assumptions C84_strict_lower_refuted.
Theorem C84_strict_upper_refuted : exists st q, realStrict st decimalReal rzero exOne 0 30 ninesText = Exit (onFail st) /\ decimalValue ninesText q /\ (val rzero <= q < val exOne)%Q.
Proof. exact strict_upper. Qed.
Print Assumptions C84_strict_upper_refuted.
(* the comparison of two decimals by floatEqual *)
Theorem C84_compare_absolute : forall q1 v1 q2 v2 a r, nearest q1 v1 -> nearest q2 v2 -> (Qabs q1 <= val largest)%Q -> (Qabs q2 <= val largest)%Q -> number a -> goodTol r ->
  (Qabs (q1 - q2) + slack q1 + slack q2 <= val a)%Q -> floatEqual v1 v2 a r = Ok true.
Proof. exact compare_absolute. Qed.
Print Assumptions C84_compare_absolute.
Theorem C84_compare_relative : forall q1 v1 q2 v2 a r, nearest q1 v1 -> nearest q2 v2 -> (Qabs q1 <= val largest)%Q -> (Qabs q2 <= val largest)%Q -> goodTol a -> number r -> goodTol r ->
  (val r * (Qabs q2 + slack q2) < two emax)%Q -> (Qabs (q1 - q2) + slack q1 + slack q2 <= (1 - two (-63)) * (val r * (Qabs q2 - slack q2)))%Q -> floatEqual v1 v2 a r = Ok true.
Proof. exact compare_relative. Qed.
Print Assumptions C84_compare_relative.
Theorem C84_compare_sound : forall q1 v1 q2 v2 a r, nearest q1 v1 -> nearest q2 v2 -> (Qabs q1 <= val largest)%Q -> (Qabs q2 <= val largest)%Q -> number a -> number r ->
  floatEqual v1 v2 a r = Ok true ->
  (Qabs (q1 - q2) <= (1 + two (-63)) * val a + slack q1 + slack q2 \/ Qabs (q1 - q2) <= (1 + two (-61)) * (val r * (Qabs q2 + slack q2)) + slack q1 + slack q2)%Q.
Proof. exact compare_sound. Qed.
Print Assumptions C84_compare_sound.

Example C84_ex_tokens : decimalReal (text "1e-6") = Some DEFAULT_EPS /\ decimalReal (text "+.5E+1") = decimalReal (text "5") /\
  decimalReal (text "18446744073709551617") = Some (S754_finite false 9223372036854775808 1) /\ decimalReal (text "18446744073709551619") = Some (S754_finite false 9223372036854775810 1) /\
  decimalReal (text "-0.0") = Some (S754_zero true) /\ decimalReal (text "1.") = Some exOne /\ decimalReal (text ".") = None.
Proof. vm_compute. repeat split. Qed.
Definition team : cfg := mkCfg false false 43 DEFAULT_EPS DEFAULT_EPS.
Definition compared (s t : String.string) : outcome bool :=
  match readReal team decimalReal (text s), readReal team decimalReal (text t) with Ret a [], Ret b [] => floatEqual a b DEFAULT_EPS DEFAULT_EPS | _, _ => Throw end.
Example C84_ex_compare : compared "3.14159265" "3.1415926" = Ok true /\ compared "3.14159265" "3.14160" = Ok false /\ compared "1e9" "1000000999.9" = Ok true.
Proof. vm_compute. repeat split. Qed.
Example C84_ex_strict : match realStrict team decimalReal rzero exOne 0 30 (text "0.999999999999999999") with Ret v [] => SFltb v exOne | _ => false end = true.
Proof. vm_compute. reflexivity. Qed.
