(* Decimal notation of real numbers, and the numbers nearest to it. *)
From Verif Require Import Base FloatModel FloatSpec RealSpec InputSpec.
From Coq Require Import QArith Qabs.
Open Scope Z_scope.

Definition tenTo (x : Z) : Q := Qpower (inject_Z 10) x.
Definition negative (sg : list Z) : bool := match sg with c :: _ => c =? 45 | [] => false end.
Definition signed (sg : list Z) (v : Q) : Q := if negative sg then (- v)%Q else v.
(* e or E, sign and digits mean the exponent x *)
Definition exponentIs (ex : list Z) (x : Z) : Prop :=
  (ex = [] /\ x = 0) \/
  exists e sg ds, (e = 101 \/ e = 69) /\ optSign sg /\ Forall digit ds /\ ds <> [] /\
    ex = e :: sg ++ showDigits ds /\ x = if negative sg then - value ds else value ds.
(* t is a real number in decimal notation with exact value q *)
Definition decimalValue (t : list Z) (q : Q) : Prop :=
  exists sg ip fp (dot : bool) ex x, optSign sg /\ Forall digit ip /\ Forall digit fp /\ exponentIs ex x /\
    (ip <> [] \/ fp <> []) /\ (dot = false -> fp = []) /\
    t = sg ++ showDigits ip ++ (if dot then [46] else []) ++ showDigits fp ++ ex /\
    (q == signed sg (inject_Z (value (ip ++ fp)) * tenTo (x - alen fp)))%Q.

(* v is a number of the format, and no number is nearer to q *)
Definition nearest (q : Q) (v : real) : Prop := number v /\ forall w, number w -> (Qabs (val v - q) <= Qabs (val w - q))%Q.
(* the smallest positive and the largest number *)
Definition smallest : real := S754_finite false 1 (-16445).
Definition largest : real := S754_finite false 18446744073709551615 16320.
(* zero or at least as large as the smallest and not larger than the largest number *)
Definition inRange (q : Q) : Prop := (q == 0)%Q \/ (val smallest <= Qabs q <= val largest)%Q.
(* what std::from_chars promises for decimals: the nearest number, and no error for values in range *)
Definition fromChars (parse : list Z -> option real) : Prop :=
  forall t q, decimalValue t q -> (forall v, parse t = Some v -> nearest q v) /\ (inRange q -> exists v, parse t = Some v).
(* how far the nearest number can be away *)
Definition slack (q : Q) : Q := (two (-64) * Qabs q + two (-16446))%Q.
