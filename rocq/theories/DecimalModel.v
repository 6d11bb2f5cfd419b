(* Model of std::from_chars for long double as used by details::parse<Real>, /repo/src/validate.h:952-959: the
   number nearest to the decimal, ties to even, an error if it is too large or rounds to 0. A '+' is skipped by
   parse itself (line 956). Infinities and NaN, which from_chars reads too, are not modelled: the readers exclude
   them with REAL_REGEX. *)
From Verif Require Import Base FloatModel SeqModel InputSpec.
Open Scope Z_scope.

(* the digits at the front and the rest *)
Fixpoint spanDigits (s : list Z) : list Z * list Z :=
  match s with
  | c :: s' => if isDigit c then let (ds, r) := spanDigits s' in (c - 48 :: ds, r) else ([], s)
  | [] => ([], [])
  end.
Definition takeSign (s : list Z) : bool * list Z :=
  match s with
  | c :: s' => if c =? 45 then (true, s') else if c =? 43 then (false, s') else (false, s)
  | [] => (false, [])
  end.
Definition parseExponent (s : list Z) : option Z :=
  match s with
  | [] => Some 0
  | c :: s => if (c =? 101) || (c =? 69) then
      let (neg, s) := takeSign s in
      match spanDigits s with
      | (d :: ds, []) => Some (if neg then - value (d :: ds) else value (d :: ds))
      | _ => None
      end
    else None
  end.
(* sign, digits and power of ten *)
Definition parseDecimal (t : list Z) : option (bool * Z * Z) :=
  let (neg, t) := takeSign t in
  let (ip, t) := spanDigits t in
  let (fp, t) := match t with c :: t' => if c =? 46 then spanDigits t' else ([], t) | [] => ([], []) end in
  match ip ++ fp, parseExponent t with
  | _ :: _, Some x => Some (neg, value (ip ++ fp), x - alen fp)
  | _, _ => None
  end.

Definition up (e : Z) : Z := 2 ^ Z.max e 0.
(* the integer nearest to n / d *)
Definition nearestInt (n d : Z) : Z :=
  let k := n / d in
  let r := n mod d in
  match Z.compare (2 * r) d with
  | Lt => k
  | Gt => k + 1
  | Eq => if Z.even k then k else k + 1
  end.
(* 2^l <= n / d < 2^(l + 1) *)
Definition ratioLog (n d : Z) : Z :=
  let l := Z.log2 n - Z.log2 d in
  if d * up l <=? n * up (- l) then l else l - 1.
Definition toReal (neg : bool) (n d : Z) : real :=
  let e := Z.max (ratioLog n d - 63) (-16445) in
  match nearestInt (n * up (- e)) (d * up e) with
  | Zpos p => binary_round prec emax neg p e
  | _ => S754_zero neg
  end.
Definition decimalReal (t : list Z) : option real :=
  match parseDecimal t with
  | None => None
  | Some (neg, m, x) =>
      if m =? 0 then Some (S754_zero neg) else
      match toReal neg (m * 10 ^ Z.max x 0) (10 ^ Z.max (- x) 0) with
      | S754_finite s p e => Some (S754_finite s p e)
      | _ => None
      end
  end.
