(* The formulas of the discrete distributions, in the arithmetic of Real. *)
From Verif Require Import Base RndModel FloatModel FloatSpec RealModel.
From Coq Require Import QArith ZArith SpecFloat.
Open Scope Z_scope.

(* z is x rounded down *)
Definition isFloor (x : real) (z : Z) : Prop := isfinite x = true /\ (inject_Z z <= val x < inject_Z (z + 1))%Q.
(* z is x rounded down, and both z and z + 1 are Integers *)
Definition intFloor (x : real) (z : Z) : Prop := isFloor x z /\ is_i64 z /\ is_i64 (z + 1).

(* the smaller one of p and 1 - p *)
Definition smaller (p : real) : real := if SFltb (rsub (ofZ 1) p) p then rsub (ofZ 1) p else p.

Section Formulas.
  Variable sqrt log lgamma : real -> real.
  Variable lgammaZ : Z -> real.

  (* the first of the numbers lower + floor(log u / lg) below upper *)
  Inductive firstGap (lower upper : Z) (lg : real) : list real -> Z -> Prop :=
  | gap_take : forall u us g, intFloor (rdiv (log u) lg) g -> is_i64 (lower + g) -> lower + g < upper ->
      firstGap lower upper lg (u :: us) (lower + g)
  | gap_skip : forall u us g r, intFloor (rdiv (log u) lg) g -> is_i64 (lower + g) -> upper <= lower + g ->
      firstGap lower upper lg us r -> firstGap lower upper lg (u :: us) r.

  (* successes among the trials y + 1, ..., n: the gaps between them are floor(log u / lg) *)
  Inductive successes (n : Z) (lg : real) : Z -> list real -> Z -> Prop :=
  | suc_end : forall y u us g, intFloor (rdiv (log u) lg) g -> is_i64 (y + (g + 1)) -> n < y + (g + 1) ->
      successes n lg y (u :: us) 0
  | suc_next : forall y u us g k, intFloor (rdiv (log u) lg) g -> is_i64 (y + (g + 1)) -> y + (g + 1) <= n ->
      successes n lg (y + (g + 1)) us k -> successes n lg y (u :: us) (k + 1).

  (* Hoermann, The generation of binomial random variates, algorithm BTRS; p is at most 1/2 *)
  Section Btrs.
    Variable n : Z.
    Variable p : real.
    Let q : real := rsub (ofZ 1) p.
    Definition bSpq : real := sqrt (rmul (rmul (ofZ n) p) q).
    Definition bB : real := radd (lit 115 100) (rmul (lit 253 100) bSpq).
    Definition bA : real := radd (radd (lit (-873) 10000) (rmul (lit 248 10000) bB)) (rmul (lit 1 100) p).
    Definition bC : real := radd (rmul (ofZ n) p) (lit 1 2).
    Definition bAlpha : real := rmul (radd (lit 283 100) (rdiv (lit 51 10) bB)) bSpq.
    Definition bVr : real := rsub (lit 92 100) (rdiv (lit 42 10) bB).
    Definition bU (x : real) : real := rsub x (lit 1 2).
    Definition bUs (x : real) : real := rsub (lit 1 2) (SFabs (bU x)).
    (* the number whose floor is the candidate *)
    Definition bCandidate (x : real) : real := radd (rmul (radd (rdiv (rmul (ofZ 2) bA) (bUs x)) bB) (bU x)) bC.
    (* inside the box that needs no further test *)
    Definition bBox (x v : real) : Prop := SFleb (lit 7 100) (bUs x) = true /\ SFleb v bVr = true.
    (* the test with the logarithm of the quotient of binomial probabilities; m is the mode *)
    Definition bBelow (x v : real) (k m : Z) : Prop :=
      SFleb (log (rmul v (rdiv bAlpha (radd (rdiv bA (rmul (bUs x) (bUs x))) bB))))
        (radd (rsub (rsub (radd (lgamma (radd (ofZ m) (ofZ 1))) (lgamma (radd (rsub (ofZ n) (ofZ m)) (ofZ 1)))) (lgammaZ (k + 1))) (lgammaZ (n - k + 1)))
          (rmul (rsub (ofZ k) (ofZ m)) (log (rdiv p q)))) = true.
    (* the first candidate in [0, n] that is accepted *)
    Inductive btrs (m : Z) : list real -> Z -> Prop :=
    | btrs_outside : forall x xs k r, isFloor (bCandidate x) k -> is_i64 k -> ~ 0 <= k <= n -> btrs m xs r -> btrs m (x :: xs) r
    | btrs_accept : forall x v xs k, isFloor (bCandidate x) k -> 0 <= k <= n -> bBox x v \/ bBelow x v k m -> btrs m (x :: v :: xs) k
    | btrs_reject : forall x v xs k r, isFloor (bCandidate x) k -> 0 <= k <= n -> ~ bBox x v -> ~ bBelow x v k m -> btrs m xs r ->
        btrs m (x :: v :: xs) r.
  End Btrs.
End Formulas.
