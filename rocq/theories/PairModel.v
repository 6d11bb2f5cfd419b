(* Random::select and Random::shuffle for std::pair and std::complex, /repo/src/validate.h. getX and getY are the two
   components (809-892). *)
From Verif Require Import Base RndModel GenOpsModel.

(* validate.h:1635-1643  select(pair) and select(complex) *)
Definition selectPair {A} (t : A * A) : rnd A :=
  let? b := rbit in
  ret (if b : bool then fst t else snd t).

(* validate.h:1660-1670  shuffle(pair) and shuffle(complex) *)
Definition shufflePair {A} (t : A * A) : rnd (A * A) :=
  let? b := rbit in
  ret (if b : bool then (snd t, fst t) else t).
