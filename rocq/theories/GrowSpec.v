(* Vocabulary for randomGrowingGraph. *)
From Verif Require Import Base RndModel FloatModel RealModel GenModel GenSpec.
From Coq Require Import QArith ZArith.
Open Scope Z_scope.

(* the number of earlier nodes joined with i *)
Definition backDegree (P : Z -> Z -> bool) (i : Z) : Z := alen (filter (fun j => P j i) (zseq 0 (Z.to_nat i))).
(* the number of earlier nodes to join: Integer deg = p * Random::real(0, i+1) (graph_gen.h:895) *)
Definition drawDegree (fuel : nat) (p : real) (i : Z) : rnd Z :=
  let? r := realIn fuel rzero (ofZ (i + 1)) in lift (castI (rmul p r)).
(* f i * f (i + 1) * ... with k factors *)
Fixpoint prodFrom (f : Z -> Q) (i : Z) (k : nat) : Q :=
  match k with
  | O => 1%Q
  | S k => (f i * prodFrom f (i + 1) k)%Q
  end.
