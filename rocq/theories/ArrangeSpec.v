(* The lists of edges that a random order of the edges and of their ends can show. *)
From Verif Require Import Base GenModel GenSpec.
From Coq Require Import Permutation.

(* L lists the edges es in some order with the ends renamed by pi; the ends of an undirected edge in any order *)
Definition arrangement {E} (dir : bool) (pi : Z -> Z) (es L : list (Z * Z * E)) : Prop :=
  exists es', Permutation es es' /\
    Forall2 (fun e f => samePair dir (pi (fst (fst e))) (pi (snd (fst e))) (fst (fst f)) (snd (fst f)) /\ snd f = snd e) es' L.
