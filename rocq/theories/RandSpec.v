(* Specification vocabulary for the random generators. *)
From Verif Require Import Base RndModel.
From Coq Require Import Permutation.

(* the run ended normally with a value satisfying R *)
Definition returns {A} (R : A -> Prop) (o : outcome A) : Prop :=
  match o with Ok a => R a | _ => False end.

Fixpoint zfact (n : nat) : Z := match n with O => 1 | S n' => Z.of_nat (S n') * zfact n' end.
Definition zsum (l : list Z) : Z := fold_right Z.add 0 l.

(* entry of a vector *)
Definition getz (l : list Z) (i : Z) : Z := nth (Z.to_nat i) l 0.

(* c_0, c_1, ... is a cycle of the permutation i |-> sigma[i] - offset *)
Definition isCycle (sigma : list Z) (offset : Z) (c : list Z) : Prop :=
  forall j, (j < length c)%nat ->
    getz sigma (nth j c 0) = nth (if (S j =? length c)%nat then 0%nat else S j) c 0 + offset.
(* the positions 0 .. n-1 split into cycles of the given lengths *)
Definition hasCycles (sigma : list Z) (offset : Z) (lens : list Z) : Prop :=
  exists cs : list (list Z),
    map (fun c => Z.of_nat (length c)) cs = lens /\
    Permutation (concat cs) (zseq 0 (length sigma)) /\
    Forall (isCycle sigma offset) cs.

(* bracket words, true = opening: as many opening as closing brackets, and no prefix with
   more closing than opening ones *)
Definition opens (w : list bool) : Z := Z.of_nat (count_occ Bool.bool_dec w true).
Definition closes (w : list bool) : Z := Z.of_nat (count_occ Bool.bool_dec w false).
Definition balancedWord (w : list bool) : Prop :=
  opens w = closes w /\ forall k, closes (firstn k w) <= opens (firstn k w).
