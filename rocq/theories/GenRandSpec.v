(* Vocabulary for random graphs. *)
From Verif Require Import Base RndModel GenModel GenSpec.

(* the pairs a graph on [0, n) may join *)
Definition allPairs (dir : bool) (n : Z) : list (Z * Z) :=
  flat_map (fun u => map (fun v => (u, v))
    (filter (fun v => if dir then negb (u =? v) else u <? v) (zseq 0 (Z.to_nat n)))) (zseq 0 (Z.to_nat n)).
(* the pairs between [0, n) and [n, n + m) *)
Definition crossPairs (dir : bool) (n m : Z) : list (Z * Z) :=
  filter (fun p => negb (Bool.eqb (fst p <? n) (snd p <? n))) (allPairs dir (n + m)).
(* the number of pairs with P *)
Definition countPairs (P : Z -> Z -> bool) (l : list (Z * Z)) : Z := alen (filter (fun p => P (fst p) (snd p)) l).
(* hasEdge answers P for all these pairs *)
Definition graphIs {E} (pairs : list (Z * Z)) (P : Z -> Z -> bool) (o : outcome (graph E)) : bool :=
  match o with
  | Ok g => forallb (fun p => match hasEdge g (fst p) (snd p) with Ok b => Bool.eqb b (P (fst p) (snd p)) | _ => false end) pairs
  | _ => false
  end.
