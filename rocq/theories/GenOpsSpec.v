(* Vocabulary for the graph operations. *)
From Verif Require Import Base GenModel GenSpec.

(* there is a walk of n edges from u to v *)
Inductive walk {E} (M : emap E) : nat -> Z -> Z -> Prop :=
| walk_nil : forall u, walk M 0 u u
| walk_snoc : forall n u w v, walk M n u w -> isEdge M w v = true -> walk M (S n) u v.
(* of at most k edges *)
Definition within {E} (M : emap E) (k : Z) (u v : Z) : Prop := exists n, Z.of_nat n <= k /\ walk M n u v.

(* the second edge leaves the head of the first; undirected: they have a common end *)
Definition follows (dir : bool) (e f : Z * Z) : Prop :=
  if dir then snd e = fst f
  else fst e = fst f \/ fst e = snd f \/ snd e = fst f \/ snd e = snd f.
