(* Degree sequences of simple graphs. *)
From Verif Require Import Base RndModel.

(* the number of nodes of [0, n) joined to u *)
Definition degreeIn (G : Z -> Z -> bool) (n u : Z) : Z := Z.of_nat (length (filter (G u) (zseq 0 (Z.to_nat n)))).
(* a simple graph on [0, n) *)
Definition simpleOn (n : Z) (G : Z -> Z -> bool) : Prop :=
  (forall u v, G u v = G v u) /\ (forall u v, G u v = true -> 0 <= u < n /\ 0 <= v < n /\ u <> v).
(* node i has degree ds[i] *)
Definition realizes (G : Z -> Z -> bool) (ds : list Z) : Prop :=
  simpleOn (alen ds) G /\ map (degreeIn G (alen ds)) (zseq 0 (length ds)) = ds.
Definition graphical (ds : list Z) : Prop := exists G, realizes G ds.
