(* Vocabulary for Random::polygon of the archive. *)
From Verif Require Import Base GeoSpec.
From Coq Require Import ZArith List Permutation Sorted.
Import ListNotations.
Open Scope Z_scope.

Definition key (dir p : Z * Z) : Z := fst p * fst dir + snd p * snd dir.
(* (b - a) * (c - a) *)
Definition angle (a b c : Z * Z) : Z := (fst b - fst a) * (fst c - fst a) + (snd b - snd a) * (snd c - snd a).
(* what std::sort and std::partition promise *)
Definition sortsBy (srt : Z * Z -> list (Z * Z) -> list (Z * Z)) : Prop :=
  forall dir l, Permutation l (srt dir l) /\ StronglySorted (fun a b => key dir a <= key dir b) (srt dir l).
Definition splits (prt : list ((Z * Z) * bool) -> list (Z * Z) * list (Z * Z)) : Prop :=
  forall l, Permutation (map fst (filter snd l)) (fst (prt l)) /\ Permutation (map fst (filter (fun x => negb (snd x)) l)) (snd (prt l)).
(* different points, no three on a line *)
Definition general (l : list (Z * Z)) : Prop :=
  NoDup l /\ forall a b c, In a l -> In b l -> In c l -> a <> b -> a <> c -> b <> c -> orient a b c <> 0.
Definition noRightAngle (l : list (Z * Z)) : Prop :=
  forall a b c, In a l -> In b l -> In c l -> a <> b -> a <> c -> b <> c -> angle a b c <> 0.
Definition tiny (p : Z * Z) : Prop := Z.abs (fst p) < 2 ^ 30 /\ Z.abs (snd p) < 2 ^ 30.
(* it returns a value with P or does not end *)
Definition okOrEndless {A} (P : A -> Prop) (o : outcome A) : Prop :=
  match o with Ok a => P a | Fuel => True | _ => False end.
