(* What the programs of the archive print. *)
From Coq Require Import String.
From Verif Require Import Base InputSpec InitSpec ArgsSpec ArgsClient.
From Verif Require PassModel.
Open Scope Z_scope.

(* the option has the value n: that of its first argument, or the default if there is none *)
Definition optionIs (args : list (list Z)) (name : list Z) (default n : Z) : Prop :=
  (exists s ps, groupOf args name (s :: ps) /\ integerArg s n) \/
  ((groupOf args name [] \/ ~ In name args) /\ n = default).
(* the number of points and a line for each *)
Definition pointsText (ps : list (Z * Z)) : list Z :=
  PassModel.showInteger (alen ps) ++ 10 :: joined 10 (map (fun q => PassModel.showInteger (fst q) ++ 32 :: PassModel.showInteger (snd q)) ps) ++ [10].
