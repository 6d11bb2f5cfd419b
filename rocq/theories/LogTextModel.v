(* Model of the text of the constraints file, /repo/src/validate.h:2144-2148 and 2229-2246; the rest of the logger is in
   ConstraintModel.v. *)
From Coq Require Import String.
From Verif Require Import Base FloatModel InitSpec PassModel PrintModel ArgsModel ConstraintModel.
From Coq Require Import ZArith List.
Import ListNotations.
Open Scope Z_scope.
Open Scope list_scope.

(* std::noboolalpha *)
Definition boolText (b : bool) : list Z := if b then [49] else [48].
(* 2144-2148  operator<< of Bounds *)
Definition boundsText {T} (show : T -> list Z) (b : bounds T) : list Z :=
  boolText (hadMin b) ++ [32] ++ boolText (hadMax b) ++ [32] ++ show (bmin b) ++ [32] ++ show (bmax b) ++ [32] ++
  show (blower b) ++ [32] ++ show (bupper b).
(* 2239-2243 *)
Definition lineText (l : str * variant) : list Z :=
  text "LocationNotSupported:" ++ fst l ++ [32] ++ fst l ++ [32] ++
  match snd l with
  | VNone => []
  | VInt b => boundsText showInteger b
  | VReal b => boundsText putReal b     (* std::fixed with DEFAULT_PRECISION *)
  end ++ [10].
(* 2229-2246  the contents of the file, None without a file name *)
Definition logText (fileName : bool) (g : logger) : outcome (option (list Z)) :=
  if fileName then let! lines := write g in Ok (Some (flat_map lineText lines)) else Ok None.
