(* Model of the main functions of the programs in /repo/archive: the text they print. *)
From Coq Require Import String.
From Verif Require Import Base RndModel FloatModel ArgsModel InitModel OutModel PipeModel HackModel HullModel PolyModel.
From Verif Require PassModel.
Open Scope Z_scope.

Section Programs.
  Variable parseReal : list Z -> option real.
  (* javaSortHack.cpp:148-158 *)
  Definition hackMain (fuel : nat) (argv : list str) : rnd (list Z) :=
    let? (p, _) := lift (init parseReal argv start) in
    let? c := lift (getCommand p (chars "--n")) in
    let? n := lift (asIntegerOr (ctoken c) 100000) in
    let? c := lift (getCommand p (chars "--min")) in
    let? mi := lift (asIntegerOr (ctoken c) 1) in
    let? data := HackedSort fuel n mi in
    ret (PassModel.showInteger n ++ [10] ++ join (map IInt data) DEFAULT_SEPARATOR ++ [10]).

  (* convex.cpp:62-74 and polygon.cpp:80-91, which differ in the function for the points only *)
  Section Points.
    Variable sample : Z -> Z -> rnd (list (Z * Z)).
    Definition pointsMain (argv : list str) : rnd (list Z) :=
      let? (p, _) := lift (init parseReal argv start) in
      let? c := lift (getCommand p (chars "--n")) in
      let? n := lift (asIntegerOr (ctoken c) 100000) in
      let? c := lift (getCommand p (chars "--dim")) in
      let? dim := lift (asIntegerOr (ctoken c) 1000000000) in
      let? points := sample n dim in
      ret (PassModel.showInteger (alen points) ++ [10] ++ join (map (fun q => IPair (IInt (fst q)) (IInt (snd q))) points) 10 ++ [10]).
  End Points.
  (* convex.cpp:62-74 *)
  Definition convexMain sqrt sin cos llround (rounds fuel fuel' : nat) : list str -> rnd (list Z) :=
    pointsMain (convexDisk sqrt sin cos llround rounds fuel fuel').
  (* polygon.cpp:80-91 *)
  Definition polygonMain srt prt fits (fuel : nat) : list str -> rnd (list Z) := pointsMain (polygon srt prt fits fuel).
End Programs.
