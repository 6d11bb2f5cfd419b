(* Model of the generators in /repo/example as programs over Random: the text they print. *)
From Coq Require Import String.
From Verif Require Import Base RndModel FloatModel ArgsModel InitModel RandSeqModel GenModel GenOpsModel GenMakeModel OutModel PipeModel.
From Verif Require PassModel.
Open Scope Z_scope.

Section Programs.
  Variable parseReal : list Z -> option real.
  (* generator.cpp:8-20 *)
  Definition numbersMain (argv : list str) : rnd (list Z) :=
    let? (p, _) := lift (init parseReal argv start) in
    let? c := lift (getCommand p (chars "--n")) in
    let? n := lift (asInteger (ctoken c)) in
    let? data := distinct n 0 10 in
    ret (PassModel.showInteger n ++ [10] ++ join (map IInt data) DEFAULT_SEPARATOR ++ [10]).

  (* generator.graph.cpp:14-22 *)
  Definition cubes : outcome (graph unit) :=
    let! a := hypercube tt 3 in
    let! b := hypercube tt 3 in
    let! res := append false a b in
    let! c := cycle tt 3 in
    let! res := append false res c in
    addEdges false res [(16, 0, tt); (17, 1, tt); (18, 2, tt); (16, 8, tt); (17, 9, tt); (18, 10, tt)].
  (* generator.graph.cpp:9-39 *)
  Definition dagMain (argv : list str) : rnd (list Z) :=
    let? _ := lift (init parseReal argv start) in
    let? res := lift cubes in
    let? res := permutate false res in
    let? dag := lift (directed (fun from to _ => from <? to) res) in
    let? dag := lift (setMinId true dag 1) in
    let? dag := permutate true dag in
    ret (showGraph noData dag ++ [10]).
End Programs.
