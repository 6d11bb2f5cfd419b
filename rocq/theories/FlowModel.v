(* Model of the flow networks of /repo/src/graph_gen.h:944-985. Node numbers and loop counters are
   mathematical integers (n is at most 63), capacities are checked. *)
From Verif Require Import Base GenModel GenOpsModel GenMakeModel.

(* 952-957: the loop *)
Fixpoint ffLoop (fuel : nat) (n : Z) (res : graph Z) (i j c : Z) : outcome (graph Z) :=
  match fuel with
  | O => Fuel
  | S fuel' =>
    if j <? 2 * n then
      let! res := addEdge true res i (i + 1) c in
      let! res := addEdge true res i (j - 1) c in
      let! res := addEdge true res (i + 1) j c in
      let! res := addEdge true res (j - 1) j c in
      let! c := chk (c * 2) in
      ffLoop fuel' n res (i - 1) (j + 1) c
    else Ok res
  end.
(* 948-959 *)
Definition ffWorstcase (n : Z) : outcome (graph Z) :=
  let! _ := judgeAssert ((0 <? n) && (n <=? 63)) in
  let! res := newGraph 0 (2 * n) in
  let! res := addEdge true res (n - 1) n 1 in
  ffLoop 64 n res (n - 2) (n + 1) 1.

(* 5ll << k *)
Definition shl5 (k : Z) : outcome Z :=
  if (0 <=? k) && (k <? 64) then Ok ((5 * 2 ^ k + two63) mod (2 * two63) - two63) else UB.
(* 964-985: edges with capacity and cost *)
Definition mcmfWorstcase (n : Z) : outcome (graph (Z * Z)) :=
  let! _ := judgeAssert ((0 <? n) && (n <=? 60)) in
  let! res := newGraph 0 (2 * n + 2) in
  let! s := shl1l n in
  let! s := chk (5 * s) in
  let inf := Z.quot s 4 in
  (* 968-970 *)
  let! l := mapM (fun i => let! c := (if i <? 2 then Ok (2 * i + 1) else shl5 (i - 2)) in Ok (0, i + 1, (c, 0))) (upto n) in
  let! res := addEdges true res l in
  (* 971 *)
  let! res := addEdge true res 1 (n + 1) (inf, 0) in
  (* 972-977 *)
  let! l := mapM (fun p : Z * Z => let (i, j) := p in
                  let! w := shl1l (Z.max i j) in
                  let! w := chk (w - 1) in
                  Ok (i + 1, j + 1 + n, (inf, w)))
    (flat_map (fun i => map (fun j => (i, j)) (filter (fun j => negb (i =? j)) (upto n))) (upto n)) in
  let! res := addEdges true res l in
  (* 978-980 *)
  let! l := mapM (fun i => let! c := (if i <? 2 then Ok 2 else shl5 (i - 2)) in Ok (i + 1 + n, 2 * n + 1, (c, 0))) (upto n) in
  addEdges true res l.
