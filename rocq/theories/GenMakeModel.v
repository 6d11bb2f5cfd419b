(* Model of the graph generators of /repo/src/graph_gen.h:628-993. Node counts are mathematical
   integers like the node numbers of GenModel; products that may overflow are checked. Nested
   loops adding edges are the addition of the list of edges they add, in their order. *)
From Verif Require Import Base RndModel RandSeqModel SeqModel GenModel GenOpsModel.

(* the list of h x for x in l *)
Fixpoint mapM {A B} (h : A -> outcome B) (l : list A) : outcome (list B) :=
  match l with
  | [] => Ok []
  | x :: l' =>
    let! y := h x in
    let! r := mapM h l' in
    Ok (y :: r)
  end.
(* [0, n) for any n *)
Definition upto (n : Z) : list Z := zseq 0 (Z.to_nat n).
(* 1 << k for the type int *)
Definition shl1 (k : Z) : outcome Z :=
  if (0 <=? k) && (k <? 31) then Ok (2 ^ k) else if k =? 31 then Ok (- 2 ^ 31) else UB.
(* 1ll << k *)
Definition shl1l (k : Z) : outcome Z :=
  if (0 <=? k) && (k <? 63) then Ok (2 ^ k) else if k =? 63 then Ok (- 2 ^ 63) else UB.

Section Make.
  Variable E : Type.
  Variable dflt : E.   (* the default argument {} of data *)
  Variable dir : bool. (* the template parameter DIR *)

  (* addEdge(u, v) for a list of pairs *)
  Definition addPairs (dir : bool) (g : graph E) (l : list (Z * Z)) : outcome (graph E) :=
    addEdges dir g (map (fun p => (fst p, snd p, dflt)) l).

  (* 628-632 *)
  Definition independent (n : Z) : outcome (graph E) := newGraph 0 n.
  (* 634-646 *)
  Definition clique (n : Z) : outcome (graph E) :=
    let! res := newGraph 0 n in
    addPairs dir res (flat_map (fun j => map (fun i => (i, j)) (upto j)) (upto n)).
  (* 648-659 *)
  Definition bipartite (n m : Z) : outcome (graph E) :=
    let! res := newGraph 0 (n + m) in
    addPairs dir res (flat_map (fun i => map (fun j => (i, n + j)) (upto m)) (upto n)).
  (* 667-680  one drawn number *)
  Definition bipartiteEdge (n m x : Z) : outcome (Z * Z) :=
    let! i := crem x n in
    let! j := cdiv x n in
    let! j := chk (j + n) in
    if dir then
      let! nm := chk (n * m) in
      if nm <=? x then let! j := chk (j - m) in Ok (j, i) else Ok (i, j)
    else Ok (i, j).
  (* 661-682 *)
  Definition randomBipartite (n m k : Z) : rnd (graph E) :=
    let? res := lift (newGraph 0 (n + m)) in
    let? lim := lift (chk (n * m)) in
    let? lim := lift (if dir then chk (lim * 2) else Ok lim) in
    let? codes := distinct k 0 lim in
    let? pairs := lift (mapM (bipartiteEdge n m) codes) in
    lift (addPairs dir res pairs).
  (* 691-696 *)
  Definition star (leaves : Z) : outcome (graph E) := bipartite 1 leaves.
  (* 698-706 *)
  Definition path (edges : Z) : outcome (graph E) :=
    let! res := newGraph 0 (edges + 1) in
    addPairs dir res (map (fun i => (i, i + 1)) (upto edges)).

  (* 776-790  the inner loop: j = 1, 2, 4, ... *)
  Fixpoint latticeLoop (fuel : nat) (n i j : Z) : outcome (list (Z * Z)) :=
    if j <? n then
      match fuel with
      | O => Fuel
      | S f =>
        let! j' := chk (j * 2) in
        let! r := latticeLoop f n i j' in
        Ok (if Z.lor i j =? i then (i, Z.lxor i j) :: r else r)
      end
    else Ok [].
  Definition booleanLattice (level : Z) : outcome (graph E) :=
    let! n := shl1 level in
    let! res := newGraph 0 n in
    let! l := mapM (fun i => latticeLoop 64 n i 1) (upto n) in
    addPairs dir res (concat l).
  (* 792-805  the inner loop over j *)
  Fixpoint radoLoop (fuel : nat) (i j : Z) : outcome (list (Z * Z)) :=
    let! s := shl1 j in
    if s <? i then
      match fuel with
      | O => Fuel
      | S f =>
        let! r := radoLoop f i (j + 1) in
        Ok (if Z.lor i s =? i then (i, j) :: r else r)
      end
    else Ok [].
  Definition rado (n : Z) : outcome (graph E) :=
    let! res := newGraph 0 n in
    let! l := mapM (fun i => radoLoop 64 i 0) (upto n) in
    addPairs dir res (concat l).

  (* 767-773  completeTree on level 2 + h: append a copy of the smaller tree, join its root *)
  Fixpoint treeLoop (sub : graph E) (res : graph E) (i : nat) : outcome (graph E) :=
    match i with
    | O => Ok res
    | S i' =>
      let next := nodeCount res in
      let! res := append dir res sub in
      let! res := addEdge dir res 0 next dflt in
      treeLoop sub res i'
    end.
  Fixpoint treeLevels (children : Z) (h : nat) : outcome (graph E) :=
    match h with
    | O => star children
    | S h' =>
      let! res := newGraph 0 1 in
      let! sub := treeLevels children h' in
      treeLoop sub res (Z.to_nat children)
    end.
  (* 761-774 *)
  Definition completeTree (level children : Z) : outcome (graph E) := treeLevels children (Z.to_nat (level - 2)).

  (* 862-882  one drawn number *)
  Definition graphEdge (n x : Z) : outcome (Z * Z) :=
    let! i := cdiv x n in
    let! j := crem x n in
    if dir then Ok (if i =? j then n - 1 else i, j)
    else Ok (if j <=? i then (n - 2 - i, n - 1 - j) else (i, j)).
  (* 858-884 *)
  Definition randomGraph (n m : Z) : rnd (graph E) :=
    let? res := lift (newGraph 0 n) in
    let? lim := lift (chk (n * (n - 1))) in
    let lim := if dir then lim else Z.quot lim 2 in
    let? codes := distinct m 0 lim in
    let? pairs := lift (mapM (graphEdge n) codes) in
    lift (addPairs dir res pairs).
End Make.
Arguments addPairs {E}. Arguments independent {E}. Arguments clique {E}. Arguments bipartite {E}.
Arguments randomBipartite {E}. Arguments star {E}. Arguments path {E}. Arguments booleanLattice {E}.
Arguments rado {E}. Arguments treeLoop {E}. Arguments treeLevels {E}. Arguments completeTree {E}.
Arguments randomGraph {E}.

(* undirected only *)
Section Undirected.
  Variable E : Type.
  Variable dflt : E.
  (* 708-714; returns a Graph<E>, so it compiles only with DIR = false *)
  Definition cycle (n : Z) : outcome (graph E) :=
    let! p := path dflt false (n - 1) in
    addEdge false p (n - 1) 0 dflt.
  (* 716-720 *)
  Definition wheel (outer : Z) : outcome (graph E) :=
    let! s := star dflt false outer in
    let! p := path dflt false outer in
    let! p := setMinId false p 1 in
    combine false s p.
  (* 722-727 *)
  Definition lolly (p c : Z) : outcome (graph E) :=
    let! a := path dflt false p in
    let! b := clique dflt false c in
    let! b := setMinId false b p in
    combine false a b.
  (* 729-734 *)
  Definition broom (p l : Z) : outcome (graph E) :=
    let! a := path dflt false p in
    let! b := star dflt false l in
    let! b := setMinId false b p in
    combine false a b.
  (* 736-750 *)
  Definition grid (n m : Z) : outcome (graph E) :=
    let! a := path dflt false (n - 1) in
    let! b := path dflt false (m - 1) in
    cartesian dflt false a b.
  (* 752-758  on dimension 1 + d *)
  Fixpoint cubes (d : nat) : outcome (graph E) :=
    match d with
    | O => clique dflt false 2
    | S d' =>
      let! a := cubes d' in
      let! b := clique dflt false 2 in
      cartesian dflt false a b
    end.
  Definition hypercube (dimension : Z) : outcome (graph E) :=
    if dimension <? 2 then clique dflt false (dimension + 1)
    else cubes (Z.to_nat (dimension - 1)).

  (* 815-821  getNext; current and skip are the state *)
  Fixpoint scan (fuel : nat) (count : list Z) (current : Z) : outcome Z :=
    let! c := aget count current in
    if 0 <? c then
      match fuel with
      | O => Fuel
      | S f => scan f count (current + 1)
      end
    else Ok current.
  Definition getNext (count : list Z) (current skip : Z) : outcome (Z * Z) :=
    if (0 <=? skip) && (skip <=? current) then Ok (skip, current)
    else let! current := scan (length count) count (current + 1) in Ok (current, current).
  (* 822-831  the loop over the code and the last edge; skip is -1 after getNext *)
  Fixpoint prueferLoop (code : list Z) (count : list Z) (current skip : Z) : outcome (list (Z * Z)) :=
    match code with
    | [] =>
      let! (x, current) := getNext count current skip in
      let! (y, current) := getNext count current (-1) in
      Ok [(x, y)]
    | x :: code' =>
      let! (y, current) := getNext count current skip in
      let! c := aget count x in
      let! count := aset count x (c - 1) in
      let! r := prueferLoop code' count current (if c - 1 =? 0 then x else -1) in
      Ok ((x, y) :: r)
    end.
  (* 812 *)
  Fixpoint counts (code : list Z) (count : list Z) : outcome (list Z) :=
    match code with
    | [] => Ok count
    | x :: code' =>
      let! c := aget count x in
      let! count := aset count x (c + 1) in
      counts code' count
    end.
  (* 807-833; addEdge throws before the next step, so the order of failures differs only
     where a code entry is out of range, which is undefined earlier *)
  Definition pruefer (code : list Z) : outcome (graph E) :=
    let n := alen code + 2 in
    let! res := newGraph 0 n in
    let! count := counts code (repeat 0 (Z.to_nat n)) in
    let! pairs := prueferLoop code count (-1) (-1) in
    addPairs dflt false res pairs.
  (* 841-843 *)
  Fixpoint codes (k : nat) (n : Z) : rnd (list Z) :=
    match k with
    | O => ret []
    | S k' =>
      let? x := rint 0 n in
      let? r := codes k' n in
      ret (x :: r)
    end.
  (* 835-844, DIR = false *)
  Definition randomTree (n : Z) : rnd (graph E) :=
    if n <=? 2 then lift (clique dflt false n)
    else
      let? code := codes (Z.to_nat (n - 2)) n in
      lift (pruefer code).
End Undirected.
Arguments cycle {E}. Arguments wheel {E}. Arguments lolly {E}. Arguments broom {E}. Arguments grid {E}.
Arguments cubes {E}. Arguments hypercube {E}. Arguments pruefer {E}. Arguments randomTree {E}.

(* 845-855  DIR = true: the edges of tmp directed away from 0 by a recursive search *)
Fixpoint orient {E} (fuel : nat) (tmp : graph unit) (dflt : E) (res : graph E) (cur pref : Z) : outcome (graph E) :=
  match fuel with
  | O => Fuel
  | S f =>
    let! l := neighbours tmp cur in
    (fix each (l : list (Z * unit)) (res : graph E) : outcome (graph E) :=
       match l with
       | [] => Ok res
       | (to, _) :: l' =>
         if to =? pref then each l' res
         else
           let! res := addEdge true res cur to dflt in
           let! res := orient f tmp dflt res to cur in
           each l' res
       end) l res
  end.
Definition randomTreeDir {E} (dflt : E) (n : Z) : rnd (graph E) :=
  let? tmp := randomTree tt n in
  let? res := lift (newGraph 0 n) in
  lift (orient (S (Z.to_nat n)) tmp dflt res (minId tmp) (minId tmp - 1)).
