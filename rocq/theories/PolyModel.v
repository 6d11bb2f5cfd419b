(* archive/polygon.cpp: Random::polygon. Points are pairs of Integers. *)
From Verif Require Import Base RndModel RandSeqModel GeoModel.
From Coq Require Import ZArith List.
Import ListNotations.
Open Scope Z_scope.

(* polygon.cpp:9-16, dot(p, a, b); dot(a, b) of lines 4-7 is the one of validate.h *)
Definition dot3 (p a b : point) : outcome Z :=
  let! ax := chk (fst a - fst p) in
  let! ay := chk (snd a - snd p) in
  let! bx := chk (fst b - fst p) in
  let! by_ := chk (snd b - snd p) in
  dot (ax, ay) (bx, by_).

(* polygon.cpp:25-27; fuel bounds the rounds *)
Fixpoint chooseA (fuel : nat) (first lst : point) (mid : list point) : rnd point :=
  match fuel with
  | O => RRet Fuel
  | S fuel =>
    let? a := select mid in
    let? c := lift (cross3 a first lst) in
    if c =? 0 then chooseA fuel first lst mid else ret a
  end.
(* polygon.cpp:30-36 *)
Fixpoint candidates (a first lst : point) (mid : list point) : outcome (list point) :=
  match mid with
  | [] => Ok []
  | p :: mid =>
    let! cFirst := cross3 a p first in
    let! cLast := cross3 a p lst in
    let! l := candidates a first lst mid in
    Ok (if negb (cFirst =? 0) && (Z.sgn cFirst * Z.sgn cLast <=? 0) then p :: l else l)
  end.
(* polygon.cpp:40-44, the lambda *)
Definition sameSide (a b first p : point) : outcome bool :=
  let! c := cross3 a b p in
  if negb (c =? 0) then let! d := cross3 a b first in Ok (Z.sgn c =? Z.sgn d)
  else let! x := dot3 a b p in let! y := dot3 a b first in Ok (Z.sgn x =? Z.sgn y).
Fixpoint sides (a b first : point) (mid : list point) : outcome (list (point * bool)) :=
  match mid with
  | [] => Ok []
  | p :: mid => let! s := sameSide a b first p in let! l := sides a b first mid in Ok ((p, s) :: l)
  end.
Definition samePoint (a b : point) : bool := (fst a =? fst b) && (snd a =? snd b).
(* polygon.cpp:46-48: h is *cut, l the elements behind it *)
Fixpoint swapCut (a h : point) (l : list point) : list point :=
  match l with
  | [] => [h]
  | x :: l => if samePoint x a then match swapCut a x l with c :: r => c :: h :: r | [] => [] end
              else match swapCut a h l with c :: r => c :: x :: r | [] => [] end
  end.
Definition cutToFront (a : point) (l : list point) : list point := match l with [] => [] | h :: l => swapCut a h l end.

Section Oracles.
  (* std::sort by the dot product with dir, unspecified for points with equal product *)
  Variable srt : point -> list point -> list point.
  (* std::partition of points labelled with the value of the lambda: each part in unspecified order *)
  Variable prt : list (point * bool) -> list point * list point.
  (* n * sqrt(n) <= dim, computed in floating point *)
  Variable fits : Z -> Z -> bool.

  (* polygon.cpp:19-52; fuel bounds the depth and the rounds of chooseA. The first and the last
     element of the range stay where they are. *)
  Fixpoint findLine (fuel : nat) (l : list point) : rnd (list point) :=
    match fuel with
    | O => RRet Fuel
    | S fuel =>
      match l with
      | first :: ((_ :: _ :: _) as t) =>
        let lst := last t first in
        let mid := removelast t in
        let? a := chooseA fuel first lst mid in
        let? bs := lift (candidates a first lst mid) in
        let? b := select (lst :: bs) in
        let? labels := lift (sides a b first mid) in
        let (s1, s2) := prt labels in
        match cutToFront a s2 ++ [lst] with
        | [] => RRet UB
        | c :: t =>
          let? l1 := findLine fuel (first :: s1 ++ [c]) in
          let? l2 := findLine fuel (last l1 c :: t) in
          ret (removelast l1 ++ l2)
        end
      | _ => ret l
      end
    end.

  (* polygon.cpp:57-59 *)
  Definition randomPoint (dim : Z) : rnd point :=
    let? m := lift (chk (- dim)) in
    let? lo := lift (chk (m + 1)) in
    let? x := rint lo dim in
    let? y := rint lo dim in
    ret (x, y).
  (* polygon.cpp:68-69 *)
  Fixpoint randomPoints (n : nat) (dim : Z) : rnd (list point) :=
    match n with
    | O => ret []
    | S n => let? p := randomPoint dim in let? l := randomPoints n dim in ret (p :: l)
    end.
  Fixpoint dotsDefined (dir : point) (l : list point) : outcome unit :=
    match l with [] => Ok tt | p :: l => let! _ := dot p dir in dotsDefined dir l end.
  (* polygon.cpp:74, swap(points[1], points.back()) *)
  Definition swapSecond (l : list point) : outcome (list point) :=
    match l with
    | p :: q :: ((_ :: _) as t) => Ok (p :: last t q :: removelast t ++ [q])
    | [p; q] => Ok [p; q]
    | _ => UB
    end.
  (* polygon.cpp:71-76, what happens to the points *)
  Definition polygonOn (fuel : nat) (points : list point) (dir : point) : rnd (list point) :=
    let? _ := lift (dotsDefined dir points) in
    let? l := lift (swapSecond (srt dir points)) in
    findLine fuel l.
  (* polygon.cpp:62-77 *)
  Definition polygon (fuel : nat) (n dim : Z) : rnd (list point) :=
    let? _ := lift (judgeAssert (dim <=? 0x3FFFFFFF)) in
    let? _ := lift (judgeAssert (0 <? dim)) in
    let? _ := lift (judgeAssert (fits n dim)) in
    let? _ := lift (judgeAssert (3 <=? n)) in
    let? points := randomPoints (Z.to_nat n) dim in
    let? dir := randomPoint 0x3FFFFFFF in
    polygonOn fuel points dir.
End Oracles.
