(* Random::convex of /repo/src/validate.h, and details::cyclicSort. *)
From Verif Require Import Base RndModel GeoModel RandSeqModel.

(* validate.h:1183-1186, details::left *)
Definition left (p : point) : bool := if fst p =? 0 then snd p <? 0 else fst p <? 0.

(* validate.h:1190-1192, the comparator of cyclicSort *)
Definition cyclicLess (a b : point) : outcome bool :=
  if xorb (left a) (left b) then Ok (left a && negb (left b))
  else let! c := cross a b in Ok (0 <? c).

(* all elements can be compared without an overflow *)
Fixpoint allDefined {A} (l : list A) (f : A -> outcome bool) : outcome unit :=
  match l with
  | [] => Ok tt
  | x :: l => let! _ := f x in allDefined l f
  end.
Fixpoint allPairs (l all : list point) : outcome unit :=
  match l with
  | [] => Ok tt
  | a :: l => let! _ := allDefined all (cyclicLess a) in allPairs l all
  end.

Section oracles.
  (* std::sort with cyclicLess, unspecified for elements that it does not separate *)
  Variable srt : list point -> list point.
  (* std::partition: the elements with and without the property, each in unspecified order *)
  Variable prt : (Z -> bool) -> list Z -> list Z * list Z.
  (* Random::binomial(m, 0.5), which computes with floating point numbers *)
  Variable binom : Z -> rnd Z.

  (* validate.h:1188-1193; which elements std::sort compares is unspecified, so every
     comparison has to be defined *)
  Definition cyclicSort (l : list point) : outcome (list point) :=
    let! _ := allPairs l l in Ok (srt l).

  (* validate.h:1843-1844 *)
  Fixpoint negAll (l : list Z) : outcome (list Z) :=
    match l with
    | [] => Ok []
    | z :: l => let! z := chk (- z) in let! l := negAll l in Ok (z :: l)
    end.

  (* validate.h:1862-1869; res without the last point, maxX and maxY *)
  Fixpoint walk (dirs : list point) (x y maxX maxY : Z) : outcome (list point * Z * Z) :=
    match dirs with
    | [] => Ok ([], maxX, maxY)
    | dir :: dirs =>
        let! tx := chk (x + fst dir) in
        let! ty := chk (y + snd dir) in
        let! (res, mx, my) := walk dirs tx ty (Z.max maxX tx) (Z.max maxY ty) in
        Ok ((x, y) :: res, mx, my)
    end.

  (* validate.h:1871-1874 *)
  Fixpoint shiftAll (dim maxX maxY : Z) (res : list point) : outcome (list point) :=
    match res with
    | [] => Ok []
    | (x, y) :: res =>
        let! a := chk (dim - 1) in
        let! b := chk (a - maxX) in
        let! x := chk (x + b) in
        let! b := chk (a - maxY) in
        let! y := chk (y + b) in
        let! res := shiftAll dim maxX maxY res in
        Ok ((x, y) :: res)
    end.

  (* validate.h:1857-1875 *)
  Definition polygonOf (dim : Z) (dirs : list point) : outcome (list point) :=
    let! dirs := cyclicSort dirs in
    let! (res, maxX, maxY) := walk dirs 0 0 0 0 in
    shiftAll dim maxX maxY res.

  (* validate.h:1839-1856, one iteration: None is continue *)
  Definition draw (n dim : Z) : rnd (option (list point)) :=
    let? m := lift (chk (n - 2)) in
    let? l := binom m in
    let? l := lift (chk (1 + l)) in
    let? d := binom m in
    let? d := lift (chk (1 + d)) in
    let? s := lift (chk (2 * dim)) in
    let? s := lift (chk (s - 2)) in
    let? x := partition s l 0 in
    let? y := partition s d 0 in
    let? x := lift (negAll x) in
    let? y := lift (negAll y) in
    let? nl := lift (chk (n - l)) in
    let? x' := partition s nl 0 in
    let? nd := lift (chk (n - d)) in
    let? y' := partition s nd 0 in
    let (x0, x1) := prt (fun z => z =? 0) (x ++ x') in
    let (y1, y0) := prt (fun z => negb (z =? 0)) (y ++ y') in
    if n <? Z.of_nat (length x0) + Z.of_nat (length y0) then ret None
    else
      let? x1 := shuffle x1 in
      let? y1 := match x0 with [] => ret y1 | _ => shuffle y1 end in
      (* x and y have n elements *)
      ret (Some (combine (x0 ++ x1) (y1 ++ y0))).

  (* validate.h:1838-1876, the loop, with at most fuel iterations *)
  Fixpoint convexLoop (fuel : nat) (n dim : Z) : rnd (list point) :=
    match fuel with
    | O => RRet Fuel
    | S fuel =>
        let? o := draw n dim in
        match o with
        | None => convexLoop fuel n dim
        | Some dirs => lift (polygonOf dim dirs)
        end
    end.

  (* validate.h:1831-1877 *)
  Definition randomConvex (fuel : nat) (n dim : Z) : rnd (list point) :=
    let? _ := lift (judgeAssert (dim <=? 0x3FFFFFFF)) in
    let? _ := lift (judgeAssert (0 <? dim)) in
    let? u := lift (chk (8 * dim)) in
    let? u := lift (chk (u - 8)) in
    let? _ := lift (judgeAssert (n <=? u)) in
    let? _ := lift (judgeAssert (3 <=? n)) in
    convexLoop fuel n dim.
End oracles.
