(* The geometry helpers of /repo/src/validate.h, for points that are pairs of Integer. *)
From Verif Require Import Base.

Definition point : Type := Z * Z.

(* validate.h:1169-1172, cross(a, b) *)
Definition cross (a b : point) : outcome Z :=
  let! u := chk (fst a * snd b) in
  let! v := chk (snd a * fst b) in
  chk (u - v).

(* validate.h:1173-1180, cross(p, a, b) *)
Definition cross3 (p a b : point) : outcome Z :=
  let! ax := chk (fst a - fst p) in
  let! ay := chk (snd a - snd p) in
  let! bx := chk (fst b - fst p) in
  let! by_ := chk (snd b - snd p) in
  cross (ax, ay) (bx, by_).

(* validate.h:1164-1167, dot(a, b) *)
Definition dot (a b : point) : outcome Z :=
  let! u := chk (fst a * fst b) in
  let! v := chk (snd a * snd b) in
  chk (u + v).

(* validate.h:1195-1203, details::assertBounds; returns the number of points *)
Fixpoint assertBounds (ps : list point) : outcome Z :=
  match ps with
  | [] => Ok 0
  | (x, y) :: ps =>
      let! ax := chk (Z.abs x) in
      let! _ := judgeAssert (ax <=? 0x3FFFFFFF) in
      let! ay := chk (Z.abs y) in
      let! _ := judgeAssert (ay <=? 0x3FFFFFFF) in
      let! n := assertBounds ps in
      Ok (n + 1)
  end.

Definition pointEq (a b : point) : bool := (fst a =? fst b) && (snd a =? snd b).

(* validate.h:1211-1216, the loop of isConvex over the indices i *)
Fixpoint convexLoop (ps : list point) (n : Z) (is : list Z) (hasArea : bool) : outcome bool :=
  match is with
  | [] => Ok hasArea
  | i :: is =>
      let! a := aget ps i in
      let! b := aget ps ((i + 1) mod n) in
      if pointEq a b then Ok false
      else
        let! o := aget ps 0 in
        let! c := cross3 o a b in
        if c <? 0 then Ok false
        else
          let! e := aget ps ((i + 2) mod n) in
          let! c := cross3 a b e in
          if c <? 0 then Ok false
          else convexLoop ps n is (hasArea || negb (c =? 0))
  end.

Definition indices (n : Z) : list Z := map Z.of_nat (seq 0 (Z.to_nat n)).

(* validate.h:1206-1218 *)
Definition isConvex (ps : list point) : outcome bool :=
  let! n := assertBounds ps in
  if n <? 3 then Ok false
  else convexLoop ps n (indices n) false.

(* validate.h:1228-1230, the loop of isStrictlyConvex *)
Fixpoint strictLoop (ps : list point) (n : Z) (is : list Z) : outcome bool :=
  match is with
  | [] => Ok true
  | i :: is =>
      let! a := aget ps i in
      let! b := aget ps ((i + 1) mod n) in
      let! e := aget ps ((i + 2) mod n) in
      let! c := cross3 a b e in
      if c =? 0 then Ok false else strictLoop ps n is
  end.

(* validate.h:1224-1232 *)
Definition isStrictlyConvex (ps : list point) : outcome bool :=
  let! b := isConvex ps in
  if negb b then Ok false
  else strictLoop ps (alen ps) (indices (alen ps)).

(* validate.h:1311, the loop of isCCW; the last point seen and the area so far *)
Fixpoint areaLoop (prev : point) (ps : list point) (area : Z) : outcome Z :=
  match ps with
  | [] => Ok area
  | q :: ps =>
      let! c := cross prev q in
      let! area := chk (area + c) in
      areaLoop q ps area
  end.

(* validate.h:1306-1313 *)
Definition isCCW (ps : list point) : outcome bool :=
  let! n := assertBounds ps in
  if n <? 2 then Ok false
  else
    let! l := aget ps (n - 1) in
    let! f := aget ps 0 in
    let! area := cross l f in
    let! area := areaLoop f (tl ps) area in
    Ok (0 <? area).
