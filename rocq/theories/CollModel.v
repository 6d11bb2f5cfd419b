(* Random::nonCollinearPoints of /repo/src/validate.h. *)
From Verif Require Import Base RndModel MathModel RandSeqModel.

(* validate.h:1885-1890, the loop drawing rotA and rotB, with at most fuel iterations *)
Fixpoint rotLoop (fuel : nat) (p : Z) : rnd (Z * Z) :=
  match fuel with
  | O => RRet Fuel
  | S fuel =>
      let? a := rint 0 p in
      let? b := rint 0 p in
      if (a =? 0) && (b =? 0) then rotLoop fuel p else ret (a, b)
  end.

Record drawn := { dp : Z; dA : Z; dB : Z; dabc : list Z; dx : Z; dy : Z; dxs : list Z }.

(* validate.h:1881-1899, everything that is drawn *)
Definition draws (fuel : nat) (n dim : Z) : rnd drawn :=
  let? _ := lift (judgeAssert (dim <=? 0x1FFFFFFF)) in
  let? _ := lift (judgeAssert (0 <=? n)) in
  let? _ := lift (judgeAssert (n <? dim)) in
  let? lo := lift (chk (dim - 1)) in
  let? d2 := lift (chk (2 * dim)) in
  let? hi := lift (chk (d2 + 2)) in
  let? p := randomPrime lo hi in
  let? (rotA, rotB) := rotLoop fuel p in
  let? a := rint 1 p in
  let? b := rint 0 p in
  let? c := rint 0 p in
  let? l := lift (chk (- dim + 1)) in
  let? u := lift (chk (dim - p)) in
  let? x := rint l u in
  let? y := rint l u in
  let? xs := distinct n 0 p in
  ret {| dp := p; dA := rotA; dB := rotB; dabc := [a; b; c]; dx := x; dy := y; dxs := xs |}.

(* validate.h:1902-1907 *)
Fixpoint horner (abc : list Z) (p x y : Z) : outcome Z :=
  match abc with
  | [] => Ok y
  | add :: abc =>
      let! y := chk (y * x) in
      let! y := chk (y + add) in
      let! y := crem y p in
      horner abc p x y
  end.

(* validate.h:1902-1912, one point *)
Definition pointFor (d : drawn) (tmpX : Z) : outcome (Z * Z) :=
  let p := dp d in
  let! tmpY := horner (dabc d) p tmpX 0 in
  let! u := chk (tmpX * dA d) in
  let! v := chk (tmpY * dB d) in
  let! w := chk (u - v) in
  let! x := applyMod w p in
  let! u := chk (tmpX * dB d) in
  let! v := chk (tmpY * dA d) in
  let! w := chk (u + v) in
  let! y := applyMod w p in
  let! x := chk (x + dx d) in
  let! y := chk (y + dy d) in
  Ok (x, y).

Fixpoint pointsFor (d : drawn) (xs : list Z) : outcome (list (Z * Z)) :=
  match xs with
  | [] => Ok []
  | x :: xs => let! q := pointFor d x in let! l := pointsFor d xs in Ok (q :: l)
  end.

(* validate.h:1880-1915; the computation after the draws is separate *)
Definition nonCollinearPoints (fuel : nat) (n dim : Z) : rnd (list (Z * Z)) :=
  let? d := draws fuel n dim in lift (pointsFor d (dxs d)).
