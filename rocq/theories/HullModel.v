(* archive/convex.cpp: convexHull and Random::convexDisk. Points are pairs of Integers. *)
From Verif Require Import Base RndModel FloatModel RandSeqModel RealModel GeoModel.
From Coq Require Import ZArith List.
Import ListNotations.
Open Scope Z_scope.

(* convex.cpp:8-10, the comparison of the sort *)
Definition lexLess (a b : point) : bool :=
  if fst a =? fst b then snd a <? snd b else fst a <? fst b.
(* convex.cpp:8-10, std::sort: the comparison separates any two different points, so all
   sorting algorithms give the same sequence *)
Fixpoint insertPoint (x : point) (l : list point) : list point :=
  match l with
  | [] => [x]
  | y :: l' => if lexLess y x then y :: insertPoint x l' else x :: l
  end.
Definition sortPoints (l : list point) : list point := fold_right insertPoint [] l.
(* convex.cpp:11, erase(unique(...)): of equal neighbours the first remains *)
Fixpoint uniquePoints (l : list point) : list point :=
  match l with
  | a :: ((b :: _) as l') => if (fst a =? fst b) && (snd a =? snd b) then uniquePoints l' else a :: uniquePoints l'
  | _ => l
  end.

(* convex.cpp:15 and 19, the inner loops. h is the part h[0..k) with the last entry first. The vector
   has room for 2 * size entries; at most size + (size - 1) are written. *)
Fixpoint dropTurns (t : nat) (h : list point) (c : point) : outcome (list point) :=
  match h with
  | b :: ((a :: _) as h') =>
    if (t <? length h)%nat then
      let! x := cross3 a b c in
      if x <? 0 then dropTurns t h' c else Ok h
    else Ok h
  | _ => Ok h
  end.
(* convex.cpp:14-17 and 18-21 *)
Fixpoint hullPass (t : nat) (h : list point) (ps : list point) : outcome (list point) :=
  match ps with
  | [] => Ok h
  | c :: ps' => let! h := dropTurns t h c in hullPass t (c :: h) ps'
  end.
(* convex.cpp:7-24 *)
Definition convexHull (p : list point) : outcome (list point) :=
  let q := uniquePoints (sortPoints p) in
  let! h := hullPass 1 [] q in
  let! h := hullPass (length h) h (tl (rev q)) in
  Ok (rev h).

Section Disk.
  Variable sqrt sin cos : real -> real.
  Variable llround : real -> Z.   (* std::llround; only its being an Integer is used *)
  (* convex.cpp:36-45; fuel bounds the rounds, fuel' those inside of Random::real *)
  Fixpoint sampleRing (fuel fuel' : nat) (dim r : Z) : rnd point :=
    match fuel with
    | O => RRet Fuel
    | S fuel =>
      let? alpha := realIn fuel' rzero (rmul (ofZ 2) pi) in
      let? square := realIn fuel' (rsub (ofZ r) (lit 71 100)) (radd (ofZ dim) (lit 71 100)) in
      let radius := sqrt square in
      let x := llround (rmul (sin alpha) radius) in
      let y := llround (rmul (cos alpha) radius) in
      let? xx := lift (chk (x * x)) in
      let? yy := lift (chk (y * y)) in
      let? d := lift (chk (xx + yy)) in
      if (r <=? d) && (d <? dim) then ret (x, y) else sampleRing fuel fuel' dim r
    end.
  (* convex.cpp:51-53 *)
  Fixpoint sampleRings (count fuel fuel' : nat) (dim r : Z) : rnd (list point) :=
    match count with
    | O => ret []
    | S count => let? p := sampleRing fuel fuel' dim r in let? l := sampleRings count fuel fuel' dim r in ret (p :: l)
    end.
  (* convex.cpp:50 *)
  Fixpoint innerSquare (r : Z) (l : list point) : outcome Z :=
    match l with
    | [] => Ok r
    | p :: l' =>
      let! xx := chk (fst p * fst p) in let! yy := chk (snd p * snd p) in let! d := chk (xx + yy) in
      innerSquare (Z.min r d) l'
    end.
  (* pop_back of a vector; undefined if it is empty *)
  Definition popBack (l : list point) : outcome (list point) := match l with [] => UB | _ => Ok (removelast l) end.
  (* convex.cpp:48-56; the comparison with size() is unsigned, so it never ends for a negative n *)
  Fixpoint diskLoop (rounds fuel fuel' : nat) (n dim : Z) (res : list point) : rnd (list point) :=
    match rounds with
    | O => RRet Fuel
    | S rounds =>
      let? r := lift (innerSquare dim res) in
      let? more := sampleRings (Z.to_nat n) fuel fuel' dim r in
      let? res := lift (convexHull (res ++ more)) in
      let? res := lift (popBack res) in
      if alen res <=? u64 n then diskLoop rounds fuel fuel' n dim res else ret res
    end.
  (* convex.cpp:30-62 *)
  Definition convexDisk (rounds fuel fuel' : nat) (n dim : Z) : rnd (list point) :=
    let? _ := lift (judgeAssert (dim <=? 0x3FFFFFFF)) in
    let? nn := lift (chk (n * n)) in
    let? _ := lift (judgeAssert (Z.quot nn 1000 <=? dim)) in
    let? dim := lift (chk (dim * dim)) in
    let? res := diskLoop rounds fuel fuel' n dim [(0, 0)] in
    let? res := lift (popBack res) in
    let? res := shuffle res in
    lift (convexHull (firstn (Z.to_nat n) res)).
End Disk.
