(* Model of the example visualizers, /repo/example/visualizer.png.cpp and visualizer.svg.cpp, with Visualizer::init
   (/repo/src/visualizer_png.h:415-430, /repo/src/visualizer_svg.h:539-553). *)
From Coq Require Import String.
From Verif Require Import Base FloatModel SeqModel InputSpec InitSpec RealModel DecimalModel SvgModel ColorModel SvgDocModel.
From Verif Require PngModel.
From Coq Require Import ZArith List SpecFloat.
Import ListNotations.
Open Scope Z_scope.
Open Scope list_scope.

(* std::ifstream: the text that is left, None after a failure or if the file could not be opened *)
Definition ifstream : Type := option (list Z).
Definition isSpace (c : Z) : bool := (c =? 32) || ((9 <=? c) && (c <=? 13)).
Fixpoint skipSpace (s : list Z) : list Z := match s with c :: r => if isSpace c then skipSpace r else s | [] => [] end.
Definition minInt : Z := - 2 ^ 63.
Definition maxInt : Z := 2 ^ 63 - 1.
(* operator>>(Integer&) of libstdc++: white space, a sign, digits. The first part is the value stored, None if the
   variable is not assigned. Without digits 0 is stored, numbers out of range are clamped, and the stream fails *)
Definition extractInt (s : ifstream) : option Z * ifstream :=
  match s with
  | None => (None, None)
  | Some s =>
    match skipSpace s with
    | [] => (None, None)
    | s =>
      let (neg, s) := takeSign s in
      let (ds, r) := spanDigits s in
      match ds with
      | [] => (Some 0, None)
      | _ =>
        let v := if neg then - value ds else value ds in
        if v <? minInt then (Some minInt, None) else if maxInt <? v then (Some maxInt, None) else (Some v, Some r)
      end
    end
  end.
(* operator>>(Real&) of libstdc++: white space, then a sign, digits with one dot, and after a digit an e with a
   sign and digits. The text is converted by strtold, an argument: the value stored and whether there was no error *)
Fixpoint spanReal (digits dot sci : bool) (s : list Z) : list Z * list Z :=
  match s with
  | [] => ([], [])
  | c :: r =>
    if isDigit c then let (t, u) := spanReal true dot sci r in (c :: t, u)
    else if (c =? 46) && negb dot && negb sci then let (t, u) := spanReal digits true sci r in (c :: t, u)
    else if ((c =? 101) || (c =? 69)) && negb sci && digits then
      match r with
      | d :: r' => if (d =? 43) || (d =? 45) then let (t, u) := spanReal digits dot true r' in (c :: d :: t, u)
                   else let (t, u) := spanReal digits dot true r in (c :: t, u)
      | [] => ([c], [])
      end
    else ([], s)
  end.
Definition extractReal (convert : list Z -> real * bool) (s : ifstream) : option real * ifstream :=
  match s with
  | None => (None, None)
  | Some s =>
    match skipSpace s with
    | [] => (None, None)
    | c :: r =>
      let (t, u) := if (c =? 43) || (c =? 45) then let (t, u) := spanReal false false false r in (c :: t, u) else spanReal false false false (c :: r) in
      let (v, good) := convert t in
      (Some v, if good then Some u else None)
    end
  end.
(* reading a variable without value *)
Definition use {A} (x : option A) : outcome A := match x with Some v => Ok v | None => UB end.

(* assert(argc > 1), the name is argv[1]; argv is without the name of the program *)
Definition withName {A} (argv : list (list Z)) (k : list Z -> outcome A) : outcome A :=
  match argv with name :: _ => k name | [] => Throw end.

Section PNG.
  Import PngModel.
  Definition WHITE : Color := rgb 0xFFFFFF 255.
  Definition BLACK : Color := rgb 0 255.
  (* visualizer.png.cpp:13-17 *)
  Fixpoint pngLines (n : nat) (s : ifstream) (img : image) : outcome image :=
    match n with
    | O => Ok img
    | S n =>
      let (x1, s) := extractInt s in
      let (y1, s) := extractInt s in
      let (x2, s) := extractInt s in
      let (y2, s) := extractInt s in
      let! x1 := use x1 in let! x1 := chk (x1 + 1) in
      let! y1 := use y1 in let! y1 := chk (y1 + 1) in
      let! x2 := use x2 in let! x2 := chk (x2 + 1) in
      let! y2 := use y2 in let! y2 := chk (y2 + 1) in
      let! img := drawLine ASSIGN (x1, y1) (x2, y2) BLACK img in
      pngLines n s img
    end.
  (* visualizer.png.cpp:6-19 *)
  Definition pngLinesAndFlood (test : ifstream) : outcome (Z * Z * image) :=
    let (n, s) := extractInt test in
    let (w, s) := extractInt s in
    let (h, s) := extractInt s in
    let! w := use w in let! w2 := chk (w + 2) in
    let! h := use h in let! h2 := chk (h + 2) in
    let! img := clear w2 h2 WHITE in
    let! n := use n in
    let! img := pngLines (Z.to_nat n) s img in
    let! img := floodFill ASSIGN (0, 0) TRANSPARENT img in
    Ok (w, h, img).
  (* visualizer.png.cpp:5-22; the result is what the destructor of image writes to name.png *)
  Definition pngMain (fuel : nat) (argv : list (list Z)) (files : list Z -> ifstream) : outcome (option (list Z)) :=
    withName argv (fun name =>
    let! (w, h, img) := pngLinesAndFlood (files (name ++ text ".in")) in
    let! w1 := chk (w + 1) in
    let! h1 := chk (h + 1) in
    let c := rgb 0xFF00FF 0x80 in
    let! img := fillRectangle fuel BLEND (0, 0) (w1, h1) c c img in
    Ok (write true img)).
End PNG.

(* visualizer.svg.cpp:12-16, 21-25; for negative n the loop is not entered *)
Fixpoint readPoints (convert : list Z -> real * bool) (n : nat) (s : ifstream) : outcome (list (real * real)) :=
  match n with
  | O => Ok []
  | S n =>
    let (x, s) := extractReal convert s in
    let (y, s) := extractReal convert s in
    let! x := use x in
    let! y := use y in
    let! ps := readPoints convert n s in
    Ok ((x, y) :: ps)
  end.
(* 0.1 is a double *)
Definition tenth : real := S754_finite false 14757395258967642112 (-67).
Definition thin (c : Rgb) : style := mkStyle (Some (mkStroke c tenth None None true)) None.
Definition svgStatements (ps qs : list (real * real)) : list (list thing) :=
  [[TShape (Polygon ps) (thin (mkRgb 0 0 0)); TText [10]]; [TShape (Polyline qs) (thin (mkRgb 255 0 0)); TText [10]]].
(* visualizer.svg.cpp:28-29 *)
Definition grow (b : box real) : box real :=
  mkBox real (SFsub prec emax (bx real b) (ofZ 3)) (SFsub prec emax (by_ real b) (ofZ 3)) (SFadd prec emax (bw real b) (ofZ 6)) (SFadd prec emax (bh real b) (ofZ 6)).
(* visualizer.svg.cpp:5-30; the result is what the destructor of image writes to name.svg *)
Definition svgMain (convert : list Z -> real * bool) (argv : list (list Z)) (files : list Z -> ifstream) : outcome (option (list Z)) :=
  withName argv (fun name =>
  let (n, s) := extractInt (files (name ++ text ".in")) in
  let (m, s) := extractInt s in
  let! n := use n in
  let! ps := readPoints convert (Z.to_nat n) s in
  let! m := use m in
  let! qs := readPoints convert (Z.to_nat m) (files (name ++ text ".ans")) in
  let cs := svgStatements ps qs in
  Ok (write (Some (name ++ text ".svg")) (grow (imageBox cs)) (imageText cs))).
