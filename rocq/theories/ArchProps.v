(* C98: the programs of the archive. *)
From Coq Require Import String Permutation.
From Verif Require Import Base RndModel RandSpec FloatModel InitModel InitSpec GeoSpec HullSpec PolyModel PolySpec PolyProofs3 GenExSpec ArchModel ArchSpec ArchProofs.
From Verif Require PassModel HullProps.
Open Scope Z_scope.

(* javaSortHack.cpp prints n and the n values of C97 *)
Theorem C98_hack : forall parse fuel args n mi, ready parse args start -> optionIs args (text "--n") 100000 n -> optionIs args (text "--min") 1 mi ->
  0 <= n < Z.of_nat fuel -> is_i64 (mi + n) -> ~ (mi <= -1 <= mi + n) ->
  always (hackMain parse fuel args) (returns (fun out => exists l, out = numbersText l /\ alen l = n /\ NoDup l /\
    forall x, In x l <-> mi <= x <= mi + n /\ x <> mi + n - 2 * Z.max 0 ((n - 43) / 4))).
Proof. exact hack_main. Qed.
Print Assumptions C98_hack.
Theorem C98_hack_small : forall parse fuel args n mi, ready parse args start -> optionIs args (text "--n") 100000 n -> optionIs args (text "--min") 1 mi ->
  0 <= n < 47 -> is_i64 (mi + n) ->
  always (hackMain parse (S fuel) args) (returns (fun out => exists l, out = numbersText l /\ Permutation (zseq mi (Z.to_nat n)) l)).
Proof. exact hack_main_small. Qed.
Print Assumptions C98_hack_small.
Theorem C98_hack_throws : forall parse fuel args,
  (forall n mi, ~ (ready parse args start /\ optionIs args (text "--n") 100000 n /\ optionIs args (text "--min") 1 mi)) -> hackMain parse fuel args = RRet Throw.
Proof. exact hack_main_throws. Qed.
Print Assumptions C98_hack_throws.
Theorem C98_hack_negative : forall parse fuel args n mi, ready parse args start -> optionIs args (text "--n") 100000 n -> optionIs args (text "--min") 1 mi -> n < 0 ->
  always (hackMain parse fuel args) (fun o => o = Throw).
Proof. exact hack_main_negative. Qed.
Print Assumptions C98_hack_negative.
(* polygon.cpp prints n points of the square, or it does not end *)
Theorem C98_polygon : forall parse srt prt fits, sortsBy srt -> splits prt -> forall fuel args n dim,
  ready parse args start -> optionIs args (text "--n") 100000 n -> optionIs args (text "--dim") 1000000000 dim ->
  0 < dim -> dim <= 0x3FFFFFFF -> fits n dim = true -> 3 <= n ->
  always (polygonMain parse srt prt fits fuel args) (okOrEndless (fun out => exists l, out = pointsText l /\ alen l = n /\ Forall (fun p => Z.abs (fst p) < dim /\ Z.abs (snd p) < dim) l)).
Proof. exact polygon_main. Qed.
Print Assumptions C98_polygon.
Theorem C98_polygon_throws : forall parse srt prt fits fuel args,
  (forall n dim, ~ (ready parse args start /\ optionIs args (text "--n") 100000 n /\ optionIs args (text "--dim") 1000000000 dim /\
    0 < dim /\ dim <= 0x3FFFFFFF /\ fits n dim = true /\ 3 <= n)) ->
  always (polygonMain parse srt prt fits fuel args) (fun o => o = Throw).
Proof. exact polygon_main_throws. Qed.
Print Assumptions C98_polygon_throws.
(* convex.cpp prints the hull with its first point again at the end: n + 1 lines *)
Theorem C98_convex : forall parse sqrt sin cos llround rounds fuel fuel' args n dim,
  ready parse args start -> optionIs args (text "--n") 100000 n -> optionIs args (text "--dim") 1000000000 dim -> 0 < dim -> 0 < n ->
  always (convexMain parse sqrt sin cos llround rounds fuel fuel' args) (fun o => forall out, o = Ok out -> exists h, out = pointsText h /\
    Forall (inDisk dim) h /\ (~ onOneLine h -> alen h = n + 1 /\ NoDup (removelast h) /\ isHull h h)).
Proof. exact convex_main. Qed.
Print Assumptions C98_convex.
Theorem C98_convex_throws : forall parse sqrt sin cos llround rounds fuel fuel' args,
  (forall n dim, ~ (ready parse args start /\ optionIs args (text "--n") 100000 n /\ optionIs args (text "--dim") 1000000000 dim)) ->
  convexMain parse sqrt sin cos llround rounds fuel fuel' args = RRet Throw.
Proof. exact convex_main_throws. Qed.
Print Assumptions C98_convex_throws.
Theorem C98_convex_refuses : forall parse sqrt sin cos llround rounds fuel fuel' args n dim,
  ready parse args start -> optionIs args (text "--n") 100000 n -> optionIs args (text "--dim") 1000000000 dim ->
  is_i64 (n * n) -> 0x3FFFFFFF < dim \/ dim < n * n / 1000 ->
  always (convexMain parse sqrt sin cos llround rounds fuel fuel' args) (fun o => o = Throw).
Proof. exact convex_main_refuses. Qed.
Print Assumptions C98_convex_refuses.

Definition noReal (_ : list Z) : option real := None.
(* --n 3 and the default minimum 1; -7 and -6; no number and a negative number *)
Example C98_ex_hack : play (hackMain noReal 5 [text "./hack"; text "--n"; text "3"]) [0; 0; 0] = Ok (text "3" ++ [10] ++ text "3 1 2" ++ [10]) /\
  play (hackMain noReal 5 [text "./hack"; text "--min"; text "-7"; text "--n"; text "2"]) [0; 0] = Ok (text "2" ++ [10] ++ text "-6 -7" ++ [10]) /\
  hackMain noReal 5 [text "./hack"; text "--n"; text "x"] = RRet Throw /\ hackMain noReal 5 [text "./hack"; text "--n"; text "-1"] = RRet Throw.
Proof. vm_compute. auto. Qed.
Example C98_ex_polygon : play (polygonMain noReal sortBy splitBy (fun n dim => n * n * n <=? dim * dim) 9
    [text "./polygon"; text "--n"; text "3"; text "--dim"; text "6"]) [0; 0; 3; -3; 2; 4; 5; 1; 0; 0; 0; 0] =
  Ok (text "3" ++ [10] ++ text "0 0" ++ [10] ++ text "2 4" ++ [10] ++ text "3 -3" ++ [10]).
Proof. vm_compute. reflexivity. Qed.
(* n = 3, but four lines *)
Example C98_ex_convex : play (convexMain noReal HullProps.radius1 HullProps.less3 HullProps.curve HullProps.dropPart 5 5 5
    [text "./convex"; text "--n"; text "3"; text "--dim"; text "12"]) (concat (map HullProps.angle [3; 14; 61]) ++ [2; 0]) =
  Ok (pointsText [(-3, 7); (-2, 2); (0, 0); (-3, 7)]) /\
  convexMain noReal HullProps.radius1 HullProps.less3 HullProps.curve HullProps.dropPart 5 5 5 [text "./convex"; text "--dim"; text "2000000000"] = RRet Throw.
Proof. vm_compute. auto. Qed.
(* the options without arguments, and an option as last argument *)
Example C98_ex_options : optionIs [text "./hack"] (text "--n") 100000 100000 /\ optionIs [text "./hack"; text "--n"] (text "--n") 100000 100000.
Proof.
  split; right; (split; [|reflexivity]); [right; intros [E|[]]; discriminate|].
  left. exists [text "./hack"], []. split; [reflexivity|]. split; [exists 110, []; reflexivity|]. split; [constructor|exact I].
Qed.
