(* Further functions of C02, C30, C38, C73, C81 and C85. *)
From Coq Require Import String.
From Verif Require Import Base ArgsModel ArgsClient RandIntModel GenModel GenSpec FloatModel InputModel InputClient InitModel InitSpec ColorModel PipeModel PipeSpec RestProofs.
From Coq Require Import ZArith List Lia.
Import ListNotations.
Open Scope Z_scope.

(* ---- C02 ---- *)
(* integer(): every Integer for exactly one word of the engine *)
Theorem C02_any : (forall w, is_u64 w -> is_i64 (anyInteger w)) /\ (forall w w', is_u64 w -> is_u64 w' -> anyInteger w = anyInteger w' -> w = w') /\
  forall v, is_i64 v -> exists w, is_u64 w /\ anyInteger w = v.
Proof. exact any_bijection. Qed.
Print Assumptions C02_any.
Example C02_any_ex : anyInteger (2 ^ 63) = - 2 ^ 63 /\ anyInteger (2 ^ 64 - 1) = -1 /\ anyInteger 5 = 5.
Proof. vm_compute. repeat split. Qed.

(* ---- C30 ---- *)
Theorem C30_string_default : forall c ps d, shows c ps -> asStringOr (ctoken c) d = match ps with [] => d | s :: _ => s end.
Proof. exact string_default. Qed.
Print Assumptions C30_string_default.
Example C30_string_default_ex :
  (let! p := commandParser [text "--n"; text "5"; text "--m"] in let! c := getCommand p (text "--n") in let! d := getCommand p (text "--m") in
   Ok (asStringOr (ctoken c) (text "x"), asStringOr (ctoken d) (text "x"))) = Ok (text "5", text "x").
Proof. vm_compute. reflexivity. Qed.

(* ---- C38 ---- *)
Theorem C38_degrees : forall E dir (g : graph E) lo hi M, represents dir g lo hi M -> alen (getDegrees g) = hi - lo /\
  forall u, lo <= u < hi -> exists n, neighbourList M u n /\ nth_error (getDegrees g) (Z.to_nat (u - lo)) = Some (alen n).
Proof. exact degrees_rep. Qed.
Print Assumptions C38_degrees.
Example C38_degrees_ex : (let! g := newGraph 5 9 in let! g := addEdge false g 5 6 tt in let! g := addEdge false g 8 5 tt in Ok (getDegrees g)) = Ok [2; 1; 0; 1] /\
  (let! g := newGraph 5 9 in let! g := addEdge true g 5 6 tt in let! g := addEdge true g 8 5 tt in Ok (getDegrees g)) = Ok [1; 0; 0; 1].
Proof. vm_compute. split; reflexivity. Qed.

(* ---- C73 ---- *)
(* a written graph with weights is read back with them, if the limits hold for the weights of the edges *)
Theorem C73_weighted_back : forall (g : graph Z) lo hi M st nLo nHi mHi wLo wHi,
  represents false g lo hi M -> spaceSensitive st = true -> nLo <= hi - lo < nHi -> edgeCount g < mHi -> edgeCount g <= I64_MAX ->
  is_i64 lo -> is_i64 (lo + nLo) -> is_i64 (lo + nHi - 1) -> is_i64 (2 * (hi - lo)) ->
  (forall u v w, M u v = Some w -> is_i64 w /\ wLo <= w < wHi) ->
  exists v, readUndirected st nLo nHi mHi lo [(wLo, wHi)] (showGraph intData g ++ [10]) = Ret (v, map (fun e => [snd e]) (getEdges g)) [].
Proof. exact weighted_back. Qed.
Print Assumptions C73_weighted_back.

(* ---- C81 ---- *)
Theorem C81_generator : forall parse args w,
  (ready parse args w /\ exists w', initGenerator parse args w = Ok w' /\ configured parse args w w') \/ (~ ready parse args w /\ initGenerator parse args w = Throw).
Proof. exact generator_cases. Qed.
Print Assumptions C81_generator.
(* floatEqual without tolerances takes those of the command line *)
Theorem C81_float_equal : forall parse args w p w' a r x y, init parse args w = Ok (p, w') ->
  toleranceOf parse args (text "float_absolute_tolerance") (wAbs w) a -> toleranceOf parse args (text "float_relative_tolerance") (wRel w) r ->
  settingsEqual w' x y = floatEqual x y a r.
Proof. exact settings_equal. Qed.
Print Assumptions C81_float_equal.
Definition parseOne (s : list Z) : option real := if list_eq_dec Z.eq_dec s (text "1") then Some exOne else None.
Definition fresh : world := mkWorld DEFAULT_EPS DEFAULT_EPS false false false None.
Example C81_ex_generator :
  (let! w := initGenerator parseOne [text "gen"; text "float_tolerance"; text "1"; text "--seed"; text "7"] fresh in Ok (wAbs w, wSeed w, settingsEqual w exTwo exOne)) = Ok (exOne, Some 7, Ok true) /\
  (let! w := initGenerator parseOne [text "gen"] fresh in Ok (settingsEqual w exTwo exOne)) = Ok (Ok false) /\
  initGenerator parseOne [text "gen"; text "--seed"] fresh = Throw.
Proof. vm_compute. repeat split. Qed.

(* ---- C85 ---- *)
Theorem C85_gray : forall x, 0 <= x < 256 -> ofGray x = ofRgb (x * 65536 + x * 256 + x).
Proof. exact gray_rgb. Qed.
Print Assumptions C85_gray.
Example C85_gray_ex : ofGray 0x7F = ofRgb 0x7F7F7F.
Proof. reflexivity. Qed.
