(* C88: the example visualizers. *)
From Coq Require Import String.
From Verif Require Import Base FloatModel FloatSpec RealSpec RealModel InputSpec InitSpec DecimalSpec DecimalModel DecimalProofs2 PngModel PngSpec SvgModel SvgSpec ColorModel SvgDocModel SvgDocSpec VisModel VisSpec VisProofs VisProofs2 VisProofs3 VisProofs4.
From Coq Require Import ZArith QArith Qabs List Lia SpecFloat.
Import ListNotations.
Open Scope Z_scope.
Open Scope list_scope.

(* visualizer.png.cpp: up to the last statement the image is as intended, *)
Theorem C88_png_lines : forall s w h ls, pngInput s w h ls ->
  exists img img', pngLinesAndFlood (Some s) = Ok (w, h, img') /\ linesOn (w + 2) (h + 2) WHITE BLACK ls img /\ cornerFilled (w + 2) (h + 2) TRANSPARENT img img'.
Proof. exact before_ok. Qed.
Print Assumptions C88_png_lines.
(* but the program does not come to an end *)
Theorem C88_png_returns_refuted : forall name argv files s w h ls, files (name ++ text ".in") = Some s -> pngInput s w h ls -> 1 <= h ->
  forall fuel, pngMain fuel (name :: argv) files = Fuel.
Proof. exact main_diverges. Qed.
Print Assumptions C88_png_returns_refuted.
(* unless the height is 0: then the file shows the image, where only the upper row of the rectangle is drawn *)
Theorem C88_png_flat : forall name argv files s w ls fuel, files (name ++ text ".in") = Some s -> pngInput s w 0 ls -> (0 < fuel)%nat ->
  exists img img' img'' file, pngMain fuel (name :: argv) files = Ok (Some file) /\ linesOn (w + 2) 2 WHITE BLACK ls img /\ cornerFilled (w + 2) 2 TRANSPARENT img img' /\
    decode file = Some (w + 2, 2, rev (map (map pixelOf) img'')) /\ (forall x, at_ img'' x 0 = at_ img' x 0) /\
    (forall x, at_ img'' x 1 = option_map (fun old => PngModel.combine BLEND old (rgb 0xFF00FF 0x80)) (at_ img' x 1)).
Proof. exact main_flat. Qed.
Print Assumptions C88_png_flat.
(* a missing file is not noticed *)
Theorem C88_png_missing_refuted : forall fuel name argv files, files (name ++ text ".in") = None -> pngMain fuel (name :: argv) files = UB.
Proof. exact main_missing. Qed.
Print Assumptions C88_png_missing_refuted.
Theorem C88_nameless : forall fuel convert files, pngMain fuel [] files = Throw /\ svgMain convert [] files = Throw.
Proof. exact nameless. Qed.
Print Assumptions C88_nameless.

(* visualizer.svg.cpp: the file is a document with one polygon and one polyline, *)
Theorem C88_svg_document : forall convert name argv files s a ps qs, strtold convert -> files (name ++ text ".in") = Some s -> files (name ++ text ".ans") = Some a ->
  startsWithPoints s [Z.of_nat (List.length ps); Z.of_nat (List.length qs)] ps -> startsWithPoints a [] qs ->
  exists file us vs l m n, svgMain convert (name :: argv) files = Ok (Some file) /\ Forall2 nearestPoint ps us /\ Forall2 nearestPoint qs vs /\
    document file [(text "version", text "1.0"); (text "encoding", text "UTF8")] (text "svg") l [m; n] /\ attr l "xmlns" (text "http://www.w3.org/2000/svg") /\
    described (mkFormat false 6) (Polygon us) m /\ hasStyle (thin (mkRgb 0 0 0)) m /\ described (mkFormat false 6) (Polyline vs) n /\ hasStyle (thin (mkRgb 255 0 0)) n.
Proof. exact svg_document. Qed.
Print Assumptions C88_svg_document.
(* for integers with at most six digits exactly those of the files, and with a margin of 3 in the view box *)
Theorem C88_svg_view : forall convert name argv files s a ps qs, strtold convert -> files (name ++ text ".in") = Some s -> files (name ++ text ".ans") = Some a ->
  startsWithPoints s [Z.of_nat (List.length ps); Z.of_nat (List.length qs)] ps -> startsWithPoints a [] qs -> Forall smallInteger (flat (ps ++ qs)) ->
  exists file m n l d, svgMain convert (name :: argv) files = Ok (Some file) /\ document file d (text "svg") l [m; n] /\
    (exists e, drawn m e) /\ (forall e, drawn m e -> sameArea e (EPolygon (map (fun p => (fst p, - snd p)%Q) ps))) /\
    (exists e, drawn n e) /\ (forall e, drawn n e -> sameArea e (EPolyline (map (fun p => (fst p, - snd p)%Q) qs))) /\
    (exists v, viewAttr l v) /\ exists x0 x1 y0 y1, lowest (map fst (ps ++ qs)) x0 /\ highest (map fst (ps ++ qs)) x1 /\ lowest (map snd (ps ++ qs)) y0 /\ highest (map snd (ps ++ qs)) y1 /\
    (forall x y w h, viewAttr l (x, y, w, h) -> (x == x0 - 3 /\ y == - y1 - 3 /\ x + w == x1 + 3 /\ y + h == - y0 + 3)%Q) /\
    forall v e z dx dy, viewAttr l v -> drawn m e \/ drawn n e -> covers e z -> (Qabs dx <= 3 -> Qabs dy <= 3 -> inView v (fst z + dx, snd z + dy))%Q.
Proof. exact svg_view. Qed.
Print Assumptions C88_svg_view.
Theorem C88_svg_strtold : strtold (fun t => match decimalReal t with Some v => (v, true) | None => (rzero, false) end).
Proof. exact decimal_strtold. Qed.
Print Assumptions C88_svg_strtold.
(* missing files are not noticed *)
Theorem C88_svg_missing_refuted : forall convert name argv files, files (name ++ text ".in") = None -> svgMain convert (name :: argv) files = UB.
Proof. exact svg_missing. Qed.
Print Assumptions C88_svg_missing_refuted.
Theorem C88_svg_answer_refuted : forall convert name argv files s ps m, strtold convert -> files (name ++ text ".in") = Some s -> files (name ++ text ".ans") = None ->
  startsWithPoints s [Z.of_nat (List.length ps); m] ps -> 0 < m -> svgMain convert (name :: argv) files = UB.
Proof. exact svg_no_answer. Qed.
Print Assumptions C88_svg_answer_refuted.

(* 3 lines in an area of 2 x 1 *)
Example C88_ex_png : pngInput (text " 1 2 1  0 0 1 1 17 x") 2 1 [((0, 0), (1, 1))] /\
  exists img, pngLinesAndFlood (Some (text " 1 2 1  0 0 1 1 17 x")) = Ok (2, 1, img) /\
    map (map (fun c => (ca c, cr c))) img = [[(0, 0); (0, 0); (0, 0); (0, 0)]; [(0, 0); (255, 0); (0, 0); (0, 0)]; [(0, 0); (0, 0); (255, 0); (0, 0)]].
Proof.
  split.
  - split; [|split; [lia|split; [lia|]]].
    + exists [text "1"; text "2"; text "1"; text "0"; text "0"; text "1"; text "1"], [text "17"; text "x"]. split.
      * change (text " 1 2 1  0 0 1 1 17 x") with ([32] ++ text "1" ++ [32] ++ text "2" ++ [32] ++ text "1" ++ [32; 32] ++ text "0" ++ [32] ++ text "0" ++ [32] ++ text "1" ++ [32] ++ text "1" ++ [32] ++ text "17" ++ [32] ++ text "x" ++ []).
        cbn [app]. repeat someWord. apply words_nil. constructor.
      * split; [|repeat (apply Forall_cons; [cbn; lia|]); constructor]. cbn [flat flat_map app fst snd List.length Z.of_nat Pos.of_succ_nat]. repeat (apply Forall2_cons; [someInt|]). constructor.
    + cbn [flat flat_map app fst snd]. repeat (apply Forall_cons; [split; cbn; lia|]). constructor.
  - eexists. split; vm_compute; reflexivity.
Qed.
Example C88_ex_svg : svgMain (fun t => match decimalReal t with Some v => (v, true) | None => (rzero, false) end) [text "a"]
    (fun f => if list_eq_dec Z.eq_dec f (text "a.in") then Some (text "3 2 0 0 4 0 +4e0 -2.5") else if list_eq_dec Z.eq_dec f (text "a.ans") then Some (text "1 -0.5 .25e1 7") else None) =
  Ok (Some (text "<?xml version=""1.0"" encoding=""UTF8"" ?>" ++ [10] ++
    text "<svg xmlns=""http://www.w3.org/2000/svg"" version=""1.0"" baseProfile=""full"" viewBox=""-3.000000 -10.000000 10.000000 15.500000"" >" ++ [10] ++
    text "<polygon points=""0,-0 4,-0 4,2.5 "" stroke=""#000000"" stroke-width=""0.1"" fill=""none"" />" ++ [10] ++
    text "<polyline points=""1,0.5 2.5,-7 "" stroke=""#ff0000"" stroke-width=""0.1"" fill=""none"" />" ++ [10] ++ text "</svg>")).
Proof. vm_compute. reflexivity. Qed.
Example C88_ex_svg_input : startsWithPoints (text "3 2 0 0 4 0 +4e0 -2") [Z.of_nat (List.length [(0, 0); (4, 0); (4, - (2))]%Q); 2] [(0, 0); (4, 0); (4, - (2))]%Q /\
  startsWithPoints (text "1 -1 .25e1 7") [] [(1, - (1)); (5 # 2, 7)]%Q /\ Forall smallInteger (flat [(0, 0); (4, 0); (4, - (2))]%Q).
Proof.
  split; [|split].
  - exists [text "3"; text "2"], [text "0"; text "0"; text "4"; text "0"; text "+4e0"; text "-2"], []. split.
    { change (text "3 2 0 0 4 0 +4e0 -2") with ([] ++ text "3" ++ [32] ++ text "2" ++ [32] ++ text "0" ++ [32] ++ text "0" ++ [32] ++ text "4" ++ [32] ++ text "0" ++ [32] ++ text "+4e0" ++ [32] ++ text "-2" ++ []).
      cbn [app]. repeat someWord. apply words_nil. constructor. }
    split; [repeat (apply Forall2_cons; [someInt|]); constructor|]. split; [repeat (apply Forall_cons; [cbn; lia|]); constructor|]. split.
    { cbn [flat flat_map app fst snd]. apply Forall2_cons; [someReal|]. apply Forall2_cons; [someReal|]. apply Forall2_cons; [someReal|]. apply Forall2_cons; [someReal|].
      apply Forall2_cons; [exists [43], [4], [], false, (text "e0"), 0; split; [right; left; reflexivity|]; split; [repeat constructor; unfold digit; lia|]; split; [constructor|]; split; [right; exists 101, [], [0]; repeat split; try (left; reflexivity); try (repeat constructor; unfold digit; lia); discriminate|]; split; [left; discriminate|]; split; [reflexivity|]; split; reflexivity|].
      apply Forall2_cons; [|constructor]. exists [45], [2], [], false, [], 0. split; [right; right; reflexivity|]. split; [repeat constructor; unfold digit; lia|]. split; [constructor|]. split; [left; split; reflexivity|]. split; [left; discriminate|]. split; [reflexivity|]. split; reflexivity. }
    cbn [flat flat_map app fst snd]. repeat (apply Forall_cons; [rangeOk|]). constructor.
  - exists [], [text "1"; text "-1"; text ".25e1"; text "7"], []. split.
    { change (text "1 -1 .25e1 7") with ([] ++ text "1" ++ [32] ++ text "-1" ++ [32] ++ text ".25e1" ++ [32] ++ text "7" ++ []). cbn [app]. repeat someWord. apply words_nil. constructor. }
    split; [constructor|]. split; [constructor|]. split.
    { cbn [flat flat_map app fst snd]. apply Forall2_cons; [someReal|].
      apply Forall2_cons; [exists [45], [1], [], false, [], 0; split; [right; right; reflexivity|]; split; [repeat constructor; unfold digit; lia|]; split; [constructor|]; split; [left; split; reflexivity|]; split; [left; discriminate|]; split; [reflexivity|]; split; reflexivity|].
      apply Forall2_cons; [exists [], [], [2; 5], true, (text "e1"), 1; split; [left; reflexivity|]; split; [constructor|]; split; [repeat constructor; unfold digit; lia|]; split; [right; exists 101, [], [1]; repeat split; try (left; reflexivity); try (repeat constructor; unfold digit; lia); discriminate|]; split; [right; discriminate|]; split; [discriminate|]; split; reflexivity|].
      apply Forall2_cons; [someReal|constructor]. }
    cbn [flat flat_map app fst snd]. repeat (apply Forall_cons; [rangeOk|]). constructor.
  - cbn [flat flat_map app fst snd]. apply Forall_cons; [exists 0; split; [reflexivity|lia]|]. apply Forall_cons; [exists 0; split; [reflexivity|lia]|]. apply Forall_cons; [exists 4; split; [reflexivity|lia]|].
    apply Forall_cons; [exists 0; split; [reflexivity|lia]|]. apply Forall_cons; [exists 4; split; [reflexivity|lia]|]. apply Forall_cons; [exists (-2); split; [reflexivity|lia]|constructor].
Qed.
