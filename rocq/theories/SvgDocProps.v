(* C87: the text of SVG files. *)
From Coq Require Import String.
From Verif Require Import Base FloatModel FloatSpec RealSpec RealModel InputSpec InitSpec DecimalSpec PrintModel PrintSpec GeneralModel GeneralSpec GeneralProofs GeneralProofs2 SvgModel SvgSpec ColorModel ColorSpec SvgDocModel SvgDocSpec SvgDocProofs SvgDocProofs2 SvgDocProofs3 SvgDocProofs4 SvgDocProofs5.
From Coq Require Import ZArith QArith Qabs List Lia SpecFloat.
Import ListNotations.
Open Scope Z_scope.
Open Scope list_scope.

(* numbers are printed with P significant digits *)
Theorem C87_number : forall P x, number x -> exists q, decimalValue (showGeneral P x) q /\ significant (Z.max P 1) (val x) q.
Proof. exact show_general. Qed.
Print Assumptions C87_number.
Theorem C87_number_error : forall P v q, significant P v q -> (Qabs (q - v) <= (1 # 2) * tenTo (1 - P) * Qabs v)%Q.
Proof. exact sig_error. Qed.
Print Assumptions C87_number_error.
Theorem C87_number_exact : forall P v q p j, 1 <= P -> significant P v q -> (v == units p j)%Q -> Z.abs j < 10 ^ P -> (q == v)%Q.
Proof. exact sig_exact. Qed.
Print Assumptions C87_number_exact.
Theorem C87_number_order : forall P v w q r, 1 <= P -> significant P v q -> significant P w r -> (v <= w)%Q -> (q <= r)%Q.
Proof. exact sig_mono. Qed.
Print Assumptions C87_number_order.
Theorem C87_number_integer : forall P x z, 1 <= P -> number x -> (val x == inject_Z z)%Q -> z <> 0 -> Z.abs z < 10 ^ P -> decimalOf (showGeneral P x) z.
Proof. exact show_whole. Qed.
Print Assumptions C87_number_integer.

(* the file is a well-formed document, in exactly one way, and its elements are the shapes and comments in order *)
Theorem C87_document : forall name cs b s, Forall proper (concat cs) -> write (Some name) b (imageText cs) = Some s ->
  exists l ns, document s [(text "version", text "1.0"); (text "encoding", text "UTF8")] (text "svg") l ns /\ nodesOf (mkFormat false 6) (concat cs) ns /\
    attr l "xmlns" (text "http://www.w3.org/2000/svg").
Proof. exact document_shapes. Qed.
Print Assumptions C87_document.
Theorem C87_unique : forall s d n l ns d' n' l' ns', document s d n l ns -> document s d' n' l' ns' -> d = d' /\ n = n' /\ l = l' /\ ns = ns'.
Proof. exact document_unique. Qed.
Print Assumptions C87_unique.
(* its view box is the bounding box, with 6 digits after the dot *)
Theorem C87_view_box : forall name cs b s d n l ns, write (Some name) b (imageText cs) = Some s -> document s d n l ns ->
  number (bx real b) -> number (negated (by_ real b) (bh real b)) -> number (bw real b) -> number (bh real b) ->
  exists x y w h, viewAttr l (x, y, w, h) /\ shown (mkFormat true 6) (val (bx real b)) x /\ shown (mkFormat true 6) (val (negated (by_ real b) (bh real b))) y /\
    shown (mkFormat true 6) (val (bw real b)) w /\ shown (mkFormat true 6) (val (bh real b)) h.
Proof. exact view_digits. Qed.
Print Assumptions C87_view_box.
Theorem C87_no_file : forall name b out, write name b out = None <-> name = None \/ out = [].
Proof. exact no_file. Qed.
Print Assumptions C87_no_file.

(* with integers of at most 6 digits every shape is where it was put, however the file is read, *)
Theorem C87_areas : forall name cs b s d n l ns, Forall proper (concat cs) -> Forall shortThing (concat cs) -> write (Some name) b (imageText cs) = Some s ->
  document s d n l ns -> areasOf (concat cs) ns.
Proof. exact areas_ok. Qed.
Print Assumptions C87_areas.
(* the view box is the exact one, *)
Theorem C87_view : forall name cs s d n l ns, Forall proper (concat cs) -> Forall shortThing (concat cs) -> write (Some name) (imageBox cs) (imageText cs) = Some s ->
  document s d n l ns -> (exists v, viewAttr l v) /\ forall x y w h, viewAttr l (x, y, w, h) ->
    let '(x', y', w', h') := viewBoxQ (imageQ (map (map exactItem) cs)) in (x == x' /\ y == y' /\ w == w' /\ h == h')%Q.
Proof. exact view_there. Qed.
Print Assumptions C87_view.
(* and all shapes can be seen if each statement has its shapes in front *)
Theorem C87_in_view : forall name cs s d n l ns v m e z, Forall proper (concat cs) -> Forall shortThing (concat cs) -> Forall tidy cs -> write (Some name) (imageBox cs) (imageText cs) = Some s ->
  document s d n l ns -> viewAttr l v -> In m ns -> drawn m e -> covers e z -> inView v z.
Proof. exact in_view. Qed.
Print Assumptions C87_in_view.

(* 7 digits are too many *)
Theorem C87_long_refuted : exists name cs s d l ns v m e z, Forall proper (concat cs) /\ Forall tidy cs /\ write (Some name) (imageBox cs) (imageText cs) = Some s /\
  document s d (text "svg") l ns /\ viewAttr l v /\ In m ns /\ drawn m e /\ covers e z /\ ~ inView v z.
Proof. exact out_of_view. Qed.
Print Assumptions C87_long_refuted.
(* small shapes have an empty view box *)
Theorem C87_small_refuted : exists name cs s d l ns x y h, Forall proper (concat cs) /\ number tiny /\ (0 < val tiny)%Q /\ cs = [[TShape (Circle (rzero, rzero) tiny) black]] /\
  write (Some name) (imageBox cs) (imageText cs) = Some s /\ document s d (text "svg") l ns /\ viewAttr l (x, y, 0%Q, h).
Proof. exact empty_view. Qed.
Print Assumptions C87_small_refuted.
(* with -- in a comment there is no document, or another one *)
Theorem C87_dashes : forall name b a x r ts cs s d n l ns, noDashes (32 :: a) -> x <> 62 ->
  write (Some name) b (imageText ((TComment (a ++ [45; 45; x] ++ r) :: ts) :: cs)) = Some s -> ~ document s d n l ns.
Proof. exact dashes_bad. Qed.
Print Assumptions C87_dashes.
Theorem C87_comment_refuted : exists name cs s d l n, write (Some name) (imageBox cs) (imageText cs) = Some s /\ Forall (fun t => match t with TComment _ => True | _ => False end) (concat cs) /\
  document s d (text "svg") l [Remark [32]; Element n []; Remark [32]].
Proof. exact comment_injects. Qed.
Print Assumptions C87_comment_refuted.
(* the precision of the image is used for points only *)
Theorem C87_precision_refuted :
  outText (mkFormat false 10) [TShape (Polygon [(third, rzero)]) black] = text "<polygon points=""0.3333333333,-0 "" stroke=""none"" fill=""none"" />" /\
  outText (mkFormat false 10) [TShape (Circle (third, rzero) third) black] = text "<circle r=""0.333333"" cx=""0.333333"" cy=""-0"" stroke=""none"" fill=""none"" />".
Proof. exact precision_ignored. Qed.
Print Assumptions C87_precision_refuted.

Definition exInt (z : Z) : real := ofZ z.
Definition exStyle : style := mkStyle (Some (mkStroke (mkRgb 255 0 0) (exInt 2) (Some CapRound) None false)) (Some (mkRgb 0 128 255)).
Definition exImage : list (list thing) :=
  [[TShape (Rectangle (exInt 1, exInt 2) (exInt 3) (exInt 4)) exStyle; TComment (text "first"); TText [10]];
   [TShape (Polyline [(exInt (-5), exInt 0); (exInt 7, exInt 999999)]) black; TFormat (mkFormat true 2)]].
Example C87_ex_number : map (showGeneral 6) [exInt 1234567; exInt 123456; third; SFopp (exInt 100000); exInt 1000000; S754_finite false 1 (-17); rzero; S754_nan] =
  map text ["1.23457e+06"; "123456"; "0.333333"; "-100000"; "1e+06"; "7.62939e-06"; "0"; "nan"]%string.
Proof. vm_compute. reflexivity. Qed.
Example C87_ex_write : write (Some (text "a")) (imageBox exImage) (imageText exImage) = Some (
  text "<?xml version=""1.0"" encoding=""UTF8"" ?>" ++ [10] ++
  text "<svg xmlns=""http://www.w3.org/2000/svg"" version=""1.0"" baseProfile=""full"" viewBox=""-5.000000 -999999.000000 12.000000 999999.000000"" >" ++ [10] ++
  text "<rect x=""1"" y=""-6"" width=""3"" height=""4"" stroke=""#ff0000"" stroke-width=""2"" stroke-linecap=""round"" vector-effect=""non-scaling-stroke"" fill=""#0080ff"" />" ++
  text "<!-- first -->" ++ [10] ++
  text "<polyline points=""-5,-0 7,-999999 "" stroke=""none"" fill=""none"" />" ++ text "</svg>").
Proof. vm_compute. reflexivity. Qed.
Example C87_ex_proper : Forall proper (concat exImage) /\ Forall shortThing (concat exImage) /\ Forall tidy exImage /\ noDashes (32 :: text "a") /\
  number (bx real (imageBox exImage)) /\ (val (exInt 123) == units 0 123)%Q.
Proof.
  assert (SH : forall z, (Z.abs z <? 10 ^ 6) = true -> number (exInt z) -> (val (exInt z) == inject_Z z)%Q -> short (exInt z)).
  { intros z B N V. split; auto. exists z. split; auto. apply Z.ltb_lt. exact B. }
  assert (RG : forall r g b, forallb (fun c => (0 <=? c) && (c <=? 255)) [r; g; b] = true -> isRgb (mkRgb r g b)).
  { intros r g b B. cbn [forallb] in B. rewrite !Bool.andb_true_iff, !Z.leb_le in B. unfold isRgb, PngSpec.byte. cbn [sr sg sb]. lia. }
  split.
  { repeat apply Forall_cons; try apply Forall_nil.
    - split; [apply RG|apply RG]; reflexivity.
    - split; [repeat (apply Forall_cons; [right; right; right; discriminate|]); apply Forall_nil|]. intros a b E. do 5 (destruct a as [|? a]; [discriminate E|]). destruct a; discriminate E.
    - right. left. reflexivity.
    - split; exact I.
    - discriminate. }
  split.
  { repeat apply Forall_cons; try apply Forall_nil; try exact I.
    - split; [split; cbn [fst snd]; apply SH; reflexivity || (split; reflexivity)|]. split; [apply SH; reflexivity || (split; reflexivity)|]. split; [apply SH; reflexivity || (split; reflexivity)|]. split; reflexivity.
    - split; cbn [fst snd]; apply SH; reflexivity || (split; reflexivity).
    - split; cbn [fst snd]; apply SH; reflexivity || (split; reflexivity).
    - left. reflexivity. }
  split.
  { constructor; [|constructor; [|constructor]]; intros a t b E T; (destruct a as [|u [|v [|w a]]]; [constructor| | |]); inversion E; subst; try (destruct T; fail); try (constructor; [exact I|constructor]); try (destruct a; discriminate). }
  split; [|split; [split; reflexivity|reflexivity]].
  split; [intros a b E; do 3 (destruct a as [|? a]; [discriminate E|])|intros a E; do 2 (destruct a as [|? a]; [discriminate E|])]; destruct a; discriminate E.
Qed.
