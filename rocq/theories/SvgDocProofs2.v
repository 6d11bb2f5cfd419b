(* What is written is a document with the nodes asked for. *)
From Coq Require Import String.
From Verif Require Import Base Tac FloatModel FloatSpec RealSpec InitSpec DecimalSpec DecimalModel DecimalProofs2 PrintModel PrintSpec PrintProofs PrintProofs2 GeneralModel GeneralSpec GeneralProofs GeneralProofs2 PngSpec SvgModel SvgSpec ColorModel ColorSpec ColorProofs2 SvgDocModel SvgDocSpec SvgDocProofs.
From Coq Require Import ZArith QArith List Lia SpecFloat.
Import ListNotations.
Open Scope Z_scope.
Open Scope list_scope.

(* names and values by computation *)
Definition letterb (c : Z) : bool := (65 <=? c) && (c <=? 90) || (97 <=? c) && (c <=? 122).
Definition nameb (n : list Z) : bool := match n with c :: n => letterb c && forallb (fun c => letterb c || (48 <=? c) && (c <=? 57) || (c =? 45)) n | [] => false end.
Lemma nameb_ok : forall n, nameb n = true -> isName n.
Proof.
  intros [|c n] H; [discriminate|]. cbn [nameb] in H. apply andb_prop in H as (A & B). exists c, n. split; auto. unfold letterb in *. split; [unfold letter; lia|].
  rewrite forallb_forall in B. apply Forall_forall. intros x I. apply B in I. unfold nameChar, letter. lia.
Qed.
Definition valueb (n : list Z) : bool := forallb (fun c => (32 <=? c) && negb (c =? 34) && negb (c =? 38) && negb (c =? 60)) n.
Lemma valueb_ok : forall n, valueb n = true -> isValue n.
Proof. intros n H. unfold valueb in H. rewrite forallb_forall in H. apply Forall_forall. intros x I. apply H in I. unfold xmlChar. lia. Qed.
Definition sameb (a b : list Z) : bool := if list_eq_dec Z.eq_dec a b then true else false.
Fixpoint distinctb (l : list (list Z)) : bool := match l with x :: l => negb (existsb (sameb x) l) && distinctb l | [] => true end.
Lemma distinctb_ok : forall l, distinctb l = true -> NoDup l.
Proof.
  induction l as [|x l IH]; intro H; [constructor|]. cbn [distinctb] in H. apply andb_prop in H as (A & B). constructor; auto. intro I.
  assert (E : existsb (sameb x) l = true) by (apply existsb_exists; exists x; split; auto; unfold sameb; destruct (list_eq_dec Z.eq_dec x x); congruence). rewrite E in A. discriminate.
Qed.

(* numbers as values *)
Lemma numeral_value : forall t, Forall numeral t -> isValue t.
Proof. intros t F. eapply Forall_impl; [|exact F]. intros c N. unfold numeral in N. unfold xmlChar. lia. Qed.
Lemma decimal_value : forall t q, decimalValue t q -> isValue t.
Proof. intros t q D. apply numeral_value. eapply decimal_chars; eauto. Qed.
Lemma general_positive : forall P m e s, isValue (minus s ++ generalText (Z.max P 1) (Zpos m * up e) (up (- e))).
Proof.
  intros P m e s. destruct (general_ok (Z.max P 1) (Zpos m * up e) (up (- e)) s (inject_Z (Zpos m) * two e)) as (x & k & _ & _ & D).
  { lia. } { pose proof (DecimalProofs.up_pos e). lia. } { apply DecimalProofs.up_pos. } { apply up_ratio. } eapply decimal_value; eauto.
Qed.
Lemma general_value : forall P x, isValue (showGeneral P x).
Proof. intros P [s|s| |s m e]; cbn [showGeneral]; try (destruct s); try (apply valueb_ok; reflexivity); apply general_positive. Qed.
Lemma fixed_value : forall p x, 0 <= p -> isValue (showFixed p x).
Proof.
  intros p x P. destruct x as [s|s| |s m e]; cbn [showFixed].
  - eapply decimal_value. apply fixed_ok; lia.
  - destruct s; apply valueb_ok; reflexivity.
  - apply valueb_ok; reflexivity.
  - eapply decimal_value. apply fixed_ok; auto. apply nearestInt_nonneg; [|apply DecimalProofs.up_pos]. pose proof (DecimalProofs.up_pos e). pose proof (Z.pow_pos_nonneg 10 p). nia.
Qed.
Lemma stream_value : forall f x, 0 <= precision f -> isValue (streamNumber f x).
Proof. intros f x P. unfold streamNumber. destruct (fixed f); [apply fixed_value; auto|apply general_value]. Qed.
Lemma stream_shown : forall f x, 0 <= precision f -> number x -> exists q, decimalValue (streamNumber f x) q /\ shown f (val x) q.
Proof.
  intros f x P N. unfold streamNumber, shown. destruct (fixed f).
  - destruct (show_fixed (precision f) x P N) as (k & _ & D & NU). exists (units (precision f) k). split; auto. exists k. split; auto. reflexivity.
  - apply show_general; auto.
Qed.
Lemma value_app : forall a b, isValue a -> isValue b -> isValue (a ++ b).
Proof. intros. apply Forall_app. auto. Qed.

(* lists of attributes as they are printed *)
Definition printAttr (kv : list Z * list Z) : list Z := fst kv ++ [61; 34] ++ snd kv ++ [34; 32].
Definition printAttrs (l : attributes) : list Z := flat_map printAttr l.
Definition goodAttrs (l : attributes) : Prop := Forall (fun kv => isName (fst kv) /\ isValue (snd kv)) l.
Lemma blank_space : Forall blank [32].
Proof. constructor; [unfold blank; lia|constructor]. Qed.
Lemma print_ok : forall l, goodAttrs l -> attributesText ([32] ++ printAttrs l) l.
Proof.
  induction l as [|(k, v) l IH]; intro G; cbn [printAttrs flat_map].
  - apply no_attribute. apply blank_space.
  - inv G. cbn [fst snd] in *. destruct H1. unfold printAttr. cbn [fst snd]. rewrite <- !app_assoc. change ([34; 32] ++ flat_map printAttr l) with ([34] ++ ([32] ++ printAttrs l)).
    apply one_attribute; auto; try discriminate. apply blank_space.
Qed.
Lemma print_app : forall a b, printAttrs (a ++ b) = printAttrs a ++ printAttrs b.
Proof. intros. apply flat_map_app. Qed.

Definition optPair (k : String.string) (v : option (list Z)) : attributes := match v with Some v => [(text k, v)] | None => [] end.
Definition strokeAttrs (s : option Stroke) : attributes :=
  match s with
  | None => [(text "stroke", text "none")]
  | Some s => [(text "stroke", rgbText (strokeColor s)); (text "stroke-width", numberText (strokeWidth s))] ++
      optPair "stroke-linecap" (option_map linecapText (linecap s)) ++ optPair "stroke-linejoin" (option_map linejoinText (linejoin s)) ++
      optPair "vector-effect" (if scale s then None else Some (text "non-scaling-stroke"))
  end.
Definition styleAttrs (st : style) : attributes :=
  strokeAttrs (stroke st) ++ [(text "fill", match fill st with Some c => rgbText c | None => text "none" end)].
Definition pointsValue (f : format) (ps : list (real * real)) : list Z :=
  flat_map (fun p => streamNumber f (fst p) ++ [44] ++ streamNumber f (flip (snd p) rzero) ++ [32]) ps.
Definition geometry (f : format) (s : shape real) : attributes :=
  match s with
  | Rectangle o w h => [(text "x", numberText (fst o)); (text "y", numberText (flip (snd o) h)); (text "width", numberText w); (text "height", numberText h)]
  | Circle o r => [(text "r", numberText r); (text "cx", numberText (fst o)); (text "cy", numberText (flip (snd o) rzero))]
  | Ellipse o rx ry => [(text "rx", numberText rx); (text "ry", numberText ry); (text "cx", numberText (fst o)); (text "cy", numberText (flip (snd o) rzero))]
  | Line p q => [(text "x1", numberText (fst p)); (text "y1", numberText (flip (snd p) rzero)); (text "x2", numberText (fst q)); (text "y2", numberText (flip (snd q) rzero))]
  | Polygon ps | Polyline ps => [(text "points", pointsValue f ps)]
  end.
Definition shapeName (s : shape real) : String.string :=
  match s with Rectangle _ _ _ => "rect" | Circle _ _ => "circle" | Ellipse _ _ _ => "ellipse" | Polygon _ => "polygon" | Line _ _ => "line" | Polyline _ => "polyline" end.
Definition shapeAttrs (f : format) (s : shape real) (st : style) : attributes := geometry f s ++ styleAttrs st.

Lemma attribute_print : forall k v, attribute k v = printAttrs [(text k, v)].
Proof. intros. unfold attribute, printAttrs, printAttr. cbn [flat_map fst snd]. rewrite app_nil_r. reflexivity. Qed.
Lemma style_print : forall st, styleText st = printAttrs (styleAttrs st).
Proof.
  intro st. unfold styleText, styleAttrs. rewrite print_app. f_equal.
  - destruct (stroke st) as [s|]; [|apply attribute_print]. unfold strokeText, strokeAttrs. rewrite !print_app, !attribute_print.
    change [(text "stroke", rgbText (strokeColor s)); (text "stroke-width", numberText (strokeWidth s))] with ([(text "stroke", rgbText (strokeColor s))] ++ [(text "stroke-width", numberText (strokeWidth s))]).
    rewrite print_app, <- !app_assoc. unfold optAttribute, optPair. destruct (linecap s), (linejoin s), (scale s); cbn [option_map]; rewrite ?attribute_print; reflexivity.
  - destruct (fill st); apply attribute_print.
Qed.
Lemma shape_print : forall f s st, shapeText f s st = [60] ++ text (shapeName s) ++ ([32] ++ printAttrs (shapeAttrs f s st)) ++ [47; 62].
Proof.
  intros f s st. unfold shapeAttrs. rewrite print_app, <- style_print.
  destruct s as [o w h|o r|o rx ry|ps|p q|ps]; cbn [shapeText geometry shapeName].
  - change (text "<rect ") with ([60] ++ text "rect" ++ [32]). rewrite !attribute_print, <- !app_assoc. cbn [printAttrs flat_map]. rewrite !app_nil_r, <- !app_assoc. reflexivity.
  - change (text "<circle ") with ([60] ++ text "circle" ++ [32]). rewrite !attribute_print, <- !app_assoc. cbn [printAttrs flat_map]. rewrite !app_nil_r, <- !app_assoc. reflexivity.
  - change (text "<ellipse ") with ([60] ++ text "ellipse" ++ [32]). rewrite !attribute_print, <- !app_assoc. cbn [printAttrs flat_map]. rewrite !app_nil_r, <- !app_assoc. reflexivity.
  - change (text "<polygon ") with ([60] ++ text "polygon" ++ [32]). unfold pointsText. change (text "points=""") with (text "points" ++ [61; 34]). unfold printAttrs. cbn [flat_map]. unfold printAttr. cbn [fst snd]. rewrite !app_nil_r, <- !app_assoc. reflexivity.
  - change (text "<line ") with ([60] ++ text "line" ++ [32]). rewrite !attribute_print, <- !app_assoc. cbn [printAttrs flat_map]. rewrite !app_nil_r, <- !app_assoc. reflexivity.
  - change (text "<polyline ") with ([60] ++ text "polyline" ++ [32]). unfold pointsText. change (text "points=""") with (text "points" ++ [61; 34]). unfold printAttrs. cbn [flat_map]. unfold printAttr. cbn [fst snd]. rewrite !app_nil_r, <- !app_assoc. reflexivity.
Qed.

(* values *)
Lemma hex_range : forall d, 0 <= d < 16 -> 48 <= hexDigit d <= 57 \/ 97 <= hexDigit d <= 102.
Proof. intros d D. unfold hexDigit. destruct (Z.ltb_spec d 10); lia. Qed.
Lemma hex_value : forall v, byte v -> isValue (padded (hexText v)).
Proof.
  intros v B. unfold byte in B. assert (H : forall d, 0 <= d < 16 -> xmlChar (hexDigit d) /\ hexDigit d <> 34 /\ hexDigit d <> 38 /\ hexDigit d <> 60).
  { intros d D. apply hex_range in D. unfold xmlChar. lia. }
  unfold hexText, padded. destruct (Z.ltb_spec v 16); cbn [length Nat.sub repeat app].
  - constructor; [unfold xmlChar; lia|]. constructor; [apply H; lia|constructor].
  - pose proof (Z.div_mod v 16 ltac:(lia)). pose proof (Z.mod_pos_bound v 16 ltac:(lia)). constructor; [apply H; lia|]. constructor; [apply H; lia|constructor].
Qed.
Lemma rgb_value : forall c, isRgb c -> isValue (rgbText c).
Proof.
  intros c (R & G & B). unfold rgbText. constructor; [unfold xmlChar; lia|]. apply value_app; [|apply value_app]; apply hex_value; auto.
Qed.
Lemma points_value : forall f ps, 0 <= precision f -> isValue (pointsValue f ps).
Proof.
  intros f ps P. induction ps as [|p ps IH]; [constructor|]. cbn [pointsValue flat_map]. repeat apply value_app; auto using stream_value; apply valueb_ok; reflexivity.
Qed.
Ltac goodPair := split; [apply nameb_ok; reflexivity|cbn [snd]].
Lemma style_good : forall st, proper (TShape (Polygon []) st) -> goodAttrs (styleAttrs st).
Proof.
  intros st (F & S). unfold styleAttrs, goodAttrs. apply Forall_app. split.
  - destruct (stroke st) as [s|]; cbn [strokeAttrs]; [|constructor; [goodPair; apply valueb_ok; reflexivity|constructor]].
    repeat (apply Forall_app; split); [constructor; [goodPair; apply rgb_value; auto|constructor; [goodPair; apply general_value|constructor]]| | |].
    + destruct (linecap s) as [[]|]; cbn; [| | |constructor]; (constructor; [goodPair; apply valueb_ok; reflexivity|constructor]).
    + destruct (linejoin s) as [[]|]; cbn; [| | |constructor]; (constructor; [goodPair; apply valueb_ok; reflexivity|constructor]).
    + destruct (scale s); cbn; [constructor|]. constructor; [goodPair; apply valueb_ok; reflexivity|constructor].
  - constructor; [|constructor]. goodPair. destruct (fill st); [apply rgb_value; auto|apply valueb_ok; reflexivity].
Qed.
Lemma geometry_good : forall f s, 0 <= precision f -> goodAttrs (geometry f s).
Proof.
  intros f s P. unfold goodAttrs. destruct s as [o w h|o r|o rx ry|ps|p q|ps]; cbn [geometry]; repeat constructor; cbn [fst snd]; try (apply nameb_ok; reflexivity); try apply general_value; apply points_value; auto.
Qed.
Lemma style_keys : forall st, exists ks, map fst (styleAttrs st) = ks /\ distinctb ks = true /\
  (forall k, In k ks -> In k [text "stroke"; text "stroke-width"; text "stroke-linecap"; text "stroke-linejoin"; text "vector-effect"; text "fill"]).
Proof.
  intro st. eexists. split; [reflexivity|]. unfold styleAttrs, strokeAttrs. rewrite map_app. destruct (stroke st) as [s|].
  - rewrite !map_app. destruct (linecap s), (linejoin s), (scale s); (split; [reflexivity|intros k I; cbn [optPair option_map map app fst In] in *; tauto]).
  - split; [reflexivity|]. intros k I. cbn [map app fst In] in *. tauto.
Qed.
Lemma shape_keys : forall f s st, NoDup (map fst (shapeAttrs f s st)).
Proof.
  intros f s st. unfold shapeAttrs. rewrite map_app. destruct (style_keys st) as (ks & E & D & I). rewrite E. apply distinctb_ok in D.
  assert (G : forall gs, distinctb gs = true -> forallb (fun g => negb (existsb (sameb g) [text "stroke"; text "stroke-width"; text "stroke-linecap"; text "stroke-linejoin"; text "vector-effect"; text "fill"])) gs = true -> NoDup (gs ++ ks)).
  { induction gs as [|g gs IH]; intros DG X; [exact D|]. cbn [distinctb] in DG. apply andb_prop in DG as (DG1 & DG2). cbn [forallb] in X. apply andb_prop in X as (X1 & X2).
    cbn [app]. constructor; auto. rewrite in_app_iff. intros [J|J].
    - assert (K : existsb (sameb g) gs = true) by (apply existsb_exists; exists g; split; auto; unfold sameb; destruct (list_eq_dec Z.eq_dec g g); congruence). rewrite K in DG1. discriminate.
    - apply I in J. assert (K : existsb (sameb g) [text "stroke"; text "stroke-width"; text "stroke-linecap"; text "stroke-linejoin"; text "vector-effect"; text "fill"] = true) by (apply existsb_exists; exists g; split; auto; unfold sameb; destruct (list_eq_dec Z.eq_dec g g); congruence). rewrite K in X1. discriminate. }
  destruct s; apply G; reflexivity.
Qed.
Lemma shape_attributes : forall f s st, 0 <= precision f -> proper (TShape s st) -> isAttributes ([32] ++ printAttrs (shapeAttrs f s st)) (shapeAttrs f s st).
Proof. intros f s st P PR. split; [|apply shape_keys]. apply print_ok. unfold shapeAttrs, goodAttrs. apply Forall_app. split; [apply geometry_good; auto|apply style_good; auto]. Qed.

(* meaning *)
Lemma six_ok : forall l k x, attr l k (numberText x) -> sixDigits l k x.
Proof. intros l k x A N. destruct (show_general 6 x N) as (q & D & S). exists q. split; [exists (numberText x); auto|exact S]. Qed.
Lemma point_ok : forall f l ps, 0 <= precision f -> attr l "points" (pointsValue f ps) -> shownPoints f l ps.
Proof.
  intros f l ps P A F. assert (X : exists qs, pointList (pointsValue f ps) qs /\ Forall2 (fun p q => shown f (val (fst p)) (fst q) /\ shown f (val (negated (snd p) rzero)) (snd q)) ps qs).
  { clear A. induction F as [|p ps (N1 & N2) F (qs & PL & S)]; [exists []; split; constructor|].
    destruct (stream_shown f _ P N1) as (x & D1 & S1). destruct (stream_shown f _ P N2) as (y & D2 & S2). exists ((x, y) :: qs). split; [|constructor; auto].
    cbn [pointsValue flat_map]. rewrite <- !app_assoc. constructor; auto. }
  destruct X as (qs & PL & S). exists qs. split; auto. exists (pointsValue f ps). auto.
Qed.
Lemma described_ok : forall f s st, 0 <= precision f -> described f s (Element (text (shapeName s)) (shapeAttrs f s st)).
Proof.
  intros f s st P. exists (shapeName s), (shapeAttrs f s st). split; auto.
  assert (G : forall k v, In (text k, v) (geometry f s) -> attr (shapeAttrs f s st) k v) by (intros; apply in_or_app; auto).
  destruct s as [o w h|o r|o rx ry|ps|p q|ps]; split; auto; cbn [geometry] in G;
    try (apply point_ok; auto; apply G; left; reflexivity);
    repeat match goal with |- _ /\ _ => split end; apply six_ok; apply G; cbn [In]; auto 6.
Qed.
Lemma keyword_absent : forall (l : attributes) k, existsb (sameb (text k)) (map fst l) = false -> absent l k.
Proof.
  intros l k E I. assert (K : existsb (sameb (text k)) (map fst l) = true) by (apply existsb_exists; exists (text k); split; auto; unfold sameb; destruct (list_eq_dec Z.eq_dec (text k) (text k)); congruence). congruence.
Qed.
Lemma geometry_free : forall f s k, In k ["stroke"; "stroke-width"; "stroke-linecap"; "stroke-linejoin"; "vector-effect"; "fill"]%string -> existsb (sameb (text k)) (map fst (geometry f s)) = false.
Proof. intros f s k I. cbn [In] in I. destruct s; decompose [or] I; subst; try contradiction; reflexivity. Qed.
Lemma styled_ok : forall f s st, proper (TShape s st) -> styled (shapeAttrs f s st) st.
Proof.
  intros f s st (F & S). unfold shapeAttrs.
  assert (A : forall k v, In (text k, v) (styleAttrs st) -> attr (geometry f s ++ styleAttrs st) k v) by (intros; apply in_or_app; auto).
  assert (FR : forall k, In k ["stroke"; "stroke-width"; "stroke-linecap"; "stroke-linejoin"; "vector-effect"; "fill"]%string -> existsb (sameb (text k)) (map fst (styleAttrs st)) = false -> absent (geometry f s ++ styleAttrs st) k).
  { intros k I E. apply keyword_absent. rewrite map_app, existsb_app, E, geometry_free; auto. }
  set (L := geometry f s ++ styleAttrs st) in *. clearbody L. split.
  - exists (match fill st with Some c => rgbText c | None => text "none" end). split; [apply A; apply in_or_app; right; left; reflexivity|]. destruct (fill st); cbn; [apply text_ok; auto|reflexivity].
  - unfold styleAttrs in A, FR. destruct (stroke st) as [k|] eqn:ST.
    + cbn [strokeAttrs] in A, FR.
      split; [|split; [|split; [|split]]].
      * exists (rgbText (strokeColor k)). split; [apply A; left; reflexivity|apply text_ok; auto].
      * apply six_ok. apply A. right. left. reflexivity.
      * destruct (linecap k) as [c|] eqn:LC; cbn [option_map keyword].
        -- destruct c; apply A; cbn [option_map optPair app In]; auto 9.
        -- apply FR; [cbn; auto 9|]. rewrite !map_app. destruct (linejoin k), (scale k); reflexivity.
      * destruct (linejoin k) as [c|] eqn:LC; cbn [option_map keyword].
        -- destruct c; apply A; cbn [option_map optPair app In]; repeat (rewrite in_app_iff); cbn [option_map optPair app In]; destruct (linecap k); cbn; auto 9.
        -- apply FR; [cbn; auto 9|]. rewrite !map_app. destruct (linecap k), (scale k); reflexivity.
      * destruct (scale k) eqn:SC; cbn [keyword].
        -- apply FR; [cbn; auto 9|]. rewrite !map_app. destruct (linejoin k), (linecap k); reflexivity.
        -- apply A. rewrite !in_app_iff. left. right. right. right. left. reflexivity.
    + exists (text "none"). split; [apply A; left; reflexivity|reflexivity].
Qed.
