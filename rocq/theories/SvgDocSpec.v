(* XML documents and what SVG draws for them. *)
From Coq Require Import String.
From Verif Require Import Base FloatModel FloatSpec RealSpec InitSpec DecimalSpec PrintSpec GeneralSpec SvgModel SvgSpec ColorModel ColorSpec SvgDocModel.
From Coq Require Import ZArith QArith List.
Import ListNotations.
Open Scope Z_scope.
Open Scope list_scope.

(* The part of XML 1.0 that is needed: every text accepted here is a well-formed document. *)
Definition blank (c : Z) : Prop := c = 9 \/ c = 10 \/ c = 13 \/ c = 32.
Definition xmlChar (c : Z) : Prop := c = 9 \/ c = 10 \/ c = 13 \/ 32 <= c.
Definition letter (c : Z) : Prop := 65 <= c <= 90 \/ 97 <= c <= 122.
Definition nameChar (c : Z) : Prop := letter c \/ 48 <= c <= 57 \/ c = 45.
Definition isName (n : list Z) : Prop := exists c n', n = c :: n' /\ letter c /\ Forall nameChar n'.
Definition isValue (v : list Z) : Prop := Forall (fun c => xmlChar c /\ c <> 34 /\ c <> 38 /\ c <> 60) v.
Definition attributes : Type := list (list Z * list Z).
(* blanks, name="value", and so on *)
Inductive attributesText : list Z -> attributes -> Prop :=
| no_attribute : forall ws, Forall blank ws -> attributesText ws []
| one_attribute : forall ws k v s l, Forall blank ws -> ws <> [] -> isName k -> isValue v -> attributesText s l ->
    attributesText (ws ++ k ++ [61; 34] ++ v ++ [34] ++ s) ((k, v) :: l).
Definition isAttributes (s : list Z) (l : attributes) : Prop := attributesText s l /\ NoDup (map fst l).
(* comments must not contain -- or end with - *)
Definition noDashes (c : list Z) : Prop := (forall a b, c <> a ++ [45; 45] ++ b) /\ (forall a, c <> a ++ [45]).
Inductive node : Type := Element (name : list Z) (l : attributes) | Remark (c : list Z).
Inductive content : list Z -> list node -> Prop :=
| content_end : forall ws, Forall blank ws -> content ws []
| content_element : forall ws n a l s ns, Forall blank ws -> isName n -> isAttributes a l -> content s ns ->
    content (ws ++ [60] ++ n ++ a ++ [47; 62] ++ s) (Element n l :: ns)
| content_remark : forall ws c s ns, Forall blank ws -> Forall xmlChar c -> noDashes c -> content s ns ->
    content (ws ++ [60; 33; 45; 45] ++ c ++ [45; 45; 62] ++ s) (Remark c :: ns).
(* a document with declaration d, and a root with name, attributes l and contents ns *)
Definition document (s : list Z) (d : attributes) (name : list Z) (l : attributes) (ns : list node) : Prop :=
  exists da ws ra c, s = text "<?xml" ++ da ++ text "?>" ++ ws ++ [60] ++ name ++ ra ++ [62] ++ c ++ [60; 47] ++ name ++ [62] /\
    isAttributes da d /\ Forall blank ws /\ isName name /\ isAttributes ra l /\ content c ns.

(* the value of an attribute is a number *)
Definition attr (l : attributes) (key : String.string) (v : list Z) : Prop := In (text key, v) l.
Definition absent (l : attributes) (key : String.string) : Prop := ~ In (text key) (map fst l).
Definition numberAttr (l : attributes) (key : String.string) (q : Q) : Prop := exists v, attr l key v /\ decimalValue v q.
(* x,y x,y  *)
Inductive pointList : list Z -> list (Q * Q) -> Prop :=
| no_point : pointList [] []
| one_point : forall a x b y s ps, decimalValue a x -> decimalValue b y -> pointList s ps -> pointList (a ++ [44] ++ b ++ [32] ++ s) ((x, y) :: ps).
Definition pointsAttr (l : attributes) (ps : list (Q * Q)) : Prop := exists v, attr l "points" v /\ pointList v ps.
(* x y width height *)
Definition viewAttr (l : attributes) (v : Q * Q * Q * Q) : Prop :=
  let '(x, y, w, h) := v in exists a b c d, attr l "viewBox" (a ++ [32] ++ b ++ [32] ++ c ++ [32] ++ d) /\
    decimalValue a x /\ decimalValue b y /\ decimalValue c w /\ decimalValue d h.
(* the area of an element *)
Inductive drawn : node -> element Q -> Prop :=
| drawn_rect : forall l x y w h, numberAttr l "x" x -> numberAttr l "y" y -> numberAttr l "width" w -> numberAttr l "height" h ->
    drawn (Element (text "rect") l) (ERect x y w h)
| drawn_circle : forall l x y r, numberAttr l "cx" x -> numberAttr l "cy" y -> numberAttr l "r" r ->
    drawn (Element (text "circle") l) (EEllipse x y r r)
| drawn_ellipse : forall l x y rx ry, numberAttr l "cx" x -> numberAttr l "cy" y -> numberAttr l "rx" rx -> numberAttr l "ry" ry ->
    drawn (Element (text "ellipse") l) (EEllipse x y rx ry)
| drawn_polygon : forall l ps, pointsAttr l ps -> drawn (Element (text "polygon") l) (EPolygon ps)
| drawn_line : forall l x1 y1 x2 y2, numberAttr l "x1" x1 -> numberAttr l "y1" y1 -> numberAttr l "x2" x2 -> numberAttr l "y2" y2 ->
    drawn (Element (text "line") l) (EPolyline [(x1, y1); (x2, y2)])
| drawn_polyline : forall l ps, pointsAttr l ps -> drawn (Element (text "polyline") l) (EPolyline ps).
(* the paint of fill and stroke: none or a colour *)
Definition paint (l : attributes) (key : String.string) (c : option (Z * Z * Z)) : Prop :=
  exists v, attr l key v /\ match c with None => v = text "none" | Some rgb => cssColor v = Some rgb end.

(* what the program asked for: numbers with 6 significant digits *)
Definition sixDigits (l : attributes) (key : String.string) (x : real) : Prop :=
  number x -> exists q, numberAttr l key q /\ significant 6 (val x) q.
Definition keyword (l : attributes) (key : String.string) (w : option String.string) : Prop :=
  match w with Some w => attr l key (text w) | None => absent l key end.
Definition parts (c : Rgb) : Z * Z * Z := (sr c, sg c, sb c).
Definition styled (l : attributes) (st : style) : Prop :=
  paint l "fill" (option_map parts (fill st)) /\
  match stroke st with
  | None => paint l "stroke" None
  | Some s =>
      paint l "stroke" (Some (parts (strokeColor s))) /\ sixDigits l "stroke-width" (strokeWidth s) /\
      keyword l "stroke-linecap" (option_map (fun c => match c with CapButt => "butt" | CapRound => "round" | CapSquare => "square" end%string) (linecap s)) /\
      keyword l "stroke-linejoin" (option_map (fun c => match c with JoinRound => "round" | JoinBevel => "bevel" | JoinMiter => "miter" end%string) (linejoin s)) /\
      keyword l "vector-effect" (if scale s then None else Some "non-scaling-stroke"%string)
  end.
(* a number in the format of the stream *)
Definition shown (f : format) (v q : Q) : Prop :=
  if fixed f then exists k, nearestUnits (precision f) v k /\ (q == units (precision f) k)%Q else significant (Z.max (precision f) 1) v q.
Definition negated (y height : real) : real := SFopp (SFadd prec emax y height).
Definition shownPoints (f : format) (l : attributes) (ps : list (real * real)) : Prop :=
  Forall (fun p => number (fst p) /\ number (negated (snd p) rzero)) ps ->
  exists qs, pointsAttr l qs /\ Forall2 (fun p q => shown f (val (fst p)) (fst q) /\ shown f (val (negated (snd p) rzero)) (snd q)) ps qs.
Definition described (f : format) (s : shape real) (n : node) : Prop :=
  exists name l, n = Element (text name) l /\
  match s with
  | Rectangle o w h => name = "rect"%string /\ sixDigits l "x" (fst o) /\ sixDigits l "y" (negated (snd o) h) /\ sixDigits l "width" w /\ sixDigits l "height" h
  | Circle o r => name = "circle"%string /\ sixDigits l "cx" (fst o) /\ sixDigits l "cy" (negated (snd o) rzero) /\ sixDigits l "r" r
  | Ellipse o rx ry => name = "ellipse"%string /\ sixDigits l "cx" (fst o) /\ sixDigits l "cy" (negated (snd o) rzero) /\ sixDigits l "rx" rx /\ sixDigits l "ry" ry
  | Polygon ps => name = "polygon"%string /\ shownPoints f l ps
  | Line p q => name = "line"%string /\ sixDigits l "x1" (fst p) /\ sixDigits l "y1" (negated (snd p) rzero) /\ sixDigits l "x2" (fst q) /\ sixDigits l "y2" (negated (snd q) rzero)
  | Polyline ps => name = "polyline"%string /\ shownPoints f l ps
  end.
Definition hasStyle (st : style) (n : node) : Prop := match n with Element _ l => styled l st | Remark _ => False end.
(* the nodes of a sequence of things, in this order *)
Inductive nodesOf : format -> list thing -> list node -> Prop :=
| nodes_nil : forall f, nodesOf f [] []
| nodes_shape : forall f s st ts n ns, described f s n -> hasStyle st n -> nodesOf f ts ns -> nodesOf f (TShape s st :: ts) (n :: ns)
| nodes_comment : forall f c ts ns, nodesOf f ts ns -> nodesOf f (TComment c :: ts) (Remark ([32] ++ c ++ [32]) :: ns)
| nodes_text : forall f t ts ns, nodesOf f ts ns -> nodesOf f (TText t :: ts) ns
| nodes_format : forall f g ts ns, nodesOf g ts ns -> nodesOf f (TFormat g :: ts) ns.
(* colours are bytes, comments contain no --, other text is blank *)
Definition proper (t : thing) : Prop :=
  match t with
  | TShape _ st => match fill st with Some c => isRgb c | None => True end /\ match stroke st with Some s => isRgb (strokeColor s) | None => True end
  | TComment c => Forall xmlChar c /\ forall a b, c <> a ++ [45; 45] ++ b
  | TText t => Forall blank t
  | TFormat f => 0 <= precision f
  end.

(* the same image with exact numbers *)
Definition exactPoint (p : real * real) : Q * Q := (val (fst p), val (snd p)).
Definition exact (s : shape real) : shape Q :=
  match s with
  | Rectangle o w h => Rectangle (exactPoint o) (val w) (val h)
  | Circle o r => Circle (exactPoint o) (val r)
  | Ellipse o rx ry => Ellipse (exactPoint o) (val rx) (val ry)
  | Polygon ps => Polygon (map exactPoint ps)
  | Line p q => Line (exactPoint p) (exactPoint q)
  | Polyline ps => Polyline (map exactPoint ps)
  end.
Definition exactItem (t : thing) : item Q := match t with TShape s _ => Draw (exact s) | _ => Text end.
(* integers with at most six digits *)
Definition short (x : real) : Prop := number x /\ exists z, (val x == inject_Z z)%Q /\ Z.abs z < 10 ^ 6.
Definition shortPoint (p : real * real) : Prop := short (fst p) /\ short (snd p).
Definition shortShape (s : shape real) : Prop :=
  match s with
  | Rectangle o w h => shortPoint o /\ short w /\ short h /\ (- inject_Z (10 ^ 6) < val (snd o) + val h < inject_Z (10 ^ 6))%Q
  | Circle o r => shortPoint o /\ short r
  | Ellipse o rx ry => shortPoint o /\ short rx /\ short ry
  | Polygon ps | Polyline ps => Forall shortPoint ps
  | Line p q => shortPoint p /\ shortPoint q
  end.
(* ... which are printed exactly in such a format *)
Definition wide (f : format) : Prop := fixed f = true \/ 6 <= precision f.
Definition shortThing (t : thing) : Prop := match t with TShape s _ => shortShape s | TFormat f => wide f | _ => True end.
(* statements with all shapes in front *)
Definition isShape (t : thing) : Prop := match t with TShape _ _ => True | _ => False end.
Definition tidy (ts : list thing) : Prop := forall a t b, ts = a ++ t :: b -> isShape t -> Forall isShape a.
(* the same area *)
Definition samePlace (p q : Q * Q) : Prop := (fst p == fst q)%Q /\ (snd p == snd q)%Q.
Definition sameArea (e f : element Q) : Prop :=
  match e, f with
  | ERect x y w h, ERect x' y' w' h' | EEllipse x y w h, EEllipse x' y' w' h' => (x == x' /\ y == y' /\ w == w' /\ h == h')%Q
  | EPolygon ps, EPolygon qs | EPolyline ps, EPolyline qs => Forall2 samePlace ps qs
  | _, _ => False
  end.
(* the areas of all shapes, exactly *)
Inductive areasOf : list thing -> list node -> Prop :=
| areas_nil : areasOf [] []
| areas_shape : forall s st ts n ns, (exists e, drawn n e) -> (forall e, drawn n e -> sameArea e (elementQ (exact s))) -> areasOf ts ns -> areasOf (TShape s st :: ts) (n :: ns)
| areas_comment : forall c ts n ns, (forall e, ~ drawn n e) -> areasOf ts ns -> areasOf (TComment c :: ts) (n :: ns)
| areas_text : forall t ts ns, areasOf ts ns -> areasOf (TText t :: ts) ns
| areas_format : forall f ts ns, areasOf ts ns -> areasOf (TFormat f :: ts) ns.
