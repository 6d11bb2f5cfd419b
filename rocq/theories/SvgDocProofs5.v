(* Files that are not as expected. *)
From Coq Require Import String.
From Verif Require Import Base Tac FloatModel FloatSpec FloatProofs RealSpec RealModel InitSpec DecimalSpec DecimalModel DecimalProofs2 PrintModel PrintSpec GeneralModel GeneralSpec SvgModel SvgSpec ColorModel ColorSpec SvgDocModel SvgDocSpec SvgDocProofs SvgDocProofs2 SvgDocProofs3 SvgDocProofs4.
From Coq Require Import ZArith QArith Qabs List Lia Lqa SpecFloat.
Import ListNotations.
Open Scope Z_scope.
Open Scope list_scope.

Lemma root_good : forall b, isAttributes ([32] ++ printAttrs (rootAttrs b)) (rootAttrs b).
Proof.
  intro b. split; [apply print_ok|apply distinctb_ok; reflexivity]. unfold goodAttrs, rootAttrs. constructor; [goodPair; apply valueb_ok; reflexivity|]. constructor; [goodPair; apply valueb_ok; reflexivity|]. constructor; [goodPair; apply valueb_ok; reflexivity|].
  constructor; [goodPair; apply view_value|constructor].
Qed.
Lemma decl_good : isAttributes ([32] ++ printAttrs decl) decl.
Proof. split; [apply print_ok|apply distinctb_ok; reflexivity]. unfold goodAttrs, decl. constructor; [goodPair; apply valueb_ok; reflexivity|]. constructor; [goodPair; apply valueb_ok; reflexivity|constructor]. Qed.
(* the document is the contents *)
Lemma content_document : forall name b out s ns, write (Some name) b out = Some s -> content out ns -> document s decl (text "svg") (rootAttrs b) ns.
Proof.
  intros name b out s ns W C. apply write_text in W. exists ([32] ++ printAttrs decl), [10], ([32] ++ printAttrs (rootAttrs b)), ([10] ++ out).
  split; [exact W|]. split; [apply decl_good|]. split; [constructor; [unfold blank; lia|constructor]|]. split; [apply nameb_ok; reflexivity|]. split; [apply root_good|].
  apply content_blank; auto. constructor; [unfold blank; lia|constructor].
Qed.
Lemma document_content : forall name b out s d n l ns, write (Some name) b out = Some s -> document s d n l ns ->
  n = text "svg" /\ l = rootAttrs b /\ exists c, content c ns /\ [10] ++ out ++ text "</svg>" = c ++ [60; 47] ++ text "svg" ++ [62].
Proof.
  intros name b out s d n l ns W (da & ws & ra & c & E & (DA & _) & WS & N & (RA & _) & C). apply write_text in W. rewrite W in E. clear W.
  pose proof (proj1 decl_good) as GD. pose proof (proj1 (root_good b)) as GR. revert E GD GR. generalize ([32] ++ printAttrs decl), ([32] ++ printAttrs (rootAttrs b)). intros dt rt E GD GR.
  apply app_inv_head in E. change (text "?>") with [63; 62] in E. cbn [app] in E.
  apply (attributes_unique _ _ GD) with (l' := d) in E as (_ & _ & E2); auto; try (unfold closes; lia).
  apply (f_equal (@skipn Z 2)) in E2. cbn [skipn] in E2. match type of E2 with 10 :: ?u = _ => change (10 :: u) with ([10] ++ u) in E2 end.
  apply (span_unique blank) in E2 as (_ & E2); auto; try (cbn; unfold blank; lia); [|constructor; [unfold blank; lia|constructor]]. apply (f_equal (@tl Z)) in E2. cbn [tl] in E2.
  apply (span_unique nameChar) in E2 as (<- & E2); [|apply name_chars, nameb_ok; reflexivity|apply name_chars; auto|eapply attributes_stop; eauto; unfold closes; lia|eapply attributes_stop; eauto; unfold closes; lia].
  apply (attributes_unique _ _ GR) with (l' := l) in E2 as (_ & <- & E2); auto; try (unfold closes; lia). apply (f_equal (@tl Z)) in E2. cbn [tl] in E2.
  split; auto. split; auto. exists c. split; auto.
Qed.
(* after a comment with -- there is no way to go on *)
Lemma dashes_stop : forall a x r c r', noDashes a -> x <> 62 -> noDashes c -> a ++ [45; 45; x] ++ r = c ++ [45; 45; 62] ++ r' -> False.
Proof.
  assert (TL : forall x c, noDashes (x :: c) -> noDashes c).
  { intros x c (A & B). split; [intros a b ->; apply (A (x :: a) b); auto|intros a ->; apply (B (x :: a)); auto]. }
  induction a as [|y a IH]; intros x r c r' N X M E; destruct c as [|z c].
  - inversion E. congruence.
  - inversion E as [[E1 E2]]. subst z. destruct c as [|z c]; [apply (proj2 M []); auto|]. inversion E2. subst z. apply (proj1 M [] c). auto.
  - inversion E as [[E1 E2]]. subst y. destruct a as [|z a]; [apply (proj2 N []); auto|]. inversion E2. subst z. apply (proj1 N [] a). auto.
  - inversion E as [[E1 E2]]. apply (IH x r c r'); eauto.
Qed.
Lemma dashes_bad : forall name b a x r ts cs s d n l ns, noDashes (32 :: a) -> x <> 62 ->
  write (Some name) b (imageText ((TComment (a ++ [45; 45; x] ++ r) :: ts) :: cs)) = Some s -> ~ document s d n l ns.
Proof.
  intros name b a x r ts cs s d n l ns N X W D. destruct (document_content _ _ _ _ _ _ _ _ W D) as (_ & _ & c & C & E). unfold imageText in E. cbn [concat app outText] in E. unfold commentText in E.
  assert (SB : forall r, stops blank (60 :: r)) by (intro; cbn; unfold blank; lia).
  revert E. match goal with |- ?u = _ -> _ => assert (F : exists r', u = [10] ++ 60 :: 33 :: 45 :: 45 :: (32 :: a) ++ [45; 45; x] ++ r') end.
  { change (text "<!-- ") with [60; 33; 45; 45; 32]. rewrite <- !app_assoc. cbn [app]. eexists. reflexivity. }
  assert (B10 : Forall blank [10]) by (constructor; [unfold blank; lia|constructor]).
  destruct F as (r' & ->). intro E. destruct C as [ws B|ws m t k s' ns B M T C|ws t s' ns B T M C]; rewrite <- ?app_assoc in E.
  - apply (span_unique blank) in E as (_ & E); auto; try match goal with |- stops _ _ => apply SB end. discriminate.
  - apply (span_unique blank) in E as (_ & E); auto; try match goal with |- stops _ _ => apply SB end. destruct M as (y & m' & -> & L & _). inversion E. subst y. unfold letter in L. lia.
  - apply (span_unique blank) in E as (_ & E); auto; try match goal with |- stops _ _ => apply SB end. apply (f_equal (@skipn Z 4)) in E. cbn [skipn app] in E. eapply (dashes_stop (32 :: a) x r' t); [exact N|exact X|exact M|exact E].
Qed.

(* a line with 7 digits *)
Definition black : style := mkStyle None None.
Definition million : real := Eval vm_compute in ofZ 1234567.
Definition longLine : list (list thing) := [[TShape (Line (rzero, rzero) (million, rzero)) black]].
Ltac plainDecimal := repeat match goal with
  | |- _ /\ _ => split
  | |- InputSpec.optSign [] => left; reflexivity
  | |- InputSpec.optSign [_] => right; (left; reflexivity) || (right; reflexivity)
  | |- Forall _ _ => repeat (constructor; [unfold InputSpec.digit; lia|]); constructor
  | |- exponentIs [] 0 => left; auto
  | |- _ \/ _ => left; discriminate
  | |- false = true -> _ => discriminate
  | |- true = false -> _ => discriminate
  | |- false = false -> _ => reflexivity
  | |- _ => vm_compute; reflexivity
  end.
Lemma one_shape : forall name s st f out, proper (TShape s st) -> write (Some name) (imageBox [[TShape s st]]) (imageText [[TShape s st]]) = Some out -> f = defaultFormat ->
  document out decl (text "svg") (rootAttrs (imageBox [[TShape s st]])) [Element (text (shapeName s)) (shapeAttrs f s st)].
Proof.
  intros name s st f out P W ->. apply (content_document name _ (imageText [[TShape s st]])); auto. cbn [imageText concat app outText]. unfold imageText. cbn [concat app outText].
  rewrite shape_print, <- !app_assoc. change [60] with ([] ++ [60]). rewrite <- !app_assoc. rewrite (app_assoc [32]).
  constructor; [constructor|destruct s; apply nameb_ok; reflexivity|apply shape_attributes; [cbn; lia|auto]|constructor; constructor].
Qed.
Lemma tidy_one : forall t, tidy [t].
Proof. intros t a u b E _. destruct a as [|v [|w a]]; [constructor| |]; discriminate. Qed.
Lemma out_of_view : exists name cs s d l ns v m e z, Forall proper (concat cs) /\ Forall tidy cs /\ write (Some name) (imageBox cs) (imageText cs) = Some s /\
  document s d (text "svg") l ns /\ viewAttr l v /\ In m ns /\ drawn m e /\ covers e z /\ ~ inView v z.
Proof.
  exists [97], longLine. destruct (write (Some [97]) (imageBox longLine) (imageText longLine)) as [s|] eqn:W; [|discriminate W]. exists s, decl, (rootAttrs (imageBox longLine)).
  exists [Element (text "line") (shapeAttrs defaultFormat (Line (rzero, rzero) (million, rzero)) black)], (0, 0, inject_Z 1234567, 0)%Q.
  exists (Element (text "line") (shapeAttrs defaultFormat (Line (rzero, rzero) (million, rzero)) black)), (EPolyline [(0, 0); (inject_Z 1234570, 0)]%Q), (inject_Z 1234570, 0)%Q.
  assert (FP : Forall proper (concat longLine)) by (constructor; [split; exact I|constructor]).
  split; auto. split; [constructor; [apply tidy_one|constructor]|]. split; auto. split; [apply (one_shape [97]); auto; exact (Forall_inv FP)|]. split.
  { apply view_attr.
    - exists [], [0], [0; 0; 0; 0; 0; 0], true, [], 0. plainDecimal.
    - exists [45], [0], [0; 0; 0; 0; 0; 0], true, [], 0. plainDecimal.
    - exists [], [1; 2; 3; 4; 5; 6; 7], [0; 0; 0; 0; 0; 0], true, [], 0. plainDecimal.
    - exists [], [0], [0; 0; 0; 0; 0; 0], true, [], 0. plainDecimal. }
  split; [left; auto|]. split.
  { assert (Z0 : decimalValue (text "0") 0) by (exists [], [0], [], false, [], 0; plainDecimal). assert (Z1 : decimalValue (text "-0") 0) by (exists [45], [0], [], false, [], 0; plainDecimal).
    constructor.
    - exists (text "0"). split; [left; vm_compute; reflexivity|auto].
    - exists (text "-0"). split; [right; left; vm_compute; reflexivity|auto].
    - exists (text "1.23457e+06"). split; [right; right; left; vm_compute; reflexivity|]. exists [], [1], [2; 3; 4; 5; 7], true, (text "e+06"), 6. repeat split; try (vm_compute; reflexivity); auto.
      + left. auto.
      + repeat (constructor; [unfold InputSpec.digit; lia|]); constructor.
      + repeat (constructor; [unfold InputSpec.digit; lia|]); constructor.
      + right. exists 101, [43], [0; 6]. repeat split; auto; try discriminate.
        * right. auto.
        * repeat (constructor; [unfold InputSpec.digit; lia|]); constructor.
      + left. discriminate.
      + discriminate.
    - exists (text "-0"). split; [right; right; right; left; vm_compute; reflexivity|auto]. }
  split; [apply hull_point; right; left; auto|]. intros ((_ & B) & _). cbn in B. apply B. reflexivity.
Qed.
(* a small circle *)
Definition tiny : real := Eval vm_compute in S754_finite false (2 ^ 63) (- 93).
Definition dot : list (list thing) := [[TShape (Circle (rzero, rzero) tiny) black]].
Lemma empty_view : exists name cs s d l ns x y h, Forall proper (concat cs) /\ number tiny /\ (0 < val tiny)%Q /\ cs = [[TShape (Circle (rzero, rzero) tiny) black]] /\
  write (Some name) (imageBox cs) (imageText cs) = Some s /\ document s d (text "svg") l ns /\ viewAttr l (x, y, 0%Q, h).
Proof.
  exists [97], dot. destruct (write (Some [97]) (imageBox dot) (imageText dot)) as [s|] eqn:W; [|discriminate W]. exists s, decl, (rootAttrs (imageBox dot)).
  exists [Element (text "circle") (shapeAttrs defaultFormat (Circle (rzero, rzero) tiny) black)], 0%Q, 0%Q, 0%Q.
  assert (FP : Forall proper (concat dot)) by (constructor; [split; exact I|constructor]). split; auto. split; [split; reflexivity|]. split; [reflexivity|]. split; [reflexivity|]. split; auto.
  split; [apply (one_shape [97]); auto; exact (Forall_inv FP)|]. apply view_attr.
  - exists [45], [0], [0; 0; 0; 0; 0; 0], true, [], 0. plainDecimal.
  - exists [45], [0], [0; 0; 0; 0; 0; 0], true, [], 0. plainDecimal.
  - exists [], [0], [0; 0; 0; 0; 0; 0], true, [], 0. plainDecimal.
  - exists [], [0], [0; 0; 0; 0; 0; 0], true, [], 0. plainDecimal.
Qed.
(* a comment that closes itself *)
Lemma injected : forall name b s, write (Some name) b (imageText [[TComment (text "--><g/><!--")]]) = Some s ->
  document s decl (text "svg") (rootAttrs b) [Remark [32]; Element (text "g") []; Remark [32]].
Proof.
  intros name b s W. apply (content_document name _ (imageText [[TComment (text "--><g/><!--")]])); auto.
  assert (ND : noDashes [32]). { split; [intros a t E; destruct a as [|? [|? a]]; discriminate|intros a E; destruct a as [|? [|? a]]; discriminate]. }
  assert (XC : Forall xmlChar [32]) by (constructor; [unfold xmlChar; lia|constructor]).
  change (imageText [[TComment (text "--><g/><!--")]]) with ([] ++ [60; 33; 45; 45] ++ [32] ++ [45; 45; 62] ++ [] ++ [60] ++ text "g" ++ [] ++ [47; 62] ++ [] ++ [60; 33; 45; 45] ++ [32] ++ [45; 45; 62] ++ []).
  apply content_remark; auto. apply content_element; auto; [apply nameb_ok; reflexivity|split; [apply no_attribute; constructor|constructor]|]. apply content_remark; auto. constructor. constructor.
Qed.
(* the precision set for the image is used for polygons only *)
Definition third : real := Eval vm_compute in SFdiv prec emax (ofZ 1) (ofZ 3).
Lemma precision_ignored :
  outText (mkFormat false 10) [TShape (Polygon [(third, rzero)]) black] = text "<polygon points=""0.3333333333,-0 "" stroke=""none"" fill=""none"" />" /\
  outText (mkFormat false 10) [TShape (Circle (third, rzero) third) black] = text "<circle r=""0.333333"" cx=""0.333333"" cy=""-0"" stroke=""none"" fill=""none"" />".
Proof. split; vm_compute; reflexivity. Qed.
Lemma comment_injects : exists name cs s d l n, write (Some name) (imageBox cs) (imageText cs) = Some s /\ Forall (fun t => match t with TComment _ => True | _ => False end) (concat cs) /\
  document s d (text "svg") l [Remark [32]; Element n []; Remark [32]].
Proof.
  exists [97], [[TComment (text "--><g/><!--")]]. destruct (write (Some [97]) (imageBox [[TComment (text "--><g/><!--")]]) (imageText [[TComment (text "--><g/><!--")]])) as [s|] eqn:W; [|discriminate W].
  exists s, decl, (rootAttrs (imageBox [[TComment (text "--><g/><!--")]])), (text "g"). split; auto. split; [constructor; [exact I|constructor]|]. apply (injected [97]). auto.
Qed.
Lemma document_shapes : forall name cs b s, Forall proper (concat cs) -> write (Some name) b (imageText cs) = Some s ->
  exists l ns, document s [(text "version", text "1.0"); (text "encoding", text "UTF8")] (text "svg") l ns /\ nodesOf defaultFormat (concat cs) ns /\
    attr l "xmlns" (text "http://www.w3.org/2000/svg").
Proof. intros name cs b s P W. destruct (document_ok name cs b s P W) as (l & ns & D & N & A & _). exists l, ns. auto. Qed.
Lemma view_digits : forall name cs b s d n l ns, write (Some name) b (imageText cs) = Some s -> document s d n l ns ->
  number (bx real b) -> number (negated (by_ real b) (bh real b)) -> number (bw real b) -> number (bh real b) ->
  exists x y w h, viewAttr l (x, y, w, h) /\ shown (mkFormat true 6) (val (bx real b)) x /\ shown (mkFormat true 6) (val (negated (by_ real b) (bh real b))) y /\
    shown (mkFormat true 6) (val (bw real b)) w /\ shown (mkFormat true 6) (val (bh real b)) h.
Proof. intros name cs b s d n l ns W D X Y U V. destruct (document_content _ _ _ _ _ _ _ _ W D) as (_ & -> & _). apply view_shown; auto. Qed.
Lemma view_there : forall name cs s d n l ns, Forall proper (concat cs) -> Forall shortThing (concat cs) -> write (Some name) (imageBox cs) (imageText cs) = Some s ->
  document s d n l ns -> (exists v, viewAttr l v) /\ forall x y w h, viewAttr l (x, y, w, h) ->
    let '(x', y', w', h') := viewBoxQ (imageQ (map (map exactItem) cs)) in (x == x' /\ y == y' /\ w == w' /\ h == h')%Q.
Proof.
  intros name cs s d n l ns P S W D. split.
  - destruct (document_content _ _ _ _ _ _ _ _ W D) as (_ & -> & _). destruct (view_exact cs S) as (v & V & _). exists v. auto.
  - intros x y w h V. exact (view_ok _ _ _ _ _ _ _ _ P S W D V).
Qed.
