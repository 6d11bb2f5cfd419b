From Coq Require Import String.
From Verif Require Import Base Tac FloatModel FloatSpec RealSpec InitSpec DecimalSpec DecimalModel DecimalProofs2 PrintModel PrintSpec PrintProofs PrintProofs2 GeneralModel GeneralSpec GeneralProofs GeneralProofs2 PngSpec SvgModel SvgSpec ColorModel ColorSpec SvgDocModel SvgDocSpec SvgDocProofs SvgDocProofs2.
From Coq Require Import ZArith QArith List Lia SpecFloat.
Import ListNotations.
Open Scope Z_scope.
Open Scope list_scope.

Lemma content_blank : forall t s ns, Forall blank t -> content s ns -> content (t ++ s) ns.
Proof.
  intros t s ns B C. inv C.
  - constructor. apply Forall_app. auto.
  - rewrite (app_assoc t). constructor; auto. apply Forall_app. auto.
  - rewrite (app_assoc t). constructor; auto. apply Forall_app. auto.
Qed.
Lemma comment_ok : forall c, (forall a b, c <> a ++ [45; 45] ++ b) -> noDashes ([32] ++ c ++ [32]).
Proof.
  intros c N. split.
  - intros a b E. destruct a as [|x a]; [discriminate|]. cbn [app] in E. inversion E as [[E1 E2]]. clear E. destruct b as [|y b _] using rev_ind.
    + assert (L : last (c ++ [32]) 0 = last (a ++ [45; 45]) 0) by congruence. rewrite last_last in L. change [45; 45] with ([45] ++ [45]) in L. rewrite app_assoc, last_last in L. discriminate.
    + change (a ++ 45 :: 45 :: b ++ [y]) with (a ++ ([45; 45] ++ b) ++ [y]) in E2. rewrite app_assoc in E2. apply app_inj_tail in E2 as (E2 & _). eapply N; eauto.
  - intros a E. rewrite app_assoc in E. apply app_inj_tail in E as (_ & E). discriminate.
Qed.
Lemma out_ok : forall ts f, 0 <= precision f -> Forall proper ts -> exists ns, content (outText f ts) ns /\ nodesOf f ts ns.
Proof.
  induction ts as [|t ts IH]; intros f P F; [exists []; split; constructor; constructor|]. inv F. destruct t as [s st|c|t|g]; cbn [outText].
  - destruct (IH f P H2) as (ns & C & N). exists (Element (text (shapeName s)) (shapeAttrs f s st) :: ns). split.
    + rewrite shape_print, <- !app_assoc. change [60] with ([] ++ [60]). rewrite <- !app_assoc. rewrite (app_assoc [32]). constructor; auto.
      * destruct s; apply nameb_ok; reflexivity.
      * apply shape_attributes; auto.
    + constructor; auto; [apply described_ok; auto|apply styled_ok; auto].
  - destruct (IH f P H2) as (ns & C & N). exists (Remark ([32] ++ c ++ [32]) :: ns). destruct H1 as (X & D). split; [|constructor; auto].
    unfold commentText. change (text "<!-- ") with ([] ++ [60; 33; 45; 45] ++ [32]). change (text " -->") with ([32] ++ [45; 45; 62]). rewrite <- !app_assoc.
    rewrite (app_assoc [32] c), (app_assoc ([32] ++ c)). rewrite <- (app_assoc [32] c). constructor; auto; [|apply comment_ok; auto].
    apply Forall_app. split; [constructor; [unfold xmlChar; lia|constructor]|]. apply Forall_app. split; auto. constructor; [unfold xmlChar; lia|constructor].
  - destruct (IH f P H2) as (ns & C & N). exists ns. split; [apply content_blank; auto|constructor; auto].
  - destruct (IH g H1 H2) as (ns & C & N). exists ns. split; auto. constructor. auto.
Qed.
Definition decl : attributes := [(text "version", text "1.0"); (text "encoding", text "UTF8")].
Definition rootAttrs (b : box real) : attributes :=
  [(text "xmlns", text "http://www.w3.org/2000/svg"); (text "version", text "1.0"); (text "baseProfile", text "full"); (text "viewBox", viewText b)].
Lemma view_value : forall b, isValue (viewText b).
Proof. intro b. unfold viewText. repeat apply value_app; try (apply fixed_value; lia); apply valueb_ok; reflexivity. Qed.
Lemma write_text : forall name b out s, write (Some name) b out = Some s ->
  s = text "<?xml" ++ ([32] ++ printAttrs decl) ++ text "?>" ++ [10] ++ [60] ++ text "svg" ++ ([32] ++ printAttrs (rootAttrs b)) ++ [62] ++ ([10] ++ out) ++ [60; 47] ++ text "svg" ++ [62].
Proof.
  intros name b out s W. unfold write in W. destruct out as [|c out]; [discriminate|]. apply (f_equal (fun o => match o with Some x => x | None => [] end)) in W. cbv beta iota in W. rewrite <- W. clear W. rewrite !attribute_print.
  change (text "<?xml ") with (text "<?xml" ++ [32]). change (text "<svg ") with ([60] ++ text "svg" ++ [32]). change (text "</svg>") with ([60; 47] ++ text "svg" ++ [62]). change (text ">") with [62].
  unfold decl, rootAttrs. unfold printAttrs. cbn [flat_map]. rewrite !app_nil_r, <- !app_assoc. reflexivity.
Qed.
Definition sixPlaces : format := mkFormat true 6.
Lemma document_ok : forall name cs b s, Forall proper (concat cs) -> write (Some name) b (imageText cs) = Some s ->
  exists l ns, document s decl (text "svg") l ns /\ nodesOf defaultFormat (concat cs) ns /\ attr l "xmlns" (text "http://www.w3.org/2000/svg") /\ l = rootAttrs b.
Proof.
  intros name cs b s P W. apply write_text in W. destruct (out_ok (concat cs) defaultFormat ltac:(cbn; lia) P) as (ns & C & N). exists (rootAttrs b), ns.
  split; [|split; [auto|split; [left; reflexivity|auto]]]. exists ([32] ++ printAttrs decl), [10], ([32] ++ printAttrs (rootAttrs b)), ([10] ++ imageText cs).
  split; [exact W|]. split.
  { split; [apply print_ok|apply distinctb_ok; reflexivity]. unfold goodAttrs, decl. constructor; [goodPair; apply valueb_ok; reflexivity|]. constructor; [goodPair; apply valueb_ok; reflexivity|constructor]. }
  split; [constructor; [unfold blank; lia|constructor]|]. split; [apply nameb_ok; reflexivity|]. split.
  - split; [apply print_ok|apply distinctb_ok; reflexivity]. unfold goodAttrs, rootAttrs. constructor; [goodPair; apply valueb_ok; reflexivity|]. constructor; [goodPair; apply valueb_ok; reflexivity|]. constructor; [goodPair; apply valueb_ok; reflexivity|].
    constructor; [goodPair; apply view_value|constructor].
  - apply content_blank; auto. constructor; [unfold blank; lia|constructor].
Qed.
Lemma view_attr : forall b x y w h, decimalValue (showFixed 6 (bx real b)) x -> decimalValue (showFixed 6 (negated (by_ real b) (bh real b))) y ->
  decimalValue (showFixed 6 (bw real b)) w -> decimalValue (showFixed 6 (bh real b)) h -> viewAttr (rootAttrs b) (x, y, w, h).
Proof. intros b x y w h X Y W H. eexists _, _, _, _. split; [|split; [exact X|split; [exact Y|split; [exact W|exact H]]]]. right. right. right. left. reflexivity. Qed.
Lemma fixed_shown : forall p x, 0 <= p -> number x -> exists q, decimalValue (showFixed p x) q /\ shown (mkFormat true p) (val x) q.
Proof. intros p x P N. apply (stream_shown (mkFormat true p)); auto. Qed.
Lemma view_shown : forall b, number (bx real b) -> number (negated (by_ real b) (bh real b)) -> number (bw real b) -> number (bh real b) ->
  exists x y w h, viewAttr (rootAttrs b) (x, y, w, h) /\ shown sixPlaces (val (bx real b)) x /\ shown sixPlaces (val (negated (by_ real b) (bh real b))) y /\ shown sixPlaces (val (bw real b)) w /\ shown sixPlaces (val (bh real b)) h.
Proof.
  intros b X Y W H. destruct (fixed_shown 6 _ ltac:(lia) X) as (x & DX & SX). destruct (fixed_shown 6 _ ltac:(lia) Y) as (y & DY & SY).
  destruct (fixed_shown 6 _ ltac:(lia) W) as (w & DW & SW). destruct (fixed_shown 6 _ ltac:(lia) H) as (h & DH & SH). exists x, y, w, h. split; auto. apply view_attr; auto.
Qed.
Lemma no_file : forall name b out, write name b out = None <-> name = None \/ out = [].
Proof. intros [n|] b [|c out]; cbn; split; try intros [H|H]; auto; discriminate. Qed.
