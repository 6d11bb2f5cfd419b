(* The SVG visualizer. *)
From Coq Require Import String.
From Verif Require Import Base Tac FloatModel FloatSpec RealSpec RealModel RealProofs3 InputSpec InitSpec DecimalSpec PrintModel PrintSpec GeneralModel GeneralSpec SvgModel SvgSpec SvgProofs ColorModel ColorSpec SvgDocModel SvgDocSpec SvgDocProofs SvgDocProofs2 SvgDocProofs3 SvgDocProofs4 SvgDocProofs5 VisModel VisSpec VisProofs.
From Coq Require Import ZArith QArith Qabs List Lia Lqa Bool SpecFloat.
Import ListNotations.
Open Scope Z_scope.
Open Scope list_scope.

Lemma points_cons : forall s v vs ps, startsWithPoints s (v :: vs) ps -> exists r, extractInt (Some s) = (Some v, Some r) /\ startsWithPoints r vs ps.
Proof.
  intros s v vs ps (ts & us & more & W & F & B & R). inversion F as [|t v0 ts' vs' D F']; subst. inv B. cbn [app] in W. destruct (extract_int _ _ _ _ W D ltac:(auto)) as (r & E & W').
  exists r. split; auto. exists ts', us, more. auto.
Qed.
Lemma read_points : forall convert ps s, strtold convert -> startsWithPoints s [] ps -> exists us, readPoints convert (List.length ps) (Some s) = Ok us /\ Forall2 nearestPoint ps us.
Proof.
  intros convert. induction ps as [|(x, y) ps IH]; intros s C (ts & us & more & W & F & B & D & R).
  - exists []. split; [reflexivity|constructor].
  - inv F. cbn [app] in W. cbn [flat flat_map fst snd app] in D, R. change (flat_map (fun p : Q * Q => [fst p; snd p]) ps) with (flat ps) in D, R.
    inversion D as [|a ? us1 ? DA D1]; subst. inversion D1 as [|b ? us2 ? DB D2]; subst. inversion R as [|? ? RA R1]; subst. inversion R1 as [|? ? RB R2]; subst. cbn [app] in W.
    destruct (extract_real convert _ _ _ _ C W DA RA) as (v & r & E & NV & W1). destruct (extract_real convert _ _ _ _ C W1 DB RB) as (v' & r' & E' & NV' & W2).
    destruct (IH r' C) as (vs & EV & FV). { exists [], us2, more. cbn [app]. auto. }
    exists ((v, v') :: vs). cbn [List.length readPoints]. rewrite E, E'. cbn [use bind]. rewrite EV. cbn [bind]. split; [reflexivity|]. constructor; auto. split; auto.
Qed.
Lemma statements_proper : forall us vs, Forall proper (concat (svgStatements us vs)).
Proof.
  intros us vs. unfold svgStatements. cbn [concat app]. apply Forall_cons; [|apply Forall_cons; [|apply Forall_cons; [|apply Forall_cons; [|apply Forall_nil]]]].
  - split; [exact I|]. unfold isRgb, PngSpec.byte. cbn. lia.
  - constructor; [right; left; reflexivity|constructor].
  - split; [exact I|]. unfold isRgb, PngSpec.byte. cbn. lia.
  - constructor; [right; left; reflexivity|constructor].
Qed.
Lemma statements_text : forall us vs, imageText (svgStatements us vs) <> [].
Proof.
  intros us vs E. unfold imageText, svgStatements in E. cbn [concat app outText shapeText] in E. apply app_eq_nil in E as (E & _). apply app_eq_nil in E as (E & _). discriminate.
Qed.
Definition svgRuns convert name argv files (ps qs : list (Q * Q)) file (us vs : list (real * real)) : Prop :=
  svgMain convert (name :: argv) files = Ok (Some file) /\ write (Some (name ++ text ".svg")) (grow (imageBox (svgStatements us vs))) (imageText (svgStatements us vs)) = Some file /\
  Forall2 nearestPoint ps us /\ Forall2 nearestPoint qs vs.
Lemma svg_runs : forall convert name argv files s a ps qs, strtold convert -> files (name ++ text ".in") = Some s -> files (name ++ text ".ans") = Some a ->
  startsWithPoints s [Z.of_nat (List.length ps); Z.of_nat (List.length qs)] ps -> startsWithPoints a [] qs -> exists file us vs, svgRuns convert name argv files ps qs file us vs.
Proof.
  intros convert name argv files s a ps qs C FS FA S A. apply points_cons in S as (r1 & E1 & S). apply points_cons in S as (r2 & E2 & S).
  destruct (read_points convert ps r2 C S) as (us & EU & FU). destruct (read_points convert qs a C A) as (vs & EV & FV).
  destruct (write (Some (name ++ text ".svg")) (grow (imageBox (svgStatements us vs))) (imageText (svgStatements us vs))) as [file|] eqn:W.
  - exists file, us, vs. split; [|auto]. unfold svgMain, withName. rewrite FS, FA, E1, E2. cbn [use bind]. rewrite !Nat2Z.id, EU. cbn [bind]. rewrite EV. cbn [bind]. rewrite W. reflexivity.
  - exfalso. apply no_file in W as [W|W]; [discriminate|]. exact (statements_text us vs W).
Qed.
Lemma svg_document : forall convert name argv files s a ps qs, strtold convert -> files (name ++ text ".in") = Some s -> files (name ++ text ".ans") = Some a ->
  startsWithPoints s [Z.of_nat (List.length ps); Z.of_nat (List.length qs)] ps -> startsWithPoints a [] qs ->
  exists file us vs l m n, svgMain convert (name :: argv) files = Ok (Some file) /\ Forall2 nearestPoint ps us /\ Forall2 nearestPoint qs vs /\
    document file [(text "version", text "1.0"); (text "encoding", text "UTF8")] (text "svg") l [m; n] /\ attr l "xmlns" (text "http://www.w3.org/2000/svg") /\
    described defaultFormat (Polygon us) m /\ hasStyle (thin (mkRgb 0 0 0)) m /\ described defaultFormat (Polyline vs) n /\ hasStyle (thin (mkRgb 255 0 0)) n.
Proof.
  intros convert name argv files s a ps qs C FS FA S A. destruct (svg_runs convert name argv files s a ps qs C FS FA S A) as (file & us & vs & M & W & FU & FV).
  destruct (document_ok _ _ _ _ (statements_proper us vs) W) as (l & ns & D & N & X & _). unfold svgStatements in N. cbn [concat app] in N.
  inversion N as [|? ? ? ? m ns1 D1 S1 N1| | |]; subst. inversion N1 as [| | |? ? ? ? N2|]; subst. inversion N2 as [|? ? ? ? n ns2 D2 S2 N3| | |]; subst. inversion N3 as [| | |? ? ? ? N4|]; subst. inversion N4; subst.
  exists file, us, vs, l, m, n. auto 10.
Qed.
(* integers *)
Lemma ofZ_same : forall z, Z.abs z < 10 ^ 6 -> exists v, number v /\ (val v == inject_Z z)%Q.
Proof.
  intros z B. destruct (Z_le_gt_dec 0 z) as [P|P].
  - exists (ofZ z). apply ofZ_val. lia.
  - destruct (ofZ_val (- z) ltac:(lia)) as (N & V). destruct (opp_ok _ N) as (N' & V'). exists (SFopp (ofZ (- z))). split; auto. rewrite V', V, inject_Z_opp. ring.
Qed.
Lemma nearest_short : forall q v, smallInteger q -> nearest q v -> short v /\ (val v == q)%Q.
Proof.
  intros q v (z & E & B) (N & M). destruct (ofZ_same z B) as (w & NW & VW). specialize (M w NW). assert (Q0 : (val w - q == 0)%Q) by (rewrite VW, E; ring).
  assert (A : (Qabs (val w - q) == 0)%Q) by (rewrite Q0; reflexivity). rewrite A in M. assert (V : (val v == q)%Q). { pose proof (Qle_Qabs (val v - q)). pose proof (Qle_Qabs (- (val v - q))) as H1. rewrite Qabs_opp in H1. lra. }
  split; auto. split; auto. exists z. split; auto. rewrite V. exact E.
Qed.
Lemma nearest_points : forall ps us, Forall smallInteger (flat ps) -> Forall2 nearestPoint ps us -> Forall shortPoint us /\ Forall2 samePlace (map exactPoint us) ps.
Proof.
  intros ps us S F. induction F as [|p u ps us (NX & NY) F IH]; [split; constructor|]. cbn [flat flat_map app] in S. inversion S as [|? ? SX S1]; subst. inversion S1 as [|? ? SY S2]; subst. destruct (IH S2) as (A & B).
  destruct (nearest_short _ _ SX NX) as (X1 & X2), (nearest_short _ _ SY NY) as (Y1 & Y2). split; [constructor; [split; auto|auto]|]. cbn [map]. constructor; [split; auto|auto].
Qed.
Lemma statements_short : forall us vs, Forall shortPoint us -> Forall shortPoint vs -> Forall shortThing (concat (svgStatements us vs)).
Proof. intros us vs U V. unfold svgStatements. cbn [concat app]. apply Forall_cons; [exact U|]. apply Forall_cons; [exact I|]. apply Forall_cons; [exact V|]. apply Forall_cons; [exact I|constructor]. Qed.
Lemma three : same (ofZ 3) 3. Proof. destruct (ofZ_val 3 ltac:(lia)) as (N & V). split; auto. split; [exact V|]. exists 3. reflexivity. Qed.
Lemma six_ : same (ofZ 6) 6. Proof. destruct (ofZ_val 6 ltac:(lia)) as (N & V). split; auto. split; [exact V|]. exists 6. reflexivity. Qed.
Definition growQ (v : Q * Q * Q * Q) : Q * Q * Q * Q := let '(x, y, w, h) := v in ((x - 3)%Q, (y - 3)%Q, (w + 6)%Q, (h + 6)%Q).
Lemma wide_62 : forall q r, within B62 q -> (- (12) <= r <= 12)%Q -> within (2 ^ 64) (q + r).
Proof. intros q r (A & B) (C & D). unfold within, B62 in *. change (inject_Z (2 ^ 62)) with 4611686018427387904%Q in *. change (inject_Z (2 ^ 64)) with 18446744073709551616%Q. split; lra. Qed.
Lemma same_eq : forall x p q, same x p -> (p == q)%Q -> same x q.
Proof. intros x p q (N & V & z & Z) E. split; auto. split; [rewrite V; exact E|]. exists z. rewrite <- E. exact Z. Qed.
Lemma grown_view : forall cs, Forall shortThing (concat cs) ->
  exists v, viewAttr (rootAttrs (grow (imageBox cs))) v /\ sameView v (growQ (viewBoxQ (imageQ (map (map exactItem) cs)))).
Proof.
  intros cs S. pose proof (image_same cs S) as ((SX & SW & WX & WXW) & (SY & SH & WY & WYH)). set (b := imageBox cs) in *. set (q := imageQ (map (map exactItem) cs)) in *.
  assert (X : same (SFsub prec emax (bx real b) (ofZ 3)) (bx Q q - 3)) by (apply same_sub; auto using three; apply (wide_62 _ (- (3))); auto; lra).
  assert (Y : same (SFsub prec emax (by_ real b) (ofZ 3)) (by_ Q q - 3)) by (apply same_sub; auto using three; apply (wide_62 _ (- (3))); auto; lra).
  assert (WW : within (2 ^ 64) (bw Q q + 6)). { destruct WX, WXW. unfold within, B62 in *. change (inject_Z (2 ^ 62)) with 4611686018427387904%Q in *. change (inject_Z (2 ^ 64)) with 18446744073709551616%Q. split; lra. }
  assert (HH : within (2 ^ 64) (bh Q q + 6)). { destruct WY, WYH. unfold within, B62 in *. change (inject_Z (2 ^ 62)) with 4611686018427387904%Q in *. change (inject_Z (2 ^ 64)) with 18446744073709551616%Q. split; lra. }
  assert (W : same (SFadd prec emax (bw real b) (ofZ 6)) (bw Q q + 6)) by (apply same_add; auto using six_).
  assert (H : same (SFadd prec emax (bh real b) (ofZ 6)) (bh Q q + 6)) by (apply same_add; auto using six_).
  assert (N : same (SFopp (SFadd prec emax (SFsub prec emax (by_ real b) (ofZ 3)) (SFadd prec emax (bh real b) (ofZ 6)))) (- ((by_ Q q - 3) + (bh Q q + 6)))).
  { apply same_opp, same_add; auto. destruct WYH. unfold within, B62 in *. change (inject_Z (2 ^ 62)) with 4611686018427387904%Q in *. change (inject_Z (2 ^ 64)) with 18446744073709551616%Q. split; lra. }
  destruct (fixed_exact 6 _ _ ltac:(lia) X) as (x' & DX & EX), (fixed_exact 6 _ _ ltac:(lia) N) as (y' & DY & EY), (fixed_exact 6 _ _ ltac:(lia) W) as (w' & DW & EW), (fixed_exact 6 _ _ ltac:(lia) H) as (h' & DH & EH).
  exists (x', y', w', h'). split; [apply view_attr; auto|]. cbn [sameView growQ viewBoxQ viewBox]. unfold flipY. repeat split; lra.
Qed.
Lemma lowest_same : forall l l' m, Forall2 Qeq l l' -> lowest l m -> lowest l' m.
Proof.
  intros l l' m F (A & B & C). assert (T : forall a, In a l -> exists b, In b l' /\ (a == b)%Q). { clear -F. induction F as [|a b l l' E F IH]; intros x []; subst; [exists b; split; [left|]; auto|]. destruct (IH _ H) as (y & I & Y). exists y. split; [right|]; auto. }
  assert (T' : forall b, In b l' -> exists a, In a l /\ (a == b)%Q). { clear -F. induction F as [|a b l l' E F IH]; intros x []; subst; [exists a; split; [left|]; auto|]. destruct (IH _ H) as (y & I & Y). exists y. split; [right|]; auto. }
  split; [|split; auto].
  - destruct A as [A|(x & I & X)]; [left; auto|right]. destruct (T _ I) as (y & J & Y). exists y. split; auto. rewrite X. exact Y.
  - intros b I. destruct (T' _ I) as (a & J & E). rewrite <- E. auto.
Qed.
Lemma highest_same : forall l l' m, Forall2 Qeq l l' -> highest l m -> highest l' m.
Proof.
  intros l l' m F (A & B & C). assert (T : forall a, In a l -> exists b, In b l' /\ (a == b)%Q). { clear -F. induction F as [|a b l l' E F IH]; intros x []; subst; [exists b; split; [left|]; auto|]. destruct (IH _ H) as (y & I & Y). exists y. split; [right|]; auto. }
  assert (T' : forall b, In b l' -> exists a, In a l /\ (a == b)%Q). { clear -F. induction F as [|a b l l' E F IH]; intros x []; subst; [exists a; split; [left|]; auto|]. destruct (IH _ H) as (y & I & Y). exists y. split; [right|]; auto. }
  split; [|split; auto].
  - destruct A as [A|(x & I & X)]; [left; auto|right]. destruct (T _ I) as (y & J & Y). exists y. split; auto. rewrite X. exact Y.
  - intros b I. destruct (T' _ I) as (a & J & E). rewrite <- E. auto.
Qed.
Lemma place_fst : forall ps qs, Forall2 samePlace ps qs -> Forall2 Qeq (map fst ps) (map fst qs) /\ Forall2 Qeq (map snd ps) (map snd qs).
Proof. induction 1 as [|p q ps qs (X & Y) F (A & B)]; split; cbn [map]; constructor; auto. Qed.
Lemma place_flip : forall us ps qs, Forall2 samePlace us ps -> Forall2 samePlace qs (map (flipPoint Q 0%Q Qplus Qopp) us) -> Forall2 samePlace qs (map (fun p => (fst p, - snd p)%Q) ps).
Proof.
  intros us ps qs F. revert qs. induction F as [|u p us ps (X & Y) F IH]; intros qs G; inversion G as [|q ? qs' ? (A & B) G']; subst; cbn [map]; constructor; auto.
  cbn [flipPoint fst snd] in A, B. unfold flipY in B. split; cbn [fst snd]; [rewrite A; exact X|]. rewrite B, Y. ring.
Qed.
Lemma svg_view : forall convert name argv files s a ps qs, strtold convert -> files (name ++ text ".in") = Some s -> files (name ++ text ".ans") = Some a ->
  startsWithPoints s [Z.of_nat (List.length ps); Z.of_nat (List.length qs)] ps -> startsWithPoints a [] qs -> Forall smallInteger (flat (ps ++ qs)) ->
  exists file m n l d, svgMain convert (name :: argv) files = Ok (Some file) /\ document file d (text "svg") l [m; n] /\
    (exists e, drawn m e) /\ (forall e, drawn m e -> sameArea e (EPolygon (map (fun p => (fst p, - snd p)%Q) ps))) /\
    (exists e, drawn n e) /\ (forall e, drawn n e -> sameArea e (EPolyline (map (fun p => (fst p, - snd p)%Q) qs))) /\
    (exists v, viewAttr l v) /\ exists x0 x1 y0 y1, lowest (map fst (ps ++ qs)) x0 /\ highest (map fst (ps ++ qs)) x1 /\ lowest (map snd (ps ++ qs)) y0 /\ highest (map snd (ps ++ qs)) y1 /\
    (forall x y w h, viewAttr l (x, y, w, h) -> (x == x0 - 3 /\ y == - y1 - 3 /\ x + w == x1 + 3 /\ y + h == - y0 + 3)%Q) /\
    forall v e z dx dy, viewAttr l v -> drawn m e \/ drawn n e -> covers e z -> (Qabs dx <= 3 -> Qabs dy <= 3 -> inView v (fst z + dx, snd z + dy))%Q.
Proof.
  intros convert name argv files s a ps qs C FS FA S A SI. destruct (svg_runs convert name argv files s a ps qs C FS FA S A) as (file & us & vs & M & W & FU & FV).
  unfold flat in SI. rewrite flat_map_app in SI. apply Forall_app in SI as (SP & SQ). destruct (nearest_points ps us SP FU) as (SU & PU), (nearest_points qs vs SQ FV) as (SV & PV).
  pose proof (statements_proper us vs) as PR. pose proof (statements_short us vs SU SV) as SH. destruct (document_ok _ _ _ _ PR W) as (l & ns & D & N & X & L).
  pose proof (areas_ok _ _ _ _ _ _ _ _ PR SH W D) as AR. pose proof (document_distinct _ _ _ _ _ D) as (ND & _).
  destruct (grown_view _ SH) as ((((vx, vy), vw), vh) & V & SVW). rewrite <- L in V.
  pose proof (view_spec (map (map exactItem) (svgStatements us vs))) as VS. cbn zeta in VS. destruct VS as (x0 & x1 & y0 & y1 & LX & HX & LY & HY & VE).
  assert (CO : flat_map cornersQ (flat_map leading (map (map exactItem) (svgStatements us vs))) = map exactPoint (us ++ vs)). { unfold svgStatements. cbn [map exactItem exact flat_map leading app cornersQ]. rewrite app_nil_r, map_app. reflexivity. }
  rewrite CO in LX, HX, LY, HY. assert (PL : Forall2 samePlace (map exactPoint (us ++ vs)) (ps ++ qs)) by (rewrite map_app; apply Forall2_app; auto). destruct (place_fst _ _ PL) as (PX & PY).
  apply (lowest_same _ _ _ PX) in LX. apply (highest_same _ _ _ PX) in HX. apply (lowest_same _ _ _ PY) in LY. apply (highest_same _ _ _ PY) in HY.
  unfold svgStatements in AR. cbn [concat app] in AR. inversion AR as [|? ? ? m ns1 EX1 DR1 AR1| | |]; subst. inversion AR1 as [| | |? ? ? AR2|]; subst. inversion AR2 as [|? ? ? n ns2 EX2 DR2 AR3| | |]; subst. inversion AR3 as [| | |? ? ? AR4|]; subst. inversion AR4; subst.
  exists file, m, n, (rootAttrs (grow (imageBox (svgStatements us vs)))), decl. split; [exact M|]. split; [exact D|]. split; [exact EX1|]. split.
  { intros e De. specialize (DR1 e De). unfold elementQ in DR1. cbn [exact elementOf] in DR1. destruct e; try contradiction. cbn [sameArea] in *. eapply place_flip; eauto. }
  split; [exact EX2|]. split.
  { intros e De. specialize (DR2 e De). unfold elementQ in DR2. cbn [exact elementOf] in DR2. destruct e; try contradiction. cbn [sameArea] in *. eapply place_flip; eauto. }
  split; [eauto|]. exists x0, x1, y0, y1. split; [exact LX|]. split; [exact HX|]. split; [exact LY|]. split; [exact HY|].
  assert (EQ : forall x y w h, viewAttr (rootAttrs (grow (imageBox (svgStatements us vs)))) (x, y, w, h) -> (x == x0 - 3 /\ y == - y1 - 3 /\ x + w == x1 + 3 /\ y + h == - y0 + 3)%Q).
  { intros x y w h V'. destruct (view_unique _ _ _ _ _ _ _ _ _ ND V' V) as (E1 & E2 & E3 & E4). destruct (viewBoxQ (imageQ (map (map exactItem) (svgStatements us vs)))) as (((bx', by'), bw'), bh').
    unfold sameView, growQ in SVW. destruct SVW as (F1 & F2 & F3 & F4), VE as (G1 & G2 & G3 & G4). rewrite E1, E2, E3, E4, F1, F2, F3, F4, G1, G2, G3, G4. repeat split; ring. }
  split; [exact EQ|]. intros v e z dx dy VA De CV DX DY.
  assert (IV : inView (viewBoxQ (imageQ (map (map exactItem) (svgStatements us vs)))) z).
  { destruct De as [De|De].
    - apply (all_in_view _ (map exactItem [TShape (Polygon us) (thin (mkRgb 0 0 0)); TText [10]]) (exact (Polygon us)) z); [left; reflexivity|left; reflexivity|]. eapply covers_same; eauto.
    - apply (all_in_view _ (map exactItem [TShape (Polyline vs) (thin (mkRgb 255 0 0)); TText [10]]) (exact (Polyline vs)) z); [right; left; reflexivity|left; reflexivity|]. eapply covers_same; eauto. }
  destruct v as (((x, y), w), h). destruct (EQ _ _ _ _ VA) as (E1 & E2 & E3 & E4). destruct (viewBoxQ (imageQ (map (map exactItem) (svgStatements us vs)))) as (((bx', by'), bw'), bh').
  destruct VE as (G1 & G2 & G3 & G4). cbn [inView fst snd] in *. apply Qabs_Qle_condition in DX, DY. lra.
Qed.
(* the files *)
Lemma svg_missing : forall convert name argv files, files (name ++ text ".in") = None -> svgMain convert (name :: argv) files = UB.
Proof. intros convert name argv files E. unfold svgMain, withName. rewrite E. reflexivity. Qed.
Lemma svg_no_answer : forall convert name argv files s ps m, strtold convert -> files (name ++ text ".in") = Some s -> files (name ++ text ".ans") = None ->
  startsWithPoints s [Z.of_nat (List.length ps); m] ps -> 0 < m -> svgMain convert (name :: argv) files = UB.
Proof.
  intros convert name argv files s ps m C FS FA S P. apply points_cons in S as (r1 & E1 & S). apply points_cons in S as (r2 & E2 & S). destruct (read_points convert ps r2 C S) as (us & EU & _).
  unfold svgMain, withName. rewrite FS, FA, E1, E2. cbn [use bind]. rewrite Nat2Z.id, EU. cbn [bind]. destruct (Z.to_nat m) as [|k] eqn:K; [lia|]. reflexivity.
Qed.
