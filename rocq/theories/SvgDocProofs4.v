(* Images with integers: nothing is rounded. *)
From Coq Require Import String.
From Verif Require Import Base Tac FloatModel FloatSpec FloatProofs FloatProofs2 RealProofs2 RealProofs3 RealProofs6 FloatProofs3 RealSpec InitSpec DecimalSpec DecimalModel DecimalProofs2 DecimalProofs3 PrintModel PrintSpec PrintProofs PrintProofs2 GeneralModel GeneralSpec GeneralProofs GeneralProofs2 PngSpec SvgModel SvgSpec SvgProofs ColorModel ColorSpec SvgDocModel SvgDocSpec SvgDocProofs SvgDocProofs2 SvgDocProofs3.
From Coq Require Import ZArith QArith Qabs List Lia Lqa SpecFloat.
Import ListNotations.
Open Scope Z_scope.
Open Scope list_scope.

Lemma normalize_int : forall z e k, (inject_Z z * two e == inject_Z k)%Q -> Z.abs k <= 2 ^ 64 ->
  number (binary_normalize prec emax z e false) /\ (val (binary_normalize prec emax z e false) == inject_Z k)%Q.
Proof.
  assert (R : forall s p e k, (inject_Z (Zpos p) * two e == inject_Z k)%Q -> 0 <= k <= 2 ^ 64 -> number (binary_round prec emax s p e) /\ (val (binary_round prec emax s p e) == (if s then - (1) else 1) * inject_Z k)%Q).
  { intros s p e k E K. destruct (round_exact prec emax P64 E64 s p e k 0) as (V & p' & e' & B & Y).
    - unfold prec. lia.
    - vm_compute. discriminate.
    - rewrite Qmult_1_r. rewrite two_Z by (unfold emax; lia). rewrite <- Zlt_Qlt. apply Z.le_lt_trans with (2 ^ 64); [lia|]. apply Z.pow_lt_mono_r; unfold emax; lia.
    - rewrite E. change (two 0) with 1%Q. ring.
    - split; [split; [exact V|rewrite B; reflexivity]|]. rewrite B. cbn [val]. rewrite Y. change (two 0) with 1%Q. destruct s; ring. }
  assert (IP : forall p e k, (inject_Z (Zpos p) * two e == inject_Z k)%Q -> 0 <= k).
  { intros p e k E. pose proof (val_pos p e) as V. rewrite E in V. change 0%Q with (inject_Z 0) in V. rewrite <- Zlt_Qlt in V. lia. }
  intros [|p|p] e k E K; cbn [binary_normalize].
  - assert (k = 0). { rewrite <- inject_Z_injective, <- E. change (inject_Z 0) with 0%Q. ring. } subst k. split; [split; reflexivity|reflexivity].
  - pose proof (IP _ _ _ E). destruct (R false p e k E ltac:(lia)) as (A & B). split; auto. rewrite B. ring.
  - assert (E' : (inject_Z (Zpos p) * two e == inject_Z (- k))%Q). { rewrite inject_Z_opp, <- E. change (Zneg p) with (- Zpos p). rewrite inject_Z_opp. ring. }
    pose proof (IP _ _ _ E'). destruct (R true p e (- k) E' ltac:(lia)) as (A & B). split; auto. rewrite B, inject_Z_opp. ring.
Qed.
Lemma opp_ok : forall x, number x -> number (SFopp x) /\ (val (SFopp x) == - val x)%Q.
Proof. intros x (V & F). destruct x as [s|s| |s m e]; try discriminate; (split; [split; [exact V|reflexivity]|]); cbn [SFopp val]; [ring|]. destruct s; cbn [negb]; ring. Qed.
Lemma add_int : forall x y k, number x -> number y -> (val x + val y == inject_Z k)%Q -> Z.abs k <= 2 ^ 64 ->
  number (SFadd prec emax x y) /\ (val (SFadd prec emax x y) == inject_Z k)%Q.
Proof.
  intros x y k (VX & FX) (VY & FY) E K. destruct x as [s1|s1| |s1 m1 e1], y as [s2|s2| |s2 m2 e2]; try discriminate; unfold SFadd; cbv zeta.
  - cbn [val] in E. destruct (Bool.eqb s1 s2); (split; [split; reflexivity|]); cbn [val]; rewrite <- E; ring.
  - split; [split; auto|]. rewrite <- E. change (val (S754_zero s1)) with 0%Q. ring.
  - split; [split; auto|]. rewrite <- E. change (val (S754_zero s2)) with 0%Q. ring.
  - apply normalize_int; auto. set (z := Z.min e1 e2). rewrite inject_Z_plus. rewrite <- E.
    rewrite <- (cond_val s1 m1 e1 z) by lia. rewrite <- (cond_val s2 m2 e2 z) by lia. ring.
Qed.
Lemma sub_int : forall x y k, number x -> number y -> (val x - val y == inject_Z k)%Q -> Z.abs k <= 2 ^ 64 ->
  number (SFsub prec emax x y) /\ (val (SFsub prec emax x y) == inject_Z k)%Q.
Proof.
  intros x y k (VX & FX) (VY & FY) E K. destruct x as [s1|s1| |s1 m1 e1], y as [s2|s2| |s2 m2 e2]; try discriminate; unfold SFsub; cbv zeta.
  - cbn [val] in E. destruct (Bool.eqb s1 (negb s2)); (split; [split; reflexivity|]); cbn [val]; rewrite <- E; ring.
  - split; [split; auto|]. rewrite <- E. cbn [val]. destruct s2; cbn [negb]; ring.
  - split; [split; auto|]. rewrite <- E. change (val (S754_zero s2)) with 0%Q. ring.
  - apply normalize_int; auto. set (z := Z.min e1 e2). unfold Z.sub. rewrite inject_Z_plus, inject_Z_opp. rewrite <- E.
    rewrite <- (cond_val s1 m1 e1 z) by lia. rewrite <- (cond_val s2 m2 e2 z) by lia. ring.
Qed.

(* x is the integer q *)
Definition same (x : real) (q : Q) : Prop := number x /\ (val x == q)%Q /\ exists z, (q == inject_Z z)%Q.
Definition within (b : Z) (q : Q) : Prop := (- inject_Z b <= q <= inject_Z b)%Q.
Lemma int_bound : forall b q z, within b q -> (q == inject_Z z)%Q -> Z.abs z <= b.
Proof. intros b q z (A & B) E. rewrite E in A, B. rewrite <- inject_Z_opp in A. rewrite <- Zle_Qle in A, B. lia. Qed.
Definition B62 : Z := 2 ^ 62.
Lemma twice : forall q, within (2 ^ 63) q -> within (2 ^ 64) q.
Proof. intros q (A & B). assert (C : (inject_Z (2 ^ 63) <= inject_Z (2 ^ 64))%Q) by discriminate. split; lra. Qed.
Lemma same_add : forall x y p q, same x p -> same y q -> within (2 ^ 64) (p + q) -> same (SFadd prec emax x y) (p + q).
Proof.
  intros x y p q (NX & VX & a & A) (NY & VY & b & B) W. assert (E : (p + q == inject_Z (a + b))%Q) by (rewrite inject_Z_plus, A, B; reflexivity).
  destruct (add_int x y (a + b)) as (N & V); auto; [rewrite VX, VY; auto|eapply int_bound; eauto|]. split; auto. split; [rewrite V; symmetry; auto|]. exists (a + b). auto.
Qed.
Lemma same_sub : forall x y p q, same x p -> same y q -> within (2 ^ 64) (p - q) -> same (SFsub prec emax x y) (p - q).
Proof.
  intros x y p q (NX & VX & a & A) (NY & VY & b & B) W. assert (E : (p - q == inject_Z (a - b))%Q) by (unfold Z.sub; rewrite inject_Z_plus, inject_Z_opp, A, B; reflexivity).
  destruct (sub_int x y (a - b)) as (N & V); auto; [rewrite VX, VY; auto|eapply int_bound; eauto|]. split; auto. split; [rewrite V; symmetry; auto|]. exists (a - b). auto.
Qed.
Lemma same_opp : forall x p, same x p -> same (SFopp x) (- p).
Proof. intros x p (NX & VX & a & A). destruct (opp_ok x NX) as (N & V). split; auto. split; [rewrite V, VX; reflexivity|]. exists (- a). rewrite inject_Z_opp, A. reflexivity. Qed.
Lemma same_ltb : forall x y p q, same x p -> same y q -> SFltb x y = negb (Qle_bool q p).
Proof.
  intros x y p q (NX & VX & _) (NY & VY & _). destruct (Qle_bool q p) eqn:L; cbn [negb].
  - apply Qle_bool_iff in L. destruct (SFltb x y) eqn:T; auto. apply ltb_num in T; auto. lra.
  - apply ltb_num; auto. rewrite VX, VY. apply Qnot_le_lt. intro H. apply Qle_bool_iff in H. congruence.
Qed.
Lemma same_zero : same rzero 0.
Proof. split; [split; reflexivity|]. split; [reflexivity|]. exists 0. reflexivity. Qed.

Notation oneF := (includeOne real (SFadd prec emax) (SFsub prec emax) SFltb).
Notation oneQ := (includeOne Q Qplus Qminus (fun a b => negb (Qle_bool b a))).
Definition spanned (o d : real) (qo qd : Q) : Prop := same o qo /\ same d qd /\ within B62 qo /\ within B62 (qo + qd).
Lemma one_same : forall o d p qo qd qp, spanned o d qo qd -> same p qp -> within B62 qp ->
  spanned (fst (oneF o d p)) (snd (oneF o d p)) (fst (oneQ qo qd qp)) (snd (oneQ qo qd qp)).
Proof.
  intros o d p qo qd qp (SO & SD & WO & WE) SP WP. unfold includeOne. rewrite (same_ltb p o qp qo) by auto.
  assert (TW : forall a b, within B62 a -> within B62 b -> within (2 ^ 64) (a - b)).
  { intros a b (A1 & A2) (C1 & C2). apply twice. assert (E : (inject_Z (2 ^ 63) == inject_Z B62 + inject_Z B62)%Q) by reflexivity. split; lra. }
  assert (SM : forall a, within B62 a -> within (2 ^ 64) a).
  { intros a (A1 & A2). assert (E : (inject_Z B62 <= inject_Z (2 ^ 64))%Q) by discriminate. split; lra. }
  assert (F : forall o' d' qo' qd', spanned o' d' qo' qd' -> let (a, b) := (if SFltb (SFadd prec emax o' d') p then (o', SFsub prec emax p o') else (o', d')) in
     let (qa, qb) := (if negb (Qle_bool qp (qo' + qd')) then (qo', qp - qo') else (qo', qd'))%Q in spanned a b qa qb).
  { intros o' d' qo' qd' (SO' & SD' & WO' & WE'). pose proof (same_add _ _ _ _ SO' SD' (SM _ WE')) as SE. rewrite (same_ltb _ p _ qp SE SP).
    destruct (negb (Qle_bool qp (qo' + qd'))).
    - split; auto. split; [apply same_sub; auto|]. split; auto. destruct WP. split; lra.
    - split; auto. }
  destruct (negb (Qle_bool qo qp)) eqn:L.
  - assert (S1 : same (SFsub prec emax o p) (qo - qp)) by (apply same_sub; auto).
    assert (E1 : (qd + (qo - qp) == (qo + qd) - qp)%Q) by ring.
    assert (S2 : same (SFadd prec emax d (SFsub prec emax o p)) (qd + (qo - qp))). { apply same_add; auto. destruct (TW _ _ WE WP). split; rewrite E1; auto. }
    assert (S3 : spanned p (SFadd prec emax d (SFsub prec emax o p)) qp (qd + (qo - qp))). { split; auto. split; auto. split; auto. destruct WE. split; lra. }
    apply F in S3. destruct (SFltb (SFadd prec emax p (SFadd prec emax d (SFsub prec emax o p))) p), (negb (Qle_bool qp (qp + (qd + (qo - qp))))); exact S3.
  - assert (S3 : spanned o d qo qd) by (split; auto). apply F in S3. destruct (SFltb (SFadd prec emax o d) p), (negb (Qle_bool qp (qo + qd))); exact S3.
Qed.
Definition sameBox (b : box real) (q : box Q) : Prop :=
  spanned (bx real b) (bw real b) (bx Q q) (bw Q q) /\ spanned (by_ real b) (bh real b) (by_ Q q) (bh Q q).
Definition samePoint (p : real * real) (q : Q * Q) : Prop := same (fst p) (fst q) /\ same (snd p) (snd q) /\ within B62 (fst q) /\ within B62 (snd q).
Notation includeF := (includeInBB real (SFadd prec emax) (SFsub prec emax) SFltb).
Notation includeQ := (includeInBB Q Qplus Qminus (fun a b => negb (Qle_bool b a))).
Lemma include_same : forall b q p r, sameBox b q -> samePoint p r -> sameBox (includeF b p) (includeQ q r).
Proof.
  intros b q p r (X & Y) (PX & PY & WX & WY). pose proof (one_same _ _ _ _ _ _ X PX WX) as OX. pose proof (one_same _ _ _ _ _ _ Y PY WY) as OY. unfold includeInBB.
  destruct (oneF (bx real b) (bw real b) (fst p)), (oneQ (bx Q q) (bw Q q) (fst r)), (oneF (by_ real b) (bh real b) (snd p)), (oneQ (by_ Q q) (bh Q q) (snd r)). split; auto.
Qed.
Lemma includes_same : forall ps rs, Forall2 samePoint ps rs -> forall b q, sameBox b q -> sameBox (fold_left includeF ps b) (fold_left includeQ rs q).
Proof. induction 1; intros b q S; cbn [fold_left]; auto. apply IHForall2. apply include_same; auto. Qed.
Definition b6 : Z := 10 ^ 6.
Lemma short_same : forall x, short x -> same x (val x) /\ within b6 (val x).
Proof.
  intros x (N & z & E & B). split; [split; auto; split; [reflexivity|exists z; auto]|]. unfold within. rewrite E. rewrite <- inject_Z_opp, <- !Zle_Qle. unfold b6. lia.
Qed.
Lemma within_sum : forall p q, within b6 p -> within b6 q -> within B62 (p + q).
Proof. intros p q (A & B) (C & D). assert (E : (inject_Z b6 + inject_Z b6 <= inject_Z B62)%Q) by discriminate. split; lra. Qed.
Lemma within_opp : forall b p, within b p -> within b (- p).
Proof. intros b p (A & B). split; lra. Qed.
Lemma within_62 : forall p, within b6 p -> within B62 p.
Proof. intros p (A & B). assert (E : (inject_Z b6 <= inject_Z B62)%Q) by discriminate. split; lra. Qed.
Lemma within_64 : forall p, within B62 p -> within (2 ^ 64) p.
Proof. intros p (A & B). assert (E : (inject_Z B62 <= inject_Z (2 ^ 64))%Q) by discriminate. split; lra. Qed.
Lemma short_add : forall x y p q, same x p -> same y q -> within b6 p -> within b6 q -> same (SFadd prec emax x y) (p + q) /\ within B62 (p + q).
Proof. intros x y p q X Y P Q. pose proof (within_sum _ _ P Q) as W. split; auto. apply same_add; auto. apply within_64; auto. Qed.
Notation cornersF := (corners real (SFadd prec emax) SFopp).
Notation cornersX := (corners Q Qplus Qopp).
Lemma short_point : forall p, shortPoint p -> samePoint p (exactPoint p).
Proof. intros p (X & Y). apply short_same in X as (X & WX). apply short_same in Y as (Y & WY). split; [exact X|split; [exact Y|split; apply within_62; auto]]. Qed.
Lemma short_points : forall ps, Forall shortPoint ps -> Forall2 samePoint ps (map exactPoint ps).
Proof. induction 1; cbn [map]; constructor; auto. apply short_point; auto. Qed.
Lemma corners_same : forall s, shortShape s -> Forall2 samePoint (cornersF s) (cornersX (exact s)).
Proof.
  intros [o w h|o r|o rx ry|ps|p q|ps] S; cbn [shortShape] in S; cbn [corners exact].
  - destruct S as ((X & Y) & W & H & _). pose proof (short_point o (conj X Y)) as P. apply short_same in X as (X & WX), Y as (Y & WY), W as (W & WW), H as (H & WH).
    destruct (short_add _ _ _ _ X W WX WW), (short_add _ _ _ _ Y H WY WH). constructor; auto. constructor; [|constructor]. repeat split; cbn [fst snd exactPoint]; auto; apply H0 || apply H1 || apply H2 || apply H3.
  - destruct S as ((X & Y) & R). apply short_same in X as (X & WX), Y as (Y & WY), R as (R & WR). pose proof (same_opp _ _ R) as R'. pose proof (within_opp _ _ WR) as WR'.
    destruct (short_add _ _ _ _ X R WX WR), (short_add _ _ _ _ Y R WY WR), (short_add _ _ _ _ X R' WX WR'), (short_add _ _ _ _ Y R' WY WR').
    constructor; [|constructor; [|constructor]]; (split; [|split; [|split]]); cbn [fst snd exactPoint]; auto.
  - destruct S as ((X & Y) & R & T). apply short_same in X as (X & WX), Y as (Y & WY), R as (R & WR), T as (T & WT). pose proof (same_opp _ _ R) as R'. pose proof (within_opp _ _ WR) as WR'.
    pose proof (same_opp _ _ T) as T'. pose proof (within_opp _ _ WT) as WT'.
    destruct (short_add _ _ _ _ X R WX WR), (short_add _ _ _ _ Y T WY WT), (short_add _ _ _ _ X R' WX WR'), (short_add _ _ _ _ Y T' WY WT').
    constructor; [|constructor; [|constructor]]; (split; [|split; [|split]]); cbn [fst snd exactPoint]; auto.
  - apply short_points; auto.
  - destruct S. constructor; [|constructor; [|constructor]]; apply short_point; auto.
  - apply short_points; auto.
Qed.
Notation drawF := (draw real (SFadd prec emax) (SFsub prec emax) SFopp SFltb).
Notation drawX := (draw Q Qplus Qminus Qopp (fun a b => negb (Qle_bool b a))).
Notation chainF := (chain real (SFadd prec emax) (SFsub prec emax) SFopp SFltb).
Notation chainX := (chain Q Qplus Qminus Qopp (fun a b => negb (Qle_bool b a))).
Lemma chain_same : forall ts, Forall shortThing ts -> forall b q, sameBox b q -> sameBox (chainF b (map itemOf ts)) (chainX q (map exactItem ts)).
Proof.
  induction 1 as [|t ts S F IH]; intros b q B; cbn [map]; auto. destruct t as [s st|c|t|f]; cbn [itemOf exactItem chain]; auto. apply IH. unfold draw. apply includes_same; auto. apply corners_same. exact S.
Qed.
Lemma image_same : forall cs, Forall shortThing (concat cs) -> sameBox (imageBox cs) (imageQ (map (map exactItem) cs)).
Proof.
  intro cs. unfold imageBox, imageF, imageQ, image.
  assert (Z : sameBox (emptyBox real rzero) (emptyBox Q 0%Q)).
  { assert (spanned rzero rzero 0%Q 0%Q). { split; [apply same_zero|split; [apply same_zero|]]. split; split; discriminate. } split; auto. }
  revert Z. generalize (emptyBox real rzero), (emptyBox Q 0%Q). induction cs as [|c cs IH]; intros b q B F; cbn [map fold_left concat] in *; auto.
  apply Forall_app in F as (F1 & F2). apply IH; auto. apply chain_same; auto.
Qed.

(* printing is exact *)
Lemma fixed_exact : forall p x q, 0 <= p -> same x q -> exists r, decimalValue (showFixed p x) r /\ (r == q)%Q.
Proof.
  intros p x q P (N & V & z & E). destruct (fixed_shown p x P N) as (r & D & k & NK & R). exists r. split; auto. rewrite R.
  rewrite <- V. apply (nearest_exact p (val x) k (z * 10 ^ p) NK). rewrite V, E. symmetry. apply units_whole. auto.
Qed.
Lemma shown_exact : forall f x r, 0 <= precision f -> wide f -> short x -> shown f (val x) r -> (r == val x)%Q.
Proof.
  intros f x r P W (N & z & E & B) S. unfold shown in S. destruct (fixed f) eqn:F.
  - destruct S as (k & NK & R). rewrite R. apply (nearest_exact (precision f) (val x) k (z * 10 ^ precision f) NK). rewrite E. symmetry. apply units_whole. auto.
  - destruct W as [W|W]; [congruence|]. apply (sig_exact (Z.max (precision f) 1) (val x) r 0 z); auto; [lia| |].
    + rewrite E. rewrite <- (units_whole 0 z) by lia. rewrite Z.mul_1_r. reflexivity.
    + eapply Z.lt_le_trans; [exact B|]. apply Z.pow_le_mono_r; lia.
Qed.
Lemma six_short : forall l k x, short x -> sixDigits l k x -> exists q, numberAttr l k q /\ (q == val x)%Q.
Proof.
  intros l k x S H. destruct (H (proj1 S)) as (q & A & G). exists q. split; auto. apply (shown_exact defaultFormat); auto; [cbn; lia|right; cbn; lia].
Qed.
Lemma short_neg : forall y h, same y (val y) -> same h (val h) -> (- inject_Z b6 < val y + val h < inject_Z b6)%Q -> short (negated y h) /\ (val (negated y h) == - (val y + val h))%Q.
Proof.
  intros y h Y H B. unfold negated. assert (S : same (SFadd prec emax y h) (val y + val h)).
  { apply same_add; auto. apply within_64, within_62. split; lra. }
  apply same_opp in S as (N & V & z & E). split; auto. split; auto. exists z. split; [rewrite V; auto|].
  assert (L : (inject_Z (- b6) < inject_Z z)%Q) by (rewrite <- E, inject_Z_opp; lra). assert (U : (inject_Z z < inject_Z b6)%Q) by (rewrite <- E; lra). rewrite <- Zlt_Qlt in L, U. unfold b6 in *. lia.
Qed.
Lemma short_flip : forall y, short y -> short (negated y rzero) /\ (val (negated y rzero) == - (val y + 0))%Q.
Proof.
  intros y S. destruct S as (N & z & E & B). apply short_neg.
  - split; auto. split; [reflexivity|]. exists z. auto.
  - apply same_zero.
  - change (val rzero) with 0%Q. rewrite E. rewrite <- inject_Z_opp. change 0%Q with (inject_Z 0). rewrite <- inject_Z_plus, <- !Zlt_Qlt. unfold b6. lia.
Qed.

(* reading is unique *)
Lemma attr_unique : forall l k v w, NoDup (map fst l) -> attr l k v -> attr l k w -> v = w.
Proof.
  unfold attr. induction l as [|(a, b) l IH]; intros k v w ND V W; [destruct V|]. cbn [map fst] in ND. inv ND.
  assert (X : forall u, In (text k, u) l -> In (text k) (map fst l)) by (intros u I; apply (in_map fst) in I; exact I).
  destruct V as [V|V], W as [W|W].
  - congruence.
  - inv V. exfalso. apply H1. eapply X; eauto.
  - inv W. exfalso. apply H1. eapply X; eauto.
  - eapply IH; eauto.
Qed.
Lemma number_unique : forall l k p q, NoDup (map fst l) -> numberAttr l k p -> numberAttr l k q -> (p == q)%Q.
Proof. intros l k p q ND (v & A & V) (w & B & W). rewrite (attr_unique l k w v) in W by auto. eapply value_unique; eauto. Qed.
Lemma point_list_unique : forall s ps, pointList s ps -> forall qs, pointList s qs -> Forall2 samePlace ps qs.
Proof.
  induction 1 as [|a x b y s ps A B L IH]; intros qs M; inversion M as [|a' x' b' y' s' qs' A' B' L' E1 E2]; subst.
  - constructor.
  - destruct a'; discriminate.
  - destruct a; discriminate.
  - pose proof (proj1 (decimal_chars _ _ A)) as FA. pose proof (proj1 (decimal_chars _ _ B)) as FB. pose proof (proj1 (decimal_chars _ _ A')) as FA'. pose proof (proj1 (decimal_chars _ _ B')) as FB'.
    apply (span_unique numeral) in E1 as (-> & E1); auto; try (cbn; unfold numeral; lia). cbn [app] in E1. apply (f_equal (@tl Z)) in E1. cbn [tl] in E1.
    apply (span_unique numeral) in E1 as (-> & E1); auto; try (cbn; unfold numeral; lia). apply (f_equal (@tl Z)) in E1. cbn [tl] in E1. subst s'.
    constructor; [split; cbn [fst snd]; eapply value_unique; eauto|]. apply IH; auto.
Qed.

(* the area does not depend on how it is read *)
Lemma hull_same : forall ps qs z, Forall2 samePlace ps qs -> hull ps z -> hull qs z.
Proof.
  intros ps qs z S H. induction H as [p I|p q z H1 IH1 H2 IH2 G].
  - assert (X : exists q, In q qs /\ samePlace p q).
    { clear -S I. induction S; [destruct I|]. destruct I as [->|I]; [eexists; split; [left; reflexivity|auto]|]. destruct (IHS I) as (q & J & E). exists q. split; [right; auto|auto]. }
    destruct X as (q & J & E1 & E2). apply (hull_between qs q q); try (apply hull_point; auto). exists 0%Q. split; [split; discriminate|]. split; rewrite ?E1, ?E2; ring.
  - apply (hull_between qs p q); auto.
Qed.
Lemma covers_same : forall e f z, sameArea e f -> covers e z -> covers f z.
Proof.
  intros [x y w h|x y w h|ps|ps] [x' y' w' h'|x' y' w' h'|qs|qs] z S C; cbn [sameArea] in S; try contradiction; cbn [covers] in *.
  - destruct S as (H & H0 & H1 & H2). rewrite <- H, <- H0, <- H1, <- H2. exact C.
  - destruct S as (H & H0 & H1 & H2). rewrite <- H, <- H0, <- H1, <- H2. exact C.
  - eapply hull_same; eauto.
  - eapply hull_same; eauto.
Qed.
Lemma view_same : forall x y w h x' y' w' h' z, (x == x' -> y == y' -> w == w' -> h == h' -> inView (x, y, w, h) z -> inView (x', y', w', h') z)%Q.
Proof. intros x y w h x' y' w' h' z X Y W H V. cbn [inView] in *. rewrite <- X, <- Y, <- W, <- H. exact V. Qed.
Lemma view_unique : forall l x y w h x' y' w' h', NoDup (map fst l) -> viewAttr l (x, y, w, h) -> viewAttr l (x', y', w', h') -> (x == x' /\ y == y' /\ w == w' /\ h == h')%Q.
Proof.
  intros l x y w h x' y' w' h' ND (a & b & c & d & A & DA & DB & DC & DD) (a' & b' & c' & d' & A' & DA' & DB' & DC' & DD').
  pose proof (attr_unique _ _ _ _ ND A A') as E.
  pose proof (proj1 (decimal_chars _ _ DA)). pose proof (proj1 (decimal_chars _ _ DA')). pose proof (proj1 (decimal_chars _ _ DB)). pose proof (proj1 (decimal_chars _ _ DB')). pose proof (proj1 (decimal_chars _ _ DC)). pose proof (proj1 (decimal_chars _ _ DC')).
  apply (span_unique numeral) in E as (-> & E); auto; try (cbn; unfold numeral; lia). apply (f_equal (@tl Z)) in E. cbn [tl app] in E.
  apply (span_unique numeral) in E as (-> & E); auto; try (cbn; unfold numeral; lia). apply (f_equal (@tl Z)) in E. cbn [tl app] in E.
  apply (span_unique numeral) in E as (-> & E); auto; try (cbn; unfold numeral; lia). apply (f_equal (@tl Z)) in E. cbn [tl app] in E. subst d'.
  repeat split; eapply value_unique; eauto.
Qed.
(* the elements *)
Lemma points_exact : forall f l ps qs, 0 <= precision f -> wide f -> NoDup (map fst l) -> Forall shortPoint ps -> shownPoints f l ps -> pointsAttr l qs ->
  Forall2 samePlace qs (map (flipPoint Q 0%Q Qplus Qopp) (map exactPoint ps)).
Proof.
  intros f l ps qs P W ND S H A. destruct H as (rs & (v & V & L) & F).
  { eapply Forall_impl; [|exact S]. intros p (X & Y). split; [apply X|]. apply short_flip in Y as ((N & _) & _). exact N. }
  destruct A as (v' & V' & L'). rewrite (attr_unique _ _ _ _ ND V' V) in L'. pose proof (point_list_unique _ _ L' _ L) as U. clear -P W S F U.
  revert qs U. induction F as [|p r ps rs (SX & SY) F IH]; intros qs U; inversion U as [|q0 r0 qs0 rs0 (E1 & E2) U0]; subst; cbn [map]; constructor.
  - inversion S as [|p0 ps0 (X & Y) S0]; subst. destruct (short_flip _ Y) as (Y' & VY). split; cbn [fst snd flipPoint exactPoint].
    + rewrite E1. eapply shown_exact; eauto.
    + rewrite E2. rewrite <- VY. eapply shown_exact; eauto.
  - inv S. apply IH; auto.
Qed.
Lemma points_there : forall f l ps, Forall shortPoint ps -> shownPoints f l ps -> exists qs, pointsAttr l qs.
Proof.
  intros f l ps S H. destruct H as (rs & A & _); eauto. eapply Forall_impl; [|exact S]. intros p (X & Y). split; [apply X|]. apply short_flip in Y as ((N & _) & _). exact N.
Qed.
Definition distinctAttrs (n : node) : Prop := match n with Element _ l => NoDup (map fst l) | Remark _ => True end.
Lemma content_distinct : forall s ns, content s ns -> Forall distinctAttrs ns.
Proof. induction 1; constructor; auto. - apply H1. - exact I. Qed.
Ltac six ND := repeat match goal with
  | H : sixDigits ?l ?k ?x |- _ => let q := fresh "q" in let A := fresh "A" in let E := fresh "E" in
      destruct (six_short l k x ltac:(eauto) H) as (q & A & E); clear H
  end.
Ltac read ND := match goal with
  | A : numberAttr ?l ?k ?p, E : (?p == _)%Q, B : numberAttr ?l ?k ?q |- (?q == _)%Q => rewrite (number_unique _ _ _ _ ND B A), E
  end.
Lemma described_exact : forall f s n, 0 <= precision f -> wide f -> shortShape s -> described f s n -> distinctAttrs n ->
  (exists e, drawn n e) /\ forall e, drawn n e -> sameArea e (elementQ (exact s)).
Proof.
  intros f s n P W S (name & l & -> & D) ND. cbn [distinctAttrs] in ND. unfold elementQ.
  destruct s as [o w h|o r|o rx ry|ps|p q|ps]; cbn [shortShape] in S.
  - destruct D as (-> & X & Y & DW & DH), S as ((SX & SY) & SW & SH & B). destruct (short_neg (snd o) h (proj1 (short_same _ SY)) (proj1 (short_same _ SH)) B) as (SN & VN). six ND.
    split; [eexists; econstructor; eauto|]. intros e De. inv De; cbn [elementOf exact sameArea exactPoint fst snd]. repeat split; read ND; auto; reflexivity.
  - destruct D as (-> & X & Y & DR), S as ((SX & SY) & SR). destruct (short_flip _ SY) as (SN & VN). six ND.
    split; [eexists; econstructor; eauto|]. intros e De. inv De; cbn [elementOf exact sameArea exactPoint fst snd]. repeat split; read ND; auto; reflexivity.
  - destruct D as (-> & X & Y & DR & DT), S as ((SX & SY) & SR & ST). destruct (short_flip _ SY) as (SN & VN). six ND.
    split; [eexists; econstructor; eauto|]. intros e De. inv De; cbn [elementOf exact sameArea exactPoint fst snd]. repeat split; read ND; auto; reflexivity.
  - destruct D as (-> & D). destruct (points_there _ _ _ S D) as (qs & A). split; [eexists; econstructor; eauto|]. intros e De. inv De. cbn [elementOf exact sameArea]. eapply points_exact; eauto.
  - destruct D as (-> & X & Y & X' & Y'), S as ((SX & SY) & SX' & SY'). destruct (short_flip _ SY) as (SN & VN). destruct (short_flip _ SY') as (SN' & VN'). six ND.
    split; [eexists; econstructor; eauto|]. intros e De. inv De; cbn [elementOf exact sameArea exactPoint map fst snd]. unfold flipPoint, exactPoint. cbn [fst snd].
    constructor; [|constructor; [|constructor]]; split; cbn [fst snd]; read ND; auto; reflexivity.
  - destruct D as (-> & D). destruct (points_there _ _ _ S D) as (qs & A). split; [eexists; econstructor; eauto|]. intros e De. inv De. cbn [elementOf exact sameArea]. eapply points_exact; eauto.
Qed.
Lemma nodes_areas : forall f ts ns, nodesOf f ts ns -> 0 <= precision f -> wide f -> Forall proper ts -> Forall shortThing ts -> Forall distinctAttrs ns -> areasOf ts ns.
Proof.
  induction 1 as [f|f s st ts n ns D St H IH|f c ts ns H IH|f t ts ns H IH|f g ts ns H IH]; intros P W FP FS FD; inversion FP; inversion FS; subst; try (inversion FD; subst); try (constructor; auto; fail).
  - destruct (described_exact f s n) as (X & Y); auto. constructor; auto.
  - constructor; auto. intros e De. inversion De.
Qed.
Lemma areas_in : forall ts ns, areasOf ts ns -> forall n e, In n ns -> drawn n e -> exists s st, In (TShape s st) ts /\ sameArea e (elementQ (exact s)).
Proof.
  induction 1 as [|s st ts n ns X Y H IH|c ts n ns X H IH|t ts ns H IH|f ts ns H IH]; intros m e I D.
  - destruct I.
  - destruct I as [->|I]; [exists s, st; split; [left; auto|auto]|]. destruct (IH _ _ I D) as (s' & st' & J & A). exists s', st'. split; [right; auto|auto].
  - destruct I as [->|I]; [exfalso; eapply X; eauto|]. destruct (IH _ _ I D) as (s' & st' & J & A). exists s', st'. split; [right; auto|auto].
  - destruct (IH _ _ I D) as (s' & st' & J & A). exists s', st'. split; [right; auto|auto].
  - destruct (IH _ _ I D) as (s' & st' & J & A). exists s', st'. split; [right; auto|auto].
Qed.
Lemma document_distinct : forall s d n l ns, document s d n l ns -> NoDup (map fst l) /\ Forall distinctAttrs ns.
Proof. intros s d n l ns (da & ws & ra & c & _ & _ & _ & _ & (_ & ND) & C). split; auto. eapply content_distinct; eauto. Qed.
Lemma areas_ok : forall name cs b s d n l ns, Forall proper (concat cs) -> Forall shortThing (concat cs) -> write (Some name) b (imageText cs) = Some s ->
  document s d n l ns -> areasOf (concat cs) ns.
Proof.
  intros name cs b s d n l ns P S W D. destruct (document_ok name cs b s P W) as (l' & ns' & D' & N & _). destruct (document_unique _ _ _ _ _ _ _ _ _ D D') as (_ & _ & -> & ->).
  eapply nodes_areas; eauto; [cbn; lia|right; cbn; lia|]. eapply document_distinct; eauto.
Qed.
Lemma same_value : forall x q r, same x q -> decimalValue (showFixed 6 x) r -> (r == q)%Q.
Proof. intros x q r S D. destruct (fixed_exact 6 x q ltac:(lia) S) as (r' & D' & E). rewrite (value_unique _ _ _ D D'). exact E. Qed.
Definition sameView (v v' : Q * Q * Q * Q) : Prop :=
  let '(x, y, w, h) := v in let '(x', y', w', h') := v' in (x == x' /\ y == y' /\ w == w' /\ h == h')%Q.
Lemma view_exact : forall cs, Forall shortThing (concat cs) ->
  exists v, viewAttr (rootAttrs (imageBox cs)) v /\ sameView v (viewBoxQ (imageQ (map (map exactItem) cs))).
Proof.
  intros cs S. pose proof (image_same cs S) as ((SX & SW & _ & _) & (SY & SH & _ & WE)). pose proof (same_opp _ _ (same_add _ _ _ _ SY SH (within_64 _ WE))) as SN.
  destruct (fixed_exact 6 _ _ ltac:(lia) SX) as (x & DX & X), (fixed_exact 6 _ _ ltac:(lia) SN) as (y & DY & Y), (fixed_exact 6 _ _ ltac:(lia) SW) as (w & DW & W), (fixed_exact 6 _ _ ltac:(lia) SH) as (h & DH & H).
  exists (x, y, w, h). split; [apply view_attr; auto|]. cbn [sameView viewBoxQ viewBox]. unfold flipY. auto.
Qed.
Lemma view_ok : forall name cs s d n l ns v, Forall proper (concat cs) -> Forall shortThing (concat cs) -> write (Some name) (imageBox cs) (imageText cs) = Some s ->
  document s d n l ns -> viewAttr l v -> sameView v (viewBoxQ (imageQ (map (map exactItem) cs))).
Proof.
  intros name cs s d n l ns (((x, y), w), h) P S W D V. destruct (document_ok name cs _ s P W) as (l' & ns' & D' & _ & _ & L). destruct (document_unique _ _ _ _ _ _ _ _ _ D D') as (_ & _ & -> & ->). subst l'.
  destruct (view_exact cs S) as ((((x', y'), w'), h') & V' & E). destruct (view_unique _ _ _ _ _ _ _ _ _ (proj1 (document_distinct _ _ _ _ _ D)) V V') as (E1 & E2 & E3 & E4).
  unfold sameView in *. destruct (viewBoxQ (imageQ (map (map exactItem) cs))) as (((x'', y''), w''), h''). destruct E as (F1 & F2 & F3 & F4). rewrite E1, E2, E3, E4. auto.
Qed.
Lemma tidy_leading : forall ts s st, tidy ts -> In (TShape s st) ts -> In (exact s) (leading (map exactItem ts)).
Proof.
  intros ts s st T I. apply in_split in I as (a & b & ->). pose proof (T a _ b eq_refl I) as F. clear T. induction F as [|t a S F IH]; cbn [app map exactItem leading]; [left; auto|].
  destruct t; try destruct S. cbn [exactItem leading]. right. auto.
Qed.
Lemma in_view : forall name cs s d n l ns v m e z, Forall proper (concat cs) -> Forall shortThing (concat cs) -> Forall tidy cs -> write (Some name) (imageBox cs) (imageText cs) = Some s ->
  document s d n l ns -> viewAttr l v -> In m ns -> drawn m e -> covers e z -> inView v z.
Proof.
  intros name cs s d n l ns v m e z P S T W D V I De C. pose proof (areas_ok _ _ _ _ _ _ _ _ P S W D) as A. destruct (areas_in _ _ A _ _ I De) as (sh & st & J & SA).
  apply in_concat in J as (ts & J1 & J2). assert (TT : tidy ts) by (rewrite Forall_forall in T; auto). pose proof (tidy_leading _ _ _ TT J2) as L.
  assert (IM : In (map exactItem ts) (map (map exactItem) cs)) by (apply in_map; auto). pose proof (all_in_view _ _ _ z IM L (covers_same _ _ _ SA C)) as IV.
  pose proof (view_ok _ _ _ _ _ _ _ _ P S W D V) as SV. destruct v as (((x, y), w), h), (viewBoxQ (imageQ (map (map exactItem) cs))) as (((x', y'), w'), h'). destruct SV as (E1 & E2 & E3 & E4).
  cbn [inView] in *. rewrite E1, E2, E3, E4. exact IV.
Qed.
