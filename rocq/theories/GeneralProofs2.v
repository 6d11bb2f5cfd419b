From Verif Require Import Base Tac FloatModel FloatSpec RealSpec SeqModel PassModel InputSpec InputProofs OutProofs FloatProofs DecimalSpec DecimalModel DecimalProofs DecimalProofs2 PrintModel PrintSpec PrintProofs PrintProofs2 GeneralModel GeneralSpec GeneralProofs.
From Coq Require Import QArith Qabs ZArith Lia Lqa SpecFloat Qpower.
Open Scope Z_scope.

Lemma sig_error : forall P v q, significant P v q -> (Qabs (q - v) <= (1 # 2) * tenTo (1 - P) * Qabs v)%Q.
Proof.
  intros P v q [(V & Q)|(e & k & (B & _) & N & Q)].
  - rewrite V, Q. rewrite Qmult_0_r. discriminate.
  - rewrite Q. apply nearest_half in N. eapply Qle_trans; [exact N|]. replace (- (P - 1 - e)) with (1 - P + e) by lia. rewrite tenTo_plus, Qmult_assoc.
    apply Qmult_le_l; auto. pose proof (tenTo_pos (1 - P)). lra.
Qed.
Lemma nearest_exact : forall p v k j, nearestUnits p v k -> (v == units p j)%Q -> (units p k == v)%Q.
Proof.
  intros p v k j N E. destruct (N j) as (L & _). rewrite E in L. setoid_replace (units p j - units p j)%Q with 0%Q in L by ring. rewrite E.
  destruct (abs_cases (units p k - units p j)) as [(A & B)|(A & B)]; rewrite B in L; change (Qabs 0) with 0%Q in L; lra.
Qed.
Lemma units_finer : forall p p' j, p <= p' -> (units p j == units p' (j * 10 ^ (p' - p)))%Q.
Proof. intros p p' j L. rewrite Z.mul_comm, units_ten by lia. replace (p' - (p' - p)) with p by lia. reflexivity. Qed.
Lemma abs_inj : forall z, (Qabs (inject_Z z) == inject_Z (Z.abs z))%Q.
Proof. intro. reflexivity. Qed.
Lemma sig_exact : forall P v q p j, 1 <= P -> significant P v q -> (v == units p j)%Q -> Z.abs j < 10 ^ P -> (q == v)%Q.
Proof.
  intros P v q p j HP [(V & Q)|(e & k & (B & _) & N & Q)] E J; [rewrite V; auto|]. rewrite Q. destruct (Z_le_gt_dec p (P - 1 - e)) as [L|G].
  - apply (nearest_exact _ _ _ (j * 10 ^ (P - 1 - e - p)) N). rewrite E. apply units_finer. auto.
  - exfalso. rewrite E in B. unfold units in B. rewrite Qabs_Qmult, abs_inj, (Qabs_pos (tenTo (- p))) in B by (apply Qlt_le_weak, tenTo_pos).
    assert (X : (inject_Z (Z.abs j) * tenTo (- p) < tenTo e)%Q).
    { apply Qlt_le_trans with (inject_Z (10 ^ P) * tenTo (- p))%Q.
      - apply Qmult_lt_r; [apply tenTo_pos|]. rewrite <- Zlt_Qlt. auto.
      - rewrite <- tenTo_Z by lia. rewrite <- tenTo_plus. apply tenTo_le. lia. }
    lra.
Qed.
Lemma sig_bounds : forall P v q e, 1 <= P -> significant P v q -> (tenTo e <= Qabs v < tenTo (e + 1))%Q -> (tenTo e <= Qabs q <= tenTo (e + 1))%Q /\ (0 <= v -> 0 <= q)%Q /\ (v <= 0 -> q <= 0)%Q.
Proof.
  intros P v q e HP S B. pose proof (tenTo_pos e) as TE. destruct S as [(V & Q)|(x & k & BX & N & Q)].
  { exfalso. rewrite V in B. change (Qabs 0) with 0%Q in B. lra. }
  assert (x = e).
  { destruct (Z.lt_trichotomy x e) as [L|[E|L]]; auto; exfalso.
    - pose proof (tenTo_le (x + 1) e ltac:(lia)). lra.
    - pose proof (tenTo_le (e + 1) x ltac:(lia)). lra. }
  subst x.
  assert (T0 : (tenTo e == units (P - 1 - e) (10 ^ (P - 1)))%Q). { unfold units. rewrite <- tenTo_Z, <- tenTo_plus by lia. replace (P - 1 + - (P - 1 - e)) with e by lia. reflexivity. }
  assert (T1 : (tenTo (e + 1) == units (P - 1 - e) (10 ^ P))%Q). { unfold units. rewrite <- tenTo_Z, <- tenTo_plus by lia. replace (P + - (P - 1 - e)) with (e + 1) by lia. reflexivity. }
  assert (OP : forall a, (units (P - 1 - e) (- a) == - units (P - 1 - e) a)%Q) by (intro; unfold units; rewrite inject_Z_opp; ring).
  destruct (abs_cases v) as [(A & AV)|(A & AV)]; rewrite AV in B.
  - assert (L : (tenTo e <= q)%Q) by (rewrite Q, T0; eapply units_above; [exact N|rewrite <- T0; lra]).
    assert (U : (q <= tenTo (e + 1))%Q) by (rewrite Q, T1; eapply units_below; [exact N|rewrite <- T1; lra]).
    rewrite (Qabs_pos q) by lra. split; [lra|]. split; intro; lra.
  - assert (L : (q <= - tenTo e)%Q) by (rewrite Q, T0, <- OP; eapply units_below; [exact N|rewrite OP, <- T0; lra]).
    assert (U : (- tenTo (e + 1) <= q)%Q) by (rewrite Q, T1, <- OP; eapply units_above; [exact N|rewrite OP, <- T1; lra]).
    rewrite (Qabs_neg q) by lra. split; [lra|]. split; intro; lra.
Qed.
Lemma sig_sign : forall P v q, 1 <= P -> significant P v q -> ((0 <= v -> 0 <= q) /\ (v <= 0 -> q <= 0))%Q.
Proof.
  intros P v q HP S. pose proof S as [(V & Q)|(e & k & B & _)].
  - rewrite Q. split; intro; lra.
  - apply (sig_bounds P v q e) in S; auto. apply S.
Qed.
Lemma sig_mono : forall P v w q r, 1 <= P -> significant P v q -> significant P w r -> (v <= w)%Q -> (q <= r)%Q.
Proof.
  assert (POS : forall P v w q r, 1 <= P -> significant P v q -> significant P w r -> (0 <= v)%Q -> (v <= w)%Q -> (q <= r)%Q).
  { intros P v w q r HP S T V L. destruct (sig_sign _ _ _ HP T) as (T1 & _). pose proof S as [(E & Q)|(e & k & B & N & Q)].
    - rewrite Q. apply T1. lra.
    - pose proof T as [(E' & Q')|(e' & k' & B' & N' & Q')].
      + exfalso. pose proof (tenTo_pos e). rewrite (Qabs_pos v) in B by auto. lra.
      + destruct (Z.lt_trichotomy e e') as [X|[X|X]].
        * pose proof (tenTo_le (e + 1) e' ltac:(lia)). apply (sig_bounds _ _ _ e) in S; auto. apply (sig_bounds _ _ _ e') in T; auto.
          destruct S as (S & SP & _). destruct T as (T & TP & _). rewrite (Qabs_pos q) in S by auto. rewrite (Qabs_pos r) in T by (apply TP; lra). lra.
        * subst e'. rewrite Q, Q'. eapply units_mono; eauto.
        * exfalso. rewrite (Qabs_pos v) in B by auto. rewrite (Qabs_pos w) in B' by lra. pose proof (tenTo_le (e' + 1) e ltac:(lia)). lra. }
  assert (NEG : forall P v q, significant P v q -> significant P (- v) (- q)).
  { intros P v q [(V & Q)|(e & k & B & N & Q)]; [left; rewrite V, Q; split; reflexivity|]. right. exists e, (- k). rewrite Qabs_opp. split; auto. split; [apply nearest_opp; auto|]. rewrite Q. unfold units. rewrite inject_Z_opp. ring. }
  intros P v w q r HP S T L. destruct (Qlt_le_dec v 0) as [V|V]; [|eapply POS; eauto].
  destruct (Qlt_le_dec w 0) as [W|W].
  - assert (- r <= - q)%Q; [|lra]. apply (POS P (- w)%Q (- v)%Q); auto; lra.
  - destruct (sig_sign _ _ _ HP S) as (_ & S1). destruct (sig_sign _ _ _ HP T) as (T1 & _). specialize (T1 W). assert (q <= 0)%Q by (apply S1; lra). lra.
Qed.

(* the characters *)
Definition numeral (c : Z) : Prop := 48 <= c <= 57 \/ c = 43 \/ c = 45 \/ c = 46 \/ c = 101 \/ c = 69.
Lemma show_numeral : forall ds, Forall digit ds -> Forall numeral (InputSpec.showDigits ds).
Proof. intros ds F. apply Forall_map. eapply Forall_impl; [|exact F]. unfold digit, numeral. intros. lia. Qed.
Lemma sign_numeral : forall sg, optSign sg -> Forall numeral sg.
Proof. intros sg [->|[->| ->]]; [constructor| |]; (constructor; [unfold numeral; lia|constructor]). Qed.
Lemma decimal_chars : forall t q, decimalValue t q -> Forall numeral t /\ t <> [].
Proof.
  intros t q (sg & ip & fp & dot & ex & x & S & I & F & E & NE & _ & -> & _).
  assert (EX : Forall numeral ex).
  { destruct E as [(-> & _)|(e & sg' & ds & HE & S' & D & _ & -> & _)]; [constructor|]. constructor; [unfold numeral; lia|]. apply Forall_app. split; [apply sign_numeral; auto|apply show_numeral; auto]. }
  split.
  - repeat (apply Forall_app; split); auto using show_numeral, sign_numeral. destruct dot; [constructor; [unfold numeral; lia|]|]; constructor.
  - intro H. apply app_eq_nil in H as (_ & H). apply app_eq_nil in H as (H1 & H). apply app_eq_nil in H as (_ & H). apply app_eq_nil in H as (H2 & _).
    unfold InputSpec.showDigits in *. apply map_eq_nil in H1. apply map_eq_nil in H2. tauto.
Qed.
(* integers *)
Lemma fraction_zeros : forall n, fraction (repeat 48 n) = [].
Proof. intro n. unfold fraction. assert (R : rev (repeat 48 n) = repeat 48 n). { induction n; auto. cbn [repeat rev]. rewrite IHn. clear. induction n; auto. cbn. f_equal. auto. } rewrite R. clear R. induction n; auto. Qed.
Lemma lastDigits_zero : forall p acc, lastDigits p 0 acc = repeat 48 p ++ acc.
Proof.
  assert (R : forall p acc, repeat 48 p ++ 48 :: acc = 48 :: repeat 48 p ++ acc) by (induction p; intros; cbn; auto; rewrite IHp; auto).
  induction p; intro acc; auto. cbn [lastDigits]. change (0 / 10) with 0. change (48 + 0 mod 10) with 48. rewrite IHp. apply R.
Qed.
Lemma nearestInt_exact : forall d k, 0 < d -> nearestInt (k * d) d = k.
Proof. intros d k D. unfold nearestInt. rewrite Z.div_mul, Z.mod_mul by lia. destruct (Z.compare_spec (2 * 0) d); lia. Qed.
Lemma general_int : forall P d z, 1 <= P -> 0 < d -> 0 < z < 10 ^ P -> generalText P (z * d) d = wholeDigits z.
Proof.
  intros P d z HP D Z. unfold generalText, decimalLog. replace (d <=? z * d) with true by nia. rewrite Z.div_mul by lia.
  destruct (whole_len z) as ((A & B) & L); [lia|]. set (l := alen (wholeDigits z)) in *.
  assert (LP : l <= P). { assert (l - 1 < P); [|lia]. apply (Z.pow_lt_mono_r_iff 10); lia. }
  set (p := P - 1 - (l - 1)). assert (SC : scaled (z * d) d p = z * 10 ^ p).
  { unfold scaled. rewrite Z.max_l, Z.max_r by lia. rewrite Z.pow_0_r, Z.mul_1_r. replace (z * d * 10 ^ p) with (z * 10 ^ p * d) by ring. apply nearestInt_exact. auto. }
  rewrite SC. pose proof (Z.pow_pos_nonneg 10 p ltac:(lia) ltac:(lia)) as T.
  assert (LT : z * 10 ^ p < 10 ^ P). { replace P with (l + p) by lia. rewrite Z.pow_add_r by lia. nia. }
  replace (z * 10 ^ p =? 10 ^ P) with false by lia. replace ((-4 <=? l - 1) && (l - 1 <? P)) with true by lia.
  fold p. unfold shortText. rewrite Z.div_mul, Z.mod_mul by lia. rewrite lastDigits_zero, app_nil_r, fraction_zeros, app_nil_r. reflexivity.
Qed.
Lemma show_whole : forall P x z, 1 <= P -> number x -> (val x == inject_Z z)%Q -> z <> 0 -> Z.abs z < 10 ^ P -> decimalOf (showGeneral P x) z.
Proof.
  intros P x z HP (OK & F) V NZ B. destruct x as [s|s| |s m e]; try discriminate; cbn [showGeneral].
  - exfalso. change 0%Q with (inject_Z 0) in V. cbn [val] in V. rewrite (inject_Z_injective 0 z) in V. lia.
  - assert (M : Zpos m * up e = Z.abs z * up (- e) /\ z = if s then - Z.abs z else Z.abs z).
    { assert (I : forall a, (inject_Z (Zpos m) * two e == inject_Z a)%Q -> Zpos m * up e = a * up (- e)).
      { intros a E. rewrite <- inject_Z_injective, <- up_ratio, E, inject_Z_mult. reflexivity. }
      pose proof (up_pos e). pose proof (up_pos (- e)). cbn [val] in V. destruct s.
      - assert (E : (inject_Z (Zpos m) * two e == inject_Z (- z))%Q) by (rewrite inject_Z_opp, <- V; ring). apply I in E. nia.
      - assert (E : (inject_Z (Zpos m) * two e == inject_Z z)%Q) by (rewrite <- V; ring). apply I in E. nia. }
    destruct M as (M & S). rewrite M, Z.max_l by lia. rewrite general_int; [|lia|apply up_pos|lia].
    destruct (wholeDigits_ok (Z.abs z)) as (ds & E & C & VD); [lia|]. exists ds. split; auto. rewrite E. destruct s; [right|left]; (split; [reflexivity|lia]).
Qed.
