From Verif Require Import Base Tac FloatModel FloatSpec RealSpec SeqModel PassModel InputSpec InputProofs OutProofs FloatProofs DecimalSpec DecimalModel DecimalProofs DecimalProofs2 PrintModel PrintSpec PrintProofs PrintProofs2 GeneralModel GeneralSpec.
From Coq Require Import QArith Qabs ZArith Lia Lqa SpecFloat Qpower.
Open Scope Z_scope.

Lemma ten_pos : forall x, 0 < 10 ^ Z.max x 0.
Proof. intro. apply Z.pow_pos_nonneg; lia. Qed.
Lemma inj_pos : forall z, 0 < z -> (0 < inject_Z z)%Q.
Proof. intros z P. change 0%Q with (inject_Z 0). rewrite <- Zlt_Qlt. auto. Qed.
Lemma tenTo_plus : forall a b, (tenTo (a + b) == tenTo a * tenTo b)%Q.
Proof. intros. unfold tenTo. apply Qpower_plus. discriminate. Qed.
Lemma tenTo_Z : forall x, 0 <= x -> (tenTo x == inject_Z (10 ^ x))%Q.
Proof. intros x X. rewrite tenTo_ratio, Z.max_l, Z.max_r by lia. rewrite Z.pow_0_r. field. Qed.
Lemma tenTo_le : forall a b, a <= b -> (tenTo a <= tenTo b)%Q.
Proof.
  intros a b L. replace b with (a + (b - a)) by lia. rewrite tenTo_plus, (tenTo_Z (b - a)) by lia. rewrite <- (Qmult_1_r (tenTo a)) at 1.
  apply Qmult_le_l; [apply tenTo_pos|]. change 1%Q with (inject_Z 1). rewrite <- Zle_Qle. pose proof (Z.pow_pos_nonneg 10 (b - a)). lia.
Qed.
Lemma tenTo_max : forall x, (tenTo x * inject_Z (10 ^ Z.max (- x) 0) == inject_Z (10 ^ Z.max x 0))%Q.
Proof. intro x. rewrite tenTo_ratio. field. intro H. pose proof (inj_pos _ (ten_pos (- x))). lra. Qed.

(* the number of digits *)
Lemma value_bound : forall ds, Forall digit ds -> 0 <= value ds < 10 ^ alen ds.
Proof.
  intro ds. pattern ds. apply rev_ind.
  - intros _. cbn. lia.
  - intros d l IH F. apply Forall_app in F as (F1 & F2). inv F2. specialize (IH F1). unfold value in *. rewrite OutProofs.value_snoc. unfold alen in *.
    rewrite app_length, Nat2Z.inj_add, Z.pow_add_r by lia. change (10 ^ Z.of_nat (length [d])) with 10. unfold digit in *. lia.
Qed.
Lemma alen_show : forall ds, alen (InputSpec.showDigits ds) = alen ds.
Proof. intro. unfold alen, InputSpec.showDigits. rewrite map_length. reflexivity. Qed.
Lemma whole_len : forall n, 0 < n -> 10 ^ (alen (wholeDigits n) - 1) <= n < 10 ^ alen (wholeDigits n) /\ 1 <= alen (wholeDigits n).
Proof.
  intros n N. destruct (wholeDigits_ok n) as (ds & E & (F & C) & V); [lia|]. rewrite E, alen_show.
  destruct C as [->|(d & l & -> & D)]; [cbn in V; lia|]. pose proof (value_bound _ F) as B. rewrite V in B. inv F.
  assert (V : value (d :: l) = d * 10 ^ alen l + value l) by (unfold value at 1; cbn [valueFrom]; rewrite valueFrom_value; lia).
  pose proof (value_bound _ H2) as B2. unfold digit in *.
  assert (L : alen (d :: l) = alen l + 1) by (unfold alen; cbn [length]; lia). assert (0 <= alen l) by (unfold alen; lia).
  split; [|lia]. split; [|lia]. rewrite L. replace (alen l + 1 - 1) with (alen l) by lia.
  pose proof (Z.pow_pos_nonneg 10 (alen l) ltac:(lia) ltac:(lia)). nia.
Qed.

Section Rounded.
  Variables (n d : Z) (v : Q).
  Hypothesis N : 0 < n.
  Hypothesis D : 0 < d.
  Hypothesis V : (v * inject_Z d == inject_Z n)%Q.

  Lemma v_pos : (0 < v)%Q.
  Proof. apply (Qmult_lt_r _ _ (inject_Z d)); [apply inj_pos; auto|]. rewrite V, Qmult_0_l. apply inj_pos. auto. Qed.
  Lemma log_ok : (tenTo (decimalLog n d) <= v < tenTo (decimalLog n d + 1))%Q.
  Proof.
    assert (X : forall x, (tenTo x * inject_Z d * inject_Z (10 ^ Z.max (- x) 0) == inject_Z (10 ^ Z.max x 0 * d))%Q).
    { intro x. rewrite inject_Z_mult, <- (tenTo_max x). ring. }
    assert (LE : forall x, 10 ^ Z.max x 0 * d <= n * 10 ^ Z.max (- x) 0 -> (tenTo x <= v)%Q).
    { intros x H. apply (Qmult_le_r _ _ (inject_Z d)); [apply inj_pos; auto|]. apply (Qmult_le_r _ _ (inject_Z (10 ^ Z.max (- x) 0))); [apply inj_pos, ten_pos|].
      rewrite X, V, <- inject_Z_mult, <- Zle_Qle. auto. }
    assert (LT : forall x, n * 10 ^ Z.max (- x) 0 < 10 ^ Z.max x 0 * d -> (v < tenTo x)%Q).
    { intros x H. apply (Qmult_lt_r _ _ (inject_Z d)); [apply inj_pos; auto|]. apply (Qmult_lt_r _ _ (inject_Z (10 ^ Z.max (- x) 0))); [apply inj_pos, ten_pos|].
      rewrite X, V, <- inject_Z_mult, <- Zlt_Qlt. auto. }
    unfold decimalLog. destruct (Z.leb_spec d n) as [C|C].
    - assert (Q : 0 < n / d) by (apply Z.div_str_pos; lia). destruct (whole_len _ Q) as ((A & B) & L). set (k := alen (wholeDigits (n / d))) in *.
      pose proof (Z.div_mod n d ltac:(lia)) as M. pose proof (Z.mod_pos_bound n d D).
      split.
      + apply LE. rewrite (Z.max_l (k - 1)), Z.max_r by lia. rewrite Z.pow_0_r. nia.
      + apply LT. replace (k - 1 + 1) with k by lia. rewrite (Z.max_l k), Z.max_r by lia. rewrite Z.pow_0_r. nia.
    - assert (Q : 0 < (d - 1) / n) by (apply Z.div_str_pos; lia). destruct (whole_len _ Q) as ((A & B) & L). set (k := alen (wholeDigits ((d - 1) / n))) in *.
      pose proof (Z.div_mod (d - 1) n ltac:(lia)) as M. pose proof (Z.mod_pos_bound (d - 1) n N).
      split.
      + apply LE. replace (- - k) with k by lia. rewrite (Z.max_l k), Z.max_r by lia. rewrite Z.pow_0_r. nia.
      + apply LT. replace (- (- k + 1)) with (k - 1) by lia. rewrite (Z.max_l (k - 1)), Z.max_r by lia. rewrite Z.pow_0_r. nia.
  Qed.
  Lemma scaled_diff : forall p k, (inject_Z (k * (d * 10 ^ Z.max (- p) 0) - n * 10 ^ Z.max p 0) == (units p k - v) * (inject_Z d * inject_Z (10 ^ Z.max p 0)))%Q.
  Proof.
    intros p k. unfold Z.sub, units. rewrite inject_Z_plus, inject_Z_opp, !inject_Z_mult, <- V.
    pose proof (tenTo_max (- p)) as T. rewrite Z.opp_involutive in T. rewrite <- T. ring.
  Qed.
  Lemma rounding_pos : forall p, (0 < inject_Z d * inject_Z (10 ^ Z.max p 0))%Q.
  Proof. intro p. rewrite <- inject_Z_mult. apply inj_pos. pose proof (ten_pos p). nia. Qed.
  Lemma scaled_abs : forall p k, (inject_Z (Z.abs (k * (d * 10 ^ Z.max (- p) 0) - n * 10 ^ Z.max p 0)) == Qabs (units p k - v) * (inject_Z d * inject_Z (10 ^ Z.max p 0)))%Q.
  Proof.
    intros p k. rewrite <- (Qabs_pos (inject_Z d * inject_Z (10 ^ Z.max p 0))) at 1 by (apply Qlt_le_weak, rounding_pos).
    rewrite <- Qabs_Qmult, <- scaled_diff. unfold Qabs, inject_Z. reflexivity.
  Qed.
  Lemma scaled_nearest : forall p, nearestUnits p v (scaled n d p).
  Proof.
    intros p j. pose proof (rounding_pos p) as S. assert (DP : 0 < d * 10 ^ Z.max (- p) 0) by (pose proof (ten_pos (- p)); nia). unfold scaled. split.
    - apply (Qmult_lt_0_le_reg_r _ _ _ S). rewrite <- !scaled_abs. rewrite <- Zle_Qle. apply nearestInt_best. auto.
    - intros NE E. apply (nearestInt_even _ _ j); auto. rewrite <- inject_Z_injective. rewrite !scaled_abs, E. reflexivity.
  Qed.
End Rounded.

(* texts *)
Lemma drop_ok : forall ds, Forall digit ds -> exists zs r, ds = repeat 0 zs ++ r /\ dropZeros (InputSpec.showDigits ds) = InputSpec.showDigits r /\ (r = [] \/ hd 0 r <> 0).
Proof.
  induction 1 as [|d ds D F (zs & r & E & T & H)]; [exists O, []; auto|]. cbn [InputSpec.showDigits map dropZeros]. destruct (Z.eqb_spec (48 + d) 48) as [Z0|NZ].
  - exists (S zs), r. cbn [repeat app]. rewrite <- E. split; [f_equal; lia|auto].
  - exists O, (d :: ds). cbn. repeat split; auto. right. lia.
Qed.
Lemma show_rev : forall ds, rev (InputSpec.showDigits ds) = InputSpec.showDigits (rev ds).
Proof. intro. unfold InputSpec.showDigits. rewrite map_rev. reflexivity. Qed.
Lemma fraction_ok : forall ds, Forall digit ds -> exists fp zs, ds = fp ++ repeat 0 zs /\ Forall digit fp /\
  fraction (InputSpec.showDigits ds) = (if match fp with [] => false | _ => true end then [46] else []) ++ InputSpec.showDigits fp /\ (fp = [] \/ last fp 0 <> 0).
Proof.
  intros ds F. destruct (drop_ok (rev ds)) as (zs & r & E & T & H); [apply Forall_rev; auto|]. exists (rev r), zs.
  assert (E2 : ds = rev r ++ repeat 0 zs). { rewrite <- (rev_involutive ds), E, rev_app_distr. f_equal. clear. induction zs; auto. cbn. rewrite IHzs. clear. induction zs; auto. cbn. f_equal. auto. }
  split; auto. split. { rewrite E2 in F. apply Forall_app in F. apply F. }
  unfold fraction. rewrite show_rev, T. destruct r as [|d r].
  - split; [reflexivity|auto].
  - split.
    + cbn [InputSpec.showDigits map]. change ((48 + d) :: map (fun x => 48 + x) r) with (InputSpec.showDigits (d :: r)). rewrite show_rev. destruct (rev (d :: r)) eqn:Y; [apply (f_equal (@length Z)) in Y; rewrite rev_length in Y; discriminate|reflexivity].
    + right. cbn [rev]. rewrite last_last. destruct H as [H|H]; [discriminate|exact H].
Qed.
Lemma value_zeros : forall l z, value (l ++ repeat 0 z) = value l * 10 ^ Z.of_nat z.
Proof.
  intros l z. unfold value. rewrite valueFrom_app, valueFrom_value. fold (value l). unfold alen. rewrite repeat_length.
  replace (value (repeat 0 z)) with 0; [lia|]. unfold value. induction z; auto.
Qed.
Lemma short_ok : forall p k s ex x, 0 <= p -> 0 <= k -> exponentIs ex x ->
  decimalValue (minus s ++ shortText p k ++ ex) ((if s then - (1) else 1) * (units p k * tenTo x)).
Proof.
  intros p k s ex x P K EX. unfold shortText. pose proof (Z.pow_pos_nonneg 10 p ltac:(lia) P) as T.
  destruct (wholeDigits_ok (k / 10 ^ p)) as (ip & E & C & V); [apply Z.div_pos; lia|]. rewrite E.
  destruct (canonical_cons _ C) as (d & ip' & IP & _). assert (NE : ip <> []) by (rewrite IP; discriminate).
  destruct (sign_ok s) as (S1 & S2).
  destruct (lastDigits_ok (Z.to_nat p) (k mod 10 ^ p) []) as (ds & E2 & F & L & V2). rewrite app_nil_r in E2. rewrite E2.
  rewrite Z2Nat.id in V2 by lia. specialize (V2 (Z.mod_pos_bound k _ T)).
  destruct (fraction_ok ds F) as (fp & zs & -> & F2 & FT & _). rewrite FT.
  assert (LF : alen fp + Z.of_nat zs = p) by (unfold alen; rewrite app_length, repeat_length in L; lia).
  assert (VA : value (ip ++ fp) * 10 ^ Z.of_nat zs = k).
  { rewrite <- value_zeros, <- app_assoc. unfold value. rewrite valueFrom_app, valueFrom_value. fold (value ip). rewrite V, V2. unfold alen. rewrite L, Z2Nat.id by lia. pose proof (Z.div_mod k (10 ^ p) ltac:(lia)). lia. }
  exists (minus s), ip, fp, (match fp with [] => false | _ => true end), ex, x. split; auto. split; [apply C|]. split; auto. split; auto. split; auto.
  split; [destruct fp; [reflexivity|discriminate]|]. split; [rewrite <- !app_assoc; reflexivity|].
  unfold signed. rewrite S2. unfold units. rewrite <- VA, inject_Z_mult, <- (tenTo_Z (Z.of_nat zs)) by lia. replace (x - alen fp) with (Z.of_nat zs + - p + x) by lia.
  destruct s; rewrite !tenTo_plus; ring.
Qed.
Lemma exponent_ok : forall x, exponentIs (exponentText x) x.
Proof.
  intro x. right. destruct (wholeDigits_ok (Z.abs x)) as (ds & E & C & V); [lia|]. destruct (canonical_cons _ C) as (d & ds' & DS & _).
  exists 101, [if x <? 0 then 45 else 43], ((if Z.abs x <? 10 then [0] else []) ++ ds).
  split; auto. split; [unfold optSign; destruct (x <? 0); auto|]. split; [apply Forall_app; split; [destruct (Z.abs x <? 10); repeat constructor; unfold digit; lia|apply C]|].
  split; [destruct (Z.abs x <? 10); [discriminate|rewrite DS; discriminate]|]. split.
  - unfold exponentText. rewrite E. unfold InputSpec.showDigits. rewrite map_app. destruct (Z.abs x <? 10); reflexivity.
  - assert (VV : value ((if Z.abs x <? 10 then [0] else []) ++ ds) = Z.abs x) by (destruct (Z.abs x <? 10); exact V). rewrite VV.
    cbn [negative]. destruct (Z.ltb_spec x 0); [change (45 =? 45) with true|change (43 =? 45) with false]; cbn; lia.
Qed.

Lemma units_shift : forall p x k, (units p k * tenTo x == units (p - x) k)%Q.
Proof. intros. unfold units. replace (- (p - x)) with (- p + x) by lia. rewrite tenTo_plus. ring. Qed.
Lemma units_ten : forall p k j, 0 <= j -> (units p (10 ^ j * k) == units (p - j) k)%Q.
Proof. intros p k j J. unfold units. replace (- (p - j)) with (- p + j) by lia. rewrite inject_Z_mult, tenTo_plus, (tenTo_Z j) by auto. ring. Qed.
Lemma general_ok : forall P n d s v, 1 <= P -> 0 < n -> 0 < d -> (v * inject_Z d == inject_Z n)%Q ->
  exists e k, (tenTo e <= v < tenTo (e + 1))%Q /\ nearestUnits (P - 1 - e) v k /\ decimalValue (minus s ++ generalText P n d) ((if s then - (1) else 1) * units (P - 1 - e) k).
Proof.
  intros P n d s v HP N D V. exists (decimalLog n d), (scaled n d (P - 1 - decimalLog n d)). split; [apply log_ok; auto|]. split; [apply scaled_nearest; auto|].
  unfold generalText. set (e := decimalLog n d). set (k := scaled n d (P - 1 - e)).
  assert (K : 0 <= k). { apply nearestInt_nonneg; [pose proof (ten_pos (P - 1 - e)); nia|pose proof (ten_pos (- (P - 1 - e))); nia]. }
  assert (X : forall k' e', 0 <= k' -> (units (P - 1 - e') k' == units (P - 1 - e) k)%Q ->
    decimalValue (minus s ++ if (-4 <=? e') && (e' <? P) then shortText (P - 1 - e') k' else shortText (P - 1) k' ++ exponentText e') ((if s then - (1) else 1) * units (P - 1 - e) k)).
  { intros k' e' K' E. destruct ((-4 <=? e') && (e' <? P)) eqn:B.
    - eapply decimal_ext; [|rewrite <- (app_nil_r (shortText (P - 1 - e') k')); apply (short_ok _ _ s [] 0); [lia|auto|left; auto]].
      rewrite E. change (tenTo 0) with 1%Q. ring.
    - eapply decimal_ext; [|apply (short_ok _ _ s (exponentText e') e'); [lia|auto|apply exponent_ok]]. rewrite units_shift, E. reflexivity. }
  destruct (Z.eqb_spec k (10 ^ P)) as [C|C]; apply X.
  - apply Z.pow_nonneg. lia.
  - rewrite C. replace (10 ^ P) with (10 ^ 1 * 10 ^ (P - 1)) by (rewrite <- Z.pow_add_r by lia; f_equal; lia). rewrite units_ten by lia. replace (P - 1 - e - 1) with (P - 1 - (e + 1)) by lia. reflexivity.
  - auto.
  - reflexivity.
Qed.
Lemma up_ratio : forall m e, (inject_Z m * two e * inject_Z (up (- e)) == inject_Z (m * up e))%Q.
Proof. intros m e. rewrite inject_Z_mult, (up_two e). ring. Qed.
Lemma show_general : forall P x, number x -> exists q, decimalValue (showGeneral P x) q /\ significant (Z.max P 1) (val x) q.
Proof.
  intros P x (OK & F). destruct x as [s|s| |s m e]; try discriminate; cbn [showGeneral].
  - exists 0%Q. split; [|left; split; reflexivity]. exists (minus s), [0], [], false, [], 0. destruct (sign_ok s) as (S1 & S2). split; auto.
    split; [repeat constructor; lia|]. split; auto. split; [left; auto|]. split; [left; discriminate|]. split; auto. split; [reflexivity|]. unfold signed. rewrite S2. destruct s; reflexivity.
  - destruct (general_ok (Z.max P 1) (Zpos m * up e) (up (- e)) s (inject_Z (Zpos m) * two e)) as (x & k & B & NU & DV).
    { lia. } { pose proof (up_pos e). lia. } { apply up_pos. } { apply up_ratio. }
    pose proof (tenTo_pos x) as TP.
    assert (AV : (Qabs (val (S754_finite s m e)) == inject_Z (Zpos m) * two e)%Q).
    { cbn [val]. rewrite Qabs_Qmult. rewrite (Qabs_pos (inject_Z (Zpos m) * two e)) by lra. clear. destruct s; [change (Qabs (- (1))) with 1%Q|change (Qabs 1) with 1%Q]; apply Qmult_1_l. }
    eexists. split; [exact DV|]. right. exists x, (if s then - k else k). rewrite AV. split; auto. destruct s; cbn [val].
    + split; [eapply nearest_units_ext; [|apply nearest_opp; exact NU]; ring|]. unfold units. rewrite inject_Z_opp. ring.
    + split; [eapply nearest_units_ext; [|exact NU]; ring|]. ring.
Qed.
