(* decimalReal reads decimals, and what follows from nearest. *)
From Verif Require Import Tac SeqModel FloatModel FloatSpec FloatProofs RealProofs2 InputSpec RealSpec FloatEqProofs DecimalSpec DecimalModel DecimalProofs.
From Coq Require Import QArith Qpower Qabs Qfield Lqa Lia ZArith SpecFloat.
Open Scope Z_scope.

Definition noDigit (r : list Z) : Prop := match r with c :: _ => isDigit c = false | [] => True end.
Lemma span_show : forall ds r, Forall digit ds -> noDigit r -> spanDigits (showDigits ds ++ r) = (ds, r).
Proof.
  intros ds r F N. induction F as [|d ds H F IH]; cbn [showDigits map app].
  - destruct r as [|c r]; [reflexivity|]. cbn [spanDigits]. cbn in N. rewrite N. reflexivity.
  - cbn [spanDigits]. fold (showDigits ds). rewrite IH. replace (isDigit (48 + d)) with true by (unfold isDigit; unfold digit in H; lia). f_equal. f_equal. lia.
Qed.
Definition noSign (r : list Z) : Prop := match r with c :: _ => c <> 45 /\ c <> 43 | [] => True end.
Lemma sign_show : forall sg r, optSign sg -> noSign r -> takeSign (sg ++ r) = (negative sg, r).
Proof.
  intros sg r [->|[->| ->]] N; try reflexivity. cbn [app negative]. destruct r as [|c r]; [reflexivity|]. destruct N as (A & B). cbn [takeSign]. replace (c =? 45) with false by lia. replace (c =? 43) with false by lia. reflexivity.
Qed.
Lemma show_noSign : forall ds r, Forall digit ds -> noSign r -> noSign (showDigits ds ++ r).
Proof. intros [|d ds] r F N; auto. inversion F; subst. unfold digit in *. change (48 + d <> 45 /\ 48 + d <> 43). lia. Qed.
Lemma exponent_show : forall ex x, exponentIs ex x -> parseExponent ex = Some x /\ noDigit ex /\ noSign ex /\ match ex with c :: _ => c <> 46 | [] => True end.
Proof.
  intros ex x [(-> & ->)|(e & sg & ds & E & S & F & NE & -> & ->)]; [repeat split|]. split; [|split; [|split]]; [|destruct E; subst; reflexivity|destruct E; subst; cbn; lia|destruct E; lia].
  unfold parseExponent. replace ((e =? 101) || (e =? 69)) with true by lia. rewrite <- (app_nil_r (showDigits ds)).
  rewrite sign_show; auto; [|apply show_noSign; auto; exact I]. rewrite span_show by (auto; exact I). destruct ds as [|d ds]; [congruence|]. reflexivity.
Qed.
Lemma parse_show : forall t q, decimalValue t q -> exists neg m x, parseDecimal t = Some (neg, m, x) /\ 0 <= m /\ (q == (if neg then - (1) else 1) * (inject_Z m * tenTo x))%Q.
Proof.
  intros t q (sg & ip & fp & dot & ex & x & S & I & F & E & NE & D & -> & Q). destruct (exponent_show ex x E) as (PE & ND & NS & NDot).
  exists (negative sg), (value (ip ++ fp)), (x - alen fp). split; [|split].
  - unfold parseDecimal. rewrite sign_show; auto.
    + destruct dot.
      * cbn [app]. rewrite span_show; auto; [|reflexivity]. rewrite Z.eqb_refl. rewrite span_show by auto. rewrite PE. destruct (ip ++ fp) eqn:A; [|reflexivity]. apply app_eq_nil in A. tauto.
      * rewrite (D eq_refl) in *. cbn [app showDigits map]. rewrite span_show by auto. rewrite app_nil_r in *.
        replace (match ex with [] => ([], []) | c :: t' => if c =? 46 then spanDigits t' else ([], ex) end) with (@nil Z, ex) by (destruct ex as [|c ex']; auto; replace (c =? 46) with false by lia; auto).
        rewrite app_nil_r, PE. destruct ip; [tauto|]. reflexivity.
    + apply show_noSign; auto. destruct dot; cbn [app]; [cbn; lia|]. apply show_noSign; auto.
  - assert (V : forall ds a, Forall digit ds -> 0 <= a -> 0 <= valueFrom a ds) by (induction ds as [|d ds IH]; intros a FD A; cbn [valueFrom]; auto; inversion FD; subst; apply IH; auto; unfold digit in *; lia).
    apply V; [|lia]. apply Forall_app. auto.
  - rewrite Q. unfold signed. destruct (negative sg); ring.
Qed.
Lemma tenTo_ratio : forall x, (tenTo x == inject_Z (10 ^ Z.max x 0) / inject_Z (10 ^ Z.max (- x) 0))%Q.
Proof.
  intro x. unfold tenTo. destruct (Z_le_dec 0 x) as [H|H].
  - replace (Z.max x 0) with x by lia. replace (Z.max (- x) 0) with 0 by lia. rewrite Zpower_Qpower by lia. change (inject_Z (10 ^ 0)) with 1%Q. field.
  - replace (Z.max x 0) with 0 by lia. replace (Z.max (- x) 0) with (- x) by lia. change (inject_Z (10 ^ 0)) with 1%Q. replace x with (- - x) at 1 by lia. rewrite Qpower_opp. unfold Qdiv. rewrite Qmult_1_l, Zpower_Qpower by lia. reflexivity.
Qed.
Lemma nearest_ext : forall q q' v, (q == q')%Q -> nearest q v -> nearest q' v.
Proof. intros q q' v H (N & A). split; auto. intros w W. rewrite <- H. apply A. auto. Qed.
Lemma nearest_zero : forall neg, nearest 0 (S754_zero neg).
Proof. intro neg. split; [split; reflexivity|]. intros w W. cbn [val]. change (Qabs (0 - 0)) with 0%Q. apply Qabs_nonneg. Qed.
Lemma decimalReal_fromChars : fromChars decimalReal.
Proof.
  intros t q V. destruct (parse_show t q V) as (neg & m & x & P & M & Q). unfold decimalReal. rewrite P. destruct (Z.eqb_spec m 0) as [->|M0].
  - split; [|eauto]. intros v H. inversion H; subst. apply (nearest_ext 0); [|apply nearest_zero]. rewrite Q. change (inject_Z 0) with 0%Q. ring.
  - set (n := m * 10 ^ Z.max x 0). set (d := 10 ^ Z.max (- x) 0). assert (N : 0 < n) by (unfold n; pose proof (Z.pow_pos_nonneg 10 (Z.max x 0)); nia). assert (D : 0 < d) by (apply Z.pow_pos_nonneg; lia).
    assert (R : (q == if neg then - ratio n d else ratio n d)%Q).
    { rewrite Q, tenTo_ratio. unfold ratio, n. rewrite inject_Z_mult. fold d. pose proof (dpos d D). destruct neg; field; lra. }
    split.
    + intros v H. assert (X : v = toReal neg n d /\ isfinite v = true) by (destruct (toReal neg n d); try discriminate; inversion H; subst; auto). destruct X as (-> & F).
      apply (nearest_ext (if neg then - ratio n d else ratio n d)); [symmetry; auto|]. apply toReal_nearest; auto.
    + intros RG. assert (X : exists s p e, toReal neg n d = S754_finite s p e); [|destruct X as (s & p & e & ->); eauto].
      pose proof (ratio_pos n d N D) as RP. apply toReal_in_range; auto. destruct RG as [Z|Z].
      * exfalso. rewrite R in Z. destruct neg; lra.
      * rewrite R in Z. destruct neg; [rewrite Qabs_opp in Z|]; rewrite Qabs_pos in Z by lra; auto.
Qed.

(* ---- the value of a decimal ---- *)
Lemma value_unique : forall t q q', decimalValue t q -> decimalValue t q' -> (q == q')%Q.
Proof.
  intros t q q' V V'. destruct (parse_show t q V) as (neg & m & x & P & _ & Q). destruct (parse_show t q' V') as (neg' & m' & x' & P' & _ & Q'). rewrite P in P'. inversion P'; subst. rewrite Q, Q'. reflexivity.
Qed.
Lemma exponent_iff : forall ex, exponentPart ex <-> exists x, exponentIs ex x.
Proof.
  intro ex. split.
  - intros [->|(e & sg & ds & H)]; [exists 0; left; auto|]. eexists. right. exists e, sg, ds. repeat split; try apply H.
  - intros (x & [(-> & _)|(e & sg & ds & H)]); [left; auto|]. right. exists e, sg, ds. tauto.
Qed.
Lemma token_value : forall t, realToken t <-> exists q, decimalValue t q.
Proof.
  intro t. split.
  - intros (sg & ip & fp & dot & ex & S & I & F & E & H). apply exponent_iff in E as (x & E). eexists. exists sg, ip, fp, dot, ex, x. do 3 (split; auto). split; [exact E|]. do 2 (split; [apply H|]). split; [apply H|reflexivity].
  - intros (q & sg & ip & fp & dot & ex & x & S & I & F & E & H). exists sg, ip, fp, dot, ex. do 3 (split; auto). split; [apply exponent_iff; eauto|]. tauto.
Qed.
Lemma strict_value : forall t k, strictReal t k -> exists q, decimalValue t q.
Proof.
  intros t k (neg & ip & I & NE & H). assert (S : optSign (optMinus neg)) by (destruct neg; [right; right|left]; reflexivity). destruct H as [(-> & _)|(fp & _ & F & -> & _)].
  - eexists. exists (optMinus neg), ip, [], false, [], 0. do 3 (split; auto). split; [left; auto|]. split; auto. split; auto. split; [cbn [showDigits map app]; rewrite app_nil_r; auto|reflexivity].
  - eexists. exists (optMinus neg), ip, fp, true, [], 0. do 3 (split; auto). split; [left; auto|]. split; auto. split; [discriminate|]. split; [cbn [app]; rewrite app_nil_r; auto|reflexivity].
Qed.
Lemma lower_digits : forall ds, Forall digit ds -> map lowerCase (showDigits ds) = showDigits ds.
Proof. intros ds F. unfold showDigits. rewrite map_map. apply map_ext_in. intros d I. rewrite Forall_forall in F. specialize (F d I). unfold digit, lowerCase in *. replace (65 <=? 48 + d) with false by lia. reflexivity. Qed.
Lemma lower_sign : forall sg, optSign sg -> map lowerCase sg = sg.
Proof. intros sg [->|[->| ->]]; reflexivity. Qed.
(* the case of the e does not matter *)
Lemma lower_value : forall t q, decimalValue t q -> decimalValue (map lowerCase t) q.
Proof.
  intros t q (sg & ip & fp & dot & ex & x & S & I & F & E & NE & D & -> & Q). exists sg, ip, fp, dot, (map lowerCase ex), x. do 3 (split; auto). split; [|split; [auto|split; [auto|split; auto]]].
  - destruct E as [(-> & ->)|(e & sg' & ds & E & S' & F' & N' & -> & ->)]; [left; auto|right]. exists 101, sg', ds. split; auto. do 3 (split; auto). split; auto.
    cbn [map]. rewrite map_app, lower_sign, lower_digits by auto. f_equal. destruct E as [->| ->]; reflexivity.
  - rewrite !map_app, lower_sign, !lower_digits by auto. destruct dot; reflexivity.
Qed.
Lemma folded_value : forall cs t q, decimalValue t q -> decimalValue (folded cs t) q.
Proof. intros [] t q V; [auto|apply lower_value; auto]. Qed.

(* ---- the nearest number ---- *)
Lemma nearest_above : forall q v w, nearest q v -> number w -> (val w <= q)%Q -> (val w <= val v)%Q.
Proof. intros q v w (N & A) W L. specialize (A w W). apply Qnot_lt_le. intro K. rewrite !Qabs_neg in A by lra. lra. Qed.
Lemma nearest_below : forall q v w, nearest q v -> number w -> (q <= val w)%Q -> (val v <= val w)%Q.
Proof. intros q v w (N & A) W L. specialize (A w W). apply Qnot_lt_le. intro K. rewrite !Qabs_pos in A by lra. lra. Qed.
Lemma nearest_mono : forall q v q' v', nearest q v -> nearest q' v' -> (q < q')%Q -> (val v <= val v')%Q.
Proof.
  intros q v q' v' (N & A) (N' & A') L. specialize (A v' N'). specialize (A' v N). apply Qnot_lt_le. intro K.
  destruct (abs_cases (val v' - q)) as [(B1 & E1)|(B1 & E1)], (abs_cases (val v - q)) as [(B2 & E2)|(B2 & E2)], (abs_cases (val v - q')) as [(B3 & E3)|(B3 & E3)], (abs_cases (val v' - q')) as [(B4 & E4)|(B4 & E4)];
    rewrite E1, E2 in A; rewrite E3, E4 in A'; lra.
Qed.
Lemma nearest_number : forall w v, number w -> nearest (val w) v -> (val v == val w)%Q.
Proof. intros w v W H. pose proof (nearest_above _ _ w H W (Qle_refl _)). pose proof (nearest_below _ _ w H W (Qle_refl _)). lra. Qed.
Lemma nearest_error : forall q v, nearest q v -> (Qabs q <= val largest)%Q -> (Qabs (val v - q) <= slack q)%Q.
Proof.
  intros q v (N & A) L. unfold slack. pose proof (two_pos (-64)). pose proof (two_pos (-16446)). destruct (Qeq_dec q 0) as [Z|Z].
  - specialize (A (S754_zero false) ltac:(split; reflexivity)). cbn [val] in A. rewrite Z in A |- *. change (Qabs (0 - 0)) with 0%Q in A. change (Qabs 0) with 0%Q. generalize dependent (two (-16446)). intros. lra.
  - set (neg := if Qlt_le_dec q 0 then true else false). set (n := Z.abs (Qnum q)). set (d := Zpos (Qden q)).
    assert (N0 : 0 < n). { unfold n. enough (Qnum q <> 0) by lia. intro K. apply Z. unfold Qeq. rewrite K. reflexivity. }
    assert (D0 : 0 < d) by reflexivity.
    assert (R : (ratio n d == Qabs q)%Q). { unfold ratio, n, d. destruct q as [a b]. cbn [Qnum Qden Qabs]. unfold Qeq, Qdiv, Qmult, Qinv, inject_Z. cbn. ring. }
    assert (RG : (Qabs q == if neg then - q else q)%Q) by (unfold neg; destruct (Qlt_le_dec q 0); [apply Qabs_neg|apply Qabs_pos]; lra).
    pose proof (mant_error n d N0 D0) as ME. rewrite R in ME. pose proof (toReal_valid n d neg) as OK.
    assert (F : isfinite (toReal neg n d) = true).
    { pose proof (mant_range n d N0 D0) as MR. assert (B : (inject_Z (mant n d) * two (expo n d) < two emax)%Q).
      { pose proof (core n d N0 D0 (2 ^ 64 - 1) 16320 ltac:(change prec with 64; lia) ltac:(rewrite lowest_val; lia)) as C. pose proof (below_emax (2 ^ 64 - 1) 16320 ltac:(change prec with 64; lia) ltac:(change prec with 64; change emax with 16384; lia)) as BE.
        rewrite largest_form in L. rewrite R in C. set (b := (inject_Z (2 ^ 64 - 1) * two 16320)%Q) in *. set (k := (inject_Z (mant n d) * two (expo n d))%Q) in *. clearbody b k. apply Qnot_le_lt. intro K. rewrite (Qabs_pos (k - _)), (Qabs_pos (b - _)) in C by lra. lra. }
      unfold toReal. cbv zeta. fold (expo n d). fold (mant n d). destruct (mant n d) as [|p|p] eqn:EM; [reflexivity| |lia].
      destruct (round_exact prec emax P64 E64 neg p (expo n d) (Zpos p) (expo n d)) as (_ & p' & e' & X & _); [change prec with 64; lia|rewrite lowest_val; unfold expo; lia|auto|reflexivity|]. rewrite X. reflexivity. }
    assert (NV : number (toReal neg n d)) by (split; auto). specialize (A _ NV). eapply Qle_trans; [exact A|]. rewrite (toReal_value n d N0 D0 neg NV).
    eapply Qle_trans; [|exact ME]. unfold neg in *. destruct (Qlt_le_dec q 0) as [S|S].
    + setoid_replace (- (1) * (inject_Z (mant n d) * two (expo n d)) - q)%Q with (- (inject_Z (mant n d) * two (expo n d) - Qabs q))%Q by (rewrite RG; ring). rewrite Qabs_opp. apply Qle_refl.
    + rewrite RG, Qmult_1_l. apply Qle_refl.
Qed.
