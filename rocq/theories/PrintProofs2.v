From Verif Require Import Base Tac FloatModel FloatSpec RealSpec SeqModel PassModel InputSpec InputModel InputProofs InputProofs2 InputProofs3 OutModel OutProofs FloatProofs FloatEqProofs InitModel DecimalSpec DecimalModel DecimalProofs DecimalProofs2 DecimalProofs3 PrintModel PrintSpec PrintProofs.
From Coq Require Import QArith Qabs ZArith Lia Lqa SpecFloat.
Open Scope Z_scope.

Lemma units_step : forall p k j, (units p (k + j) == units p k + inject_Z j * tenTo (- p))%Q.
Proof. intros. unfold units. rewrite inject_Z_plus. ring. Qed.
Lemma nearest_half : forall p v k, nearestUnits p v k -> (Qabs (units p k - v) <= (1 # 2) * tenTo (- p))%Q.
Proof.
  intros p v k H. pose proof (tenTo_pos (- p)) as T. destruct (H (k + 1)) as (A & _). destruct (H (k + -1)) as (B & _).
  rewrite units_step in A, B. set (t := tenTo (- p)) in *. set (u := units p k) in *. change (inject_Z 1) with 1%Q in A. change (inject_Z (-1)) with (-1)%Q in B.
  destruct (abs_cases (u - v)) as [(X & E)|(X & E)]; rewrite E in A, B |- *.
  - destruct (abs_cases (u + -1 * t - v)) as [(Y & F)|(Y & F)]; rewrite F in B; lra.
  - destruct (abs_cases (u + 1 * t - v)) as [(Y & F)|(Y & F)]; rewrite F in A; lra.
Qed.
Lemma units_whole : forall p z, 0 <= p -> (units p (z * 10 ^ p) == inject_Z z)%Q.
Proof. intros p z P. unfold units. rewrite inject_Z_mult. pose proof (tenTo_inv p P). rewrite <- Qmult_assoc, (Qmult_comm (inject_Z (10 ^ p))), H. ring. Qed.
(* rounding to units keeps bounds that are multiples of the unit *)
Lemma units_below : forall p v k b, nearestUnits p v k -> (v <= units p b)%Q -> (units p k <= units p b)%Q.
Proof.
  intros p v k b H L. destruct (H b) as (A & _). destruct (Qlt_le_dec (units p b) (units p k)) as [C|C]; auto.
  rewrite (Qabs_pos (units p b - v)) in A by lra. rewrite (Qabs_pos (units p k - v)) in A by lra. lra.
Qed.
Lemma units_above : forall p v k b, nearestUnits p v k -> (units p b <= v)%Q -> (units p b <= units p k)%Q.
Proof.
  intros p v k b H L. destruct (H b) as (A & _). destruct (Qlt_le_dec (units p k) (units p b)) as [C|C]; auto.
  rewrite (Qabs_neg (units p b - v)) in A by lra. rewrite (Qabs_neg (units p k - v)) in A by lra. lra.
Qed.
Lemma units_mono : forall p v w k j, nearestUnits p v k -> nearestUnits p w j -> (v <= w)%Q -> (units p k <= units p j)%Q.
Proof.
  intros p v w k j H G L. destruct (Qlt_le_dec (units p j) (units p k)) as [C|C]; auto. exfalso.
  destruct (H j) as (A & A'). destruct (G k) as (B & B').
  assert (KJ : k <> j) by (intro; subst; lra).
  assert (E1 : (Qabs (units p k - v) == Qabs (units p j - v))%Q /\ (Qabs (units p j - w) == Qabs (units p k - w))%Q).
  { destruct (abs_cases (units p k - v)) as [(X1 & Y1)|(X1 & Y1)], (abs_cases (units p j - v)) as [(X2 & Y2)|(X2 & Y2)], (abs_cases (units p k - w)) as [(X3 & Y3)|(X3 & Y3)], (abs_cases (units p j - w)) as [(X4 & Y4)|(X4 & Y4)]; rewrite Y1, Y2, Y3, Y4 in *; lra. }
  destruct E1 as (E1 & E2). specialize (A' (not_eq_sym KJ) E1). specialize (B' KJ E2).
  (* both even and equally near, so the one between is nearer *)
  assert (D : j + 2 <= k).
  { assert (j < k). { pose proof (tenTo_pos (- p)) as T. unfold units in C. apply Qmult_lt_r in C; auto. rewrite <- Zlt_Qlt in C. auto. }
    destruct (Z.eq_dec k (j + 1)); [|lia]. subst k. replace (j + 1) with (Z.succ j) in A' by lia. rewrite Z.even_succ, <- Z.negb_even, B' in A'. discriminate. }
  destruct (H (k + -1)) as (M & _). rewrite units_step in M. pose proof (tenTo_pos (- p)) as T. change (inject_Z (-1)) with (-1)%Q in M.
  assert (U : (units p j + 2 * tenTo (- p) <= units p k)%Q).
  { unfold units. rewrite <- Qmult_plus_distr_l. apply Qmult_le_compat_r; [|lra]. change 2%Q with (inject_Z 2). rewrite <- inject_Z_plus, <- Zle_Qle. auto. }
  set (t := tenTo (- p)) in *.
  destruct (abs_cases (units p k - v)) as [(X1 & Y1)|(X1 & Y1)], (abs_cases (units p j - v)) as [(X2 & Y2)|(X2 & Y2)], (abs_cases (units p k + -1 * t - v)) as [(X3 & Y3)|(X3 & Y3)]; rewrite Y1, Y2 in E1; rewrite Y1, Y3 in M; lra.
Qed.

Lemma largest_whole : exists L, (val largest == inject_Z L)%Q.
Proof. exists ((2 ^ 64 - 1) * 2 ^ 16320). rewrite largest_form, inject_Z_mult. rewrite two_Z by lia. reflexivity. Qed.
Lemma number_le : forall x, number x -> (Qabs (val x) <= val largest)%Q.
Proof.
  intros x N. destruct (number_form x N) as (m & f & M & F & _ & V & _). rewrite V, largest_form.
  change prec with 64 in *. change emax with 16384 in *. apply Qle_trans with (inject_Z (2 ^ 64 - 1) * two f)%Q.
  - apply Qmult_le_compat_r; [|apply Qlt_le_weak, two_pos]. rewrite <- Zle_Qle. lia.
  - rewrite !(Qmult_comm (inject_Z _)). apply Qmult_le_compat_r; [apply two_le; lia|]. change 0%Q with (inject_Z 0). rewrite <- Zle_Qle. lia.
Qed.
Lemma unit_smallest : forall p, 0 <= p <= 4000 -> (val smallest <= tenTo (- p))%Q.
Proof.
  intros p P. rewrite smallest_form. apply Qle_trans with (two (- (4 * p))); [apply two_le; lia|].
  pose proof (tenTo_inv p ltac:(lia)) as T. assert (W : (two (- (4 * p)) * inject_Z (2 ^ (4 * p)) == 1)%Q).
  { rewrite <- two_Z by lia. rewrite <- two_plus. replace (- (4 * p) + 4 * p) with 0 by lia. reflexivity. }
  assert (L : (inject_Z (10 ^ p) <= inject_Z (2 ^ (4 * p)))%Q). { rewrite <- Zle_Qle. rewrite Z.pow_mul_r by lia. apply Z.pow_le_mono_l. lia. }
  assert (X : (0 < inject_Z (10 ^ p))%Q). { change 0%Q with (inject_Z 0). rewrite <- Zlt_Qlt. apply Z.pow_pos_nonneg; lia. }
  apply (Qmult_lt_0_le_reg_r _ _ _ X). rewrite T, <- W. rewrite !(Qmult_comm (two _)). apply Qmult_le_compat_r; auto. apply Qlt_le_weak, two_pos.
Qed.
Lemma units_range : forall p v k, 0 <= p <= 4000 -> (Qabs v <= val largest)%Q -> nearestUnits p v k -> inRange (units p k) /\ (Qabs (units p k) <= val largest)%Q.
Proof.
  intros p v k P L N. destruct largest_whole as (G & E). apply Qabs_Qle_condition in L as (L1 & L2). rewrite E in *.
  assert (U : (Qabs (units p k) <= inject_Z G)%Q).
  { apply Qabs_Qle_condition. split.
    - rewrite <- inject_Z_opp, <- (units_whole p) by lia. eapply units_above; eauto. rewrite units_whole by lia. rewrite inject_Z_opp. auto.
    - rewrite <- (units_whole p) by lia. eapply units_below; eauto. rewrite units_whole by lia. auto. }
  split; auto. destruct (Z.eq_dec k 0) as [->|NZ]; [left; unfold units; ring|]. right. split; [|rewrite E; auto].
  eapply Qle_trans; [apply (unit_smallest p P)|]. unfold units. rewrite Qabs_Qmult. rewrite (Qabs_pos (tenTo (- p))) by apply Qlt_le_weak, tenTo_pos.
  rewrite <- (Qmult_1_l (tenTo (- p))) at 1. apply Qmult_le_compat_r; [|apply Qlt_le_weak, tenTo_pos]. change (Qabs (inject_Z k)) with (inject_Z (Z.abs k)). change 1%Q with (inject_Z 1). rewrite <- Zle_Qle. lia.
Qed.
Lemma read_back : forall st parse p x s rest, fromChars parse -> 0 <= p <= 4000 -> number x -> nextToken (spaceSensitive st) s (showFixed p x) rest ->
  exists v k, readReal st parse s = Ret v rest /\ nearestUnits p (val x) k /\ nearest (units p k) v /\ (Qabs (val v - val x) <= tenTo (- p))%Q /\
    (Qabs (val v - val x) <= (1 # 2) * tenTo (- p) + slack (units p k))%Q.
Proof.
  intros st parse p x s rest FC P NX NT. destruct (show_fixed p x ltac:(lia) NX) as (k & _ & V & NU). destruct (units_range p (val x) k P (number_le x NX) NU) as (R & L).
  destruct (read_decimal st parse s _ rest _ FC NT V R) as (v & E & NV). exists v, k. split; auto. split; auto. split; auto.
  pose proof (nearest_half _ _ _ NU) as H. pose proof (nearest_error _ _ NV L) as SL. pose proof (proj2 NV x NX) as B.
  generalize dependent (slack (units p k)). intros sl SL. rewrite <- (Qabs_opp (units p k - val x)) in H. setoid_replace (- (units p k - val x))%Q with (val x - units p k)%Q in H by ring.
  apply Qabs_Qle_condition in H. apply Qabs_Qle_condition in SL.
  assert (B' : (Qabs (val v - units p k) <= (1 # 2) * tenTo (- p))%Q). { eapply Qle_trans; [exact B|]. apply Qabs_Qle_condition. auto. }
  apply Qabs_Qle_condition in B'. split; [apply Qabs_Qle_condition; split; lra|]. apply Qabs_Qle_condition. split; lra.
Qed.

Lemma eps_number : number DEFAULT_EPS.
Proof. split; reflexivity. Qed.
Lemma eps_good : goodTol DEFAULT_EPS.
Proof. reflexivity. Qed.
Lemma close_equal : forall v b, number v -> number b ->
  (Qabs (val v - val b) <= 7 # 10000000)%Q \/ (Qabs (val v - val b) <= 1 # 1000000)%Q /\ (2 <= Qabs (val b))%Q ->
  floatEqual v b DEFAULT_EPS DEFAULT_EPS = Ok true.
Proof.
  intros v b NV NB [H|(H & B)].
  - apply floatEqual_abs; auto using eps_number, eps_good. eapply Qle_trans; [exact H|]. vm_compute. discriminate.
  - apply floatEqual_rel; auto using eps_number, eps_good.
    + destruct (number_form b NB) as (m & f & M & F & _ & V & _). pose proof (below_emax m f M ltac:(lia)) as L. rewrite <- V in L.
      assert (E : (0 <= val DEFAULT_EPS <= 1)%Q) by (split; vm_compute; discriminate). pose proof (Qabs_nonneg (val b)). eapply Qle_lt_trans; [|exact L].
      rewrite <- (Qmult_1_l (Qabs (val b))) at 2. apply Qmult_le_compat_r; [apply E|auto].
    + eapply Qle_trans; [exact H|]. apply Qle_trans with ((1 - two (-63)) * (val DEFAULT_EPS * 2))%Q; [vm_compute; discriminate|].
      rewrite !(Qmult_comm (1 - two (-63))). apply Qmult_le_compat_r; [|vm_compute; discriminate]. rewrite !(Qmult_comm (val DEFAULT_EPS)). apply Qmult_le_compat_r; [auto|vm_compute; discriminate].
Qed.
(* near enough to x, and between x and what was read *)
Lemma between_equal : forall x v k b, number v -> number b -> nearestUnits 6 (val x) k ->
  (Qabs (val v - val x) <= tenTo (- 6))%Q -> (Qabs (val v - val x) <= (1 # 2) * tenTo (- 6) + slack (units 6 k))%Q ->
  (val v <= val b <= val x \/ val x <= val b <= val v)%Q -> floatEqual v b DEFAULT_EPS DEFAULT_EPS = Ok true.
Proof.
  intros x v k b NV NB NU D1 D2 B. apply close_equal; auto. assert (T6 : (tenTo (- 6) == 1 # 1000000)%Q) by reflexivity. rewrite T6 in D1, D2.
  assert (C : (Qabs (val v - val b) <= Qabs (val v - val x))%Q).
  { destruct (abs_cases (val v - val b)) as [(X & E)|(X & E)], (abs_cases (val v - val x)) as [(Y & F)|(Y & F)]; rewrite E, F; lra. }
  destruct (Qlt_le_dec (Qabs (val x)) 4) as [L|L].
  - left. eapply Qle_trans; [exact C|]. eapply Qle_trans; [exact D2|]. unfold slack. pose proof (nearest_half _ _ _ NU) as H. change (tenTo (Z.opp 6)) with (tenTo (-6)) in H. rewrite T6 in H.
    assert (U : (Qabs (units 6 k) <= 5)%Q).
    { destruct (abs_cases (units 6 k)) as [(X & E)|(X & E)], (abs_cases (val x)) as [(Y & F)|(Y & F)], (abs_cases (units 6 k - val x)) as [(Z & G)|(Z & G)]; rewrite E; rewrite F in L; rewrite G in H; lra. }
    assert (S1 : (two (-64) * Qabs (units 6 k) <= two (-64) * 5)%Q). { rewrite !(Qmult_comm (two _)). apply Qmult_le_compat_r; auto. apply Qlt_le_weak, two_pos. }
    assert (S2 : (two (-16446) <= two (-64))%Q) by (apply two_le; lia).
    assert (S3 : ((1 # 2) * (1 # 1000000) + (two (-64) * 5 + two (-64)) <= 7 # 10000000)%Q) by (vm_compute; discriminate).
    generalize dependent (two (-16446)). intros w W. lra.
  - right. split; [lra|]. destruct (abs_cases (val b)) as [(X & E)|(X & E)], (abs_cases (val x)) as [(Y & F)|(Y & F)], (abs_cases (val v - val x)) as [(Z & G)|(Z & G)]; rewrite E; rewrite F in L; rewrite G in D1; lra.
Qed.
Lemma read_equal : forall st parse x s rest, fromChars parse -> number x -> nextToken (spaceSensitive st) s (putReal x) rest ->
  exists v, readReal st parse s = Ret v rest /\ number v /\ (Qabs (val v - val x) <= 1 # 1000000)%Q /\ floatEqual v x DEFAULT_EPS DEFAULT_EPS = Ok true.
Proof.
  intros st parse x s rest FC NX NT. destruct (read_back st parse 6 x s rest FC ltac:(lia) NX NT) as (v & k & R & NU & NV & D1 & D2).
  exists v. split; auto. split; [apply NV|]. split; [exact D1|]. destruct (Qlt_le_dec (val x) (val v)); eapply between_equal; eauto; try apply NV; lra.
Qed.
Lemma realIn_back : forall st parse lower upper x s rest, fromChars parse -> number lower -> number upper -> number x ->
  SFleb DEFAULT_EPS (floatAbsTol st) = true -> SFleb DEFAULT_EPS (floatRelTol st) = true ->
  (val lower <= val x <= val upper)%Q -> nextToken (spaceSensitive st) s (putReal x) rest ->
  exists v, realIn st parse lower upper s = Ret v rest /\ number v /\ (Qabs (val v - val x) <= 1 # 1000000)%Q.
Proof.
  intros st parse lower upper x s rest FC NL NU NX TA TR B NT. destruct (read_back st parse 6 x s rest FC ltac:(lia) NX NT) as (v & k & R & NK & NV & D1 & D2).
  exists v. assert (NN : number v) by apply NV. split; [|split; [auto|exact D1]].
  assert (GA : goodTol (floatAbsTol st)) by (eapply SFleb_trans; [apply eps_good|auto]).
  assert (GR : goodTol (floatRelTol st)) by (eapply SFleb_trans; [apply eps_good|auto]).
  unfold realIn, rbind. rewrite R. unfold rlift.
  destruct (floatEqual_total v lower _ _ GA GR) as (b1 & E1). destruct (floatEqual_total v upper _ _ GA GR) as (b2 & E2). rewrite E1. destruct b1; [reflexivity|]. rewrite E2. destruct b2; [reflexivity|].
  assert (L : SFleb lower v = true).
  { apply leb_num; auto. apply Qnot_lt_le. intro H. assert (floatEqual v lower (floatAbsTol st) (floatRelTol st) = Ok true); [|congruence].
    eapply floatEqual_mono; [exact TA|exact TR|]. eapply between_equal; eauto. left. lra. }
  assert (U : SFltb v upper = true).
  { apply ltb_num; auto. apply Qnot_le_lt. intro H. assert (floatEqual v upper (floatAbsTol st) (floatRelTol st) = Ok true); [|congruence].
    eapply floatEqual_mono; [exact TA|exact TR|]. eapply between_equal; eauto. right. lra. }
  rewrite L, U. destruct v; try (destruct NN; discriminate); reflexivity.
Qed.
