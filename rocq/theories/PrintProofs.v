From Verif Require Import Base Tac FloatModel FloatSpec RealSpec SeqModel PassModel InputSpec InputProofs OutProofs FloatProofs DecimalSpec DecimalModel DecimalProofs DecimalProofs2 PrintModel PrintSpec.
From Coq Require Import QArith Qabs ZArith Lia Lqa SpecFloat.
Open Scope Z_scope.

Lemma nearestInt_even : forall n d j, 0 < d -> j <> nearestInt n d ->
  Z.abs (nearestInt n d * d - n) = Z.abs (j * d - n) -> Z.even (nearestInt n d) = true.
Proof.
  intros n d j D N E. unfold nearestInt in *. pose proof (Z.div_mod n d ltac:(lia)) as M. pose proof (Z.mod_pos_bound n d D) as B.
  set (k := n / d) in *. set (r := n mod d) in *. 
  destruct (Z.compare_spec (2 * r) d) as [C|C|C].
  - destruct (Z.even k) eqn:Ev; auto. change (k + 1) with (Z.succ k). rewrite Z.even_succ, <- Z.negb_even, Ev. reflexivity.
  - exfalso. apply N. nia.
  - exfalso. apply N. nia.
Qed.

Lemma lastDigits_ok : forall p n acc, exists ds, lastDigits p n acc = InputSpec.showDigits ds ++ acc /\ Forall digit ds /\ length ds = p /\
  (0 <= n < 10 ^ Z.of_nat p -> value ds = n).
Proof.
  induction p as [|p IH]; intros n acc; cbn [lastDigits].
  - exists []. repeat split; auto. intro B. cbn in B. cbn. lia.
  - pose proof (Z.mod_pos_bound n 10 ltac:(lia)) as M. pose proof (Z.div_mod n 10 ltac:(lia)) as D.
    destruct (IH (n / 10) ((48 + n mod 10) :: acc)) as (ds & E & F & L & V). exists (ds ++ [n mod 10]). split; [|split; [|split]].
    + rewrite E. unfold InputSpec.showDigits. rewrite map_app, <- app_assoc. reflexivity.
    + apply Forall_app. split; auto. constructor; auto. unfold digit. lia.
    + rewrite app_length, L. cbn. lia.
    + intro B. unfold value in *. rewrite OutProofs.value_snoc, V; [lia|]. rewrite Nat2Z.inj_succ, Z.pow_succ_r in B by lia.
      split; [apply Z.div_pos; lia|]. apply Z.div_lt_upper_bound; lia.
Qed.
Lemma wholeDigits_ok : forall n, 0 <= n -> exists ds, wholeDigits n = InputSpec.showDigits ds /\ canonicalDigits ds /\ value ds = n.
Proof.
  intros n N. unfold wholeDigits. destruct (show_ok (S (Z.to_nat (Z.log2 n))) n []) as (ds & E & C & V & _).
  - split; auto. destruct (Z.eq_dec n 0) as [->|NZ]; [apply Z.pow_pos_nonneg; lia|].
    apply Z.lt_le_trans with (2 ^ Z.of_nat (S (Z.to_nat (Z.log2 n)))).
    + rewrite Nat2Z.inj_succ, Z2Nat.id by apply Z.log2_nonneg. apply Z.log2_spec. lia.
    + apply Z.pow_le_mono_l. lia.
  - lia.
  - exists ds. rewrite E, app_nil_r. auto.
Qed.
Lemma valueFrom_app : forall a b acc, valueFrom acc (a ++ b) = valueFrom (valueFrom acc a) b.
Proof. induction a as [|d a IH]; intros b acc; cbn [app valueFrom]; auto. Qed.
Lemma valueFrom_value : forall b acc, valueFrom acc b = acc * 10 ^ alen b + value b.
Proof.
  intro b. pattern b. apply rev_ind.
  - intro acc. cbn. lia.
  - intros d l IH acc. unfold value in *. rewrite !valueFrom_app. cbn [valueFrom]. rewrite IH. unfold alen. rewrite app_length. cbn [length]. unfold alen in *.
    rewrite Nat2Z.inj_add. rewrite Z.pow_add_r by lia. change (10 ^ Z.of_nat 1) with 10. lia.
Qed.
Lemma minus_sign : forall s, minus s = optMinus s.
Proof. reflexivity. Qed.
Lemma sign_ok : forall s, optSign (minus s) /\ negative (minus s) = s.
Proof. intros [|]; split; auto; unfold optSign; auto. Qed.
Lemma fixed_ok : forall p n s, 0 <= p -> 0 <= n -> strictReal (minus s ++ fixedText p n) p /\
  decimalValue (minus s ++ fixedText p n) (if s then - units p n else units p n)%Q.
Proof.
  intros p n s P N. unfold fixedText. pose proof (Z.pow_pos_nonneg 10 p ltac:(lia) P) as T.
  destruct (wholeDigits_ok (n / 10 ^ p)) as (ip & E & C & V); [apply Z.div_pos; lia|]. rewrite E.
  destruct (canonical_cons _ C) as (d & ip' & IP & _).
  assert (NE : ip <> []) by (rewrite IP; discriminate).
  destruct (sign_ok s) as (S1 & S2).
  destruct (Z.eqb_spec p 0) as [->|NP].
  - rewrite app_nil_r. rewrite Z.pow_0_r, Z.div_1_r in V. split.
    + exists s, ip. split; [apply C|]. split; [auto|]. left. split; reflexivity.
    + exists (minus s), ip, [], false, [], 0. split; auto. split; [apply C|]. split; [constructor|]. split; [left; auto|]. split; auto. split; auto.
      split; [cbn [app]; rewrite app_nil_r; reflexivity|]. unfold signed. rewrite S2, app_nil_r, V. unfold units. cbn [alen length]. change (0 - alen []) with (- 0). destruct s; reflexivity.
  - destruct (lastDigits_ok (Z.to_nat p) (n mod 10 ^ p) []) as (fp & E2 & F & L & V2). rewrite app_nil_r in E2. rewrite E2.
    rewrite Z2Nat.id in V2 by lia. specialize (V2 (Z.mod_pos_bound n _ T)).
    assert (LF : alen fp = p) by (unfold alen; lia).
    assert (VA : value (ip ++ fp) = n).
    { unfold value. rewrite valueFrom_app, valueFrom_value, LF. fold (value ip). rewrite V, V2. pose proof (Z.div_mod n (10 ^ p) ltac:(lia)). lia. }
    split.
    + exists s, ip. split; [apply C|]. split; [auto|]. right. exists fp. repeat (split; auto); apply C.
    + exists (minus s), ip, fp, true, [], 0. split; auto. split; [apply C|]. split; auto. split; [left; auto|]. split; auto. split; [discriminate|].
      split; [rewrite app_nil_r; reflexivity|]. unfold signed. rewrite S2, VA, LF. unfold units. destruct s; reflexivity.
Qed.

Lemma tenTo_pos : forall x, (0 < tenTo x)%Q.
Proof. 
  assert (P : forall z, (0 < inject_Z (10 ^ Z.max z 0))%Q). { intro z. change 0%Q with (inject_Z 0). rewrite <- Zlt_Qlt. apply Z.pow_pos_nonneg; lia. }
  intro x. rewrite tenTo_ratio. apply Qlt_shift_div_l; [apply P|]. rewrite Qmult_0_l. apply P. Qed.
Lemma tenTo_inv : forall p, 0 <= p -> (tenTo (- p) * inject_Z (10 ^ p) == 1)%Q.
Proof.
  intros p P. rewrite tenTo_ratio. rewrite Z.max_r, Z.max_l by lia. rewrite Z.pow_0_r, Z.opp_involutive. field.
  intro H. change 0%Q with (inject_Z 0) in H. rewrite inject_Z_injective in H. pose proof (Z.pow_pos_nonneg 10 p). lia.
Qed.
(* the error in multiples of 10^-p / d *)
Lemma units_diff : forall p m e k, 0 <= p ->
  (inject_Z (k * up (- e) - m * 10 ^ p * up e) == (units p k - inject_Z m * two e) * (inject_Z (10 ^ p) * inject_Z (up (- e))))%Q.
Proof.
  intros p m e k P. unfold Z.sub, units. rewrite inject_Z_plus, inject_Z_opp, !inject_Z_mult, (up_two e).
  pose proof (tenTo_inv p P) as T. set (a := tenTo (- p)) in *. set (b := inject_Z (10 ^ p)) in *. 
  transitivity (inject_Z k * (a * b) * inject_Z (up (- e)) - inject_Z m * two e * b * inject_Z (up (- e)))%Q; [rewrite T; ring|ring].
Qed.

(* the rounded value is nearest *)
Lemma scale_ok : forall p e, 0 <= p -> (0 < inject_Z (10 ^ p) * inject_Z (up (- e)))%Q.
Proof.
  intros p e P. rewrite <- inject_Z_mult. change 0%Q with (inject_Z 0). rewrite <- Zlt_Qlt. pose proof (up_pos (- e)). pose proof (Z.pow_pos_nonneg 10 p ltac:(lia) P). nia.
Qed.
Lemma units_abs : forall p m e k, 0 <= p ->
  (inject_Z (Z.abs (k * up (- e) - m * 10 ^ p * up e)) == Qabs (units p k - inject_Z m * two e) * (inject_Z (10 ^ p) * inject_Z (up (- e))))%Q.
Proof.
  intros p m e k P. rewrite <- (Qabs_pos (inject_Z (10 ^ p) * inject_Z (up (- e)))) at 1 by (apply Qlt_le_weak, scale_ok; auto).
  rewrite <- Qabs_Qmult, <- units_diff by auto. unfold Qabs, inject_Z. reflexivity.
Qed.
Lemma nearest_positive : forall p m e, 0 <= p -> nearestUnits p (inject_Z m * two e) (nearestInt (m * 10 ^ p * up e) (up (- e))).
Proof.
  intros p m e P j. pose proof (scale_ok p e P) as S. split.
  - apply (Qmult_lt_0_le_reg_r _ _ _ S). rewrite <- !units_abs by auto. rewrite <- Zle_Qle. apply nearestInt_best. apply up_pos.
  - intros N E. apply (nearestInt_even _ _ j); auto; [apply up_pos|]. 
    assert (X : (inject_Z (Z.abs (nearestInt (m * 10 ^ p * up e) (up (- e)) * up (- e) - m * 10 ^ p * up e)) == inject_Z (Z.abs (j * up (- e) - m * 10 ^ p * up e)))%Q) by (rewrite !units_abs by auto; rewrite E; reflexivity).
    rewrite inject_Z_injective in X. exact X.
Qed.
Lemma nearest_opp : forall p v k, nearestUnits p v k -> nearestUnits p (- v) (- k).
Proof.
  intros p v k H j. destruct (H (- j)) as (A & B).
  assert (X : forall i, (Qabs (units p (- i) - - v) == Qabs (units p i - v))%Q).
  { intro i. rewrite <- (Qabs_opp (units p i - v)). apply Qabs_wd. unfold units. rewrite inject_Z_opp. ring. }
  assert (Y : (Qabs (units p j - - v) == Qabs (units p (- j) - v))%Q) by (rewrite <- X, Z.opp_involutive; reflexivity).
  rewrite X, Y. split; auto. intros N E. rewrite Z.even_opp. apply B; auto. lia.
Qed.
Lemma nearest_units_ext : forall p v v' k, (v == v')%Q -> nearestUnits p v k -> nearestUnits p v' k.
Proof. intros p v v' k E H j. destruct (H j) as (A & B). split; [rewrite <- E; auto|]. intros N Q. apply B; auto. rewrite E. auto. Qed.
Lemma nearestInt_nonneg : forall n d, 0 <= n -> 0 < d -> 0 <= nearestInt n d.
Proof.
  intros n d N D. unfold nearestInt. assert (0 <= n / d) by (apply Z.div_pos; lia). destruct (2 * (n mod d) ?= d); try lia. destruct (Z.even (n / d)); lia.
Qed.
Lemma decimal_ext : forall t q q', (q == q')%Q -> decimalValue t q -> decimalValue t q'.
Proof.
  intros t q q' E (sg & ip & fp & dot & ex & x & H1 & H2 & H3 & H4 & H5 & H6 & H7 & H8). exists sg, ip, fp, dot, ex, x. repeat (split; auto). rewrite <- E. auto.
Qed.
Lemma show_fixed : forall p x, 0 <= p -> number x -> exists k,
  strictReal (showFixed p x) p /\ decimalValue (showFixed p x) (units p k) /\ nearestUnits p (val x) k.
Proof.
  intros p x P (OK & F). destruct x as [s|s| |s m e]; try discriminate; cbn [showFixed].
  - exists 0. destruct (fixed_ok p 0 s P ltac:(lia)) as (A & B). split; auto. split.
    + eapply decimal_ext; [|exact B]. unfold units. destruct s; ring.
    + apply (nearest_units_ext p (inject_Z 0 * two 0)); [cbn [val]; reflexivity|]. exact (nearest_positive p 0 0 P).
  - set (k := nearestInt (Zpos m * 10 ^ p * up e) (up (- e))).
    assert (K : 0 <= k). { apply nearestInt_nonneg; [|apply up_pos]. pose proof (up_pos e). pose proof (Z.pow_pos_nonneg 10 p ltac:(lia) P). nia. }
    pose proof (nearest_positive p (Zpos m) e P) as NP. fold k in NP.
    destruct (fixed_ok p k s P K) as (A & B). exists (if s then - k else k). split; auto. split.
    + eapply decimal_ext; [|exact B]. destruct s; [|reflexivity]. unfold units. rewrite inject_Z_opp. ring.
    + destruct s; cbn [val].
      * eapply nearest_units_ext; [|apply nearest_opp; exact NP]. ring.
      * eapply nearest_units_ext; [|exact NP]. ring.
Qed.
Lemma show_sign : forall p x, 0 <= p -> number x -> (hd 0 (showFixed p x) = 45 <-> match x with S754_zero s | S754_finite s _ _ => s = true | _ => False end).
Proof.
  intros p x P (OK & F).
  assert (G : forall s n, 0 <= n -> hd 0 (minus s ++ fixedText p n) = 45 <-> s = true).
  { intros [|] n N; [cbn; tauto|]. split; [|discriminate]. unfold fixedText. cbn [minus app]. pose proof (Z.pow_pos_nonneg 10 p ltac:(lia) P).
    destruct (wholeDigits_ok (n / 10 ^ p)) as (ip & E & C & V); [apply Z.div_pos; lia|]. rewrite E. destruct (canonical_cons _ C) as (d & ip' & -> & D). intro X. change (48 + d = 45) in X. unfold digit in D. lia. }
  destruct x as [s|s| |s m e]; try discriminate; cbn [showFixed]; apply G; [lia|].
  apply nearestInt_nonneg; [|apply up_pos]. pose proof (up_pos e). pose proof (Z.pow_pos_nonneg 10 p ltac:(lia) P). nia.
Qed.
