(* Reading decimals and comparing them. *)
From Verif Require Import Tac SeqModel FloatModel FloatSpec FloatProofs RealProofs2 InputSpec InputModel InputClient InputProofs InputProofs2 InputProofs3 RealSpec FloatEqProofs DecimalSpec DecimalModel DecimalProofs DecimalProofs2.
From Coq Require Import QArith Qabs Qfield Lqa Lia ZArith SpecFloat.
Open Scope Z_scope.

(* ---- tokens in upper case ---- *)
Definition noLetter (c : Z) : Prop := ~ 97 <= c <= 122.
Lemma lower_back : forall l t, Forall noLetter l -> map lowerCase t = l -> t = l.
Proof.
  intros l t F. revert t. induction F as [|c l H F IH]; intros [|x t] E; try discriminate; auto. cbn [map] in E. inversion E as [[E1 E2]]. rewrite E2, E1. rewrite (IH t E2) in *. f_equal. clear - H E1.
  unfold noLetter, lowerCase in *. destruct ((65 <=? x) && (x <=? 90)) eqn:L; lia.
Qed.
Lemma digits_noLetter : forall ds, Forall digit ds -> Forall noLetter (showDigits ds).
Proof. intros ds F. unfold showDigits. apply Forall_map. eapply Forall_impl; [|exact F]. unfold digit, noLetter. intros. lia. Qed.
Lemma sign_noLetter : forall sg, optSign sg -> Forall noLetter sg.
Proof. intros sg [->|[->| ->]]; repeat constructor; unfold noLetter; lia. Qed.
Lemma unfolded_value : forall cs t q, decimalValue (folded cs t) q -> decimalValue t q.
Proof.
  intros [] t q; auto. cbn [folded]. intros (sg & ip & fp & dot & ex & x & S & I & F & E & NE & D & T & Q).
  apply map_eq_app in T as (t1 & t' & -> & T1 & T). apply map_eq_app in T as (t2 & t'' & -> & T2 & T). apply map_eq_app in T as (t3 & t''' & -> & T3 & T). apply map_eq_app in T as (t4 & t5 & -> & T4 & T5).
  apply lower_back in T1; [|apply sign_noLetter; auto]. apply lower_back in T2; [|apply digits_noLetter; auto]. apply lower_back in T4; [|apply digits_noLetter; auto].
  apply lower_back in T3; [|destruct dot; repeat constructor; unfold noLetter; lia]. subst.
  exists sg, ip, fp, dot, t5, x. do 3 (split; auto). split; [|split; [auto|split; [auto|split; auto]]].
  destruct E as [(EX & ->)|(e & sg' & ds & E & S' & F' & N' & EX & ->)]; [left; split; auto; destruct t5; auto; discriminate|right].
  destruct t5 as [|c t5]; [discriminate|]. cbn [map] in EX. injection EX as C EX. apply map_eq_app in EX as (u1 & u2 & -> & U1 & U2). apply lower_back in U1; [|apply sign_noLetter; auto]. apply lower_back in U2; [|apply digits_noLetter; auto]. subst.
  exists c, sg', ds. split; [unfold lowerCase in E; destruct ((65 <=? c) && (c <=? 90)) eqn:L; lia|]. auto.
Qed.

(* ---- readers ---- *)
Lemma token_noBlank : forall t q, decimalValue t q -> realToken t.
Proof. intros t q V. apply token_value. eauto. Qed.
Lemma read_decimal : forall st parse s raw rest q, fromChars parse -> nextToken (spaceSensitive st) s raw rest -> decimalValue raw q -> inRange q ->
  exists v, readReal st parse s = Ret v rest /\ nearest q v.
Proof.
  intros st parse s raw rest q FC NT V R. pose proof (folded_value (caseSensitive st) raw q V) as V'. destruct (FC _ _ V') as (N & T). destruct (T R) as (v & P). exists v. split; auto.
  apply readReal_spec. exists raw. split; auto. split; auto. apply token_value. eauto.
Qed.
Lemma read_nearest : forall st parse s v rest, fromChars parse -> readReal st parse s = Ret v rest -> exists raw q, nextToken (spaceSensitive st) s raw rest /\ decimalValue raw q /\ nearest q v.
Proof.
  intros st parse s v rest FC R. apply readReal_spec in R as (raw & NT & RT & P). apply token_value in RT as (q & V). exists raw, q. split; auto. split; [eapply unfolded_value; eauto|]. eapply FC; eauto.
Qed.
Lemma leb_num : forall x y, number x -> number y -> SFleb x y = true <-> (val x <= val y)%Q.
Proof. intros x y (A & B) (C & D). apply (leb_val prec emax P64 E64); auto. Qed.
Lemma ltb_num : forall x y, number x -> number y -> SFltb x y = true <-> (val x < val y)%Q.
Proof. intros x y (A & B) (C & D). apply (ltb_val prec emax P64 E64); auto. Qed.
Lemma strict_accepts : forall st parse lower upper minD maxD s t k rest q w, fromChars parse -> number lower -> number upper -> number w ->
  nextToken (spaceSensitive st) s t rest -> strictReal t k -> minD <= k < maxD -> decimalValue t q -> inRange q -> (val lower <= q)%Q -> (q <= val w)%Q -> (val w < val upper)%Q ->
  exists v, realStrict st parse lower upper minD maxD s = Ret v rest /\ nearest q v.
Proof.
  intros st parse lower upper minD maxD s t k rest q w FC NL NU NW NT ST K V R L W U. destruct (FC _ _ V) as (N & T). destruct (T R) as (v & P). exists v. pose proof (N v P) as NV. split; auto.
  apply realStrict_spec. exists t, k. do 4 (split; auto). split.
  - apply leb_num; [auto|apply NV|]. eapply nearest_above; eauto.
  - apply ltb_num; [apply NV|auto|]. pose proof (nearest_below q v w NV NW W). lra.
Qed.
Lemma strict_nearest : forall st parse lower upper minD maxD s v rest, fromChars parse -> number lower -> number upper -> realStrict st parse lower upper minD maxD s = Ret v rest ->
  exists t k q, nextToken (spaceSensitive st) s t rest /\ strictReal t k /\ minD <= k < maxD /\ decimalValue t q /\ nearest q v /\ (val lower <= val v < val upper)%Q /\ (q < val upper)%Q /\
    forall w, number w -> (val w < val lower)%Q -> (val w < q)%Q.
Proof.
  intros st parse lower upper minD maxD s v rest FC NL NU R. apply realStrict_spec in R as (t & k & NT & ST & K & P & L & U). destruct (strict_value t k ST) as (q & V). destruct (FC _ _ V) as (N & _). pose proof (N v P) as NV.
  apply leb_num in L; [|auto|apply NV]. apply ltb_num in U; [|apply NV|auto]. exists t, k, q. do 5 (split; auto). split; [split; auto|]. split.
  - apply Qnot_le_lt. intro H. pose proof (nearest_above q v upper NV NU H). lra.
  - intros w W LW. apply Qnot_le_lt. intro H. pose proof (nearest_below q v w NV W H). lra.
Qed.

(* ---- comparison ---- *)
Lemma diff_bound : forall q1 v1 q2 v2, nearest q1 v1 -> nearest q2 v2 -> (Qabs q1 <= val largest)%Q -> (Qabs q2 <= val largest)%Q ->
  (Qabs (val v1 - val v2) <= Qabs (q1 - q2) + slack q1 + slack q2 /\ Qabs (q1 - q2) <= Qabs (val v1 - val v2) + slack q1 + slack q2)%Q.
Proof.
  intros q1 v1 q2 v2 N1 N2 L1 L2. pose proof (nearest_error q1 v1 N1 L1) as E1. pose proof (nearest_error q2 v2 N2 L2) as E2.
  apply Qabs_Qle_condition in E1. apply Qabs_Qle_condition in E2. generalize dependent (slack q1). generalize dependent (slack q2). intros s2 (A1 & A2) s1 (B1 & B2).
  destruct (abs_cases (val v1 - val v2)) as [(C & E)|(C & E)]; rewrite E; destruct (abs_cases (q1 - q2)) as [(C' & E')|(C' & E')]; rewrite E'; split; lra.
Qed.
Lemma abs_bound : forall q v, nearest q v -> (Qabs q <= val largest)%Q -> (Qabs q - slack q <= Qabs (val v) <= Qabs q + slack q)%Q.
Proof.
  intros q v N L. pose proof (nearest_error q v N L) as E. apply Qabs_Qle_condition in E. generalize dependent (slack q). intros s (A1 & A2).
  destruct (abs_cases (val v)) as [(C & E)|(C & E)]; rewrite E; destruct (abs_cases q) as [(C' & E')|(C' & E')]; rewrite E'; split; lra.
Qed.
Lemma compare_absolute : forall q1 v1 q2 v2 a r, nearest q1 v1 -> nearest q2 v2 -> (Qabs q1 <= val largest)%Q -> (Qabs q2 <= val largest)%Q -> number a -> goodTol r ->
  (Qabs (q1 - q2) + slack q1 + slack q2 <= val a)%Q -> floatEqual v1 v2 a r = Ok true.
Proof.
  intros q1 v1 q2 v2 a r N1 N2 L1 L2 A R H. destruct (diff_bound q1 v1 q2 v2 N1 N2 L1 L2) as (D & _). apply floatEqual_abs; auto; [apply N1|apply N2|]. lra.
Qed.
Lemma compare_relative : forall q1 v1 q2 v2 a r, nearest q1 v1 -> nearest q2 v2 -> (Qabs q1 <= val largest)%Q -> (Qabs q2 <= val largest)%Q -> goodTol a -> number r -> goodTol r ->
  (val r * (Qabs q2 + slack q2) < two emax)%Q -> (Qabs (q1 - q2) + slack q1 + slack q2 <= (1 - two (-63)) * (val r * (Qabs q2 - slack q2)))%Q -> floatEqual v1 v2 a r = Ok true.
Proof.
  intros q1 v1 q2 v2 a r N1 N2 L1 L2 A R GR M H. destruct (diff_bound q1 v1 q2 v2 N1 N2 L1 L2) as (D & _). destruct (abs_bound q2 v2 N2 L2) as (B1 & B2).
  assert (R0 : (0 <= val r)%Q) by (apply nonneg_good; auto). assert (T : (0 < 1 - two (-63))%Q) by reflexivity.
  apply floatEqual_rel; auto; [apply N1|apply N2| |].
  - eapply Qle_lt_trans; [|exact M]. rewrite !(Qmult_comm (val r)). apply Qmult_le_compat_r; auto.
  - eapply Qle_trans; [exact D|]. eapply Qle_trans; [exact H|]. rewrite !(Qmult_comm (1 - two (-63))). apply Qmult_le_compat_r; [|lra]. rewrite !(Qmult_comm (val r)). apply Qmult_le_compat_r; auto.
Qed.
Lemma compare_sound : forall q1 v1 q2 v2 a r, nearest q1 v1 -> nearest q2 v2 -> (Qabs q1 <= val largest)%Q -> (Qabs q2 <= val largest)%Q -> number a -> number r ->
  floatEqual v1 v2 a r = Ok true ->
  (Qabs (q1 - q2) <= (1 + two (-63)) * val a + slack q1 + slack q2 \/ Qabs (q1 - q2) <= (1 + two (-61)) * (val r * (Qabs q2 + slack q2)) + slack q1 + slack q2)%Q.
Proof.
  intros q1 v1 q2 v2 a r N1 N2 L1 L2 A R H. destruct (diff_bound q1 v1 q2 v2 N1 N2 L1 L2) as (_ & D). destruct (abs_bound q2 v2 N2 L2) as (B1 & B2).
  assert (R0 : (0 <= val r)%Q) by (apply floatEqual_numbers in H as (_ & GR & _); [apply nonneg_good; auto|apply N1|apply N2]). assert (T : (0 <= 1 + two (-61))%Q) by discriminate.
  destruct (floatEqual_sound v1 v2 a r (proj1 N1) (proj1 N2) A R H) as [S|S]; [left; lra|right].
  assert (X : ((1 + two (-61)) * (val r * Qabs (val v2)) <= (1 + two (-61)) * (val r * (Qabs q2 + slack q2)))%Q); [|lra].
  rewrite !(Qmult_comm (1 + two (-61))). apply Qmult_le_compat_r; auto. rewrite !(Qmult_comm (val r)). apply Qmult_le_compat_r; auto.
Qed.

(* bounds of strict readers are compared after rounding *)
Definition nines : list Z := [9; 9; 9; 9; 9; 9; 9; 9; 9; 9; 9; 9; 9; 9; 9; 9; 9; 9; 9; 9; 9].
Definition ninesText : list Z := showDigits [0] ++ 46 :: showDigits nines.
Lemma nines_value : exists q, decimalValue ninesText q /\ (0 < q < 1)%Q.
Proof.
  eexists. split; [exists [], [0], nines, true, [], 0; split; [left; auto|]; split; [repeat constructor; unfold digit; lia|]; split; [repeat constructor; unfold digit; lia|]; split; [left; auto|]; split; [left; discriminate|]; split; [discriminate|]; split; reflexivity|].
  split; reflexivity.
Qed.
Lemma one_value : (val exOne == 1)%Q. Proof. reflexivity. Qed.
Lemma strict_lower : exists st upper v q, realStrict st decimalReal exOne upper 0 30 ninesText = Ret v [] /\ decimalValue ninesText q /\ (q < val exOne)%Q.
Proof. destruct nines_value as (q & V & _ & L). exists exCfg, exTwo, exOne, q. split; [vm_compute; reflexivity|]. rewrite one_value. auto. Qed.
Lemma strict_upper : exists st q, realStrict st decimalReal rzero exOne 0 30 ninesText = Exit (onFail st) /\ decimalValue ninesText q /\ (val rzero <= q < val exOne)%Q.
Proof. destruct nines_value as (q & V & P & L). exists exCfg, q. split; [vm_compute; reflexivity|]. rewrite one_value. split; auto. split; auto. cbn [val rzero]. lra. Qed.
