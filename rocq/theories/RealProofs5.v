From Verif Require Import Tac RndModel RndLemmas FloatModel FloatSpec FloatProofs RandIntModel RandIntProofs RealModel RealSpec RealProofs RealProofs2 RealProofs3 RealProofs4.
From Coq Require Import QArith Qpower Qfield Lqa Lia ZArith SpecFloat.
Open Scope Z_scope.

Lemma floorZ_trunc : forall x, isfinite x = true -> (0 <= val x)%Q -> floorZ x = truncZ x.
Proof.
  intros x F H. destruct x as [s|s| |s m e]; try discriminate; cbn [truncZ floorZ val] in *; auto.
  pose proof (val_pos m e). destruct s; [lra|]. unfold signed. destruct (Z.leb_spec 0 e); auto.
  pose proof (Z.pow_pos_nonneg 2 (- e) ltac:(lia) ltac:(lia)). rewrite Z.quot_div_nonneg by lia. reflexivity.
Qed.
Lemma val_one : (val rone == 1)%Q.
Proof. reflexivity. Qed.
Lemma always_and : forall A (m : rnd A) (P Q : outcome A -> Prop), always m P -> always m Q -> always m (fun o => P o /\ Q o).
Proof. intros A m P Q. induction m as [o|lo hi k IH]; cbn [always]; intros H1 H2; auto. Qed.
Lemma real_between : forall fuel, (fuel <= 15)%nat -> always (randomReal fuel) (orFuel (fun r => number r /\ (two (-960) <= val r <= 1)%Q)).
Proof.
  intros fuel F. apply (always_mono _ _ (fun o => orFuel (fun r => number r /\ (0 <= val r <= 1)%Q) o /\ orFuel (fun r => (two (-64 * Z.of_nat fuel) <= val r)%Q) o)).
  - intros [r| | |] (A & B); cbn [orFuel] in *; auto. destruct A as (A1 & A2 & A3). repeat split; auto; try apply A1. eapply Qle_trans; [|exact B]. apply two_le. lia.
  - apply always_and; [apply real_range|apply real_positive; auto].
Qed.

Section Steps.
  Variable sqrt log log1p lgamma : real -> real.
  Variable lgammaZ : Z -> real.
  Variable unspecified : real -> Z.
  Notation llround := (llroundFloor unspecified).

  Lemma step_range : forall lg n u, stepsFit log lg n -> -1 <= n -> number u -> (two (-960) <= val u <= 1)%Q ->
    0 <= llround (rdiv (log u) lg) /\ llround (rdiv (log u) lg) + n + 1 < 2 ^ 63.
  Proof.
    intros lg n u H N NU U. destruct (H u NU U) as (F & Q0 & Q1). cbv zeta in *. unfold llroundFloor. rewrite floorZ_trunc by auto.
    destruct (truncZ_floor _ F Q0) as (z & -> & Z0 & Z1 & _). assert (B : z + (n + 1) < 2 ^ 63) by (rewrite Zlt_Qlt, inject_Z_plus; lra).
    replace ((- 2 ^ 63 <=? z) && (z <? 2 ^ 63)) with true by lia. lia.
  Qed.

  Lemma geometric_range : forall fuel p, (fuel <= 15)%nat -> number p -> (0 <= val p < 1)%Q -> stepsFit log (log1p (ropp p)) 0 ->
    always (geometric log log1p unspecified fuel p) (orFuel (fun x => 0 <= x < 2 ^ 63)).
  Proof.
    intros fuel p F (VP & FP) P H. unfold geometric.
    assert (C1 : SFleb rzero p = true) by (apply rle; auto; [reflexivity|apply P]). assert (C2 : SFltb p rone = true) by (apply rlt; auto; [reflexivity|rewrite val_one; apply P]).
    rewrite C1, C2. cbn [andb judgeAssert lift rbind]. eapply orFuel_bind; [apply real_between; auto|]. intros u (NU & U). cbn [always ret orFuel].
    pose proof (step_range _ _ u H ltac:(lia) NU U). lia.
  Qed.
  Lemma geometric_throws : forall fuel p, realOk p -> isfinite p = false \/ (val p < 0)%Q \/ (1 <= val p)%Q -> geometric log log1p unspecified fuel p = RRet Throw.
  Proof.
    intros fuel p VP H. unfold geometric. replace (SFleb rzero p && SFltb p rone) with false; [reflexivity|]. symmetry. apply andb_false_iff.
    destruct (isfinite p) eqn:F.
    - destruct H as [H|[H|H]]; [discriminate| |].
      + left. apply not_true_iff_false. intro C. apply rle in C; auto; [|reflexivity]. cbn [val rzero] in C. lra.
      + right. apply not_true_iff_false. intro C. apply rlt in C; auto; [|reflexivity]. rewrite val_one in C. lra.
    - destruct p as [s|[]| |]; try discriminate; auto.
  Qed.
  Lemma geometricIn_range : forall fuel fuel' lower upper p, (fuel' <= 15)%nat -> is_i64 lower -> is_i64 upper -> lower < upper -> number p -> (0 <= val p < 1)%Q ->
    stepsFit log (log1p (ropp p)) (Z.max lower 0) ->
    always (geometricIn log log1p unspecified fuel fuel' lower upper p) (orFuel (fun x => lower <= x < upper)).
  Proof.
    intros fuel fuel' lower upper p F IL IU LU (VP & FP) P H. unfold geometricIn. replace (lower <? upper) with true by lia.
    assert (C1 : SFleb rzero p = true) by (apply rle; auto; [reflexivity|apply P]). assert (C2 : SFltb p rone = true) by (apply rlt; auto; [reflexivity|rewrite val_one; apply P]).
    rewrite C1, C2. cbn [andb judgeAssert lift rbind]. induction fuel as [|fuel IH]; cbn [geometricLoop]; [exact I|].
    eapply orFuel_bind; [apply real_between; auto|]. intros u (NU & U). cbv beta in *. pose proof (step_range _ _ u H ltac:(lia) NU U).
    rewrite chk_Ok by (mach; lia). cbn [lift rbind]. destruct (Z.ltb_spec (lower + llround (rdiv (log u) (log1p (ropp p)))) upper); auto. cbn [always ret orFuel]. lia.
  Qed.

  Lemma bgLoop_range : forall fuel fuel' n swap lg, (fuel' <= 15)%nat -> 0 <= n < 2 ^ 63 - 1 -> stepsFit log lg n -> forall res y, 0 <= res <= y -> y <= n ->
    always (bgLoop log unspecified fuel fuel' n swap lg res y) (orFuel (fun x => 0 <= x <= n)).
  Proof.
    intros fuel fuel' n swap lg F N H. induction fuel as [|fuel IH]; intros res y R Y; cbn [bgLoop]; [exact I|].
    eapply orFuel_bind; [apply real_between; auto|]. intros u (NU & U). cbv beta in *. pose proof (step_range _ _ u H ltac:(lia) NU U) as (S1 & S2).
    rewrite chk_Ok by (mach; lia). cbn [lift rbind]. rewrite chk_Ok by (mach; lia). cbn [lift rbind].
    destruct (Z.ltb_spec n (y + (llround (rdiv (log u) lg) + 1))).
    - cbn [always ret orFuel]. destruct swap; lia.
    - apply IH; lia.
  Qed.
  Lemma btrsLoop_range : forall fuel fuel' n swap p, 0 <= n < 2 ^ 63 - 1 ->
    always (btrsLoop sqrt log lgamma lgammaZ unspecified fuel fuel' n swap p) (orFuel (fun x => 0 <= x <= n)).
  Proof.
    intros fuel fuel' n swap p N. induction fuel as [|fuel IH]; cbn [btrsLoop]; [exact I|]. cbv zeta.
    eapply orFuel_bind; [apply real_range|]. intros u _. match goal with |- context [llroundFloor unspecified ?x] => generalize (llroundFloor unspecified x) end. intro res.
    destruct ((res <? 0) || (n <? res)) eqn:B; [exact IH|]. eapply orFuel_bind; [apply real_range|]. intros v _. cbv beta.
    match goal with |- context [if ?c then _ else _] => destruct c end; [cbn [always ret orFuel]; destruct swap; lia|].
    rewrite !chk_Ok by (mach; lia). cbn [lift rbind]. match goal with |- context [if SFleb ?a ?b then _ else _] => destruct (SFleb a b) end; [cbn [always ret orFuel]; destruct swap; lia|exact IH].
  Qed.
  Lemma binomial_range : forall fuel fuel' n p, (fuel' <= 15)%nat -> 0 <= n < 2 ^ 63 - 1 -> number p -> (0 <= val p <= 1)%Q ->
    SFleb rzero (log1p (ropp (lesser p))) = true \/ stepsFit log (log1p (ropp (lesser p))) n ->
    always (binomial sqrt log log1p lgamma lgammaZ unspecified fuel fuel' n p) (orFuel (fun x => 0 <= x <= n)).
  Proof.
    intros fuel fuel' n p F N (VP & FP) P H. unfold binomial. replace (0 <=? n) with true by lia.
    assert (C1 : SFleb rzero p = true) by (apply rle; auto; [reflexivity|apply P]). assert (C2 : SFleb p rone = true) by (apply rle; auto; [reflexivity|rewrite val_one; apply P]).
    rewrite C1, C2. cbn [andb judgeAssert lift rbind]. fold (lesser p). change rone with (S754_finite false 0x8000000000000000 (-63)). fold (lesser p). cbv zeta.
    match goal with |- context [if SFltb ?a ?b then _ else _] => destruct (SFltb a b) end; [|apply btrsLoop_range; auto].
    destruct (SFleb rzero (log1p (ropp (lesser p)))) eqn:L; [cbn [always ret orFuel]; match goal with |- context [if ?c then _ else _] => destruct c end; lia|].
    destruct H as [H|H]; [congruence|]. apply bgLoop_range; auto; lia.
  Qed.
  Lemma binomial_throws : forall fuel fuel' n p, realOk p -> n < 0 \/ isfinite p = false \/ (val p < 0)%Q \/ (1 < val p)%Q ->
    binomial sqrt log log1p lgamma lgammaZ unspecified fuel fuel' n p = RRet Throw.
  Proof.
    intros fuel fuel' n p VP H. unfold binomial. destruct (Z.leb_spec 0 n); [|reflexivity]. cbn [judgeAssert lift rbind]. replace (SFleb rzero p && SFleb p rone) with false; [reflexivity|]. symmetry. apply andb_false_iff.
    destruct (isfinite p) eqn:F.
    - destruct H as [H|[H|[H|H]]]; [lia|discriminate| |].
      + left. apply not_true_iff_false. intro C. apply rle in C; auto; [|reflexivity]. cbn [val rzero] in C. lra.
      + right. apply not_true_iff_false. intro C. apply rle in C; auto; [|reflexivity]. rewrite val_one in C. lra.
    - destruct p as [s|[]| |]; try discriminate; auto.
  Qed.
  (* the two trivial experiments, given that log1p(-0) is not negative *)
  Lemma binomial_zero : forall fuel fuel' n, 0 <= n < 2 ^ 63 -> SFleb rzero (log1p (S754_zero true)) = true ->
    binomial sqrt log log1p lgamma lgammaZ unspecified fuel fuel' n rzero = ret 0.
  Proof.
    intros fuel fuel' n N L. unfold binomial. replace (0 <=? n) with true by lia. cbn [judgeAssert lift rbind].
    change (SFltb (rsub rone rzero) rzero) with false. change (SFleb rzero rzero && SFleb rzero rone) with true. change (SFltb (lit 1 2) rzero) with false. cbn [judgeAssert lift rbind]. cbv zeta.
    assert (M : SFltb (rmul rzero (ofZ n)) (ofZ 10) = true).
    { destruct (ofZ_val n ltac:(lia)) as ((_ & FN) & _). destruct (ofZ n) as [s|s| |s m e]; try discriminate; destruct s; reflexivity. }
    rewrite M. change (ropp rzero) with (S754_zero true). rewrite L. reflexivity.
  Qed.
  Lemma binomial_one : forall fuel fuel' n, 0 <= n < 2 ^ 63 -> SFleb rzero (log1p (S754_zero true)) = true ->
    binomial sqrt log log1p lgamma lgammaZ unspecified fuel fuel' n rone = ret n.
  Proof.
    intros fuel fuel' n N L. unfold binomial. replace (0 <=? n) with true by lia. cbn [judgeAssert lift rbind].
    change (SFltb (rsub rone rone) rone) with true. change (SFleb rzero rone && SFleb rone rone) with true. change (SFltb (lit 1 2) rone) with true. cbn [judgeAssert lift rbind]. cbv zeta.
    change (rsub rone rone) with rzero. assert (M : SFltb (rmul rzero (ofZ n)) (ofZ 10) = true).
    { destruct (ofZ_val n ltac:(lia)) as ((_ & FN) & _). destruct (ofZ n) as [s|s| |s m e]; try discriminate; destruct s; reflexivity. }
    rewrite M. change (ropp rzero) with (S754_zero true). rewrite L. reflexivity.
  Qed.
  Lemma binomialIn_range : forall fuel fuel' lower upper n p, (fuel' <= 15)%nat -> 0 <= n < 2 ^ 63 - 1 -> lower < upper -> number p -> (0 <= val p <= 1)%Q ->
    SFleb rzero (log1p (ropp (lesser p))) = true \/ stepsFit log (log1p (ropp (lesser p))) n ->
    always (binomialIn sqrt log log1p lgamma lgammaZ unspecified fuel fuel' lower upper n p) (orFuel (fun x => lower <= x < upper /\ 0 <= x <= n)).
  Proof.
    intros fuel fuel' lower upper n p F N LU NP P H. unfold binomialIn. replace (lower <? upper) with true by lia. cbn [judgeAssert lift rbind].
    induction fuel as [|fuel IH]; cbn [binomialLoop]; [exact I|]. eapply orFuel_bind; [apply binomial_range; auto|]. intros x X. cbv beta in X.
    destruct ((lower <=? x) && (x <? upper)) eqn:B; [cbn; lia|auto].
  Qed.
End Steps.
