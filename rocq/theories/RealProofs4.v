From Verif Require Import Tac RndModel RndLemmas FloatModel FloatSpec FloatProofs RandIntModel RandIntProofs RealModel RealProofs RealProofs2 RealProofs3.
From Coq Require Import QArith Qpower Qfield Lqa Lia ZArith SpecFloat.
Open Scope Z_scope.

(* ---- signs ---- *)
Definition signIs (s : bool) (x : real) : Prop :=
  match x with S754_zero s' | S754_infinity s' | S754_finite s' _ _ => s' = s | S754_nan => False end.
Lemma iter_pos_keep : forall A (f : A -> A) (I : A -> Prop), (forall x, I x -> I (f x)) -> forall p x, I x -> I (iter_pos f p x).
Proof. intros A f I H p. induction p as [p IH|p IH|]; intros x HI; cbn [iter_pos]; auto. Qed.
Lemma shr_1_nonneg : forall x, 0 <= shr_m x -> 0 <= shr_m (shr_1 x).
Proof. intros [[|[p|p|]|p] r s] H; cbn [shr_1 shr_m] in *; lia. Qed.
Lemma shr_nonneg : forall x e n, 0 <= shr_m x -> 0 <= shr_m (fst (shr x e n)).
Proof. intros x e [|p|p] H; cbn [shr fst]; auto. apply (iter_pos_keep _ shr_1 (fun x => 0 <= shr_m x)); auto. apply shr_1_nonneg. Qed.
Lemma round_aux_sign : forall P E s m e l, 0 <= m -> signIs s (binary_round_aux P E s m e l).
Proof.
  intros P E s m e l M. unfold binary_round_aux. destruct (shr_fexp P E m e l) as [r e'] eqn:E1.
  assert (N1 : 0 <= shr_m r). { pose proof (shr_nonneg (shr_record_of_loc m l) e (fexp P E (Zdigits2 m + e) - e)) as X. unfold shr_fexp in E1. rewrite E1 in X. apply X. destruct l as [|[]]; auto. }
  set (z := round_nearest_even (shr_m r) (loc_of_shr_record r)). assert (N2 : 0 <= z) by (unfold z, round_nearest_even; destruct (loc_of_shr_record r) as [|[]]; try destruct (Z.even _); lia).
  destruct (shr_fexp P E z e' loc_Exact) as [r2 e2] eqn:E2.
  assert (N3 : 0 <= shr_m r2). { pose proof (shr_nonneg (shr_record_of_loc z loc_Exact) e' (fexp P E (Zdigits2 z + e') - e')) as X. unfold shr_fexp in E2. rewrite E2 in X. apply X. auto. }
  destruct (shr_m r2); [reflexivity| |lia]. destruct (Zle_bool e2 (E - P)); reflexivity.
Qed.
Lemma div_core_nonneg : forall P E m1 e1 m2 e2, 0 <= m1 -> 0 < m2 -> 0 <= fst (fst (SFdiv_core_binary P E m1 e1 m2 e2)).
Proof.
  intros P E m1 e1 m2 e2 M1 M2. unfold SFdiv_core_binary. cbv zeta. set (m' := match _ with Z0 => _ | Zpos _ => _ | Zneg _ => _ end).
  assert (N : 0 <= m'). { unfold m'. destruct (e1 - e2 - _); auto; try lia. apply Z.shiftl_nonneg. auto. }
  pose proof (Z_div_mod m' m2 ltac:(lia)) as D. destruct (Z.div_eucl m' m2) as [q r]. cbn [fst]. nia.
Qed.
Lemma rdiv_sign : forall s1 m1 e1 s2 m2 e2, signIs (xorb s1 s2) (rdiv (S754_finite s1 m1 e1) (S754_finite s2 m2 e2)).
Proof.
  intros. unfold rdiv, SFdiv. pose proof (div_core_nonneg prec emax (Zpos m1) e1 (Zpos m2) e2 ltac:(lia) ltac:(lia)) as N.
  destruct (SFdiv_core_binary prec emax (Zpos m1) e1 (Zpos m2) e2) as [[q e] l]. cbn [fst] in N. apply round_aux_sign. auto.
Qed.
Lemma rdiv_notPositive : forall x y, notPositive x -> number y -> (0 < val y)%Q -> notPositive (rdiv x y).
Proof.
  intros x y X (_ & F) Y. destruct y as [s|s| |s m e]; try discriminate; cbn [val] in Y. pose proof (val_pos m e). destruct s; [lra|].
  destruct x as [s1|[]| |[] m1 e1]; cbn in X; try contradiction; try exact I. pose proof (rdiv_sign true m1 e1 false m e) as S1. cbn [xorb] in S1.
  destruct (rdiv _ _) as [s|s| |s m2 e2]; cbn in *; subst; auto.
Qed.

Lemma rmul_comm : forall x y, rmul x y = rmul y x.
Proof. intros x y. destruct x as [s1|s1| |s1 m1 e1], y as [s2|s2| |s2 m2 e2]; unfold rmul, SFmul; auto; rewrite (Bool.xorb_comm s1 s2); auto. rewrite Pos.mul_comm, Z.add_comm. reflexivity. Qed.

(* ---- maximum of k draws ---- *)
Lemma count_lt : forall lo hi t, lo < hi -> lo <= t <= hi -> (qsum (fun x => if x <? t then 1 else 0) (zseq lo (Z.to_nat (hi - lo))) == inject_Z (t - lo))%Q.
Proof.
  intros lo hi t H T. rewrite (qsum_ext _ _ (fun x => 1 + - (1) * (if t <=? x then 1 else 0))%Q).
  - rewrite qsum_plus, qsum_const, zseq_length, qsum_mult, count_ge by lia. rewrite Z2Nat.id by lia. replace (lo + (hi - lo) - t) with (hi + - t) by lia. replace (t - lo) with ((hi + - lo) + - (hi + - t)) by lia. replace (hi - lo) with (hi + - lo) by lia. rewrite (inject_Z_plus (hi + - lo)), inject_Z_opp. ring.
  - intros x _. destruct (Z.ltb_spec x t), (Z.leb_spec t x); try lia; ring.
Qed.
Lemma maxLoop_below : forall k lower upper res t, lower < upper -> lower <= t <= upper ->
  (Pr (maxLoop k lower upper res) (lessZ t) == if res <? t then Qpower (inject_Z (t - lower) / inject_Z (upper - lower)) (Z.of_nat k) else 0)%Q.
Proof.
  intros k lower upper. induction k as [|k IH]; intros res t H T.
  - cbn [maxLoop]. unfold Pr. cbn [expect ret lessZ]. destruct (res <? t); reflexivity.
  - cbn [maxLoop]. unfold Pr. rewrite expect_bind, expect_rint by auto. cbv beta iota. set (c := Qpower (inject_Z (t - lower) / inject_Z (upper - lower)) (Z.of_nat k)) in *.
    rewrite (qsum_ext _ _ (fun x => (if res <? t then c else 0) * (if x <? t then 1 else 0))%Q).
    + rewrite qsum_mult, count_lt by lia. destruct (res <? t).
      * rewrite Nat2Z.inj_succ. unfold Z.succ. rewrite Qpower_plus'; [|lia]. fold c. change (Qpower (inject_Z (t - lower) / inject_Z (upper - lower)) 1) with (inject_Z (t - lower) / inject_Z (upper - lower))%Q. unfold Qdiv. ring.
      * unfold Qdiv. ring.
    + intros x _. change (expect (maxLoop k lower upper (Z.max res x)) (fun o => if lessZ t o then 1 else 0)%Q) with (Pr (maxLoop k lower upper (Z.max res x)) (lessZ t)). rewrite IH by auto. fold c.
      destruct (Z.ltb_spec (Z.max res x) t), (Z.ltb_spec res t), (Z.ltb_spec x t); try lia; ring.
Qed.
Lemma maxLoop_range : forall k lower upper res, lower < upper -> lower <= res < upper -> always (maxLoop k lower upper res) (returns (fun x => lower <= x < upper)).
Proof.
  induction k as [|k IH]; intros lower upper res H R; cbn [maxLoop]; [cbn; lia|]. eapply returns_bind; [apply returns_rint; auto|]. intros x X. cbv beta in X. apply IH; auto. lia.
Qed.

Section Max.
  Variable log2 exp2 : real -> real.
  Hypothesis LG : logLike log2.
  Hypothesis EX : expLike exp2.

  Lemma maximum_range : forall fuel lower upper n, is_i64 lower -> is_i64 upper -> is_i64 n -> lower < upper -> 0 < n ->
    always (maximum log2 exp2 fuel lower upper n) (orFuel (fun x => lower <= x < upper)).
  Proof.
    intros fuel lower upper n IL IU IN H N. unfold maximum. replace (0 <? n) with true by lia. replace (lower <? upper) with true by lia. cbn [judgeAssert lift rbind].
    destruct (n <? 5).
    - eapply always_mono; [|apply (maxLoop_range (Z.to_nat n) lower upper lower); lia]. intros [x| | |]; cbn; auto.
    - eapply orFuel_bind; [apply real_range|]. intros u (U & U1). cbv beta in *. mach.
      assert (S : ((upper mod 2 ^ 64 - lower mod 2 ^ 64) mod 2 ^ 64 = upper - lower)) by (rewrite <- Zminus_mod, Z.mod_small by lia; reflexivity).
      unfold u64. change two64 with (2 ^ 64). rewrite S.
      destruct (ofZ_val (upper - lower) ltac:(lia)) as (NS & VS). destruct (ofZ_val n ltac:(lia)) as (NN & VN).
      assert (PN : (0 < val (ofZ n))%Q) by (rewrite VN; change 0%Q with (inject_Z 0); rewrite <- Zlt_Qlt; auto).
      destruct (EX _ (rdiv_notPositive _ _ (proj2 (LG u U U1)) NN PN)) as (NE & VE). set (x := exp2 _) in *.
      assert (PS : (0 <= val (ofZ (upper - lower)))%Q) by (rewrite VS; apply inject_pos; lia).
      rewrite (rmul_comm (ofZ (upper - lower))). destruct (rmul_shrinks x (ofZ (upper - lower)) NE NS PS VE) as ((VV & FF) & (L1 & L2)). rewrite VS in L2.
      destruct (truncZ_floor _ FF L1) as (z & TZ & Z0 & Z1 & Z2). unfold castU. rewrite TZ.
      assert (ZB : z <= upper - lower) by (rewrite Zle_Qle; lra). replace ((0 <=? z) && (z <? 2 ^ 64)) with true by lia. cbn [lift rbind always ret orFuel].
      assert (T : to_i64 ((z + lower mod 2 ^ 64) mod 2 ^ 64) = lower + z).
      { rewrite <- (to_i64_id (lower + z)) by (mach; lia). apply to_i64_mod. unfold two64. rewrite Z.mod_mod, Zplus_mod_idemp_r by lia. f_equal. lia. }
      rewrite T. lia.
  Qed.
  Lemma maximum_throws : forall fuel lower upper n, n <= 0 \/ upper <= lower -> maximum log2 exp2 fuel lower upper n = RRet Throw.
  Proof.
    intros fuel lower upper n H. unfold maximum. destruct (Z.ltb_spec 0 n); [|reflexivity]. destruct (Z.ltb_spec lower upper); [lia|reflexivity].
  Qed.
  Lemma maximum_below : forall fuel lower upper n t, lower < upper -> 0 < n < 5 -> lower <= t <= upper ->
    (Pr (maximum log2 exp2 fuel lower upper n) (lessZ t) == Qpower (inject_Z (t - lower) / inject_Z (upper - lower)) n)%Q.
  Proof.
    intros fuel lower upper n t H N T. unfold maximum. replace (0 <? n) with true by lia. replace (lower <? upper) with true by lia. replace (n <? 5) with true by lia. cbn [judgeAssert lift rbind].
    rewrite maxLoop_below by auto. rewrite Z2Nat.id by lia. destruct (Z.ltb_spec lower t); [reflexivity|]. replace t with lower by lia. rewrite Z.sub_diag.
    assert (n = 1 \/ n = 2 \/ n = 3 \/ n = 4) as [->|[->|[->| ->]]] by lia; unfold Qdiv, Qpower; cbn [Qpower_positive pow_pos]; change (inject_Z 0) with 0%Q; ring.
  Qed.

  Lemma minimum_range : forall fuel lower upper n, is_i64 lower -> is_i64 upper -> is_i64 n -> lower < upper -> upper - lower < 2 ^ 63 -> 0 < n ->
    always (minimum log2 exp2 fuel lower upper n) (orFuel (fun x => lower <= x < upper)).
  Proof.
    intros fuel lower upper n IL IU IN H D N. unfold minimum. rewrite chk_Ok by (mach; lia). rewrite chk_Ok by (mach; lia). cbn [lift rbind].
    eapply orFuel_bind; [apply maximum_range; auto; mach; lia|]. intros x X. cbv beta in X. rewrite chk_Ok by (mach; lia). cbn. lia.
  Qed.
  Lemma minimum_above : forall fuel lower upper n t, is_i64 lower -> is_i64 upper -> lower < upper -> upper - lower < 2 ^ 63 -> 0 < n < 5 -> lower <= t <= upper ->
    (Pr (minimum log2 exp2 fuel lower upper n) (geZ t) == Qpower (inject_Z (upper - t) / inject_Z (upper - lower)) n)%Q.
  Proof.
    intros fuel lower upper n t IL IU H D N T. unfold minimum. rewrite chk_Ok by (mach; lia). rewrite chk_Ok by (mach; lia). cbn [lift rbind].
    unfold Pr. rewrite expect_bind. rewrite (expect_ext_always _ _ _ (fun o => if lessZ (upper - t) o then 1 else 0)%Q).
    - pose proof (maximum_below fuel 0 (upper - lower) n (upper - t) ltac:(lia) N ltac:(lia)) as M. rewrite !Z.sub_0_r in M. exact M.
    - eapply always_mono; [|apply maximum_range; try (mach; lia)]. intros [x| | |] X; cbn in X; try contradiction; [|reflexivity].
      rewrite chk_Ok by (mach; lia). cbn [expect lift geZ lessZ]. destruct (Z.leb_spec t (upper - 1 - x)), (Z.ltb_spec x (upper - t)); try lia; reflexivity.
  Qed.
  Lemma minimum_overflow : forall fuel lower upper n, is_i64 lower -> is_i64 upper -> 2 ^ 63 <= upper - lower -> minimum log2 exp2 fuel lower upper n = RRet UB.
  Proof. intros fuel lower upper n IL IU H. unfold minimum, chk. replace (in_i64 (upper - lower)) with false by (mach; lia). reflexivity. Qed.
  Lemma minmax_cases : forall fuel lower upper n, is_i64 n ->
    minmax log2 exp2 fuel lower upper n = if n =? 0 then RRet Throw else if 0 <? n then maximum log2 exp2 fuel lower upper n else if n =? - 2 ^ 63 then RRet UB else minimum log2 exp2 fuel lower upper (- n).
  Proof.
    intros fuel lower upper n IN. unfold minmax. destruct (Z.eqb_spec n 0); [reflexivity|]. cbn [negb judgeAssert lift rbind]. destruct (Z.ltb_spec 0 n); [reflexivity|].
    unfold chk. destruct (Z.eqb_spec n (- 2 ^ 63)) as [->|]; [reflexivity|]. replace (in_i64 (- n)) with true by (mach; lia). reflexivity.
  Qed.
End Max.
