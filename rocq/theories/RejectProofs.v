From Verif Require Import Tac RndModel RndLemmas FloatModel FloatSpec FloatProofs RandIntModel RandIntProofs RealModel RealSpec RealFormSpec RealProofs RealProofs2 RealProofs3 RealProofs4 RealProofs5 RealProofs8 RejectSpec UniformProofs RealFormProofs CollModel.
From Coq Require Import QArith Qpower Qfield Lqa Lia ZArith SpecFloat.
From Verif Require Import FloatModel FloatSpec RealSpec.
Open Scope Z_scope.

(* ---- rounds ---- *)
Lemma rounds : forall A B (try : nat -> rnd A) (accept : A -> option B) (loop : nat -> rnd B),
  loop O = RRet Fuel ->
  (forall k f, (expect (loop (S k)) f == expect (rbind (try k) (fun a => match accept a with Some b => ret b | None => loop k end)) f)%Q) ->
  forall p k, (Pr (loop (S k)) (holds p) == Pr (try k) (holds (fun a => match accept a with Some b => p b | None => false end))
    + Pr (try k) (holds (fun a => match accept a with Some _ => false | None => true end)) * Pr (loop k) (holds p))%Q.
Proof.
  intros A B try accept loop L0 LS p k. unfold Pr at 1. rewrite LS, expect_bind. unfold Pr. rewrite (Qmult_comm (expect (try k) _)), <- expect_scale, <- expect_plus. apply expect_ext.
  intros [a| | |]; cbn [holds]; try ring. destruct (accept a) as [b|]; cbn [ret expect holds]; [destruct (p b); ring|]. fold (Pr (loop k) (holds p)). unfold Pr. ring.
Qed.
Lemma rounds_same : forall A B (try : rnd A) (accept : A -> option B) (loop : nat -> rnd B),
  loop O = RRet Fuel ->
  (forall k f, (expect (loop (S k)) f == expect (rbind try (fun a => match accept a with Some b => ret b | None => loop k end)) f)%Q) ->
  forall p k, (Pr (loop k) (holds p) == Pr try (holds (fun a => match accept a with Some b => p b | None => false end))
    * powers (Pr try (holds (fun a => match accept a with Some _ => false | None => true end))) k)%Q.
Proof.
  intros A B try accept loop L0 LS p. induction k as [|k IH].
  - rewrite L0. cbn. ring.
  - rewrite (rounds A B (fun _ => try) accept loop L0 LS p k), IH. cbn [powers]. ring.
Qed.
Lemma pr_ext : forall A (m : rnd A) (p q : outcome A -> bool), (forall o, p o = q o) -> (Pr m p == Pr m q)%Q.
Proof. intros A m p q H. unfold Pr. apply expect_ext. intro o. rewrite H. reflexivity. Qed.
Lemma powers_same : forall q r k, (q == r)%Q -> (powers q k == powers r k)%Q.
Proof. intros q r k E. induction k as [|k IH]; cbn [powers]; [reflexivity|]. rewrite IH, E. reflexivity. Qed.
Definition keep {A} (inside : A -> bool) (a : A) : option A := if inside a then Some a else None.
Lemma keep_law : forall A (try : rnd A) (inside : A -> bool) (loop : nat -> rnd A),
  loop O = RRet Fuel ->
  (forall k f, (expect (loop (S k)) f == expect (rbind try (fun a => if inside a then ret a else loop k)) f)%Q) ->
  forall p k, (Pr (loop k) (holds p) == Pr try (holds (fun a => inside a && p a)) * powers (Pr try (holds (fun a => negb (inside a)))) k)%Q.
Proof.
  intros A try inside loop L0 LS p k. rewrite (rounds_same A A try (keep inside) loop L0).
  - apply Qmult_comp; [apply pr_ext|apply powers_same, pr_ext].
    all: intros [a| | |]; cbn; auto; unfold keep; destruct (inside a); reflexivity.
  - intros j f. rewrite LS, !expect_bind. apply expect_ext. intros [a| | |]; cbn; try reflexivity. unfold keep. destruct (inside a); reflexivity.
Qed.
Lemma keep_each : forall A (try : nat -> rnd A) (inside : A -> bool) (loop : nat -> rnd A),
  loop O = RRet Fuel ->
  (forall k, loop (S k) = rbind (try k) (fun a => if inside a then ret a else loop k)) ->
  forall p k, (Pr (loop k) (holds p) == firstInside try inside p k)%Q.
Proof.
  intros A try inside loop L0 LS p. induction k as [|k IH]; [rewrite L0; reflexivity|].
  rewrite (rounds A A try (keep inside) loop L0).
  - cbn [firstInside]. rewrite IH.
    apply Qplus_comp; [apply pr_ext|apply Qmult_comp; [apply pr_ext|reflexivity]].
    all: intros [a| | |]; cbn; auto; unfold keep; destruct (inside a); reflexivity.
  - intros j f. rewrite LS, !expect_bind. apply expect_ext. intros [a| | |]; cbn; try reflexivity. unfold keep. destruct (inside a); reflexivity.
Qed.
Lemma powers_closed : forall q k, ((1 - q) * powers q k == 1 - Qpower q (Z.of_nat k))%Q.
Proof.
  intros q k. induction k as [|k IH]; cbn [powers]; [cbn; ring|].
  replace (Z.of_nat (S k)) with (1 + Z.of_nat k) by lia. rewrite Qpower_plus' by lia. change (Qpower q 1) with q.
  setoid_replace ((1 - q) * (1 + q * powers q k))%Q with ((1 - q) + q * ((1 - q) * powers q k))%Q by ring. rewrite IH. ring.
Qed.

(* ---- the reals ---- *)
Lemma realBelow_law : forall fuel upper p, number upper -> (0 < val upper)%Q ->
  let try := let? x := randomReal fuel in ret (rmul x upper) in
  let inside := fun r => SFltb r upper in
  (Pr (realBelow fuel upper) (holds p) == Pr try (holds (fun r => inside r && p r)) * powers (Pr try (holds (fun r => negb (inside r)))) fuel)%Q.
Proof.
  intros fuel upper p N U try inside. unfold realBelow. destruct N as (V & F). rewrite F.
  assert (X : SFltb rzero upper = true) by (apply (ltb_val prec emax P64 E64); auto; reflexivity). rewrite X. cbn [judgeAssert lift rbind].
  apply (keep_law _ try inside (fun k => realBelowLoop k fuel upper)); [reflexivity|].
  intros k f. cbn [realBelowLoop]. unfold try. rewrite !expect_bind. apply expect_ext_always. eapply always_mono; [|apply real_range].
  intros [x| | |] O; cbn [orFuel] in O; try contradiction; [|reflexivity]. destruct O as (NX & RX). cbn [ret rbind expect].
  destruct (rmul_shrinks x upper NX (conj V F) ltac:(lra) RX) as ((V' & F') & (Y & _)).
  assert (Z : SFleb rzero (rmul x upper) = true) by (apply (leb_val prec emax P64 E64); auto; reflexivity). rewrite Z. reflexivity.
Qed.
Lemma realIn_law : forall fuel lower upper p, number lower -> number upper -> (val lower < val upper)%Q ->
  let try := let? x := randomReal fuel in ret (radd (rmul lower (rsub rone x)) (rmul upper x)) in
  let inside := fun r => SFleb lower r && SFltb r upper in
  (Pr (realIn fuel lower upper) (holds p) == Pr try (holds (fun r => inside r && p r)) * powers (Pr try (holds (fun r => negb (inside r)))) fuel)%Q.
Proof.
  intros fuel lower upper p (VL & FL) (VU & FU) L try inside. unfold realIn. rewrite FL, FU.
  assert (X : SFltb lower upper = true) by (apply (ltb_val prec emax P64 E64); auto). rewrite X. cbn [judgeAssert lift rbind].
  apply (keep_law _ try inside (fun k => realInLoop k fuel lower upper)); [reflexivity|].
  intros k f. cbn [realInLoop]. unfold try. rewrite !expect_bind. apply expect_ext. intros [x| | |]; reflexivity.
Qed.

(* ---- real(upper) repeats with probability 2^-54 ---- *)
Lemma real_gap : forall fuel, always (randomReal fuel) (orFuel (fun r => (val r == 1 \/ val r <= 1 - two (-53))%Q)).
Proof.
  intro fuel. unfold randomReal. apply word_always. intros w X. eapply orFuel_bind; [apply exponent_range|]. intros E HE. cbv beta in HE. cbn [always ret orFuel].
  unfold realFrom. pose proof (mantissa_range w X) as M. pose proof (q_range _ M) as QR. destruct (Z.eq_dec E (-64)) as [->|NE].
  - change (-64) with (-64 - 0). destruct (real_exact _ M 0 ltac:(lia)) as (V & p & e & -> & Y). cbn [val]. rewrite Y. set (q := rne _ 11) in *. destruct (Z.eq_dec q (2 ^ 53)) as [->|N].
    + left. reflexivity.
    + right. rewrite Qmult_1_l. apply Qle_trans with (inject_Z (2 ^ 53 - 1) * two (-53 - 0))%Q; [apply scaled_le; lia|]. vm_compute. discriminate.
  - right. replace E with (-64 - (-64 - E)) by lia. destruct (real_small _ M (-64 - E) 1) as (_ & _ & C); [lia|lia|].
    apply Qle_trans with (two (-1)); [apply C|]. vm_compute. discriminate.
Qed.
Lemma rmul_below : forall x y, number x -> number y -> (two (-16382) <= val y)%Q -> (0 <= val x <= 1 - two (-53))%Q -> (val (rmul x y) < val y)%Q.
Proof.
  intros x y NX NY Y X. assert (T53 := two_pos (-53)). destruct (rmul_shrinks x y NX NY) as ((V & F) & Z); [pose proof (two_pos (-16382)); lra|lra|].
  destruct NX as (VX & FX). destruct NY as (VY & FY). destruct y as [s2|s2| |s2 m2 e2]; try discriminate; try (cbn [val] in Y; pose proof (two_pos (-16382)); lra).
  destruct x as [s1|s1| |s1 m1 e1]; try discriminate; [destruct s2; cbn [val rmul SFmul] in *; pose proof (val_pos m2 e2); pose proof (two_pos (-16382)); lra|].
  assert (S1 : s1 = false) by (destruct s1; auto; cbn [val] in X; pose proof (val_pos m1 e1); lra).
  assert (S2 : s2 = false) by (destruct s2; auto; cbn [val] in Y; pose proof (val_pos m2 e2); pose proof (two_pos (-16382)); lra). subst.
  rewrite rmul_norm in * by auto. cbn [xorb] in *. set (t := target prec emax (Zpos (m1 * m2)) (e1 + e2)) in *. set (q := rne (Zpos (m1 * m2)) (t - (e1 + e2))) in *.
  destruct (rne_pow prec emax P64 (Zpos (m1 * m2)) (e1 + e2) ltac:(lia)) as (R1 & R2). fold t in R1, R2. fold q in R1, R2.
  destruct (valid_mantissa prec emax P64 _ _ _ VY) as (B1 & B2 & B3). cbn [val] in X, Y.
  assert (M : 2 ^ 63 <= Zpos m2).
  { destruct (Z_lt_le_dec (emin prec emax) e2) as [L|L]; [apply (B3 L)|]. assert (E : e2 = -16445) by (unfold emin, prec, emax in *; lia). subst e2.
    replace (-16382) with (63 + -16445) in Y by lia. rewrite two_plus, (two_Z 63), Qmult_1_l in Y by lia. rewrite Qmult_le_r in Y by apply two_pos. rewrite <- Zle_Qle in Y. exact Y. }
  assert (L : (inject_Z q * two t <= inject_Z (Zpos m2 - 1) * two e2)%Q).
  { apply (rounded_le prec emax P64); try lia. rewrite two_plus. rewrite Pos2Z.inj_mul, inject_Z_mult.
    setoid_replace (inject_Z (Z.pos m1) * inject_Z (Z.pos m2) * (two e1 * two e2))%Q with ((1 * (inject_Z (Z.pos m1) * two e1)) * (inject_Z (Z.pos m2) * two e2))%Q by ring.
    apply Qle_trans with ((1 - two (-53)) * (inject_Z (Z.pos m2) * two e2))%Q; [apply Qmult_le_compat_r; [lra|apply Qlt_le_weak, val_pos]|].
    rewrite Qmult_assoc. apply Qmult_le_compat_r; [|apply Qlt_le_weak, two_pos]. replace (Zpos m2 - 1) with (Zpos m2 + - (1)) by lia. rewrite inject_Z_plus. change (inject_Z (- (1))) with (- (1))%Q.
    assert (K : (inject_Z (2 ^ 63) <= inject_Z (Zpos m2))%Q) by (rewrite <- Zle_Qle; auto). assert (H : (1 <= two (-53) * inject_Z (2 ^ 63))%Q) by (vm_compute; discriminate). nra. }
  destruct (norm_val prec emax P64 false q t R1) as [(i & W)|(_ & W)]; [rewrite W in F; discriminate|]. rewrite W. cbn [val]. pose proof (two_pos e2) as T2.
  replace (Zpos m2 - 1) with (Zpos m2 + - (1)) in L by lia. rewrite inject_Z_plus in L. change (inject_Z (- (1))) with (- (1))%Q in L. lra.
Qed.
Lemma rmul_one : forall x y, number x -> number y -> (0 < val y)%Q -> (val x == 1)%Q -> (val (rmul x y) == val y)%Q.
Proof.
  intros x y NX NY Y X. destruct (rmul_shrinks x y NX NY) as ((V & F) & Z); [lra|lra|]. apply Qle_antisym; [lra|].
  destruct NX as (VX & FX). destruct NY as (VY & FY). destruct y as [s2|s2| |s2 m2 e2]; try discriminate; try (cbn [val] in Y; lra).
  destruct x as [s1|s1| |s1 m1 e1]; try discriminate; try (cbn [val] in X; lra).
  assert (S1 : s1 = false) by (destruct s1; auto; cbn [val] in X; pose proof (val_pos m1 e1); lra).
  assert (S2 : s2 = false) by (destruct s2; auto; cbn [val] in Y; pose proof (val_pos m2 e2); lra). subst.
  rewrite rmul_norm in * by auto. cbn [xorb] in *. set (t := target prec emax (Zpos (m1 * m2)) (e1 + e2)) in *. set (q := rne (Zpos (m1 * m2)) (t - (e1 + e2))) in *.
  destruct (rne_pow prec emax P64 (Zpos (m1 * m2)) (e1 + e2) ltac:(lia)) as (R1 & R2). fold t in R1, R2. fold q in R1, R2.
  destruct (valid_mantissa prec emax P64 _ _ _ VY) as (B1 & B2 & B3). cbn [val] in X, Y.
  assert (L : (inject_Z (Zpos m2) * two e2 <= inject_Z q * two t)%Q).
  { apply (rounded_ge prec emax P64); try lia. rewrite two_plus. rewrite Pos2Z.inj_mul, inject_Z_mult.
    setoid_replace (inject_Z (Z.pos m1) * inject_Z (Z.pos m2) * (two e1 * two e2))%Q with ((1 * (inject_Z (Z.pos m1) * two e1)) * (inject_Z (Z.pos m2) * two e2))%Q by ring.
    rewrite X, Qmult_1_l. apply Qle_refl. }
  destruct (norm_val prec emax P64 false q t R1) as [(i & W)|(_ & W)]; [rewrite W in F; discriminate|]. rewrite W. cbn [val]. lra.
Qed.
Lemma realBelow_repeats : forall fuel upper, (1 <= fuel)%nat -> number upper -> (two (-16382) <= val upper)%Q ->
  (Pr (let? x := randomReal fuel in ret (rmul x upper)) (holds (fun r => negb (SFltb r upper))) == two (-54))%Q.
Proof.
  intros fuel upper FU N U. rewrite <- (real_one fuel FU). unfold Pr. rewrite expect_bind. apply expect_ext_always.
  assert (UP : (0 < val upper)%Q) by (pose proof (two_pos (-16382)); lra).
  eapply always_mono; [|apply always_and; [apply real_range|apply real_gap]]. intros [x| | |] (O & G); cbn [orFuel] in O, G; try contradiction; [|reflexivity]. destruct O as (NX & RX).
  cbn [ret expect holds atLeast]. destruct (rmul_shrinks x upper NX N ltac:(lra) RX) as ((V & F) & Y). destruct N as (VU & FUU). destruct G as [G|G].
  - assert (E : SFltb (rmul x upper) upper = false).
    { apply not_true_is_false. intro C. apply (ltb_val prec emax P64 E64) in C; auto. rewrite (rmul_one x upper) in C; auto; [lra|split; auto]. }
    assert (E' : Qle_bool 1 (val x) = true) by (apply Qle_bool_iff; lra). rewrite E, E'. reflexivity.
  - assert (E : SFltb (rmul x upper) upper = true) by (apply (ltb_val prec emax P64 E64); auto; apply rmul_below; auto; [split; auto|lra]).
    assert (E' : Qle_bool 1 (val x) = false) by (apply not_true_is_false; intro C; apply Qle_bool_iff in C; pose proof (two_pos (-53)); lra). rewrite E, E'. reflexivity.
Qed.

Lemma realBelow_exact : forall fuel upper p, (1 <= fuel)%nat -> number upper -> (two (-16382) <= val upper)%Q ->
  (Pr (realBelow fuel upper) (holds p) == Pr (randomReal fuel) (holds (fun x => negb (Qle_bool 1 (val x)) && p (rmul x upper))) * powers (two (-54)) fuel)%Q.
Proof.
  intros fuel upper p FU N U. assert (UP : (0 < val upper)%Q) by (pose proof (two_pos (-16382)); lra).
  rewrite (realBelow_law fuel upper p N UP). apply Qmult_comp; [|apply powers_same, realBelow_repeats; auto].
  unfold Pr. rewrite expect_bind. apply expect_ext_always.
  eapply always_mono; [|apply always_and; [apply real_range|apply real_gap]]. intros [x| | |] (O & G); cbn [orFuel] in O, G; try contradiction; [|reflexivity]. destruct O as (NX & RX).
  cbn [ret expect holds]. destruct (rmul_shrinks x upper NX N ltac:(lra) RX) as ((V & F) & Y). destruct N as (VU & FUU). destruct G as [G|G].
  - assert (E : SFltb (rmul x upper) upper = false).
    { apply not_true_is_false. intro C. apply (ltb_val prec emax P64 E64) in C; auto. rewrite (rmul_one x upper) in C; auto; [lra|split; auto]. }
    assert (E' : Qle_bool 1 (val x) = true) by (apply Qle_bool_iff; lra). rewrite E, E'. reflexivity.
  - assert (E : SFltb (rmul x upper) upper = true) by (apply (ltb_val prec emax P64 E64); auto; apply rmul_below; auto; [split; auto|lra]).
    assert (E' : Qle_bool 1 (val x) = false) by (apply not_true_is_false; intro C; apply Qle_bool_iff in C; pose proof (two_pos (-53)); lra). rewrite E, E'. reflexivity.
Qed.

(* ---- subtraction of a quotient ---- *)
Lemma round_aux_opp : forall s m e l, SFopp (binary_round_aux prec emax s m e l) = binary_round_aux prec emax (negb s) m e l.
Proof.
  intros s m e l. unfold binary_round_aux. destruct (shr_fexp prec emax m e l) as [mrs' e']. destruct (shr_fexp prec emax (round_nearest_even (shr_m mrs') (loc_of_shr_record mrs')) e' loc_Exact) as [mrs'' e''].
  destruct (shr_m mrs''); try reflexivity. destruct (e'' <=? emax - prec); reflexivity.
Qed.
Lemma rdiv_opp : forall x y, rdiv (ropp x) y = ropp (rdiv x y).
Proof.
  intros [s1|s1| |s1 m1 e1] [s2|s2| |s2 m2 e2]; unfold rdiv, ropp, SFopp, SFdiv; try reflexivity; try (f_equal; destruct s1, s2; reflexivity).
  fold SFopp. destruct (SFdiv_core_binary prec emax (Z.pos m1) e1 (Z.pos m2) e2) as [[mz ez] lz]. change (binary_round_aux prec emax (xorb (negb s1) s2) mz ez lz = SFopp (binary_round_aux prec emax (xorb s1 s2) mz ez lz)).
  rewrite round_aux_opp. f_equal. destruct s1, s2; reflexivity.
Qed.
Lemma rsub_radd : forall x y, rsub x y = radd x (ropp y).
Proof.
  intros [s1|s1| |s1 m1 e1] [s2|s2| |s2 m2 e2]; unfold rsub, radd, ropp, SFopp, SFsub, SFadd; try reflexivity; try (destruct s1, s2; reflexivity).
Qed.

Section Libm.
  Variables sqrt sin cos log log1p log2 exp2 lgamma : real -> real.
  Variable lgammaZ : Z -> real.
  Variable unspecified : real -> Z.

  Lemma exponentialIn_law : forall fuel fuel' lower upper lambda p,
    isfinite lower = true -> isnan upper = false -> SFltb lower upper = true -> SFltb rzero lambda = true ->
    let try := let? e := exponential log fuel' lambda in ret (radd lower e) in
    let inside := fun r => SFltb r upper in
    (Pr (exponentialIn log fuel fuel' lower upper lambda) (holds p) == Pr try (holds (fun r => inside r && p r)) * powers (Pr try (holds (fun r => negb (inside r)))) fuel)%Q.
  Proof.
    intros fuel fuel' lower upper lambda p A B C D try inside. unfold exponentialIn. rewrite A, B, C, D. cbn [negb judgeAssert lift rbind].
    apply (keep_law _ try inside (fun k => exponentialLoop log k fuel' lower upper lambda)); [reflexivity|].
    intros k f. cbn [exponentialLoop]. unfold try, exponential. rewrite D. cbn [judgeAssert lift rbind]. rewrite !expect_bind. apply expect_ext. intros [u| | |]; [|reflexivity..].
    cbn [ret rbind expect]. rewrite rdiv_opp, <- rsub_radd. reflexivity.
  Qed.
  Lemma geometricIn_law : forall fuel fuel' lower upper pr p,
    lower < upper -> SFleb rzero pr = true -> SFltb pr rone = true ->
    let try := let? g := geometric log log1p unspecified fuel' pr in lift (chk (lower + g)) in
    let inside := fun r => r <? upper in
    (Pr (geometricIn log log1p unspecified fuel fuel' lower upper pr) (holds p) == Pr try (holds (fun r => inside r && p r)) * powers (Pr try (holds (fun r => negb (inside r)))) fuel)%Q.
  Proof.
    intros fuel fuel' lower upper pr p A B C try inside. unfold geometricIn. apply Z.ltb_lt in A. rewrite A, B, C. cbn [andb judgeAssert lift rbind].
    apply (keep_law _ try inside (fun k => geometricLoop log log1p unspecified k fuel' lower upper pr)); [reflexivity|].
    intros k f. cbn [geometricLoop]. unfold try, geometric. rewrite B, C. cbn [andb judgeAssert lift rbind]. rewrite !expect_bind. apply expect_ext. intros [u| | |]; [|reflexivity..].
    cbn [ret rbind expect]. destruct (chk (lower + llroundFloor unspecified (rdiv (log u) (log1p (ropp pr))))); reflexivity.
  Qed.
  Lemma binomialIn_law : forall fuel fuel' lower upper n pr p, lower < upper ->
    (Pr (binomialIn sqrt log log1p lgamma lgammaZ unspecified fuel fuel' lower upper n pr) (holds p) ==
     firstInside (fun k => binomial sqrt log log1p lgamma lgammaZ unspecified k fuel' n pr) (fun r => (lower <=? r) && (r <? upper)) p fuel)%Q.
  Proof.
    intros fuel fuel' lower upper n pr p A. unfold binomialIn. apply Z.ltb_lt in A. rewrite A. cbn [judgeAssert lift rbind].
    apply (keep_each _ (fun k => binomial sqrt log log1p lgamma lgammaZ unspecified k fuel' n pr) (fun r => (lower <=? r) && (r <? upper)) (fun k => binomialLoop sqrt log log1p lgamma lgammaZ unspecified k fuel' lower upper n pr)); reflexivity.
  Qed.
  (* the first of the two values of a pair that is inside *)
  Lemma normalIn_law : forall fuel fuel' lower upper mean stddev p,
    isnan lower = false -> isnan upper = false -> SFltb lower upper = true -> SFleb rzero stddev = true ->
    let try := let? u := randomReal fuel' in let? v := randomReal fuel' in ret [boxMuller sqrt cos log mean stddev (u, v); boxMuller sqrt sin log mean stddev (u, v)] in
    let first := List.find (fun r => SFleb lower r && SFltb r upper) in
    (Pr (normalIn sqrt sin cos log fuel fuel' lower upper mean stddev) (holds p) ==
     Pr try (holds (fun rs => match first rs with Some r => p r | None => false end)) * powers (Pr try (holds (fun rs => match first rs with Some _ => false | None => true end))) fuel)%Q.
  Proof.
    intros fuel fuel' lower upper mean stddev p A B C D try first. unfold normalIn. rewrite A, B, C, D. cbn [negb judgeAssert lift rbind].
    apply (rounds_same _ _ try first (fun k => normalLoop sqrt sin cos log k fuel' lower upper mean stddev)); [reflexivity|].
    intros k f. cbn [normalLoop]. unfold try. rewrite !expect_bind. apply expect_ext. intros [u| | |]; [|reflexivity..]. rewrite !expect_bind. apply expect_ext. intros [v| | |]; [|reflexivity..].
    cbn [ret expect]. unfold twoPi. rewrite turn, minusTwo. unfold first, boxMuller. cbn [List.find fst snd].
    destruct (SFleb lower _ && SFltb _ upper); [reflexivity|]. destruct (SFleb lower _ && SFltb _ upper); reflexivity.
  Qed.
End Libm.

(* ---- the rotation of noncollinearPoints ---- *)
Lemma rotLoop_law : forall fuel p a b, 0 < p -> is_i64 p -> 0 <= a < p -> 0 <= b < p -> (a, b) <> (0, 0) ->
  (Pr (rotLoop fuel p) (holds (fun r => (fst r =? a) && (snd r =? b))) == (1 / inject_Z (p * p)) * powers (1 / inject_Z (p * p)) fuel)%Q.
Proof.
  intros fuel p a b P I A B N.
  assert (U : forall c d, 0 <= c < p -> 0 <= d < p -> (Pr (let? x := rint 0 p in let? y := rint 0 p in ret (x, y)) (holds (fun r => (fst r =? c)%Z && (snd r =? d)%Z)) == 1 / inject_Z (p * p))%Q).
  { intros c d C D. assert (PN : ~ (inject_Z p == 0)%Q) by (apply inject_Z_nonzero; lia). unfold Pr. rewrite expect_bind, expect_rint by lia.
    rewrite (qsum_ext _ _ (fun x => (1 / inject_Z p) * if (x =? c)%Z then 1 else 0)%Q).
    - rewrite qsum_mult. rewrite (qsum_single _ _ (zseq 0 (Z.to_nat (p - 0))) c 1).
      + rewrite Z.sub_0_r, inject_Z_mult. field. auto.
      + apply zseq_NoDup.
      + apply in_zseq. lia.
      + rewrite Z.eqb_refl. reflexivity.
      + intros z _ Z. destruct (Z.eqb_spec z c); [contradiction|reflexivity].
    - intros x X. rewrite expect_bind, expect_rint by lia. destruct (Z.eqb_spec x c).
      + rewrite (qsum_ext _ _ (fun y => if (y =? d)%Z then 1 else 0)%Q).
        * rewrite (qsum_single _ _ (zseq 0 (Z.to_nat (p - 0))) d 1).
          -- rewrite Z.sub_0_r. field. auto.
          -- apply zseq_NoDup.
          -- apply in_zseq. lia.
          -- rewrite Z.eqb_refl. reflexivity.
          -- intros z _ Z. destruct (Z.eqb_spec z d); [contradiction|reflexivity].
        * intros y Y. cbn [ret expect holds fst snd]. subst. rewrite Z.eqb_refl. reflexivity.
      + rewrite (qsum_zero).
        * rewrite Z.sub_0_r. field. auto.
        * intros y Y. cbn [ret expect holds fst snd]. destruct (Z.eqb_spec x c); [lia|]. reflexivity. }
  rewrite (keep_law _ (let? x := rint 0 p in let? y := rint 0 p in ret (x, y)) (fun r => negb ((fst r =? 0) && (snd r =? 0))) (fun k => rotLoop k p)); [|reflexivity|].
  - apply Qmult_comp.
    + rewrite <- (U a b A B). apply pr_ext. intros [(x, y)| | |]; try reflexivity. cbn [holds fst snd].
      destruct (Z.eqb_spec x a), (Z.eqb_spec y b); cbn [andb]; try apply andb_false_r. subst. destruct (Z.eqb_spec a 0), (Z.eqb_spec b 0); cbn; auto. subst. congruence.
    + apply powers_same. rewrite <- (U 0 0 ltac:(lia) ltac:(lia)). apply pr_ext. intros [(x, y)| | |]; try reflexivity. cbn [holds fst snd]. apply negb_involutive.
  - intros k f. cbn [rotLoop]. rewrite !expect_bind. apply expect_ext. intros [x| | |]; [|reflexivity..]. rewrite !expect_bind. apply expect_ext. intros [y| | |]; [|reflexivity..].
    cbn [ret expect fst snd]. destruct ((x =? 0) && (y =? 0)); reflexivity.
Qed.
