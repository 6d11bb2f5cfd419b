(* Quotients are data of the format. *)
From Verif Require Import Tac FloatModel FloatSpec FloatProofs.
From Coq Require Import QArith Lia ZArith SpecFloat.
Open Scope Z_scope.

Definition dg (m : Z) : Z := Zdigits2 m.
Lemma dg_pos : forall m, 0 < m -> dg m = Z.log2 m + 1.
Proof. intros [|p|p] H; try lia. unfold dg. cbn [Zdigits2]. apply digits_log2. Qed.
Lemma dg_nonneg : forall m, 0 <= m -> 0 <= dg m.
Proof. intros [|p|p] H; cbn; lia. Qed.
Lemma dg_mono : forall a b, 0 <= a <= b -> dg a <= dg b.
Proof.
  intros a b H. destruct (Z.eq_dec a 0) as [->|]; [apply dg_nonneg; lia|]. rewrite !dg_pos by lia. pose proof (Z.log2_le_mono a b). lia.
Qed.
Lemma shr_1_div : forall x, 0 <= shr_m x -> shr_m (shr_1 x) = shr_m x / 2.
Proof.
  intros [[|[p|p|]|p] r s] H; cbn [shr_1 shr_m] in *; auto; try lia.
Qed.
Lemma shr_div : forall x e n, 0 <= shr_m x -> 0 <= n -> shr_m (fst (shr x e n)) = shr_m x / 2 ^ n /\ snd (shr x e n) = e + n.
Proof.
  intros x e [|p|p] H N; cbn [shr fst snd].
  - rewrite Z.div_1_r. split; auto. lia.
  - split; auto. assert (I : (fun k y => 0 <= shr_m y /\ shr_m y = shr_m x / 2 ^ k) (0 + Zpos p) (iter_pos shr_1 p x)).
    { apply (iter_pos_inv _ _ (fun k y => 0 <= shr_m y /\ shr_m y = shr_m x / 2 ^ k)); try lia.
      intros k y K (Y1 & Y2). rewrite shr_1_div by auto. split; [apply Z.div_pos; lia|]. rewrite Y2, Z.div_div by (try apply Z.pow_pos_nonneg; lia). rewrite Z.pow_add_r by lia. reflexivity. }
    apply I.
  - lia.
Qed.
Lemma dg_div : forall m n, 0 <= m -> 0 <= n -> 0 < m / 2 ^ n -> dg (m / 2 ^ n) = dg m - n.
Proof.
  intros m n M N H. assert (P : 0 < 2 ^ n) by (apply Z.pow_pos_nonneg; lia). assert (M1 : 2 ^ n <= m). { apply Z.nlt_ge. intro L. rewrite Z.div_small in H; lia. }
  rewrite !dg_pos by lia. enough (Z.log2 (m / 2 ^ n) = Z.log2 m - n) by lia. pose proof (log2_bounds m ltac:(lia)) as (L1 & L2).
  assert (n <= Z.log2 m). { pose proof (Z.log2_le_mono _ _ M1) as X. rewrite Z.log2_pow2 in X by lia. auto. }
  apply Z.log2_unique; [lia|]. split.
  - apply Z.div_le_lower_bound; auto. rewrite <- Z.pow_add_r by lia. replace (n + (Z.log2 m - n)) with (Z.log2 m) by lia. auto.
  - apply Z.div_lt_upper_bound; auto. rewrite <- Z.pow_add_r by lia. replace (n + Z.succ (Z.log2 m - n)) with (Z.log2 m + 1) by lia. auto.
Qed.

Section Format.
  Variable P E : Z.
  Hypothesis P1 : 1 < P.
  Notation emn := (emin P E).

  Lemma fexp_mono : forall a b, a <= b -> fexp P E a <= fexp P E b.
  Proof. intros. unfold fexp. lia. Qed.
  (* one shift *)
  Lemma stage : forall m e l, 0 <= m -> e <= fexp P E (dg m + e) ->
    let r := shr_fexp P E m e l in
    0 <= shr_m (fst r) /\ snd r = fexp P E (dg m + e) /\ (0 < shr_m (fst r) -> dg (shr_m (fst r)) + snd r = dg m + e) /\ (shr_m (fst r) = 0 -> snd r = emn).
  Proof.
    intros m e l M H r. unfold shr_fexp in r. fold (dg m) in r. set (n := fexp P E (dg m + e) - e) in *.
    assert (R : shr_m (shr_record_of_loc m l) = m) by (destruct l as [|[]]; reflexivity).
    destruct (shr_div (shr_record_of_loc m l) e n ltac:(lia) ltac:(lia)) as (A & B). fold r in A, B. rewrite R in A. rewrite A, B. assert (PN : 0 < 2 ^ n) by (apply Z.pow_pos_nonneg; lia).
    split; [apply Z.div_pos; lia|]. split; [lia|]. split.
    - intro K. rewrite dg_div by lia. lia.
    - intro K. assert (L : m < 2 ^ n). { apply Z.nle_gt. intro G. pose proof (Z.div_le_mono (2 ^ n) m (2 ^ n) PN G) as X. rewrite Z.div_same in X; lia. }
      assert (D : dg m <= n). { destruct (Z.eq_dec m 0) as [->|]; [change (dg 0) with 0; lia|]. rewrite dg_pos by lia. pose proof (log2_bounds m ltac:(lia)) as (L1 & _).
        assert (2 ^ Z.log2 m < 2 ^ n) by lia. apply Z.pow_lt_mono_r_iff in H0; lia. }
      unfold n, fexp in *. lia.
  Qed.
  Lemma round_aux_valid : forall s m e l, 0 <= m -> e <= fexp P E (dg m + e) -> valid P E (binary_round_aux P E s m e l).
  Proof.
    intros s m e l M H. unfold binary_round_aux. pose proof (stage m e l M H) as S1. cbv zeta in S1. destruct (shr_fexp P E m e l) as [r1 e1]. cbn [fst snd] in S1. destruct S1 as (A1 & A2 & A3 & A4).
    set (z := round_nearest_even (shr_m r1) (loc_of_shr_record r1)). assert (Z1 : shr_m r1 <= z) by (unfold z, round_nearest_even; destruct (loc_of_shr_record r1) as [|[]]; try destruct (Z.even _); lia).
    assert (H2 : e1 <= fexp P E (dg z + e1)).
    { destruct (Z.eq_dec (shr_m r1) 0) as [K|K]; [rewrite (A4 K); unfold fexp; lia|]. specialize (A3 ltac:(lia)). pose proof (dg_mono (shr_m r1) z ltac:(lia)).
      pose proof (fexp_mono (dg m + e) (dg z + e1) ltac:(lia)). lia. }
    pose proof (stage z e1 loc_Exact ltac:(lia) H2) as S2. cbv zeta in S2. destruct (shr_fexp P E z e1 loc_Exact) as [r2 e2]. cbn [fst snd] in S2. destruct S2 as (B1 & B2 & B3 & B4).
    destruct (shr_m r2) as [|p|p] eqn:R2; try reflexivity. destruct (Zle_bool e2 (E - P)) eqn:L; [|reflexivity].
    unfold valid, valid_binary, bounded, canonical_mantissa. rewrite L, andb_true_r. apply Zeq_is_eq_bool. specialize (B3 ltac:(lia)). unfold dg at 1 in B3. cbn [Zdigits2] in B3. rewrite B3. lia.
  Qed.
  Lemma div_valid : forall x y, valid P E x -> valid P E y -> valid P E (SFdiv P E x y).
  Proof.
    intros x y VX VY. destruct x as [s1|s1| |s1 m1 e1], y as [s2|s2| |s2 m2 e2]; try reflexivity. unfold SFdiv, SFdiv_core_binary. cbv zeta.
    fold (dg (Zpos m1)) (dg (Zpos m2)). set (e' := Z.min _ _). set (sh := e1 - e2 - e'). assert (SH : 0 <= sh) by (unfold sh, e'; lia).
    set (m' := match sh with Z0 => _ | Zpos _ => _ | Zneg _ => _ end). assert (M' : m' = Zpos m1 * 2 ^ sh).
    { unfold m'. destruct sh; [lia|rewrite Z.shiftl_mul_pow2 by lia; reflexivity|lia]. }
    clearbody m'. pose proof (Z_div_mod m' (Zpos m2) ltac:(lia)) as D. destruct (Z.div_eucl m' (Zpos m2)) as [q r]. destruct D as (D1 & D2).
    assert (PS : 0 < 2 ^ sh) by (apply Z.pow_pos_nonneg; lia). assert (Q : 0 <= q) by nia. apply round_aux_valid; auto.
    assert (DM : dg m' = dg (Zpos m1) + sh) by (rewrite !dg_pos by nia; rewrite M', Z.log2_mul_pow2 by lia; lia).
    assert (K : dg m' <= dg q + dg (Zpos m2)).
    { rewrite (dg_pos m') by nia. rewrite (dg_pos (Zpos m2)) by lia. pose proof (log2_bounds (Zpos m2) ltac:(lia)) as (_ & L2).
      assert (QB : q < 2 ^ dg q). { destruct (Z.eq_dec q 0) as [->|]; [reflexivity|]. rewrite dg_pos by lia. apply (log2_bounds q). lia. }
      assert (B : m' < 2 ^ (dg q + (Z.log2 (Zpos m2) + 1))). { pose proof (dg_nonneg q Q). pose proof (Z.log2_nonneg (Zpos m2)). rewrite Z.pow_add_r by lia. nia. }
      apply Z.log2_lt_pow2 in B; nia. }
    pose proof (fexp_mono (dg (Zpos m1) + e1 - (dg (Zpos m2) + e2)) (dg q + e') ltac:(lia)). unfold e' at 1. lia.
  Qed.
End Format.
