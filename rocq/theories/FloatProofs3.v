(* Differences and quotients are rounded: they keep the order to all numbers of the format. *)
From Verif Require Import Tac FloatModel FloatSpec FloatProofs FloatProofs2 RealProofs2 RealProofs3 RealProofs6.
From Coq Require Import QArith Qabs Qfield Lqa Lia ZArith SpecFloat.
Open Scope Z_scope.

Lemma iter_pos_nat : forall A (f : A -> A) p x, iter_pos f p x = Nat.iter (Pos.to_nat p) f x.
Proof.
  intros A f p. assert (AD : forall a b x, Nat.iter (a + b) f x = Nat.iter a f (Nat.iter b f x)) by (induction a as [|a IH]; intros b x; [reflexivity|]; change (f (Nat.iter (a + b) f x) = f (Nat.iter a f (Nat.iter b f x))); rewrite IH; reflexivity).
  induction p as [p IH|p IH|]; intro x; cbn [iter_pos].
  - rewrite !IH, <- AD. rewrite Pos2Nat.inj_xI. replace (S (2 * Pos.to_nat p)) with (Pos.to_nat p + Pos.to_nat p + 1)%nat by lia. rewrite (AD _ 1%nat). cbn [Nat.iter]. reflexivity.
  - rewrite !IH, <- AD. rewrite Pos2Nat.inj_xO. f_equal. lia.
  - reflexivity.
Qed.
Lemma iter_pos_plus : forall A (f : A -> A) p q x, iter_pos f (p + q) x = iter_pos f p (iter_pos f q x).
Proof.
  intros. rewrite !iter_pos_nat, Pos2Nat.inj_add. generalize (Pos.to_nat p). induction n as [|n IH]; [reflexivity|]. cbn [Nat.add]. change (f (Nat.iter (n + Pos.to_nat q) f x) = f (Nat.iter n f (Nat.iter (Pos.to_nat q) f x))). rewrite IH. reflexivity.
Qed.

(* a mantissa with a location is a mantissa with two more bits *)
Definition bits (l : location) : Z := match l with loc_Exact => 0 | loc_Inexact Lt => 1 | loc_Inexact Eq => 2 | loc_Inexact Gt => 3 end.
Lemma shr_bits : forall m l, 0 <= m -> iter_pos shr_1 2 {| shr_m := 4 * m + bits l; shr_r := false; shr_s := false |} = shr_record_of_loc m l.
Proof. intros m l M. destruct m as [|p|p]; [destruct l as [|[]]; reflexivity|destruct l as [|[]]; reflexivity|lia]. Qed.

Section Format.
  Variable P E : Z.
  Hypothesis P1 : 1 < P.
  Hypothesis PE : P < E.
  Notation emn := (emin P E).

  Lemma round_aux_bits : forall s m e l, 0 <= m -> e <= fexp P E (dg m + e) -> fexp P E (dg (4 * m + bits l) + (e - 2)) = fexp P E (dg m + e) ->
    binary_round_aux P E s m e l = binary_round_aux P E s (4 * m + bits l) (e - 2) loc_Exact.
  Proof.
    intros s m e l M H1 H2. unfold binary_round_aux. unfold shr_fexp at 1 3. fold (dg m) (dg (4 * m + bits l)). rewrite H2. set (n := fexp P E (dg m + e) - e) in *.
    replace (fexp P E (dg m + e) - (e - 2)) with (n + 2) by lia. cbn [shr_record_of_loc].
    enough (X : shr (shr_record_of_loc m l) e n = shr {| shr_m := 4 * m + bits l; shr_r := false; shr_s := false |} (e - 2) (n + 2)) by (rewrite X; reflexivity).
    destruct n as [|p|p] eqn:N; [| |lia].
    - cbn [Z.add shr]. rewrite shr_bits by auto. f_equal. lia.
    - change (Zpos p + 2) with (Zpos (p + 2)). cbn [shr]. rewrite iter_pos_plus, shr_bits by auto. f_equal. lia.
  Qed.

  (* y is x rounded, up to sign: it keeps the order to the numbers of the format *)
  Definition isRound (x : Q) (y : spec_float) : Prop := valid P E y /\ isnan y = false /\ forall c g, 0 <= c <= 2 ^ P -> emn <= g ->
    ((x <= inject_Z c * two g)%Q -> (inject_Z c * two g < two E)%Q -> isfinite y = true /\ (Qabs (val y) <= inject_Z c * two g)%Q) /\
    ((inject_Z c * two g <= x)%Q -> isfinite y = true -> (inject_Z c * two g <= Qabs (val y))%Q).

  Lemma isRound_ext : forall x x' y, (x == x')%Q -> isRound x y -> isRound x' y.
  Proof. intros x x' y H (A & N & B). split; auto. split; auto. intros c g C G. rewrite <- H. apply B; auto. Qed.
  Lemma isRound_self : forall y, valid P E y -> isfinite y = true -> isRound (Qabs (val y)) y.
  Proof. intros y V F. split; auto. split; [destruct y; try discriminate; reflexivity|]. intros c g _ _. split; auto. Qed.
  Lemma abs_sign : forall (s : bool) v, (0 <= v)%Q -> (Qabs ((if s then - (1) else 1) * v) == v)%Q.
  Proof. intros s v H. destruct s; [setoid_replace (- (1) * v)%Q with (- v)%Q by ring; rewrite Qabs_opp|rewrite Qmult_1_l]; apply Qabs_pos; auto. Qed.
  Lemma norm_nan : forall s q e, isnan (norm P E s q e) = false.
  Proof. intros. unfold norm. repeat match goal with |- context [if ?c then _ else _] => destruct c end; reflexivity. Qed.

  (* the rounding of M stands for the rounding of x, if no number of the format separates them *)
  Lemma norm_isRound : forall s x M e, 0 < M ->
    (forall c g, 0 <= c <= 2 ^ P -> emn <= g -> ((x <= inject_Z c * two g)%Q -> (inject_Z M * two e <= inject_Z c * two g)%Q) /\ ((inject_Z c * two g <= x)%Q -> (inject_Z c * two g <= inject_Z M * two e)%Q)) ->
    isRound x (norm P E s (rne M (target P E M e - e)) (target P E M e)).
  Proof.
    intros s x M e M0 H. destruct (rne_pow P E P1 M e M0) as (R1 & R2). split; [apply norm_valid; auto; apply target_min|]. split; [apply norm_nan|]. intros c g C G. destruct (H c g C G) as (H1 & H2).
    set (q := rne M (target P E M e - e)) in *. set (t := target P E M e) in *.
    assert (QP : (0 <= inject_Z q * two t)%Q). { apply Qmult_le_0_compat; [|pose proof (two_pos t); lra]. change 0%Q with (inject_Z 0). rewrite <- Zle_Qle. lia. }
    assert (FV : isfinite (norm P E s q t) = true -> (Qabs (val (norm P E s q t)) == inject_Z q * two t)%Q).
    { intro F. destruct (norm_val P E P1 s q t R1) as [(i & K)|(_ & K)]; [rewrite K in F; discriminate|]. rewrite K. apply abs_sign. auto. }
    split.
    - intros X L. pose proof (rounded_le P E P1 M e c g M0 C G (H1 X)) as RL. fold t q in RL.
      assert (F : isfinite (norm P E s q t) = true) by (apply norm_finite; auto; [apply target_min|lra]). split; auto. rewrite FV by auto. auto.
    - intros X F. rewrite FV by auto. apply (rounded_ge P E P1 M e c g); auto.
  Qed.
  Lemma round_isRound : forall s p e, isRound (inject_Z (Zpos p) * two e) (binary_round P E s p e).
  Proof. intros s p e. rewrite round_norm by auto. apply norm_isRound; [lia|]. intros. split; auto. Qed.
  Lemma normalize_isRound : forall z e, isRound (Qabs (inject_Z z * two e)) (binary_normalize P E z e false).
  Proof.
    intros z e. destruct z as [|p|p]; cbn [binary_normalize].
    - eapply isRound_ext; [|apply isRound_self; reflexivity]. setoid_replace (inject_Z 0 * two e)%Q with 0%Q by (change (inject_Z 0) with 0%Q; ring). reflexivity.
    - eapply isRound_ext; [|apply round_isRound]. rewrite Qabs_pos; [reflexivity|]. pose proof (val_pos p e). lra.
    - eapply isRound_ext; [|apply round_isRound]. setoid_replace (inject_Z (Zneg p) * two e)%Q with (- (inject_Z (Zpos p) * two e))%Q by (change (Zneg p) with (- Zpos p); rewrite inject_Z_opp; ring).
      rewrite Qabs_opp, Qabs_pos; [reflexivity|]. pose proof (val_pos p e). lra.
  Qed.
  Lemma cond_val : forall (s : bool) m e f, f <= e -> (inject_Z (cond_Zopp s (Zpos (fst (shl_align m e f)))) * two f == val (S754_finite s m e))%Q.
  Proof.
    intros s m e f H. pose proof (shl_align_val m e f H) as A. cbn [val]. destruct s; cbn [cond_Zopp]; [rewrite inject_Z_opp|]; setoid_rewrite <- A; ring.
  Qed.
  Lemma sub_isRound : forall x y, valid P E x -> valid P E y -> isfinite x = true -> isfinite y = true -> isRound (Qabs (val x - val y)) (SFsub P E x y).
  Proof.
    intros x y VX VY FX FY. destruct x as [s1|s1| |s1 m1 e1], y as [s2|s2| |s2 m2 e2]; try discriminate.
    - eapply isRound_ext; [|apply isRound_self; cbn [SFsub]; destruct (Bool.eqb s1 (negb s2)); reflexivity]. cbn [SFsub]. destruct (Bool.eqb s1 (negb s2)); reflexivity.
    - cbn [SFsub]. eapply isRound_ext; [|apply isRound_self; [|reflexivity]]; [|exact VY]. change (val (S754_zero s1)) with 0%Q. rewrite <- (Qabs_opp (0 - val (S754_finite s2 m2 e2))).
      assert (X : (val (S754_finite (negb s2) m2 e2) == - val (S754_finite s2 m2 e2))%Q) by (cbn [val]; destruct s2; cbn [negb]; ring). rewrite X. setoid_replace (- (0 - val (S754_finite s2 m2 e2)))%Q with (val (S754_finite s2 m2 e2)) by ring. rewrite Qabs_opp. reflexivity.
    - cbn [SFsub]. eapply isRound_ext; [|apply isRound_self; [exact VX|reflexivity]]. change (val (S754_zero s2)) with 0%Q. setoid_replace (val (S754_finite s1 m1 e1) - 0)%Q with (val (S754_finite s1 m1 e1)) by ring. reflexivity.
    - cbn [SFsub]. cbv zeta. eapply isRound_ext; [|apply normalize_isRound]. set (z := Z.min e1 e2). unfold Zminus. rewrite inject_Z_plus, inject_Z_opp.
      rewrite <- (cond_val s1 m1 e1 z) by lia. rewrite <- (cond_val s2 m2 e2 z) by lia.
      setoid_replace ((inject_Z (cond_Zopp s1 (Z.pos (fst (shl_align m1 e1 z)))) + - inject_Z (cond_Zopp s2 (Z.pos (fst (shl_align m2 e2 z))))) * two z)%Q with
        (inject_Z (cond_Zopp s1 (Z.pos (fst (shl_align m1 e1 z)))) * two z - inject_Z (cond_Zopp s2 (Z.pos (fst (shl_align m2 e2 z)))) * two z)%Q by ring. reflexivity.
  Qed.
  (* a fraction and its two leading bits are on the same side of every integer *)
  Lemma frac_sep : forall q b K (f : Q), 0 <= b <= 3 -> (0 <= f < 1)%Q -> ((f == 0)%Q -> b = 0) ->
    ((inject_Z q + f <= inject_Z K)%Q -> 4 * q + b <= 4 * K) /\ ((inject_Z K <= inject_Z q + f)%Q -> 4 * K <= 4 * q + b).
  Proof.
    intros q b K f B F Z. split; intro H.
    - destruct (Qlt_le_dec 0 f) as [L|L].
      + assert (X : (inject_Z q < inject_Z K)%Q) by lra. rewrite <- Zlt_Qlt in X. lia.
      + assert (b = 0) by (apply Z; lra). assert (X : (inject_Z q <= inject_Z K)%Q) by lra. rewrite <- Zle_Qle in X. lia.
    - assert (X : (inject_Z K < inject_Z (q + 1))%Q) by (rewrite inject_Z_plus; change (inject_Z 1) with 1%Q; lra). rewrite <- Zlt_Qlt in X. lia.
  Qed.
  Lemma two_minus2 : forall e, (4 * two (e - 2) == two e)%Q.
  Proof. intro e. replace (two e) with (two (2 + (e - 2))) by (f_equal; lia). rewrite two_plus. change (two 2) with 4%Q. reflexivity. Qed.
  Lemma div_sep : forall q b e (f : Q), 0 <= q -> 0 <= b <= 3 -> (0 <= f < 1)%Q -> ((f == 0)%Q -> b = 0) -> (emn < e -> 2 ^ (P - 1) <= q) ->
    forall c g, 0 <= c <= 2 ^ P -> emn <= g ->
    (((inject_Z q + f) * two e <= inject_Z c * two g)%Q -> (inject_Z (4 * q + b) * two (e - 2) <= inject_Z c * two g)%Q) /\
    ((inject_Z c * two g <= (inject_Z q + f) * two e)%Q -> (inject_Z c * two g <= inject_Z (4 * q + b) * two (e - 2))%Q).
  Proof.
    intros q b e f Q B F Z0 N c g C G. pose proof (two_pos e) as TE. pose proof (two_pos (e - 2)) as TE2.
    destruct (Z_lt_le_dec g e) as [L|L].
    - assert (S : (inject_Z c * two g <= inject_Z q * two e)%Q).
      { specialize (N ltac:(lia)). apply (scale_le _ g _ e g); [lia|lia|]. rewrite Z.sub_diag, Z.pow_0_r, Z.mul_1_r.
        assert (A : 2 ^ P = 2 * 2 ^ (P - 1)) by (rewrite <- Z.pow_succ_r by lia; f_equal; lia). assert (2 ^ 1 <= 2 ^ (e - g)) by (apply Z.pow_le_mono_r; lia). change (2 ^ 1) with 2 in *. nia. }
      assert (M : (inject_Z (4 * q + b) * two (e - 2) == inject_Z q * two e + inject_Z b * two (e - 2))%Q).
      { rewrite inject_Z_plus, inject_Z_mult, <- (two_minus2 e). change (inject_Z 4) with 4%Q. ring. }
      assert (B0 : (0 <= inject_Z b)%Q) by (change 0%Q with (inject_Z 0); rewrite <- Zle_Qle; lia).
      split; intro H.
      + assert (F0 : (f == 0)%Q) by nra. rewrite M, (Z0 F0). change (inject_Z 0) with 0%Q. nra.
      + rewrite M. nra.
    - assert (M : (inject_Z c * two g == inject_Z (4 * (c * 2 ^ (g - e))) * two (e - 2))%Q).
      { rewrite !inject_Z_mult. change (inject_Z 4) with 4%Q. setoid_replace (4 * (inject_Z c * inject_Z (2 ^ (g - e))) * two (e - 2))%Q with (inject_Z c * (inject_Z (2 ^ (g - e)) * (4 * two (e - 2))))%Q by ring.
        rewrite two_minus2, pow_two by lia. replace (g - e + e) with g by lia. reflexivity. }
      assert (M2 : (inject_Z c * two g == inject_Z (c * 2 ^ (g - e)) * two e)%Q) by (rewrite M, inject_Z_mult, <- (two_minus2 e); change (inject_Z 4) with 4%Q; ring).
      destruct (frac_sep q b (c * 2 ^ (g - e)) f B F Z0) as (S1 & S2). split; intro H.
      + rewrite M2 in H. apply Qmult_le_r in H; auto. specialize (S1 H). rewrite M. apply Qmult_le_compat_r; [|lra]. rewrite <- Zle_Qle. lia.
      + rewrite M2 in H. apply Qmult_le_r in H; auto. specialize (S2 H). rewrite M. apply Qmult_le_compat_r; [|lra]. rewrite <- Zle_Qle. lia.
  Qed.
  Lemma bits_location : forall m r, 0 < m -> 0 <= r < m -> 0 <= bits (new_location m r) <= 3 /\ (r = 0 -> bits (new_location m r) = 0).
  Proof.
    intros m r M R. unfold new_location, new_location_even, new_location_odd. split.
    - destruct (Z.even m), (Zeq_bool r 0); cbn [bits]; try lia; repeat match goal with |- context [match ?c with Eq => _ | Lt => _ | Gt => _ end] => destruct c end; cbn [bits]; lia.
    - intros ->. change (Zeq_bool 0 0) with true. destruct (Z.even m); reflexivity.
  Qed.
  Lemma dg_bits : forall q l, 0 < q -> dg (4 * q + bits l) = dg q + 2.
  Proof. intros [|p|p] l H; try lia. unfold dg. destruct l as [|[]]; cbn [Zdigits2 bits Z.mul Z.add Pos.mul Pos.add digits2_pos]; lia. Qed.
  Lemma div_isRound : forall x y, valid P E x -> valid P E y -> isfinite x = true -> isfinite y = true -> ~ (val y == 0)%Q -> isRound (Qabs (val x) / Qabs (val y)) (SFdiv P E x y).
  Proof.
    intros x y VX VY FX FY NZ. destruct y as [s2|s2| |s2 m2 e2]; try discriminate; [exfalso; apply NZ; reflexivity|]. destruct x as [s1|s1| |s1 m1 e1]; try discriminate.
    - cbn [SFdiv]. eapply isRound_ext; [|apply isRound_self; reflexivity]. cbn [val]. change (Qabs 0) with 0%Q. unfold Qdiv. rewrite Qmult_0_l. reflexivity.
    - assert (AV : forall s m e, (Qabs (val (S754_finite s m e)) == inject_Z (Zpos m) * two e)%Q) by (intros; cbn [val]; apply abs_sign; pose proof (val_pos m e); lra).
      unfold SFdiv, SFdiv_core_binary. cbv zeta.
      fold (dg (Zpos m1)) (dg (Zpos m2)). set (e' := Z.min _ _). set (sh := e1 - e2 - e'). assert (SH : 0 <= sh) by (unfold sh, e'; lia).
      set (m' := match sh with Z0 => _ | Zpos _ => _ | Zneg _ => _ end). assert (M' : m' = Zpos m1 * 2 ^ sh).
      { unfold m'. destruct sh; [lia|rewrite Z.shiftl_mul_pow2 by lia; reflexivity|lia]. }
      clearbody m'. pose proof (Z_div_mod m' (Zpos m2) ltac:(lia)) as D. destruct (Z.div_eucl m' (Zpos m2)) as [q r]. destruct D as (D1 & D2).
      assert (PS : 0 < 2 ^ sh) by (apply Z.pow_pos_nonneg; lia). assert (Q : 0 <= q) by nia.
      assert (DM : dg m' = dg (Zpos m1) + sh) by (rewrite !dg_pos by nia; rewrite M', Z.log2_mul_pow2 by lia; lia).
      assert (K : dg m' <= dg q + dg (Zpos m2)).
      { rewrite (dg_pos m') by nia. rewrite (dg_pos (Zpos m2)) by lia. pose proof (log2_bounds (Zpos m2) ltac:(lia)) as (_ & L2).
        assert (QB : q < 2 ^ dg q). { destruct (Z.eq_dec q 0) as [->|]; [reflexivity|]. rewrite dg_pos by lia. apply (log2_bounds q). lia. }
        assert (B : m' < 2 ^ (dg q + (Z.log2 (Zpos m2) + 1))). { pose proof (dg_nonneg q Q). pose proof (Z.log2_nonneg (Zpos m2)). rewrite Z.pow_add_r by lia. nia. }
        apply Z.log2_lt_pow2 in B; nia. }
      assert (H1 : e' <= fexp P E (dg q + e')) by (pose proof (fexp_mono P E (dg (Zpos m1) + e1 - (dg (Zpos m2) + e2)) (dg q + e') ltac:(lia)); unfold e' at 1; lia).
      destruct (bits_location (Zpos m2) r ltac:(lia) D2) as (B1 & B2). set (l := new_location (Zpos m2) r) in *.
      assert (H2 : fexp P E (dg (4 * q + bits l) + (e' - 2)) = fexp P E (dg q + e')).
      { destruct (Z.eq_dec q 0) as [Q0|Q0]; [|rewrite dg_bits by lia; f_equal; lia].
        assert (B3 : dg (4 * q + bits l) <= 2) by (rewrite Q0; destruct l as [|[]]; cbn; lia). rewrite Q0 in H1 |- *. rewrite Q0 in B3. change (dg 0) with 0 in *. unfold fexp in *. pose proof (dg_nonneg (4 * 0 + bits l) ltac:(lia)). lia. }
      assert (QB : emn < e' -> 2 ^ (P - 1) <= q).
      { intro L. assert (G : P <= dg q) by (unfold fexp in H1; lia). destruct (Z.eq_dec q 0) as [Q0|Q0]; [rewrite Q0 in G; change (dg 0) with 0 in G; lia|]. rewrite dg_pos in G by lia.
        pose proof (log2_bounds q ltac:(lia)) as (L1 & _). pose proof (Z.pow_le_mono_r 2 (P - 1) (Z.log2 q) ltac:(lia) ltac:(lia)). lia. }
      assert (MP : 0 < 4 * q + bits l).
      { assert (X : 0 < q \/ (q = 0 /\ 0 < r)) by nia. destruct X as [X|(_ & X)]; [lia|]. enough (bits l <> 0) by lia. unfold l, new_location, new_location_even, new_location_odd.
        assert (Y : Zeq_bool r 0 = false) by (destruct (Zeq_bool r 0) eqn:Y; auto; apply Zeq_bool_eq in Y; lia). destruct (Z.even (Zpos m2)); rewrite Y; cbn [bits]; repeat match goal with |- context [match ?c with Eq => _ | Lt => _ | Gt => _ end] => destruct c end; cbn [bits]; lia. }
      assert (T : target P E (4 * q + bits l) (e' - 2) = fexp P E (dg (4 * q + bits l) + (e' - 2))) by (unfold target; rewrite dg_pos by lia; reflexivity).
      rewrite round_aux_bits by auto. rewrite round_aux_norm by (auto; lia).
      assert (M2P : (0 < inject_Z (Zpos m2))%Q) by (change 0%Q with (inject_Z 0); rewrite <- Zlt_Qlt; lia).
      assert (R0 : (0 <= inject_Z r)%Q) by (change 0%Q with (inject_Z 0); rewrite <- Zle_Qle; lia). assert (R1 : (inject_Z r < inject_Z (Zpos m2))%Q) by (rewrite <- Zlt_Qlt; lia).
      eapply isRound_ext; [|apply norm_isRound with (x := ((inject_Z q + inject_Z r / inject_Z (Zpos m2)) * two e')%Q); [exact MP|]].
      + rewrite !AV. replace e1 with (sh + (e2 + e')) at 1 by (unfold sh; lia). rewrite (two_plus sh), (two_plus e2), (two_Z sh) by auto.
        setoid_replace (inject_Z (Zpos m1) * (inject_Z (2 ^ sh) * (two e2 * two e')))%Q with (inject_Z (Zpos m1 * 2 ^ sh) * (two e2 * two e'))%Q by (rewrite inject_Z_mult; ring).
        rewrite <- M', D1, inject_Z_plus, inject_Z_mult. field. split; [pose proof (two_pos e2)|]; lra.
      + apply div_sep; auto.
        * split; [apply Qle_shift_div_l; auto; lra|apply Qlt_shift_div_r; auto; lra].
        * intro F. apply B2. assert (X : (inject_Z r == 0)%Q) by (setoid_replace (inject_Z r) with (inject_Z r / inject_Z (Zpos m2) * inject_Z (Zpos m2))%Q by (field; lra); rewrite F; ring).
          apply (proj1 (inject_Z_injective r 0)). exact X.
  Qed.
End Format.
