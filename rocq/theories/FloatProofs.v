From Verif Require Import Tac FloatModel FloatSpec.
From Coq Require Import QArith Qpower Lqa Lia SpecFloat.
Open Scope Z_scope.

(* ---- powers of two ---- *)
Lemma two_pos : forall e, (0 < two e)%Q.
Proof. intro e. apply Qpower_0_lt. reflexivity. Qed.
Lemma two_plus : forall a b, (two (a + b) == two a * two b)%Q.
Proof. intros a b. apply Qpower_plus. intro H. discriminate H. Qed.
Lemma two_Z : forall n, 0 <= n -> (two n == inject_Z (2 ^ n))%Q.
Proof.
  intros n H. unfold two. change 2%Q with (inject_Z 2). symmetry. apply Zpower_Qpower. auto.
Qed.
Lemma two_le : forall a b, a <= b -> (two a <= two b)%Q.
Proof.
  intros a b H. replace b with (a + (b - a)) by lia. rewrite two_plus. rewrite (two_Z (b - a)) by lia.
  assert (1 <= 2 ^ (b - a)) by (pose proof (Z.pow_pos_nonneg 2 (b - a)); lia).
  assert (inject_Z 1 <= inject_Z (2 ^ (b - a)))%Q by (rewrite <- Zle_Qle; auto). pose proof (two_pos a). change (inject_Z 1) with 1%Q in *. nra.
Qed.
Lemma two_lt : forall a b, a < b -> (two a < two b)%Q.
Proof.
  intros a b H. pose proof (two_le (a + 1) b ltac:(lia)) as L. rewrite two_plus in L. change (two 1) with 2%Q in L. pose proof (two_pos a). nra.
Qed.
(* a * 2^e <= b * 2^f in integers *)
Lemma scale_le : forall a e b f g, g <= e -> g <= f ->
  ((inject_Z a * two e <= inject_Z b * two f)%Q <-> a * 2 ^ (e - g) <= b * 2 ^ (f - g)).
Proof.
  intros a e b f g H1 H2. replace e with ((e - g) + g) at 1 by lia. replace f with ((f - g) + g) at 1 by lia.
  rewrite !two_plus, (two_Z (e - g)), (two_Z (f - g)), !Qmult_assoc, <- !inject_Z_mult by lia.
  rewrite Qmult_le_r by apply two_pos. rewrite <- Zle_Qle. reflexivity.
Qed.
Lemma scale_lt : forall a e b f g, g <= e -> g <= f ->
  ((inject_Z a * two e < inject_Z b * two f)%Q <-> a * 2 ^ (e - g) < b * 2 ^ (f - g)).
Proof.
  intros a e b f g H1 H2. pose proof (scale_le b f a e g H2 H1) as S1. split; intro H.
  - apply Z.nle_gt. intro G. apply S1 in G. lra.
  - apply Qnot_le_lt. intro G. apply S1 in G. lia.
Qed.

(* ---- rounding of m / 2^n to nearest, ties to even ---- *)
Definition rne (m n : Z) : Z :=
  if n <=? 0 then m * 2 ^ (- n) else
  let q := m / 2 ^ n in
  match 2 * (m mod 2 ^ n) ?= 2 ^ n with
  | Lt => q
  | Eq => if Z.even q then q else q + 1
  | Gt => q + 1
  end.

Lemma rne_le : forall m n c, 0 <= n -> m <= c * 2 ^ n -> rne m n <= c.
Proof.
  intros m n c N H. unfold rne. destruct (Z.leb_spec n 0).
  - replace n with 0 in * by lia. change (2 ^ (-0)) with 1. change (2 ^ 0) with 1 in H. lia.
  - pose proof (Z.pow_pos_nonneg 2 n ltac:(lia) ltac:(lia)) as P. pose proof (Z.div_mod m (2 ^ n) ltac:(lia)) as D. pose proof (Z.mod_pos_bound m (2 ^ n) P) as B.
    set (q := m / 2 ^ n) in *. set (r := m mod 2 ^ n) in *. assert (q <= c) by nia.
    destruct (Z.compare_spec (2 * r) (2 ^ n)); [destruct (Z.even q)| |]; try lia; nia.
Qed.
Lemma rne_ge : forall m n c, 0 <= n -> c * 2 ^ n <= m -> c <= rne m n.
Proof.
  intros m n c N H. unfold rne. destruct (Z.leb_spec n 0).
  - replace n with 0 in * by lia. change (2 ^ (-0)) with 1. change (2 ^ 0) with 1 in H. lia.
  - pose proof (Z.pow_pos_nonneg 2 n ltac:(lia) ltac:(lia)) as P. pose proof (Z.div_mod m (2 ^ n) ltac:(lia)) as D. pose proof (Z.mod_pos_bound m (2 ^ n) P) as B.
    set (q := m / 2 ^ n) in *. set (r := m mod 2 ^ n) in *. assert (c <= q) by nia.
    destruct (Z.compare_spec (2 * r) (2 ^ n)); [destruct (Z.even q)| |]; lia.
Qed.

(* ---- SpecFloat.shr ---- *)
Lemma iter_pos_inv : forall A (f : A -> A) (I : Z -> A -> Prop), (forall k x, 0 <= k -> I k x -> I (k + 1) (f x)) ->
  forall p k x, 0 <= k -> I k x -> I (k + Zpos p) (iter_pos f p x).
Proof.
  intros A f I H p. induction p as [p IH|p IH|]; intros k x K HI; cbn [iter_pos].
  - replace (k + Zpos p~1) with (k + 1 + Zpos p + Zpos p) by lia. apply IH; [lia|]. apply IH; [lia|]. apply H; auto.
  - replace (k + Zpos p~0) with (k + Zpos p + Zpos p) by lia. apply IH; [lia|]. apply IH; auto.
  - apply H; auto.
Qed.
Definition shrInv (m k : Z) (x : shr_record) : Prop :=
  0 <= shr_m x /\ exists t, 0 <= t < 2 ^ k /\ 2 * m = 2 * shr_m x * 2 ^ k + (if shr_r x then 2 ^ k else 0) + t /\ shr_s x = negb (t =? 0).
Lemma shr_1_inv : forall m k x, 0 <= k -> shrInv m k x -> shrInv m (k + 1) (shr_1 x).
Proof.
  intros m k [q r s] K (Q0 & t & T & E & S). cbn [shr_m shr_r shr_s] in *. assert (P : 0 < 2 ^ k) by (apply Z.pow_pos_nonneg; lia).
  assert (X : exists b, shr_r (shr_1 {| shr_m := q; shr_r := r; shr_s := s |}) = b /\ shr_s (shr_1 {| shr_m := q; shr_r := r; shr_s := s |}) = orb r s /\
    0 <= shr_m (shr_1 {| shr_m := q; shr_r := r; shr_s := s |}) /\ q = 2 * shr_m (shr_1 {| shr_m := q; shr_r := r; shr_s := s |}) + (if b then 1 else 0)).
  { destruct q as [|[p|p|]|p]; [| | | |lia]; cbn [shr_1 shr_m shr_r shr_s]; eexists; (split; [reflexivity|]); (split; [reflexivity|]); lia. }
  destruct X as (b & X1 & X2 & X3 & X4). unfold shrInv. rewrite X1, X2. clear X1 X2.
  remember (shr_m (shr_1 {| shr_m := q; shr_r := r; shr_s := s |})) as q' eqn:Eq'. clear Eq'.
  split; [exact X3|]. rewrite S. clear S. rewrite Z.pow_add_r by lia. change (2 ^ 1) with 2.
  exists ((if r then 2 ^ k else 0) + t). split; [destruct r; lia|]. split.
  - rewrite X4 in E. destruct b, r; lia.
  - destruct r; cbn [orb]; [symmetry; apply negb_true_iff, Z.eqb_neq; lia|]. reflexivity.
Qed.
Lemma shr_rne : forall m p, 0 <= m -> round_nearest_even (shr_m (iter_pos shr_1 p {| shr_m := m; shr_r := false; shr_s := false |}))
  (loc_of_shr_record (iter_pos shr_1 p {| shr_m := m; shr_r := false; shr_s := false |})) = rne m (Zpos p).
Proof.
  intros m p M. assert (I : shrInv m (0 + Zpos p) (iter_pos shr_1 p {| shr_m := m; shr_r := false; shr_s := false |})).
  { apply (iter_pos_inv _ _ (shrInv m)); [intros; apply shr_1_inv; auto|lia|]. unfold shrInv. cbn [shr_m shr_r shr_s]. split; auto. exists 0. change (2 ^ 0) with 1. repeat split; try lia. }
  change (0 + Zpos p) with (Zpos p) in I. destruct (iter_pos shr_1 p _) as [q r s]. destruct I as (Q0 & t & T & E & S). cbn [shr_m shr_r shr_s] in *.
  assert (P : 0 < 2 ^ Zpos p) by (apply Z.pow_pos_nonneg; lia). set (w := 2 ^ Zpos p) in *.
  assert (DM : m = w * q + (m - w * q)) by lia. assert (R : 0 <= m - w * q < w) by (destruct r; lia).
  unfold rne. destruct (Z.leb_spec (Zpos p) 0); [lia|]. fold w.
  rewrite <- (Z.div_unique m w q (m - w * q)), <- (Z.mod_unique m w q (m - w * q)) by (auto; lia). rewrite S. cbv zeta.
  destruct r; cbn [loc_of_shr_record]; destruct (Z.eqb_spec t 0); cbn [negb round_nearest_even]; destruct (Z.compare_spec (2 * (m - w * q)) w); try lia; auto.
Qed.

(* ---- digits ---- *)
Lemma digits_log2 : forall p, Zpos (digits2_pos p) = Z.log2 (Zpos p) + 1.
Proof.
  induction p as [p IH|p IH|]; cbn [digits2_pos]; auto.
  - rewrite Pos2Z.inj_succ, IH. rewrite Pos2Z.inj_xI. rewrite Z.log2_succ_double by lia. lia.
  - rewrite Pos2Z.inj_succ, IH. rewrite Pos2Z.inj_xO. rewrite Z.log2_double by lia. lia.
Qed.
Lemma log2_bounds : forall m, 0 < m -> 2 ^ Z.log2 m <= m < 2 ^ (Z.log2 m + 1).
Proof. intros m H. pose proof (Z.log2_spec m H). auto. Qed.

(* ---- rounding to a format ---- *)
Section Format.
  Variable P E : Z.
  Hypothesis P1 : 1 < P.
  Hypothesis PE : P < E.
  Notation emn := (emin P E).

  Definition norm (s : bool) (q e : Z) : spec_float :=
    if q =? 0 then S754_zero s
    else let '(q, e) := if q =? 2 ^ P then (2 ^ (P - 1), e + 1) else (q, e) in
    if e <=? E - P then S754_finite s (Z.to_pos q) e else S754_infinity s.
  Definition target (m e : Z) : Z := fexp P E (Z.log2 m + 1 + e).

  Lemma target_min : forall m e, emn <= target m e.
  Proof. intros. unfold target, fexp. lia. Qed.

  Lemma rne_bounds : forall m e, 0 < m -> 0 <= target m e - e -> 0 <= rne m (target m e - e) <= 2 ^ P.
  Proof.
    intros m e M N. split.
    - apply rne_ge; auto. lia.
    - apply rne_le; auto. rewrite <- Z.pow_add_r by lia. pose proof (log2_bounds m M) as (_ & L).
      assert (Z.log2 m + 1 <= P + (target m e - e)) by (unfold target, fexp; lia).
      pose proof (Z.pow_le_mono_r 2 _ _ ltac:(lia) H). lia.
  Qed.

  Lemma round_aux_norm : forall s m e, 0 < m -> 0 <= target m e - e ->
    binary_round_aux P E s m e loc_Exact = norm s (rne m (target m e - e)) (target m e).
  Proof.
    intros s m e M N. unfold binary_round_aux, shr_fexp at 1. cbn [shr_record_of_loc].
    replace (Zdigits2 m) with (Z.log2 m + 1) by (destruct m; cbn [Zdigits2]; try lia; rewrite digits_log2; auto). fold (target m e).
    pose proof (rne_bounds m e M N) as B. pose proof (target_min m e) as TM.
    assert (X : exists q, q = rne m (target m e - e) /\
      let '(mrs', e') := shr {| shr_m := m; shr_r := false; shr_s := false |} e (target m e - e) in
      round_nearest_even (shr_m mrs') (loc_of_shr_record mrs') = q /\ e' = target m e).
    { eexists. split; [reflexivity|]. unfold shr. destruct (target m e - e) as [|p|p] eqn:D; [| |lia].
      - cbn [shr_m loc_of_shr_record round_nearest_even]. unfold rne. change (0 <=? 0) with true. cbn iota. change (2 ^ (-0)) with 1. lia.
      - rewrite shr_rne by lia. split; auto. lia. }
    destruct X as (q & Eq & X). destruct (shr _ e (target m e - e)) as [mrs' e']. destruct X as (X & ->). rewrite X. rewrite <- Eq in *. clear X.
    set (t := target m e) in *. unfold shr_fexp. cbn [shr_record_of_loc]. unfold norm.
    destruct (Z.eqb_spec q 0) as [Q0|Q0].
    - rewrite Q0. cbn [Zdigits2]. unfold shr. destruct (fexp P E (0 + t) - t) eqn:D; cbn [shr_m]; auto. exfalso. unfold fexp in D. lia.
    - replace (Zdigits2 q) with (Z.log2 q + 1) by (destruct q; cbn [Zdigits2]; try lia; rewrite digits_log2; auto).
      destruct (Z.eqb_spec q (2 ^ P)) as [QP|QP].
      + rewrite QP, Z.log2_pow2 by lia. assert (D : fexp P E (P + 1 + t) - t = 1) by (unfold fexp; lia). rewrite D. unfold shr, iter_pos.
        assert (A : 2 ^ P = 2 * 2 ^ (P - 1)) by (rewrite <- Z.pow_succ_r by lia; f_equal; lia). assert (A1 : 0 < 2 ^ (P - 1)) by (apply Z.pow_pos_nonneg; lia).
        rewrite A. destruct (2 ^ (P - 1)) as [|p|p]; try lia. change (2 * Zpos p) with (Zpos p~0). cbn [shr_1 shr_m Z.to_pos]. rewrite Z.leb_compare. unfold Zle_bool. reflexivity.
      + assert (L : Z.log2 q < P) by (apply Z.log2_lt_pow2; lia). assert (D : fexp P E (Z.log2 q + 1 + t) - t <= 0) by (unfold fexp; lia).
        unfold shr. destruct (fexp P E (Z.log2 q + 1 + t) - t); try lia; cbn [shr_m]; destruct q; try lia; reflexivity.
  Qed.

  Lemma shift_pos_pow : forall d m, Zpos (shift_pos d m) = Zpos m * 2 ^ Zpos d.
  Proof. intros. rewrite shift_pos_correct. rewrite Z.mul_comm. reflexivity. Qed.

  Lemma round_norm : forall s p e, binary_round P E s p e = norm s (rne (Zpos p) (target (Zpos p) e - e)) (target (Zpos p) e).
  Proof.
    intros s p e. unfold binary_round. rewrite digits_log2. fold (target (Zpos p) e). unfold shl_align.
    destruct (target (Zpos p) e - e) as [|d|d] eqn:D.
    - rewrite round_aux_norm by lia. rewrite D. reflexivity.
    - rewrite round_aux_norm by lia. rewrite D. reflexivity.
    - rewrite shift_pos_pow. assert (PP : 0 < Zpos p * 2 ^ Zpos d) by (pose proof (Z.pow_pos_nonneg 2 (Zpos d)); lia).
      assert (T : target (Zpos p * 2 ^ Zpos d) (target (Zpos p) e) = target (Zpos p) e).
      { unfold target at 1. rewrite Z.log2_mul_pow2 by lia. replace (Zpos d + Z.log2 (Zpos p) + 1 + target (Zpos p) e) with (Z.log2 (Zpos p) + 1 + e) by lia. reflexivity. }
      rewrite round_aux_norm by (auto; rewrite T; lia). rewrite T, Z.sub_diag. f_equal. 
      unfold rne. destruct (Z.leb_spec (Zneg d) 0); [|lia]. destruct (Z.leb_spec 0 0); [|lia]. change (2 ^ (-0)) with 1. rewrite Z.mul_1_r. reflexivity.
  Qed.

  Definition valid (x : spec_float) : Prop := valid_binary P E x = true.
  Lemma valid_finite : forall s m e, valid (S754_finite s m e) <-> target (Zpos m) e = e /\ e <= E - P.
  Proof.
    intros s m e. unfold valid, valid_binary, bounded, canonical_mantissa. rewrite andb_true_iff, <- Zeq_is_eq_bool, <- Zle_is_le_bool, digits_log2. unfold target. reflexivity.
  Qed.
  Lemma valid_mantissa : forall s m e, valid (S754_finite s m e) -> emn <= e <= E - P /\ Zpos m < 2 ^ P /\ (emn < e -> 2 ^ (P - 1) <= Zpos m).
  Proof.
    intros s m e V. apply valid_finite in V as (T & L). unfold target, fexp in T. pose proof (log2_bounds (Zpos m) ltac:(lia)) as (L1 & L2).
    split; [lia|]. split.
    - assert (2 ^ (Z.log2 (Zpos m) + 1) <= 2 ^ P) by (apply Z.pow_le_mono_r; lia). lia.
    - intro H. replace (P - 1) with (Z.log2 (Zpos m)) by lia. auto.
  Qed.

  (* the result of rounding *)
  Lemma norm_val : forall s q e, 0 <= q <= 2 ^ P -> (exists i, norm s q e = S754_infinity i) \/
    (isfinite (norm s q e) = true /\ val (norm s q e) == (if s then - (1) else 1) * (inject_Z q * two e))%Q.
  Proof.
    intros s q e Q. unfold norm. destruct (Z.eqb_spec q 0) as [->|Q0]; [right; split; [auto|cbn; destruct s; ring]|].
    assert (A : 2 ^ P = 2 * 2 ^ (P - 1)) by (rewrite <- Z.pow_succ_r by lia; f_equal; lia). assert (A1 : 0 < 2 ^ (P - 1)) by (apply Z.pow_pos_nonneg; lia).
    destruct (Z.eqb_spec q (2 ^ P)) as [QP|QP].
    - destruct (e + 1 <=? E - P); [|left; eauto]. right. split; auto. cbn [val]. rewrite Z2Pos.id by lia. rewrite QP, A, inject_Z_mult, two_plus. change (two 1) with 2%Q. change (inject_Z 2) with 2%Q. destruct s; ring.
    - destruct (e <=? E - P); [|left; eauto]. right. split; auto. cbn [val]. rewrite Z2Pos.id by lia. reflexivity.
  Qed.
  Lemma norm_valid : forall s q e, 0 <= q <= 2 ^ P -> emn <= e -> (emn < e -> 2 ^ (P - 1) <= q) -> valid (norm s q e).
  Proof.
    intros s q e Q M H. unfold norm. destruct (Z.eqb_spec q 0); [reflexivity|].
    destruct (Z.eqb_spec q (2 ^ P)) as [QP|QP].
    - destruct (Z.leb_spec (e + 1) (E - P)); [|reflexivity]. apply valid_finite. assert (A1 : 0 < 2 ^ (P - 1)) by (apply Z.pow_pos_nonneg; lia). rewrite Z2Pos.id by lia.
      split; auto. unfold target, fexp. rewrite Z.log2_pow2 by lia. lia.
    - destruct (Z.leb_spec e (E - P)); [|reflexivity]. apply valid_finite. rewrite Z2Pos.id by lia. split; auto. unfold target, fexp.
      assert (Z.log2 q < P) by (apply Z.log2_lt_pow2; lia). destruct (Z.eq_dec e emn); [lia|].
      assert (P - 1 <= Z.log2 q) by (apply Z.log2_le_pow2; [lia|]; apply H; lia). lia.
  Qed.

  (* rne for any shift *)
  Lemma rne_le' : forall m n c, 0 < m -> (0 <= n -> m <= c * 2 ^ n) -> (n < 0 -> m * 2 ^ (- n) <= c) -> rne m n <= c.
  Proof.
    intros m n c M H1 H2. destruct (Z_lt_le_dec n 0); [|apply rne_le; auto]. unfold rne. destruct (Z.leb_spec n 0); [auto|lia].
  Qed.
  Lemma rne_ge' : forall m n c, 0 < m -> (0 <= n -> c * 2 ^ n <= m) -> (n < 0 -> c <= m * 2 ^ (- n)) -> c <= rne m n.
  Proof.
    intros m n c M H1 H2. destruct (Z_lt_le_dec n 0); [|apply rne_ge; auto]. unfold rne. destruct (Z.leb_spec n 0); [auto|lia].
  Qed.
  Lemma rne_pow : forall m e, 0 < m -> 0 <= rne m (target m e - e) <= 2 ^ P /\ (emn < target m e -> 2 ^ (P - 1) <= rne m (target m e - e)).
  Proof.
    intros m e M. pose proof (log2_bounds m M) as (L1 & L2). assert (LG := Z.log2_nonneg m). split; [split|].
    - apply rne_ge'; auto; intros; [lia|]. pose proof (Z.pow_pos_nonneg 2 (- (target m e - e))). nia.
    - assert (T : Z.log2 m + 1 <= P + (target m e - e)) by (unfold target, fexp; lia). apply rne_le'; auto; intro N.
      + rewrite <- Z.pow_add_r by lia. pose proof (Z.pow_le_mono_r 2 _ _ ltac:(lia) T). lia.
      + assert (2 ^ (Z.log2 m + 1) <= 2 ^ (P + (target m e - e))) by (apply Z.pow_le_mono_r; lia).
        pose proof (Z.pow_pos_nonneg 2 (- (target m e - e)) ltac:(lia) ltac:(lia)) as PW.
        assert (X : 2 ^ P = 2 ^ (P + (target m e - e)) * 2 ^ (- (target m e - e))) by (rewrite <- Z.pow_add_r by lia; f_equal; lia). nia.
    - intro G. assert (T : Z.log2 m = P - 1 + (target m e - e)) by (unfold target, fexp in *; lia). apply rne_ge'; auto; intro N.
      + rewrite <- Z.pow_add_r by lia. rewrite <- T. lia.
      + pose proof (Z.pow_pos_nonneg 2 (- (target m e - e)) ltac:(lia) ltac:(lia)) as PW.
        assert (X : 2 ^ (P - 1) = 2 ^ Z.log2 m * 2 ^ (- (target m e - e))) by (rewrite <- Z.pow_add_r by lia; f_equal; lia). nia.
  Qed.
  Lemma round_valid : forall s p e, valid (binary_round P E s p e).
  Proof.
    intros s p e. rewrite round_norm. destruct (rne_pow (Zpos p) e ltac:(lia)). apply norm_valid; auto. apply target_min.
  Qed.

  (* rounding is monotone with respect to the numbers of the format *)
  Lemma rounded_le : forall m e c g, 0 < m -> 0 <= c <= 2 ^ P -> emn <= g -> (inject_Z m * two e <= inject_Z c * two g)%Q ->
    (inject_Z (rne m (target m e - e)) * two (target m e) <= inject_Z c * two g)%Q.
  Proof.
    intros m e c g M C G H. set (t := target m e).
    destruct (Z_lt_le_dec g t) as [GT|GT].
    - assert (T : t = Z.log2 m + 1 + e - P) by (unfold t, target, fexp in *; lia). pose proof (log2_bounds m M) as (L1 & L2). assert (LG := Z.log2_nonneg m).
      apply (scale_le m e c g (Z.min e g)) in H; [|lia|lia]. set (b := Z.min e g) in *.
      assert (X : 2 ^ (P + (g - b)) <= 2 ^ (Z.log2 m + (e - b))) by (apply Z.pow_le_mono_r; lia). rewrite (Z.pow_add_r 2 P), (Z.pow_add_r 2 (Z.log2 m)) in X by lia.
      pose proof (Z.pow_pos_nonneg 2 (g - b) ltac:(lia) ltac:(lia)). pose proof (Z.pow_pos_nonneg 2 (e - b) ltac:(lia) ltac:(lia)).
      assert (2 ^ Z.log2 m * 2 ^ (e - b) <= m * 2 ^ (e - b)) by nia. assert (c * 2 ^ (g - b) <= 2 ^ P * 2 ^ (g - b)) by nia.
      assert (EQ : m = 2 ^ Z.log2 m) by nia. assert (CP : c = 2 ^ P) by nia.
      assert (LE : g + P = Z.log2 m + e).
      { apply Z.le_antisymm; [lia|]. apply Z.nlt_ge. intro LT. assert (Y : 2 ^ (P + (g - b)) < 2 ^ (Z.log2 m + (e - b))) by (apply Z.pow_lt_mono_r; lia). rewrite (Z.pow_add_r 2 P), (Z.pow_add_r 2 (Z.log2 m)) in Y by lia. nia. }
      assert (R : rne m (t - e) <= 2 ^ (P - 1)).
      { assert (N : t - e = Z.log2 m + 1 - P) by lia. apply rne_le'; auto; intro NN.
        - rewrite <- Z.pow_add_r by lia. rewrite EQ at 1. apply Z.pow_le_mono_r; lia.
        - rewrite EQ at 1. rewrite <- Z.pow_add_r by lia. apply Z.pow_le_mono_r; lia. }
      rewrite CP. replace (two g) with (two (t - 1)) by (f_equal; lia).
      apply (scale_le _ t _ (t - 1) (t - 1)); [lia|lia|]. rewrite Z.sub_diag, Z.pow_0_r, Z.mul_1_r. replace (t - (t - 1)) with 1 by lia. rewrite Z.pow_1_r.
      assert (A : 2 ^ P = 2 * 2 ^ (P - 1)) by (rewrite <- Z.pow_succ_r by lia; f_equal; lia). lia.
    - apply (scale_le _ t _ g t); [lia|lia|]. rewrite Z.sub_diag, Z.pow_0_r, Z.mul_1_r. apply rne_le'; auto; intro N.
      + rewrite <- Z.mul_assoc, <- Z.pow_add_r by lia. replace (g - t + (t - e)) with (g - e) by lia.
        apply (scale_le m e c g e) in H; [|lia|lia]. rewrite Z.sub_diag, Z.pow_0_r in H. lia.
      + apply (scale_le m e c g t) in H; [|lia|lia]. replace (- (t - e)) with (e - t) by lia. auto.
  Qed.
  Lemma rounded_ge : forall m e c g, 0 < m -> 0 <= c <= 2 ^ P -> emn <= g -> (inject_Z c * two g <= inject_Z m * two e)%Q ->
    (inject_Z c * two g <= inject_Z (rne m (target m e - e)) * two (target m e))%Q.
  Proof.
    intros m e c g M C G H. set (t := target m e). destruct (rne_pow m e M) as (_ & R). fold t in R.
    destruct (Z_lt_le_dec g t) as [GT|GT].
    - specialize (R ltac:(lia)). apply (scale_le _ g _ t g); [lia|lia|]. rewrite Z.sub_diag, Z.pow_0_r, Z.mul_1_r.
      assert (A : 2 ^ P = 2 * 2 ^ (P - 1)) by (rewrite <- Z.pow_succ_r by lia; f_equal; lia).
      assert (2 ^ 1 <= 2 ^ (t - g)) by (apply Z.pow_le_mono_r; lia). change (2 ^ 1) with 2 in *. nia.
    - apply (scale_le _ g _ t t); [lia|lia|]. rewrite Z.sub_diag, Z.pow_0_r, Z.mul_1_r. apply rne_ge'; auto; intro N.
      + rewrite <- Z.mul_assoc, <- Z.pow_add_r by lia. replace (g - t + (t - e)) with (g - e) by lia.
        apply (scale_le c g m e e) in H; [|lia|lia]. rewrite Z.sub_diag, Z.pow_0_r in H. lia.
      + apply (scale_le c g m e t) in H; [|lia|lia]. replace (- (t - e)) with (e - t) by lia. auto.
  Qed.
  (* a number of the format is its own rounding *)
  Lemma rounded_exact : forall m e c g, 0 < m -> 0 <= c <= 2 ^ P -> emn <= g -> (inject_Z m * two e == inject_Z c * two g)%Q ->
    (inject_Z (rne m (target m e - e)) * two (target m e) == inject_Z c * two g)%Q.
  Proof.
    intros m e c g M C G H. apply Qle_antisym.
    - apply rounded_le; auto. rewrite H. apply Qle_refl.
    - apply rounded_ge; auto. rewrite H. apply Qle_refl.
  Qed.

  (* ---- no overflow below the largest number ---- *)
  Lemma norm_finite : forall s q e, 0 <= q <= 2 ^ P -> emn <= e -> (emn < e -> 2 ^ (P - 1) <= q) -> (inject_Z q * two e < two E)%Q -> isfinite (norm s q e) = true.
  Proof.
    intros s q e Q M H L. unfold norm. destruct (Z.eqb_spec q 0); [reflexivity|].
    assert (A1 : 0 < 2 ^ (P - 1)) by (apply Z.pow_pos_nonneg; lia). assert (A : 2 ^ P = 2 * 2 ^ (P - 1)) by (rewrite <- Z.pow_succ_r by lia; f_equal; lia).
    assert (L' : (inject_Z q * two e < inject_Z 1 * two E)%Q) by (change (inject_Z 1) with 1%Q; rewrite Qmult_1_l; auto).
    destruct (Z.eqb_spec q (2 ^ P)) as [QP|QP].
    - destruct (Z.leb_spec (e + 1) (E - P)); [reflexivity|]. exfalso. subst q. apply (scale_lt _ _ _ _ (Z.min e E)) in L'; [|lia|lia]. rewrite <- Z.pow_add_r, Z.mul_1_l in L' by lia.
      apply Z.pow_lt_mono_r_iff in L'; lia.
    - destruct (Z.leb_spec e (E - P)); [reflexivity|]. exfalso. unfold emin in *. specialize (H ltac:(lia)).
      apply (scale_lt _ _ _ _ (Z.min e E)) in L'; [|lia|lia]. rewrite Z.mul_1_l in L'.
      assert (2 ^ (P - 1) * 2 ^ (e - Z.min e E) <= q * 2 ^ (e - Z.min e E)) by (apply Z.mul_le_mono_nonneg_r; [apply Z.pow_nonneg; lia|auto]).
      rewrite <- Z.pow_add_r in H1 by lia. assert (X : 2 ^ (P - 1 + (e - Z.min e E)) < 2 ^ (E - Z.min e E)) by lia. apply Z.pow_lt_mono_r_iff in X; lia.
  Qed.
  Lemma round_sandwich : forall s p e c g, 0 <= c <= 2 ^ P -> emn <= g -> (inject_Z c * two g < two E)%Q -> (inject_Z (Zpos p) * two e <= inject_Z c * two g)%Q ->
    isfinite (binary_round P E s p e) = true /\ exists v, (val (binary_round P E s p e) == (if s then - (1) else 1) * v)%Q /\ (0 <= v <= inject_Z c * two g)%Q.
  Proof.
    intros s p e c g C G L H. rewrite round_norm. destruct (rne_pow (Zpos p) e ltac:(lia)) as (R1 & R2). pose proof (rounded_le (Zpos p) e c g ltac:(lia) C G H) as RL.
    set (t := target (Zpos p) e) in *. set (q := rne (Zpos p) (t - e)) in *.
    assert (F : isfinite (norm s q t) = true) by (apply norm_finite; auto; [apply target_min|lra]). split; auto.
    exists (inject_Z q * two t)%Q. destruct (norm_val s q t R1) as [(i & X)|(_ & X)]; [rewrite X in F; discriminate|]. split; auto. split; auto.
    pose proof (two_pos t). assert (inject_Z 0 <= inject_Z q)%Q by (rewrite <- Zle_Qle; lia). change (inject_Z 0) with 0%Q in *. nra.
  Qed.
End Format.

(* ---- comparison ---- *)
Lemma val_pos : forall m e, (0 < inject_Z (Zpos m) * two e)%Q.
Proof. intros. pose proof (two_pos e). assert (inject_Z 0 < inject_Z (Zpos m))%Q by (rewrite <- Zlt_Qlt; lia). change (inject_Z 0) with 0%Q in *. nra. Qed.
Lemma compare_pos : forall P E, 1 < P -> P < E -> forall s1 s2 m1 e1 m2 e2, valid P E (S754_finite s1 m1 e1) -> valid P E (S754_finite s2 m2 e2) ->
  match Z.compare e1 e2 with Lt => Lt | Gt => Gt | Eq => Pos.compare m1 m2 end = (inject_Z (Zpos m1) * two e1 ?= inject_Z (Zpos m2) * two e2)%Q.
Proof.
  assert (X : forall P E, 1 < P -> P < E -> forall s1 s2 m1 e1 m2 e2, valid P E (S754_finite s1 m1 e1) -> valid P E (S754_finite s2 m2 e2) -> e1 < e2 ->
    (inject_Z (Zpos m1) * two e1 < inject_Z (Zpos m2) * two e2)%Q).
  { intros P E H1 H2 s1 s2 m1 e1 m2 e2 V1 V2 L. apply valid_mantissa in V1 as (A1 & A2 & A3); auto. apply valid_mantissa in V2 as (B1 & B2 & B3); auto. specialize (B3 ltac:(lia)).
    apply (scale_lt _ e1 _ e2 e1); [lia|lia|]. rewrite Z.sub_diag, Z.pow_0_r, Z.mul_1_r.
    assert (A : 2 ^ P = 2 * 2 ^ (P - 1)) by (rewrite <- Z.pow_succ_r by lia; f_equal; lia).
    assert (2 ^ 1 <= 2 ^ (e2 - e1)) by (apply Z.pow_le_mono_r; lia). change (2 ^ 1) with 2 in *. nia. }
  intros P E H1 H2 s1 s2 m1 e1 m2 e2 V1 V2. destruct (Z.compare_spec e1 e2) as [->|L|L].
  - destruct (Pos.compare_spec m1 m2) as [->|L|L]; symmetry.
    + apply (proj1 (Qeq_alt _ _)). reflexivity.
    + apply (proj1 (Qlt_alt _ _)). apply (scale_lt _ e2 _ e2 e2); [lia|lia|]. rewrite Z.sub_diag, Z.pow_0_r. lia.
    + apply (proj1 (Qgt_alt _ _)). apply (scale_lt _ e2 _ e2 e2); [lia|lia|]. rewrite Z.sub_diag, Z.pow_0_r. lia.
  - symmetry. apply (proj1 (Qlt_alt _ _)). eapply X; [exact H1|exact H2|exact V1|exact V2|auto].
  - symmetry. apply (proj1 (Qgt_alt _ _)). eapply X; [exact H1|exact H2|exact V2|exact V1|auto].
Qed.
Lemma compare_val : forall P E, 1 < P -> P < E -> forall x y, valid P E x -> valid P E y -> isfinite x = true -> isfinite y = true -> SFcompare x y = Some (val x ?= val y)%Q.
Proof.
  intros P E H1 H2 x y V1 V2 F1 F2. destruct x as [s1|s1| |s1 m1 e1], y as [s2|s2| |s2 m2 e2]; try discriminate; cbn [SFcompare val].
  - reflexivity.
  - f_equal. pose proof (val_pos m2 e2). destruct s2; symmetry; [apply (proj1 (Qgt_alt _ _))|apply (proj1 (Qlt_alt _ _))]; lra.
  - f_equal. pose proof (val_pos m1 e1). destruct s1; symmetry; [apply (proj1 (Qlt_alt _ _))|apply (proj1 (Qgt_alt _ _))]; lra.
  - f_equal. pose proof (val_pos m1 e1). pose proof (val_pos m2 e2). pose proof (compare_pos P E H1 H2 _ _ _ _ _ _ V1 V2) as C. change (Pos.compare_cont Eq m1 m2) with (Pos.compare m1 m2).
    destruct s1, s2.
    + transitivity (CompOpp (inject_Z (Zpos m1) * two e1 ?= inject_Z (Zpos m2) * two e2)%Q).
      * rewrite <- C. destruct (e1 ?= e2); auto.
      * destruct (Qcompare_spec (inject_Z (Zpos m1) * two e1) (inject_Z (Zpos m2) * two e2)); symmetry; cbn [CompOpp]; [apply (proj1 (Qeq_alt _ _))|apply (proj1 (Qgt_alt _ _))|apply (proj1 (Qlt_alt _ _))]; lra.
    + symmetry. apply (proj1 (Qlt_alt _ _)). lra.
    + symmetry. apply (proj1 (Qgt_alt _ _)). lra.
    + rewrite C. destruct (Qcompare_spec (inject_Z (Zpos m1) * two e1) (inject_Z (Zpos m2) * two e2)); symmetry; [apply (proj1 (Qeq_alt _ _))|apply (proj1 (Qlt_alt _ _))|apply (proj1 (Qgt_alt _ _))]; lra.
Qed.
Lemma ltb_val : forall P E, 1 < P -> P < E -> forall x y, valid P E x -> valid P E y -> isfinite x = true -> isfinite y = true -> SFltb x y = true <-> (val x < val y)%Q.
Proof.
  intros. unfold SFltb. rewrite (compare_val P E) by auto. destruct (Qcompare_spec (val x) (val y)); split; intro; auto; try discriminate; lra.
Qed.
Lemma leb_val : forall P E, 1 < P -> P < E -> forall x y, valid P E x -> valid P E y -> isfinite x = true -> isfinite y = true -> SFleb x y = true <-> (val x <= val y)%Q.
Proof.
  intros. unfold SFleb. rewrite (compare_val P E) by auto. destruct (Qcompare_spec (val x) (val y)); split; intro; auto; try discriminate; lra.
Qed.

Lemma round_exact : forall P E, 1 < P -> P < E -> forall s p e c g, 0 <= c <= 2 ^ P -> emin P E <= g -> (inject_Z c * two g < two E)%Q -> (inject_Z (Zpos p) * two e == inject_Z c * two g)%Q ->
  valid P E (binary_round P E s p e) /\ exists p' e', binary_round P E s p e = S754_finite s p' e' /\ (inject_Z (Zpos p') * two e' == inject_Z c * two g)%Q.
Proof.
  intros P E H1 H2 s p e c g C G L EQ. split; [apply round_valid; auto|]. rewrite round_norm by auto.
  destruct (rne_pow P E H1 (Zpos p) e ltac:(lia)) as (R1 & R2). pose proof (rounded_exact P E H1 (Zpos p) e c g ltac:(lia) C G EQ) as RE.
  set (t := target P E (Zpos p) e) in *. set (q := rne (Zpos p) (t - e)) in *.
  assert (F : isfinite (norm P E s q t) = true) by (apply norm_finite; auto; [apply target_min|rewrite RE; auto]).
  destruct (norm_val P E H1 s q t R1) as [(i & X)|(_ & X)]; [rewrite X in F; discriminate|].
  pose proof (val_pos p e) as VP. unfold norm in *. destruct (q =? 0) eqn:Q0.
  - exfalso. apply Z.eqb_eq in Q0. rewrite Q0 in RE. change (inject_Z 0) with 0%Q in RE. lra.
  - destruct (if q =? 2 ^ P then (2 ^ (P - 1), t + 1) else (q, t)) as [q' e']. destruct (e' <=? E - P); [|discriminate]. exists (Z.to_pos q'), e'. split; auto. cbn [val] in X. rewrite <- RE. destruct s; lra.
Qed.
