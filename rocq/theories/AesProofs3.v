(* Lemmas about the values AES_RNG returns and about its seeds. *)
From Coq Require Import ZArith List Lia Bool Btauto FinFun.
From Verif Require Import AesModel AesSpec AesProofs AesProofs2.
Import ListNotations.
Local Open Scope Z_scope.
Local Arguments Z.add : simpl never.
Local Arguments Z.mul : simpl never.

(* ------------------------------------------------------------ numbers and bytes *)

Fixpoint digits (n : nat) (v : Z) : list Z :=
  match n with O => [] | S n => v mod 256 :: digits n (v / 256) end.

Lemma digits_ok : forall n v, 0 <= v < 256 ^ Z.of_nat n -> bytes n (digits n v) /\ value (digits n v) = v.
Proof.
  induction n as [|n IH]; intros v H.
  - cbn in *. split; [split; [reflexivity|constructor]|lia].
  - rewrite Nat2Z.inj_succ, Z.pow_succ_r in H by lia. cbn [digits value].
    destruct (IH (v / 256)) as ((L & F) & V).
    { split; [apply Z.div_pos; lia|]. apply Z.div_lt_upper_bound; lia. }
    split; [split; [cbn [length]; congruence|]|].
    + constructor; [|exact F]. unfold byte. apply Z.mod_pos_bound. lia.
    + rewrite V. rewrite (Z.div_mod v 256) at 3 by lia. lia.
Qed.

Lemma value_app : forall a b, value (a ++ b) = value a + 256 ^ Z.of_nat (length a) * value b.
Proof.
  induction a as [|x a IH]; intros b; [cbn [app value length]; change (Z.of_nat 0) with 0; lia|].
  cbn [app value length]. rewrite IH, Nat2Z.inj_succ, Z.pow_succ_r by lia. lia.
Qed.

Lemma value_cons : forall b l, byte b -> value (b :: l) = Z.lxor b (Z.shiftl (value l) 8).
Proof.
  intros b l B. cbn [value].
  replace (256 * value l) with (Z.shiftl (value l) 8) by (rewrite Z.shiftl_mul_pow2 by lia; lia).
  apply Z.add_nocarry_lxor. apply Z.bits_inj'. intros n Hn. rewrite Z.land_spec, Z.bits_0.
  destruct (Z.lt_ge_cases n 8) as [L|L].
  - rewrite Z.shiftl_spec_low by exact L. apply andb_false_r.
  - rewrite byte_bits by assumption. reflexivity.
Qed.

Fixpoint xorList (a b : list Z) : list Z :=
  match a, b with
  | x :: a, y :: b => Z.lxor x y :: xorList a b
  | _, _ => []
  end.

Lemma xorList_bytes : forall n a b, bytes n a -> bytes n b -> bytes n (xorList a b).
Proof.
  intros n a b (La & Fa) (Lb & Fb). subst n. revert b Lb Fb.
  induction Fa as [|x a X Fa IH]; intros [|y b] Lb Fb; try discriminate.
  - split; [reflexivity|constructor].
  - inversion_clear Fb as [|? ? Y Fb']. injection Lb as Lb. destruct (IH b Lb Fb') as (L & F).
    cbn [xorList]. split; [cbn [length]; congruence|]. constructor; [apply byte_xor; assumption|exact F].
Qed.

Lemma value_xor : forall a b, Forall byte a -> Forall byte b -> length a = length b ->
  value (xorList a b) = Z.lxor (value a) (value b).
Proof.
  intros a b Fa. revert b. induction Fa as [|x a X Fa IH]; intros [|y b] Fb L; try discriminate.
  - reflexivity.
  - inversion_clear Fb as [|? ? Y Fb']. injection L as L. cbn [xorList].
    rewrite !value_cons by auto using byte_xor. rewrite IH by assumption.
    rewrite Z.shiftl_lxor. shuffle.
Qed.

Lemma value_word : forall l, bytes 8 l -> 0 <= value l < 2 ^ 64.
Proof.
  intros l (L & F). pose proof (value_range l F) as R. rewrite L in R. exact R.
Qed.

(* ------------------------------------------------------------ fold64 *)

Lemma value_8 : forall b0 b1 b2 b3 b4 b5 b6 b7, byte b0 -> byte b1 -> byte b2 -> byte b3 ->
  byte b4 -> byte b5 -> byte b6 -> byte b7 -> value [b0; b1; b2; b3; b4; b5; b6; b7] =
  Z.lxor b0 (Z.lxor (Z.shiftl b1 8) (Z.lxor (Z.shiftl b2 16) (Z.lxor (Z.shiftl b3 24)
    (Z.lxor (Z.shiftl b4 32) (Z.lxor (Z.shiftl b5 40) (Z.lxor (Z.shiftl b6 48) (Z.shiftl b7 56))))))).
Proof.
  intros. rewrite !value_cons by assumption. change (value []) with 0.
  rewrite !Z.shiftl_lxor, !Z.shiftl_shiftl by lia. rewrite Z.shiftl_0_l, Z.lxor_0_r.
  reflexivity.
Qed.

Lemma fold64_halves : forall l, bytes 16 l ->
  fold64 l = Z.lxor (value (firstn 8 l)) (value (skipn 8 l)).
Proof.
  intros l (L & F).
  do 16 (destruct l as [|? l]; [discriminate|]). destruct l; [|discriminate].
  repeat match goal with H : Forall byte (_ :: _) |- _ => inversion H; clear H; subst end.
  cbn [firstn skipn]. rewrite !value_8 by assumption.
  unfold fold64. cbn [fold_left seq].
  cbv [at_ nth Nat.add].
  change (8 * Z.of_nat 0) with 0. change (8 * Z.of_nat 1) with 8. change (8 * Z.of_nat 2) with 16.
  change (8 * Z.of_nat 3) with 24. change (8 * Z.of_nat 4) with 32. change (8 * Z.of_nat 5) with 40.
  change (8 * Z.of_nat 6) with 48. change (8 * Z.of_nat 7) with 56.
  rewrite !Z.shiftl_0_r, Z.lxor_0_l. shuffle.
Qed.

Lemma halves : forall l, bytes 16 l -> bytes 8 (firstn 8 l) /\ bytes 8 (skipn 8 l).
Proof.
  intros l (L & F). unfold bytes. rewrite firstn_length, skipn_length, L.
  split; (split; [reflexivity|]).
  - apply Forall_forall. intros x I. rewrite Forall_forall in F. apply F.
    rewrite <- (firstn_skipn 8 l). apply in_or_app. auto.
  - apply Forall_forall. intros x I. rewrite Forall_forall in F. apply F.
    rewrite <- (firstn_skipn 8 l). apply in_or_app. auto.
Qed.

Lemma join_halves : forall a b, bytes 8 a -> bytes 8 b -> bytes 16 (a ++ b) /\
  firstn 8 (a ++ b) = a /\ skipn 8 (a ++ b) = b.
Proof.
  intros a b (La & Fa) (Lb & Fb). split; [split|split].
  - rewrite app_length, La, Lb. reflexivity.
  - apply Forall_app. auto.
  - rewrite firstn_app, La, Nat.sub_diag, firstn_O, app_nil_r, <- La. apply firstn_all.
  - rewrite skipn_app, La, Nat.sub_diag, <- La, skipn_all. reflexivity.
Qed.

Lemma lxor_64 : forall x y, 0 <= x < 2 ^ 64 -> 0 <= y < 2 ^ 64 -> 0 <= Z.lxor x y < 2 ^ 64.
Proof.
  intros x y X Y. assert (N : 0 <= Z.lxor x y) by (apply Z.lxor_nonneg; lia). split; [exact N|].
  destruct (Z.eq_dec (Z.lxor x y) 0) as [->|NZ]; [lia|].
  apply Z.log2_lt_pow2; [lia|]. eapply Z.le_lt_trans; [apply Z.log2_lxor; lia|].
  apply Z.max_lub_lt.
  - destruct (Z.eq_dec x 0) as [->|]; [reflexivity|]. apply Z.log2_lt_pow2; lia.
  - destruct (Z.eq_dec y 0) as [->|]; [reflexivity|]. apply Z.log2_lt_pow2; lia.
Qed.

Lemma result_range : forall n g, engine g -> 0 <= result n g < 2 ^ 64.
Proof.
  intros n g H. rewrite result_block by exact H.
  destruct (encrypt_cipher sub (fun x _ => eq_refl) (key g) (block n g)) as (_ & B);
    [apply H|apply block_ok; exact H|].
  rewrite fold64_halves by exact B. destruct (halves _ B) as (B1 & B2).
  apply lxor_64; apply value_word; assumption.
Qed.

(* ------------------------------------------------------------ every value equally often *)

Lemma encrypt_surj : forall key y, bytes 32 key -> bytes 16 y -> exists x, bytes 16 x /\ encrypt key x = y.
Proof.
  intros key y Hk Hy.
  set (M := Z.to_nat (256 ^ Z.of_nat 16)).
  assert (HM : Z.of_nat M = 256 ^ Z.of_nat 16) by (apply Z2Nat.id; apply Z.pow_nonneg; lia).
  clearbody M.
  set (f := fun k => Z.to_nat (value (encrypt key (digits 16 (Z.of_nat k))))).
  assert (D : forall k, (k < M)%nat -> bytes 16 (digits 16 (Z.of_nat k)) /\ value (digits 16 (Z.of_nat k)) = Z.of_nat k).
  { intros k Hkk. apply digits_ok. rewrite <- HM. lia. }
  assert (E : forall x, bytes 16 x -> bytes 16 (encrypt key x)).
  { intros x Hx. apply (encrypt_cipher sub (fun x _ => eq_refl) key x Hk Hx). }
  assert (V : forall x, bytes 16 x -> 0 <= value x < Z.of_nat M).
  { intros x (L & F). pose proof (value_range x F) as R. rewrite L in R. rewrite HM. exact R. }
  assert (B : bFun M f).
  { intros k Hkk. unfold f. pose proof (V _ (E _ (proj1 (D k Hkk)))). lia. }
  assert (I : bInjective M f).
  { intros a b Ha Hb F. unfold f in F.
    pose proof (V _ (E _ (proj1 (D a Ha)))). pose proof (V _ (E _ (proj1 (D b Hb)))).
    apply Z2Nat.inj in F; [|lia|lia].
    apply bytes_value in F; [|apply E, D; assumption|apply E, D; assumption].
    apply encrypt_inj in F; [|exact Hk|apply D; assumption|apply D; assumption].
    apply Nat2Z.inj. rewrite <- (proj2 (D a Ha)), F. apply D. exact Hb. }
  apply bInjective_bSurjective in I; [|exact B].
  pose proof (V y Hy) as Ry.
  destruct (I (Z.to_nat (value y))) as (k & Hkk & F); [lia|].
  exists (digits 16 (Z.of_nat k)). split; [apply D; exact Hkk|].
  apply bytes_value; [apply E, D; exact Hkk|exact Hy|].
  unfold f in F. pose proof (V _ (E _ (proj1 (D k Hkk)))). lia.
Qed.

Lemma block_surj : forall g x, engine g -> bytes 16 x -> exists n, (n < 2 ^ 128)%N /\ block n g = x.
Proof.
  intros g x H Hx.
  assert (P : 0 < 2 ^ 128) by reflexivity.
  exists (Z.to_N ((value x - value (iv g) - 1) mod 2 ^ 128)).
  pose proof (Z.mod_pos_bound (value x - value (iv g) - 1) (2 ^ 128) P) as R.
  split.
  - apply N2Z.inj_lt. rewrite Z2N.id by lia. change (Z.of_N (2 ^ 128)) with (2 ^ 128). lia.
  - destruct (block_ok (Z.to_N ((value x - value (iv g) - 1) mod 2 ^ 128)) g H) as (B & V).
    apply bytes_value; [exact B|exact Hx|]. rewrite V, Z2N.id by lia.
    replace (value (iv g) + (value x - value (iv g) - 1) mod 2 ^ 128 + 1)
      with ((value x - value (iv g) - 1) mod 2 ^ 128 + (value (iv g) + 1)) by lia.
    rewrite Z.add_mod_idemp_l by lia.
    replace (value x - value (iv g) - 1 + (value (iv g) + 1)) with (value x) by lia.
    apply Z.mod_small. destruct Hx as (L & F). pose proof (value_range x F) as Q.
    rewrite L in Q. exact Q.
Qed.

Lemma equidistributed : forall g a w, engine g -> bytes 8 a -> 0 <= w < 2 ^ 64 ->
  exists! n, (n < 2 ^ 128)%N /\ firstn 8 (encrypt (key g) (block n g)) = a /\ result n g = w.
Proof.
  intros g a w H Ha Hw.
  assert (Eb : forall n, bytes 16 (encrypt (key g) (block n g))).
  { intros n. apply (encrypt_cipher sub (fun x _ => eq_refl)); [apply H|apply block_ok; exact H]. }
  assert (Hb : 0 <= Z.lxor (value a) w < 2 ^ 64) by (apply lxor_64; [apply value_word; exact Ha|exact Hw]).
  destruct (digits_ok 8 (Z.lxor (value a) w) Hb) as (Db & Vb).
  destruct (join_halves a _ Ha Db) as (J & J1 & J2).
  destruct (encrypt_surj (key g) _ (proj1 H) J) as (x & Hx & Ex).
  destruct (block_surj g x H Hx) as (n & Hn & Bn).
  exists n. split; [split; [exact Hn|]|].
  - rewrite Bn, Ex. split; [exact J1|].
    rewrite result_block by exact H. rewrite fold64_halves by apply Eb.
    rewrite Bn, Ex, J1, J2, Vb. rewrite <- Z.lxor_assoc, Z.lxor_nilpotent. apply Z.lxor_0_l.
  - intros m (Hm & A & R).
    assert (E : encrypt (key g) (block n g) = encrypt (key g) (block m g)).
    { rewrite <- (firstn_skipn 8 (encrypt (key g) (block m g))), A.
      rewrite Bn, Ex. f_equal.
      rewrite result_block in R by exact H. rewrite fold64_halves in R by apply Eb.
      rewrite A in R. apply value_inj; [apply Db|apply halves, Eb| |].
      - rewrite (proj1 Db). symmetry. apply (halves _ (Eb m)).
      - rewrite Vb, <- R. rewrite <- Z.lxor_assoc, Z.lxor_nilpotent. apply Z.lxor_0_l. }
    apply encrypted_eq in E; [|exact H]. rewrite !N.mod_small in E by assumption. exact E.
Qed.

(* ------------------------------------------------------------ state period *)

Lemma rng_eq : forall g h, engine g -> engine h -> key g = key h -> value (iv g) = value (iv h) -> g = h.
Proof.
  intros [k1 i1] [k2 i2] (_ & G) (_ & H) K V. cbn [key iv] in *.
  apply bytes_value in V; [|assumption..]. congruence.
Qed.

Lemma afterCalls_eq : forall g n m, engine g ->
  (afterCalls n g = afterCalls m g <-> (n mod 2 ^ 128 = m mod 2 ^ 128)%N).
Proof.
  intros g n m H.
  destruct (afterCalls_ok n g H) as (En & Kn & Vn). destruct (afterCalls_ok m g H) as (Em & Km & Vm).
  assert (Q : value (iv (afterCalls n g)) = value (iv (afterCalls m g)) <-> (n mod 2 ^ 128 = m mod 2 ^ 128)%N).
  { rewrite Vn, Vm. rewrite mod_eq_shift by reflexivity.
    change (2 ^ 128) with (Z.of_N (2 ^ 128)). rewrite <- !N2Z.inj_mod. split.
    - apply N2Z.inj.
    - intros ->. reflexivity. }
  rewrite <- Q. split; [intros ->; reflexivity|]. intros V. apply rng_eq; congruence || assumption.
Qed.

(* two engines with the same key *)
Lemma reach : forall g h, engine g -> engine h -> key g = key h ->
  afterCalls (Z.to_N ((value (iv h) - value (iv g)) mod 2 ^ 128)) g = h.
Proof.
  intros g h G H K.
  destruct (afterCalls_ok (Z.to_N ((value (iv h) - value (iv g)) mod 2 ^ 128)) g G) as (E & Kn & V).
  apply rng_eq; [exact E|exact H|congruence|]. rewrite V.
  rewrite Z2N.id by (apply Z.mod_pos_bound; reflexivity).
  rewrite Z.add_mod_idemp_r by discriminate.
  replace (value (iv g) + (value (iv h) - value (iv g))) with (value (iv h)) by lia.
  destruct H as (_ & (L & F)). pose proof (value_range _ F) as Q. rewrite L in Q.
  apply Z.mod_small. exact Q.
Qed.

(* ------------------------------------------------------------ seeds *)

Lemma lxor_low : forall x y, byte x -> Z.lxor x y mod 256 = Z.lxor x (y mod 256).
Proof.
  intros x y X. apply Z.bits_inj'. intros n Hn.
  change 256 with (2 ^ 8). rewrite Z.lxor_spec.
  destruct (Z.lt_ge_cases n 8).
  - rewrite !Z.mod_pow2_bits_low by lia. apply Z.lxor_spec.
  - rewrite !Z.mod_pow2_bits_high by lia. rewrite byte_bits by assumption. reflexivity.
Qed.

Definition ivLow : list Z := firstn 8 seedIv.
Definition ivHigh : list Z := skipn 8 seedIv.

Ltac all_bytes := cbv [ivLow ivHigh seedIv seedKey firstn skipn];
  repeat (apply Forall_cons; [unfold byte; lia|]); apply Forall_nil.

Lemma ivLow_bytes : bytes 8 ivLow.
Proof. split; [reflexivity|]. all_bytes. Qed.

Lemma ivHigh_bytes : bytes 8 ivHigh.
Proof. split; [reflexivity|]. all_bytes. Qed.

Lemma seedKey_bytes : bytes 32 seedKey.
Proof. split; [reflexivity|]. all_bytes. Qed.

Lemma seedIv_value : value seedIv = value ivLow + 2 ^ 64 * value ivHigh.
Proof. reflexivity. Qed.

Lemma fromSeed_iv : forall seed, iv (fromSeed seed) = xorList ivLow (digits 8 seed) ++ ivHigh.
Proof.
  intros seed. unfold fromSeed. cbn [iv seq map Nat.ltb Nat.leb].
  unfold ivLow, ivHigh. cbn [seedIv firstn skipn digits xorList app].
  rewrite !lxor_low by (unfold byte; cbn; lia).
  cbv [at_ nth seedIv].
  rewrite !Z.div_div by lia.
  rewrite !Z.shiftr_div_pow2 by lia.
  change (2 ^ (Z.of_nat 0 * 8)) with 1. rewrite Z.div_1_r.
  reflexivity.
Qed.

Lemma fromSeed_engine : forall seed, 0 <= seed < 2 ^ 64 -> engine (fromSeed seed) /\
  value (iv (fromSeed seed)) = Z.lxor (value ivLow) seed + 2 ^ 64 * value ivHigh.
Proof.
  intros seed H. destruct (digits_ok 8 seed H) as (D & V).
  destruct (join_halves _ _ (xorList_bytes 8 _ _ ivLow_bytes D) ivHigh_bytes) as (J & _ & _).
  split.
  - split; [exact seedKey_bytes|]. rewrite fromSeed_iv. exact J.
  - rewrite fromSeed_iv, value_app.
    rewrite (proj1 (xorList_bytes 8 _ _ ivLow_bytes D)).
    rewrite value_xor; [rewrite V; reflexivity|apply ivLow_bytes|apply D|].
    rewrite (proj1 ivLow_bytes), (proj1 D). reflexivity.
Qed.

Lemma lxor_cancel_l : forall a b k, Z.lxor k a = Z.lxor k b -> a = b.
Proof. intros a b k E. rewrite !(Z.lxor_comm k) in E. exact (lxor_cancel_r _ _ _ E). Qed.

Lemma fromSeed_inj : forall s t, 0 <= s < 2 ^ 64 -> 0 <= t < 2 ^ 64 -> fromSeed s = fromSeed t -> s = t.
Proof.
  intros s t Hs Ht E. pose proof (proj2 (fromSeed_engine s Hs)) as A.
  rewrite E, (proj2 (fromSeed_engine t Ht)) in A.
  apply (lxor_cancel_l s t (value ivLow)). lia.
Qed.

Lemma seeds_overlap : forall s t, 0 <= s < 2 ^ 64 -> 0 <= t < 2 ^ 64 ->
  exists d, (d < 2 ^ 64)%N /\
    (afterCalls d (fromSeed s) = fromSeed t \/ afterCalls d (fromSeed t) = fromSeed s).
Proof.
  assert (W : forall s t, 0 <= s < 2 ^ 64 -> 0 <= t < 2 ^ 64 ->
    value (iv (fromSeed s)) <= value (iv (fromSeed t)) ->
    exists d, (d < 2 ^ 64)%N /\ afterCalls d (fromSeed s) = fromSeed t).
  { intros s t Hs Ht L.
    destruct (fromSeed_engine s Hs) as (Es & Vs). destruct (fromSeed_engine t Ht) as (Et & Vt).
    pose proof (lxor_64 _ s (value_word _ ivLow_bytes) Hs).
    pose proof (lxor_64 _ t (value_word _ ivLow_bytes) Ht).
    assert (D : 0 <= value (iv (fromSeed t)) - value (iv (fromSeed s)) < 2 ^ 64) by lia.
    pose proof (reach _ _ Es Et eq_refl) as R. rewrite Z.mod_small in R.
    - eexists. split; [|exact R]. apply N2Z.inj_lt. rewrite Z2N.id by lia. apply D.
    - split; [lia|]. apply (Z.lt_trans _ (2 ^ 64)); [lia|reflexivity]. }
  intros s t Hs Ht.
  destruct (Z.le_ge_cases (value (iv (fromSeed s))) (value (iv (fromSeed t)))) as [L|L].
  - destruct (W s t Hs Ht L) as (d & Hd & R). exists d. auto.
  - destruct (W t s Ht Hs L) as (d & Hd & R). exists d. auto.
Qed.

Lemma result_shift : forall n d g, result n (afterCalls d g) = result (n + d) g.
Proof. intros. unfold result. rewrite afterCalls_add. reflexivity. Qed.

(* ------------------------------------------------------------ relative to the standard *)

Lemma sbox_exact : forall x y, byte x -> (sboxed x y <-> y = sub x).
Proof.
  intros x y X. split.
  - intros H. exact (sboxed_unique x y (sub x) X H (sub_sboxed x X)).
  - intros ->. exact (sub_sboxed x X).
Qed.

Lemma encrypt_fips : forall S, (forall x, byte x -> sboxed x (S x)) ->
  forall key inp, bytes 32 key -> bytes 16 inp ->
  encrypt key inp = Cipher S key inp /\ bytes 16 (encrypt key inp).
Proof.
  intros S H. apply encrypt_cipher. intros x X. apply sbox_exact; [exact X|]. apply H. exact X.
Qed.

Lemma result_fips : forall n g S, (forall x, byte x -> sboxed x (S x)) -> engine g ->
  exists a b, bytes 8 a /\ bytes 8 b /\ Cipher S (key g) (block n g) = a ++ b /\
    result n g = Z.lxor (value a) (value b) /\ 0 <= result n g < 2 ^ 64.
Proof.
  intros n g S HS H.
  destruct (encrypt_fips S HS (key g) (block n g)) as (E & B); [apply H|apply block_ok; exact H|].
  destruct (halves _ B) as (B1 & B2).
  exists (firstn 8 (encrypt (key g) (block n g))), (skipn 8 (encrypt (key g) (block n g))).
  split; [exact B1|]. split; [exact B2|]. rewrite firstn_skipn. split; [symmetry; exact E|].
  split; [|apply result_range; exact H].
  rewrite result_block by exact H. apply fold64_halves. exact B.
Qed.

Lemma seeds_shift : forall s t, 0 <= s < 2 ^ 64 -> 0 <= t < 2 ^ 64 ->
  exists d, (d < 2 ^ 64)%N /\
    ((forall n, result (n + d) (fromSeed s) = result n (fromSeed t)) \/
     (forall n, result (n + d) (fromSeed t) = result n (fromSeed s))).
Proof.
  intros s t Hs Ht. destruct (seeds_overlap s t Hs Ht) as (d & Hd & [E|E]); exists d; (split; [exact Hd|]).
  - left. intros n. rewrite <- result_shift, E. reflexivity.
  - right. intros n. rewrite <- result_shift, E. reflexivity.
Qed.

Lemma seeds_adjacent : exists s t, s <> t /\ 0 <= s < 2 ^ 64 /\ 0 <= t < 2 ^ 64 /\
  forall n, result (n + 1) (fromSeed s) = result n (fromSeed t).
Proof.
  exists 0, 1. split; [discriminate|]. split; [lia|]. split; [lia|].
  assert (E : afterCalls 1 (fromSeed 0) = fromSeed 1) by (vm_compute; reflexivity).
  intros n. rewrite <- result_shift, E. reflexivity.
Qed.
