From Verif Require Import Tac RandIntModel.


Lemma spanOf_Ok : forall lower upper, is_i64 lower -> is_i64 upper -> lower < upper ->
  spanOf lower upper = upper - lower.
Proof.
  intros l u Hl Hu H. unfold spanOf, u64. rewrite <- Zminus_mod. apply Z.mod_small.
  unfold is_i64, I64_MIN, I64_MAX, two63, two64 in *. lia.
Qed.

Lemma threshold : forall s, 0 < s < two64 -> u64 (0 - s) mod s = two64 mod s.
Proof.
  intros s Hs. unfold u64.
  replace ((0 - s) mod two64) with (two64 - s).
  - replace (two64 - s) with (two64 + (-1) * s) by ring. apply Z.mod_add. lia.
  - replace (0 - s) with ((two64 - s) + (-1) * two64) by ring.
    rewrite Z.mod_add by discriminate. rewrite Z.mod_small; lia.
Qed.

Lemma to_i64_id' : forall z, is_i64 z -> to_i64 z = z.
Proof. exact to_i64_id. Qed.

Lemma to_i64_mod : forall a b, a mod two64 = b mod two64 -> to_i64 a = to_i64 b.
Proof. intros a b H. unfold to_i64. rewrite H. reflexivity. Qed.

Lemma scale128_Ok : forall x lower upper, is_u64 x -> is_i64 lower -> is_i64 upper ->
  lower < upper ->
  scale128 x (upper - lower) lower = lower + x * (upper - lower) / two64.
Proof.
  intros x l u Hx Hl Hu H. unfold scale128. set (s := u - l).
  assert (Hs : 0 < s < two64) by (unfold s, is_i64, I64_MIN, I64_MAX, two63, two64 in *; lia).
  assert (Hw : 0 <= x * s / two64 < s).
  { split; [apply Z.div_pos; unfold is_u64 in *; nia |].
    apply Z.div_lt_upper_bound; [reflexivity |]. unfold is_u64 in Hx. nia. }
  rewrite (Z.mod_small (x * s)).
  2:{ split; [unfold is_u64 in *; nia |].
      change two128 with (two64 * two64). unfold is_u64 in Hx. nia. }
  rewrite Z.shiftr_div_pow2 by lia. change (2 ^ 64) with two64.
  rewrite <- (to_i64_id (l + x * s / two64)).
  2:{ unfold is_i64, s, I64_MIN, I64_MAX, two63 in *. lia. }
  apply to_i64_mod. change two128 with (two64 * two64).
  rewrite Z.rem_mul_r by (unfold two64; lia).
  rewrite (Z.mul_comm two64), Z.mod_add, Z.mod_mod by discriminate.
  unfold u64. rewrite Zplus_mod_idemp_r. f_equal. ring.
Qed.

Lemma limbs : forall x0 x1 y0 y1,
  0 <= x0 < two32 -> 0 <= x1 < two32 -> 0 <= y0 < two32 -> 0 <= y1 < two32 ->
  let p11 := x1 * y1 in let p01 := x0 * y1 in let p10 := x1 * y0 in let p00 := x0 * y0 in
  let mid := p10 + p00 / two32 + p01 mod two32 in
  0 <= mid < two64 /\
  p11 + mid / two32 + p01 / two32 =
    (x1 * two32 + x0) * (y1 * two32 + y0) / two64.
Proof.
  intros x0 x1 y0 y1 H0 H1 H2 H3 p11 p01 p10 p00 mid.
  assert (B : forall a b, 0 <= a < two32 -> 0 <= b < two32 -> 0 <= a * b <= (two32 - 1) * (two32 - 1)).
  { intros a b Ha Hb. split; [nia |]. apply Z.mul_le_mono_nonneg; lia. }
  assert (H : 0 <= p11 <= (two32 - 1) * (two32 - 1)) by (apply B; assumption).
  assert (H4 : 0 <= p01 <= (two32 - 1) * (two32 - 1)) by (apply B; assumption).
  assert (H5 : 0 <= p10 <= (two32 - 1) * (two32 - 1)) by (apply B; assumption).
  assert (H6 : 0 <= p00 <= (two32 - 1) * (two32 - 1)) by (apply B; assumption).
  assert (E : (x1 * two32 + x0) * (y1 * two32 + y0) = p11 * (two32 * two32) + (p10 + p01) * two32 + p00)
    by (unfold p11, p01, p10, p00; ring).
  rewrite E. clearbody p11 p01 p10 p00. clear - H H4 H5 H6.
  unfold mid, two32, two64 in *. clear mid.
  pose proof (Z.div_mod p00 4294967296 ltac:(lia)). pose proof (Z.mod_pos_bound p00 4294967296 ltac:(lia)).
  pose proof (Z.div_mod p01 4294967296 ltac:(lia)). pose proof (Z.mod_pos_bound p01 4294967296 ltac:(lia)).
  set (a := p00 / 4294967296) in *. set (b := p00 mod 4294967296) in *.
  set (c := p01 / 4294967296) in *. set (d := p01 mod 4294967296) in *.
  clearbody a b c d. split; [lia |].
  set (m := p10 + a + d).
  pose proof (Z.div_mod m 4294967296 ltac:(lia)). pose proof (Z.mod_pos_bound m 4294967296 ltac:(lia)).
  apply (Z.div_unique _ _ _ (m mod 4294967296 * 4294967296 + b)); lia.
Qed.

Lemma scalePortable_eq : forall x s lower, is_u64 x -> is_u64 s ->
  scalePortable x s lower = scale128 x s lower.
Proof.
  intros x s l Hx Hs. unfold scalePortable, scale128, u32. cbv zeta.
  rewrite !Z.shiftr_div_pow2 by lia.
  change (2 ^ 32) with two32. change (2 ^ 64) with two64.
  assert (Hxd : x = x / two32 * two32 + x mod two32)
    by (rewrite (Z.div_mod x two32) at 1 by discriminate; ring).
  assert (Hsd : s = s / two32 * two32 + s mod two32)
    by (rewrite (Z.div_mod s two32) at 1 by discriminate; ring).
  assert (Bx : 0 <= x / two32 < two32).
  { split; [apply Z.div_pos; [apply Hx | reflexivity] |].
    apply Z.div_lt_upper_bound; [reflexivity |]. exact (proj2 Hx). }
  assert (Bs : 0 <= s / two32 < two32).
  { split; [apply Z.div_pos; [apply Hs | reflexivity] |].
    apply Z.div_lt_upper_bound; [reflexivity |]. exact (proj2 Hs). }
  assert (Bx0 : 0 <= x mod two32 < two32) by (apply Z.mod_pos_bound; reflexivity).
  assert (Bs0 : 0 <= s mod two32 < two32) by (apply Z.mod_pos_bound; reflexivity).
  pose proof (limbs _ _ _ _ Bx0 Bx Bs0 Bs) as L. cbv zeta in L. rewrite <- Hxd, <- Hsd in L.
  set (x0 := x mod two32) in *. set (x1 := x / two32) in *.
  set (y0 := s mod two32) in *. set (y1 := s / two32) in *.
  assert (B : forall a b, 0 <= a < two32 -> 0 <= b < two32 -> u64 (a * b) = a * b).
  { intros a b Ha Hb. apply u64_id. clear - Ha Hb. split; [nia |].
    apply Z.le_lt_trans with ((two32 - 1) * (two32 - 1)); [apply Z.mul_le_mono_nonneg; lia | reflexivity]. }
  rewrite !B by assumption. destruct L as [Lm L]. clearbody x0 x1 y0 y1. clear Hxd Hsd B.
  assert (Hq : 0 <= x1 * y0 + x0 * y0 / two32 < two64).
  { pose proof (Z.mod_pos_bound (x0 * y1) two32 ltac:(reflexivity)).
    split; [| clear - Lm H; lia].
    apply Z.add_nonneg_nonneg; [apply Z.mul_nonneg_nonneg; lia |].
    apply Z.div_pos; [apply Z.mul_nonneg_nonneg; lia | reflexivity]. }
  rewrite (u64_id (x1 * y0 + x0 * y0 / two32)) by exact Hq.
  rewrite (u64_id (x1 * y0 + x0 * y0 / two32 + (x0 * y1) mod two32)) by exact Lm.
  assert (Hxs : 0 <= x * s < two64 * two64).
  { clear - Hx Hs. unfold is_u64 in *.
    split; [apply Z.mul_nonneg_nonneg; lia | apply Z.mul_lt_mono_nonneg; lia]. }
  assert (Hr : 0 <= x * s / two64 < two64).
  { split; [apply Z.div_pos; [apply Hxs | reflexivity] | apply Z.div_lt_upper_bound; [reflexivity | apply Hxs]]. }
  change two128 with (two64 * two64).
  rewrite (Z.mod_small (x * s)) by exact Hxs.
  apply to_i64_mod.
  rewrite Z.rem_mul_r by (unfold two64; lia).
  rewrite (Z.mul_comm two64 (_ mod two64)), Z.mod_add, Z.mod_mod by discriminate.
  rewrite <- L in Hr.
  set (M := (x1 * y0 + x0 * y0 / two32 + (x0 * y1) mod two32) / two32) in *.
  assert (Hp : 0 <= x0 * y1 / two32)
    by (apply Z.div_pos; [apply Z.mul_nonneg_nonneg; lia | reflexivity]).
  assert (HM : 0 <= M) by (apply Z.div_pos; [lia | reflexivity]).
  rewrite (u64_id (x1 * y1 + M)).
  2:{ split; [apply Z.add_nonneg_nonneg; [apply Z.mul_nonneg_nonneg; lia | exact HM] | clear - Hr Hp; lia]. }
  rewrite L. rewrite (u64_id (x * s / two64)) by (rewrite <- L; exact Hr).
  unfold u64. rewrite Z.mod_mod by discriminate. reflexivity.
Qed.

(* acceptance of one word *)
Definition accepts (s x : Z) : Prop := two64 mod s <= (x * s) mod two64.

Lemma integer_cons : forall scale lower upper x ws,
  is_i64 lower -> is_i64 upper -> lower < upper ->
  let s := upper - lower in
  (accepts s x -> integerWith scale lower upper (x :: ws) = Ok (scale x s lower, ws)) /\
  (~ accepts s x -> integerWith scale lower upper (x :: ws) = integerWith scale lower upper ws).
Proof.
  intros scale lower upper x ws Hl Hu H s.
  assert (Hs : 0 < s < two64) by (unfold s, is_i64, I64_MIN, I64_MAX, two63, two64 in *; lia).
  pose proof (Z.mod_pos_bound two64 s ltac:(lia)) as Ht.
  unfold integerWith, judgeAssert. replace (lower <? upper) with true by lia. cbn [bind].
  rewrite spanOf_Ok by auto. fold s. replace (s =? 0) with false by lia.
  rewrite threshold by exact Hs. unfold accepts. fold (u64 (x * s)). split; intros A.
  - destruct (u64 (x * s) <? s) eqn:E; [| reflexivity].
    destruct ws; simpl skipWords; replace (u64 (x * s) <? two64 mod s) with false by lia; reflexivity.
  - replace (u64 (x * s) <? s) with true by lia.
    destruct ws as [| w ws]; cbn [skipWords]; replace (u64 (x * s) <? two64 mod s) with true by lia;
      [reflexivity |].
    destruct (u64 (w * s) <? s) eqn:E; [reflexivity |].
    destruct ws; simpl skipWords; replace (u64 (w * s) <? two64 mod s) with false by lia; reflexivity.
Qed.

Lemma accepts_dec : forall s x, accepts s x \/ ~ accepts s x.
Proof. intros. unfold accepts. lia. Qed.

Lemma integer_range : forall lower upper ws, is_i64 lower -> is_i64 upper ->
  Forall is_u64 ws ->
  match integer lower upper ws with
  | Ok (r, rest) => lower <= r < upper /\ exists pre, pre <> [] /\ ws = pre ++ rest
  | Throw => upper <= lower
  | UB => False
  | Fuel => lower < upper
  end.
Proof.
  intros lower upper ws Hl Hu Hws.
  destruct (Z.lt_ge_cases lower upper) as [H | H].
  2:{ unfold integer, integerWith, judgeAssert. replace (lower <? upper) with false by lia. exact H. }
  induction ws as [| x ws IH].
  - unfold integer, integerWith, judgeAssert. replace (lower <? upper) with true by lia. exact H.
  - inversion_clear Hws as [| ? ? Hx Hws']. unfold integer in *.
    destruct (integer_cons scale128 lower upper x ws Hl Hu H) as [A R].
    destruct (accepts_dec (upper - lower) x) as [K | K].
    + rewrite (A K). rewrite scale128_Ok by auto.
      assert (Hs : 0 < upper - lower < two64) by (unfold is_i64, I64_MIN, I64_MAX, two63, two64 in *; lia).
      assert (0 <= x * (upper - lower) / two64 < upper - lower).
      { unfold is_u64 in Hx. split; [apply Z.div_pos; [nia | reflexivity] |].
        apply Z.div_lt_upper_bound; [reflexivity |]. nia. }
      split; [lia |]. exists [x]. split; [discriminate | reflexivity].
    + rewrite (R K). specialize (IH Hws').
      destruct (integerWith scale128 lower upper ws) as [[r rest] | | |]; auto.
      destruct IH as (I1 & pre & I2 & I3). split; [exact I1 |].
      exists (x :: pre). split; [discriminate |]. subst ws. reflexivity.
Qed.

(* the words accepted with result lower + w form an interval of 2^64 / s words *)
Lemma accepted_interval : forall s w, 0 < s < two64 -> 0 <= w < s ->
  let q := two64 / s in
  let b := (w * two64 + two64 mod s + s - 1) / s in
  0 <= b /\ b + q <= two64 /\
  forall x, 0 <= x -> (accepts s x /\ x * s / two64 = w) <-> (b <= x < b + q).
Proof.
  intros s w Hs Hw q b.
  set (t := two64 mod s) in *.
  assert (Ht : 0 <= t < s) by (apply Z.mod_pos_bound; lia).
  assert (Hq : two64 = s * q + t) by (apply Z.div_mod; lia).
  assert (Hq0 : 0 < q) by (apply Z.div_str_pos; lia).
  set (N := w * two64 + t) in *.
  assert (HN : 0 <= N) by (unfold N; nia).
  assert (Hb : N <= b * s < N + s).
  { unfold b. replace (w * two64 + t + s - 1) with (N + s - 1) by reflexivity.
    pose proof (Z.div_mod (N + s - 1) s ltac:(lia)). pose proof (Z.mod_pos_bound (N + s - 1) s ltac:(lia)).
    nia. }
  assert (Hb0 : 0 <= b) by nia.
  split; [exact Hb0 |]. split.
  { (* (b+q) s <= N + s - 1 + 2^64 - t <= ... *)
    assert ((b + q) * s < two64 * s + s); [| nia].
    rewrite Z.mul_add_distr_r. replace (q * s) with (two64 - t) by lia.
    unfold N in Hb. assert (w * two64 <= (s - 1) * two64) by (apply Z.mul_le_mono_nonneg_r; lia). lia. }
  intros x Hx. unfold accepts. fold t.
  pose proof (Z.div_mod (x * s) two64 ltac:(discriminate)) as Hd.
  pose proof (Z.mod_pos_bound (x * s) two64 ltac:(reflexivity)) as Hm.
  set (h := x * s / two64) in *. set (r := (x * s) mod two64) in *.
  split.
  - intros [A ->]. assert (Hxs : N <= x * s < N - t + two64) by (unfold N; lia).
    split; [nia |]. assert (x * s < (b + q) * s); [| nia].
    rewrite Z.mul_add_distr_r. replace (q * s) with (two64 - t) by lia. lia.
  - intros [A B]. assert (L : b * s <= x * s) by (apply Z.mul_le_mono_nonneg_r; lia).
    assert (U : x * s <= (b + q - 1) * s) by (apply Z.mul_le_mono_nonneg_r; lia).
    rewrite Z.mul_sub_distr_r, Z.mul_add_distr_r in U. replace (q * s) with (two64 - t) in U by lia.
    assert (w * two64 + t <= x * s < (w + 1) * two64) by (unfold N in *; lia).
    assert (h = w); [| subst h; split; [lia | assumption]].
    clearbody h r. clear - H Hd Hm Ht. unfold two64 in *. nia.
Qed.

Lemma integer_uniform : forall lower upper, is_i64 lower -> is_i64 upper -> lower < upper ->
  forall v, lower <= v < upper ->
  exists b, 0 <= b /\ b + two64 / (upper - lower) <= two64 /\
  forall x, is_u64 x ->
    (integer lower upper [x] = Ok (v, []) <-> b <= x < b + two64 / (upper - lower)).
Proof.
  intros lower upper Hl Hu H v Hv.
  assert (Hs : 0 < upper - lower < two64) by (unfold is_i64, I64_MIN, I64_MAX, two63, two64 in *; lia).
  destruct (accepted_interval (upper - lower) (v - lower) Hs ltac:(lia)) as (B0 & B1 & B2).
  eexists. split; [exact B0 |]. split; [exact B1 |].
  intros x Hx. rewrite <- (B2 x (proj1 Hx)). clear B0 B1 B2.
  destruct (integer_cons scale128 lower upper x [] Hl Hu H) as [A R]. unfold integer.
  split.
  - intros E. destruct (accepts_dec (upper - lower) x) as [K | K].
    + split; [exact K |]. rewrite (A K) in E. inversion E as [E1].
      rewrite scale128_Ok in E1 by auto. rewrite scale128_Ok by auto. lia.
    + rewrite (R K) in E. unfold integerWith, judgeAssert in E.
      replace (lower <? upper) with true in E by lia. discriminate.
  - intros [K E]. rewrite (A K), scale128_Ok by auto. rewrite E. do 2 f_equal. lia.
Qed.

Lemma integer_redraw : forall lower upper x ws, is_i64 lower -> is_i64 upper -> lower < upper ->
  integer lower upper (x :: ws) =
    match integer lower upper [x] with
    | Ok (v, _) => Ok (v, ws)
    | _ => integer lower upper ws
    end.
Proof.
  intros lower upper x ws Hl Hu H. unfold integer.
  destruct (integer_cons scale128 lower upper x ws Hl Hu H) as [A R].
  destruct (integer_cons scale128 lower upper x [] Hl Hu H) as [A' R'].
  destruct (accepts_dec (upper - lower) x) as [K | K].
  - rewrite (A K), (A' K). reflexivity.
  - rewrite (R K), (R' K). unfold integerWith at 2, judgeAssert.
    replace (lower <? upper) with true by lia. reflexivity.
Qed.

Lemma accepted_majority : forall s, 0 < s < two64 -> two64 < 2 * (s * (two64 / s)).
Proof.
  intros s Hs. pose proof (Z.div_mod two64 s ltac:(lia)). pose proof (Z.mod_pos_bound two64 s ltac:(lia)).
  assert (0 < two64 / s) by (apply Z.div_str_pos; lia). nia.
Qed.

Lemma integer_portable : forall lower upper ws, is_i64 lower -> is_i64 upper -> Forall is_u64 ws ->
  integerPortable lower upper ws = integer lower upper ws.
Proof.
  intros lower upper ws Hl Hu Hws.
  destruct (Z.lt_ge_cases lower upper) as [H | H].
  2:{ unfold integerPortable, integer, integerWith, judgeAssert.
      replace (lower <? upper) with false by lia. reflexivity. }
  assert (Hs : 0 < upper - lower < two64) by (unfold is_i64, I64_MIN, I64_MAX, two63, two64 in *; lia).
  unfold integerPortable, integer.
  induction Hws as [| x ws Hx Hws IH].
  - unfold integerWith. destruct (judgeAssert (lower <? upper)); reflexivity.
  - destruct (integer_cons scale128 lower upper x ws Hl Hu H) as [A R].
    destruct (integer_cons scalePortable lower upper x ws Hl Hu H) as [A' R'].
    destruct (accepts_dec (upper - lower) x) as [K | K].
    + rewrite (A K), (A' K). rewrite scalePortable_eq by (auto; unfold is_u64; lia). reflexivity.
    + rewrite (R K), (R' K). exact IH.
Qed.

(* ---- bit ---- *)
Lemma bit_flip : forall w, 0 <= w -> bitOf (Z.lxor w 1) = negb (bitOf w).
Proof.
  intros w Hw. unfold bitOf. change (popcount 64) with (fun x => (if Z.odd x then 1 else 0) + popcount 63 (x / 2)).
  cbv beta.
  assert (Hd : Z.lxor w 1 / 2 = w / 2).
  { rewrite <- !Z.div2_div. rewrite !Z.div2_spec, Z.shiftr_lxor. change (Z.shiftr 1 1) with 0.
    apply Z.lxor_0_r. }
  assert (Ho : Z.odd (Z.lxor w 1) = negb (Z.odd w)).
  { rewrite <- !Z.bit0_odd, Z.lxor_spec. change (Z.testbit 1 0) with true.
    rewrite Z.bit0_odd. destruct (Z.odd w); reflexivity. }
  rewrite Hd, Ho. rewrite !Z.odd_add. destruct (Z.odd w), (Z.odd (popcount 63 (w / 2))); reflexivity.
Qed.

Lemma lxor1_u64 : forall w, is_u64 w -> is_u64 (Z.lxor w 1) /\ Z.lxor (Z.lxor w 1) 1 = w.
Proof.
  intros w [H0 H1]. split.
  - split; [apply Z.lxor_nonneg; lia |].
    destruct (Z.eq_dec (Z.lxor w 1) 0) as [-> |]; [reflexivity |].
    apply (Z.log2_lt_pow2 _ 64); [pose proof (proj2 (Z.lxor_nonneg w 1)); lia |].

    pose proof (Z.log2_lxor w 1 ltac:(lia) ltac:(lia)) as L. change (Z.log2 1) with 0 in L.
    rewrite Z.max_l in L by apply Z.log2_nonneg.
    destruct (Z.eq_dec w 0) as [-> |].
    + change (Z.log2 0) with 0 in L. lia.
    + assert (Z.log2 w < 64) by (apply Z.log2_lt_pow2; [lia | exact H1]). lia.
  - rewrite Z.lxor_assoc, Z.lxor_nilpotent, Z.lxor_0_r. reflexivity.
Qed.

Lemma bits_unbiased : exists f : Z -> Z,
  forall w, is_u64 w -> is_u64 (f w) /\ f (f w) = w /\ bitOf (f w) = negb (bitOf w).
Proof.
  exists (fun w => Z.lxor w 1). intros w Hw. destruct (lxor1_u64 w Hw) as [A B].
  split; [exact A |]. split; [exact B |]. apply bit_flip. apply Hw.
Qed.
