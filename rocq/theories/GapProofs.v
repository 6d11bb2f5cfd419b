From Verif Require Import Base BaseLemmas Tac RndModel RndLemmas FloatModel FloatSpec RealModel RealSpec RealFormSpec GapSpec.
From Coq Require Import QArith Qpower ZArith Lia Lqa SpecFloat.
Open Scope Z_scope.

Lemma pow_inject : forall k, 0 <= k -> (two k == inject_Z (2 ^ k))%Q.
Proof. intros k K. unfold two. rewrite Zpower_Qpower by exact K. reflexivity. Qed.
Lemma val_signed : forall s m e, (val (S754_finite s m e) == inject_Z (signed s m) * two e)%Q.
Proof.
  intros s m e. cbn [val]. destruct s; cbn [signed]; [|ring]. change (inject_Z (- Z.pos m))%Q with (- inject_Z (Zpos m))%Q. ring.
Qed.
Lemma floorZ_val : forall x, isfinite x = true -> exists z, floorZ x = Some z /\ isFloor x z.
Proof.
  intros x F. unfold isFloor. destruct x as [s|s| |s m e]; try discriminate F; cbn [floorZ].
  - exists 0. split; [reflexivity|]. split; [reflexivity|]. cbn. split; [apply Qle_refl|reflexivity].
  - eexists. split; [reflexivity|]. split; [reflexivity|]. rewrite val_signed. destruct (Z.leb_spec 0 e) as [E|E].
    + rewrite (pow_inject e E), <- inject_Z_mult, <- Zle_Qle, <- Zlt_Qlt. lia.
    + set (k := - e). assert (P : 0 < 2 ^ k) by (apply Z.pow_pos_nonneg; unfold k; lia).
      assert (W : (two e * inject_Z (2 ^ k) == 1)%Q).
      { rewrite <- (pow_inject k) by (unfold k; lia). unfold two. rewrite <- Qpower_plus by discriminate. unfold k. rewrite Z.add_opp_diag_r. reflexivity. }
      assert (PQ : (0 < inject_Z (2 ^ k))%Q) by (rewrite <- (Zlt_Qlt 0); exact P).
      pose proof (Z.mul_div_le (signed s m) (2 ^ k) P). pose proof (Z.mul_succ_div_gt (signed s m) (2 ^ k) P).
      assert (M : (inject_Z (signed s m) * two e * inject_Z (2 ^ k) == inject_Z (signed s m))%Q) by (rewrite <- Qmult_assoc, W; ring).
      split.
      * apply (Qmult_le_r _ _ (inject_Z (2 ^ k)) PQ). rewrite M, <- inject_Z_mult, <- Zle_Qle. lia.
      * apply (Qmult_lt_r _ _ (inject_Z (2 ^ k)) PQ). rewrite M, <- inject_Z_mult, <- Zlt_Qlt. lia.
Qed.
Lemma isFloor_unique : forall x y z, isFloor x y -> isFloor x z -> y = z.
Proof.
  intros x y z (_ & A & B) (_ & C & D). assert (y < z + 1) by (rewrite Zlt_Qlt; eapply Qle_lt_trans; eauto).
  assert (z < y + 1) by (rewrite Zlt_Qlt; eapply Qle_lt_trans; eauto). lia.
Qed.
Lemma isFloor_floorZ : forall x z, isFloor x z -> floorZ x = Some z.
Proof. intros x z H. destruct (floorZ_val x (proj1 H)) as (y & E & G). rewrite E, (isFloor_unique x y z G H). reflexivity. Qed.
Lemma isFloor_truncZ : forall x z, isFloor x z -> 0 <= z -> truncZ x = Some z.
Proof.
  intros x z H Z0. apply isFloor_floorZ in H. destruct x as [s|s| |s m e]; try discriminate H; cbn [floorZ truncZ] in *; [exact H|].
  injection H as H. f_equal. destruct (0 <=? e) eqn:E; [exact H|]. assert (P : 0 < 2 ^ (- e)) by (apply Z.pow_pos_nonneg; lia).
  rewrite <- H in *. destruct s; cbn [signed] in *.
  - exfalso. pose proof (Z.mul_div_le (- Zpos m) (2 ^ - e) P). nia.
  - apply Z.quot_div_nonneg; lia.
Qed.

Lemma in_i64_iff : forall v, in_i64 v = true <-> is_i64 v.
Proof. intro. unfold in_i64, is_i64. lia. Qed.

(* the first of several results of real() *)
Lemma play_split : forall A C (m : rnd A) (h : A -> rnd C) ws c, play (rbind m h) ws = Ok c ->
  exists a ws', play (h a) ws' = Ok c /\ forall B (g : A -> rnd B), play (rbind m g) ws = play (g a) ws'.
Proof.
  intros A C m h. induction m as [o|lo hi k IH]; intros ws c; cbn [rbind].
  - destruct o as [a| | |]; cbn [rbind play]; try discriminate. intro H. exists a, ws. split; [exact H|]. reflexivity.
  - cbn [play]. destruct ws as [|x ws]; [discriminate|]. intro H. destruct ((lo <=? x) && (x <? hi)) eqn:E; [|discriminate].
    destruct (IH x ws c H) as (a & ws' & P & Q). exists a, ws'. split; [exact P|]. intros B g. apply Q.
Qed.
Lemma reals_first : forall fuel k ws u us, play (reals fuel k) ws = Ok (u :: us) -> exists k' ws', k = S k' /\ play (reals fuel k') ws' = Ok us /\
  forall B (g : real -> rnd B), play (rbind (randomReal fuel) g) ws = play (g u) ws'.
Proof.
  intros fuel [|k] ws u us H; [discriminate|]. cbn [reals] in H. destruct (play_split _ _ _ _ _ _ H) as (a & ws' & P & Q).
  destruct (play_split _ _ _ _ _ _ P) as (b & ws2 & R & S). cbn in R. injection R as -> ->. exists k, ws'. split; [reflexivity|]. split; [|exact Q].
  specialize (S _ (@ret _)). assert (rbind (reals fuel k) (@ret _) = reals fuel k -> play (reals fuel k) ws' = Ok us) as X.
  { intro E. rewrite E in S. rewrite S. reflexivity. }
  clear - S. revert ws' S. generalize (reals fuel k). intros m. induction m as [o|lo hi kk IH]; intros ws; cbn [rbind play].
  - destruct o; cbn; intro H; exact H.
  - destruct ws as [|x ws]; [intro H; exact H|]. destruct ((lo <=? x) && (x <? hi)); [apply IH|intro H; exact H].
Qed.

Lemma play_same : forall A B (m : rnd A) (f g : A -> rnd B), (forall a ws, play (f a) ws = play (g a) ws) -> forall ws, play (rbind m f) ws = play (rbind m g) ws.
Proof.
  intros A B m f g H. induction m as [o|lo hi k IH]; intro ws; cbn [rbind].
  - destruct o; cbn [rbind play]; auto.
  - cbn [play]. destruct ws as [|x ws]; [reflexivity|]. destruct ((lo <=? x) && (x <? hi)); [apply IH|reflexivity].
Qed.
Lemma to_i64_sum : forall l z, is_i64 l -> 0 <= z -> is_i64 (l + z) -> to_i64 (u64 (z + u64 l)) = l + z.
Proof. intros l z L Z0 S. assert (E : u64 (z + u64 l) mod two64 = (l + z) mod two64).
  { unfold u64. rewrite Zmod_mod, Zplus_mod_idemp_r. f_equal. lia. }
  unfold to_i64. rewrite E. change (to_i64 (l + z) = l + z). apply to_i64_id, S.
Qed.
Section Gap.
  Variable sqrt log log1p log2 exp2 lgamma : real -> real.
  Variable lgammaZ : Z -> real.
  Variable unspecified : real -> Z.
  Lemma llround_floor : forall x z, isFloor x z -> is_i64 z -> llroundFloor unspecified x = z.
  Proof.
    intros x z H I. unfold llroundFloor. rewrite (isFloor_floorZ x z H). unfold is_i64, I64_MIN, I64_MAX, two63 in I.
    replace ((- 2 ^ 63 <=? z) && (z <? 2 ^ 63)) with true; [reflexivity|]. symmetry. apply andb_true_iff. lia.
  Qed.
  Lemma geometric_form : forall fuel p ws u g, SFleb rzero p = true -> SFltb p rone = true -> play (randomReal fuel) ws = Ok u ->
    isFloor (rdiv (log u) (log1p (ropp p))) g -> is_i64 g -> play (geometric log log1p unspecified fuel p) ws = Ok g.
  Proof.
    intros fuel p ws u g P0 P1 U F I. unfold geometric. rewrite P0, P1. cbn [andb judgeAssert lift rbind].
    revert ws U. generalize (randomReal fuel). intro m. induction m as [o|lo hi k IH]; intros ws; cbn [rbind play].
    - intros ->. cbn. rewrite (llround_floor _ g F I). reflexivity.
    - destruct ws as [|x xs]; [discriminate|]. destruct ((lo <=? x) && (x <? hi)); [|discriminate]. apply IH.
  Qed.
  Lemma geometricIn_form : forall lower upper p us r, firstGap log lower upper (log1p (ropp p)) us r -> forall fuel fuel' k ws,
    lower < upper -> SFleb rzero p = true -> SFltb p rone = true -> play (reals fuel' k) ws = Ok us -> (k <= fuel)%nat ->
    play (geometricIn log log1p unspecified fuel fuel' lower upper p) ws = Ok r.
  Proof.
    intros lower upper p us r H fuel fuel' k ws LU P0 P1 U K. unfold geometricIn. rewrite P0, P1, (proj2 (Z.ltb_lt _ _) LU). cbn [andb judgeAssert lift rbind].
    revert fuel k ws U K. induction H as [u us g (F & I & _) L B|u us g r (F & I & _) L B _ IH]; intros fuel k ws U K;
      destruct (reals_first _ _ _ _ _ U) as (k' & ws' & -> & R & Q); (destruct fuel as [|fuel]; [lia|]); cbn [geometricLoop]; rewrite Q, (llround_floor _ g F I);
      unfold chk; rewrite (proj2 (in_i64_iff _) L); cbn [lift rbind].
    - rewrite (proj2 (Z.ltb_lt _ _) B). reflexivity.
    - rewrite (proj2 (Z.ltb_ge _ _) B). apply (IH fuel k' ws' R). lia.
  Qed.
  Lemma bg_form : forall n lg y us k, successes log n lg y us k -> forall fuel fuel' j ws swap res, play (reals fuel' j) ws = Ok us -> (j <= fuel)%nat ->
    play (bgLoop log unspecified fuel fuel' n swap lg res y) ws = Ok (if swap : bool then n - (res + k) else res + k).
  Proof.
    intros n lg y us k H. induction H as [y u us g (F & I & I1) L B|y u us g k (F & I & I1) L B _ IH]; intros fuel fuel' j ws swap res U K;
      destruct (reals_first _ _ _ _ _ U) as (k' & ws' & -> & R & Q); (destruct fuel as [|fuel]; [lia|]); cbn [bgLoop]; rewrite Q, (llround_floor _ g F I);
      unfold chk; rewrite (proj2 (in_i64_iff _) I1); cbn [lift rbind]; rewrite (proj2 (in_i64_iff _) L); cbn [lift rbind].
    - rewrite (proj2 (Z.ltb_lt _ _) B), Z.add_0_r. destruct swap; reflexivity.
    - rewrite (proj2 (Z.ltb_ge _ _) B), (IH fuel fuel' k' ws' swap (res + 1) R ltac:(lia)). replace (res + 1 + k) with (res + (k + 1)) by lia. reflexivity.
  Qed.
  Lemma litA : ropp (lit 873 10000) = lit (-873) 10000.
  Proof. vm_compute. reflexivity. Qed.
  Definition bTest (n : Z) (p x v : real) (k : Z) (m : real) : bool :=
    SFleb (log (rmul v (rdiv (bAlpha sqrt n p) (radd (rdiv (bA sqrt n p) (rmul (bUs x) (bUs x))) (bB sqrt n p)))))
      (radd (rsub (rsub (radd (lgamma (radd m (ofZ 1))) (lgamma (radd (rsub (ofZ n) m) (ofZ 1)))) (lgammaZ (k + 1))) (lgammaZ (n - k + 1)))
        (rmul (rsub (ofZ k) m) (log (rdiv p (rsub (ofZ 1) p))))).
  Lemma btrs_step : forall n p fuel fuel' swap ws, is_i64 (n + 1) -> 0 <= n ->
    play (btrsLoop sqrt log lgamma lgammaZ unspecified (S fuel) fuel' n swap p) ws =
    play (let? x := randomReal fuel' in
      let k := llroundFloor unspecified (bCandidate sqrt n p x) in
      if (k <? 0) || (n <? k) then btrsLoop sqrt log lgamma lgammaZ unspecified fuel fuel' n swap p else
      let? v := randomReal fuel' in
      if SFleb (lit 7 100) (bUs x) && SFleb v (bVr sqrt n p) then ret (if swap : bool then n - k else k) else
      if bTest n p x v k (match floorZ (rmul (ofZ (n + 1)) p) with Some z => ofZ z | None => S754_nan end) then ret (if swap then n - k else k)
      else btrsLoop sqrt log lgamma lgammaZ unspecified fuel fuel' n swap p) ws.
  Proof.
    intros n p fuel fuel' swap ws N1 N. cbn [btrsLoop]. cbv zeta. rewrite litA. unfold rone.
    apply play_same. intro x. change (radd (rmul (radd (rdiv (rmul (ofZ 2) ?a) ?us) ?b) ?u) ?c) with (bCandidate sqrt n p x).
    set (k := llroundFloor unspecified (bCandidate sqrt n p x)). intro ws1.
    destruct ((k <? 0) || (n <? k)) eqn:O; [reflexivity|]. revert ws1. apply play_same. intros v ws2.
    change (rsub (lit 1 2) (SFabs (rsub x (lit 1 2)))) with (bUs x).
    change (rsub (lit 92 100) ?y) with (bVr sqrt n p).
    destruct (SFleb (lit 7 100) (bUs x) && SFleb v (bVr sqrt n p)); [reflexivity|].
    assert (is_i64 (k + 1)) as K1 by (unfold is_i64, I64_MIN, I64_MAX, two63 in *; lia).
    assert (is_i64 (n - k + 1)) as K2 by (unfold is_i64, I64_MIN, I64_MAX, two63 in *; lia).
    unfold chk. rewrite (proj2 (in_i64_iff _) N1). cbn [lift rbind]. rewrite (proj2 (in_i64_iff _) K1). cbn [lift rbind]. rewrite (proj2 (in_i64_iff _) K2). cbn [lift rbind].
    reflexivity.
  Qed.
  Lemma btrs_form : forall n p m us r, 0 <= n -> is_i64 (n + 1) -> isFloor (rmul (ofZ (n + 1)) p) m -> btrs sqrt log lgamma lgammaZ n p m us r ->
    forall fuel fuel' j ws swap, play (reals fuel' j) ws = Ok us -> (j <= fuel)%nat ->
    play (btrsLoop sqrt log lgamma lgammaZ unspecified fuel fuel' n swap p) ws = Ok (if swap : bool then n - r else r).
  Proof.
    intros n p m us r N N1 M H.
    assert (SM : forall k, 0 <= k <= n -> is_i64 k) by (unfold is_i64, I64_MIN, I64_MAX, two63 in *; lia).
    assert (BOX : forall x v, SFleb (lit 7 100) (bUs x) && SFleb v (bVr sqrt n p) = true <-> bBox sqrt n p x v).
    { intros x v. unfold bBox. apply andb_true_iff. }
    assert (LOW : forall x v k, bTest n p x v k (ofZ m) = true <-> bBelow sqrt log lgamma lgammaZ n p x v k m) by (intros; reflexivity).
    induction H as [x xs k r F I O _ IH|x v xs k F O A|x v xs k r F O NB NL _ IH]; intros fuel fuel' j ws swap U K;
      destruct (reals_first _ _ _ _ _ U) as (k' & ws' & -> & R & Q); (destruct fuel as [|fuel]; [lia|]); rewrite (btrs_step n p fuel fuel' swap ws N1 N), Q; cbv zeta.
    - rewrite (llround_floor _ k F I). replace ((k <? 0) || (n <? k)) with true by lia. apply (IH fuel fuel' k' ws' swap R). lia.
    - rewrite (llround_floor _ k F (SM k O)). replace ((k <? 0) || (n <? k)) with false by lia.
      destruct (reals_first _ _ _ _ _ R) as (k2 & ws2 & -> & R2 & Q2). rewrite Q2, (isFloor_floorZ _ _ M).
      destruct (SFleb (lit 7 100) (bUs x) && SFleb v (bVr sqrt n p)) eqn:B; [reflexivity|].
      destruct A as [A|A]; [apply BOX in A; congruence|]. apply LOW in A. rewrite A. reflexivity.
    - rewrite (llround_floor _ k F (SM k O)). replace ((k <? 0) || (n <? k)) with false by lia.
      destruct (reals_first _ _ _ _ _ R) as (k2 & ws2 & -> & R2 & Q2). rewrite Q2, (isFloor_floorZ _ _ M).
      destruct (SFleb (lit 7 100) (bUs x) && SFleb v (bVr sqrt n p)) eqn:B; [exfalso; apply NB, BOX, B|].
      destruct (bTest n p x v k (ofZ m)) eqn:E; [exfalso; apply NL, LOW, E|].
      apply (IH fuel fuel' k2 ws2 swap R2). lia.
  Qed.
  Lemma binomial_gaps : forall fuel fuel' n p j ws us k, 0 <= n -> SFleb rzero p = true -> SFleb p rone = true ->
    let low := smaller p in SFltb (rmul low (ofZ n)) (ofZ 10) = true -> SFleb rzero (log1p (ropp low)) = false ->
    play (reals fuel' j) ws = Ok us -> (j <= fuel)%nat -> successes log n (log1p (ropp low)) 0 us k ->
    play (binomial sqrt log log1p lgamma lgammaZ unspecified fuel fuel' n p) ws = Ok (if SFltb (lit 1 2) p then n - k else k).
  Proof.
    intros fuel fuel' n p j ws us k N P0 P1 low T L U J S. unfold binomial. rewrite P0, P1, (proj2 (Z.leb_le _ _) N). cbn [andb judgeAssert lift rbind]. cbv zeta.
    change (if SFltb (rsub rone p) p then rsub rone p else p) with low. rewrite T, L. rewrite (bg_form n _ 0 us k S fuel fuel' j ws _ 0 U J). reflexivity.
  Qed.
  Lemma binomial_btrs : forall fuel fuel' n p j ws us m k, 0 <= n -> is_i64 (n + 1) -> SFleb rzero p = true -> SFleb p rone = true ->
    let low := smaller p in SFltb (rmul low (ofZ n)) (ofZ 10) = false -> isFloor (rmul (ofZ (n + 1)) low) m ->
    play (reals fuel' j) ws = Ok us -> (j <= fuel)%nat -> btrs sqrt log lgamma lgammaZ n low m us k ->
    play (binomial sqrt log log1p lgamma lgammaZ unspecified fuel fuel' n p) ws = Ok (if SFltb (lit 1 2) p then n - k else k).
  Proof.
    intros fuel fuel' n p j ws us m k N N1 P0 P1 low T M U J S. unfold binomial. rewrite P0, P1, (proj2 (Z.leb_le _ _) N). cbn [andb judgeAssert lift rbind]. cbv zeta.
    change (if SFltb (rsub rone p) p then rsub rone p else p) with low. rewrite T. exact (btrs_form n low m us k N N1 M S fuel fuel' j ws _ U J).
  Qed.
  Lemma maximum_form : forall fuel lower upper n ws u z, is_i64 lower -> is_i64 upper -> 5 <= n -> lower < upper -> play (randomReal fuel) ws = Ok u ->
    isFloor (rmul (ofZ (upper - lower)) (exp2 (rdiv (log2 u) (ofZ n)))) z -> 0 <= z <= upper - lower ->
    play (maximum log2 exp2 fuel lower upper n) ws = Ok (Z.min (upper - 1) (lower + z)).
  Proof.
    intros fuel lower upper n ws u z L U N LU P F B. unfold maximum. rewrite (proj2 (Z.ltb_lt 0 n)) by lia. rewrite (proj2 (Z.ltb_lt _ _) LU). cbn [judgeAssert lift rbind].
    rewrite (proj2 (Z.ltb_ge n 5)) by lia.
    assert (R : exists ws', forall B (g : real -> rnd B), play (rbind (randomReal fuel) g) ws = play (g u) ws').
    { revert ws P. generalize (randomReal fuel). intro m. induction m as [o|lo hi k IH]; intros ws; cbn [rbind play].
      - intros ->. exists ws. reflexivity.
      - destruct ws as [|x xs]; [discriminate|]. destruct ((lo <=? x) && (x <? hi)); [|discriminate]. apply IH. }
    destruct R as (ws' & R). rewrite R. unfold is_i64, I64_MIN, I64_MAX, two63 in *.
    assert (u64 (u64 upper - u64 lower) = upper - lower) as ->.
    { unfold u64, two64. rewrite <- Zminus_mod. apply Z.mod_small. lia. }
    unfold castU. rewrite (isFloor_truncZ _ z F) by lia. replace ((0 <=? z) && (z <? 2 ^ 64)) with true by lia. cbn [lift rbind ret play]. f_equal. f_equal.
    apply to_i64_sum; unfold is_i64, I64_MIN, I64_MAX, two63; lia.
  Qed.
End Gap.
