From Verif Require Import Base BaseLemmas RndModel RandSpec RndLemmas MathModel RandSeqModel CollModel CollSpec DistinctProofs RandMiscProofs.
From Verif Require MathProofs Fermat.
From Coq Require Import ZArith Znumtheory Lia List.
Import ListNotations.
Open Scope Z_scope.

(* ---- congruences *)
Section cong.
  Variable p : Z.
  Definition cg (a b : Z) : Prop := (p | a - b).
  Lemma cg_refl : forall a, cg a a.
  Proof. intros. unfold cg. rewrite Z.sub_diag. apply Z.divide_0_r. Qed.
  Lemma cg_sym : forall a b, cg a b -> cg b a.
  Proof. intros a b [k H]. exists (- k). lia. Qed.
  Lemma cg_trans : forall a b c, cg a b -> cg b c -> cg a c.
  Proof. intros a b c [k H] [l H']. exists (k + l). lia. Qed.
  Lemma cg_add : forall a b c d, cg a b -> cg c d -> cg (a + c) (b + d).
  Proof. intros a b c d [k H] [l H']. exists (k + l). lia. Qed.
  Lemma cg_sub : forall a b c d, cg a b -> cg c d -> cg (a - c) (b - d).
  Proof. intros a b c d [k H] [l H']. exists (k - l). lia. Qed.
  Lemma cg_mul : forall a b c d, cg a b -> cg c d -> cg (a * c) (b * d).
  Proof.
    intros a b c d [k H] [l H']. exists (k * c + l * b).
    replace (a * c - b * d) with ((a - b) * c + (c - d) * b) by ring. rewrite H, H'. ring.
  Qed.
  Lemma cg_mod : forall a, p <> 0 -> cg (a mod p) a.
  Proof. intros a H. exists (- (a / p)). pose proof (Z.div_mod a p H). lia. Qed.
  Lemma cg_eq : forall a b, 0 <= a < p -> 0 <= b < p -> cg a b -> a = b.
  Proof. intros a b Ha Hb [k H]. assert (k = 0) by nia. subst k. lia. Qed.
  Lemma cg_zero : forall a b, cg a b -> a = 0 -> (p | b).
  Proof. intros a b H E. subst a. destruct H as [k H]. exists (- k). lia. Qed.
End cong.

Definition quad (abc : list Z) (t : Z) : Z := fold_left (fun y add => y * t + add) abc 0.

Lemma horner_ok : forall abc p t y y', 2 <= p < 2 ^ 31 -> 0 <= t < p -> 0 <= y < p -> cg p y y' ->
  Forall (fun c => 0 <= c < p) abc ->
  exists r, horner abc p t y = Ok r /\ 0 <= r < p /\ cg p r (fold_left (fun y add => y * t + add) abc y').
Proof.
  induction abc as [| c abc IH]; intros p t y y' Hp Ht Hy Hc F.
  - exists y. auto.
  - apply Forall_inv in F as Fc. cbn beta in Fc. apply Forall_inv_tail in F.
    assert (0 <= y * t <= (2 ^ 31) * (2 ^ 31)) by (split; [nia |]; apply Z.mul_le_mono_nonneg; lia).
    assert (P62 : 2 ^ 31 * 2 ^ 31 = 2 ^ 62) by reflexivity.
    cbn [horner fold_left]. rewrite chk_Ok by (unfold is_i64, I64_MIN, I64_MAX, two63; lia). cbn [bind].
    rewrite chk_Ok by (unfold is_i64, I64_MIN, I64_MAX, two63; lia). cbn [bind].
    unfold crem.
    replace (p =? 0) with false by lia. cbn [orb].
    replace (p =? -1) with false by lia. rewrite ?andb_false_r. cbn [bind].
    rewrite Z.rem_mod_nonneg by lia.
    apply IH; auto.
    + apply Z.mod_pos_bound. lia.
    + eapply cg_trans; [apply cg_mod; lia |]. apply cg_add; [| apply cg_refl].
      apply cg_mul; [exact Hc | apply cg_refl].
Qed.

(* what the draws guarantee *)
Definition okDrawn (n dim : Z) (d : drawn) : Prop :=
  2 <= dp d /\ n <= dp d < 2 * dim - 1 /\ isPrime (dp d) = Ok true /\
  0 <= dA d < dp d /\ 0 <= dB d < dp d /\ ~ (dA d = 0 /\ dB d = 0) /\
  (exists a b c, dabc d = [a; b; c] /\ 1 <= a < dp d /\ 0 <= b < dp d /\ 0 <= c < dp d) /\
  (- dim + 1 <= dx d < dim - dp d) /\ (- dim + 1 <= dy d < dim - dp d) /\
  Z.of_nat (length (dxs d)) = n /\ NoDup (dxs d) /\ Forall (fun x => 0 <= x < dp d) (dxs d).

Lemma pointFor_ok : forall n dim d t, dim <= 0x1FFFFFFF -> okDrawn n dim d -> 0 <= t < dp d ->
  exists x y, pointFor d t = Ok (x, y) /\ - dim < x < dim /\ - dim < y < dim /\
    cg (dp d) (x - dx d) (t * dA d - quad (dabc d) t * dB d) /\
    cg (dp d) (y - dy d) (t * dB d + quad (dabc d) t * dA d).
Proof.
  intros n dim d t Hd (P2 & Pn & _ & HA & HB & _ & (a & b & c & Eabc & Ha & Hb & Hc) & Hx & Hy & _) Ht.
  unfold pointFor. rewrite Eabc.
  destruct (horner_ok [a; b; c] (dp d) t 0 0) as (q & Eq & Hq & Cq); try lia.
  { apply cg_refl. } { repeat constructor; lia. }
  fold (quad [a; b; c] t) in Cq. rewrite Eq. cbn [bind].
  set (p := dp d) in *. set (A := dA d) in *. set (B := dB d) in *. clearbody p A B.
  assert (M : forall u v, 0 <= u < p -> 0 <= v < p -> 0 <= u * v <= 2 ^ 30 * 2 ^ 30).
  { intros u v Hu Hv. split; [apply Z.mul_nonneg_nonneg; lia |]. apply Z.mul_le_mono_nonneg; lia. }
  assert (P60 : 2 ^ 30 * 2 ^ 30 = 2 ^ 60) by reflexivity.
  pose proof (M t A Ht HA) as M1. pose proof (M q B Hq HB) as M2.
  pose proof (M t B Ht HB) as M3. pose proof (M q A Hq HA) as M4. clear M.
  assert (I : forall z, - 2 ^ 61 <= z <= 2 ^ 61 -> is_i64 z) by (intros; unfold is_i64, I64_MIN, I64_MAX, two63; lia).
  assert (Q61 : 2 ^ 61 = 2 * 2 ^ 60) by reflexivity.
  assert (Bg : 2 ^ 60 > 4 * 0x1FFFFFFF) by reflexivity.
  rewrite chk_Ok by (apply I; lia). cbn [bind].
  rewrite chk_Ok by (apply I; lia). cbn [bind].
  rewrite chk_Ok by (apply I; lia). cbn [bind].
  rewrite MathProofs.applyMod_Ok by (first [apply I; lia | unfold I64_MAX, two63; lia]). cbn [bind].
  rewrite chk_Ok by (apply I; lia). cbn [bind].
  rewrite chk_Ok by (apply I; lia). cbn [bind].
  rewrite chk_Ok by (apply I; lia). cbn [bind].
  rewrite MathProofs.applyMod_Ok by (first [apply I; lia | unfold I64_MAX, two63; lia]). cbn [bind].
  pose proof (Z.mod_pos_bound (t * A - q * B) p ltac:(lia)) as R1.
  pose proof (Z.mod_pos_bound (t * B + q * A) p ltac:(lia)) as R2.
  rewrite chk_Ok by (apply I; lia). cbn [bind].
  rewrite chk_Ok by (apply I; lia). cbn [bind].
  eexists _, _. split; [reflexivity |]. split; [lia |]. split; [lia |].
  rewrite !Z.add_simpl_r. split.
  - eapply cg_trans; [apply cg_mod; lia |]. apply cg_sub; [apply cg_refl |]. apply cg_mul; [exact Cq | apply cg_refl].
  - eapply cg_trans; [apply cg_mod; lia |]. apply cg_add; [apply cg_refl |]. apply cg_mul; [exact Cq | apply cg_refl].
Qed.

Definition image (d : drawn) (t : Z) (q : Z * Z) : Prop :=
  cg (dp d) (fst q - dx d) (t * dA d - quad (dabc d) t * dB d) /\
  cg (dp d) (snd q - dy d) (t * dB d + quad (dabc d) t * dA d).

Lemma pointsFor_ok : forall n dim d xs, dim <= 0x1FFFFFFF -> okDrawn n dim d -> Forall (fun t => 0 <= t < dp d) xs ->
  exists l, pointsFor d xs = Ok l /\ Forall2 (image d) xs l /\
    Forall (fun q => Z.abs (fst q) < dim /\ Z.abs (snd q) < dim) l.
Proof.
  intros n dim d xs Hd Ok. induction xs as [| t xs IH]; intros F.
  - exists []. repeat constructor.
  - apply Forall_inv in F as Ft. apply Forall_inv_tail in F. destruct (IH F) as (l & El & F2 & Fb).
    destruct (pointFor_ok n dim d t Hd Ok Ft) as (x & y & E & Bx & By & Cx & Cy).
    exists ((x, y) :: l). cbn [pointsFor]. rewrite E. cbn [bind]. rewrite El. cbn [bind].
    split; [reflexivity |]. split; constructor; auto.
    + split; assumption.
    + cbn [fst snd]. lia.
Qed.

Lemma Forall2_nth' : forall A B (R : A -> B -> Prop) l l' a b, Forall2 R l l' ->
  forall i, (i < length l)%nat -> R (nth i l a) (nth i l' b).
Proof.
  intros A B R l l' a b F. induction F; intros i Hi; cbn [length] in Hi; [lia |].
  destruct i; cbn [nth]; auto. apply IHF. lia.
Qed.

Section general.
  Variable d : drawn.
  Let p := dp d. Let A := dA d. Let B := dB d.
  Variables a b c : Z.
  Hypothesis E : dabc d = [a; b; c].
  Hypothesis Hp : prime p.
  Hypothesis Ha : 1 <= a < p.
  Hypothesis Hdet : ~ (p | A * A + B * B).

  Lemma image_orient : forall t1 t2 t3 q1 q2 q3, image d t1 q1 -> image d t2 q2 -> image d t3 q3 ->
    cg p (orient q1 q2 q3) ((A * A + B * B) * (a * ((t2 - t1) * ((t3 - t1) * (t3 - t2))))).
  Proof.
    intros t1 t2 t3 q1 q2 q3 [X1 Y1] [X2 Y2] [X3 Y3]. unfold orient.
    rewrite E in *. cbn [quad fold_left] in *. fold p A B in X1, X2, X3, Y1, Y2, Y3.
    pose proof (cg_sub _ _ _ _ _ X2 X1) as X21. pose proof (cg_sub _ _ _ _ _ X3 X1) as X31.
    pose proof (cg_sub _ _ _ _ _ Y2 Y1) as Y21. pose proof (cg_sub _ _ _ _ _ Y3 Y1) as Y31.
    pose proof (cg_sub _ _ _ _ _ (cg_mul _ _ _ _ _ X21 Y31) (cg_mul _ _ _ _ _ Y21 X31)) as O.
    unfold quad in O. cbn [fold_left] in O.
    match type of O with cg _ ?u ?v => replace ((fst q2 - fst q1) * (snd q3 - snd q1) - (snd q2 - snd q1) * (fst q3 - fst q1)) with u by ring;
      replace ((A * A + B * B) * (a * ((t2 - t1) * ((t3 - t1) * (t3 - t2))))) with v by ring end.
    exact O.
  Qed.

  Lemma small_not_div : forall s t, 0 <= s < p -> 0 <= t < p -> s <> t -> ~ (p | t - s).
  Proof. intros s t Hs Ht N D. apply N. symmetry. apply (cg_eq p); auto. Qed.

  Lemma image_noncollinear : forall t1 t2 t3 q1 q2 q3, image d t1 q1 -> image d t2 q2 -> image d t3 q3 ->
    0 <= t1 < p -> 0 <= t2 < p -> 0 <= t3 < p -> t1 <> t2 -> t1 <> t3 -> t2 <> t3 -> orient q1 q2 q3 <> 0.
  Proof.
    intros t1 t2 t3 q1 q2 q3 I1 I2 I3 H1 H2 H3 N12 N13 N23 Z.
    pose proof (cg_zero _ _ _ (image_orient _ _ _ _ _ _ I1 I2 I3) Z) as D.
    apply prime_mult in D; [| exact Hp]. destruct D as [D | D]; [exact (Hdet D) |].
    apply prime_mult in D; [| exact Hp]. destruct D as [D | D].
    { apply Z.divide_pos_le in D; lia. }
    apply prime_mult in D; [| exact Hp]. destruct D as [D | D].
    { exact (small_not_div t1 t2 H1 H2 N12 D). }
    apply prime_mult in D; [| exact Hp]. destruct D as [D | D].
    { exact (small_not_div t1 t3 H1 H3 N13 D). }
    exact (small_not_div t2 t3 H2 H3 N23 D).
  Qed.

  Lemma image_inj : forall s t q, image d s q -> image d t q -> 0 <= s < p -> 0 <= t < p -> s = t.
  Proof.
    intros s t q [X1 Y1] [X2 Y2] Hs Ht. fold p A B in X1, X2, Y1, Y2.
    assert (X : cg p (s * A - quad (dabc d) s * B) (t * A - quad (dabc d) t * B)).
    { eapply cg_trans; [apply cg_sym; exact X1 | exact X2]. }
    assert (Y : cg p (s * B + quad (dabc d) s * A) (t * B + quad (dabc d) t * A)).
    { eapply cg_trans; [apply cg_sym; exact Y1 | exact Y2]. }
    pose proof (cg_add _ _ _ _ _ (cg_mul _ _ _ _ _ (cg_refl p A) X) (cg_mul _ _ _ _ _ (cg_refl p B) Y)) as D.
    unfold cg in D.
    match type of D with (_ | ?u) => replace u with ((A * A + B * B) * (s - t)) in D by ring end.
    apply prime_mult in D; [| exact Hp]. destruct D as [D | D]; [contradiction (Hdet D) |].
    apply (cg_eq p); auto.
  Qed.
End general.

(* -1 is no square modulo a prime that is 3 modulo 4 *)
Lemma sum_of_squares : forall p A B, prime p -> p mod 4 = 3 -> 0 <= A < p -> 0 <= B < p ->
  ~ (A = 0 /\ B = 0) -> ~ (p | A * A + B * B).
Proof.
  intros p A B Hp H4 HA HB N D.
  assert (P3 : 3 <= p) by (pose proof (prime_ge_2 p Hp); destruct (Z.eq_dec p 2) as [-> |]; [discriminate H4 | lia]).
  assert (K : forall X Y, 0 <= X < p -> 0 <= Y < p -> X <> 0 -> (p | X * X + Y * Y) -> ~ (p | X) /\ ~ (p | Y)).
  { intros X Y HX HY NX DX.
    assert (~ (p | X)) by (intros Q; apply Z.divide_pos_le in Q; lia). split; [assumption |].
    intros Q. apply H. assert (p | X * X). 
    { replace (X * X) with ((X * X + Y * Y) - Y * Y) by ring. apply Z.divide_sub_r; [exact DX |]. apply Z.divide_mul_l. exact Q. }
    apply prime_mult in H0; [| exact Hp]. tauto. }
  assert (ND : ~ (p | A) /\ ~ (p | B)).
  { destruct (Z.eq_dec A 0) as [E | E].
    - assert (D' : (p | B * B + A * A)) by (rewrite Z.add_comm; exact D).
      assert (NB : B <> 0) by tauto. pose proof (K B A HB HA NB D'). tauto.
    - apply K; auto. }
  clear K. destruct ND as [NA NB].
  pose proof (Fermat.fermat_Z p A Hp NA) as FA. pose proof (Fermat.fermat_Z p B Hp NB) as FB.
  set (m := p / 4). assert (Em : p - 1 = 2 * (2 * m + 1)) by (pose proof (Z.div_mod p 4); unfold m; lia).
  assert (M0 : 0 <= m) by (apply Z.div_pos; lia).
  rewrite Em, Z.pow_mul_r in FA, FB by lia. rewrite !Z.pow_2_r in FA, FB.
  assert (C : cg p (A * A) (- (B * B))) by (unfold cg; replace (A * A - - (B * B)) with (A * A + B * B) by ring; exact D).
  assert (CP : forall k, 0 <= k -> cg p ((A * A) ^ k) ((- (B * B)) ^ k)).
  { intros k Hk. pattern k. apply natlike_ind; [apply cg_refl | | exact Hk].
    intros z Hz IH. rewrite !Z.pow_succ_r by lia. apply cg_mul; assumption. }
  assert (M1 : 0 <= 2 * m + 1) by (clear - M0; lia). specialize (CP (2 * m + 1) M1).
  assert (Odd : (- (B * B)) ^ (2 * m + 1) = - (B * B) ^ (2 * m + 1)).
  { apply Z.pow_opp_odd. exists m. reflexivity. }
  rewrite Odd in CP.
  set (u := (A * A) ^ (2 * m + 1)) in *. set (v := (B * B) ^ (2 * m + 1)) in *. clearbody u v.
  assert (P0 : p <> 0) by lia.
  pose proof (cg_mod p u P0) as Cu. rewrite FA in Cu. pose proof (cg_mod p v P0) as Cv. rewrite FB in Cv.
  destruct Cu as [k1 Cu]. destruct Cv as [k2 Cv]. destruct CP as [k3 CP].
  assert (p | 2). { exists (k1 + k2 + k3). lia. }
  apply Z.divide_pos_le in H; lia.
Qed.

(* ---- the draws *)
Lemma rint_throw : forall A lo hi (f : Z -> rnd A), hi <= lo -> rbind (rint lo hi) f = RRet Throw.
Proof. intros A lo hi f H. unfold rint. replace (lo <? hi) with false by lia. reflexivity. Qed.

Lemma rotLoop_always : forall fuel p, 0 < p ->
  always (rotLoop fuel p) (fun o => o = Fuel \/ exists a b, o = Ok (a, b) /\ 0 <= a < p /\ 0 <= b < p /\ ~ (a = 0 /\ b = 0)).
Proof.
  intros fuel p Hp. induction fuel as [| fuel IH]; [left; reflexivity |].
  cbn [rotLoop]. eapply returns_bind; [apply returns_rint; exact Hp |]. intros a Ha. cbn beta in Ha.
  eapply returns_bind; [apply returns_rint; exact Hp |]. intros b Hb. cbn beta in Hb.
  destruct ((a =? 0) && (b =? 0)) eqn:E; [exact IH |].
  right. exists a, b. repeat split; try lia.
Qed.

Lemma draws_always : forall fuel n dim, 0 <= n < dim -> dim <= 0x1FFFFFFF ->
  always (draws fuel n dim) (fun o => o = Throw \/ o = Fuel \/ exists d, o = Ok d /\ okDrawn n dim d).
Proof.
  intros fuel n dim Hn Hd. unfold draws, judgeAssert.
  replace (dim <=? 0x1FFFFFFF) with true by lia. replace (0 <=? n) with true by lia.
  replace (n <? dim) with true by lia. cbn [lift rbind].
  assert (I : forall z, - 2 ^ 32 <= z <= 2 ^ 32 -> is_i64 z) by (intros; unfold is_i64, I64_MIN, I64_MAX, two63; lia).
  rewrite !chk_Ok by (apply I; lia). cbn [lift rbind].
  apply always_bind. eapply always_mono; [| apply randomPrime_always; try (apply I; lia); lia].
  cbn beta. intros o [-> | (p & -> & Hp & Ep)]; [left; reflexivity |].
  assert (P2 : 2 <= p).
  { exact (proj1 (MathProofs.isPrimeWith_factor _ _ Ep)). }
  apply always_bind. eapply always_mono; [| apply rotLoop_always; lia].
  cbn beta. intros o [-> | (A & B & -> & HA & HB & N)]; [right; left; reflexivity |].
  eapply returns_bind; [apply returns_rint; lia |]. intros a Ha.
  eapply returns_bind; [apply returns_rint; lia |]. intros b Hb.
  eapply returns_bind; [apply returns_rint; lia |]. intros c Hc. cbn beta in Ha, Hb, Hc.
  rewrite !chk_Ok by (apply I; lia). cbn [lift rbind].
  destruct (Z.le_gt_cases (dim - p) (- dim + 1)) as [Hle | Hlt].
  { rewrite rint_throw by exact Hle. left; reflexivity. }
  eapply returns_bind; [apply returns_rint; lia |]. intros x Hx.
  eapply returns_bind; [apply returns_rint; lia |]. intros y Hy. cbn beta in Hx, Hy.
  eapply returns_bind; [apply distinct_always; try (apply I; lia); lia |].
  intros xs (L & ND & F). right. right. eexists. split; [reflexivity |].
  unfold okDrawn. cbn [dp dA dB dabc dx dy dxs].
  repeat (split; [first [lia | assumption] |]).
  split. { exists a, b, c. repeat (split; [first [reflexivity | lia] |]). lia. }
  repeat (split; [first [lia | assumption] |]). assumption.
Qed.

Lemma nonCollinear_always : forall fuel n dim, 0 <= n < dim -> dim <= 0x1FFFFFFF ->
  always (nonCollinearPoints fuel n dim) (fun o => o = Throw \/ o = Fuel \/ exists l, o = Ok l /\
    Z.of_nat (length l) = n /\ Forall (fun q => Z.abs (fst q) < dim /\ Z.abs (snd q) < dim) l /\
    exists p A B, n <= p < 2 * dim - 1 /\ isPrime p = Ok true /\ 0 <= A < p /\ 0 <= B < p /\ ~ (A = 0 /\ B = 0) /\
      (prime p -> p mod 4 = 3 \/ ~ (p | A * A + B * B) -> NoDup l /\ noThreeCollinear l)).
Proof.
  intros fuel n dim Hn Hd. unfold nonCollinearPoints. apply always_bind.
  eapply always_mono; [| apply draws_always; assumption]. cbn beta.
  intros o [-> | [-> | (d & -> & H)]]; [auto | auto |].
  pose proof H as (P2 & Pn & Ep & HA & HB & N & (a & b & c & Eabc & Ha & Hb & Hc) & Hx & Hy & L & ND & F).
  destruct (pointsFor_ok n dim d (dxs d) Hd H F) as (l & El & F2 & Fb). rewrite El.
  cbn [lift always]. right. right. exists l. split; [reflexivity |].
  assert (LL : length l = length (dxs d)) by (clear - F2; induction F2; cbn [length]; congruence).
  split; [rewrite LL; exact L |]. split; [exact Fb |].
  exists (dp d), (dA d), (dB d). repeat (split; [assumption |]).
  intros Hp Hdet0.
  assert (Hdet : ~ (dp d | dA d * dA d + dB d * dB d)).
  { destruct Hdet0 as [H4 |]; [| assumption]. apply sum_of_squares; assumption. }
  assert (Fn : forall i, (i < length l)%nat -> 0 <= nth i (dxs d) 0 < dp d).
  { intros i Hi. rewrite Forall_forall in F. apply F. apply nth_In. lia. }
  split.
  - apply (NoDup_nth l (0, 0)). intros i j Hi Hj E.
    apply (proj1 (NoDup_nth (dxs d) 0) ND); try lia.
    eapply image_inj with (q := nth i l (0, 0)); eauto.
    + apply Forall2_nth'; [exact F2 | lia].
    + rewrite E. apply Forall2_nth'; [exact F2 | lia].
  - intros i j k Hij Hjk Hk.
    assert (Ne : forall u v, (u < v)%nat -> (v < length l)%nat -> nth u (dxs d) 0 <> nth v (dxs d) 0).
    { intros u v Huv Hv E. apply (proj1 (NoDup_nth (dxs d) 0) ND) in E; lia. }
    eapply image_noncollinear with (t1 := nth i (dxs d) 0) (t2 := nth j (dxs d) 0) (t3 := nth k (dxs d) 0); eauto;
      try (apply Forall2_nth'; [exact F2 | lia]); try (apply Fn; lia); apply Ne; lia.
Qed.

Lemma nonCollinear_throws : forall fuel n dim, 0x1FFFFFFF < dim \/ n < 0 \/ dim <= n ->
  nonCollinearPoints fuel n dim = RRet Throw.
Proof.
  intros fuel n dim H. unfold nonCollinearPoints, draws, judgeAssert.
  destruct (dim <=? 0x1FFFFFFF) eqn:E1; [| reflexivity].
  destruct (0 <=? n) eqn:E2; [| reflexivity].
  destruct (n <? dim) eqn:E3; [lia | reflexivity].
Qed.

Definition drawsDup := [2; 1; 2; 1; 0; 0; -3; -3; 0; 1; 2].
Lemma nonCollinear_dup : exists fuel n dim l, 0 <= n < dim /\ dim <= 0x1FFFFFFF /\
  can (nonCollinearPoints fuel n dim) (Ok l) /\ ~ NoDup l.
Proof.
  exists 1%nat, 3, 4, [(-3, -3); (1, 0); (1, 0)]. split; [lia |]. split; [lia |]. split.
  - apply (can_play _ _ drawsDup). vm_compute. reflexivity.
  - intros H. inversion_clear H as [| ? ? _ H']. inversion_clear H' as [| ? ? N _]. apply N. left. reflexivity.
Qed.
Lemma nonCollinear_line : exists fuel n dim l, 0 <= n < dim /\ dim <= 0x1FFFFFFF /\
  can (nonCollinearPoints fuel n dim) (Ok l) /\ NoDup l /\
  exists i j k, (i < j)%nat /\ (j < k)%nat /\ (k < length l)%nat /\
    orient (nth i l (0, 0)) (nth j l (0, 0)) (nth k l (0, 0)) = 0.
Proof.
  exists 1%nat, 3, 4, [(-3, -3); (-1, 1); (-2, -1)].
  split; [lia |]. split; [lia |]. split; [apply (can_play _ _ [2; 1; 2; 2; 0; 0; -3; -3; 0; 1; 2]); vm_compute; reflexivity |].
  split; [| exists 0%nat, 1%nat, 2%nat; repeat split; cbn; lia].
  repeat constructor; cbn; intuition congruence.
Qed.
Lemma nonCollinear_throw : exists fuel n dim, 0 <= n < dim /\ dim <= 0x1FFFFFFF /\
  can (nonCollinearPoints fuel n dim) Throw.
Proof.
  exists 1%nat, 3, 4. split; [lia |]. split; [lia |].
  apply (can_play_any _ _ [3; 1; 2; 1; 0; 0]); [vm_compute; reflexivity | discriminate].
Qed.
