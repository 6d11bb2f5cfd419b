From Verif Require Import Base BaseLemmas MathModel Fermat MathProofs MathProofs2 PrimeSpec.
From Coq Require Import Sorted Znumtheory Zpow_facts ZifyBool ZifyNat.
Ltac Zify.zify_post_hook ::= Z.div_mod_to_equations.

(* ---- what isPrime accepts ---- *)
Lemma squareLoop_reaches : forall mul, mul_correct mul -> forall un, 2 < un <= two63 ->
  forall k v, 0 <= v < un ->
  (exists r, 1 <= r <= Z.of_nat k /\ v ^ (2 ^ r) mod un = un - 1) ->
  squareLoop mul k v un = Ok (un - 1).
Proof.
  intros mul Hmul un Hu k. induction k as [|k IH]; intros v Hv (r & Hr & E); [lia|].
  cbn [squareLoop]. rewrite Hmul by lia. cbn [bind].
  pose proof (Z.mod_pos_bound (v * v) un ltac:(lia)) as Hb.
  assert (E' : (v * v mod un) ^ (2 ^ (r - 1)) mod un = un - 1).
  { rewrite <- Zpower_mod by lia. rewrite <- E. f_equal.
    replace r with (Z.succ (r - 1)) at 2 by lia. rewrite Z.pow_succ_r by lia.
    rewrite (Z.pow_mul_r v 2) by (try apply Z.pow_nonneg; lia). rewrite Z.pow_2_r. reflexivity. }
  set (w := v * v mod un) in *. clearbody w. clear E.
  destruct (Z.eqb_spec w (un - 1)) as [->|N]; [reflexivity|].
  destruct (Z.leb_spec w 1) as [L|L]; cbn [orb].
  - exfalso. assert (W : w = 0 \/ w = 1) by lia.
    assert (P : 0 < 2 ^ (r - 1)) by (apply Z.pow_pos_nonneg; lia).
    destruct W as [->| ->].
    + rewrite Z.pow_0_l in E' by lia. rewrite Z.mod_0_l in E' by lia. lia.
    + rewrite Z.pow_1_l in E' by lia. rewrite Z.mod_1_l in E' by lia. lia.
  - apply IH; auto. exists (r - 1). split; [|exact E']. clear - Hr N E' Hb.
    destruct (Z.eq_dec r 1) as [->|]; [|lia]. exfalso. change (2 ^ (1 - 1)) with 1 in E'. rewrite Z.pow_1_r in E'.
    rewrite Z.mod_small in E' by lia. contradiction.
Qed.

(* the decomposition of n - 1 is unique *)
Lemma twos_unique : forall d s d' s', 0 <= s -> 0 <= s' -> d mod 2 = 1 -> d' mod 2 = 1 ->
  d * 2 ^ s = d' * 2 ^ s' -> d = d' /\ s = s'.
Proof.
  assert (K : forall d s d' s', 0 <= s <= s' -> d mod 2 = 1 -> d * 2 ^ s = d' * 2 ^ s' -> s = s').
  { intros d s d' s' B O E. destruct (Z.eq_dec s s') as [|N]; auto. exfalso.
    replace s' with (s + Z.succ (s' - s - 1)) in E by lia.
    rewrite Z.pow_add_r in E by lia. rewrite Z.pow_succ_r in E by lia.
    assert (P : 0 < 2 ^ s) by (apply Z.pow_pos_nonneg; lia).
    assert (D : d = d' * (2 * 2 ^ (s' - s - 1))).
    { apply Z.mul_reg_r with (2 ^ s); [lia|]. rewrite E. ring. }
    rewrite D in O. replace (d' * (2 * 2 ^ (s' - s - 1))) with ((d' * 2 ^ (s' - s - 1)) * 2) in O by ring.
    rewrite Z_mod_mult in O. lia. }
  intros d s d' s' S1 S2 O1 O2 E.
  assert (s = s').
  { destruct (Z.le_ge_cases s s'); [apply (K d s d' s'); auto|symmetry; apply (K d' s' d s); auto; lia]. }
  subst s'. split; auto. assert (P : 0 < 2 ^ s) by (apply Z.pow_pos_nonneg; lia). apply Z.mul_reg_r with (2 ^ s); auto. lia.
Qed.

Lemma witnessLoop_accepts : forall mul, mul_correct mul -> forall n, 131 < n <= two63 ->
  forall d j, 0 < d < two64 -> 0 <= j -> d mod 2 = 1 -> n - 1 = d * 2 ^ j -> forall ws,
  (forall a, In a ws -> 0 < a < two32) ->
  (forall a, In a ws -> (n | a) \/ sprp n a) ->
  witnessLoop mul ws d j n = Ok true.
Proof.
  intros mul Hmul n Hn d j Hd Hj Od Ed ws. induction ws as [|a ws IH]; intros Hw H; [reflexivity|].
  assert (IH' : witnessLoop mul ws d j n = Ok true) by (apply IH; intros; [apply Hw|apply H]; right; auto).
  cbn [witnessLoop]. destruct (Z.eqb_spec (a mod n) 0) as [E|E]; auto.
  pose proof (Hw a (or_introl eq_refl)) as Ha.
  rewrite (upow_small mul Hmul a d n) by (mach; lia). cbn [bind].
  destruct (Z.eqb_spec (a ^ d mod n) 1) as [E1|E1]; auto. destruct (Z.eqb_spec (a ^ d mod n) (n - 1)) as [E2|E2]; auto. cbn [orb].
  destruct (H a (or_introl eq_refl)) as [D|(d' & s & S0 & O & EQ & K)].
  { exfalso. apply E. apply Z.mod_divide; auto. lia. }
  assert (U : d' = d /\ s = j). { apply twos_unique; auto. lia. }
  destruct U as [-> ->]. destruct K as [K|(r & R & K)]; [contradiction|].
  pose proof (Z.mod_pos_bound (a ^ d) n ltac:(lia)) as Hb.
  rewrite (squareLoop_reaches mul Hmul n) ; try lia.
  - cbn [bind]. rewrite Z.eqb_refl. cbn [negb]. exact IH'.
  - exists r. assert (R0 : r <> 0).
    { intros ->. rewrite Z.pow_0_r, Z.mul_1_r in K. contradiction. }
    split; [clear - R R0; lia|]. rewrite <- Zpower_mod by lia. rewrite <- Z.pow_mul_r by (try apply Z.pow_nonneg; lia). exact K.
Qed.

Lemma trial_rough : forall n, 131 < n -> (trialDivision TRIAL_PRIMES n = None <-> rough n).
Proof.
  intros n Hn. split.
  - intros T p Hp Hd.
    assert (Q : exists q, prime q /\ (q | p)).
    { destruct (prime_dec p) as [P|P]; [exists p; split; auto; apply Z.divide_refl|].
      destruct (composite_small_factor p ltac:(lia) P) as (q & Hq & Hdq & _). eauto. }
    destruct Q as (q & Hq & Hqp). pose proof (prime_ge_2 q Hq) as Q2. pose proof (Z.divide_pos_le q p ltac:(lia) Hqp) as Q3.
    assert (I : In q TRIAL_PRIMES) by (apply TRIAL_PRIMES_exact; auto; lia).
    destruct (trialDivision_None _ _ T q I) as [_ Hr]. apply Hr. rewrite Z.rem_mod_nonneg by lia.
    apply Z.mod_divide; [lia|]. eapply Z.divide_trans; eauto.
  - intro R. destruct (trialDivision TRIAL_PRIMES n) as [b|] eqn:T; auto. exfalso.
    destruct (trialDivision_Some _ _ _ T) as (q & pre & post & Hps & K).
    assert (I : In q TRIAL_PRIMES) by (rewrite Hps; apply in_or_app; right; left; auto).
    assert (Q : 2 <= q <= 131) by (unfold TRIAL_PRIMES in I; simpl in I; lia).
    destruct K as (K & _). apply (R q Q). apply Z.mod_divide; [lia|]. rewrite <- Z.rem_mod_nonneg by lia. lia.
Qed.

Lemma isPrime_iff : forall n, is_i64 n ->
  (isPrime n = Ok true <-> (n <= 131 /\ prime n) \/ (131 < n /\ passes n)).
Proof.
  intros n Hn. destruct (Z.le_gt_cases n 131) as [L|L].
  - rewrite isPrime_exact_small by (auto; lia). split; [auto|]. intros [(_ & P)|(C & _)]; [auto|lia].
  - split.
    + intro H. right. split; auto. destruct (isPrime_sprp n Hn ltac:(lia) H) as (F & W). split; [|split; auto].
      apply trial_rough; [lia|]. unfold isPrime, isPrimeWith in H.
      destruct (trialDivision TRIAL_PRIMES n) as [b|] eqn:T; auto. inversion H; subst.
      destruct (trialDivision_Some _ _ _ T) as (q & pre & post & Hps & _ & Hb & _).
      assert (I : In q TRIAL_PRIMES) by (rewrite Hps; apply in_or_app; right; left; auto).
      assert (q <= 131) by (unfold TRIAL_PRIMES in I; simpl in I; lia). lia.
    + intros [(C & _)|(_ & R & F & W)]; [lia|]. unfold isPrime, isPrimeWith. rewrite (proj2 (trial_rough n ltac:(lia)) R).
      rewrite u64_id by (mach; lia). rewrite last_trial.
      rewrite (upow_small umulMod umulMod_correct) by (mach; lia). cbn [bind]. rewrite F. cbn [Z.eqb Pos.eqb negb].
      destruct (splitTwos_Ok n) as (d & j & E & Hj & Hd & Ho & Hdj); [mach; lia|]. rewrite E. cbn [bind].
      apply witnessLoop_accepts; auto; [apply umulMod_correct|mach; lia|mach; lia|apply witness_bound].
Qed.

(* isPrime is right for all Integers exactly if the tests are *)
Lemma isPrime_right_iff :
  (forall n, is_i64 n -> isPrime n = Ok true -> prime n) <->
  (forall n, 131 < n <= I64_MAX -> passes n -> prime n).
Proof.
  split; intros H n.
  - intros B P. apply H; [mach; lia|]. apply isPrime_iff; [mach; lia|]. right. split; [lia|auto].
  - intros I E. apply isPrime_iff in E; auto. destruct E as [(_ & P)|(L & P)]; auto. apply H; auto. mach; lia.
Qed.

(* ---- no composite below 137^3 passes ---- *)
Lemma sprp_fermat : forall n a, 2 < n -> sprp n a -> a ^ (n - 1) mod n = 1.
Proof.
  intros n a Hn (d & s & S0 & O & E & K).
  assert (D : 0 < d). { assert (0 < 2 ^ s) by (apply Z.pow_pos_nonneg; lia). nia. }
  destruct K as [K|(r & R & K)].
  - rewrite E. rewrite Z.pow_mul_r by (try apply Z.pow_nonneg; lia). rewrite Zpower_mod by lia. rewrite K.
    rewrite Z.pow_1_l by (apply Z.pow_nonneg; lia). apply Z.mod_1_l. lia.
  - rewrite E. replace s with (r + (1 + (s - r - 1))) by lia. rewrite !Z.pow_add_r by lia. rewrite Z.mul_assoc.
    rewrite (Z.pow_mul_r a (d * 2 ^ r)) by (try apply Z.mul_nonneg_nonneg; try apply Z.pow_nonneg; lia).
    rewrite (Z.pow_mul_r _ (2 ^ 1)) by (try apply Z.pow_nonneg; lia).
    change (2 ^ 1) with 2. rewrite Z.pow_2_r.
    assert (Q : (a ^ (d * 2 ^ r) * a ^ (d * 2 ^ r)) mod n = 1).
    { rewrite Z.mul_mod, K by lia. replace ((n - 1) * (n - 1)) with (1 + (n - 2) * n) by ring. rewrite Z_mod_plus_full. apply Z.mod_1_l. lia. }
    rewrite Zpower_mod, Q by lia. rewrite Z.pow_1_l by (apply Z.pow_nonneg; lia). apply Z.mod_1_l. lia.
Qed.

Lemma rough_prime_factor : forall n p, rough n -> prime p -> (p | n) -> 137 <= p.
Proof.
  intros n p R P D. pose proof (prime_ge_2 p P) as P2. destruct (Z.le_gt_cases 137 p) as [|L]; auto. exfalso.
  assert (C : p <= 131 \/ p = 132 \/ p = 133 \/ p = 134 \/ p = 135 \/ p = 136) by lia.
  destruct C as [C|C]; [apply (R p); auto|].
  apply primeb_spec in P. destruct C as [-> | [-> | [-> | [-> | ->]]]]; vm_compute in P; discriminate.
Qed.

Lemma two_factors : forall n, 131 < n < 137 * 137 * 137 -> rough n -> ~ prime n ->
  exists p q, n = p * q /\ prime q /\ 137 <= p <= q.
Proof.
  intros n B R N. destruct (composite_small_factor n ltac:(lia) N) as (p & P & (q & E) & S).
  assert (Pn : (p | n)) by (exists q; auto). pose proof (rough_prime_factor n p R P Pn) as P1.
  assert (PQ : p <= q) by nia.
  assert (Qn : (q | n)) by (exists p; lia).
  exists p, q. split; [lia|]. split; [|lia]. destruct (prime_dec q) as [|NQ]; auto. exfalso.
  destruct (composite_small_factor q ltac:(lia) NQ) as (r & Hr & Dr & Sr).
  assert (137 <= r) by (apply (rough_prime_factor n r); auto; eapply Z.divide_trans; eauto). nia.
Qed.

Definition dbl (x q : positive) : positive :=
  match Pos.sub_mask x~0 q with Pos.IsPos r => r | _ => x~0 end.
Fixpoint scan (fuel : nat) (q m x : positive) : bool :=
  match fuel with
  | O => true
  | S f =>
    match x with
    | xH => match isPrime (Zpos (m * q)) with
            | Ok false => scan f q (Pos.succ (Pos.succ m)) (dbl (dbl x q) q)
            | _ => false
            end
    | _ => scan f q (Pos.succ (Pos.succ m)) (dbl (dbl x q) q)
    end
  end.
Fixpoint coprimeAll (l : list Z) (q : Z) : bool :=
  match l with [] => true | p :: l' => if q mod p =? 0 then false else coprimeAll l' q end.
Fixpoint scanAll (fuel : nat) (B q : Z) : bool :=
  match fuel with
  | O => true
  | S f =>
    if (if coprimeAll TRIAL_PRIMES q then scan (Z.to_nat (Z.min q (B / q) / 2 + 1)) (Z.to_pos q) 3 4 else true)
    then scanAll f B (q + 2) else false
  end.

Lemma dbl_ok : forall x q, Zpos q mod 2 = 1 -> Zpos x < Zpos q ->
  Zpos (dbl x q) < Zpos q /\ Zpos (dbl x q) mod Zpos q = (2 * Zpos x) mod Zpos q.
Proof.
  intros x q O B. unfold dbl. pose proof (Pos.sub_mask_spec x~0 q) as S.
  inversion S as [E1 E2|r E1 E2|r E1 E2].
  - exfalso. clear - E1 O. subst q. rewrite (Pos2Z.inj_xO x) in O. lia.
  - assert (E : Zpos q + Zpos r = 2 * Zpos x) by lia. split; [lia|]. rewrite <- E.
    replace (Zpos q + Zpos r) with (Zpos r + 1 * Zpos q) by ring. rewrite Z_mod_plus_full. reflexivity.
  - assert (E : 2 * Zpos x + Zpos r = Zpos q) by lia. split; [|reflexivity]. lia.
Qed.

Lemma scan_ok : forall q, Zpos q mod 2 = 1 -> 1 < Zpos q -> forall fuel m x,
  scan fuel q m x = true -> Zpos x < Zpos q -> Zpos x mod Zpos q = 2 ^ (Zpos m - 1) mod Zpos q ->
  forall k, 0 <= k < Z.of_nat fuel -> 2 ^ (Zpos m + 2 * k - 1) mod Zpos q = 1 -> isPrime ((Zpos m + 2 * k) * Zpos q) = Ok false.
Proof.
  intros q O Q. induction fuel as [|fuel IH]; intros m x H B E k K1 K2; [lia|]. cbn [scan] in H.
  assert (H' : scan fuel q (Pos.succ (Pos.succ m)) (dbl (dbl x q) q) = true /\ (x = xH -> isPrime (Zpos (m * q)) = Ok false)).
  { destruct x; try (split; [exact H|discriminate]).
    destruct (isPrime (Zpos (m * q))) as [[|]| | |]; try discriminate. split; auto. }
  clear H. destruct H' as (H & X). destruct (Z.eq_dec k 0) as [->|NK].
  - replace (Zpos m + 2 * 0) with (Zpos m) in * by lia. rewrite <- Pos2Z.inj_mul. apply X. rewrite K2 in E.
    rewrite Z.mod_small in E by lia. lia.
  - destruct (dbl_ok x q O B) as (B1 & E1). destruct (dbl_ok (dbl x q) q O B1) as (B2 & E2).
    specialize (IH (Pos.succ (Pos.succ m)) (dbl (dbl x q) q) H B2).
    replace (Zpos m + 2 * k) with (Zpos (Pos.succ (Pos.succ m)) + 2 * (k - 1)) in * by lia.
    apply IH; [|lia|exact K2]. rewrite E2. rewrite <- Z.mul_mod_idemp_r, E1, Z.mul_mod_idemp_r by lia.
    replace (Zpos (Pos.succ (Pos.succ m)) - 1) with (2 + (Zpos m - 1)) by lia. rewrite Z.pow_add_r by lia. change (2 ^ 2) with 4.
    replace (2 * (2 * Zpos x)) with (4 * Zpos x) by ring. rewrite <- Z.mul_mod_idemp_r, E, Z.mul_mod_idemp_r by lia. reflexivity.
Qed.

Lemma coprimeAll_rough : forall q l, (forall p, In p l -> 2 <= p <= 131) -> rough q -> coprimeAll l q = true.
Proof.
  intros q l. induction l as [|p l IH]; intros B R; auto. cbn [coprimeAll].
  destruct (Z.eqb_spec (q mod p) 0) as [E|E].
  - exfalso. pose proof (B p (or_introl eq_refl)). apply (R p); auto. apply Z.mod_divide; [lia|auto].
  - apply IH; auto. intros. apply B. right. auto.
Qed.

Lemma trial_range : forall p, In p TRIAL_PRIMES -> 2 <= p <= 131.
Proof.
  intros p I. assert (T : forallb (fun p => (2 <=? p) && (p <=? 131)) TRIAL_PRIMES = true) by reflexivity.
  rewrite forallb_forall in T. specialize (T p I). lia.
Qed.

Lemma scanAll_ok : forall B fuel q, scanAll fuel B q = true -> forall k, 0 <= k < Z.of_nat fuel -> rough (q + 2 * k) ->
  scan (Z.to_nat (Z.min (q + 2 * k) (B / (q + 2 * k)) / 2 + 1)) (Z.to_pos (q + 2 * k)) 3 4 = true.
Proof.
  intros B. induction fuel as [|fuel IH]; intros q H k K R; [lia|]. cbn [scanAll] in H.
  destruct (Z.eq_dec k 0) as [->|NK].
  - replace (q + 2 * 0) with q in * by lia. rewrite (coprimeAll_rough q TRIAL_PRIMES) in H; auto.
    + destruct (scan _ _ 3 4); auto.
    + intros p I. apply trial_range. exact I.
  - assert (H' : scanAll fuel B (q + 2) = true).
    { destruct (if coprimeAll TRIAL_PRIMES q then _ else true); auto. discriminate. }
    replace (q + 2 * k) with (q + 2 + 2 * (k - 1)) in * by lia. apply IH; auto. lia.
Qed.

Lemma scanned : scanAll (Z.to_nat 9400) 2571353 137 = true.
Proof. vm_compute. reflexivity. Qed.

Lemma cofactor_exponent : forall p q, prime q -> 2 < q -> 1 <= p -> 2 ^ (p * q - 1) mod (p * q) = 1 -> 2 ^ (p - 1) mod q = 1.
Proof.
  intros p q Q Q2 P F.
  assert (ND : ~ (q | 2)) by (intro D; apply Z.divide_pos_le in D; lia).
  pose proof (fermat_Z q 2 Q ND) as FQ.
  assert (G : 2 ^ (p * q - 1) mod q = 1).
  { rewrite (Zmod_div_mod q (p * q)); [|lia|apply Z.mul_pos_pos; lia|exists p; reflexivity]. rewrite F. apply Z.mod_1_l. lia. }
  replace (p * q - 1) with ((q - 1) * p + (p - 1)) in G by ring.
  rewrite Z.pow_add_r in G; [|apply Z.mul_nonneg_nonneg; lia|lia].
  rewrite Z.pow_mul_r in G; [|lia|lia].
  rewrite Z.mul_mod in G by lia. rewrite (Zpower_mod (2 ^ (q - 1))) in G by lia. rewrite FQ in G.
  rewrite Z.pow_1_l in G by lia. rewrite (Z.mod_1_l q) in G by lia. rewrite Z.mul_1_l, Z.mod_mod in G by lia. exact G.
Qed.

Lemma none_passes : forall n, 131 < n < 2571353 -> isPrime n = Ok true -> prime n.
Proof.
  intros n B H. destruct (prime_dec n) as [|N]; auto. exfalso.
  assert (I : is_i64 n) by (mach; lia).
  pose proof (proj1 (isPrime_iff n I) H) as [(C & _)|(_ & R & _ & W)]; [lia|].
  destruct (two_factors n ltac:(lia) R N) as (p & q & E & Q & PQ).
  assert (F : 2 ^ (n - 1) mod n = 1).
  { destruct (W 2 (or_introl eq_refl)) as [D|D]; [apply Z.divide_pos_le in D; lia|]. apply sprp_fermat; auto. lia. }
  assert (F2 : 2 ^ (p - 1) mod q = 1).
  { rewrite E in F. apply (cofactor_exponent p q); auto; lia. }
  assert (Rq : rough q). { intros r Hr D. apply (R r Hr). apply Z.divide_trans with q; auto. exists p. lia. }
  assert (Oq : q mod 2 = 1). { assert (M : q mod 2 <> 0) by (intro C; apply (Rq 2); [lia|apply Z.mod_divide; auto; lia]). lia. }
  assert (Op : p mod 2 = 1).
  { assert (M : p mod 2 <> 0). { intro C. apply (R 2); [lia|]. apply Z.mod_divide in C; [|lia]. rewrite E. apply Z.divide_mul_l. auto. } lia. }
  clear W F.
  assert (QB : q < 18769) by (clear - E B PQ; nia).
  assert (KQ : 0 <= (q - 137) / 2 < Z.of_nat (Z.to_nat 9400)) by (clear - QB PQ; lia).
  pose proof (scanAll_ok 2571353 _ 137 scanned ((q - 137) / 2) KQ) as S.
  assert (EQ : 137 + 2 * ((q - 137) / 2) = q) by (clear - Oq; lia).
  rewrite EQ in S. specialize (S Rq).
  assert (PB : p <= 2571353 / q) by (apply Z.div_le_lower_bound; [clear - PQ|clear - E B]; lia).
  assert (ZQ : Zpos (Z.to_pos q) = q) by (apply Z2Pos.id; clear - PQ; lia).
  assert (OZ : Zpos (Z.to_pos q) mod 2 = 1) by (rewrite ZQ; exact Oq).
  assert (Q1 : 1 < Zpos (Z.to_pos q)) by (rewrite ZQ; clear - PQ; lia).
  pose proof (scan_ok (Z.to_pos q) OZ Q1 _ 3%positive 4%positive S) as K.
  rewrite ZQ in K. assert (Q4 : 4 < q) by (clear - PQ; lia). specialize (K Q4 eq_refl ((p - 3) / 2)).
  assert (K1 : 0 <= (p - 3) / 2 < Z.of_nat (Z.to_nat (Z.min q (2571353 / q) / 2 + 1))).
  { clear - PB PQ. set (t := 2571353 / q) in *. clearbody t. lia. }
  specialize (K K1). assert (EP : 3 + 2 * ((p - 3) / 2) = p) by (clear - Op PQ; lia). rewrite EP in K.
  specialize (K F2). rewrite <- E, H in K. discriminate.
Qed.

Lemma isPrime_exact : forall n, is_i64 n -> n < 2571353 -> (isPrime n = Ok true <-> prime n).
Proof.
  intros n I B. destruct (Z.le_gt_cases n 131) as [L|L]; [apply isPrime_exact_small; auto; lia|].
  split; [apply none_passes; lia|]. intro P. refine (proj1 (isPrime_accepts_primes n P _)). clear - B. mach; lia.
Qed.

(* ---- primes ---- *)
Lemma primes_listed : forall lower upper,
  is_i64 lower -> is_i64 upper -> lower < upper ->
  let lo := Z.max 2 lower in let up := Z.max 2 upper in let count := up - lo in
  count <= 1073741823 -> up + 2 * count <= I64_MAX ->
  exists l, primes lower upper = Ok l /\ StronglySorted Z.lt l /\
    (forall n, prime n -> lower <= n < upper -> In n l) /\
    (forall n, In n l -> lower <= n < upper /\
       (prime n \/ (2571353 <= n /\ count * count <= n /\ passes n))).
Proof.
  intros lower upper Hl Hu Hlu lo up count Hc Hov.
  destruct (SieveProofs.primesWith_Ok umulMod umulMod_correct lower upper Hl Hu Hlu Hc Hov) as (l & E & S & P & L).
  exists l. split; auto. split; auto. split; auto. intros n I. destruct (L n I) as (R & A & B). split; auto.
  assert (In64 : is_i64 n) by (clear - R Hl Hu; mach; lia).
  destruct (Z.lt_ge_cases n 2571353) as [C|C]; [left; apply isPrime_exact; auto|].
  destruct (Z.lt_ge_cases n (count * count)) as [D|D]; [left; auto|].
  apply isPrime_iff in A; auto. destruct A as [(_ & A)|(_ & A)]; auto.
Qed.

Lemma primes_exact : forall lower upper,
  is_i64 lower -> is_i64 upper -> lower < upper ->
  let lo := Z.max 2 lower in let up := Z.max 2 upper in let count := up - lo in
  count <= 1073741823 -> up + 2 * count <= I64_MAX ->
  upper <= 2571353 \/ upper <= count * count ->
  exists l, primes lower upper = Ok l /\ StronglySorted Z.lt l /\
    (forall n, In n l <-> prime n /\ lower <= n < upper).
Proof.
  intros lower upper Hl Hu Hlu lo up count Hc Hov B.
  destruct (primes_listed lower upper Hl Hu Hlu Hc Hov) as (l & E & S & P & L). exists l. split; auto. split; auto.
  intro n. split; [|intros (A & R); auto]. intro I. destruct (L n I) as (R & [A|(A & C & _)]); auto.
  exfalso. fold lo in C. fold up in C. fold count in C. clear - R A C B. destruct B; lia.
Qed.
