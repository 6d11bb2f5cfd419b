(* Uniformity of primes, subgraphs and relabelled graphs. *)
From Verif Require Import Tac RndModel RandSpec RandSeqModel RndLemmas ShuffleProofs PermProofs SortLemmas DistinctProofs
  MathModel MathProofs MathProofs2 RandMiscProofs UniformProofs.
From Coq Require Import QArith Qfield Permutation Znumtheory.
Import ListNotations.
Open Scope Z_scope.

Section PrimeUniform.
  Variables lower upper sampleL sampleU : Z.
  Hypothesis Hl : is_i64 lower.
  Hypothesis Hu : is_i64 upper.
  Hypothesis H4 : is_i64 (4 * (upper - lower)).
  Hypothesis HsL : 0 <= sampleL.
  Hypothesis Hs : sampleL < sampleU.
  Hypothesis HsU : 2 * sampleU <= upper.

  Lemma candidate_inj : forall x y, 0 <= x -> 0 <= y -> candidate x = candidate y -> x = y.
  Proof.
    intros x y Hx Hy. rewrite !candidate_val by auto.
    destruct (x =? 0) eqn:E1; destruct (y =? 0) eqn:E2; lia.
  Qed.

  Lemma primeLoop_equal : forall k i x y, sampleL <= x < sampleU -> sampleL <= y < sampleU ->
    isPrime (candidate x) = Ok true -> isPrime (candidate y) = Ok true ->
    forall f : outcome (option Z) -> Q, forall g : outcome (option Z) -> Q,
    (forall v, (f (Ok (Some v)) == if v =? candidate x then 1 else 0)%Q) ->
    (forall v, (g (Ok (Some v)) == if v =? candidate y then 1 else 0)%Q) ->
    (f (Ok None) == 0)%Q -> (g (Ok None) == 0)%Q ->
    (expect (primeLoop k i lower upper sampleL sampleU) f ==
     expect (primeLoop k i lower upper sampleL sampleU) g)%Q.
  Proof.
    intros k. induction k as [| k IH]; intros i x y Hx Hy Px Py f g Hf Hg Nf Ng.
    { cbn [primeLoop ret expect]. rewrite Nf, Ng. reflexivity. }
    rewrite (primeLoop_S lower upper sampleL sampleU H4).
    destruct (i <? 4 * (upper - lower)); [| cbn [ret expect]; rewrite Nf, Ng; reflexivity].
    rewrite !expect_bind, !expect_rint by exact Hs.
    assert (D : (qsum (fun x0 => expect (let? x2 := lift (chk (2 * x0)) in
                  let? ok := lift (isPrime (Z.max 2 (Z.lor x2 1))) in
                  if ok : bool then ret (Some (Z.max 2 (Z.lor x2 1)))
                  else primeLoop k (i + 1) lower upper sampleL sampleU) f) (zseq sampleL (Z.to_nat (sampleU - sampleL))) ==
                 qsum (fun x0 => expect (let? x2 := lift (chk (2 * x0)) in
                  let? ok := lift (isPrime (Z.max 2 (Z.lor x2 1))) in
                  if ok : bool then ret (Some (Z.max 2 (Z.lor x2 1)))
                  else primeLoop k (i + 1) lower upper sampleL sampleU) g) (zseq sampleL (Z.to_nat (sampleU - sampleL))))%Q).
    { set (l := zseq sampleL (Z.to_nat (sampleU - sampleL))).
      assert (ND : NoDup l) by apply zseq_NoDup.
      assert (RG : forall z, In z l <-> sampleL <= z < sampleU) by (intros z; unfold l; rewrite in_zseq; lia).
      set (bad := fun z => match isPrime (candidate z) with Ok true => false | _ => true end).
      set (E := expect (primeLoop k (i + 1) lower upper sampleL sampleU) f).
      (* each sum splits into the hit and the retries *)
      assert (S : forall (h : outcome (option Z) -> Q) w, sampleL <= w < sampleU -> isPrime (candidate w) = Ok true ->
        (forall v, (h (Ok (Some v)) == if v =? candidate w then 1 else 0)%Q) ->
        (qsum (fun x0 => expect (let? x2 := lift (chk (2 * x0)) in
                  let? ok := lift (isPrime (Z.max 2 (Z.lor x2 1))) in
                  if ok : bool then ret (Some (Z.max 2 (Z.lor x2 1)))
                  else primeLoop k (i + 1) lower upper sampleL sampleU) h) l ==
         1 + qsum (fun z => if bad z then expect (primeLoop k (i + 1) lower upper sampleL sampleU) h else 0) l)%Q).
      { intros h w Hw Pw Hh.
        transitivity (qsum (fun z => (if z =? w then 1 else 0) +
          (if bad z then expect (primeLoop k (i + 1) lower upper sampleL sampleU) h else 0))%Q l).
        - apply qsum_ext. intros z Hz. apply RG in Hz.
          destruct (draw_ok upper sampleL sampleU Hu HsL HsU z Hz) as [D1 D2].
          rewrite (chk_Ok (2 * z)) by exact D1. cbn [lift rbind]. fold (candidate z). unfold bad.
          destruct (isPrimeWith_total umulMod umulMod_correct (candidate z) D2) as [b Hb].
          change (isPrime (candidate z) = Ok b) in Hb. rewrite Hb. cbn [lift rbind]. destruct b.
          + cbn [ret expect]. rewrite Hh. destruct (z =? w) eqn:E0.
            * replace z with w by lia. rewrite Z.eqb_refl. ring.
            * replace (candidate z =? candidate w) with false; [ring |]. symmetry. apply Z.eqb_neq. intros C.
              apply candidate_inj in C; lia.
          + replace (z =? w) with false; [ring |]. symmetry. apply Z.eqb_neq. intros C. subst z. congruence.
        - rewrite qsum_plus.
          assert (Q1 : (qsum (fun z => if z =? w then 1 else 0) l == 1)%Q).
          { apply (qsum_single _ _ l w); auto.
            - apply RG. exact Hw.
            - rewrite Z.eqb_refl. reflexivity.
            - intros z _ N. replace (z =? w) with false by lia. reflexivity. }
          rewrite Q1. reflexivity. }
      rewrite (S f x), (S g y) by auto.
      apply Qplus_comp; [reflexivity |]. apply qsum_ext. intros z _. destruct (bad z); [| reflexivity].
      apply (IH (i + 1) x y); auto. }
    rewrite D. reflexivity.
  Qed.
End PrimeUniform.

Lemma randomPrime_equal : forall lower upper p q, is_i64 lower -> is_i64 upper ->
  is_i64 (4 * (upper - lower)) -> prime p -> lower <= p < upper -> prime q -> lower <= q < upper ->
  (Pr (randomPrime lower upper) (resultIs Z.eq_dec p) == Pr (randomPrime lower upper) (resultIs Z.eq_dec q))%Q.
Proof.
  intros lower upper p q Hl Hu H4 Hp Hrp Hq Hrq. unfold randomPrime, judgeAssert.
  replace (lower <? upper) with true by lia. cbn [lift rbind].
  set (sL := if lower <=? 2 then 0 else Z.quot lower 2). set (sU := Z.quot upper 2).
  assert (pos : forall p, prime p -> lower <= p < upper ->
    exists x, 0 <= sL /\ 2 * sU <= upper /\ sL <= x < sU /\ candidate x = p /\ isPrime p = Ok true).
  { clear p q Hp Hrp Hq Hrq. intros p Hp Hr.
    pose proof (prime_ge_2 p Hp) as P2.
    assert (HsL : 0 <= sL /\ sL <= p / 2 /\ (p = 2 -> sL = 0)).
    { unfold sL. destruct (lower <=? 2) eqn:El; [clear - P2; dlia |]. rewrite quot2 by auto.
      replace (0 <=? lower) with true by lia. clear - El Hr. dlia. }
    assert (HsU : sU = upper / 2).
    { unfold sU. rewrite quot2 by auto. replace (0 <=? upper) with true by lia. reflexivity. }
    assert (Hodd : p = 2 \/ p mod 2 = 1).
    { destruct (Z.eq_dec p 2); auto. right.
      assert (~ (2 | p)). { intros D. apply n. symmetry. apply (prime_div_prime 2 p); auto using prime_2. }
      assert (p mod 2 <> 0) by (intros C; apply H; apply Z.mod_divide; lia).
      clear - H0. dlia. }
    clearbody sL sU. destruct HsL as (S1 & S2 & S3).
    set (x := if p =? 2 then 0 else p / 2).
    assert (Hx : sL <= x < sU).
    { unfold x. destruct (p =? 2) eqn:E.
      - clear - S1 S3 HsU E Hr. dlia.
      - destruct Hodd as [| Ho]; [lia |]. clear - S2 HsU Ho Hr. dlia. }
    assert (Hc : candidate x = p).
    { rewrite candidate_val by lia. unfold x. destruct (p =? 2) eqn:E; [rewrite Z.eqb_refl; lia |].
      destruct Hodd as [| Ho]; [lia |]. destruct (p / 2 =? 0) eqn:E2; clear - Ho E2 P2 E; dlia. }
    exists x. split; [exact S1 |]. split; [rewrite HsU; clear; dlia |]. split; [exact Hx |]. split; [exact Hc |].
    refine (proj1 (isPrime_accepts_primes p Hp _)). clear - Hr Hu. mach. lia. }
  destruct (pos p Hp Hrp) as (x & S1 & S2 & S3 & <- & Px).
  destruct (pos q Hq Hrq) as (y & _ & _ & T3 & <- & Py).
  replace (sL <? sU) with true by lia. unfold Pr. rewrite !expect_bind.
  apply (primeLoop_equal lower upper sL sU Hu H4 S1 ltac:(lia) S2 _ _ x y); auto.
  - intros v. cbn [ret expect resultIs]. destruct (Z.eq_dec v (candidate x)) as [-> | N];
      [rewrite Z.eqb_refl; reflexivity | replace (v =? candidate x) with false by lia; reflexivity].
  - intros v. cbn [ret expect resultIs]. destruct (Z.eq_dec v (candidate y)) as [-> | N];
      [rewrite Z.eqb_refl; reflexivity | replace (v =? candidate y) with false by lia; reflexivity].
  - reflexivity.
  - reflexivity.
Qed.
