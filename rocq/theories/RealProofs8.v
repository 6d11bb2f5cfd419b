(* Runs of the floating point functions. *)
From Verif Require Import Tac RndModel RndLemmas FloatModel FloatSpec FloatProofs RandIntModel RandIntProofs RealModel RealSpec RealProofs RealProofs2 RealProofs3 RealProofs4 RealProofs5.
From Coq Require Import QArith Qpower Qfield Lqa Lia ZArith SpecFloat.
Open Scope Z_scope.

(* real() returns 1 with probability 2^-54 *)
Lemma real_one : forall fuel, (1 <= fuel)%nat -> (Pr (randomReal fuel) (atLeast 1) == two (-54))%Q.
Proof.
  intros fuel F. pose proof (real_distribution fuel 0 (2 ^ 53) ltac:(lia) ltac:(lia) ltac:(lia)) as D.
  assert (E : (inject_Z (2 ^ 53) * two (-53 - 0) == 1)%Q) by reflexivity.
  assert (X : (Pr (randomReal fuel) (atLeast 1) == Pr (randomReal fuel) (atLeast (inject_Z (2 ^ 53) * two (-53 - 0))))%Q).
  { unfold Pr. apply expect_ext_always. apply always_can. intros o _. unfold atLeast. destruct o as [r| | |]; try reflexivity.
    destruct (Qle_bool 1 (val r)) eqn:A, (Qle_bool (inject_Z (2 ^ 53) * two (-53 - 0)) (val r)) eqn:B; try reflexivity.
    - apply Qle_bool_iff in A. rewrite <- E in A. apply Qle_bool_iff in A. congruence.
    - apply Qle_bool_iff in B. rewrite E in B. apply Qle_bool_iff in B. congruence. }
  rewrite X, D. change (Z.odd (2 ^ 53)) with false. cbv iota. rewrite E. replace (-54 - 0) with (-54) by lia. ring.
Qed.

(* -ln 2, rounded *)
Definition minusLn2 : real := S754_finite true 0xB17217F7D1CF79AC (-64).
(* 2^-100 *)
Definition tiny : real := S754_finite false (2 ^ 63) (-163).
Definition noInteger (x : real) : Z := - 2 ^ 63.
(* binomial(1, 2^-100) overflows *)
Lemma binomial_overflow : let log := fun _ => minusLn2 in let log1p := fun _ => ropp tiny in
  play (binomial (fun x => x) log log1p (fun x => x) ofZ noInteger 5 5 1 tiny) [0; 1; 0; 1] = UB.
Proof. vm_compute. reflexivity. Qed.
Lemma geometric_overflow : let log := fun _ => minusLn2 in let log1p := fun _ => S754_zero true in
  play (geometric log log1p noInteger 5 rzero) [0; 1] = Ok (- 2 ^ 63) /\ play (geometricIn log log1p noInteger 5 5 (-1) 10 rzero) [0; 1] = UB.
Proof. vm_compute. auto. Qed.
(* sqrt(2 ln 2) * cos(pi) for u1 = u2 = 1/2, with sqrt(1) = 1 and sqrt(4) = 2 *)
Lemma normal_scale : exists sqrt cos log ws z, sqrt rone = rone /\ sqrt (ofZ 4) = ofZ 2 /\ z <> rzero /\
  play (normal sqrt cos log 3 rzero rone) ws = Ok z /\
  play (normal sqrt cos log 3 rzero (ofZ 4)) ws = Ok (rmul (ofZ 2) z) /\ rmul (ofZ 2) z <> rmul (ofZ 4) z.
Proof.
  exists (SFsqrt prec emax), (fun _ => ofZ (-1)), (fun _ => minusLn2), [0; 1; 0; 1].
  exists (rmul (SFsqrt prec emax (rmul (ropp (ofZ 2)) minusLn2)) (ofZ (-1))). repeat split; try (vm_compute; reflexivity); vm_compute; discriminate.
Qed.
