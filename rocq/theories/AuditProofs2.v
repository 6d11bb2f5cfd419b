From Verif Require Import Base BaseLemmas Tac RndModel RealModel RealProofs4.
From Coq Require Import ZArith Lia.
Open Scope Z_scope.

Lemma minimum_throws : forall log2 exp2 fuel lower upper n, n <= 0 \/ upper <= lower -> is_i64 upper ->
  minimum log2 exp2 fuel lower upper n = RRet (if in_i64 (upper - lower) && in_i64 (upper - 1) then Throw else UB).
Proof.
  intros log2 exp2 fuel lower upper n H U. unfold minimum, chk. destruct (in_i64 (upper - lower)); [|reflexivity]. destruct (in_i64 (upper - 1)); [|reflexivity].
  cbn [lift rbind andb]. rewrite maximum_throws by lia. reflexivity.
Qed.
Lemma minimum_throws_clear : forall log2 exp2 fuel lower upper n, n <= 0 \/ upper <= lower -> is_i64 upper ->
  (is_i64 (upper - lower) /\ is_i64 (upper - 1) -> minimum log2 exp2 fuel lower upper n = RRet Throw) /\
  (~ (is_i64 (upper - lower) /\ is_i64 (upper - 1)) -> minimum log2 exp2 fuel lower upper n = RRet UB).
Proof.
  intros log2 exp2 fuel lower upper n H U. rewrite (minimum_throws log2 exp2 fuel lower upper n H U).
  destruct (in_i64 (upper - lower) && in_i64 (upper - 1)) eqn:E; split; intro K; try reflexivity; exfalso; mach; lia.
Qed.
