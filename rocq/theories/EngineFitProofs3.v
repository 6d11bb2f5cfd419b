(* select, rotate, prime and the overloads for pairs on the words of the engine *)
From Coq Require Import QArith Permutation.
From Verif Require Import Base Tac RndModel RndLemmas RandSpec RandSeqModel MathModel GenOpsModel PairModel PairSpec PairProofs ShuffleProofs EngineModel EngineSpec EngineProofs EngineFitProofs EngineFitProofs2 EngineFitLaws.
Open Scope Z_scope.

Lemma select_nil : forall A, select (@nil A) = RRet Throw.
Proof. reflexivity. Qed.
Lemma pairs_fit : forall A (t : A * A), drawsFit (selectPair t) /\ drawsFit (shufflePair t).
Proof. intros A t. unfold selectPair, shufflePair, rbit. cbn. unfold is_i64. split; (split; [lia|]; split; [left; split; vm_compute; split; congruence|]; auto). Qed.
Lemma selectPair_words : forall A (dec : forall x y : A, {x = y} + {x <> y}) (t : A * A) x,
  sharesTo (fun bits => runOn bits (selectPair t)) (resultIs dec x) (inject_Z (Z.of_nat (count_occ dec [fst t; snd t] x)) / 2).
Proof. intros. apply shares_law; [apply pairs_fit|]. apply selectPair_half. Qed.
Lemma shufflePair_words : forall A (dec : forall x y : A * A, {x = y} + {x <> y}) (t : A * A) x,
  sharesTo (fun bits => runOn bits (shufflePair t)) (resultIs dec x) (inject_Z (Z.of_nat (count_occ dec [t; (snd t, fst t)] x)) / 2).
Proof. intros. apply shares_law; [apply pairs_fit|]. apply shufflePair_half. Qed.
Lemma rotate_words : forall A (l : list A) (dec : forall x y : Z * list A, {x = y} + {x <> y}) k, 0 <= k < alen l -> alen l < two63 ->
  sharesTo (fun bits => runOn bits (rotate l)) (resultIs dec (k, skipn (Z.to_nat k) l ++ firstn (Z.to_nat k) l)) (1 / inject_Z (alen l)).
Proof. intros. apply shares_law; [apply fit_rotate; assumption|]. apply rotate_uniform; assumption. Qed.
Lemma prime_words : forall lower upper cs, is_i64 lower -> is_i64 upper -> is_i64 (4 * (upper - lower)) -> upper <> 2 ->
  NoDup cs -> (forall v, In v cs <-> drawable lower upper v) -> cs <> [] ->
  let n := Z.of_nat (length cs) in let g := Z.of_nat (length (filter taken cs)) in
  let miss := ((inject_Z (n - g) / inject_Z n) ^ Z.min 6400 (4 * (upper - lower)))%Q in
  sharesTo (fun bits => runOn bits (randomPrime lower upper)) thrown miss /\
  forall p, In p cs -> taken p = true -> sharesTo (fun bits => runOn bits (randomPrime lower upper)) (resultIs Z.eq_dec p) ((1 - miss) / inject_Z g).
Proof.
  intros lower upper cs Hl Hu H4 N2 ND D NE n g miss. destruct (randomPrime_law lower upper cs Hl Hu H4 N2 ND D NE) as (T & P).
  split; [apply shares_law; [apply fit_prime; assumption|exact T]|]. intros p I K. apply shares_law; [apply fit_prime; assumption|]. apply P; assumption.
Qed.
