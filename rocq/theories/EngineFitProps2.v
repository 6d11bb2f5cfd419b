(* C92: select, rotate, prime and the overloads for pairs on the words of the engine; C04: select of an empty range *)
From Coq Require Import QArith List.
From Verif Require Import Base Tac RndModel RandSpec RandSeqModel PairModel PairSpec EngineModel EngineSpec EngineFitProofs3.
Import ListNotations.
Open Scope Z_scope.

Theorem C04_select_empty : forall A, select (@nil A) = RRet Throw.
Proof. exact select_nil. Qed.
Print Assumptions C04_select_empty.
Example C04_ex_select_empty : play (select (@nil Z)) [5] = Throw /\ play (select [7; 8]) [1] = Ok 8.
Proof. vm_compute. split; reflexivity. Qed.

Theorem C92_pairs_fit : forall A (t : A * A), drawsFit (selectPair t) /\ drawsFit (shufflePair t).
Proof. exact pairs_fit. Qed.
Print Assumptions C92_pairs_fit.
Theorem C92_selectPair : forall A (dec : forall x y : A, {x = y} + {x <> y}) (t : A * A) x,
  sharesTo (fun bits => runOn bits (selectPair t)) (resultIs dec x) (inject_Z (Z.of_nat (count_occ dec [fst t; snd t] x)) / 2).
Proof. exact selectPair_words. Qed.
Print Assumptions C92_selectPair.
Theorem C92_shufflePair : forall A (dec : forall x y : A * A, {x = y} + {x <> y}) (t : A * A) x,
  sharesTo (fun bits => runOn bits (shufflePair t)) (resultIs dec x) (inject_Z (Z.of_nat (count_occ dec [t; (snd t, fst t)] x)) / 2).
Proof. exact shufflePair_words. Qed.
Print Assumptions C92_shufflePair.
Theorem C92_rotate : forall A (l : list A) (dec : forall x y : Z * list A, {x = y} + {x <> y}) k, 0 <= k < alen l -> alen l < two63 ->
  sharesTo (fun bits => runOn bits (rotate l)) (resultIs dec (k, skipn (Z.to_nat k) l ++ firstn (Z.to_nat k) l)) (1 / inject_Z (alen l)).
Proof. exact rotate_words. Qed.
Print Assumptions C92_rotate.
Theorem C92_prime : forall lower upper cs, is_i64 lower -> is_i64 upper -> is_i64 (4 * (upper - lower)) -> upper <> 2 ->
  NoDup cs -> (forall v, In v cs <-> drawable lower upper v) -> cs <> [] ->
  let n := Z.of_nat (length cs) in let g := Z.of_nat (length (filter taken cs)) in
  let miss := ((inject_Z (n - g) / inject_Z n) ^ Z.min 6400 (4 * (upper - lower)))%Q in
  sharesTo (fun bits => runOn bits (randomPrime lower upper)) thrown miss /\
  forall p, In p cs -> taken p = true -> sharesTo (fun bits => runOn bits (randomPrime lower upper)) (resultIs Z.eq_dec p) ((1 - miss) / inject_Z g).
Proof. exact prime_words. Qed.
Print Assumptions C92_prime.
(* 7 and 9 are drawn from [7, 10); the first word gives 9, the second 7 *)
Example C92_ex_rotate : runOn (fun _ => true) (rotate [5; 6; 7; 8]) [3 * 2 ^ 62; 4] = Some (Ok (3, [8; 5; 6; 7]), [4]) /\
  runOn (fun _ => true) (selectPair (7, 8)) [2 ^ 63; 4] = Some (Ok 7, [4]) /\
  runOn (fun _ => true) (shufflePair (7, 8)) [2 ^ 63; 4] = Some (Ok (8, 7), [4]) /\
  runOn (fun _ => true) (randomPrime 7 10) [2 ^ 64 - 2; 0; 4] = Some (Ok 7, [4]) /\
  filter taken [7; 9] = [7] /\ (forall v, In v [7; 9] <-> drawable 7 10 v).
Proof.
  split; [vm_compute; reflexivity|]. split; [vm_compute; reflexivity|]. split; [vm_compute; reflexivity|]. split; [vm_compute; reflexivity|]. split; [vm_compute; reflexivity|].
  intro v. unfold drawable. split.
  - intros [<- | [<- | []]]; (split; [lia | right; split; [lia | reflexivity]]).
  - intros [R [-> | [G O]]]; [lia |]. assert (C : v = 7 \/ v = 8 \/ v = 9) by lia.
    destruct C as [-> | [-> | ->]]; [left; reflexivity | discriminate | right; left; reflexivity].
Qed.
