From Verif Require Import Tac Base RndModel RandSpec RandSeqModel MathModel PairModel PairSpec PairProofs.
From Coq Require Import QArith Permutation Znumtheory.
Import ListNotations.
Open Scope Z_scope.

(* ---- C04 ---- *)
Theorem C04_rotate_uniform : forall A (l : list A) (dec : forall x y : Z * list A, {x = y} + {x <> y}) k, 0 <= k < alen l ->
  (Pr (rotate l) (resultIs dec (k, skipn (Z.to_nat k) l ++ firstn (Z.to_nat k) l)) == 1 / inject_Z (alen l))%Q.
Proof. exact rotate_uniform. Qed.
Print Assumptions C04_rotate_uniform.
Definition rotation_dec (x y : Z * list Z) : {x = y} + {x <> y}.
Proof. decide equality; [apply list_eq_dec |]; apply Z.eq_dec. Defined.
Example C04_rotate_uniform_ex : Qeq (Pr (rotate [5; 6; 5; 6]) (resultIs rotation_dec (2, [5; 6; 5; 6]))) (1 # 4).
Proof. vm_compute. reflexivity. Qed.
Theorem C04_rotate_empty : forall A, rotate (@nil A) = RRet Throw.
Proof. exact rotate_nil. Qed.
Print Assumptions C04_rotate_empty.
Theorem C04_select_pair : forall A (dec : forall x y : A, {x = y} + {x <> y}) (t : A * A) x,
  (Pr (selectPair t) (resultIs dec x) == inject_Z (Z.of_nat (count_occ dec [fst t; snd t] x)) / 2)%Q.
Proof. exact selectPair_half. Qed.
Print Assumptions C04_select_pair.
Example C04_select_pair_ex : Qeq (Pr (selectPair (7, 8)) (resultIs Z.eq_dec 8)) (1 # 2) /\
  Qeq (Pr (selectPair (7, 7)) (resultIs Z.eq_dec 7)) 1 /\ play (selectPair (7, 8)) [1] = Ok 7.
Proof. vm_compute. repeat split; reflexivity. Qed.
Theorem C04_shuffle_pair : forall A (dec : forall x y : A * A, {x = y} + {x <> y}) (t : A * A) x,
  (Pr (shufflePair t) (resultIs dec x) == inject_Z (Z.of_nat (count_occ dec [t; (snd t, fst t)] x)) / 2)%Q.
Proof. exact shufflePair_half. Qed.
Print Assumptions C04_shuffle_pair.
Example C04_shuffle_pair_ex : play (shufflePair (7, 8)) [1] = Ok (8, 7) /\ play (shufflePair (7, 8)) [0] = Ok (7, 8).
Proof. vm_compute. split; reflexivity. Qed.

(* ---- C17 ---- *)
Theorem C17_prime_law : forall lower upper cs, is_i64 lower -> is_i64 upper -> is_i64 (4 * (upper - lower)) -> upper <> 2 ->
  NoDup cs -> (forall v, In v cs <-> drawable lower upper v) -> cs <> [] ->
  let n := Z.of_nat (length cs) in let g := Z.of_nat (length (filter taken cs)) in
  let miss := ((inject_Z (n - g) / inject_Z n) ^ Z.min 6400 (4 * (upper - lower)))%Q in
  (Pr (randomPrime lower upper) thrown == miss)%Q /\
  forall p, In p cs -> taken p = true -> (Pr (randomPrime lower upper) (resultIs Z.eq_dec p) == (1 - miss) / inject_Z g)%Q.
Proof. exact randomPrime_law. Qed.
Print Assumptions C17_prime_law.
(* 7 and 9 are drawn from [7, 10), at most 12 times *)
Example C17_prime_law_ex : (forall v, In v [7; 9] <-> drawable 7 10 v) /\ filter taken [7; 9] = [7] /\
  Qeq (Pr (randomPrime 7 10) thrown) (1 # 4096) /\ Qeq (Pr (randomPrime 7 10) (resultIs Z.eq_dec 7)) (4095 # 4096).
Proof.
  split; [| vm_compute; repeat split; reflexivity]. intro v. unfold drawable. split.
  - intros [<- | [<- | []]]; (split; [lia | right; split; [lia | reflexivity]]).
  - intros [R [-> | [G O]]]; [lia |]. assert (C : v = 7 \/ v = 8 \/ v = 9) by lia.
    destruct C as [-> | [-> | ->]]; [left; reflexivity | discriminate | right; left; reflexivity].
Qed.
Theorem C17_prime_rarely_throws : forall lower upper p, is_i64 lower -> is_i64 upper -> upper - lower <= 1600 ->
  prime p -> lower <= p < upper -> upper <> 2 -> (Pr (randomPrime lower upper) thrown <= 1 # 128)%Q.
Proof. exact randomPrime_rarely. Qed.
Print Assumptions C17_prime_rarely_throws.
Example C17_prime_rarely_throws_ex : prime 3 /\ 2 <= 3 < 4 /\ Qeq (Pr (randomPrime 2 4) thrown) 0.
Proof. split; [exact prime_3 |]. split; [lia | vm_compute; reflexivity]. Qed.
