(* Properties of the sequence and string helpers of validate.h. *)
From Verif Require Import Base RndModel RandSeqModel RandSpec SeqModel SeqSpec SeqProofs.
From Coq Require Import Permutation Sorted.
From Verif Require Import RandSeqModel.
Open Scope Z_scope.

(* ---- C18 ---- *)
(* the reason is the first element that repeats an earlier one or leaves the range *)
Theorem C18_isPerm : forall l offset,
  Forall (fun x => is_i64 x /\ x - offset <= I64_MAX) l ->
  (isPerm l offset = Ok (true, None) /\ Permutation (zseq offset (length l)) l) \/
  (exists x l1 l2, isPerm l offset = Ok (false, Some x) /\ ~ Permutation (zseq offset (length l)) l /\
     l = l1 ++ x :: l2 /\ NoDup l1 /\ Forall (fun x => offset <= x < offset + alen l) l1 /\
     (~ offset <= x < offset + alen l \/ In x l1)).
Proof. exact isPerm_ok. Qed.
Print Assumptions C18_isPerm.
Example C18_ex : isPerm [3; 1; 2] 1 = Ok (true, None) /\ isPerm [3; 1; 3] 1 = Ok (false, Some 3) /\
  isPerm [0; 4; 1; 2] 0 = Ok (false, Some 4).
Proof. vm_compute. repeat split. Qed.
Theorem C18_isPerm_overflow_refuted :
  exists l offset, Forall is_i64 l /\ is_i64 offset /\ isPerm l offset = UB.
Proof. exact isPerm_overflow. Qed.
Print Assumptions C18_isPerm_overflow_refuted.

(* ---- C19 ---- *)
Theorem C19_isPerm2 : forall a b,
  (isPerm2 a b = (true, None) /\ Permutation a b) \/
  (isPerm2 a b = (false, None) /\ length a <> length b) \/
  (exists x, isPerm2 a b = (false, Some x) /\ length a = length b /\ ~ Permutation a b /\ In x a /\
     ((countZ b x < countZ a x)%nat \/ (below a x < below b x)%nat)).
Proof. exact isPerm2_ok. Qed.
Print Assumptions C19_isPerm2.
Example C19_ex : isPerm2 [2; 1; 2] [2; 2; 1] = (true, None) /\ isPerm2 [2; 1; 2] [1; 2; 3] = (false, Some 2).
Proof. vm_compute. split; reflexivity. Qed.
Theorem C19_isPerm2_reason_refuted : exists a b x, isPerm2 a b = (false, Some x) /\ countZ a x = countZ b x.
Proof. exact isPerm2_reason. Qed.
Print Assumptions C19_isPerm2_reason_refuted.

(* ---- C20 ---- *)
Theorem C20_anyAdjacent : forall A (p : A -> A -> bool) l,
  (anyAdjacent p l = (false, None) /\ (forall i x y, neighbours l i x y -> p x y = false)) \/
  (exists i x y, anyAdjacent p l = (true, Some i) /\ neighbours l i x y /\ p x y = true /\
     forall j u v, j < i -> neighbours l j u v -> p u v = false).
Proof. exact anyAdjacent_ok. Qed.
Print Assumptions C20_anyAdjacent.
Theorem C20_noneAdjacent : forall A (p : A -> A -> bool) l,
  (noneAdjacent p l = (true, None) /\ (forall i x y, neighbours l i x y -> p x y = false)) \/
  (exists i x y, noneAdjacent p l = (false, Some i) /\ neighbours l i x y /\ p x y = true /\
     forall j u v, j < i -> neighbours l j u v -> p u v = false).
Proof. exact noneAdjacent_ok. Qed.
Print Assumptions C20_noneAdjacent.
Theorem C20_allAdjacent : forall A (p : A -> A -> bool) l,
  (allAdjacent p l = (true, None) /\ (forall i x y, neighbours l i x y -> p x y = true)) \/
  (exists i x y, allAdjacent p l = (false, Some i) /\ neighbours l i x y /\ p x y = false /\
     forall j u v, j < i -> neighbours l j u v -> p u v = true).
Proof. exact allAdjacent_ok. Qed.
Print Assumptions C20_allAdjacent.
Theorem C20_ordered : forall l,
  (fst (areIncreasing l) = true <-> StronglySorted Z.lt l) /\
  (fst (areNonDecreasing l) = true <-> StronglySorted Z.le l) /\
  (fst (areDecreasing l) = true <-> StronglySorted Z.gt l) /\
  (fst (areNonIncreasing l) = true <-> StronglySorted Z.ge l).
Proof. exact are_ordered. Qed.
Print Assumptions C20_ordered.
Example C20_ex : anyAdjacent Z.eqb [1; 2; 2; 3] = (true, Some 2) /\ noneAdjacent Z.eqb [1; 2; 1] = (true, None) /\
  areIncreasing [1; 2; 2] = (false, Some 2) /\ areNonDecreasing [1; 2; 2] = (true, None).
Proof. vm_compute. repeat split. Qed.
(* the container overload of allAdjacent does not negate the predicate *)
Theorem C20_allAdjacent_container_refuted : exists (p : Z -> Z -> bool) l,
  allAdjacentContainer p l = (true, None) /\ exists i x y, neighbours l i x y /\ p x y = false.
Proof. exact allAdjacent_container. Qed.
Print Assumptions C20_allAdjacent_container_refuted.

(* ---- C21 ---- *)
Theorem C21_areDistinct : forall l,
  (areDistinct l = Ok (true, None) /\ NoDup l) \/
  (exists x, areDistinct l = Ok (false, Some x) /\ (2 <= countZ l x)%nat).
Proof. exact areDistinct_ok. Qed.
Print Assumptions C21_areDistinct.
Example C21_ex : areDistinct [3; 1; 2] = Ok (true, None) /\ areDistinct [3; 1; 2; 3] = Ok (false, Some 3).
Proof. vm_compute. split; reflexivity. Qed.

(* ---- C22 ---- *)
Theorem C22_range : forall from to step, is_i64 from -> is_i64 to -> is_i64 step -> step <> 0 -> step <> I64_MIN ->
  exists n, range from to step = Ok (map (fun i => from + Z.of_nat i * step) (seq 0 n)) /\
    forall i : nat, (i < n)%nat <->
      (0 < step /\ from + Z.of_nat i * step < to \/ step < 0 /\ to < from + Z.of_nat i * step).
Proof. exact range_ok. Qed.
Print Assumptions C22_range.
Theorem C22_range_zero : forall from to, range from to 0 = Throw.
Proof. exact range_zero. Qed.
Print Assumptions C22_range_zero.
Example C22_ex : range 1 8 3 = Ok [1; 4; 7] /\ range 5 (-2) (-2) = Ok [5; 3; 1; -1] /\
  range I64_MIN I64_MAX (2 ^ 62) = Ok [I64_MIN; - 2 ^ 62; 0; 2 ^ 62].
Proof. vm_compute. repeat split. Qed.
(* std::abs of the smallest value *)
Theorem C22_range_min_step_refuted : exists from to step,
  is_i64 from /\ is_i64 to /\ is_i64 step /\ to < from /\ step < 0 /\ range from to step = UB.
Proof. exact range_min_step. Qed.
Print Assumptions C22_range_min_step_refuted.

(* ---- C24 ---- *)
Theorem C24_stringEqual : forall a b cs,
  (stringEqual a b cs = (true, None) /\ Forall2 (eqChar cs) a b) \/
  (exists k, stringEqual a b cs = (false, Some (Z.of_nat k)) /\
     (k <= length a)%nat /\ (k <= length b)%nat /\
     Forall2 (eqChar cs) (firstn k a) (firstn k b) /\ ~ Forall2 (eqChar cs) a b /\
     (forall x y, nth_error a k = Some x -> nth_error b k = Some y -> ~ eqChar cs x y)).
Proof. exact stringEqual_ok. Qed.
Print Assumptions C24_stringEqual.
Example C24_ex : stringEqual [72; 105] [104; 73] false = (true, None) /\
  stringEqual [72; 105] [72; 73] true = (false, Some 1) /\ stringEqual [72; 105] [72] true = (false, Some 1).
Proof. vm_compute. repeat split. Qed.

(* ---- C51 ---- *)
Theorem C51_thueMorse : forall lower upper, is_i64 lower -> is_i64 upper -> 0 <= lower < upper ->
  thueMorse lower upper = Ok (map tm (zseq lower (Z.to_nat (upper - lower)))).
Proof. exact thueMorse_ok. Qed.
Print Assumptions C51_thueMorse.
Theorem C51_thueMorse_throws : forall lower upper, (upper <= lower \/ lower < 0) -> thueMorse lower upper = Throw.
Proof. exact thueMorse_throws. Qed.
Print Assumptions C51_thueMorse_throws.
Example C51_ex : thueMorse 3 11 = Ok [0; 1; 0; 0; 1; 1; 0; 0].
Proof. vm_compute. reflexivity. Qed.
