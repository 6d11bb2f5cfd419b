(* Properties of the random sequences of validate.h. `always m P`: P holds of the outcome
   for all draws. `Pr m p`: exact probability of p for independent uniform draws. *)
From Verif Require Import Base MathModel RndModel RandSeqModel RandSpec.
From Verif Require Import RndLemmas ShuffleProofs DistinctProofs BracketProofs PartitionProofs PermProofs RandMiscProofs RandWitness.
From Coq Require Import QArith Permutation Sorted Znumtheory.
From Verif Require Import RandSeqModel.
Open Scope Z_scope.

Notation listIs := (resultIs (list_eq_dec Z.eq_dec)).

(* ---- C04 ---- *)
Theorem C04_shuffle_permutes : forall A (l : list A),
  always (shuffle l) (returns (Permutation l)).
Proof. exact shuffle_always. Qed.
Print Assumptions C04_shuffle_permutes.
Theorem C04_shuffle_uniform :
  forall A (dec : forall x y : A, {x = y} + {x <> y}) (l p : list A), NoDup l -> Permutation l p ->
  (Pr (shuffle l) (resultIs (list_eq_dec dec) p) == 1 / inject_Z (zfact (length l)))%Q.
Proof. exact @shuffle_uniform. Qed.
Print Assumptions C04_shuffle_uniform.
Example C04_ex : Qeq (Pr (shuffle [5; 6; 7]) (listIs [6; 7; 5])) (1 # 6).
Proof. vm_compute. reflexivity. Qed.
Theorem C04_select_uniform : forall A (dec : forall x y : A, {x = y} + {x <> y}) (l : list A) x, l <> [] ->
  (Pr (select l) (resultIs dec x) ==
   inject_Z (Z.of_nat (count_occ dec l x)) / inject_Z (Z.of_nat (length l)))%Q.
Proof. exact select_uniform. Qed.
Print Assumptions C04_select_uniform.
Example C04_select_ex : Qeq (Pr (select [5; 6; 5]) (resultIs Z.eq_dec 5)) (2 # 3).
Proof. vm_compute. reflexivity. Qed.
Theorem C04_rotate : forall A (l : list A), l <> [] ->
  always (rotate l) (returns (fun r => 0 <= fst r < alen l /\
    snd r = skipn (Z.to_nat (fst r)) l ++ firstn (Z.to_nat (fst r)) l)).
Proof. exact rotate_always. Qed.
Print Assumptions C04_rotate.
Example C04_rotate_ex : play (rotate [5; 6; 7]) [2] = Ok (2, [7; 5; 6]).
Proof. vm_compute. reflexivity. Qed.

(* ---- C05 ---- *)
Theorem C05_distinct : forall count lower upper, is_i64 lower -> is_i64 upper ->
  0 <= count -> lower + count <= upper ->
  always (distinct count lower upper)
    (returns (fun l => Z.of_nat (length l) = count /\ NoDup l /\ Forall (fun x => lower <= x < upper) l)).
Proof. exact distinct_always. Qed.
Print Assumptions C05_distinct.
Theorem C05_distinct_uniform : forall count lower upper, is_i64 lower -> is_i64 upper ->
  0 <= count -> lower + count <= upper ->
  forall t, Z.of_nat (length t) = count -> NoDup t -> Forall (fun x => lower <= x < upper) t ->
  (Pr (distinct count lower upper) (listIs t) ==
   inject_Z (zfact (Z.to_nat (upper - lower - count))) / inject_Z (zfact (Z.to_nat (upper - lower))))%Q.
Proof. exact distinct_uniform. Qed.
Print Assumptions C05_distinct_uniform.
Theorem C05_distinct_throws : forall count lower upper, is_i64 lower -> is_i64 upper ->
  is_i64 (lower + count) -> (count < 0 \/ upper < lower + count) ->
  distinct count lower upper = RRet Throw.
Proof. exact distinct_throws. Qed.
Print Assumptions C05_distinct_throws.
Example C05_ex : Qeq (Pr (distinct 2 (-1) 3) (listIs [2; -1])) (1 # 12) /\
  play (distinct 3 0 4) [1; 1; 1] = Ok [1; 3; 2].
Proof. vm_compute. split; reflexivity. Qed.
(* the range check itself overflows close to the type limit *)
Theorem C05_distinct_overflow_refuted : exists count lower upper,
  is_i64 lower /\ is_i64 upper /\ 0 <= count /\ upper < lower + count /\
  distinct count lower upper = RRet UB.
Proof. exact distinct_overflow. Qed.
Print Assumptions C05_distinct_overflow_refuted.

(* ---- C06 ---- *)
Theorem C06_perm : forall count offset, 0 <= count -> is_i64 (offset + count) ->
  always (perm count offset) (returns (Permutation (zseq offset (Z.to_nat count)))).
Proof. exact perm_always. Qed.
Print Assumptions C06_perm.
Theorem C06_perm_uniform : forall count offset p, 0 <= count -> is_i64 (offset + count) ->
  Permutation (zseq offset (Z.to_nat count)) p ->
  (Pr (perm count offset) (listIs p) == 1 / inject_Z (zfact (Z.to_nat count)))%Q.
Proof. exact perm_uniform. Qed.
Print Assumptions C06_perm_uniform.
Example C06_ex : Qeq (Pr (perm 4 (-1)) (listIs [2; 0; -1; 1])) (1 # 24).
Proof. vm_compute. reflexivity. Qed.

(* ---- C07 ---- *)
Theorem C07_perm_cycles : forall cycles offset, Forall (fun c => 0 < c) cycles ->
  is_i64 offset -> is_i64 (zsum cycles) -> is_i64 (offset + zsum cycles) ->
  always (permCycles cycles offset)
    (returns (fun sigma => Z.of_nat (length sigma) = zsum cycles /\
       Permutation (zseq offset (length sigma)) sigma /\ hasCycles sigma offset cycles)).
Proof. exact permCycles_always. Qed.
Print Assumptions C07_perm_cycles.
Example C07_ex : play (permCycles [2; 1; 3] 10) [0; 3; 2; 1; 0] = Ok [12; 11; 13; 10; 15; 14].
Proof. vm_compute. reflexivity. Qed.
(* A non-positive length is meant to be rejected, but the vector is sized by the sum first. *)
Theorem C07_perm_cycles_negative_refuted : exists cycles,
  ~ Forall (fun c => 0 < c) cycles /\ can (permCycles cycles 0) UB.
Proof. exact perm_cycles_negative. Qed.
Print Assumptions C07_perm_cycles_negative_refuted.

(* ---- C08 ---- *)
Theorem C08_perm_fix : forall count fixed offset, 0 <= count -> is_i64 offset -> is_i64 count ->
  is_i64 (offset + count) -> NoDup fixed -> Forall (fun x => offset <= x < offset + count) fixed ->
  always (permFix count fixed offset)
    (returns (fun sigma => Permutation (zseq offset (Z.to_nat count)) sigma /\
       forall x, In x fixed -> getz sigma (x - offset) = x)).
Proof. exact permFix_always. Qed.
Print Assumptions C08_perm_fix.
Theorem C08_perm_fix_throws : forall count fixed offset, is_i64 (offset + count) ->
  count < 0 \/ Exists (fun x => ~ offset <= x < offset + count) fixed ->
  permFix count fixed offset = RRet Throw.
Proof. exact permFix_throws. Qed.
Print Assumptions C08_perm_fix_throws.
Theorem C08_perm_fix_below : forall count fixed offset x, x < offset -> permFix count (x :: fixed) offset = RRet Throw.
Proof. exact permFix_low. Qed.
Print Assumptions C08_perm_fix_below.
Example C08_ex_below : permFix I64_MAX [3] 5 = RRet Throw.
Proof. apply permFix_low. reflexivity. Qed.
Example C08_ex : play (permFix 5 [11; 13] 10) [0; 1; 2; 0] = Ok [14; 11; 12; 13; 10].
Proof. vm_compute. reflexivity. Qed.
(* listing a point twice undoes the fixing *)
Theorem C08_perm_fix_repeated_refuted : exists count fixed sigma,
  Forall (fun x => 0 <= x < 0 + count) fixed /\ can (permFix count fixed 0) (Ok sigma) /\
  exists x, In x fixed /\ getz sigma (x - 0) <> x.
Proof. exact perm_fix_repeated. Qed.
Print Assumptions C08_perm_fix_repeated_refuted.

(* ---- C09 ---- *)
Theorem C09_increasing : forall count lower upper, is_i64 lower -> is_i64 upper ->
  0 <= count -> lower + count <= upper ->
  always (increasing count lower upper)
    (returns (fun l => Z.of_nat (length l) = count /\ StronglySorted Z.lt l /\
                       Forall (fun x => lower <= x < upper) l)).
Proof. exact increasing_always. Qed.
Print Assumptions C09_increasing.
Theorem C09_decreasing : forall count lower upper, is_i64 lower -> is_i64 upper ->
  0 <= count -> lower + count <= upper ->
  always (decreasing count lower upper)
    (returns (fun l => Z.of_nat (length l) = count /\ StronglySorted Z.gt l /\
                       Forall (fun x => lower <= x < upper) l)).
Proof. exact decreasing_always. Qed.
Print Assumptions C09_decreasing.
(* 1 / (upper-lower choose count) *)
Theorem C09_increasing_uniform : forall count lower upper, is_i64 lower -> is_i64 upper ->
  0 <= count -> lower + count <= upper ->
  forall t, Z.of_nat (length t) = count -> StronglySorted Z.lt t -> Forall (fun x => lower <= x < upper) t ->
  (Pr (increasing count lower upper) (listIs t) ==
   inject_Z (zfact (Z.to_nat count)) * inject_Z (zfact (Z.to_nat (upper - lower - count)))
     / inject_Z (zfact (Z.to_nat (upper - lower))))%Q.
Proof. exact increasing_uniform. Qed.
Print Assumptions C09_increasing_uniform.
Theorem C09_decreasing_uniform : forall count lower upper, is_i64 lower -> is_i64 upper ->
  0 <= count -> lower + count <= upper ->
  forall t, Z.of_nat (length t) = count -> StronglySorted Z.gt t -> Forall (fun x => lower <= x < upper) t ->
  (Pr (decreasing count lower upper) (listIs t) ==
   inject_Z (zfact (Z.to_nat count)) * inject_Z (zfact (Z.to_nat (upper - lower - count)))
     / inject_Z (zfact (Z.to_nat (upper - lower))))%Q.
Proof. exact decreasing_uniform. Qed.
Print Assumptions C09_decreasing_uniform.
Theorem C09_nonDecreasing : forall count lower upper, 0 <= count -> lower < upper ->
  always (nonDecreasing count lower upper)
    (returns (fun l => Z.of_nat (length l) = count /\ StronglySorted Z.le l /\
                       Forall (fun x => lower <= x < upper) l)).
Proof. exact nonDecreasing_always. Qed.
Print Assumptions C09_nonDecreasing.
Theorem C09_nonIncreasing : forall count lower upper, 0 <= count -> lower < upper ->
  always (nonIncreasing count lower upper)
    (returns (fun l => Z.of_nat (length l) = count /\ StronglySorted Z.ge l /\
                       Forall (fun x => lower <= x < upper) l)).
Proof. exact nonIncreasing_always. Qed.
Print Assumptions C09_nonIncreasing.
Theorem C09_multiple_uniform : forall count lower upper t, 0 <= count -> lower < upper ->
  Z.of_nat (length t) = count -> Forall (fun x => lower <= x < upper) t ->
  (Pr (multiple count lower upper) (listIs t) == 1 / inject_Z ((upper - lower) ^ count))%Q.
Proof. exact multiple_uniform. Qed.
Print Assumptions C09_multiple_uniform.
Example C09_ex : Qeq (Pr (increasing 2 0 4) (listIs [1; 3])) (1 # 6) /\
  Qeq (Pr (decreasing 2 0 4) (listIs [3; 1])) (1 # 6) /\
  play (nonDecreasing 3 0 4) [2; 0; 2] = Ok [0; 2; 2] /\
  play (nonIncreasing 3 0 4) [2; 0; 2] = Ok [2; 2; 0].
Proof. vm_compute. repeat split; reflexivity. Qed.

(* ---- C10 ---- *)
Theorem C10_partition : forall n k min, is_i64 n -> is_i64 k -> is_i64 min ->
  0 < n -> 0 < k -> min * k <= n -> is_i64 (n - (min - 1) * k) ->
  always (partition n k min)
    (returns (fun t => Z.of_nat (length t) = k /\ zsum t = n /\ Forall (fun v => min <= v) t)).
Proof. exact partition_always. Qed.
Print Assumptions C10_partition.
Theorem C10_partition_uniform : forall n k min, is_i64 n -> is_i64 k -> is_i64 min ->
  0 < n -> 0 < k -> min * k <= n -> is_i64 (n - (min - 1) * k) ->
  forall t, Z.of_nat (length t) = k -> zsum t = n -> Forall (fun v => min <= v) t ->
  (Pr (partition n k min) (listIs t) ==
   inject_Z (zfact (Z.to_nat (k - 1))) * inject_Z (zfact (Z.to_nat (n - (min - 1) * k - k)))
     / inject_Z (zfact (Z.to_nat (n - (min - 1) * k - 1))))%Q.
Proof. exact partition_uniform. Qed.
Print Assumptions C10_partition_uniform.
Theorem C10_partition_throws : forall n k min, is_i64 n -> is_i64 k -> is_i64 min ->
  n <= 0 \/ k <= 0 \/ 0 < min /\ n < min * k -> partition n k min = RRet Throw.
Proof. exact partition_throws. Qed.
Print Assumptions C10_partition_throws.
Example C10_ex : Qeq (Pr (partition 5 3 0) (listIs [0; 4; 1])) (1 # 21) /\
  Qeq (Pr (partition 8 3 2) (listIs [2; 3; 3])) (1 # 6).
Proof. vm_compute. split; reflexivity. Qed.
Theorem C10_partition_overflow_refuted : exists n k min,
  is_i64 n /\ is_i64 k /\ is_i64 min /\ 0 < n /\ 0 < k /\ min * k <= n /\ partition n k min = RRet UB.
Proof. exact partition_overflow. Qed.
Print Assumptions C10_partition_overflow_refuted.

(* ---- C11 ---- *)
Theorem C11_bracketSequence : forall n, 0 <= n <= 2147483647 ->
  always (bracketSequence n) (returns (fun w => Z.of_nat (length w) = 2 * n /\ balancedWord w)).
Proof. exact bracketSequence_always_word. Qed.
Print Assumptions C11_bracketSequence.
(* 1 / Catalan(n) *)
Theorem C11_bracketSequence_uniform : forall n w, 0 <= n <= 2147483647 ->
  Z.of_nat (length w) = 2 * n -> balancedWord w ->
  (Pr (bracketSequence n) (resultIs (list_eq_dec Bool.bool_dec) w) ==
   inject_Z (zfact (Z.to_nat n)) * inject_Z (zfact (Z.to_nat (n + 1))) / inject_Z (zfact (Z.to_nat (2 * n))))%Q.
Proof. exact bracketSequence_uniform_word. Qed.
Print Assumptions C11_bracketSequence_uniform.
Theorem C11_bracketSequence_throws : forall n, ~ 0 <= n <= 2147483647 ->
  bracketSequence n = RRet Throw.
Proof. exact bracketSequence_throws. Qed.
Print Assumptions C11_bracketSequence_throws.
Example C11_ex : Qeq (Pr (bracketSequence 2) (resultIs (list_eq_dec Bool.bool_dec)
  [true; true; false; false])) (1 # 2) /\
  play (bracketSequence 3) [0; 9; 0; 0; 3; 1] = Ok [true; false; true; true; false; false].
Proof. vm_compute. split; reflexivity. Qed.

(* ---- C17 ---- *)
Theorem C17_prime_range : forall lower upper, is_i64 lower -> is_i64 upper ->
  is_i64 (4 * (upper - lower)) -> upper <> 2 ->
  always (randomPrime lower upper)
    (fun o => o = Throw \/ exists v, o = Ok v /\ lower <= v < upper /\ isPrime v = Ok true).
Proof. exact randomPrime_always. Qed.
Print Assumptions C17_prime_range.
Theorem C17_prime_complete : forall lower upper p, is_i64 lower -> is_i64 upper ->
  is_i64 (4 * (upper - lower)) -> prime p -> lower <= p < upper ->
  can (randomPrime lower upper) (Ok p).
Proof. exact randomPrime_complete. Qed.
Print Assumptions C17_prime_complete.
Example C17_ex : play (randomPrime 3 30) [4; 9] = Ok 19 /\ play (randomPrime 0 3) [0] = Ok 2.
Proof. vm_compute. split; reflexivity. Qed.
Theorem C17_prime_upper_two_refuted : exists lower upper v,
  lower < upper /\ can (randomPrime lower upper) (Ok v) /\ ~ lower <= v < upper.
Proof. exact prime_upper_two. Qed.
Print Assumptions C17_prime_upper_two_refuted.
Theorem C17_prime_overflow_refuted : exists lower upper,
  is_i64 lower /\ is_i64 upper /\ lower < upper /\ can (randomPrime lower upper) UB.
Proof. exact prime_overflow. Qed.
Print Assumptions C17_prime_overflow_refuted.

(* ---- C23 ---- *)
Theorem C23_discrete : forall ws i, Forall (fun w => 0 <= w) ws -> 0 < zsum ws ->
  (i < length ws)%nat ->
  (Pr (discrete ws) (resultIs Z.eq_dec (Z.of_nat i)) ==
   inject_Z (nth i ws 0%Z) / inject_Z (zsum ws))%Q.
Proof. exact discrete_prob. Qed.
Print Assumptions C23_discrete.
Theorem C23_discrete_range : forall ws, Forall (fun w => 0 <= w) ws -> 0 < zsum ws ->
  always (discrete ws) (returns (fun i => 0 <= i < alen ws /\ 0 < nth (Z.to_nat i) ws 0)).
Proof. exact discrete_always. Qed.
Print Assumptions C23_discrete_range.
Example C23_ex : Qeq (Pr (discrete [0; 3; 0; 2; 0]) (resultIs Z.eq_dec 3)) (2 # 5).
Proof. vm_compute. reflexivity. Qed.

(* ---- C50: random strings ---- *)
Theorem C50_string : forall A n (a : list A), 0 <= n <= 4294967295 -> a <> [] ->
  always (rstring n a) (returns (fun s => Z.of_nat (length s) = n /\ Forall (fun c => In c a) s)).
Proof. exact rstring_always. Qed.
Print Assumptions C50_string.
Theorem C50_string_uniform : forall A (dec : forall x y : A, {x = y} + {x <> y}) n (a s : list A),
  0 <= n <= 4294967295 -> a <> [] -> NoDup a -> Z.of_nat (length s) = n -> Forall (fun c => In c a) s ->
  (Pr (rstring n a) (resultIs (list_eq_dec dec) s) == 1 / inject_Z (Z.of_nat (length a) ^ n))%Q.
Proof. exact rstring_uniform. Qed.
Print Assumptions C50_string_uniform.
Example C50_ex : Qeq (Pr (rstring 2 [97; 98; 99]) (listIs [99; 97])) (1 # 9).
Proof. vm_compute. reflexivity. Qed.
