(* C97: archive/javaSortHack.cpp. *)
From Verif Require Import Base RndModel RandSpec HackModel HackSpec HackProofs HackProofs4 HackProofs7.
From Coq Require Import ZArith QArith List Permutation.
Import ListNotations.
Open Scope Z_scope.

(* The values mi..mi+n without one of them, each once; -1 must not be among them *)
Theorem C97_values : forall fuel n mi, 0 <= n < Z.of_nat fuel -> is_i64 mi -> is_i64 (mi + n) -> ~ (mi <= -1 <= mi + n) ->
  always (HackedSort fuel n mi) (returns (fun l => NoDup l /\ forall x, In x l <-> mi <= x <= mi + n /\ x <> mi + n - 2 * Z.max 0 ((n - 43) / 4))).
Proof. exact hack_values. Qed.
Print Assumptions C97_values.
Example C97_ex_values : 0 <= 100 < Z.of_nat 101 /\ is_i64 1 /\ is_i64 101 /\ ~ (1 <= -1 <= 101) /\ 1 + 100 - 2 * Z.max 0 ((100 - 43) / 4) = 73.
Proof. vm_compute. intuition discriminate. Qed.
(* Below 47 values: a permutation of mi..mi+n-1, and each with the same probability *)
Theorem C97_below : forall fuel n mi, 0 <= n < 47 -> is_i64 mi -> is_i64 (mi + n) ->
  always (HackedSort (S fuel) n mi) (returns (Permutation (zseq mi (Z.to_nat n)))).
Proof. exact below_perm. Qed.
Print Assumptions C97_below.
Theorem C97_uniform : forall fuel n mi q, 0 <= n < 47 -> is_i64 mi -> is_i64 (mi + n) -> Permutation (zseq mi (Z.to_nat n)) q ->
  (Pr (HackedSort (S fuel) n mi) (resultIs (list_eq_dec Z.eq_dec) q) == 1 / inject_Z (zfact (Z.to_nat n)))%Q.
Proof. exact below_uniform. Qed.
Print Assumptions C97_uniform.
Example C97_ex_uniform : (Pr (HackedSort 1 3 (-1)) (resultIs (list_eq_dec Z.eq_dec) [1; -1; 0]%Z) == 1 # 6)%Q /\ Permutation (zseq (-1) 3) [1; -1; 0].
Proof. split; [vm_compute; reflexivity|]. apply (Permutation_trans (l' := [-1; 1; 0])); [apply perm_skip, perm_swap|apply perm_swap]. Qed.
(* From 47 values on it never gives the permutation that line 1 promises: mi + n is a value *)
Theorem C97_permutation_refuted : forall fuel n mi, 47 <= n < Z.of_nat fuel -> is_i64 mi -> is_i64 (mi + n) -> ~ (mi <= -1 <= mi + n) ->
  always (HackedSort fuel n mi) (returns (fun l => ~ Permutation (zseq mi (Z.to_nat n)) l)).
Proof. exact above_not. Qed.
Print Assumptions C97_permutation_refuted.
(* With -1 among the values they need not be different *)
Theorem C97_distinct_refuted : exists fuel n mi l, 47 <= n < Z.of_nat fuel /\ can (HackedSort fuel n mi) (Ok l) /\ alen l = n /\ count_occ Z.eq_dec l (-1) = 44%nat.
Proof. exact repeats. Qed.
Print Assumptions C97_distinct_refuted.
(* A negative number of values is not accepted *)
Theorem C97_negative : forall fuel n mi, n < 0 -> always (HackedSort fuel n mi) (fun o => o = Throw).
Proof. exact hack_throws. Qed.
Print Assumptions C97_negative.

(* Quadratic time: sorted with the same partition step, the result takes (n - 43) / 4 nested steps, each
   of which leaves all but four values in the middle part. p, a and b do not matter. *)
Theorem C97_quadratic : forall fuel n mi, 0 <= n < Z.of_nat fuel -> is_i64 mi -> is_i64 (mi + n) -> ~ (mi <= -1 <= mi + n) ->
  always (HackedSort fuel n mi) (returns (fun l => forall fu p a b, n <= Z.of_nat fu -> alen p = n ->
    peels fu (Z.to_nat ((n - 43) / 4)) 0 (n - 1) (mkHacked l p a b))).
Proof. exact hack_peels. Qed.
Print Assumptions C97_quadratic.
(* two steps for 51 values; the same values in order are split into three large parts *)
Example C97_ex_quadratic : (51 - 43) / 4 = 2 /\
  match lowest (HackedSort 52 51 1) with
  | Ok l => match dualPivot 51 0 50 (mkHacked l l 0 0) with
    | Ok (s, less, great, _, _) => less = 2 /\ great = 48 /\ match dualPivot 51 2 48 s with Ok (_, less, great, _, _) => less = 4 /\ great = 46 | _ => False end
    | _ => False end
  | _ => False end /\
  match dualPivot 51 0 50 (mkHacked (zseq 1 51) (zseq 1 51) 0 0) with Ok (_, less, great, _, _) => less = 19 /\ great = 31 | _ => False end.
Proof. vm_compute. repeat split. Qed.
