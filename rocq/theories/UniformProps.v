(* Uniformity of generators that post-process a shuffle or a draw. *)
From Verif Require Import Base RndModel RandSpec RandSeqModel GenModel GenSpec GenOpsModel UniformProofs UniformProofs2 UniformProofs3 UniformProofs4.
From Coq Require Import ZArith List QArith Permutation Sorted Znumtheory.
Import ListNotations.
Open Scope Z_scope.

Definition returnsPerm (sigma : list Z) : outcome (list Z) -> bool := resultIs (list_eq_dec Z.eq_dec) sigma.

(* all permutations with the requested cycle lengths are equally likely *)
Theorem C07_perm_cycles_equiprobable : forall cycles offset sigma tau, Forall (fun c => 0 < c) cycles ->
  is_i64 offset -> is_i64 (zsum cycles) -> is_i64 (offset + zsum cycles) ->
  Z.of_nat (length sigma) = zsum cycles -> Z.of_nat (length tau) = zsum cycles ->
  hasCycles sigma offset cycles -> hasCycles tau offset cycles ->
  (Pr (permCycles cycles offset) (returnsPerm sigma) == Pr (permCycles cycles offset) (returnsPerm tau))%Q.
Proof. exact permCycles_equal. Qed.
Print Assumptions C07_perm_cycles_equiprobable.
Example C07_ex_equiprobable :
  Qeq (Pr (permCycles [2; 2] 10) (returnsPerm [11; 10; 13; 12])) (1 # 3) /\
  Qeq (Pr (permCycles [2; 2] 10) (returnsPerm [13; 12; 11; 10])) (1 # 3) /\
  Qeq (Pr (permCycles [3; 1] 0) (returnsPerm [2; 1; 3; 0])) (1 # 8).
Proof. vm_compute. repeat split; reflexivity. Qed.
Example C07_ex_hasCycles : hasCycles [13; 12; 11; 10] 10 [2; 2].
Proof.
  exists [[0; 3]; [1; 2]]. split; [reflexivity |]. split.
  - cbn. apply perm_skip. apply (Permutation_trans (l' := [1; 3; 2])); [apply perm_swap |]. apply perm_skip. apply perm_swap.
  - repeat constructor; intros [| [| j]] Hj; try reflexivity; cbn in Hj; exfalso; inversion Hj as [| ? H]; inversion H as [| ? H']; inversion H'.
Qed.

(* each permutation that keeps the fixed points has probability 1 / (count - |fixed|)! *)
Theorem C08_perm_fix_uniform : forall count fixed offset sigma, 0 <= count -> is_i64 offset -> is_i64 count ->
  is_i64 (offset + count) -> NoDup fixed -> Forall (fun x => offset <= x < offset + count) fixed ->
  Permutation (zseq offset (Z.to_nat count)) sigma -> (forall x, In x fixed -> getz sigma (x - offset) = x) ->
  (Pr (permFix count fixed offset) (returnsPerm sigma) == 1 / inject_Z (zfact (Z.to_nat count - length fixed)))%Q.
Proof. exact permFix_uniform. Qed.
Print Assumptions C08_perm_fix_uniform.
Example C08_ex_uniform : Qeq (Pr (permFix 5 [11; 13] 10) (returnsPerm [14; 11; 10; 13; 12])) (1 # 6) /\
  Qeq (Pr (permFix 5 [11; 13] 10) (returnsPerm [10; 11; 12; 13; 14])) (1 # 6).
Proof. vm_compute. split; reflexivity. Qed.

(* no prime of the range is preferred *)
Theorem C17_prime_equiprobable : forall lower upper p q, is_i64 lower -> is_i64 upper ->
  is_i64 (4 * (upper - lower)) -> prime p -> lower <= p < upper -> prime q -> lower <= q < upper ->
  (Pr (randomPrime lower upper) (resultIs Z.eq_dec p) == Pr (randomPrime lower upper) (resultIs Z.eq_dec q))%Q.
Proof. exact randomPrime_equal. Qed.
Print Assumptions C17_prime_equiprobable.
(* below 8 the samples are 2, 3, 5 and 7 *)
Example C17_ex_equiprobable : Qeq (Pr (randomPrime 0 4) (resultIs Z.eq_dec 2)) (1 # 2) /\
  Qeq (Pr (randomPrime 0 8) (resultIs Z.eq_dec 7)) (1 # 4).
Proof. vm_compute. split; reflexivity. Qed.

(* each set of m edges is chosen with probability m! (e - m)! / e! *)
Theorem C59_subgraph_uniform : forall E dir (g : graph E) M lo hi m S ev, represents dir g lo hi M -> is_i64 (edgeCount g) ->
  NoDup S -> incl S (getEdges g) -> alen S = m -> m < edgeCount g ->
  (forall o, ev o = true <-> exists g', o = Ok g' /\ Permutation (getEdges g') S) ->
  (Pr (subgraph dir g m) ev ==
   inject_Z (zfact (Z.to_nat m)) * inject_Z (zfact (Z.to_nat (edgeCount g - m))) / inject_Z (zfact (Z.to_nat (edgeCount g))))%Q.
Proof. exact subgraph_uniform. Qed.
Print Assumptions C59_subgraph_uniform.
Example C59_ex_subgraph_uniform :
  match (let! g := newGraph 0 3 in addEdges true g [(0, 1, 7); (1, 0, 8); (2, 1, 9)]) with
  | Ok g => Qeq (Pr (subgraph true g 2)
      (fun o => match o with
                | Ok h => match getEdges h with
                          | [(a, b, _); (c, d, _)] => ((a =? 0) && (b =? 1) && (c =? 2) && (d =? 1)) || ((a =? 2) && (b =? 1) && (c =? 0) && (d =? 1))
                          | _ => false end
                | _ => false end)) (1 # 3)
  | _ => False
  end.
Proof. vm_compute. reflexivity. Qed.

(* permutate: labelled graphs that are copies of each other are equally likely results *)
Theorem C59_permutate_uniform : forall E dir (g : graph E) M lo hi M1 M2 q rho (ev1 ev2 : outcome (graph E) -> bool),
  represents dir g lo hi M -> is_i64 lo -> is_i64 hi -> hi - lo <= I64_MAX ->
  (forall u, lo <= u < hi -> lo <= q u < hi /\ rho (q u) = u) -> (forall u, lo <= u < hi -> lo <= rho u < hi /\ q (rho u) = u) ->
  (forall u v, lo <= u < hi -> lo <= v < hi -> M2 (q u) (q v) = M1 u v) ->
  (forall o, ev1 o = true <-> exists g' M', o = Ok g' /\ represents dir g' lo hi M' /\
     forall u v, lo <= u < hi -> lo <= v < hi -> M' u v = M1 u v) ->
  (forall o, ev2 o = true <-> exists g' M', o = Ok g' /\ represents dir g' lo hi M' /\
     forall u v, lo <= u < hi -> lo <= v < hi -> M' u v = M2 u v) ->
  (Pr (permutate dir g) ev1 == Pr (permutate dir g) ev2)%Q.
Proof. exact permutate_equal. Qed.
Print Assumptions C59_permutate_uniform.
Example C59_ex_permutate_uniform :
  match (let! g := newGraph 0 3 in addEdges true g [(0, 1, tt)]) with
  | Ok g =>
      let has a b := Pr (permutate true g) (fun o => match o with Ok h => match hasEdge h a b with Ok x => x | _ => false end | _ => false end) in
      Qeq (has 2 0) (1 # 6) /\ Qeq (has 0 1) (1 # 6) /\ Qeq (has 1 2) (1 # 6)
  | _ => False
  end.
Proof. vm_compute. repeat split; reflexivity. Qed.

(* the sorted sequences with repetition: a result is as likely as it has arrangements, where ts lists
   every arrangement of s once *)
Theorem C09_nonDecreasing_distribution : forall count lower upper s ts, 0 <= count -> lower < upper ->
  Z.of_nat (length s) = count -> StronglySorted Z.le s -> Forall (fun x => lower <= x < upper) s ->
  NoDup ts -> (forall t, In t ts <-> Permutation s t) ->
  (Pr (nonDecreasing count lower upper) (returnsPerm s) ==
   inject_Z (Z.of_nat (length ts)) / inject_Z ((upper - lower) ^ count))%Q.
Proof. exact arrangements_law. Qed.
Print Assumptions C09_nonDecreasing_distribution.
Theorem C09_nonIncreasing_distribution : forall count lower upper s ts, 0 <= count -> lower < upper ->
  Z.of_nat (length s) = count -> StronglySorted Z.ge s -> Forall (fun x => lower <= x < upper) s ->
  NoDup ts -> (forall t, In t ts <-> Permutation s t) ->
  (Pr (nonIncreasing count lower upper) (returnsPerm s) ==
   inject_Z (Z.of_nat (length ts)) / inject_Z ((upper - lower) ^ count))%Q.
Proof. exact arrangements_law_rev. Qed.
Print Assumptions C09_nonIncreasing_distribution.
Example C09_ex_distribution :
  Qeq (Pr (nonDecreasing 3 5 7) (returnsPerm [5; 6; 6])) (3 # 8) /\
  Qeq (Pr (nonIncreasing 3 5 7) (returnsPerm [6; 6; 5])) (3 # 8).
Proof. vm_compute. split; reflexivity. Qed.
(* so the results are not equally likely, which doc/validate.md 466-467 says they are *)
Theorem C09_weakly_sorted_uniform_refuted : exists count lower upper s t,
  Z.of_nat (length s) = count /\ StronglySorted Z.le s /\ Forall (fun x => lower <= x < upper) s /\
  Z.of_nat (length t) = count /\ StronglySorted Z.le t /\ Forall (fun x => lower <= x < upper) t /\
  ~ (Pr (nonDecreasing count lower upper) (returnsPerm s) == Pr (nonDecreasing count lower upper) (returnsPerm t))%Q.
Proof. exact not_equally_likely. Qed.
Print Assumptions C09_weakly_sorted_uniform_refuted.
