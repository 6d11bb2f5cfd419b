(* C92: the random functions on the words of the engine *)
From Coq Require Import String QArith Permutation Sorted List.
From Verif Require Import Base Tac RndModel RandSpec RandSeqModel BracketProofs PartitionProofs DistinctProofs CollModel ConvexModel ConvexSpec DegModel EngineModel EngineSpec EngineProofs EngineFitProofs EngineFitProofs2.
From Verif Require Import GenModel GenSpec GenOpsModel GraphSpec GenMakeModel GenMakeSpec GenRandSpec GenRandProofs2 GenTreeSpec GenTreeProofs3 ArgsModel InitModel InitSpec GenExModel GenExSpec GenExProofs ArrangeProofs2 EngineFitLaws.
From Verif Require Import RandSeqModel FloatModel FloatSpec RealModel RealSpec RealProofs2.
Open Scope Z_scope.

(* ---- the bounds of all draws fit, so C92_support to C92_ends hold of these functions ---- *)
Theorem C92_sequences_fit :
  (forall A (l : list A), Z.of_nat (length l) < two63 -> drawsFit (select l)) /\
  (forall A (l : list A), Z.of_nat (length l) < two63 -> drawsFit (rotate l)) /\
  (forall count lo hi, is_i64 lo -> drawsFit (distinct count lo hi)) /\
  (forall count offset, is_i64 count -> drawsFit (perm count offset)) /\
  (forall cycles offset, drawsFit (permCycles cycles offset)) /\
  (forall count fixed offset, is_i64 count -> drawsFit (permFix count fixed offset)) /\
  (forall count lo hi, is_i64 lo -> is_i64 hi -> drawsFit (multiple count lo hi)) /\
  (forall count lo hi, is_i64 lo -> drawsFit (increasing count lo hi)) /\
  (forall count lo hi, is_i64 lo -> drawsFit (decreasing count lo hi)) /\
  (forall count lo hi, is_i64 lo -> is_i64 hi -> drawsFit (nonDecreasing count lo hi)) /\
  (forall count lo hi, is_i64 lo -> is_i64 hi -> drawsFit (nonIncreasing count lo hi)) /\
  (forall n k min, drawsFit (partition n k min)) /\
  (forall A n (alphabet : list A), Z.of_nat (length alphabet) < two63 -> drawsFit (rstring n alphabet)) /\
  (forall n, drawsFit (bracketSequence n)) /\
  (forall lo hi, is_i64 lo -> is_i64 hi -> drawsFit (randomPrime lo hi)) /\
  (forall ws, is_i64 (last (prefixSum ws 0) 0) -> drawsFit (discrete ws)).
Proof. exact sequences_fit. Qed.
Print Assumptions C92_sequences_fit.
Theorem C92_reals_fit : forall sqrt sin cos log log1p log2 exp2 lgamma lgammaZ unspecified fuel fuel',
  drawsFit (randomReal fuel) /\ (forall u, drawsFit (realBelow fuel u)) /\ (forall l u, drawsFit (realIn fuel l u)) /\
  (forall mean stddev, drawsFit (normal sqrt cos log fuel mean stddev)) /\
  (forall l u mean stddev, drawsFit (normalIn sqrt sin cos log fuel fuel' l u mean stddev)) /\
  (forall lambda, drawsFit (exponential log fuel lambda)) /\
  (forall l u lambda, drawsFit (exponentialIn log fuel fuel' l u lambda)) /\
  (forall p, drawsFit (geometric log log1p unspecified fuel p)) /\
  (forall l u p, drawsFit (geometricIn log log1p unspecified fuel fuel' l u p)) /\
  (forall n p, drawsFit (binomial sqrt log log1p lgamma lgammaZ unspecified fuel fuel' n p)) /\
  (forall l u n p, drawsFit (binomialIn sqrt log log1p lgamma lgammaZ unspecified fuel fuel' l u n p)) /\
  (forall l u n, is_i64 l -> is_i64 u -> drawsFit (maximum log2 exp2 fuel l u n)) /\
  (forall l u n, drawsFit (minimum log2 exp2 fuel l u n)) /\
  (forall l u n, is_i64 l -> is_i64 u -> drawsFit (minmax log2 exp2 fuel l u n)).
Proof. exact reals_fit. Qed.
Print Assumptions C92_reals_fit.
Theorem C92_points_fit :
  (forall fuel n dim, drawsFit (nonCollinearPoints fuel n dim)) /\
  (forall srt prt binom fuel n dim, partitions prt -> (forall m, drawsFit (binom m)) -> is_i64 n ->
    drawsFit (randomConvex srt prt binom fuel n dim)).
Proof. exact (conj fit_noncollinear fit_convex). Qed.
Print Assumptions C92_points_fit.
Theorem C92_graphs_fit : forall E (d : E) dir,
  (forall n m, drawsFit (randomGraph d dir n m)) /\
  (forall sqrt log log1p lgamma lgammaZ unspecified fuel fuel' n p,
    drawsFit (randomGraphP sqrt log log1p lgamma lgammaZ unspecified E d dir fuel fuel' n p)) /\
  (forall fuel n p, drawsFit (randomGrowingGraph E d fuel n p)) /\
  (forall n m k, drawsFit (randomBipartite d dir n m k)) /\
  (forall n, is_i64 n -> drawsFit (randomTree d n)) /\
  (forall n, is_i64 n -> drawsFit (randomTreeDir d n)) /\
  (forall degrees flips, alen degrees <= 2 ^ 31 -> drawsFit (randomGraphDeg d degrees flips)) /\
  (forall g : graph E, nodeCount g < two63 -> edgeCount g < two63 -> drawsFit (permutate dir g)) /\
  (forall (g : graph E) p, edgeCount g < two63 -> drawsFit (permutateWith dir g p)) /\
  (forall g : graph E, edgeCount g < two63 -> drawsFit (permutateEdges dir g)) /\
  (forall (g : graph E) m, drawsFit (subgraph dir g m)).
Proof. exact graphs_fit. Qed.
Print Assumptions C92_graphs_fit.
Theorem C92_examples_fit : forall parse args, drawsFit (numbersMain parse args) /\ drawsFit (dagMain parse args).
Proof. exact (fun parse args => conj (fit_numbers parse args) (fit_dag parse args)). Qed.
Print Assumptions C92_examples_fit.

(* ---- their laws on words ---- *)
Theorem C92_distinct : forall count lower upper, is_i64 lower -> is_i64 upper -> 0 <= count -> lower + count <= upper ->
  forall t, Z.of_nat (length t) = count -> NoDup t -> Forall (fun x => lower <= x < upper) t ->
  sharesTo (fun bits => runOn bits (distinct count lower upper)) (resultIs (list_eq_dec Z.eq_dec) t)
    (inject_Z (zfact (Z.to_nat (upper - lower - count))) / inject_Z (zfact (Z.to_nat (upper - lower)))).
Proof. exact distinct_words. Qed.
Print Assumptions C92_distinct.
Theorem C92_partition : forall n k min, is_i64 n -> is_i64 k -> is_i64 min ->
  0 < n -> 0 < k -> min * k <= n -> is_i64 (n - (min - 1) * k) ->
  forall t, Z.of_nat (length t) = k -> zsum t = n -> Forall (fun v => min <= v) t ->
  sharesTo (fun bits => runOn bits (partition n k min)) (resultIs (list_eq_dec Z.eq_dec) t)
    (inject_Z (zfact (Z.to_nat (k - 1))) * inject_Z (zfact (Z.to_nat (n - (min - 1) * k - k)))
     / inject_Z (zfact (Z.to_nat (n - (min - 1) * k - 1)))).
Proof. exact partition_words. Qed.
Print Assumptions C92_partition.
Theorem C92_bracketSequence : forall n w, 0 <= n <= 2147483647 -> Z.of_nat (length w) = 2 * n -> balancedWord w ->
  sharesTo (fun bits => runOn bits (bracketSequence n)) (resultIs (list_eq_dec Bool.bool_dec) w)
    (inject_Z (zfact (Z.to_nat n)) * inject_Z (zfact (Z.to_nat (n + 1))) / inject_Z (zfact (Z.to_nat (2 * n)))).
Proof. exact bracket_words. Qed.
Print Assumptions C92_bracketSequence.
Theorem C92_real : forall fuel k M, 0 <= k <= 1021 -> k < 64 * Z.of_nat fuel -> 2 ^ 52 < M <= 2 ^ 53 ->
  sharesTo (fun bits => runOn bits (randomReal fuel)) (atLeast (inject_Z M * two (-53 - k)))
    (1 - inject_Z M * two (-53 - k) + two (-54 - k) - (if Z.odd M then two (-64 - k) else 0)).
Proof. exact real_words. Qed.
Print Assumptions C92_real.
Theorem C92_randomTree : forall E (dflt : E) n P, 2 <= n -> is_i64 n -> isTree n P ->
  sharesTo (fun bits => runOn bits (randomTree dflt n)) (graphIs (allPairs false n) P) (1 / inject_Z (n ^ (n - 2))).
Proof. exact tree_words. Qed.
Print Assumptions C92_randomTree.
Theorem C92_randomGraph : forall E (dir : bool) (dflt : E) n m, 0 <= n -> is_i64 (n * (n - 1)) ->
  forall P, countPairs P (allPairs dir n) = m ->
  let lim := if dir then n * (n - 1) else n * (n - 1) / 2 in 0 <= m <= lim ->
  sharesTo (fun bits => runOn bits (randomGraph dflt dir n m)) (graphIs (allPairs dir n) P)
    (inject_Z (zfact (Z.to_nat m)) * inject_Z (zfact (Z.to_nat (lim - m))) / inject_Z (zfact (Z.to_nat lim))).
Proof. exact graph_words. Qed.
Print Assumptions C92_randomGraph.
(* generator.cpp: started with --n n it prints each sequence of n distinct digits for a share of (10 - n)! / 10! *)
Theorem C92_numbers : forall parse args n xs, ready parse args start -> argumentN args n -> 0 <= n <= 10 -> digits n xs ->
  sharesTo (fun bits => runOn bits (numbersMain parse args)) (resultIs (list_eq_dec Z.eq_dec) (numbersText xs))
    (inject_Z (zfact (Z.to_nat (10 - n))) / inject_Z (zfact 10)).
Proof. exact numbers_words. Qed.
Print Assumptions C92_numbers.
(* generator.graph.cpp: whatever the words are it prints an acyclic orientation, and every one is printed for some words *)
Theorem C92_dag : forall parse args, ready parse args start ->
  (forall bits ws o rest, Forall is_u64 ws -> runOn bits (dagMain parse args) ws = Some (o, rest) ->
    exists es, dagOf 1 blueprint es 19 /\ o = Ok (graphText 19 es)) /\
  (forall bits es, dagOf 1 blueprint es 19 -> exists ws, Forall is_u64 ws /\
    runOn bits (dagMain parse args) ws = Some (Ok (graphText 19 es), [])).
Proof. exact dag_words. Qed.
Print Assumptions C92_dag.

Definition quiet : list Z -> option real := fun _ => None.
Definition call (n : string) : list (list Z) := [text "./generator"; text "--seed"; text "5"; text "--n"; text n].
Example C92_ex_numbers : runOn (fun _ => true) (numbersMain quiet (call "3")) [7 * 2 ^ 61; 2 ^ 64 - 1; 7 * 2 ^ 61; 5; 9] = Some (Ok (numbersText [8; 9; 7]), [5; 9]) /\
  digits 3 [8; 9; 7] /\ exists n, ready quiet (call "3") start /\ argumentN (call "3") n /\ 0 <= n <= 10.
Proof.
  split; [vm_compute; reflexivity|]. split.
  - split; [reflexivity|]. split; [repeat constructor; cbn; intuition discriminate|]. repeat (apply Forall_cons; [lia|]); apply Forall_nil.
  - destruct (numbers_cases quiet (call "3")) as [(n & R & A & B & _)|[_ T]]; [exists n; auto|].
    apply (f_equal (fun m => match m with RRet _ => true | _ => false end)) in T. vm_compute in T. discriminate T.
Qed.
Example C92_ex_words :
  runOn (fun _ => true) (partition 7 3 2) [2 ^ 63; 2 ^ 62; 5] = Some (Ok [2; 2; 3], [5]) /\
  runOn (fun _ => true) (bracketSequence 2) [2 ^ 63; 2 ^ 63; 5; 5; 5] = Some (Ok [true; true; false; false], []) /\
  runOn (fun _ => true) (randomReal 2) [0; 8; 3] = Some (Ok (S754_finite false (2 ^ 63) (-67)), [3]) /\
  match runOn (fun _ => true) (randomTree tt 4) [0; 2 ^ 63; 3] with
  | Some (Ok g, ws) => getEdges g = [(0, 1, tt); (2, 0, tt); (2, 3, tt)] /\ ws = [3]
  | _ => False
  end.
Proof. vm_compute. repeat split; reflexivity. Qed.
Example C92_ex_hypotheses : is_i64 0 /\ is_i64 10 /\ 0 + 3 <= 10 /\ Forall (fun x => 0 <= x < 10) [8; 9; 7] /\
  (is_i64 (7 - (2 - 1) * 3) /\ 2 * 3 <= 7 /\ zsum [2; 2; 3] = 7) /\ balancedWord [true; true; false; false] /\
  (0 <= 3 <= 1021 /\ 3 < 64 * Z.of_nat 2 /\ 2 ^ 52 < 2 ^ 52 + 1 <= 2 ^ 53) /\ alen [3; 2; 2; 1] <= 2 ^ 31 /\
  is_i64 (last (prefixSum [1; 2; 4] 0) 0) /\ countPairs (fun u v => (u =? 0) || (v =? 0)) (allPairs false 4) = 3.
Proof.
  split; [mach; lia|]. split; [mach; lia|]. split; [lia|]. split; [repeat (apply Forall_cons; [lia|]); apply Forall_nil|].
  split; [split; [mach; lia|split; [lia|reflexivity]]|]. split.
  - split; [reflexivity|]. intros [|[|[|[|[|k]]]]]; vm_compute; discriminate.
  - split; [lia|]. split; [unfold alen; cbn; lia|]. split; [vm_compute; split; discriminate|reflexivity].
Qed.
