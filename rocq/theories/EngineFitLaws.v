From Coq Require Import QArith Permutation Sorted.
From Verif Require Import Base Tac RndModel RndLemmas RandSpec RandSeqModel BracketProofs PartitionProofs DistinctProofs EngineModel EngineSpec EngineProofs EngineFitProofs EngineFitProofs2.
From Verif Require Import GenModel GenSpec GenOpsModel GraphSpec GenMakeModel GenMakeSpec GenRandSpec GenRandProofs2 GenTreeSpec GenTreeProofs3 DegModel ArgsModel InitModel InitSpec InitProofs GenExModel GenExSpec GenExProofs ArrangeProofs2.
From Verif Require Import FloatModel FloatSpec RealModel RealSpec RealProofs2.
Open Scope Z_scope.

Lemma sequences_fit :
  (forall A (l : list A), Z.of_nat (length l) < two63 -> drawsFit (select l)) /\
  (forall A (l : list A), Z.of_nat (length l) < two63 -> drawsFit (rotate l)) /\
  (forall count lo hi, is_i64 lo -> drawsFit (distinct count lo hi)) /\
  (forall count offset, is_i64 count -> drawsFit (perm count offset)) /\
  (forall cycles offset, drawsFit (permCycles cycles offset)) /\
  (forall count fixed offset, is_i64 count -> drawsFit (permFix count fixed offset)) /\
  (forall count lo hi, is_i64 lo -> is_i64 hi -> drawsFit (multiple count lo hi)) /\
  (forall count lo hi, is_i64 lo -> drawsFit (increasing count lo hi)) /\
  (forall count lo hi, is_i64 lo -> drawsFit (decreasing count lo hi)) /\
  (forall count lo hi, is_i64 lo -> is_i64 hi -> drawsFit (nonDecreasing count lo hi)) /\
  (forall count lo hi, is_i64 lo -> is_i64 hi -> drawsFit (nonIncreasing count lo hi)) /\
  (forall n k min, drawsFit (partition n k min)) /\
  (forall A n (alphabet : list A), Z.of_nat (length alphabet) < two63 -> drawsFit (rstring n alphabet)) /\
  (forall n, drawsFit (bracketSequence n)) /\
  (forall lo hi, is_i64 lo -> is_i64 hi -> drawsFit (randomPrime lo hi)) /\
  (forall ws, is_i64 (last (prefixSum ws 0) 0) -> drawsFit (discrete ws)).
Proof.
  exact (conj fit_select (conj fit_rotate (conj fit_distinct (conj fit_perm (conj fit_permCycles (conj fit_permFix
    (conj fit_multiple (conj fit_increasing (conj fit_decreasing (conj fit_nonDecreasing (conj fit_nonIncreasing
    (conj fit_partition (conj fit_rstring (conj fit_bracket (conj fit_prime fit_discrete))))))))))))))).
Qed.
Lemma reals_fit : forall sqrt sin cos log log1p log2 exp2 lgamma lgammaZ unspecified fuel fuel',
  drawsFit (randomReal fuel) /\ (forall u, drawsFit (realBelow fuel u)) /\ (forall l u, drawsFit (realIn fuel l u)) /\
  (forall mean stddev, drawsFit (normal sqrt cos log fuel mean stddev)) /\
  (forall l u mean stddev, drawsFit (normalIn sqrt sin cos log fuel fuel' l u mean stddev)) /\
  (forall lambda, drawsFit (exponential log fuel lambda)) /\
  (forall l u lambda, drawsFit (exponentialIn log fuel fuel' l u lambda)) /\
  (forall p, drawsFit (geometric log log1p unspecified fuel p)) /\
  (forall l u p, drawsFit (geometricIn log log1p unspecified fuel fuel' l u p)) /\
  (forall n p, drawsFit (binomial sqrt log log1p lgamma lgammaZ unspecified fuel fuel' n p)) /\
  (forall l u n p, drawsFit (binomialIn sqrt log log1p lgamma lgammaZ unspecified fuel fuel' l u n p)) /\
  (forall l u n, is_i64 l -> is_i64 u -> drawsFit (maximum log2 exp2 fuel l u n)) /\
  (forall l u n, drawsFit (minimum log2 exp2 fuel l u n)) /\
  (forall l u n, is_i64 l -> is_i64 u -> drawsFit (minmax log2 exp2 fuel l u n)).
Proof.
  intros sqrt sin cos log log1p log2 exp2 lgamma lgammaZ unspecified fuel fuel'.
  split; [apply fit_real|]. split; [intros; apply fit_realBelow|]. split; [intros; apply fit_realIn|].
  split; [intros; apply fit_normal|]. split; [intros; apply fit_normalIn|]. split; [intros; apply fit_exponential|].
  split; [intros; apply fit_exponentialIn|]. split; [intros; apply fit_geometric|]. split; [intros; apply fit_geometricIn|].
  split; [intros; apply fit_binomial|]. split; [intros; apply fit_binomialIn|]. split; [intros; apply fit_maximum; assumption|].
  split; [intros; apply fit_minimum|]. intros; apply fit_minmax; assumption.
Qed.
Lemma graphs_fit : forall E (d : E) dir,
  (forall n m, drawsFit (randomGraph d dir n m)) /\
  (forall sqrt log log1p lgamma lgammaZ unspecified fuel fuel' n p,
    drawsFit (randomGraphP sqrt log log1p lgamma lgammaZ unspecified E d dir fuel fuel' n p)) /\
  (forall fuel n p, drawsFit (randomGrowingGraph E d fuel n p)) /\
  (forall n m k, drawsFit (randomBipartite d dir n m k)) /\
  (forall n, is_i64 n -> drawsFit (randomTree d n)) /\
  (forall n, is_i64 n -> drawsFit (randomTreeDir d n)) /\
  (forall degrees flips, alen degrees <= 2 ^ 31 -> drawsFit (randomGraphDeg d degrees flips)) /\
  (forall g : graph E, nodeCount g < two63 -> edgeCount g < two63 -> drawsFit (permutate dir g)) /\
  (forall (g : graph E) p, edgeCount g < two63 -> drawsFit (permutateWith dir g p)) /\
  (forall g : graph E, edgeCount g < two63 -> drawsFit (permutateEdges dir g)) /\
  (forall (g : graph E) m, drawsFit (subgraph dir g m)).
Proof.
  intros E d dir. split; [intros; apply fit_randomGraph|]. split; [intros; apply fit_randomGraphP|]. split; [intros; apply fit_growing|].
  split; [intros; apply fit_bipartite|]. split; [intros; apply fit_tree; auto|]. split; [intros; apply fit_treeDir; auto|].
  split; [intros; apply fit_degrees; auto|]. split; [intros; apply fit_permutate; auto|]. split; [intros; apply fit_permutateWith; auto|].
  split; [intros; apply fit_permutateEdges; auto|]. intros; apply fit_subgraph.
Qed.

Lemma distinct_words : forall count lower upper, is_i64 lower -> is_i64 upper -> 0 <= count -> lower + count <= upper ->
  forall t, Z.of_nat (length t) = count -> NoDup t -> Forall (fun x => lower <= x < upper) t ->
  sharesTo (fun bits => runOn bits (distinct count lower upper)) (resultIs (list_eq_dec Z.eq_dec) t)
    (inject_Z (zfact (Z.to_nat (upper - lower - count))) / inject_Z (zfact (Z.to_nat (upper - lower)))).
Proof. intros. apply shares_law; [apply fit_distinct; assumption|]. apply distinct_uniform; assumption. Qed.
Lemma partition_words : forall n k min, is_i64 n -> is_i64 k -> is_i64 min ->
  0 < n -> 0 < k -> min * k <= n -> is_i64 (n - (min - 1) * k) ->
  forall t, Z.of_nat (length t) = k -> zsum t = n -> Forall (fun v => min <= v) t ->
  sharesTo (fun bits => runOn bits (partition n k min)) (resultIs (list_eq_dec Z.eq_dec) t)
    (inject_Z (zfact (Z.to_nat (k - 1))) * inject_Z (zfact (Z.to_nat (n - (min - 1) * k - k)))
     / inject_Z (zfact (Z.to_nat (n - (min - 1) * k - 1)))).
Proof. intros. apply shares_law; [apply fit_partition|]. apply partition_uniform; assumption. Qed.
Lemma bracket_words : forall n w, 0 <= n <= 2147483647 -> Z.of_nat (length w) = 2 * n -> balancedWord w ->
  sharesTo (fun bits => runOn bits (bracketSequence n)) (resultIs (list_eq_dec Bool.bool_dec) w)
    (inject_Z (zfact (Z.to_nat n)) * inject_Z (zfact (Z.to_nat (n + 1))) / inject_Z (zfact (Z.to_nat (2 * n)))).
Proof. intros. apply shares_law; [apply fit_bracket|]. apply bracketSequence_uniform_word; assumption. Qed.
Lemma real_words : forall fuel k M, 0 <= k <= 1021 -> k < 64 * Z.of_nat fuel -> 2 ^ 52 < M <= 2 ^ 53 ->
  sharesTo (fun bits => runOn bits (randomReal fuel)) (atLeast (inject_Z M * two (-53 - k)))
    (1 - inject_Z M * two (-53 - k) + two (-54 - k) - (if Z.odd M then two (-64 - k) else 0)).
Proof. intros. apply shares_law; [apply fit_real|]. apply real_distribution; assumption. Qed.
Lemma tree_words : forall E (dflt : E) n P, 2 <= n -> is_i64 n -> isTree n P ->
  sharesTo (fun bits => runOn bits (randomTree dflt n)) (graphIs (allPairs false n) P) (1 / inject_Z (n ^ (n - 2))).
Proof. intros. apply shares_law; [apply fit_tree; assumption|]. apply randomTree_uniform; assumption. Qed.
Lemma graph_words : forall E (dir : bool) (dflt : E) n m, 0 <= n -> is_i64 (n * (n - 1)) ->
  forall P, countPairs P (allPairs dir n) = m ->
  let lim := if dir then n * (n - 1) else n * (n - 1) / 2 in 0 <= m <= lim ->
  sharesTo (fun bits => runOn bits (randomGraph dflt dir n m)) (graphIs (allPairs dir n) P)
    (inject_Z (zfact (Z.to_nat m)) * inject_Z (zfact (Z.to_nat (lim - m))) / inject_Z (zfact (Z.to_nat lim))).
Proof. intros E dir dflt n m H1 H2 P H3 lim H4. apply shares_law; [apply fit_randomGraph|]. apply randomGraph_uniform; assumption. Qed.
Lemma numbers_words : forall parse args n xs, ready parse args start -> argumentN args n -> 0 <= n <= 10 -> digits n xs ->
  sharesTo (fun bits => runOn bits (numbersMain parse args)) (resultIs (list_eq_dec Z.eq_dec) (numbersText xs))
    (inject_Z (zfact (Z.to_nat (10 - n))) / inject_Z (zfact 10)).
Proof.
  intros parse args n xs R A B D. apply shares_law; [apply fit_numbers|].
  destruct (numbers_cases parse args) as [(n' & _ & A' & B' & _ & L)|[N _]]; [|exfalso; eapply N; eauto].
  assert (E : n' = n).
  { destruct (init_two parse args start) as [(_ & p & w & _ & P & _)|(N & _)]; [|contradiction]. destruct (n_command args p P) as (c & _ & [(m & _ & U & _)|(U & _)]).
    - rewrite (U _ A), (U _ A'). reflexivity.
    - exfalso. eapply U; eauto. }
  subst n'. apply L. exact D.
Qed.
Lemma dag_words : forall parse args, ready parse args start ->
  (forall bits ws o rest, Forall is_u64 ws -> runOn bits (dagMain parse args) ws = Some (o, rest) ->
    exists es, dagOf 1 blueprint es 19 /\ o = Ok (graphText 19 es)) /\
  (forall bits es, dagOf 1 blueprint es 19 -> exists ws, Forall is_u64 ws /\
    runOn bits (dagMain parse args) ws = Some (Ok (graphText 19 es), [])).
Proof.
  intros parse args R. split.
  - intros bits ws o rest W H. destruct (engine_support _ bits _ ws o rest (fit_dag parse args) W H) as (_ & A & _).
    destruct (dag_cases parse args) as [[_ L]|[N _]]; [|contradiction]. apply A in L.
    destruct o as [t| | |]; cbn in L; try contradiction. destruct L as (es & D & ->). eauto.
  - intros bits es D. apply (run_reach _ bits _ [] _ (fit_dag parse args)). apply dag_reach; assumption.
Qed.
