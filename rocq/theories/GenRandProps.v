(* Properties of the random graph generators. *)
From Verif Require Import Base RndModel RandSpec GenModel GenSpec GenMakeModel GenMakeSpec GenRandSpec GenRandProofs2.
From Coq Require Import QArith.
Open Scope Z_scope.

(* ---- C41 ---- *)
(* alen (allPairs dir n) is n (n - 1) for digraphs and n (n - 1) / 2 for graphs *)
Theorem C41_pairs : forall (dir : bool) n, 0 <= n -> is_i64 (n * (n - 1)) ->
  alen (allPairs dir n) = if dir then n * (n - 1) else n * (n - 1) / 2.
Proof. exact allPairs_len. Qed.
Print Assumptions C41_pairs.
Theorem C41_randomGraph : forall E (dir : bool) (dflt : E) n m, 0 <= n -> is_i64 (n * (n - 1)) ->
  0 <= m <= (if dir then n * (n - 1) else n * (n - 1) / 2) ->
  always (randomGraph dflt dir n m) (returns (fun g => exists P, represents dir g 0 n (edgesBy dflt P) /\ edgeCount g = m)).
Proof. exact randomGraph_always. Qed.
Print Assumptions C41_randomGraph.
Theorem C41_randomGraph_throws : forall E (dir : bool) (dflt : E) n m, 0 <= n -> is_i64 (n * (n - 1)) -> is_i64 m ->
  m < 0 \/ (if dir then n * (n - 1) else n * (n - 1) / 2) < m -> randomGraph dflt dir n m = RRet Throw.
Proof. exact randomGraph_throws. Qed.
Print Assumptions C41_randomGraph_throws.
(* every edge set of m pairs has probability 1 / binomial(lim, m) *)
Theorem C41_randomGraph_uniform : forall E (dir : bool) (dflt : E) n m, 0 <= n -> is_i64 (n * (n - 1)) ->
  forall P, countPairs P (allPairs dir n) = m ->
  let lim := if dir then n * (n - 1) else n * (n - 1) / 2 in 0 <= m <= lim ->
  (Pr (randomGraph dflt dir n m) (graphIs (allPairs dir n) P) ==
   inject_Z (zfact (Z.to_nat m)) * inject_Z (zfact (Z.to_nat (lim - m))) / inject_Z (zfact (Z.to_nat lim)))%Q.
Proof. exact randomGraph_uniform. Qed.
Print Assumptions C41_randomGraph_uniform.
Example C41_ex :
  (Pr (randomGraph tt false 3 1) (graphIs (allPairs false 3) (fun u v => (u =? 1) && (v =? 2))) == 1 # 3)%Q /\
  countPairs (fun u v => (u =? 1) && (v =? 2)) (allPairs false 3) = 1 /\ allPairs false 3 = [(0, 1); (0, 2); (1, 2)].
Proof. vm_compute. auto. Qed.

Theorem C41_crossPairs : forall (dir : bool) n m, 0 <= n -> 0 <= m -> is_i64 (n * m * 2) -> is_i64 (n + m) ->
  alen (crossPairs dir n m) = if dir then n * m * 2 else n * m.
Proof. exact crossPairs_len. Qed.
Print Assumptions C41_crossPairs.
Theorem C41_randomBipartite : forall E (dir : bool) (dflt : E) n m k, 0 <= n -> 0 <= m -> is_i64 (n * m * 2) -> is_i64 (n + m) ->
  0 <= k <= (if dir then n * m * 2 else n * m) ->
  always (randomBipartite dflt dir n m k) (returns (fun g => exists P, represents dir g 0 (n + m) (edgesBy dflt P) /\ edgeCount g = k /\
    forall u v, P u v = true -> (u < n /\ n <= v) \/ (v < n /\ n <= u))).
Proof. exact randomBipartite_always. Qed.
Print Assumptions C41_randomBipartite.
Theorem C41_randomBipartite_throws : forall E (dir : bool) (dflt : E) n m k, 0 <= n -> 0 <= m -> is_i64 (n * m * 2) -> is_i64 (n + m) -> is_i64 k ->
  k < 0 \/ (if dir then n * m * 2 else n * m) < k -> randomBipartite dflt dir n m k = RRet Throw.
Proof. exact randomBipartite_throws. Qed.
Print Assumptions C41_randomBipartite_throws.
Theorem C41_randomBipartite_uniform : forall E (dir : bool) (dflt : E) n m k, 0 <= n -> 0 <= m -> is_i64 (n * m * 2) -> is_i64 (n + m) ->
  forall P, countPairs P (crossPairs dir n m) = k ->
  let lim := if dir then n * m * 2 else n * m in 0 <= k <= lim ->
  (Pr (randomBipartite dflt dir n m k) (graphIs (crossPairs dir n m) P) ==
   inject_Z (zfact (Z.to_nat k)) * inject_Z (zfact (Z.to_nat (lim - k))) / inject_Z (zfact (Z.to_nat lim)))%Q.
Proof. exact randomBipartite_uniform. Qed.
Print Assumptions C41_randomBipartite_uniform.
Example C41_ex_bipartite :
  (Pr (randomBipartite tt true 1 2 2) (graphIs (crossPairs true 1 2) (fun u v => (u =? 2) || (v =? 2))) == 1 # 6)%Q /\
  crossPairs true 1 2 = [(0, 1); (0, 2); (1, 0); (2, 0)].
Proof. vm_compute. auto. Qed.
