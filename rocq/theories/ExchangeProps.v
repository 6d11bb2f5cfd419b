(* C79: the law of randomGraph(n, p), given the law of the number of edges. *)
From Verif Require Import Base Tac RndModel RndLemmas FloatModel RandIntModel GenModel GenSpec GenMakeModel GenMakeSpec GenRandSpec RealModel RealProofs8 ExchangeProofs.
From Coq Require Import QArith ZArith SpecFloat.
From Verif Require Import FloatSpec RealSpec.
Open Scope Z_scope.

(* P is any set of edges and m its size. With lim possible edges the graph with exactly these
   edges has the probability that binomial(n (n - 1) / 2, p) is m, divided by lim over m. *)
Theorem C79_randomGraph_law : forall sqrt log log1p lgamma lgammaZ unspecified E (dflt : E) (dir : bool) fuel fuel' n p P, (fuel' <= 15)%nat ->
  0 <= n -> is_i64 (n * (n - 1)) -> number p -> (0 <= val p <= 1)%Q ->
  SFleb rzero (log1p (ropp (lesser p))) = true \/ stepsFit log (log1p (ropp (lesser p))) (n * (n - 1) / 2) ->
  let lim := if dir then n * (n - 1) else n * (n - 1) / 2 in let m := countPairs P (allPairs dir n) in
  (Pr (randomGraphP sqrt log log1p lgamma lgammaZ unspecified E dflt dir fuel fuel' n p) (graphIs (allPairs dir n) P) ==
   Pr (binomial sqrt log log1p lgamma lgammaZ unspecified fuel fuel' (n * (n - 1) / 2) p) (resultIs Z.eq_dec m) *
   (inject_Z (zfact (Z.to_nat m)) * inject_Z (zfact (Z.to_nat (lim - m))) / inject_Z (zfact (Z.to_nat lim))))%Q.
Proof. exact randomGraphP_law. Qed.
Print Assumptions C79_randomGraph_law.
(* so graphs with the same number of edges are equally likely *)
Theorem C79_randomGraph_exchangeable : forall sqrt log log1p lgamma lgammaZ unspecified E (dflt : E) (dir : bool) fuel fuel' n p P Q, (fuel' <= 15)%nat ->
  0 <= n -> is_i64 (n * (n - 1)) -> number p -> (0 <= val p <= 1)%Q ->
  SFleb rzero (log1p (ropp (lesser p))) = true \/ stepsFit log (log1p (ropp (lesser p))) (n * (n - 1) / 2) ->
  countPairs P (allPairs dir n) = countPairs Q (allPairs dir n) ->
  (Pr (randomGraphP sqrt log log1p lgamma lgammaZ unspecified E dflt dir fuel fuel' n p) (graphIs (allPairs dir n) P) ==
   Pr (randomGraphP sqrt log log1p lgamma lgammaZ unspecified E dflt dir fuel fuel' n p) (graphIs (allPairs dir n) Q))%Q.
Proof. exact randomGraphP_same. Qed.
Print Assumptions C79_randomGraph_exchangeable.
(* p = 1 draws three edges; of the sets of three arcs on three vertices each has 1 / 20 *)
Example C79_law_ex :
  let up := fun u v => u <? v in let down := fun u v => v <? u in
  countPairs up (allPairs true 3) = 3 /\ countPairs down (allPairs true 3) = 3 /\
  SFleb rzero (id (ropp (lesser rone))) = true /\ number rone /\
  (Pr (randomGraphP id id id id ofZ noInteger unit tt true 2 2 3 rone) (graphIs (allPairs true 3) up) == 1 # 20)%Q /\
  (Pr (randomGraphP id id id id ofZ noInteger unit tt true 2 2 3 rone) (graphIs (allPairs true 3) down) == 1 # 20)%Q /\
  (Pr (randomGraphP id id id id ofZ noInteger unit tt true 2 2 3 rone) (graphIs (allPairs true 3) (fun u v => u =? 1)) == 0)%Q.
Proof. vm_compute. repeat split; auto. Qed.
