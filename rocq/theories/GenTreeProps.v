(* Properties of pruefer and randomTree. *)
From Verif Require Import Base RndModel RandSpec GenModel GenSpec GraphSpec GenMakeModel GenMakeSpec GenRandSpec GenTreeSpec GenTreeProofs3 GenTreeProofs4.
From Coq Require Import QArith.
Open Scope Z_scope.

(* ---- C40 ---- *)
Theorem C40_pruefer : forall E (dflt : E) code, (forall x, In x code -> 0 <= x < alen code + 2) ->
  exists g P, pruefer dflt code = Ok g /\ represents false g 0 (alen code + 2) (edgesBy dflt P) /\ isTree (alen code + 2) P /\
    (forall v, 0 <= v < alen code + 2 -> degree g v = Ok (1 + occurrences v code)).
Proof. exact pruefer_tree. Qed.
Print Assumptions C40_pruefer.
(* removing the smallest leaf again and again gives the code back *)
Theorem C40_pruefer_code : forall E (dflt : E) code, (forall x, In x code -> 0 <= x < alen code + 2) ->
  exists g F, pruefer dflt code = Ok g /\ prueferCode (zseq 0 (length code + 2)) F code /\
    forall u v, 0 <= u < alen code + 2 -> 0 <= v < alen code + 2 -> (hasEdge g u v = Ok true <-> joined F u v).
Proof. exact pruefer_code. Qed.
Print Assumptions C40_pruefer_code.
(* every tree on [0, n) is the graph of exactly one code *)
Theorem C40_pruefer_bijective : forall E (dflt : E) n P, 2 <= n -> isTree n P ->
  exists c, alen c = n - 2 /\ (forall x, In x c -> 0 <= x < n) /\
    forall code, alen code = n - 2 -> (forall x, In x code -> 0 <= x < n) ->
      (graphIs (allPairs false n) P (pruefer dflt code) = true <-> code = c).
Proof. exact pruefer_bijective. Qed.
Print Assumptions C40_pruefer_bijective.
Theorem C40_randomTree : forall E (dflt : E) n, 1 <= n -> always (randomTree dflt n) (returns (fun g =>
  exists P, represents false g 0 n (edgesBy dflt P) /\ isTree n P /\ edgeCount g = n - 1)).
Proof. exact randomTree_always. Qed.
Print Assumptions C40_randomTree.
(* all n^(n-2) labelled trees are equally likely *)
Theorem C40_randomTree_uniform : forall E (dflt : E) n P, 2 <= n -> isTree n P ->
  (Pr (randomTree dflt n) (graphIs (allPairs false n) P) == 1 / inject_Z (n ^ (n - 2)))%Q.
Proof. exact randomTree_uniform. Qed.
Print Assumptions C40_randomTree_uniform.
Theorem C40_randomTreeDir : forall E (dflt : E) n, 1 <= n -> always (randomTreeDir dflt n) (returns (fun g =>
  exists M, represents true g 0 n M /\ (forall u v d, M u v = Some d -> d = dflt) /\ arborescence 0 n (map fst (getEdges g)) 0 /\
    isTree n (fun u v => isEdge M u v || isEdge M v u))).
Proof. exact randomTreeDir_always. Qed.
Print Assumptions C40_randomTreeDir.
Theorem C40_randomTreeDir_uniform : forall E (dflt : E) n P, 2 <= n -> isTree n P ->
  (Pr (randomTreeDir dflt n) (underlyingIs (allPairs false n) P) == 1 / inject_Z (n ^ (n - 2)))%Q.
Proof. exact randomTreeDir_uniform. Qed.
Print Assumptions C40_randomTreeDir_uniform.

Example C40_ex : (let! g := pruefer tt [3; 3; 3; 4] in let! d := degree g 3 in Ok (getEdges g, d)) =
  Ok ([(3, 0, tt); (3, 1, tt); (3, 2, tt); (4, 3, tt); (4, 5, tt)], 4).
Proof. vm_compute. reflexivity. Qed.
Example C40_ex_back : (let! g := pruefer tt [0; 4; 0] in Ok (map fst (getEdges g))) = Ok [(0, 1); (4, 2); (0, 3); (0, 4)].
Proof. vm_compute. reflexivity. Qed.
(* the star with centre 2 on three nodes *)
Example C40_ex_tree : isTree 3 (fun u v => (u =? 2) || (v =? 2)) /\
  (Pr (randomTree tt 3) (graphIs (allPairs false 3) (fun u v => (u =? 2) || (v =? 2))) == 1 # 3)%Q /\
  (Pr (randomTreeDir tt 3) (underlyingIs (allPairs false 3) (fun u v => (u =? 2) || (v =? 2))) == 1 # 3)%Q.
Proof.
  split; [|vm_compute; auto]. split; [|reflexivity]. unfold connectedGraph, node.
  assert (forall x, 0 <= x < 3 -> conn (pairsOf 3 (fun u v => (u =? 2) || (v =? 2))) x 2).
  { intros x X. assert (x = 0 \/ x = 1 \/ x = 2) as [-> |[-> | ->]] by lia; [apply conn_edge|apply conn_edge|apply conn_refl]; vm_compute; auto. }
  intros x y X Y. eapply conn_trans; [apply H; auto|]. apply conn_sym. auto.
Qed.
Example C40_ex_dir : (let! g := play (randomTreeDir tt 5) [3; 3; 1] in Ok (map fst (getEdges g))) = Ok [(0, 3); (3, 2); (3, 1); (1, 4)].
Proof. vm_compute. reflexivity. Qed.
