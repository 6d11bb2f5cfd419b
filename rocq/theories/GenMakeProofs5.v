(* Where the generators differ from their documentation. *)
From Verif Require Import Base Tac RndModel GenModel GenSpec GenOpsModel GenProofs3 GenOpsProofs GenMakeModel GenMakeSpec GenMakeProofs GenMakeProofs2.

Lemma wheel_size : forall E (dflt : E) n, 0 <= n -> exists g, wheel dflt n = Ok g /\ nodeCount g = n + 2 /\ hasEdge g 0 (n + 1) = Ok false /\ hasEdge g 1 n = Ok (n =? 2).
Proof.
  intros E dflt n N. destruct (wheel_rep E dflt n N) as (g & Q & R). exists g. split; auto. destruct (rep_len _ _ _ _ _ _ R) as (_ & _ & _ & NC). split; [lia|].
  assert (H : forall u v, 0 <= u < n + 2 -> 0 <= v < n + 2 -> hasEdge g u v = Ok (isEdge (edgesBy dflt (sym false (fun u v => (u =? 0) && inside 1 (n + 1) v || inside 1 (n + 1) u && (v =? u + 1)))) u v)).
  { intros u v U V. destruct (rep_observe E false g _ _ _ [CHas u v] R) as (g' & l & X & A). { constructor; auto. cbn. auto. }
    cbn [grun gstep] in X. destruct (hasEdge g u v) as [b| | |]; try discriminate. cbn [bind] in X. inv X. inv A. auto. }
  rewrite !H by lia. rewrite !isEdge_by. unfold sym, inside. cbn [negb andb]. split; f_equal; lia.
Qed.
Lemma completeTree_level2 : (let! g := completeTree tt false 2 2 in Ok (nodeCount g, map fst (getEdges g))) = Ok (3, [(0, 1); (0, 2)]) /\
  (let! g := completeTree tt false 0 2 in Ok (nodeCount g)) = Ok 3.
Proof. split; vm_compute; reflexivity. Qed.
Lemma rado_powers : (let! g := rado tt false 5 in Ok (map fst (getEdges g))) = Ok [(3, 0); (3, 1)].
Proof. vm_compute. reflexivity. Qed.
Lemma lattice_down : (let! g := booleanLattice tt true 2 in Ok (map fst (getEdges g))) = Ok [(1, 0); (2, 0); (3, 2); (3, 1)].
Proof. vm_compute. reflexivity. Qed.
