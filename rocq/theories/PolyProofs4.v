From Verif Require Import Base BaseLemmas Tac RndModel RndLemmas GeoModel GeoSpec PolyModel PolySpec PolyProofs3.
From Coq Require Import ZArith List Lia.
Import ListNotations.
Open Scope Z_scope.

Definition witness : list (Z * Z) := [(-1, -6); (-1, -2); (7, 8); (1, 1); (10, -2)].
Lemma witness_general : general witness.
Proof.
  split.
  - repeat constructor; cbn; intuition discriminate.
  - assert (H : forallb (fun a => forallb (fun b => forallb (fun c => samePoint a b || samePoint a c || samePoint b c || negb (orient a b c =? 0)) witness) witness) witness = true) by (vm_compute; reflexivity).
    intros a b c A B C N1 N2 N3. rewrite forallb_forall in H. specialize (H a A). rewrite forallb_forall in H. specialize (H b B). rewrite forallb_forall in H. specialize (H c C).
    assert (S : forall x y, x <> y -> samePoint x y = false) by (intros x y N; destruct (samePoint x y) eqn:E; [apply PolyProofs.samePoint_iff in E; contradiction|reflexivity]).
    rewrite !S in H by assumption. cbn [orb] in H. apply Bool.negb_true_iff in H. apply Z.eqb_neq. exact H.
Qed.
Lemma witness_crosses : ~ simple witness.
Proof.
  intros (_ & H & _). apply (H 1%nat 3%nat); try (cbn; lia). left. split; vm_compute; reflexivity.
Qed.
Lemma not_simple : exists fits fuel n dim l, fits n dim = true /\ 3 <= n /\ n * n * n <= dim * dim /\ can (polygon sortBy splitBy fits fuel n dim) (Ok l) /\ general l /\ ~ simple l.
Proof.
  exists (fun n dim => n * n * n <=? dim * dim), 10%nat, 5, 12, witness. split; [reflexivity|]. split; [lia|]. split; [lia|]. split; [|split; [exact witness_general|exact witness_crosses]].
  apply (can_play _ _ [-1; -2; 7; 8; 1; 1; -1; -6; 10; -2; -6; 66; 1; 0; 0; 0; 0; 0]). vm_compute. reflexivity.
Qed.
