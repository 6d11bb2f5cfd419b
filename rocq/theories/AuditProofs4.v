From Verif Require Import Base AesModel AesSpec AesProps.
From Coq Require Import ZArith List.
Import ListNotations.
Open Scope Z_scope.

Lemma block_of : forall k v n, bytes 32 k -> bytes 16 v ->
  key (rngOf k v) = k /\ value (block n (rngOf k v)) = (value v + Z.of_N n + 1) mod 2 ^ 128.
Proof. intros k v n K V. split; [reflexivity|]. exact (proj2 (C44_counter n (rngOf k v) (conj K V))). Qed.
