(* concrete witnesses for the refuted claims about random sequences *)
From Verif Require Import Tac RndModel RandSeqModel RandSpec RndLemmas.

Lemma distinct_overflow : exists count lower upper,
  is_i64 lower /\ is_i64 upper /\ 0 <= count /\ upper < lower + count /\
  distinct count lower upper = RRet UB.
Proof.
  exists 2, 9223372036854775806, 9223372036854775807. mach. repeat split; try lia; vm_compute; reflexivity.
Qed.

Lemma perm_cycles_negative : exists cycles,
  ~ Forall (fun c => 0 < c) cycles /\ can (permCycles cycles 0) UB.
Proof.
  exists [2; -1]. split.
  - intros H. inversion_clear H as [| ? ? _ H']. inversion_clear H'. lia.
  - apply (can_play_any _ _ []); [vm_compute; reflexivity | discriminate].
Qed.

Lemma perm_fix_repeated : exists count fixed sigma,
  Forall (fun x => 0 <= x < 0 + count) fixed /\ can (permFix count fixed 0) (Ok sigma) /\
  exists x, In x fixed /\ getz sigma (x - 0) <> x.
Proof.
  exists 2, [0; 0], [1; 0]. split; [repeat constructor; lia |]. split.
  - apply (can_play_any _ _ [0]); [vm_compute; reflexivity | discriminate].
  - exists 0. split; [left; reflexivity | vm_compute; discriminate].
Qed.

Lemma partition_overflow : exists n k min,
  is_i64 n /\ is_i64 k /\ is_i64 min /\ 0 < n /\ 0 < k /\ min * k <= n /\ partition n k min = RRet UB.
Proof.
  exists 1, 3, (-9223372036854775807). mach. repeat split; try lia; vm_compute; reflexivity.
Qed.

Lemma prime_upper_two : exists lower upper v,
  lower < upper /\ can (randomPrime lower upper) (Ok v) /\ ~ lower <= v < upper.
Proof.
  exists 0, 2, 2. split; [lia |]. split; [| lia].
  apply (can_play_any _ _ [0]); [vm_compute; reflexivity | discriminate].
Qed.

Lemma prime_overflow : exists lower upper,
  is_i64 lower /\ is_i64 upper /\ lower < upper /\ can (randomPrime lower upper) UB.
Proof.
  exists 0, 9223372036854775807. split; [mach; lia |]. split; [mach; lia |]. split; [lia |].
  apply (can_play_any _ _ []); [vm_compute; reflexivity | discriminate].
Qed.
