(* Proofs about the seeds and the outputs of xoshiro256**. *)
From Coq Require Import ZArith NArith List Bool Lia Znumtheory.
From Verif Require Import RngModel RngSpec RngProofs RngProofs2.
Import ListNotations.
Open Scope Z_scope.

(* --------------------------------------------------------------- seeds *)

Definition seeded (seed : Z) : state :=
  match initial with
  | St a b c d => St (Z.lxor a seed) (Z.lxor b seed) (Z.lxor c seed) (Z.lxor d seed)
  end.

Lemma seeded_valid : forall seed, word seed -> valid (seeded seed).
Proof.
  intros seed H. unfold seeded, initial, valid.
  assert (word 0x3243F6a8885a308d /\ word 0x313198a2e0370734 /\
          word 0x4a4093822299f31d /\ word 0x0082efa98ec4e6c8) as (A & B & C & D).
  { unfold word. lia. }
  auto using word_xor.
Qed.

Lemma St_inj : forall a b c d a' b' c' d', St a b c d = St a' b' c' d' ->
  a = a' /\ b = b' /\ c = c' /\ d = d'.
Proof. intros a b c d a' b' c' d' E. injection E as -> -> -> ->. auto. Qed.

Lemma seeded_nonzero : forall seed, seeded seed <> zero.
Proof.
  intros seed E. unfold seeded, initial, zero in E. apply St_inj in E.
  destruct E as (A & B & _ & _).
  apply Z.lxor_eq in A. apply Z.lxor_eq in B. rewrite <- A in B. discriminate.
Qed.

Lemma seeded_inj : forall s t, seeded s = seeded t -> s = t.
Proof.
  intros s t E. unfold seeded, initial in E. apply St_inj in E.
  destruct E as (A & _).
  rewrite <- (lxor_cancel 0x3243F6a8885a308d s), A. apply lxor_cancel.
Qed.

Lemma fromSeed_jump : forall seed, fromSeed seed = jump (seeded seed).
Proof. reflexivity. Qed.

Lemma fromSeed_after : forall seed, word seed -> fromSeed seed = after (2 ^ 128) (seeded seed).
Proof. intros seed H. rewrite fromSeed_jump. apply jump_after. apply seeded_valid. exact H. Qed.

Lemma fromSeed_valid : forall seed, word seed -> valid (fromSeed seed).
Proof.
  intros seed H. rewrite fromSeed_after by exact H. apply after_valid. apply seeded_valid. exact H.
Qed.

Lemma fromSeed_nonzero : forall seed n, word seed -> after n (fromSeed seed) <> zero.
Proof.
  intros seed n H E. rewrite fromSeed_after in E by exact H.
  apply after_nonzero in E; [|apply after_valid; apply seeded_valid; exact H].
  apply after_nonzero in E; [|apply seeded_valid; exact H].
  revert E. apply seeded_nonzero.
Qed.

Lemma fromSeed_inj : forall s t n, word s -> word t ->
  after n (fromSeed s) = after n (fromSeed t) -> s = t.
Proof.
  intros s t n Hs Ht E. rewrite !fromSeed_after in E by assumption.
  apply after_inj in E; [|apply after_valid; apply seeded_valid; assumption..].
  apply after_inj in E; [|apply seeded_valid; assumption..].
  apply seeded_inj. exact E.
Qed.

(* ------------------------------------------------------- the scrambler *)

Lemma mul64_word : forall x k, word (mul64 x k).
Proof. intros x k. unfold mul64, word. apply Z.mod_pos_bound. lia. Qed.

(* j is the inverse of k modulo 2^64 *)
Lemma mul64_inv : forall k j x, k * j mod 2 ^ 64 = 1 -> word x -> mul64 (mul64 x k) j = x.
Proof.
  intros k j x H Hx. unfold mul64.
  rewrite Z.mul_mod_idemp_l by lia. rewrite <- Z.mul_assoc.
  rewrite <- Z.mul_mod_idemp_r, H by lia. rewrite Z.mul_1_r.
  apply Z.mod_small. exact Hx.
Qed.

Lemma rotl_bit : forall x k n, word x -> 0 < k < 64 -> 0 <= n ->
  Z.testbit (rotateLeft x k) n =
  if n <? k then Z.testbit x (n + (64 - k)) else (n <? 64) && Z.testbit x (n - k).
Proof.
  intros x k n Hx Hk Hn. unfold rotateLeft, shl64.
  rewrite Z.lor_spec, Z.shiftr_spec by lia.
  destruct (Z.ltb_spec n 64).
  - rewrite Z.mod_pow2_bits_low by lia. rewrite Z.shiftl_spec by lia.
    destruct (Z.ltb_spec n k).
    + rewrite (Z.testbit_neg_r x (n - k)) by lia. reflexivity.
    + rewrite (word_bits x (n + (64 - k))) by (exact Hx || lia). apply orb_false_r.
  - rewrite Z.mod_pow2_bits_high by lia. rewrite (word_bits x (n + (64 - k))) by (exact Hx || lia).
    destruct (Z.ltb_spec n k); [lia|reflexivity].
Qed.

Lemma rotl_word : forall x k, word x -> 0 < k < 64 -> word (rotateLeft x k).
Proof.
  intros x k Hx Hk. apply bits_word.
  - unfold rotateLeft, shl64. apply Z.lor_nonneg. split.
    + apply Z.mod_pos_bound. lia.
    + apply Z.shiftr_nonneg. unfold word in Hx. lia.
  - intros n Hn. rewrite rotl_bit by (assumption || lia).
    destruct (Z.ltb_spec n k), (Z.ltb_spec n 64); try lia; reflexivity.
Qed.

Lemma rotl_inv : forall x k, word x -> 0 < k < 64 -> rotateLeft (rotateLeft x k) (64 - k) = x.
Proof.
  intros x k Hx Hk. apply Z.bits_inj'. intros n Hn.
  rewrite rotl_bit by (lia || (apply rotl_word; assumption)).
  replace (64 - (64 - k)) with k by lia.
  destruct (Z.ltb_spec n (64 - k)).
  - rewrite rotl_bit by (assumption || lia).
    destruct (Z.ltb_spec (n + k) k), (Z.ltb_spec (n + k) 64); try lia.
    cbn. f_equal. lia.
  - destruct (Z.ltb_spec n 64).
    + rewrite rotl_bit by (assumption || lia). destruct (Z.ltb_spec (n - (64 - k)) k); [|lia].
      cbn. f_equal. lia.
    + rewrite (word_bits x n) by (assumption || lia). reflexivity.
Qed.

Definition scramble (x : Z) : Z := mul64 (rotateLeft (mul64 x 5) 7) 9.

Definition unscramble (r : Z) : Z :=
  mul64 (rotateLeft (mul64 r 0x8e38e38e38e38e39) 57) 0xcccccccccccccccd.

Lemma unscramble_scramble : forall x, word x -> unscramble (scramble x) = x.
Proof.
  intros x Hx. unfold unscramble, scramble.
  rewrite (mul64_inv 9) by (reflexivity || (apply rotl_word; [apply mul64_word|lia])).
  change 57 with (64 - 7). rewrite rotl_inv by (apply mul64_word || lia).
  apply mul64_inv; [reflexivity|exact Hx].
Qed.

Lemma scramble_unscramble : forall x, word x -> scramble (unscramble x) = x.
Proof.
  intros x Hx. unfold unscramble, scramble.
  rewrite (mul64_inv 0xcccccccccccccccd)
    by (reflexivity || (apply rotl_word; [apply mul64_word|lia])).
  change 7 with (64 - 57). rewrite rotl_inv by (apply mul64_word || lia).
  apply mul64_inv; [reflexivity|exact Hx].
Qed.

Lemma scramble_word : forall x, word (scramble x).
Proof. intros x. apply mul64_word. Qed.

Lemma unscramble_word : forall x, word (unscramble x).
Proof. intros x. apply mul64_word. Qed.

Lemma output_scramble : forall a b c d, output (St a b c d) = scramble b.
Proof. reflexivity. Qed.

Lemma output_word : forall s, word (output s).
Proof. intros [a b c d]. apply scramble_word. Qed.

Lemma scramble_inj : forall x y, word x -> word y -> scramble x = scramble y -> x = y.
Proof.
  intros x y Hx Hy E. rewrite <- (unscramble_scramble x Hx), E.
  apply unscramble_scramble. exact Hy.
Qed.

(* ------------------------------------------- four consecutive outputs *)

(* the word s1 of the first four states *)
Lemma four : forall a b c d, valid (St a b c d) ->
  outputs 4 (St a b c d) =
    map scramble [b; Z.lxor b (Z.lxor c a); Z.lxor (Z.lxor a d) (shl17 b);
                  Z.lxor (Z.lxor (Z.lxor a (Z.lxor d b)) (rot45 (Z.lxor d b)))
                         (shl17 (Z.lxor b (Z.lxor c a)))].
Proof.
  intros a b c d V. unfold outputs, call.
  rewrite !step_fstep by (repeat apply fstep_valid; repeat apply step_valid; exact V).
  unfold fstep. rewrite !output_scramble. cbn [map].
  repeat (f_equal; try (xbits; fail)).
Qed.

Lemma list4 : forall (a b c d a' b' c' d' : Z), a = a' -> b = b' -> c = c' -> d = d' ->
  [a; b; c; d] = [a'; b'; c'; d'].
Proof. intros; subst; reflexivity. Qed.

Definition recover (x0 x1 x2 x3 : Z) : state :=
  let v := Z.lxor x2 (shl17 x0) in
  let d := Z.lxor (unrot45 (Z.lxor (Z.lxor x3 (Z.lxor v x0)) (shl17 x1))) x0 in
  let a := Z.lxor v d in
  St a x0 (Z.lxor (Z.lxor x1 x0) a) d.

Lemma recover_valid : forall x0 x1 x2 x3, word x0 -> word x1 -> word x2 -> word x3 ->
  valid (recover x0 x1 x2 x3).
Proof.
  intros x0 x1 x2 x3 H0 H1 H2 H3. cbv [recover valid].
  auto 20 using word_xor, shl17_word, unrot45_word.
Qed.

Lemma recover_outputs : forall x0 x1 x2 x3, word x0 -> word x1 -> word x2 -> word x3 ->
  outputs 4 (recover x0 x1 x2 x3) = map scramble [x0; x1; x2; x3].
Proof.
  intros x0 x1 x2 x3 H0 H1 H2 H3.
  pose proof (recover_valid x0 x1 x2 x3 H0 H1 H2 H3) as V. unfold recover in *. cbv zeta in *.
  rewrite four by exact V. f_equal.
  set (v := Z.lxor x2 (shl17 x0)).
  set (q := Z.lxor (Z.lxor x3 (Z.lxor v x0)) (shl17 x1)).
  assert (Hq : word q) by (unfold q, v; auto 20 using word_xor, shl17_word).
  assert (E1 : Z.lxor x0 (Z.lxor (Z.lxor (Z.lxor x1 x0) (Z.lxor v (Z.lxor (unrot45 q) x0)))
                     (Z.lxor v (Z.lxor (unrot45 q) x0))) = x1) by xbits.
  rewrite E1.
  replace (Z.lxor (Z.lxor (unrot45 q) x0) x0) with (unrot45 q) by xbits.
  rewrite rot_unrot by exact Hq.
  apply list4; unfold q, v; xbits.
Qed.

Lemma four_inj : forall s t, valid s -> valid t -> outputs 4 s = outputs 4 t -> s = t.
Proof.
  intros [a b c d] [a' b' c' d'] V V' E.
  rewrite !four in E by assumption.
  destruct V as (A & B & C & D), V' as (A' & B' & C' & D').
  pose proof shl17_word as SW. pose proof rot45_word as RW.
  cbn [map] in E. injection E as E0 E1 E2 E3.
  apply scramble_inj in E0; [|auto 10 using word_xor..].
  apply scramble_inj in E1; [|auto 10 using word_xor..].
  apply scramble_inj in E2; [|auto 10 using word_xor..].
  apply scramble_inj in E3; [|auto 15 using word_xor..].
  subst b'. rewrite E1 in E3.
  assert (F : Z.lxor a d = Z.lxor a' d').
  { rewrite <- (Z.lxor_0_r (Z.lxor a d)), <- (Z.lxor_nilpotent (shl17 b)), <- Z.lxor_assoc, E2.
    xbits. }
  assert (G : rot45 (Z.lxor d b) = rot45 (Z.lxor d' b)).
  { set (k := shl17 (Z.lxor b (Z.lxor c' a'))) in *.
    replace (rot45 (Z.lxor d b))
      with (Z.lxor (Z.lxor (Z.lxor (Z.lxor a (Z.lxor d b)) (rot45 (Z.lxor d b))) k)
                   (Z.lxor k (Z.lxor (Z.lxor a d) b))) by xbits.
    rewrite E3, F. xbits. }
  apply (f_equal unrot45) in G. rewrite !unrot_rot in G by auto using word_xor.
  assert (d = d') as <-.
  { replace d with (Z.lxor (Z.lxor d b) b) by xbits. rewrite G. xbits. }
  assert (a = a') as <-.
  { replace a with (Z.lxor (Z.lxor a d) d) by xbits. rewrite F. xbits. }
  f_equal. replace c with (Z.lxor (Z.lxor b (Z.lxor c a)) (Z.lxor b a)) by xbits.
  rewrite E1. xbits.
Qed.

Lemma four_unique : forall r0 r1 r2 r3, word r0 -> word r1 -> word r2 -> word r3 ->
  exists s, (valid s /\ outputs 4 s = [r0; r1; r2; r3]) /\
    forall t, valid t -> outputs 4 t = [r0; r1; r2; r3] -> t = s.
Proof.
  intros r0 r1 r2 r3 H0 H1 H2 H3.
  exists (recover (unscramble r0) (unscramble r1) (unscramble r2) (unscramble r3)).
  assert (O : outputs 4 (recover (unscramble r0) (unscramble r1) (unscramble r2) (unscramble r3)) =
              [r0; r1; r2; r3]).
  { rewrite recover_outputs by apply unscramble_word. cbn [map].
    rewrite !scramble_unscramble by assumption. reflexivity. }
  assert (V := recover_valid _ _ _ _ (unscramble_word r0) (unscramble_word r1)
                 (unscramble_word r2) (unscramble_word r3)).
  split; [split; [exact V|exact O]|].
  intros t Vt Et. apply four_inj; [exact Vt|exact V|]. rewrite Et, O. reflexivity.
Qed.

(* two engines that ever return the same four numbers in a row at the same
   time are equal *)
Lemma outputs_after : forall n k s, outputs (n + k) s = outputs n s ++ outputs k (after (N.of_nat n) s).
Proof.
  induction n as [|n IH]; intros k s; [reflexivity|].
  cbn [Nat.add outputs]. unfold call. rewrite IH. cbn [app]. do 3 f_equal.
  rewrite Nat2N.inj_succ, <- N.add_1_r, after_add. reflexivity.
Qed.

Lemma outputs_words : forall n s, Forall word (outputs n s) /\ length (outputs n s) = n.
Proof.
  induction n as [|n IH]; intros s; [split; [constructor|reflexivity]|].
  cbn [outputs]. unfold call. destruct (IH (step s)) as (F & L). split.
  - constructor; [apply output_word|exact F].
  - cbn [length]. rewrite L. reflexivity.
Qed.

Lemma same_outputs : forall n s t, valid s -> valid t ->
  outputs 4 (after n s) = outputs 4 (after n t) -> forall k, outputs k s = outputs k t.
Proof.
  intros n s t Vs Vt E k. apply four_inj in E; [|apply after_valid; assumption..].
  apply after_inj in E; [|assumption..]. rewrite E. reflexivity.
Qed.

Lemma array_zero : exists a, valid a /\ forall n, outputs n (fromArray a) = repeat 0 n.
Proof.
  exists zero. split; [apply valid_zero|]. unfold fromArray.
  induction n as [|n IH]; [reflexivity|]. cbn [outputs repeat]. unfold call.
  change (step zero) with zero. rewrite IH. reflexivity.
Qed.
