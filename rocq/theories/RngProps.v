(* The properties of the engine of rng.h. *)
From Coq Require Import ZArith NArith List.
From Verif Require Import RngModel RngSpec RngProofs RngProofs2 RngProofs3.
Import ListNotations.
Open Scope Z_scope.

(* C42: jump() is 2^128 calls of operator(), whatever the state is. *)
Theorem C42_jump : forall s, valid s -> jump s = after (2 ^ 128) s.
Proof. exact jump_after. Qed.
Print Assumptions C42_jump.

(* the published test vector of xoshiro256** for the state 1, 2, 3, 4 *)
Example C42_ex : valid (St 1 2 3 4) /\
  outputs 4 (St 1 2 3 4) = [11520; 0; 1509978240; 1215971899390074240] /\
  jump (St 1 2 3 4) <> St 1 2 3 4.
Proof. vm_compute. repeat split; discriminate. Qed.

(* The constructor from a seed is the default state with the seed xored into
   every word, 2^128 calls later. *)
Theorem C42_seed : forall seed, word seed ->
  fromSeed seed = after (2 ^ 128) (match initial with
    | St a b c d => St (Z.lxor a seed) (Z.lxor b seed) (Z.lxor c seed) (Z.lxor d seed) end).
Proof. exact fromSeed_after. Qed.
Print Assumptions C42_seed.

Example C42_seed_ex : word 123456789.
Proof. vm_compute. split; [discriminate|reflexivity]. Qed.

(* C43: a call keeps the state valid and returns a word, *)
Theorem C43_valid : forall s, valid s -> valid (snd (call s)) /\ word (fst (call s)).
Proof. exact (fun s H => conj (step_valid s H) (output_word s)). Qed.
Print Assumptions C43_valid.

(* different states stay different for ever, *)
Theorem C43_injective : forall n s t, valid s -> valid t -> after n s = after n t -> s = t.
Proof. exact after_inj. Qed.
Print Assumptions C43_injective.

(* every state is reached, *)
Theorem C43_surjective : forall n t, valid t -> exists s, valid s /\ after n s = t.
Proof. exact after_surj. Qed.
Print Assumptions C43_surjective.

(* the state 0 is reached only from itself, *)
Theorem C43_nonzero : forall n s, valid s -> after n s = zero -> s = zero.
Proof. exact after_nonzero. Qed.
Print Assumptions C43_nonzero.

(* an engine made from a seed is never in it, *)
Theorem C43_seed_nonzero : forall seed n, word seed ->
  valid (fromSeed seed) /\ after n (fromSeed seed) <> zero.
Proof. exact (fun s n H => conj (fromSeed_valid s H) (fromSeed_nonzero s n H)). Qed.
Print Assumptions C43_seed_nonzero.

(* and engines of different seeds never meet at the same time. *)
Theorem C43_seed_injective : forall s t n, word s -> word t ->
  after n (fromSeed s) = after n (fromSeed t) -> s = t.
Proof. exact fromSeed_inj. Qed.
Print Assumptions C43_seed_injective.

Example C43_ex :
  step (St 0 0 0 1) = St 1 0 0 (2 ^ 45) /\ valid (St 0 0 0 1) /\ St 0 0 0 1 <> zero /\
  fromSeed 0 <> fromSeed 1.
Proof. vm_compute. repeat split; discriminate. Qed.

(* The constructor from a whole state accepts the state 0, and then every
   call returns 0. *)
Theorem C43_array_zero_refuted :
  exists a, valid a /\ forall n, outputs n (fromArray a) = repeat 0 n.
Proof. exact array_zero. Qed.
Print Assumptions C43_array_zero_refuted.

(* C60: for any four words there is exactly one state from which the next four
   calls return them. *)
Theorem C60_four : forall r0 r1 r2 r3, word r0 -> word r1 -> word r2 -> word r3 ->
  exists s, (valid s /\ outputs 4 s = [r0; r1; r2; r3]) /\
    forall t, valid t -> outputs 4 t = [r0; r1; r2; r3] -> t = s.
Proof. exact four_unique. Qed.
Print Assumptions C60_four.

(* The engine returns words, one for each call. *)
Theorem C60_words : forall n s, Forall word (outputs n s) /\ length (outputs n s) = n.
Proof. exact outputs_words. Qed.
Print Assumptions C60_words.

(* Two engines that return the same four numbers in a row at some time return
   the same numbers always. *)
Theorem C60_same : forall n s t, valid s -> valid t ->
  outputs 4 (after n s) = outputs 4 (after n t) -> forall k, outputs k s = outputs k t.
Proof. exact same_outputs. Qed.
Print Assumptions C60_same.

Example C60_ex : word 11520 /\ word 0 /\ word 1509978240 /\ word 1215971899390074240 /\
  outputs 4 (St 1 2 3 4) = [11520; 0; 1509978240; 1215971899390074240] /\
  outputs 1 (St 5 2 3 4) = outputs 1 (St 1 2 3 4) /\
  outputs 2 (St 5 2 3 4) <> outputs 2 (St 1 2 3 4).
Proof. vm_compute. repeat split; discriminate. Qed.
