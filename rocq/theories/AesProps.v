(* The AES engine of secure_rng.h. *)
From Coq Require Import ZArith NArith List.
From Verif Require Import AesModel AesSpec AesProofs AesProofs2 AesProofs3.
Import ListNotations.
Open Scope Z_scope.

(* C44: the table SBOX holds, for every byte, the one value FIPS 197 asks for: the
   affine image of the inverse in GF(2^8). *)
Theorem C44_sbox : forall x y, byte x -> (sboxed x y <-> y = sub x).
Proof. exact sbox_exact. Qed.
Print Assumptions C44_sbox.
Example C44_ex_sbox : byte 83 /\ sub 83 = 237.
Proof. vm_compute. intuition congruence. Qed.

(* Calling an object AES with a block is the cipher of FIPS 197 for 256-bit keys,
   for every key and every block; S is the S-box of the standard. *)
Theorem C44_aes256 : forall S, (forall x, byte x -> sboxed x (S x)) ->
  forall key inp, bytes 32 key -> bytes 16 inp ->
  encrypt key inp = Cipher S key inp /\ bytes 16 (encrypt key inp).
Proof. exact encrypt_fips. Qed.
Print Assumptions C44_aes256.
(* the example in appendix C.3 of FIPS 197 *)
Example C44_ex_aes256 :
  encrypt (map Z.of_nat (seq 0 32)) (map (fun i => Z.of_nat i * 17) (seq 0 16)) =
    [0x8e; 0xa2; 0xb7; 0xca; 0x51; 0x67; 0x45; 0xbf; 0xea; 0xfc; 0x49; 0x90; 0x4b; 0x49; 0x60; 0x89].
Proof. vm_compute. reflexivity. Qed.

(* Under one key encryption is a permutation of the blocks. *)
Theorem C44_injective : forall key x y, bytes 32 key -> bytes 16 x -> bytes 16 y ->
  encrypt key x = encrypt key y -> x = y.
Proof. exact encrypt_inj. Qed.
Print Assumptions C44_injective.
Theorem C44_surjective : forall key y, bytes 32 key -> bytes 16 y ->
  exists x, bytes 16 x /\ encrypt key x = y.
Proof. exact encrypt_surj. Qed.
Print Assumptions C44_surjective.
Example C44_ex_injective :
  encrypt (repeat 0 32) (repeat 0 16) <> encrypt (repeat 0 32) (repeat 0 15 ++ [1]).
Proof. vm_compute. discriminate. Qed.

(* The block is a counter: call n encrypts the starting block plus n + 1, modulo 2^128, *)
Theorem C44_counter : forall n g, engine g -> bytes 16 (block n g) /\
  value (block n g) = (value (iv g) + Z.of_N n + 1) mod 2 ^ 128.
Proof. exact block_ok. Qed.
Print Assumptions C44_counter.
Example C44_ex_counter : (* all carries at once *)
  block 1 (rngOf seedKey (254 :: repeat 255 15)) = repeat 0 16 /\ block 0 (rngOf seedKey [255; 255; 0; 4]) = [0; 0; 1; 4].
Proof. vm_compute. split; reflexivity. Qed.

(* and returns the xor of the two halves of the encrypted block. *)
Theorem C44_result : forall n g S, (forall x, byte x -> sboxed x (S x)) -> engine g ->
  exists a b, bytes 8 a /\ bytes 8 b /\ Cipher S (key g) (block n g) = a ++ b /\
    result n g = Z.lxor (value a) (value b) /\ 0 <= result n g < 2 ^ 64.
Proof. exact result_fips. Qed.
Print Assumptions C44_result.
Example C44_ex_result : result 0 (fromSeed 0) = 8724209199779504250 /\
  result 5 (fromSeed 42) = 7516857644122013535.
Proof. vm_compute. split; reflexivity. Qed.

(* Two calls encrypt the same block, or obtain the same encrypted block, only if
   their numbers differ by a multiple of 2^128. *)
Theorem C44_no_repeat : forall n m g, engine g ->
  (block n g = block m g <-> (n mod 2 ^ 128 = m mod 2 ^ 128)%N).
Proof. exact block_eq. Qed.
Print Assumptions C44_no_repeat.
Theorem C44_no_repeat_encrypted : forall n m g, engine g ->
  (encrypt (key g) (block n g) = encrypt (key g) (block m g) <-> (n mod 2 ^ 128 = m mod 2 ^ 128)%N).
Proof. exact encrypted_eq. Qed.
Print Assumptions C44_no_repeat_encrypted.
(* The state comes back after 2^128 calls and not before. *)
Theorem C44_period : forall g n m, engine g ->
  (afterCalls n g = afterCalls m g <-> (n mod 2 ^ 128 = m mod 2 ^ 128)%N).
Proof. exact afterCalls_eq. Qed.
Print Assumptions C44_period.

(* Within these 2^128 calls every 64-bit value is returned equally often, once for
   each of the 2^64 possible first halves of the encrypted block. *)
Theorem C44_equidistributed : forall g a w, engine g -> bytes 8 a -> 0 <= w < 2 ^ 64 ->
  exists! n, (n < 2 ^ 128)%N /\ firstn 8 (encrypt (key g) (block n g)) = a /\ result n g = w.
Proof. exact equidistributed. Qed.
Print Assumptions C44_equidistributed.
Example C44_ex_engine : engine (fromSeed 0) /\ engine (fromSeed 18446744073709551615).
Proof. split; apply fromSeed_engine; split; discriminate || reflexivity. Qed.

(* C62: different seeds make different engines. *)
Theorem C62_distinct : forall s t, 0 <= s < 2 ^ 64 -> 0 <= t < 2 ^ 64 ->
  fromSeed s = fromSeed t -> s = t.
Proof. exact fromSeed_inj. Qed.
Print Assumptions C62_distinct.

(* But all seeded engines run through one sequence of numbers: the streams of any
   two seeds are shifts of each other by less than 2^64 calls. *)
Theorem C62_overlap : forall s t, 0 <= s < 2 ^ 64 -> 0 <= t < 2 ^ 64 ->
  exists d, (d < 2 ^ 64)%N /\
    ((forall n, result (n + d) (fromSeed s) = result n (fromSeed t)) \/
     (forall n, result (n + d) (fromSeed t) = result n (fromSeed s))).
Proof. exact seeds_shift. Qed.
Print Assumptions C62_overlap.

(* So different seeds need not give unrelated streams: the engine with seed 0
   becomes the engine with seed 1 after one call. *)
Theorem C62_independent_refuted : exists s t, s <> t /\ 0 <= s < 2 ^ 64 /\ 0 <= t < 2 ^ 64 /\
  forall n, result (n + 1) (fromSeed s) = result n (fromSeed t).
Proof. exact seeds_adjacent. Qed.
Print Assumptions C62_independent_refuted.
Example C62_ex : snd (call (fromSeed 0)) = fromSeed 1 /\ snd (call (fromSeed 2)) = fromSeed 3.
Proof. vm_compute. split; reflexivity. Qed.
