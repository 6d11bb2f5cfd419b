(* The engine of rng.h: xoshiro256**.
   A std::uint64_t is an integer of Z below 2^64 and every operation of the
   header on such words is written with its wrap around.  None of them has
   undefined behaviour: all arithmetic is unsigned and all shift distances
   are constants below 64. *)
From Coq Require Import ZArith List.
Import ListNotations.
Open Scope Z_scope.

(* std::array<result_type, 4> state, rng.h:23 *)
Inductive state := St (s0 s1 s2 s3 : Z).

(* x << k on std::uint64_t *)
Definition shl64 (x k : Z) : Z := Z.shiftl x k mod 2 ^ 64.

(* x * k on std::uint64_t *)
Definition mul64 (x k : Z) : Z := x * k mod 2 ^ 64.

(* rng.h:30-32, rotateLeft *)
Definition rotateLeft (x k : Z) : Z := Z.lor (shl64 x k) (Z.shiftr x (64 - k)).

(* rng.h:23-28, the default member initialiser (digits of pi) *)
Definition initial : state :=
  St 0x3243F6a8885a308d 0x313198a2e0370734 0x4a4093822299f31d 0x0082efa98ec4e6c8.

(* rng.h:47, the value operator() returns *)
Definition output (s : state) : Z :=
  match s with St _ s1 _ _ => mul64 (rotateLeft (mul64 s1 5) 7) 9 end.

(* rng.h:48-54, the state operator() leaves *)
Definition step (s : state) : state :=
  match s with
  | St s0 s1 s2 s3 =>
      let tmp := shl64 s1 17 in
      let s2 := Z.lxor s2 s0 in
      let s3 := Z.lxor s3 s1 in
      let s1 := Z.lxor s1 s2 in
      let s0 := Z.lxor s0 s3 in
      let s2 := Z.lxor s2 tmp in
      St s0 s1 s2 (rotateLeft s3 45)
  end.

(* rng.h:46-56, operator() *)
Definition call (s : state) : Z * state := (output s, step s).

(* rng.h:59-64 *)
Definition jumps : list Z :=
  [0x180ec6d33cfd0aba; 0xd5a61266f0c9392c; 0xa9582618e03fc9aa; 0x39abdc4529b1661c].

(* rng.h:70-73, newState[i] ^= state[i] for i = 0..3 *)
Definition xorState (s t : state) : state :=
  match s, t with
  | St a b c d, St a' b' c' d' =>
      St (Z.lxor a a') (Z.lxor b b') (Z.lxor c c') (Z.lxor d d')
  end.

(* rng.h:69-75, the body of the inner loop; the pair is (newState, state) *)
Definition jumpBit (w : Z) (p : state * state) (b : nat) : state * state :=
  let (newState, s) := p in
  ((if Z.land w (shl64 1 (Z.of_nat b)) =? 0 then newState else xorState newState s),
   snd (call s)).

(* rng.h:68-76, the inner loop *)
Definition jumpWord (p : state * state) (w : Z) : state * state :=
  fold_left (jumpBit w) (seq 0 64) p.

(* rng.h:58-79, jump() *)
Definition jump (s : state) : state :=
  fst (fold_left jumpWord jumps (St 0 0 0 0, s)).

(* rng.h:35, the constructor from a whole state *)
Definition fromArray (a : state) : state := a.

(* rng.h:36-44, the constructor from one word *)
Definition fromSeed (seed : Z) : state :=
  jump (match initial with
        | St a b c d =>
            St (Z.lxor a seed) (Z.lxor b seed) (Z.lxor c seed) (Z.lxor d seed)
        end).

(* the results of the first n calls of operator() *)
Fixpoint outputs (n : nat) (s : state) : list Z :=
  match n with
  | O => []
  | S n => let (r, s) := call s in r :: outputs n s
  end.
