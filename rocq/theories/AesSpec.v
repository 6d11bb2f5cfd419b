(* AES-256 as in the standard FIPS 197, written without the tables of the
   header, and the vocabulary of the statements about AES_RNG. *)
From Coq Require Import ZArith NArith List Bool.
From Verif Require Import AesModel.
Import ListNotations.
Open Scope Z_scope.

Definition byte (x : Z) : Prop := 0 <= x < 256.
Definition bytes (n : nat) (l : list Z) : Prop := length l = n /\ Forall byte l.

(* ------------------------------------------- GF(2^8), FIPS 197 section 4 *)

(* multiplication by x modulo x^8 + x^4 + x^3 + x + 1 *)
Definition xtime (b : Z) : Z :=
  Z.lxor (Z.land (2 * b) 255) (if Z.testbit b 7 then 0x1b else 0).

(* the product of the polynomial a of degree below n with b *)
Fixpoint gmul (n : nat) (a b : Z) : Z :=
  match n with
  | O => 0
  | S n => Z.lxor (if Z.odd a then b else 0) (gmul n (Z.div2 a) (xtime b))
  end.

Definition mul (a b : Z) : Z := gmul 8 a b.

(* x^k *)
Fixpoint xpow (k : nat) : Z := match k with O => 1 | S k => xtime (xpow k) end.

(* y is the image of x in the S-box of section 5.1.1: the inverse in GF(2^8), 0
   for 0, followed by the affine map *)
Definition inverse (x i : Z) : Prop := byte i /\ (x = 0 /\ i = 0 \/ mul x i = 1).

Definition affineBit (b : Z) (i : Z) : bool :=
  xorb (Z.testbit b i)
  (xorb (Z.testbit b ((i + 4) mod 8))
  (xorb (Z.testbit b ((i + 5) mod 8))
  (xorb (Z.testbit b ((i + 6) mod 8))
  (xorb (Z.testbit b ((i + 7) mod 8)) (Z.testbit 0x63 i))))).

Definition sboxed (x y : Z) : Prop :=
  byte y /\ exists i, inverse x i /\ forall k, 0 <= k < 8 -> Z.testbit y k = affineBit i k.

(* --------------------------------- the cipher, relative to an S-box S *)

Section Cipher.
Variable S : Z -> Z.

(* a word is a list of four bytes, the state a list of four columns *)
Fixpoint xors (a b : list Z) : list Z :=
  match a, b with x :: a, y :: b => Z.lxor x y :: xors a b | _, _ => [] end.

Definition RotWord (w : list Z) : list Z := match w with [] => [] | a :: w => w ++ [a] end.

(* section 5.2 with Nk = 8: the word i from the words before *)
Definition nextWord (ws : list (list Z)) : list Z :=
  let i := length ws in
  let temp := last ws [] in
  let temp :=
    if (i mod 8 =? 0)%nat then xors (map S (RotWord temp)) [xpow (i / 8 - 1); 0; 0; 0]
    else if (i mod 8 =? 4)%nat then map S temp else temp in
  xors (nth (i - 8) ws []) temp.

Fixpoint chunks (n : nat) (l : list Z) : list (list Z) :=
  match n with O => [] | Datatypes.S n => firstn 4 l :: chunks n (skipn 4 l) end.

Definition KeyExpansion (key : list Z) : list (list Z) :=
  Nat.iter 52 (fun ws => ws ++ [nextWord ws]) (chunks 8 key).

Definition roundKey (ws : list (list Z)) (r : nat) : list (list Z) := firstn 4 (skipn (4 * r) ws).

Definition SubBytes (s : list (list Z)) : list (list Z) := map (map S) s.

(* row r of column c comes from column c + r *)
Definition ShiftRows (s : list (list Z)) : list (list Z) :=
  map (fun c => map (fun r => nth r (nth ((c + r) mod 4) s []) 0) [0; 1; 2; 3]%nat) [0; 1; 2; 3]%nat.

Definition mixColumn (w : list Z) : list Z :=
  match w with
  | [a; b; c; d] =>
      [Z.lxor (mul 2 a) (Z.lxor (mul 3 b) (Z.lxor c d));
       Z.lxor a (Z.lxor (mul 2 b) (Z.lxor (mul 3 c) d));
       Z.lxor a (Z.lxor b (Z.lxor (mul 2 c) (mul 3 d)));
       Z.lxor (mul 3 a) (Z.lxor b (Z.lxor c (mul 2 d)))]
  | _ => []
  end.

Definition MixColumns (s : list (list Z)) : list (list Z) := map mixColumn s.

Fixpoint AddRoundKey (s k : list (list Z)) : list (list Z) :=
  match s, k with c :: s, w :: k => xors c w :: AddRoundKey s k | _, _ => [] end.

Fixpoint Rounds (n r : nat) (ws : list (list Z)) (s : list (list Z)) : list (list Z) :=
  match n with
  | O => s
  | Datatypes.S n =>
      Rounds n (r + 1) ws
        (AddRoundKey (MixColumns (ShiftRows (SubBytes s))) (roundKey ws r))
  end.

(* section 5.1, Nr = 14 *)
Definition Cipher (key inp : list Z) : list Z :=
  let ws := KeyExpansion key in
  let s := AddRoundKey (chunks 4 inp) (roundKey ws 0) in
  let s := Rounds 13 1 ws s in
  concat (AddRoundKey (ShiftRows (SubBytes s)) (roundKey ws 14)).

End Cipher.

(* ------------------------------------------------------------ the engine *)

(* a block as a number, least significant byte first *)
Fixpoint value (l : list Z) : Z :=
  match l with [] => 0 | b :: l => b + 256 * value l end.

(* an engine AES_RNG can be *)
Definition engine (g : rng) : Prop := bytes 32 (key g) /\ bytes 16 (iv g).

(* the engine after n calls *)
Definition afterCalls (n : N) (g : rng) : rng := N.iter n (fun g => snd (call g)) g.

(* what call number n (from 0) returns *)
Definition result (n : N) (g : rng) : Z := fst (call (afterCalls n g)).

(* the block that call number n encrypts *)
Definition block (n : N) (g : rng) : list Z := iv (snd (call (afterCalls n g))).
