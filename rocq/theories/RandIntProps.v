(* Property theorems C01-C03 and C49: the samplers working on raw engine words. *)
From Verif Require Import Base RandIntModel RandIntProofs.

(* C01: for every supply of 64-bit words: never undefined behaviour, throws exactly for an
   empty range, a returned value lies in [lower, upper), and the words used up are a
   non-empty prefix. (Fuel: the finite supply of words in the model is used up.) *)
Theorem C01_integer_in_range : forall lower upper ws, is_i64 lower -> is_i64 upper ->
  Forall is_u64 ws ->
  match integer lower upper ws with
  | Ok (r, rest) => lower <= r < upper /\ exists used, used <> [] /\ ws = used ++ rest
  | Throw => upper <= lower
  | UB => False
  | Fuel => lower < upper
  end.
Proof. exact integer_range. Qed.
Print Assumptions C01_integer_in_range.
Example C01_ex : integer (-9223372036854775808) 9223372036854775807 [0; 0; 5; 7]
  = Ok (-9223372036854775804, [7]).
Proof. vm_compute. reflexivity. Qed.

(* C02: every value of the range is produced by exactly floor(2^64/(upper-lower)) of the
   2^64 words, hence all values equally often *)
Theorem C02_integer_uniform : forall lower upper, is_i64 lower -> is_i64 upper -> lower < upper ->
  forall v, lower <= v < upper ->
  exists b, 0 <= b /\ b + two64 / (upper - lower) <= two64 /\
  forall x, is_u64 x ->
    (integer lower upper [x] = Ok (v, []) <-> b <= x < b + two64 / (upper - lower)).
Proof. exact integer_uniform. Qed.
Print Assumptions C02_integer_uniform.
Example C02_ex : is_i64 (-3) /\ is_i64 4 /\ -3 <= 2 < 4 /\
  integer (-3) 4 [13176245766935394011 + 2] = Ok (2, []) /\
  integer (-3) 4 [0] = Fuel.
Proof. unfold is_i64. vm_compute. intuition congruence. Qed.

(* ... a word that produces nothing is skipped, and more than half of all words are used *)
Theorem C02_integer_redraw : forall lower upper x ws, is_i64 lower -> is_i64 upper ->
  lower < upper ->
  integer lower upper (x :: ws) =
    match integer lower upper [x] with
    | Ok (v, _) => Ok (v, ws)
    | _ => integer lower upper ws
    end.
Proof. exact integer_redraw. Qed.
Print Assumptions C02_integer_redraw.
Example C02_redraw_ex : integer (-3) 4 [0; 1000; 2 ^ 63] = Ok (-3, [2 ^ 63]).
Proof. vm_compute. reflexivity. Qed.

Theorem C02_integer_accepts_majority : forall s, 0 < s < two64 ->
  two64 < 2 * (s * (two64 / s)).
Proof. exact accepted_majority. Qed.
Print Assumptions C02_integer_accepts_majority.
Example C02_majority_ex : two64 < 2 * ((two63 + 1) * (two64 / (two63 + 1))).
Proof. vm_compute. reflexivity. Qed.

(* C03: the 32-bit limb path returns the same value and consumes the same words *)
Theorem C03_portable_equal : forall lower upper ws, is_i64 lower -> is_i64 upper ->
  Forall is_u64 ws -> integerPortable lower upper ws = integer lower upper ws.
Proof. exact integer_portable. Qed.
Print Assumptions C03_portable_equal.
Example C03_ex : integerPortable (-9223372036854775808) 9223372036854775807
    [18446744073709551615] = Ok (9223372036854775806, []).
Proof. vm_compute. reflexivity. Qed.

(* C49: bit() is unbiased: there is a self-inverse map of the 64-bit words that flips it *)
Theorem C49_bit_unbiased : exists f : Z -> Z,
  forall w, is_u64 w -> is_u64 (f w) /\ f (f w) = w /\ bitOf (f w) = negb (bitOf w).
Proof. exact bits_unbiased. Qed.
Print Assumptions C49_bit_unbiased.
Example C49_ex : bitOf 18446744073709551615 = false /\ bitOf 18446744073709551614 = true.
Proof. vm_compute. split; reflexivity. Qed.
