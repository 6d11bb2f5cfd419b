(* C98: the probabilities of what javaSortHack.cpp prints. *)
From Coq Require Import String Permutation QArith.
From Verif Require Import Base RndModel RandSpec InitModel InitSpec GenExSpec ArchModel ArchSpec ArchProofs2 ArchProps.
Open Scope Z_scope.

(* below 47 values each order of mi..mi+n-1 is printed with the same probability *)
Theorem C98_hack_uniform : forall parse fuel args n mi q, ready parse args start -> optionIs args (text "--n") 100000 n -> optionIs args (text "--min") 1 mi ->
  0 <= n < 47 -> is_i64 (mi + n) -> Permutation (zseq mi (Z.to_nat n)) q ->
  (Pr (hackMain parse (S fuel) args) (resultIs (list_eq_dec Z.eq_dec) (numbersText q)) == 1 / inject_Z (zfact (Z.to_nat n)))%Q.
Proof. exact hack_main_uniform. Qed.
Print Assumptions C98_hack_uniform.
Example C98_ex_uniform : (Pr (hackMain noReal 1 [text "./hack"; text "--n"; text "3"; text "--min"; text "-1"]) (resultIs (list_eq_dec Z.eq_dec) (numbersText [1; -1; 0]%Z)) == 1 # 6)%Q.
Proof. vm_compute. reflexivity. Qed.
(* different values are printed differently *)
Theorem C98_text : forall mi n xs ys, 0 <= n -> is_i64 mi -> is_i64 (mi + n) -> alen xs = n -> alen ys = n ->
  Forall (fun x => mi <= x < mi + n) xs -> Forall (fun x => mi <= x < mi + n) ys -> numbersText xs = numbersText ys -> xs = ys.
Proof. exact range_inj. Qed.
Print Assumptions C98_text.
Example C98_ex_text : numbersText [1; 23] <> numbersText [12; 3] /\ numbersText [1; 23] = text "2" ++ [10] ++ text "1 23" ++ [10].
Proof. vm_compute. split; [discriminate|reflexivity]. Qed.
