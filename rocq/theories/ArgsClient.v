(* What a caller of the command line parser can observe. *)
From Verif Require Import Base ArgsSpec ArgsModel.

(* a duplicated command *)
Definition dupCommand (args : list str) : Prop :=
  exists c l1 l2 l3, isCmd c /\ args = l1 ++ c :: l2 ++ c :: l3.

(* every way of reading the parameters of c agrees with the list ps *)
Definition shows (c : command) (ps : list str) : Prop :=
  parameterCount c = alen ps /\
  (forall i, parameter c i = Ok (if 0 <=? i then nth_error ps (Z.to_nat i) else None)) /\
  ctoken c = hd_error ps /\
  asStrings c None = Ok ps /\
  (forall n, asStrings c (Some n) = if (n <=? length ps)%nat then Ok (firstn n ps) else Throw).
