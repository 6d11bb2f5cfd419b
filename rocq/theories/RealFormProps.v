(* C78: normal and exponential evaluate their formulas at consecutive results of real(). *)
From Verif Require Import Base Tac RndModel RndLemmas FloatModel FloatSpec RealModel RealSpec RealFormSpec RealFormProofs.
From Coq Require Import QArith Qabs ZArith SpecFloat.
Open Scope Z_scope.

(* fullTurn is two pi up to half a unit in the last place *)
Example C78_fullTurn : (Qabs (val fullTurn - (6283185307179586476925286766559005768 # 1000000000000000000000000000000000000)) <= 1 # (2 ^ 62))%Q.
Proof. vm_compute. discriminate. Qed.

Theorem C78_normal_formula : forall sqrt cos log fuel mean stddev ws u1 u2, SFleb rzero stddev = true -> play (reals fuel 2) ws = Ok [u1; u2] ->
  play (normal sqrt cos log fuel mean stddev) ws = Ok (boxMuller sqrt cos log mean stddev (u1, u2)).
Proof. exact normal_form. Qed.
Print Assumptions C78_normal_formula.
(* both results of a pair are tried, with the cosine first *)
Theorem C78_normalIn_formula : forall sqrt sin cos log fuel fuel' lower upper mean stddev ws us,
  isnan lower = false -> isnan upper = false -> SFltb lower upper = true -> SFleb rzero stddev = true ->
  play (reals fuel' (2 * fuel)) ws = Ok us ->
  play (normalIn sqrt sin cos log fuel fuel' lower upper mean stddev) ws =
  match List.find (fun r => SFleb lower r && SFltb r upper)
    (flat_map (fun u => [boxMuller sqrt cos log mean stddev u; boxMuller sqrt sin log mean stddev u]) (inPairs us)) with Some r => Ok r | None => Fuel end.
Proof. exact normalIn_form. Qed.
Print Assumptions C78_normalIn_formula.
Theorem C78_exponential_formula : forall log fuel lambda ws u, SFltb rzero lambda = true -> play (randomReal fuel) ws = Ok u ->
  play (exponential log fuel lambda) ws = Ok (rdiv (ropp (log u)) lambda).
Proof. exact exponential_form. Qed.
Print Assumptions C78_exponential_formula.
Theorem C78_exponentialIn_formula : forall log fuel fuel' lower upper lambda ws us,
  isfinite lower = true -> isnan upper = false -> SFltb lower upper = true -> SFltb rzero lambda = true ->
  play (reals fuel' fuel) ws = Ok us ->
  play (exponentialIn log fuel fuel' lower upper lambda) ws =
  match List.find (fun r => SFltb r upper) (map (fun u => rsub lower (rdiv (log u) lambda)) us) with Some r => Ok r | None => Fuel end.
Proof. exact exponentialIn_form. Qed.
Print Assumptions C78_exponentialIn_formula.
(* with trig x = x, sqrt x = 1 and log x = 0 normal(0, 1) shows the angle; the draws are 1/4 and 1/2 *)
Example C78_formula_ex : let one := fun _ : real => rone in let zero := fun _ : real => rzero in
  let quarter := lit 1 4 in let half := lit 1 2 in
  play (reals 2 2) [0; 2; 0; 1] = Ok [quarter; half] /\
  play (normal one id zero 2 rzero rone) [0; 2; 0; 1] = Ok pi /\
  play (normalIn one zero id zero 1 2 rzero rone rzero rone) [0; 2; 0; 1] = Ok rzero /\
  play (exponential id 2 half) [0; 1] = Ok (ofZ (-1)) /\
  play (exponentialIn id 1 2 rone (ofZ 5) half) [0; 1] = Ok rzero.
Proof. vm_compute. repeat split. Qed.
