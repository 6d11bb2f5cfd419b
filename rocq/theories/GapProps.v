(* C77, C78: geometric, binomial and maximum evaluate their formulas at consecutive results of real(). *)
From Verif Require Import Base RndModel FloatModel FloatSpec RealModel RealSpec RealFormSpec GapSpec GapProofs.
From Coq Require Import QArith ZArith SpecFloat.
Open Scope Z_scope.

(* floor(log(u) / log(1 - p)) *)
Theorem C78_geometric_formula : forall log log1p unspecified fuel p ws u g,
  SFleb rzero p = true -> SFltb p rone = true -> play (randomReal fuel) ws = Ok u ->
  isFloor (rdiv (log u) (log1p (ropp p))) g -> is_i64 g -> play (geometric log log1p unspecified fuel p) ws = Ok g.
Proof. exact (fun log log1p => geometric_form id log log1p id id id ofZ). Qed.
Print Assumptions C78_geometric_formula.
Theorem C78_geometricIn_formula : forall log log1p unspecified lower upper p us r, firstGap log lower upper (log1p (ropp p)) us r ->
  forall fuel fuel' k ws, lower < upper -> SFleb rzero p = true -> SFltb p rone = true -> play (reals fuel' k) ws = Ok us -> (k <= fuel)%nat ->
  play (geometricIn log log1p unspecified fuel fuel' lower upper p) ws = Ok r.
Proof. exact (fun log log1p => geometricIn_form id log log1p id id id ofZ). Qed.
Print Assumptions C78_geometricIn_formula.
(* few successes (or few failures) are expected: the number of successes with geometric gaps *)
Theorem C78_binomial_gaps : forall sqrt log log1p lgamma lgammaZ unspecified fuel fuel' n p j ws us k,
  0 <= n -> SFleb rzero p = true -> SFleb p rone = true ->
  let low := smaller p in SFltb (rmul low (ofZ n)) (ofZ 10) = true -> SFleb rzero (log1p (ropp low)) = false ->
  play (reals fuel' j) ws = Ok us -> (j <= fuel)%nat -> successes log n (log1p (ropp low)) 0 us k ->
  play (binomial sqrt log log1p lgamma lgammaZ unspecified fuel fuel' n p) ws = Ok (if SFltb (lit 1 2) p then n - k else k).
Proof. exact (fun sqrt log log1p => binomial_gaps sqrt log log1p id id). Qed.
Print Assumptions C78_binomial_gaps.
(* otherwise: the algorithm BTRS of Hoermann; m is the mode *)
Theorem C78_binomial_btrs : forall sqrt log log1p lgamma lgammaZ unspecified fuel fuel' n p j ws us m k,
  0 <= n -> is_i64 (n + 1) -> SFleb rzero p = true -> SFleb p rone = true ->
  let low := smaller p in SFltb (rmul low (ofZ n)) (ofZ 10) = false -> isFloor (rmul (ofZ (n + 1)) low) m ->
  play (reals fuel' j) ws = Ok us -> (j <= fuel)%nat -> btrs sqrt log lgamma lgammaZ n low m us k ->
  play (binomial sqrt log log1p lgamma lgammaZ unspecified fuel fuel' n p) ws = Ok (if SFltb (lit 1 2) p then n - k else k).
Proof. exact (fun sqrt log log1p => binomial_btrs sqrt log log1p id id). Qed.
Print Assumptions C78_binomial_btrs.
(* lower + (upper - lower) * u^(1/n), cut to the range *)
Theorem C77_maximum_formula : forall log2 exp2 fuel lower upper n ws u z, is_i64 lower -> is_i64 upper -> 5 <= n -> lower < upper ->
  play (randomReal fuel) ws = Ok u -> isFloor (rmul (ofZ (upper - lower)) (exp2 (rdiv (log2 u) (ofZ n)))) z -> 0 <= z <= upper - lower ->
  play (maximum log2 exp2 fuel lower upper n) ws = Ok (Z.min (upper - 1) (lower + z)).
Proof. exact (fun log2 exp2 => maximum_form id id id log2 exp2 id ofZ (fun _ => 0)). Qed.
Print Assumptions C77_maximum_formula.

(* with made-up functions; the draws are 1/4 and 1/2 *)
Definition exLog (u : real) : real := rmul (ofZ (-9)) u.
Definition exLog1p (_ : real) : real := ofZ (-1).
Definition exNone (_ : real) : Z := -77.
Ltac exFloor := vm_compute; repeat split; discriminate.
Example C78_ex_gaps : let quarter := lit 1 4 in let half := lit 1 2 in
  play (reals 2 2) [0; 2; 0; 1] = Ok [quarter; half] /\
  isFloor (rdiv (exLog quarter) (exLog1p rzero)) 2 /\ isFloor (rdiv (exLog half) (exLog1p rzero)) 4 /\
  play (geometric exLog exLog1p exNone 2 half) [0; 2; 0; 1] = Ok 2 /\
  firstGap exLog 10 14 (exLog1p rzero) [half; quarter] 12 /\
  play (geometricIn exLog exLog1p exNone 2 2 10 14 half) [0; 1; 0; 2] = Ok 12 /\
  successes exLog 7 (exLog1p rzero) 0 [quarter; half] 1 /\
  play (binomial id exLog exLog1p id ofZ exNone 2 2 7 quarter) [0; 2; 0; 1] = Ok 1 /\
  play (binomial id exLog exLog1p id ofZ exNone 2 2 7 (lit 3 4)) [0; 2; 0; 1] = Ok 6 /\
  play (maximum exLog (fun x => ropp x) 2 100 200 10) [0; 2] = Ok 122.
Proof.
  cbv zeta. split; [vm_compute; reflexivity|]. split; [exFloor|]. split; [exFloor|]. split; [vm_compute; reflexivity|]. split.
  { apply (gap_skip _ _ _ _ _ _ 4); [exFloor|exFloor|discriminate|]. apply (gap_take _ 10 _ _ _ _ 2); [exFloor|exFloor|reflexivity]. }
  split; [vm_compute; reflexivity|]. split.
  { apply (suc_next _ _ _ _ _ _ 2 0); [exFloor|exFloor|discriminate|]. apply (suc_end _ _ _ _ _ _ 4); [exFloor|exFloor|reflexivity]. }
  split; [vm_compute; reflexivity|]. split; [vm_compute; reflexivity|]. vm_compute; reflexivity.
Qed.
Definition exSqrt (_ : real) : real := ofZ 3.
Definition exGamma (_ : real) : real := ofZ 100.
Example C78_ex_btrs : let quarter := lit 1 4 in let half := lit 1 2 in
  SFltb (rmul (smaller half) (ofZ 40)) (ofZ 10) = false /\ isFloor (rmul (ofZ 41) half) 20 /\
  btrs exSqrt exLog exGamma (fun _ => rzero) 40 half 20 [half; quarter] 20 /\
  play (binomial exSqrt exLog exLog1p exGamma (fun _ => rzero) exNone 2 2 40 half) [0; 1; 0; 2] = Ok 20 /\
  btrs exSqrt exLog exGamma (fun _ => rzero) 40 half 20 [quarter; half] 18 /\
  play (binomial exSqrt exLog exLog1p exGamma (fun _ => rzero) exNone 2 2 40 half) [0; 2; 0; 1] = Ok 18 /\
  btrs exSqrt exLog (fun _ => ofZ (-100)) (fun _ => rzero) 40 half 20 [quarter; half; half; quarter] 20 /\
  play (binomial exSqrt exLog exLog1p (fun _ => ofZ (-100)) (fun _ => rzero) exNone 4 2 40 half) [0; 2; 0; 1; 0; 1; 0; 2] = Ok 20.
Proof.
  cbv zeta. split; [vm_compute; reflexivity|]. split; [exFloor|]. split.
  { apply btrs_accept; [exFloor|split; discriminate|left; split; vm_compute; reflexivity]. }
  split; [vm_compute; reflexivity|]. split.
  { apply btrs_accept; [exFloor|split; discriminate|right; vm_compute; reflexivity]. }
  split; [vm_compute; reflexivity|]. split.
  { apply (btrs_reject _ _ _ _ _ _ _ _ _ _ 18); [exFloor|split; discriminate|intros [_ H]; vm_compute in H; discriminate|intro H; vm_compute in H; discriminate|].
    apply btrs_accept; [exFloor|split; discriminate|left; split; vm_compute; reflexivity]. }
  vm_compute; reflexivity.
Qed.
