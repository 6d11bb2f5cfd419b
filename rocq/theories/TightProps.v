(* Additions to C39, C66, C69, C78, C82 and C88. *)
From Coq Require Import QArith Qabs String.
From Verif Require DegModel.
From Coq Require Sorted Permutation.
From Verif Require Import Tac GeoModel GeoSpec GraphModel GenModel GenMakeModel InitModel InitSpec ExampleModel ExampleSpec VisModel RealModel TightProofs.
From Verif Require Import FloatModel FloatSpec RealSpec.
Open Scope Z_scope.

(* C66: dot and cross give exact products, or overflow *)
Theorem C66_products : forall a b,
  (forall d, dot a b = Ok d <-> is_i64 (fst a * fst b) /\ is_i64 (snd a * snd b) /\ is_i64 d /\ d = fst a * fst b + snd a * snd b) /\
  (forall c, GeoModel.cross a b = Ok c <-> is_i64 (fst a * snd b) /\ is_i64 (snd a * fst b) /\ is_i64 c /\ c = GeoSpec.orient (0, 0) a b) /\
  (forall p c, cross3 p a b = Ok c -> c = GeoSpec.orient p a b) /\
  dot a b <> Throw /\ dot a b <> Fuel /\ GeoModel.cross a b <> Throw /\ GeoModel.cross a b <> Fuel.
Proof. exact products. Qed.
Print Assumptions C66_products.
Example C66_products_ex : dot (2, 3) (5, 7) = Ok 31 /\ GeoModel.cross (2, 3) (5, 7) = Ok (-1) /\
  cross3 (1, 1) (2, 3) (5, 7) = Ok (-2) /\ dot (2 ^ 62, 0) (2, 0) = UB.
Proof. vm_compute. repeat split. Qed.

(* C39: 1 << level is computed in int *)
Theorem C39_booleanLattice_range : forall E (dflt : E) dir level,
  (level < 0 \/ 31 < level -> booleanLattice dflt dir level = UB) /\ booleanLattice dflt dir 31 = Throw.
Proof. exact lattice_range. Qed.
Print Assumptions C39_booleanLattice_range.
Theorem C39_rado_range : forall E (dflt : E) dir n,
  (n < 0 -> rado dflt dir n = Throw) /\ (2 ^ 30 + 1 < n -> rado dflt dir n = UB).
Proof. exact rado_range. Qed.
Print Assumptions C39_rado_range.
Example C39_range_ex : booleanLattice tt true (-1) = UB /\ booleanLattice tt true 32 = UB /\ rado tt true (-1) = Throw.
Proof. vm_compute. repeat split. Qed.

(* C78: Integers in the formulas are converted exactly; 0 is positive *)
Theorem C78_conversion : forall z, Z.abs z <= 2 ^ 64 ->
  number (ofZ z) /\ (val (ofZ z) == inject_Z z)%Q /\ (signbit (ofZ z) = true <-> z < 0).
Proof. exact conversion. Qed.
Print Assumptions C78_conversion.
Example C78_conversion_ex : (val (ofZ (- (2 ^ 63 - 1))) == inject_Z (- (2 ^ 63 - 1)))%Q /\ signbit (ofZ 0) = false.
Proof. vm_compute. split; reflexivity. Qed.

(* C82: without the arguments and files they need the examples throw *)
Theorem C82_input_throws : forall parse args stdin, ~ (ready parse args start /\ constraintsOk args) ->
  inputMain parse args stdin = Thrown /\ graphMain parse args stdin = Thrown /\ constraintsMain parse args stdin = Thrown.
Proof. exact thrown_input. Qed.
Print Assumptions C82_input_throws.
Theorem C82_answer_throws : forall parse files args stdin, (forall tb, ~ (ready parse args start /\ constraintsOk args /\ fileAt files args 1 tb)) ->
  answerMain parse files args stdin = Thrown.
Proof. exact thrown_answer. Qed.
Print Assumptions C82_answer_throws.
Theorem C82_output_throws : forall parse files writable args stdin,
  (forall tb jb, ~ (ready parse args start /\ constraintsOk args /\ messagesOk writable args /\ fileAt files args 1 tb /\ fileAt files args 2 jb)) ->
  outputMain parse files writable args stdin = Thrown.
Proof. exact thrown_output. Qed.
Print Assumptions C82_output_throws.
Example C82_throws_ex : forall tb, ~ (ready (fun _ => None) [text "./validator"] start /\ constraintsOk [text "./validator"] /\
  fileAt (fun _ => None) [text "./validator"] 1 tb).
Proof. intros tb (_ & _ & f & A & B). discriminate B. Qed.

(* C88: the width of the strokes is the double next to 0.1 *)
Theorem C88_width : number tenth /\ (Qabs (val tenth - (1 # 10)) <= 1 # (2 ^ 57))%Q /\
  exists k, (val tenth == inject_Z k / inject_Z (2 ^ 56))%Q.
Proof. exact tenth_double. Qed.
Print Assumptions C88_width.
Example C88_width_ex : ((1 # 11) < val tenth < (1 # 9))%Q.
Proof. vm_compute. split; reflexivity. Qed.

(* C69: the queue holds the positive degrees and gives larger nodes first among equal degrees *)
Theorem C69_queue : forall ds, Sorted.StronglySorted (fun a b => fst b < fst a \/ fst b = fst a /\ snd b <= snd a) (DegModel.pqInit 0 ds []) /\
  (forall d j, In (d, j) (DegModel.pqInit 0 ds []) <-> 0 < d /\ 0 <= j /\ nth_error ds (Z.to_nat j) = Some d) /\
  (forall q e, Sorted.StronglySorted (fun a b => fst b < fst a \/ fst b = fst a /\ snd b <= snd a) q ->
    Sorted.StronglySorted (fun a b => fst b < fst a \/ fst b = fst a /\ snd b <= snd a) (DegModel.pqPush e q) /\ Permutation.Permutation (DegModel.pqPush e q) (e :: q)).
Proof. exact queue_order. Qed.
Print Assumptions C69_queue.
Example C69_queue_ex : DegModel.pqInit 0 [1; 2; 0; 2; 1] [] = [(2, 3); (2, 1); (1, 4); (1, 0)].
Proof. vm_compute. reflexivity. Qed.
