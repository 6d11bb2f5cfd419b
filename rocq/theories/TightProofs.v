From Coq Require Import QArith Qabs Lqa String.
From Verif Require DegModel DegProofs2.
From Coq Require Sorted Permutation.
From Verif Require Import Tac GeoModel GeoSpec GraphModel GenModel GenMakeModel GenMakeProofs3 InitModel InitSpec InitProofs ExampleModel ExampleSpec VisModel RealModel RealProofs3.
From Coq Require Import SpecFloat.
From Verif Require Import FloatModel FloatSpec RealSpec.
From Verif Require SvgDocProofs4 FloatProofs RndLemmas.
Open Scope Z_scope.

Lemma products : forall a b,
  (forall d, dot a b = Ok d <-> is_i64 (fst a * fst b) /\ is_i64 (snd a * snd b) /\ is_i64 d /\ d = fst a * fst b + snd a * snd b) /\
  (forall c, GeoModel.cross a b = Ok c <-> is_i64 (fst a * snd b) /\ is_i64 (snd a * fst b) /\ is_i64 c /\ c = GeoSpec.orient (0, 0) a b) /\
  (forall p c, cross3 p a b = Ok c -> c = GeoSpec.orient p a b) /\
  dot a b <> Throw /\ dot a b <> Fuel /\ GeoModel.cross a b <> Throw /\ GeoModel.cross a b <> Fuel.
Proof.
  intros [ax ay] [bx by_]. unfold dot, cross3, GeoModel.cross, GeoSpec.orient, chk, is_i64. cbn [fst snd].
  repeat split; intros;
  repeat (match goal with
          | H : context [if ?x then _ else _] |- _ => destruct x eqn:?; cbn [bind] in *
          | |- context [if ?x then _ else _] => destruct x eqn:?; cbn [bind] in *
          end); try discriminate; unfold in_i64 in *;
  try (match goal with H : Ok _ = Ok _ |- _ => inv H end); try (f_equal; lia); try lia; try (exfalso; lia).
Qed.

(* ---- booleanLattice and rado beyond int ---- *)
Lemma lattice_range : forall E (dflt : E) dir level,
  (level < 0 \/ 31 < level -> booleanLattice dflt dir level = UB) /\ booleanLattice dflt dir 31 = Throw.
Proof.
  intros E dflt dir level. split; [|reflexivity]. intros H. unfold booleanLattice, shl1.
  replace ((0 <=? level) && (level <? 31)) with false by lia. replace (level =? 31) with false by lia. reflexivity.
Qed.

Lemma radoLoop_ub : forall k fuel i j, 0 <= j -> j + Z.of_nat k = 32 -> 2 ^ 30 < i -> (k <= fuel)%nat -> radoLoop fuel i j = UB.
Proof.
  induction k as [|k IH]; intros fuel i j J K I F.
  - assert (j = 32) as -> by lia. destruct fuel; reflexivity.
  - destruct fuel as [|fuel]; [lia|]. cbn [radoLoop]. unfold shl1.
    destruct ((0 <=? j) && (j <? 31)) eqn:L.
    + cbn [bind]. assert (2 ^ j <= 2 ^ 30) by (apply Z.pow_le_mono_r; lia). replace (2 ^ j <? i) with true by lia.
      rewrite IH by lia. reflexivity.
    + assert (j = 31) as -> by lia. cbn [Z.eqb bind Pos.eqb]. replace (- 2 ^ 31 <? i) with true by lia.
      rewrite IH by lia. reflexivity.
Qed.

Lemma mapM_UB : forall A B (h : A -> outcome B) l1 x l2, (forall y, In y l1 -> exists z, h y = Ok z) -> h x = UB -> mapM h (l1 ++ x :: l2) = UB.
Proof.
  intros A B h l1 x l2. induction l1 as [|y l1 IH]; intros H U; cbn [app mapM].
  - rewrite U. reflexivity.
  - destruct (H y (or_introl eq_refl)) as (z & ->). cbn [bind]. rewrite IH; auto. intros w W. apply H. right. auto.
Qed.

Lemma rado_range : forall E (dflt : E) dir n,
  (n < 0 -> rado dflt dir n = Throw) /\ (2 ^ 30 + 1 < n -> rado dflt dir n = UB).
Proof.
  intros E dflt dir n. split; intros H; unfold rado, newGraph, judgeAssert.
  - replace (0 <=? n) with false by lia. reflexivity.
  - replace (0 <=? n) with true by lia. cbn [bind].
    assert (U : upto n = RndModel.zseq 0 (Z.to_nat (2 ^ 30 + 1)) ++ (2 ^ 30 + 1) :: RndModel.zseq (2 ^ 30 + 2) (Z.to_nat (n - (2 ^ 30 + 2)))).
    { unfold upto. replace (Z.to_nat n) with (Z.to_nat (2 ^ 30 + 1) + S (Z.to_nat (n - (2 ^ 30 + 2))))%nat by lia.
      rewrite RndLemmas.zseq_app. rewrite Z2Nat.id by lia. reflexivity. }
    rewrite U, mapM_UB; [reflexivity| |].
    + intros y Y. apply RndLemmas.in_zseq in Y. rewrite Z2Nat.id in Y by lia.
      destruct (radoLoop_ok 30 64 y 0) as (l & -> & _); [lia|change (0 + Z.of_nat 30) with 30; lia|lia|lia|eauto].
    + apply (radoLoop_ub 32); lia.
Qed.

(* ---- Integers as Reals ---- *)
Lemma ofZ_opp : forall p, ofZ (Zneg p) = ropp (ofZ (Zpos p)).
Proof.
  intros p. unfold ofZ, binary_normalize, ropp, binary_round, binary_round_aux.
  repeat match goal with |- context [let (_, _) := ?x in _] => destruct x end.
  destruct (shr_m s0); try reflexivity. destruct (z1 <=? emax - prec); reflexivity.
Qed.
Lemma pos_sign : forall p, Zpos p <= 2 ^ 64 -> signbit (ofZ (Zpos p)) = false /\ signbit (ropp (ofZ (Zpos p))) = true.
Proof.
  intros p H. destruct (ofZ_val (Zpos p) ltac:(lia)) as ((N1 & N2) & V).
  revert V N2. destruct (ofZ (Z.pos p)) as [s|s| |s m e]; try discriminate; intros V _; cbn [val] in V.
  destruct s; [|split; reflexivity]. exfalso. unfold signed in V.
    assert (0 < inject_Z (Zpos p))%Q by reflexivity. pose proof (FloatProofs.val_pos m e). lra.
Qed.
Lemma conversion : forall z, Z.abs z <= 2 ^ 64 ->
  number (ofZ z) /\ (val (ofZ z) == inject_Z z)%Q /\ (signbit (ofZ z) = true <-> z < 0).
Proof.
  intros [|p|p] H.
  - destruct (ofZ_val 0 ltac:(lia)) as (N & V). split; [exact N|]. split; [exact V|]. split; [discriminate|lia].
  - destruct (ofZ_val (Zpos p) ltac:(lia)) as (N & V). split; [exact N|]. split; [exact V|].
    destruct (pos_sign p H) as [-> _]. split; [discriminate|lia].
  - destruct (ofZ_val (Zpos p) ltac:(lia)) as (N & V). rewrite ofZ_opp.
    destruct (SvgDocProofs4.opp_ok _ N) as (N' & V'). split; [exact N'|]. split.
    + unfold ropp. rewrite V', V. reflexivity.
    + destruct (pos_sign p H) as [_ ->]. split; [lia|reflexivity].
Qed.

(* ---- the width of the strokes in visualizer.svg.cpp ---- *)
Lemma tenth_double : number tenth /\ (Qabs (val tenth - (1 # 10)) <= 1 # (2 ^ 57))%Q /\ exists k, (val tenth == inject_Z k / inject_Z (2 ^ 56))%Q.
Proof.
  split; [split; reflexivity|]. split; [vm_compute; discriminate|]. exists 7205759403792794. vm_compute. reflexivity.
Qed.

(* ---- the examples throw when init does ---- *)
Lemma ready_start : forall parse args, ready parse args (strictWorld start) <-> ready parse args start.
Proof. intros. unfold ready. cbn. tauto. Qed.
Lemma thrown_input : forall parse args stdin, ~ (ready parse args start /\ constraintsOk args) ->
  inputMain parse args stdin = Thrown /\ graphMain parse args stdin = Thrown /\ constraintsMain parse args stdin = Thrown.
Proof.
  intros parse args stdin H. unfold inputMain, graphMain, constraintsMain.
  destruct (initInput_cases parse args stdin start) as [(R & K & _)|(N & ->)]; [|repeat split].
  exfalso. apply H. split; [apply ready_start; exact R|exact K].
Qed.
Lemma thrown_answer : forall parse files args stdin, (forall tb, ~ (ready parse args start /\ constraintsOk args /\ fileAt files args 1 tb)) ->
  answerMain parse files args stdin = Thrown.
Proof.
  intros parse files args stdin H. unfold answerMain.
  destruct (initAnswer_cases parse files args stdin start) as [(tb & R & K & F & _)|(N & ->)]; [|reflexivity].
  exfalso. apply (H tb). split; [apply ready_start; exact R|auto].
Qed.
Lemma thrown_output : forall parse files writable args stdin,
  (forall tb jb, ~ (ready parse args start /\ constraintsOk args /\ messagesOk writable args /\ fileAt files args 1 tb /\ fileAt files args 2 jb)) ->
  outputMain parse files writable args stdin = Thrown.
Proof.
  intros parse files writable args stdin H. unfold outputMain.
  destruct (initOutput_cases parse files writable args stdin start) as [(tb & jb & R & K & M & F1 & F2 & _)|(N & ->)]; [|reflexivity].
  exfalso. apply (H tb jb). auto.
Qed.

(* ---- the queue of randomGraph for degrees ---- *)
Lemma push_lex : forall q e, Sorted.StronglySorted (fun a b => fst b < fst a \/ fst b = fst a /\ snd b <= snd a) q ->
  Sorted.StronglySorted (fun a b => fst b < fst a \/ fst b = fst a /\ snd b <= snd a) (DegModel.pqPush e q).
Proof.
  induction q as [|x q IH]; intros e S; cbn [DegModel.pqPush]; [repeat constructor|]. inv S. destruct (DegModel.pairLess e x) eqn:Q.
  - constructor; [apply IH; auto|]. apply Forall_forall. intros y I. apply (Permutation.Permutation_in _ (DegProofs2.push_perm q e)) in I. destruct I as [<-|I].
    + unfold DegModel.pairLess in Q. lia.
    + rewrite Forall_forall in H2. auto.
  - constructor; [constructor; auto|]. constructor.
    + unfold DegModel.pairLess in Q. lia.
    + eapply Forall_impl; [|exact H2]. cbn beta. intros y Y. unfold DegModel.pairLess in Q. lia.
Qed.
Lemma init_lex : forall ds i q, Sorted.StronglySorted (fun a b => fst b < fst a \/ fst b = fst a /\ snd b <= snd a) q ->
  Sorted.StronglySorted (fun a b => fst b < fst a \/ fst b = fst a /\ snd b <= snd a) (DegModel.pqInit i ds q).
Proof. induction ds as [|d ds IH]; intros i q S; cbn [DegModel.pqInit]; auto. apply IH. destruct (0 <? d); auto. apply push_lex. auto. Qed.
Lemma init_in : forall ds i q d j, In (d, j) (DegModel.pqInit i ds q) <-> In (d, j) q \/ 0 < d /\ i <= j /\ nth_error ds (Z.to_nat (j - i)) = Some d.
Proof.
  induction ds as [|x ds IH]; intros i q d j; cbn [DegModel.pqInit].
  - split; [auto|]. intros [I|(_ & _ & N)]; auto. destruct (Z.to_nat (j - i)); discriminate N.
  - rewrite IH. clear IH. assert (X : In (d, j) (if 0 <? x then DegModel.pqPush (x, i) q else q) <-> In (d, j) q \/ 0 < d /\ j = i /\ x = d).
    { destruct (Z.ltb_spec 0 x).
      - split.
        + intro I. apply (Permutation.Permutation_in _ (DegProofs2.push_perm q (x, i))) in I. destruct I as [I|I]; auto. inv I. auto.
        + intro I. apply (Permutation.Permutation_in _ (Permutation.Permutation_sym (DegProofs2.push_perm q (x, i)))). destruct I as [I|(P & -> & ->)]; [right|left]; auto.
      - split; auto. intros [I|(P & _ & ->)]; auto. lia. }
    rewrite X. split.
    + intros [[I|(P & -> & ->)]|(P & L & N)]; auto.
      * right. rewrite Z.sub_diag. repeat split; auto. lia.
      * right. repeat split; auto; [lia|]. replace (Z.to_nat (j - i)) with (S (Z.to_nat (j - (i + 1)))) by lia. exact N.
    + intros [I|(P & L & N)]; auto. destruct (Z.eq_dec j i) as [->|NE].
      * rewrite Z.sub_diag in N. inv N. auto.
      * right. repeat split; auto; [lia|]. replace (Z.to_nat (j - i)) with (S (Z.to_nat (j - (i + 1)))) in N by lia. exact N.
Qed.
Lemma queue_order : forall ds, Sorted.StronglySorted (fun a b => fst b < fst a \/ fst b = fst a /\ snd b <= snd a) (DegModel.pqInit 0 ds []) /\
  (forall d j, In (d, j) (DegModel.pqInit 0 ds []) <-> 0 < d /\ 0 <= j /\ nth_error ds (Z.to_nat j) = Some d) /\
  (forall q e, Sorted.StronglySorted (fun a b => fst b < fst a \/ fst b = fst a /\ snd b <= snd a) q ->
    Sorted.StronglySorted (fun a b => fst b < fst a \/ fst b = fst a /\ snd b <= snd a) (DegModel.pqPush e q) /\ Permutation.Permutation (DegModel.pqPush e q) (e :: q)).
Proof.
  intro ds. split; [apply init_lex; constructor|]. split.
  - intros d j. rewrite init_in, Z.sub_0_r. cbn [In]. tauto.
  - intros q e S. split; [apply push_lex; auto|apply DegProofs2.push_perm].
Qed.
