(* Cycles, wheels, lollipops, brooms, grids and cubes. *)
From Verif Require Import Base Tac RndModel RndLemmas GenModel GenSpec GenProofs GenProofs2 GenOpsModel GenProofs3 GenOpsProofs GenOpsProofs2 GenOpsProofs3.
From Verif Require Import GenMakeModel GenMakeSpec GenMakeProofs.

Lemma edgesBy_eq : forall E (d : E) (P Q : Z -> Z -> bool) u v, P u v = Q u v -> edgesBy d P u v = edgesBy d Q u v.
Proof. intros. unfold edgesBy. rewrite H. auto. Qed.
Lemma isEdge_by : forall E (d : E) P u v, isEdge (edgesBy d P) u v = P u v.
Proof. intros. unfold isEdge, edgesBy. destruct (P u v); auto. Qed.
(* the test for x = (y + 1) mod n *)
Lemma succ_mod : forall n x, 0 < n -> 0 <= x < n -> (x + 1) mod n = if x =? n - 1 then 0 else x + 1.
Proof.
  intros n x N X. destruct (x =? n - 1) eqn:Q.
  - replace (x + 1) with n by lia. apply Z.mod_same. lia.
  - apply Z.mod_small. lia.
Qed.

Section Und.
  Variable E : Type.
  Variable dflt : E.
  Lemma cycle_rep : forall n, 2 <= n -> exists g, cycle dflt n = Ok g /\
    represents false g 0 n (edgesBy dflt (sym false (fun u v => inside 0 n u && (v =? (u + 1) mod n)))).
  Proof.
    intros n N. unfold cycle. destruct (path_rep E false dflt (n - 1)) as (g & -> & R); [lia|]. cbn [bind].
    destruct (add_rep E false g _ 0 (n - 1 + 1) (n - 1) 0 dflt R) as (g' & -> & R'); try lia. exists g'. split; auto.
    replace (n - 1 + 1) with n in R' by lia. eapply rep_ext; [exact R'|]. intros u v.
    transitivity (edgesBy dflt (fun u v => samePairb false (n - 1) 0 u v || sym false (fun u v => inside 0 (n - 1) u && (v =? u + 1)) u v) u v).
    - unfold put, edgesBy. destruct (samePairb false (n - 1) 0 u v); auto.
    - apply edgesBy_eq. unfold samePairb, sym. cbn [negb andb].
      destruct (inside 0 n u) eqn:U; destruct (inside 0 n v) eqn:V; unfold inside in *;
        rewrite ?(succ_mod n u) by lia; rewrite ?(succ_mod n v) by lia; destruct (u =? n - 1) eqn:A; destruct (v =? n - 1) eqn:B; lia.
  Qed.
  Lemma cycle_throws : forall n, n <= 1 -> cycle dflt n = @Throw (graph E).
  Proof.
    intros n N. unfold cycle. destruct (Z_lt_dec n 0) as [L|L].
    - unfold path. rewrite newGraph_throws by lia. auto.
    - destruct (path_rep E false dflt (n - 1)) as (g & -> & R); [lia|]. cbn [bind].
      assert (K : n = 0 \/ n = 1) by lia. destruct R as (ML & AL & _). unfold addEdge, assertNode, nodeCount, judgeAssert. rewrite ML. destruct K; subst n.
      + replace (_ || _) with true by lia. auto.
      + replace (0 - 0 <? 0) with false by auto. destruct (_ || _); auto. 
  Qed.

  (* a star and a path with one node too many *)
  Lemma wheel_rep : forall n, 0 <= n -> exists g, wheel dflt n = Ok g /\
    represents false g 0 (n + 2) (edgesBy dflt (sym false (fun u v => (u =? 0) && inside 1 (n + 1) v || inside 1 (n + 1) u && (v =? u + 1)))).
  Proof.
    intros n N. unfold wheel. destruct (star_rep E false dflt n N) as (s & -> & S). cbn [bind].
    destruct (path_rep E false dflt n) as (p & -> & P); [lia|]. cbn [bind].
    destruct (setMinId_rep E false p _ _ _ 1 P) as (p' & -> & P'). cbn [bind].
    destruct (combine_rep E false s _ _ _ p' _ _ _ S P') as (g & -> & R). exists g. split; auto.
    replace (Z.min 0 1) with 0 in R by lia. replace (Z.max (n + 1) (1 + (n + 1 - 0))) with (n + 2) in R by lia.
    eapply rep_ext; [exact R|]. intros u v. cbv beta. unfold edgesBy, sym, inside. cbn [negb andb].
    match goal with |- (match (if ?a then _ else _) with _ => _ end) = (if ?b then _ else _) => destruct a eqn:A end.
    - match goal with |- _ = (if ?b then _ else _) => replace b with true by lia end. auto.
    - match goal with |- (if ?a then _ else _) = (if ?b then _ else _) => replace b with a by lia end. auto.
  Qed.
  Lemma lolly_rep : forall p c, 0 <= p -> 0 <= c -> exists g, lolly dflt p c = Ok g /\
    represents false g 0 (p + Z.max 1 c) (edgesBy dflt (fun u v => sym false (fun u v => inside 0 p u && (v =? u + 1)) u v ||
      inside p (p + c) u && inside p (p + c) v && negb (u =? v))).
  Proof.
    intros p c P C. unfold lolly. destruct (path_rep E false dflt p) as (a & -> & A); [lia|]. cbn [bind].
    destruct (clique_rep E false dflt c C) as (b & -> & B). cbn [bind].
    destruct (setMinId_rep E false b _ _ _ p B) as (b' & -> & B'). cbn [bind].
    destruct (combine_rep E false a _ _ _ b' _ _ _ A B') as (g & -> & R). exists g. split; auto.
    replace (Z.min 0 p) with 0 in R by lia. replace (Z.max (p + 1) (p + (c - 0))) with (p + Z.max 1 c) in R by lia.
    eapply rep_ext; [exact R|]. intros u v. cbv beta. unfold edgesBy, sym, inside. cbn [negb andb].
    match goal with |- (match (if ?a then _ else _) with _ => _ end) = (if ?b then _ else _) => destruct a eqn:AA end.
    - match goal with |- _ = (if ?b then _ else _) => replace b with true by lia end. auto.
    - match goal with |- (if ?a then _ else _) = (if ?b then _ else _) => replace b with a by lia end. auto.
  Qed.
  Lemma broom_rep : forall p c, 0 <= p -> 0 <= c -> exists g, broom dflt p c = Ok g /\
    represents false g 0 (p + c + 1) (edgesBy dflt (sym false (fun u v => inside 0 p u && (v =? u + 1) || (u =? p) && inside (p + 1) (p + c + 1) v))).
  Proof.
    intros p c P C. unfold broom. destruct (path_rep E false dflt p) as (a & -> & A); [lia|]. cbn [bind].
    destruct (star_rep E false dflt c C) as (b & -> & B). cbn [bind].
    destruct (setMinId_rep E false b _ _ _ p B) as (b' & -> & B'). cbn [bind].
    destruct (combine_rep E false a _ _ _ b' _ _ _ A B') as (g & -> & R). exists g. split; auto.
    replace (Z.min 0 p) with 0 in R by lia. replace (Z.max (p + 1) (p + (c + 1 - 0))) with (p + c + 1) in R by lia.
    eapply rep_ext; [exact R|]. intros u v. cbv beta. unfold edgesBy, sym, inside. cbn [negb andb].
    match goal with |- (match (if ?a then _ else _) with _ => _ end) = (if ?b then _ else _) => destruct a eqn:AA end.
    - match goal with |- _ = (if ?b then _ else _) => replace b with true by lia end. auto.
    - match goal with |- (if ?a then _ else _) = (if ?b then _ else _) => replace b with a by lia end. auto.
  Qed.
  Lemma grid_rep : forall n m, 0 <= n -> 0 <= m -> exists g M, grid dflt n m = Ok g /\ represents false g 0 (n * m) M /\
    forall x y x' y', 0 <= x < n -> 0 <= x' < n -> 0 <= y < m -> 0 <= y' < m ->
      M (y * n + x) (y' * n + x') = if Z.abs (x - x') + Z.abs (y - y') =? 1 then Some dflt else None.
  Proof.
    intros n m N NM. unfold grid. destruct (path_rep E false dflt (n - 1)) as (a & -> & A); [lia|]. cbn [bind].
    destruct (path_rep E false dflt (m - 1)) as (b & -> & B); [lia|]. cbn [bind].
    destruct (cartesian_rep E dflt false a b _ _ _ _ _ _ A B) as (g & M & -> & R & H). exists g, M. split; auto.
    replace (n - 1 + 1 - 0) with n in * by lia. replace (m - 1 + 1 - 0) with m in * by lia. split; auto.
    intros x y x' y' X X' Y Y'. specialize (H x x' y y'). rewrite !Z.sub_0_r in H. rewrite H by lia. rewrite !isEdge_by.
    match goal with |- (if ?a then _ else _) = (if ?b then _ else _) => replace a with b; auto end.
    unfold sym, inside. cbn [negb andb]. lia.
  Qed.
End Und.
