(* Graphs with the same number of edges are equally likely in randomGraph(n, p). *)
From Coq Require Import Permutation.
From Verif Require Import Base Tac RndModel RndLemmas RandSpec FloatModel FloatSpec FloatProofs RandIntModel RandIntProofs RandSeqModel ShuffleProofs DistinctProofs UniformProofs RealModel RealSpec RealProofs RealProofs2 RealProofs3 RealProofs4 RealProofs5.
From Verif Require Import GenModel GenSpec GenProofs GenProofs2 GenOpsModel GenProofs3 GenOpsProofs GenOpsProofs2 GenMakeModel GenMakeSpec GenMakeProofs GenRandSpec GenRandProofs GenRandProofs2 UniformProofs3.
From Coq Require Import QArith Qfield ZArith Lia.
From Coq Require Import SpecFloat.
From Verif Require Import FloatSpec RealSpec.
Open Scope Z_scope.

Lemma count_edges : forall E dir (g : graph E) M n, represents dir g 0 n M -> edgeCount g = countPairs (isEdge M) (allPairs dir n).
Proof.
  intros E dir g M n R. pose proof (edges_NoDup E dir g M 0 n R) as NG. pose proof (rep_edges _ _ _ _ _ _ R) as (FO & RE & LI).
  assert (SY : dir = false -> forall u v, M u v = M v u) by apply R.
  set (norm := fun e : Z * Z * E => if dir then fst e else (Z.min (fst (fst e)) (snd (fst e)), Z.max (fst (fst e)) (snd (fst e)))).
  assert (P : Permutation (map norm (getEdges g)) (filter (fun p => isEdge M (fst p) (snd p)) (allPairs dir n))).
  { apply NoDup_Permutation.
    - apply map_NoDup_in; auto. intros [[a b] d] [[x y] f] I J Q.
      destruct (ForallOrdPairs_In FO _ _ I J) as [|[D|D]]; [auto| |]; exfalso; apply D; unfold norm in Q; cbn [fst snd] in *; unfold samePair; (destruct dir eqn:DD; [injection Q as -> ->; auto|]; injection Q as Q1 Q2; lia).
    - apply NoDup_filter. apply allPairs_NoDup.
    - intros [u v]. rewrite filter_In, in_map_iff, allPairs_in. cbn [fst snd]. unfold isEdge. split.
      + intros ([[a b] d] & Q & I). destruct (RE _ _ _ I) as (MA & A & B & N). unfold norm in Q. cbn [fst snd] in Q. destruct dir eqn:DD.
        * injection Q as <- <-. rewrite MA. auto.
        * injection Q as <- <-. destruct (Z.le_ge_cases a b) as [L|L].
          -- rewrite Z.min_l, Z.max_r by lia. rewrite MA. repeat split; try lia.
          -- rewrite Z.min_r, Z.max_l by lia. rewrite <- (SY eq_refl a b), MA. repeat split; try lia.
      + intros ((U & V & L) & X). destruct (M u v) as [d|] eqn:Q; [|discriminate]. apply LI in Q as (x & y & I & S). exists (x, y, d). split; auto. unfold norm. cbn [fst snd].
        destruct dir; destruct S as [(-> & ->)|(D & -> & ->)]; auto; try discriminate; f_equal; lia. }
  apply Permutation_length in P. rewrite map_length in P. unfold countPairs, edgeCount, alen. rewrite <- P. unfold getEdges. rewrite map_length. auto.
Qed.
Lemma graphIs_count : forall E dir (g : graph E) M n P, represents dir g 0 n M -> graphIs (allPairs dir n) P (Ok g) = true -> edgeCount g = countPairs P (allPairs dir n).
Proof.
  intros E dir g M n P R H. rewrite (count_edges E dir g M n R). unfold graphIs in H. rewrite forallb_forall in H. unfold countPairs. f_equal. apply filter_ext_in. intros [u v] I. specialize (H _ I).
  cbn [fst snd] in *. apply allPairs_in in I as (U & V & _). rewrite (has_rep E dir g M 0 n u v R U V) in H. apply eqb_prop in H. auto.
Qed.
Lemma randomGraph_other : forall E (dir : bool) (dflt : E) n m, 0 <= n -> is_i64 (n * (n - 1)) -> 0 <= m <= (if dir then n * (n - 1) else n * (n - 1) / 2) ->
  forall P, countPairs P (allPairs dir n) <> m -> (Pr (randomGraph dflt dir n m) (graphIs (allPairs dir n) P) == 0)%Q.
Proof.
  intros E dir dflt n m N I M P C. unfold Pr. rewrite <- (expect_zero _ (randomGraph dflt dir n m)). apply expect_ext_always. eapply always_mono; [|apply (randomGraph_always E dir dflt n m N I M)].
  intros [g| | |]; cbn [returns]; try contradiction. intros (Q & R & CG). destruct (graphIs (allPairs dir n) P (Ok g)) eqn:G; [|reflexivity]. exfalso. apply C. rewrite <- CG. symmetry. eapply graphIs_count; eauto.
Qed.

Section Exchange.
  Variable sqrt log log1p lgamma : real -> real.
  Variable lgammaZ : Z -> real.
  Variable unspecified : real -> Z.
  Lemma randomGraphP_law : forall E (dflt : E) (dir : bool) fuel fuel' n p P, (fuel' <= 15)%nat -> 0 <= n -> is_i64 (n * (n - 1)) -> number p -> (0 <= val p <= 1)%Q ->
    SFleb rzero (log1p (ropp (lesser p))) = true \/ stepsFit log (log1p (ropp (lesser p))) (n * (n - 1) / 2) ->
    let lim := if dir then n * (n - 1) else n * (n - 1) / 2 in let m := countPairs P (allPairs dir n) in
    (Pr (randomGraphP sqrt log log1p lgamma lgammaZ unspecified E dflt dir fuel fuel' n p) (graphIs (allPairs dir n) P) ==
     Pr (binomial sqrt log log1p lgamma lgammaZ unspecified fuel fuel' (n * (n - 1) / 2) p) (resultIs Z.eq_dec m) *
     (inject_Z (zfact (Z.to_nat m)) * inject_Z (zfact (Z.to_nat (lim - m))) / inject_Z (zfact (Z.to_nat lim))))%Q.
  Proof.
    intros E dflt dir fuel fuel' n p P F N I NP VP H lim m. unfold randomGraphP. rewrite chk_Ok by auto. cbn [lift rbind]. assert (N2 : 0 <= n * (n - 1)) by nia.
    rewrite Z.quot_div_nonneg by lia. assert (H2 : 0 <= n * (n - 1) / 2 < 2 ^ 63 - 1) by (set (k := n * (n - 1)) in *; mach; lia).
    set (c := (inject_Z (zfact (Z.to_nat m)) * inject_Z (zfact (Z.to_nat (lim - m))) / inject_Z (zfact (Z.to_nat lim)))%Q).
    unfold Pr. rewrite expect_bind. rewrite (Qmult_comm _ c), <- expect_scale. apply expect_ext_always.
    eapply always_mono; [|apply binomial_range; eauto]. intros [x| | |]; cbn [orFuel]; try contradiction; [|intros _; cbn [expect resultIs graphIs]; ring].
    intros X. cbn [resultIs]. assert (L : 0 <= x <= lim) by (unfold lim; destruct dir; set (k := n * (n - 1)) in *; lia).
    change (Pr (randomGraph dflt dir n x) (graphIs (allPairs dir n) P) == c * (if if Z.eq_dec x m then true else false then 1 else 0))%Q.
    destruct (Z.eq_dec x m) as [->|NE].
    - unfold m, c, lim in *. pose proof (randomGraph_uniform E dir dflt n m N I P eq_refl L) as U. cbv zeta in U. unfold graphLim in U. unfold m in U. rewrite U. unfold m. rewrite Qmult_1_r. reflexivity.
    - rewrite randomGraph_other; auto. ring.
  Qed.
  Lemma randomGraphP_same : forall E (dflt : E) (dir : bool) fuel fuel' n p P Q, (fuel' <= 15)%nat -> 0 <= n -> is_i64 (n * (n - 1)) -> number p -> (0 <= val p <= 1)%Q ->
    SFleb rzero (log1p (ropp (lesser p))) = true \/ stepsFit log (log1p (ropp (lesser p))) (n * (n - 1) / 2) ->
    countPairs P (allPairs dir n) = countPairs Q (allPairs dir n) ->
    (Pr (randomGraphP sqrt log log1p lgamma lgammaZ unspecified E dflt dir fuel fuel' n p) (graphIs (allPairs dir n) P) ==
     Pr (randomGraphP sqrt log log1p lgamma lgammaZ unspecified E dflt dir fuel fuel' n p) (graphIs (allPairs dir n) Q))%Q.
  Proof. intros. rewrite !randomGraphP_law by auto. rewrite H5. reflexivity. Qed.
End Exchange.
