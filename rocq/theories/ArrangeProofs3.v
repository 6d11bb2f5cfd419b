(* The exact law of permutate. *)
From Coq Require Import Permutation QArith Qfield.
From Verif Require Import Base Tac RndModel RndLemmas RandSpec RandSeqModel SeqModel SeqProofs ShuffleProofs DistinctProofs UniformProofs
  GenModel GenSpec GenProofs GenProofs2 GenOpsModel GenProofs3 GenOpsProofs GenOpsProofs2 UniformProofs3 ArrangeSpec ArrangeProofs ArrangeProofs2.
Open Scope Z_scope.

Section Exact.
  Variable E : Type.
  Variable dir : bool.

  Lemma permutateWith_arranges : forall (g : graph E) M lo hi perm, represents dir g lo hi M -> Permutation (zseq lo (Z.to_nat (hi - lo))) perm ->
    is_i64 lo -> is_i64 hi -> hi - lo <= I64_MAX ->
    always (permutateWith dir g perm) (returns (fun g' => arrangement dir (fun u => getz perm (u - lo)) (getEdges g) (getEdges g'))).
  Proof.
    intros g M lo hi perm R P IL IH SZ. destruct (rep_len _ _ _ _ _ _ R) as (ML & NC & H & N). pose proof (rep_edges _ _ _ _ _ _ R) as (_ & RE & _). unfold permutateWith. rewrite ML.
    assert (LP : length perm = Z.to_nat (hi - lo)) by (rewrite <- (Permutation_length P); apply zseq_length).
    destruct (isPerm_ok perm lo) as [[-> _]|(x & l1 & l2 & _ & NP & _)].
    - apply Forall_forall. intros x I. apply (Permutation_in _ (Permutation_sym P)) in I. apply in_zseq in I. mach. lia.
    - cbn [lift rbind fst judgeAssert]. eapply returns_bind; [apply shuffle_always|]. intros es1 PM. cbv beta in PM.
      destruct (perm_array perm lo _ P) as (PA & PB). replace (lo + Z.of_nat (Z.to_nat (hi - lo))) with hi in * by lia.
      set (pi := fun u => getz perm (u - lo)).
      eapply returns_bind; [apply (flipAll_ok E dir _ (fun e e' => samePair dir (pi (efrom e)) (pi (eto e)) (efrom e') (eto e') /\ edat e' = edat e))|].
      { intros e b I B. assert (IG : In e (edges g)) by (eapply Permutation_in; [apply Permutation_sym; exact PM|auto]).
        destruct (RE (efrom e) (eto e) (edat e)) as (_ & A1 & A2 & _); [apply in_map_iff; exists e; auto|].
        unfold relabel. destruct (PA _ A1) as (G1 & _). destruct (PA _ A2) as (G2 & _). destruct b.
        - rewrite efrom_flip, eto_flip, G1, G2. cbn [bind]. eexists. split; [reflexivity|]. rewrite efrom_mk. cbn [eto edat flipEdge]. split; auto. right. unfold pi. split; auto.
          destruct dir; [discriminate (B eq_refl)|auto].
        - rewrite G1, G2. cbn [bind]. eexists. split; [reflexivity|]. rewrite efrom_mk. cbn [eto edat]. split; auto. left. unfold pi. auto. }
      intros es' F. destruct (relabel_rep E dir g M lo hi pi es1 es' R) as (a' & M' & Q & R' & X); auto.
      + intros u U. apply PA. auto.
      + rewrite ML in Q. rewrite Q. cbn [lift always returns]. exists (map (pairOf E) es1). split; [apply Permutation_map; exact PM|]. unfold getEdges. cbn [edges].
        clear - F. induction F as [|e e' l l' Q F IHF]; cbn [map]; constructor; auto.
    - exfalso. apply NP. rewrite LP. exact P.
  Qed.
End Exact.

Lemma in_sum : forall A (dec : forall x y : A, {x = y} + {x <> y}) (ps : list A) p, NoDup ps ->
  (qsum (fun t => if dec p t then 1 else 0) ps == if in_dec dec p ps then 1 else 0)%Q.
Proof.
  intros A dec ps p ND. destruct (in_dec dec p ps) as [I|I].
  - eapply qsum_single; eauto; [destruct (dec p p); [reflexivity|congruence]|]. intros x _ N. cbv beta. destruct (dec p x); [congruence|reflexivity].
  - apply qsum_zero. intros x X. destruct (dec p x); [subst; contradiction|reflexivity].
Qed.

(* ps lists the permutations of the nodes with which L is an arrangement *)
Lemma permutate_law : forall E dir (dec : forall x y : E, {x = y} + {x <> y}) (g : graph E) M lo hi L ps (ev : outcome (graph E) -> bool), represents dir g lo hi M ->
  is_i64 lo -> is_i64 hi -> hi - lo <= I64_MAX -> NoDup ps ->
  (forall p, In p ps <-> Permutation (zseq lo (Z.to_nat (hi - lo))) p /\ arrangement dir (fun u => getz p (u - lo)) (getEdges g) L) ->
  (forall o, ev o = true <-> exists g', o = Ok g' /\ getEdges g' = L) ->
  (Pr (permutate dir g) ev == inject_Z (alen ps) / inject_Z (zfact (Z.to_nat (hi - lo)) * (zfact (length (getEdges g)) * (if dir then 1 else 2 ^ alen (getEdges g)))))%Q.
Proof.
  intros E dir dec g M lo hi L ps ev R IL IH SZ ND PS EV. destruct (rep_len _ _ _ _ _ _ R) as (ML & NC & H & N). unfold permutate. rewrite ML.
  replace (length (adj g)) with (Z.to_nat (hi - lo)) by (unfold alen in NC; lia). set (n := Z.to_nat (hi - lo)) in *.
  set (d := zfact (length (getEdges g)) * (if dir then 1 else 2 ^ alen (getEdges g))).
  assert (D : 0 < d).
  { unfold d. pose proof (zfact_pos (length (getEdges g))). destruct dir; [lia|]. pose proof (Z.pow_pos_nonneg 2 (alen (getEdges g))). unfold alen in *. apply Z.mul_pos_pos; lia. }
  set (ld := list_eq_dec Z.eq_dec).
  unfold Pr at 1. rewrite expect_bind.
  rewrite (expect_ext_always _ _ _ (fun o => (1 / inject_Z d) * qsum (fun t => if resultIs ld t o then 1 else 0) ps)%Q).
  - rewrite expect_scale. rewrite expect_qsum. rewrite (qsum_ext _ _ (fun _ => 1 / inject_Z (zfact n))%Q).
    + rewrite qsum_const. rewrite inject_Z_mult. unfold alen. field. split; apply inject_Z_nonzero; [lia|pose proof (zfact_pos n); lia].
    + intros t T. apply PS in T as (T & _). change (expect (shuffle (zseq lo n)) (fun o => if resultIs ld t o then 1 else 0)%Q) with (Pr (shuffle (zseq lo n)) (resultIs ld t)).
      unfold ld. rewrite (shuffle_uniform Z.eq_dec) by (auto; apply zseq_NoDup). rewrite zseq_length. reflexivity.
  - eapply always_mono; [|apply shuffle_always]. intros [p| | |]; cbn [returns]; try contradiction. intros P. cbn [resultIs].
    assert (IS : (qsum (fun t => if (if ld p t then true else false) then 1 else 0) ps == if in_dec ld p ps then 1 else 0)%Q).
    { rewrite <- (in_sum _ ld ps p ND). apply qsum_ext. intros x _. destruct (ld p x); reflexivity. }
    rewrite IS. change (Pr (permutateWith dir g p) ev == 1 / inject_Z d * (if in_dec ld p ps then 1 else 0))%Q. destruct (in_dec ld p ps) as [I|I].
    + apply PS in I as (_ & A). rewrite (permutateWith_law E dir dec g M lo hi p L ev R P IL IH SZ A EV).
      assert (LL : length L = length (getEdges g)) by (destruct A as (es & PE & F); rewrite (Permutation_length PE); clear - F; induction F; cbn; auto).
      unfold d, alen. rewrite LL. ring.
    + unfold Pr. rewrite (expect_ext_always _ _ _ (fun _ => 0%Q)); [rewrite expect_zero; ring|].
      eapply always_mono; [|apply (permutateWith_arranges E dir g M lo hi p R P IL IH SZ)]. intros [g'| | |]; cbn [returns]; try contradiction. intros A.
      destruct (ev (Ok g')) eqn:Q; [|reflexivity]. apply EV in Q as (g1 & Q & X). injection Q as <-. exfalso. apply I. apply PS. rewrite <- X. auto.
Qed.
