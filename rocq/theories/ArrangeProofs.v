(* The law of the order of edges and ends behind permutateEdges and permutate, and what the example generator can print. *)
From Verif Require Import Base Tac SeqModel SeqProofs RndModel RandSeqModel RandSpec RndLemmas ShuffleProofs SortLemmas DistinctProofs
  GenModel GenSpec GenProofs GenProofs2 GenOpsModel GenProofs3 GenOpsProofs GenOpsProofs2 GenRandProofs UniformProofs UniformProofs3 ArrangeSpec.
From Coq Require Import QArith Qfield Sorted Permutation.
Import ListNotations.
Open Scope Z_scope.

Lemma expect_rbit : forall f, (expect rbit f == (f (Ok false) + f (Ok true)) / 2)%Q.
Proof.
  intro f. unfold rbit. rewrite expect_bind. rewrite expect_rint by lia. change (zseq 0 (Z.to_nat (2 - 0))) with [0; 1]. change (inject_Z (2 - 0)) with 2%Q.
  unfold qsum. cbn [fold_right expect ret]. change (0 =? 1) with false. change (1 =? 1) with true. unfold Qdiv. ring.
Qed.

Section Arrange.
  Variable E : Type.
  Variable dir : bool.
  Variable dec : forall x y : E, {x = y} + {x <> y}.
  Notation tri := (pairOf E).

  Definition tdec : forall x y : Z * Z * E, {x = y} + {x <> y}.
  Proof. repeat decide equality. Defined.
  Definition ldec := list_eq_dec tdec.

  Variable pi : Z -> Z.
  Definition turned (b : bool) (e : edge E) : Z * Z * E := if b then (pi (eto e), pi (efrom e), edat e) else (pi (efrom e), pi (eto e), edat e).
  Definition fits (e : edge E) (t : Z * Z * E) : bool :=
    (if tdec (turned false e) t then true else false) || (negb dir && if tdec (turned true e) t then true else false).
  Fixpoint fitsAll (l : list (edge E)) (T : list (Z * Z * E)) : bool :=
    match l, T with [], [] => true | e :: l, t :: T => fits e t && fitsAll l T | _, _ => false end.
  Definition share (n : nat) : Q := (1 / inject_Z (if dir then 1 else 2 ^ Z.of_nat n))%Q.
  Definition hit (T : list (Z * Z * E)) (o : outcome (list (edge E))) : Q := match o with Ok l => if ldec (map tri l) T then 1%Q else 0%Q | _ => 0%Q end.

  Lemma share_S : forall n, (share (S n) == (if dir then 1 else (1 # 2)) * share n)%Q.
  Proof.
    intro n. unfold share. destruct dir; [reflexivity|]. rewrite Nat2Z.inj_succ, Z.pow_succ_r by lia. rewrite inject_Z_mult. change (1 # 2)%Q with (/ inject_Z 2)%Q. field.
    apply inject_Z_nonzero. pose proof (Z.pow_pos_nonneg 2 (Z.of_nat n)). lia.
  Qed.
  Lemma hit_zero : forall (m : rnd (list (edge E))) f, (forall l, f (Ok l) == 0)%Q -> (f Throw == 0)%Q -> (f UB == 0)%Q -> (f Fuel == 0)%Q -> (expect m f == 0)%Q.
  Proof. intros m f A B C D. rewrite <- (expect_zero _ m). apply expect_ext. intros [l| | |]; auto. Qed.

  Lemma flip_law : forall h l T,
    (forall e b, In e l -> (dir = true -> b = false) -> exists e', h (if b : bool then flipEdge e else e) = Ok e' /\ tri e' = turned b e) ->
    (forall e, In e l -> pi (efrom e) <> pi (eto e)) ->
    (expect (flipAll dir h l) (hit T) == if fitsAll l T then share (length l) else 0)%Q.
  Proof.
    intros h l. induction l as [|e l IH]; intros T H NE.
    - cbn [flipAll expect ret hit map fitsAll length]. destruct (ldec [] T) as [<-|N]; [unfold share; destruct dir; reflexivity|]. destruct T; [congruence|reflexivity].
    - cbn [flipAll]. rewrite expect_bind.
      assert (STEP : forall b, (dir = true -> b = false) ->
        (expect (let? e0 := lift (h (if b : bool then flipEdge e else e)) in let? r := flipAll dir h l in ret (e0 :: r)) (hit T) ==
         match T with [] => 0 | t :: T' => if tdec (turned b e) t then (if fitsAll l T' then share (length l) else 0) else 0 end)%Q).
      { intros b B. destruct (H e b (or_introl eq_refl) B) as (e' & -> & TE). cbn [lift rbind]. rewrite expect_bind. destruct T as [|t T'].
        - apply hit_zero; reflexivity.
        - destruct (tdec (turned b e) t) as [Q|Q].
          + rewrite <- IH; [|intros; apply H; [right|]; auto|intros; apply NE; right; auto]. apply expect_ext. intros [r| | |]; try reflexivity. cbn [expect ret hit map].
            destruct (ldec (tri e' :: map tri r) (t :: T')) as [X|X], (ldec (map tri r) T') as [Y|Y]; try reflexivity; exfalso; [congruence|]. apply X. rewrite TE, Q, Y. auto.
          + apply hit_zero; try reflexivity. intro r. cbn [expect ret hit map]. destruct (ldec (tri e' :: map tri r) (t :: T')) as [X|X]; [congruence|reflexivity]. }
      assert (OPP : turned false e <> turned true e) by (unfold turned; intro X; injection X; intros; eapply NE; [left; reflexivity|]; auto).
      cbn [length]. destruct dir eqn:D.
      + cbn [expect ret]. rewrite (STEP false) by auto. destruct T as [|t T']; [reflexivity|]. cbn [fitsAll]. unfold fits. rewrite D. cbn [negb andb]. rewrite orb_false_r.
        destruct (tdec (turned false e) t); cbn [andb]; [|reflexivity]. destruct (fitsAll l T'); [|reflexivity]. rewrite share_S, D. ring.
      + rewrite expect_rbit. rewrite (STEP false), (STEP true) by (intros; discriminate). destruct T as [|t T']; [reflexivity|]. cbn [fitsAll]. unfold fits. rewrite D. cbn [negb andb].
        destruct (tdec (turned false e) t) as [X|X], (tdec (turned true e) t) as [Y|Y]; cbn [orb andb]; [congruence| | |reflexivity];
          (destruct (fitsAll l T'); [rewrite share_S, D; unfold Qdiv; change (/ 2)%Q with (1 # 2)%Q; ring|reflexivity]).
  Qed.

  Lemma fits_iff : forall e t, fits e t = true <-> samePair dir (pi (efrom e)) (pi (eto e)) (fst (fst t)) (snd (fst t)) /\ snd t = edat e.
  Proof.
    intros e [[x y] d]. unfold fits, turned, samePair. cbn [fst snd]. rewrite orb_true_iff, andb_true_iff, negb_true_iff. split.
    - intros [A|(D & A)]; destruct (tdec _ _) as [Q|Q] in A; try discriminate; inversion Q; subst; auto.
    - intros [[(<- & <-)|(D & <- & <-)] ->]; [left|right; split; auto]; destruct (tdec _ _); auto.
  Qed.
  Lemma fitsAll_iff : forall l T, fitsAll l T = true <-> Forall2 (fun e t => samePair dir (pi (efrom e)) (pi (eto e)) (fst (fst t)) (snd (fst t)) /\ snd t = edat e) l T.
  Proof.
    induction l as [|e l IH]; intros [|t T]; cbn [fitsAll]; split; intro H; auto; try discriminate; try (inversion H; fail).
    - apply andb_true_iff in H as (A & B). constructor; [apply fits_iff; auto|apply IH; auto].
    - inversion H; subst. apply andb_true_iff. split; [apply fits_iff; auto|apply IH; auto].
  Qed.
End Arrange.

Section Law.
  Variable E : Type.
  Variable dir : bool.
  Variable dec : forall x y : E, {x = y} + {x <> y}.
  Definition edec : forall x y : edge E, {x = y} + {x <> y}.
  Proof. repeat decide equality. Defined.

  Lemma tri_inj : forall e f : edge E, pairOf E e = pairOf E f -> e = f.
  Proof.
    intros [k t d] [k' t' d'] H. unfold pairOf, efrom in H. cbn [ekey eto edat] in H. injection H as A B C. subst t' d'. f_equal.
    rewrite <- (Z.lxor_0_r k), <- (Z.lxor_0_r k'), <- (Z.lxor_nilpotent t), <- !Z.lxor_assoc, A. reflexivity.
  Qed.
  Lemma Forall2_map_l : forall A B C (f : A -> B) (R : B -> C -> Prop) l l', Forall2 R (map f l) l' <-> Forall2 (fun x => R (f x)) l l'.
  Proof.
    intros A B C f R. induction l as [|x l IH]; intros l'; cbn [map]; split; intro H; inversion H; subst; constructor; auto; apply IH; auto.
  Qed.

  Lemma arrange_law : forall (g : graph E) M lo hi (pi : Z -> Z) h L (ev : outcome (graph E) -> bool), represents dir g lo hi M ->
    (forall u, lo <= u < hi -> lo <= pi u < hi) -> (forall u v, lo <= u < hi -> lo <= v < hi -> pi u = pi v -> u = v) ->
    (forall e b, In e (edges g) -> (dir = true -> b = false) -> exists e', h (if b : bool then flipEdge e else e) = Ok e' /\ pairOf E e' = turned E pi b e) ->
    arrangement dir pi (getEdges g) L -> (forall o, ev o = true <-> exists g', o = Ok g' /\ getEdges g' = L) ->
    (Pr (let? es := shuffle (edges g) in let? es := flipAll dir h es in lift (buildAdj dir (mkGraph (adj (clearAdj g)) es lo))) ev ==
     1 / inject_Z (zfact (length L) * (if dir then 1 else 2 ^ alen L)))%Q.
  Proof.
    intros g M lo hi pi h L ev R PI INJ HH (p & PP & FP) EV. pose proof (rep_edges _ _ _ _ _ _ R) as (FO & RE & _).
    destruct (Permutation_map_inv _ _ (Permutation_sym PP)) as (p0 & -> & P0). rewrite Forall2_map_l in FP.
    change (Forall2 (fun e t => samePair dir (pi (efrom e)) (pi (eto e)) (fst (fst t)) (snd (fst t)) /\ snd t = edat e) p0 L) in FP.
    pose proof (proj2 (fitsAll_iff E dir dec pi p0 L) FP) as F0.
    assert (LL : length p0 = length L) by (clear - FP; induction FP; cbn; auto).
    assert (LE : length (edges g) = length L) by (rewrite <- LL; apply Permutation_length; auto).
    assert (RE1 : forall e, In e (edges g) -> lo <= efrom e < hi /\ lo <= eto e < hi /\ efrom e <> eto e).
    { intros e I. apply (RE _ _ (edat e)). apply in_map_iff. exists e. auto. }
    assert (ND : NoDup (edges g)).
    { pose proof (edges_NoDup E dir g M lo hi R) as N. unfold getEdges in N. eapply NoDup_map_inv; eauto. }
    assert (SAME : forall e f, In e (edges g) -> In f (edges g) -> samePair dir (efrom e) (eto e) (efrom f) (eto f) -> e = f).
    { intros e f I J S1. destruct (edec e f) as [|N]; auto. exfalso. unfold getEdges in FO. rewrite FOP_map in FO.
      destruct (ForallOrdPairs_In FO e f I J) as [Q|[Q|Q]]; [auto| |]; apply Q; auto. apply samePair_sym. auto. }
    assert (UNI : forall q, Permutation (edges g) q -> fitsAll E dir dec pi q L = true -> q = p0).
    { intros q PQ FQ. apply fitsAll_iff in FQ. assert (IQ : incl q (edges g)) by (intros x X; eapply Permutation_in; [symmetry; exact PQ|auto]).
      assert (I0 : incl p0 (edges g)) by (intros x X; eapply Permutation_in; [symmetry; exact P0|auto]).
      clear - FQ FP IQ I0 SAME INJ RE1. revert p0 FP I0. induction FQ as [|e t q L (S1 & D1) FQ IH]; intros p0 FP I0; inversion FP as [|x t' p1 L' (S2 & D2) FP']; subst; auto.
      assert (IE : In e (edges g)) by (apply IQ; left; auto). assert (IX : In x (edges g)) by (apply I0; left; auto).
      destruct (RE1 e IE) as (E1 & E2 & _), (RE1 x IX) as (X1 & X2 & _). f_equal.
      - apply SAME; auto. assert (S3 : samePair dir (pi (efrom e)) (pi (eto e)) (pi (efrom x)) (pi (eto x))) by (eapply samePair_trans; [exact S1|apply samePair_sym; exact S2]).
        destruct S3 as [(A & B)|(D & A & B)]; [left|right; split; auto]; split; apply INJ; auto.
      - apply IH; auto; intros y Y; [apply IQ|apply I0]; right; auto. }
    unfold Pr. rewrite expect_bind.
    rewrite (expect_ext_always _ _ _ (fun o => share dir (length L) * (if resultIs (list_eq_dec edec) p0 o then 1 else 0))%Q).
    - rewrite expect_scale. change (expect (shuffle (edges g)) (fun o => if resultIs (list_eq_dec edec) p0 o then 1 else 0)%Q) with (Pr (shuffle (edges g)) (resultIs (list_eq_dec edec) p0)).
      rewrite (shuffle_uniform edec) by auto. rewrite LE. unfold share, alen. rewrite inject_Z_mult. assert (Z1 : zfact (length L) <> 0) by (pose proof (zfact_pos (length L)); lia).
      assert (Z2 : (if dir then 1 else 2 ^ Z.of_nat (length L)) <> 0) by (destruct dir; [lia|]; pose proof (Z.pow_pos_nonneg 2 (Z.of_nat (length L))); lia).
      field. split; apply inject_Z_nonzero; assumption.
    - eapply always_mono; [|apply shuffle_always]. intros [es1| | |]; cbn [returns]; try contradiction. intros PM. rewrite expect_bind.
      assert (I1 : incl es1 (edges g)) by (intros x X; eapply Permutation_in; [symmetry; exact PM|auto]).
      rewrite (expect_ext_always _ _ _ (hit E dec L)).
      + rewrite (flip_law E dir dec pi); [|intros; apply HH; auto|intros e I Q; destruct (RE1 e) as (A & B & C); auto]. rewrite <- (Permutation_length PM), LE. cbn [resultIs].
        destruct (list_eq_dec edec es1 p0) as [->|N]; [rewrite F0; ring|]. destruct (fitsAll E dir dec pi es1 L) eqn:F; [exfalso; apply N; apply UNI; auto|ring].
      + eapply always_mono; [|apply (flipAll_ok E dir h (fun e e' => samePair dir (pi (efrom e)) (pi (eto e)) (efrom e') (eto e') /\ edat e' = edat e))].
        * intros [es'| | |]; cbn [returns]; try contradiction. intros F.
          destruct (relabel_rep E dir g M lo hi pi es1 es' R PI INJ PM F) as (a' & M' & BA & _). rewrite (proj1 (rep_len _ _ _ _ _ _ R)) in BA. rewrite BA. cbn [lift expect hit].
          destruct (ev (Ok (mkGraph a' es' lo))) eqn:Q.
          -- apply EV in Q as (g' & Q & X). injection Q as <-. destruct (ldec E dec (map (pairOf E) es') L) as [|N]; [reflexivity|exfalso; apply N; exact X].
          -- destruct (ldec E dec (map (pairOf E) es') L) as [X|N]; [|reflexivity]. rewrite (proj2 (EV _)) in Q; [discriminate|]. eexists. split; [reflexivity|exact X].
        * intros e b I B. destruct (HH e b (I1 _ I) B) as (e' & Q & T). exists e'. split; auto. unfold pairOf, turned in T. destruct b; injection T as T1 T2 T3; rewrite T1, T2, T3; split; auto; [right|left]; auto.
          split; auto. destruct dir; auto.
  Qed.

  Lemma permutateEdges_law : forall (g : graph E) M lo hi L (ev : outcome (graph E) -> bool), represents dir g lo hi M ->
    arrangement dir (fun u => u) (getEdges g) L -> (forall o, ev o = true <-> exists g', o = Ok g' /\ getEdges g' = L) ->
    (Pr (permutateEdges dir g) ev == 1 / inject_Z (zfact (length L) * (if dir then 1 else 2 ^ alen L)))%Q.
  Proof.
    intros g M lo hi L ev R A EV. unfold permutateEdges. rewrite (proj1 (rep_len _ _ _ _ _ _ R)). apply (arrange_law g M lo hi (fun u => u)); auto.
    intros e b _ _. eexists. split; [reflexivity|]. unfold pairOf, turned. destruct b; [rewrite efrom_flip, eto_flip|]; reflexivity.
  Qed.
  Lemma permutateWith_law : forall (g : graph E) M lo hi perm L (ev : outcome (graph E) -> bool), represents dir g lo hi M ->
    Permutation (zseq lo (Z.to_nat (hi - lo))) perm -> is_i64 lo -> is_i64 hi -> hi - lo <= I64_MAX ->
    arrangement dir (fun u => getz perm (u - lo)) (getEdges g) L -> (forall o, ev o = true <-> exists g', o = Ok g' /\ getEdges g' = L) ->
    (Pr (permutateWith dir g perm) ev == 1 / inject_Z (zfact (length L) * (if dir then 1 else 2 ^ alen L)))%Q.
  Proof.
    intros g M lo hi perm L ev R P IL IH SZ A EV. destruct (rep_len _ _ _ _ _ _ R) as (ML & NC & H & N). pose proof (rep_edges _ _ _ _ _ _ R) as (_ & RE & _).
    unfold permutateWith. rewrite ML. assert (LP : length perm = Z.to_nat (hi - lo)) by (rewrite <- (Permutation_length P); apply zseq_length).
    destruct (isPerm_ok perm lo) as [[-> _]|(x & l1 & l2 & _ & NP & _)].
    - apply Forall_forall. intros x I. apply (Permutation_in _ (Permutation_sym P)) in I. apply in_zseq in I. mach. lia.
    - cbn [lift rbind fst judgeAssert]. destruct (perm_array perm lo _ P) as (PA & PB). replace (lo + Z.of_nat (Z.to_nat (hi - lo))) with hi in * by lia.
      apply (arrange_law g M lo hi (fun u => getz perm (u - lo))); auto.
      + intros u U. apply PA. auto.
      + intros e b I _. destruct (RE (efrom e) (eto e) (edat e)) as (_ & A1 & A2 & _); [apply in_map_iff; exists e; auto|].
        unfold relabel. destruct (PA _ A1) as (G1 & _). destruct (PA _ A2) as (G2 & _). destruct b.
        * rewrite efrom_flip, eto_flip, G1, G2. cbn [bind]. eexists. split; [reflexivity|]. unfold pairOf, turned. rewrite efrom_mk. reflexivity.
        * rewrite G1, G2. cbn [bind]. eexists. split; [reflexivity|]. unfold pairOf, turned. rewrite efrom_mk. reflexivity.
    - exfalso. apply NP. rewrite LP. exact P.
  Qed.
End Law.
