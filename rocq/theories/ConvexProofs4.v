(* Random::convex. *)
From Verif Require Import Base BaseLemmas RndModel RandSpec RndLemmas GeoModel RandSeqModel ConvexModel ConvexSpec.
From Verif Require Import ConvexProofs ConvexProofs2 ConvexProofs3 ConvexProofs6 ShuffleProofs PartitionProofs GeoProofs GeoProofs2.
From Coq Require Import ZArith Lia List Permutation Sorted.
Import ListNotations.
Open Scope Z_scope.
Notation point := (Z * Z)%type.

Lemma left_spec : forall p, left p = true <-> leftHalf p.
Proof.
  intros [x y]. unfold left, leftHalf. cbn [fst snd]. destruct (x =? 0) eqn:E; lia.
Qed.
Lemma left_spec_f : forall p, left p = false <-> ~ leftHalf p.
Proof. intros p. rewrite <- left_spec. destruct (left p); split; intros; congruence || tauto. Qed.

Definition small (p : point) : Prop := Z.abs (fst p) < 2 ^ 31 /\ Z.abs (snd p) < 2 ^ 31.

Lemma small_mul : forall u v, Z.abs u < 2 ^ 31 -> Z.abs v < 2 ^ 31 -> - 2 ^ 62 < u * v < 2 ^ 62.
Proof.
  intros u v Hu Hv. assert (Z.abs (u * v) < 2 ^ 62); [| lia].
  rewrite Z.abs_mul. change (2 ^ 62) with (2 ^ 31 * 2 ^ 31). apply Z.mul_lt_mono_nonneg; lia.
Qed.

Lemma cross_small : forall a b, small a -> small b -> cross a b = Ok (cr a b).
Proof.
  intros [x y] [x' y'] [Hx Hy] [Hx' Hy']. unfold cross, cr. cbn [fst snd] in *.
  pose proof (small_mul x y' Hx Hy'). pose proof (small_mul y x' Hy Hx').
  assert (I : forall z, - 2 ^ 63 < z < 2 ^ 63 -> is_i64 z) by (intros; unfold is_i64, I64_MIN, I64_MAX, two63; lia).
  assert (2 ^ 63 = 2 * 2 ^ 62) by reflexivity.
  rewrite chk_Ok by (apply I; lia). cbn [bind]. rewrite chk_Ok by (apply I; lia). cbn [bind].
  apply chk_Ok. apply I; lia.
Qed.

Lemma cyclicLess_ok : forall a b, small a -> small b ->
  exists r, cyclicLess a b = Ok r /\ (r = true <-> before a b).
Proof.
  intros a b Ha Hb. unfold cyclicLess, before.
  destruct (left a) eqn:A, (left b) eqn:B; cbn [xorb andb negb];
    first [apply left_spec in A | apply left_spec_f in A]; first [apply left_spec in B | apply left_spec_f in B].
  - rewrite cross_small by assumption. cbn [bind]. eexists. split; [reflexivity |]. unfold cr. rewrite Z.ltb_lt. tauto.
  - eexists. split; [reflexivity |]. split; [intros _; left; split; assumption | reflexivity].
  - eexists. split; [reflexivity |]. split; [discriminate | tauto].
  - rewrite cross_small by assumption. cbn [bind]. eexists. split; [reflexivity |]. unfold cr. rewrite Z.ltb_lt. tauto.
Qed.

Lemma cyclicSort_ok : forall srt l, Forall small l -> cyclicSort srt l = Ok (srt l).
Proof.
  intros srt l F. unfold cyclicSort.
  assert (D : forall a all, small a -> Forall small all -> allDefined all (cyclicLess a) = Ok tt).
  { intros a all Ha. induction all as [| b all IH]; intros Fa; [reflexivity |]. cbn [allDefined].
    apply Forall_inv in Fa as Hb. destruct (cyclicLess_ok a b Ha Hb) as (r & -> & _). cbn [bind]. apply IH.
    apply Forall_inv_tail in Fa. exact Fa. }
  assert (P : forall l all, Forall small l -> Forall small all -> allPairs l all = Ok tt).
  { clear F l. intros l all F Fa. induction F as [| a l Ha _ IH]; [reflexivity |]. cbn [allPairs].
    rewrite D by assumption. cbn [bind]. exact IH. }
  rewrite P by assumption. reflexivity.
Qed.

(* ---- walking *)
Lemma poly_cons : forall base d ds, poly base (d :: ds) = base :: poly (vadd base d) ds.
Proof.
  intros base d ds. unfold poly. cbn [length seq map]. cbn [firstn]. change (vsum []) with (0, 0). rewrite vadd_0_r. f_equal.
  rewrite <- seq_shift, map_map. apply map_ext. intros i. cbn [firstn vsum fold_right]. fold (vsum (firstn i ds)).
  symmetry. apply vadd_assoc.
Qed.

Lemma walk_ok : forall ds x y mx my,
  (forall k, Z.abs (x + zsum (firstn k (map fst ds))) <= 2 ^ 32 /\ Z.abs (y + zsum (firstn k (map snd ds))) <= 2 ^ 32) ->
  exists mx' my', walk ds x y mx my = Ok (poly (x, y) ds, mx', my') /\
    mx <= mx' /\ my <= my' /\
    (forall k, (1 <= k <= length ds)%nat -> x + zsum (firstn k (map fst ds)) <= mx' /\ y + zsum (firstn k (map snd ds)) <= my') /\
    (mx' = mx \/ exists k, (k <= length ds)%nat /\ mx' = x + zsum (firstn k (map fst ds))) /\
    (my' = my \/ exists k, (k <= length ds)%nat /\ my' = y + zsum (firstn k (map snd ds))).
Proof.
  assert (I : forall z, Z.abs z <= 2 ^ 32 -> is_i64 z) by (intros; unfold is_i64, I64_MIN, I64_MAX, two63; lia).
  induction ds as [| [dx dy] ds IH]; intros x y mx my H.
  - exists mx, my. split; [reflexivity |]. split; [lia |]. split; [lia |]. split; [intros k Hk; cbn [length] in Hk; lia |].
    auto.
  - pose proof (H 1%nat) as [H1 H2]. cbn [map firstn] in H1, H2. rewrite !zsum_cons in H1, H2. cbn [fst snd] in H1, H2.
    change (zsum []) with 0 in H1, H2. rewrite Z.add_0_r in H1, H2.
    cbn [walk fst snd]. rewrite chk_Ok by (apply I; exact H1). cbn [bind]. rewrite chk_Ok by (apply I; exact H2). cbn [bind].
    destruct (IH (x + dx) (y + dy) (Z.max mx (x + dx)) (Z.max my (y + dy))) as (mx' & my' & E & G1 & G2 & G3 & G4 & G5).
    { intros k. pose proof (H (S k)) as Hk. cbn [map firstn] in Hk. rewrite !zsum_cons in Hk. cbn [fst snd] in Hk.
      rewrite <- !Z.add_assoc. exact Hk. }
    rewrite E. cbn [bind]. exists mx', my'. rewrite poly_cons. split; [reflexivity |].
    split; [lia |]. split; [lia |]. split; [| split].
    + intros [| [| k]] Hk; [lia | |]; cbn [length] in Hk.
      * cbn [map firstn]. rewrite !zsum_cons. change (zsum []) with 0. cbn [fst snd]. lia.
      * cbn [map]. change (firstn (S (S k)) ?l) with (firstn (S (S k)) l).
        rewrite (firstn_cons (S k)), (firstn_cons (S k)), !zsum_cons. cbn [fst snd].
        pose proof (G3 (S k) ltac:(lia)). lia.
    + destruct G4 as [G4 | (k & Hk & G4)].
      * destruct (Z.max_spec mx (x + dx)) as [[_ M] | [_ M]]; rewrite M in G4; [| left; exact G4].
        right. exists 1%nat. split; [cbn [length]; lia |]. cbn [map firstn]. rewrite zsum_cons. change (zsum []) with 0. cbn [fst]. lia.
      * right. exists (S k). split; [cbn [length]; lia |]. cbn [map firstn]. rewrite zsum_cons. cbn [fst]. lia.
    + destruct G5 as [G5 | (k & Hk & G5)].
      * destruct (Z.max_spec my (y + dy)) as [[_ M] | [_ M]]; rewrite M in G5; [| left; exact G5].
        right. exists 1%nat. split; [cbn [length]; lia |]. cbn [map firstn]. rewrite zsum_cons. change (zsum []) with 0. cbn [snd]. lia.
      * right. exists (S k). split; [cbn [length]; lia |]. cbn [map firstn]. rewrite zsum_cons. cbn [snd]. lia.
Qed.

Lemma shift_ok : forall dim mx my ps, 0 < dim <= 0x3FFFFFFF -> 0 <= mx <= 2 ^ 31 -> 0 <= my <= 2 ^ 31 ->
  Forall (fun q => Z.abs (fst q) <= 2 ^ 31 /\ Z.abs (snd q) <= 2 ^ 31) ps ->
  shiftAll dim mx my ps = Ok (map (vadd (dim - 1 - mx, dim - 1 - my)) ps).
Proof.
  intros dim mx my ps Hd Hx Hy F.
  assert (I : forall z, Z.abs z <= 2 ^ 33 -> is_i64 z) by (intros; unfold is_i64, I64_MIN, I64_MAX, two63; lia).
  induction F as [| [x y] ps [Fx Fy] _ IH]; [reflexivity |]. cbn [fst snd] in *.
  cbn [shiftAll]. do 5 (rewrite chk_Ok by (apply I; lia); cbn [bind]). rewrite IH. cbn [bind map].
  f_equal. f_equal. unfold vadd. cbn [fst snd]. f_equal; ring.
Qed.
Lemma poly_shift : forall base v ds, map (vadd v) (poly base ds) = poly (vadd v base) ds.
Proof. intros. unfold poly. rewrite map_map. apply map_ext. intros. symmetry. apply vadd_assoc. Qed.

Lemma negs_cons : forall z l, negs (z :: l) = Z.min 0 z + negs l.
Proof. reflexivity. Qed.
Lemma negs_bound : forall l z, In z l -> negs l <= z <= zsum l - negs l.
Proof.
  assert (N : forall l, negs l <= 0 /\ negs l <= zsum l).
  { induction l as [| z l IH]; [cbn; lia |]. rewrite negs_cons, zsum_cons. lia. }
  induction l as [| y l IH]; intros z [].
  - subst y. pose proof (N l). rewrite negs_cons, zsum_cons. lia.
  - pose proof (IH z H). pose proof (N l). rewrite negs_cons, zsum_cons. lia.
Qed.

Definition okDirs (n dim : Z) (ds : list point) : Prop :=
  Z.of_nat (length ds) = n /\ Forall (fun d => d <> (0, 0)) ds /\
  zsum (map fst ds) = 0 /\ negs (map fst ds) = - (2 * dim - 2) /\
  zsum (map snd ds) = 0 /\ negs (map snd ds) = - (2 * dim - 2).

Lemma polygonOf_ok : forall srt n dim ds, sorts srt -> 3 <= n -> 0 < dim <= 0x3FFFFFFF -> okDirs n dim ds ->
  exists ps, polygonOf srt dim ds = Ok ps /\ spans n dim ps /\ (flat ps \/ convex ps /\ NoDup ps).
Proof.
  intros srt n dim ds Hs Hn Hd (L & NZ & Zx & Nx & Zy & Ny).
  unfold polygonOf. rewrite cyclicSort_ok.
  2:{ rewrite Forall_forall. intros d Id. pose proof (negs_bound _ _ (in_map fst _ _ Id)).
      pose proof (negs_bound _ _ (in_map snd _ _ Id)). unfold small. lia. }
  cbn [bind]. destruct (Hs ds NZ) as [P SS]. set (es := srt ds) in *. clearbody es.
  assert (NZ' : Forall (fun d => d <> (0, 0)) es) by (eapply Permutation_Forall; eassumption).
  assert (L' : length es = length ds) by (symmetry; apply Permutation_length; exact P).
  assert (Zx' : zsum (map fst es) = 0) by (rewrite <- Zx; apply zsum_perm, Permutation_map, Permutation_sym; exact P).
  assert (Zy' : zsum (map snd es) = 0) by (rewrite <- Zy; apply zsum_perm, Permutation_map, Permutation_sym; exact P).
  rewrite (negs_perm _ _ (Permutation_map fst P)) in Nx. rewrite (negs_perm _ _ (Permutation_map snd P)) in Ny.
  clear Zx Zy NZ P.
  destruct (sorted_xs es NZ' SS) as (bx & cx & Ex & Hbx & Hcx).
  destruct (sorted_ys es NZ' SS) as (ay & b_y & cy & Ey & Hay & Hby & Hcy).
  assert (X : exists m, (forall k, m - (2 * dim - 2) <= zsum (firstn k (map fst es)) <= m) /\
    (exists k, (k <= length es)%nat /\ zsum (firstn k (map fst es)) = m) /\
    (exists k, (k <= length es)%nat /\ zsum (firstn k (map fst es)) = m - (2 * dim - 2))).
  { exists 0. rewrite Ex in Zx', Nx. pose proof (extent [] bx cx (Forall_nil _) Hbx Hcx Zx') as E. cbn zeta in E. cbn [app] in E.
    rewrite Nx in E. rewrite Ex. change (zsum []) with 0 in E.
    replace (length es) with (length (bx ++ cx)) by (rewrite <- Ex; apply map_length).
    replace (- - (2 * dim - 2)) with (2 * dim - 2) in E by lia. exact E. }
  assert (Y : exists m, (forall k, m - (2 * dim - 2) <= zsum (firstn k (map snd es)) <= m) /\
    (exists k, (k <= length es)%nat /\ zsum (firstn k (map snd es)) = m) /\
    (exists k, (k <= length es)%nat /\ zsum (firstn k (map snd es)) = m - (2 * dim - 2))).
  { exists (zsum ay). rewrite Ey in Zy', Ny. pose proof (extent ay b_y cy Hay Hby Hcy Zy') as E. cbn zeta in E.
    rewrite Ny in E. rewrite Ey.
    replace (length es) with (length (ay ++ b_y ++ cy)) by (rewrite <- Ey; apply map_length).
    replace (- - (2 * dim - 2)) with (2 * dim - 2) in E by lia. exact E. }
  clear Ex Ey Hbx Hcx Hay Hby Hcy Nx Ny bx cx ay b_y cy.
  destruct X as (m & X1 & (kx1 & X2 & X2') & (kx2 & X3 & X3')). destruct Y as (w & Y1 & (ky1 & Y2 & Y2') & (ky2 & Y3 & Y3')).
  pose proof (X1 0%nat) as X0. pose proof (Y1 0%nat) as Y0. cbn [firstn] in X0, Y0. change (zsum []) with 0 in X0, Y0.
  destruct (walk_ok es 0 0 0 0) as (mx & my & E & _ & _ & G3 & G4 & G5).
  { intros k. pose proof (X1 k). pose proof (Y1 k). lia. }
  rewrite E. cbn [bind].
  assert (W0 : 0 <= mx /\ 0 <= my).
  { pose proof (G3 (length es) ltac:(lia)) as [A B]. rewrite firstn_all2 in A by (rewrite map_length; lia).
    rewrite firstn_all2 in B by (rewrite map_length; lia). lia. }
  assert (Emx : mx = m).
  { destruct G4 as [G4 | (k & Hk & G4)].
    - destruct (Nat.eq_dec kx1 0) as [K | K].
      + subst kx1. cbn [firstn] in X2'. change (zsum []) with 0 in X2'. lia.
      + pose proof (G3 kx1 ltac:(lia)). lia.
    - pose proof (X1 k). destruct (Nat.eq_dec kx1 0) as [K | K].
      + subst kx1. cbn [firstn] in X2'. change (zsum []) with 0 in X2'. lia.
      + pose proof (G3 kx1 ltac:(lia)). lia. }
  assert (Emy : my = w).
  { destruct G5 as [G5 | (k & Hk & G5)].
    - destruct (Nat.eq_dec ky1 0) as [K | K].
      + subst ky1. cbn [firstn] in Y2'. change (zsum []) with 0 in Y2'. lia.
      + pose proof (G3 ky1 ltac:(lia)). lia.
    - pose proof (Y1 k). destruct (Nat.eq_dec ky1 0) as [K | K].
      + subst ky1. cbn [firstn] in Y2'. change (zsum []) with 0 in Y2'. lia.
      + pose proof (G3 ky1 ltac:(lia)). lia. }
  subst mx my. clear G3 G4 G5 E.
  rewrite shift_ok; [| exact Hd | lia | lia |].
  2:{ unfold poly. rewrite Forall_map, Forall_forall. intros i _. unfold vadd. cbn [fst snd].
      rewrite fst_vsum, snd_vsum, <- !firstn_map. pose proof (X1 i). pose proof (Y1 i). lia. }
  rewrite poly_shift. set (base := vadd (dim - 1 - m, dim - 1 - w) (0, 0)).
  assert (Bx : fst base = dim - 1 - m) by (unfold base, vadd; cbn [fst snd]; lia).
  assert (By : snd base = dim - 1 - w) by (unfold base, vadd; cbn [fst snd]; lia).
  clearbody base. eexists. split; [reflexivity |].
  assert (Vz : vsum es = (0, 0)).
  { rewrite (surjective_pairing (vsum es)), fst_vsum, snd_vsum, Zx', Zy'. reflexivity. }
  assert (N3 : (3 <= length es)%nat) by lia.
  assert (At : forall k, (k <= length es)%nat -> exists q, In q (poly base es) /\
    fst q = fst base + zsum (firstn k (map fst es)) /\ snd q = snd base + zsum (firstn k (map snd es))).
  { intros k Hk. exists (corner (poly base es) (0 + k)). split.
    - unfold corner. apply nth_In. apply Nat.mod_upper_bound. rewrite poly_length. lia.
    - rewrite (corner_from base es Vz 0 k) by lia. rewrite corner_poly by lia. cbn [firstn]. change (vsum []) with (0, 0).
      rewrite vadd_0_r. unfold vadd, rotate. cbn [skipn firstn fst snd]. rewrite app_nil_r, fst_vsum, snd_vsum, <- !firstn_map.
      split; reflexivity. }
  split; [split; [rewrite poly_length; lia |]; split |].
  { unfold poly. rewrite Forall_map, Forall_forall. intros i _. unfold vadd. cbn [fst snd].
    rewrite fst_vsum, snd_vsum, <- !firstn_map. pose proof (X1 i). pose proof (Y1 i). lia. }
  { split. { destruct (At kx1 X2) as (q & Iq & Q1 & Q2). exists q. split; [exact Iq | lia]. }
  split. { destruct (At kx2 X3) as (q & Iq & Q1 & Q2). exists q. split; [exact Iq | lia]. }
  split. { destruct (At ky1 Y2) as (q & Iq & Q1 & Q2). exists q. split; [exact Iq | lia]. }
    destruct (At ky2 Y3) as (q & Iq & Q1 & Q2). exists q. split; [exact Iq | lia]. }
  apply poly_once; assumption.
Qed.
