(* Products of graphs and line graphs. *)
From Verif Require Import Base Tac RndModel RndLemmas GenModel GenSpec GenProofs GenProofs2 GenOpsModel GenProofs3 GenOpsProofs GenOpsProofs2.
From Coq Require Import Sorted.

(* number of the node (a, c), 0 <= a < n *)
Definition cell (n a c : Z) : Z := c * n + a.
Lemma cell_inj : forall n a c b d, 0 <= a < n -> 0 <= b < n -> cell n a c = cell n b d -> a = b /\ c = d.
Proof. unfold cell. intros n a c b d A B Q. assert (c = d) by nia. subst. lia. Qed.
Lemma cell_range : forall n m a c, 0 <= a < n -> 0 <= c < m -> 0 <= cell n a c < n * m.
Proof. unfold cell. intros. nia. Qed.

Section Products.
  Variable E : Type.
  Variable dflt : E.
  Implicit Types (g o : graph E) (M O : emap E).

  (* ---- from an edge relation on cells to a built graph ---- *)
  Lemma cells_build : forall dir n m l (R : Z -> Z -> Z -> Z -> bool), 0 <= n -> 0 <= m ->
    Forall (fun p => exists a c b d, p = (cell n a c, cell n b d, dflt) /\ 0 <= a < n /\ 0 <= b < n /\ 0 <= c < m /\ 0 <= d < m /\ (a <> b \/ c <> d)) l ->
    ForallOrdPairs (diffPairs E dir) l ->
    (forall a c b d, 0 <= a < n -> 0 <= b < n -> 0 <= c < m -> 0 <= d < m ->
      (R a c b d = true <-> In (cell n a c, cell n b d, dflt) l \/ (dir = false /\ In (cell n b d, cell n a c, dflt) l))) ->
    exists g' M', (let! res := newGraph 0 (n * m) in buildAdj dir (emplaceEdges res l)) = Ok g' /\ represents dir g' 0 (n * m) M' /\
      forall a c b d, 0 <= a < n -> 0 <= b < n -> 0 <= c < m -> 0 <= d < m ->
        M' (cell n a c) (cell n b d) = if R a c b d then Some dflt else None.
  Proof.
    intros dir n m l R N0 M0 F P H. destruct (emplace_build E dir 0 (n * m) l (mapOf E dir l)) as (a' & Q & R').
    - nia.
    - eapply Forall_impl; [|exact F]. intros p (a & c & b & d & -> & A & B & C & D & NE). cbn [fst snd]. split; [apply cell_range; auto|]. split; [apply cell_range; auto|].
      intro Q. apply cell_inj in Q; auto. lia.
    - auto.
    - apply (mapOf_lists E dir l P).
    - eexists _, (mapOf E dir l). split; [exact Q|]. split; [exact R'|]. intros a c b d A B C D. apply option_eq. intro x. rewrite (mapOf_lists E dir l P _ _ x).
      rewrite Forall_forall in F. split.
      + intros (u & v & I & J). assert (x = dflt) by (destruct (F _ I) as (? & ? & ? & ? & X & _); congruence). subst x.
        replace (R a c b d) with true; auto. symmetry. apply H; auto. destruct J as [[<- <-]|(DF & -> & ->)]; auto.
      + destruct (R a c b d) eqn:RT; [|discriminate]. intro X. inv X. apply H in RT; auto. destruct RT as [I|(DF & I)]; eexists _, _; (split; [exact I|]); [left|right]; auto.
  Qed.

  Lemma product_rep : forall g o M O lo hi lo' hi', represents false g lo hi M -> represents false o lo' hi' O ->
    exists g' M', product dflt false g o = Ok g' /\ represents false g' 0 ((hi - lo) * (hi' - lo')) M' /\
      forall a b c d, lo <= a < hi -> lo <= b < hi -> lo' <= c < hi' -> lo' <= d < hi' ->
        M' ((c - lo') * (hi - lo) + (a - lo)) ((d - lo') * (hi - lo) + (b - lo)) = if isEdge M a b && isEdge O c d then Some dflt else None.
  Proof.
    intros g o M O lo hi lo' hi' R R'. destruct (rep_len _ _ _ _ _ _ R) as (ML & NC & H & N). destruct (rep_len _ _ _ _ _ _ R') as (ML' & NC' & H' & N').
    pose proof (rep_edges _ _ _ _ _ _ R) as (P & RE & L). pose proof (rep_edges _ _ _ _ _ _ R') as (P' & RE' & L').
    unfold product. rewrite N, N'. unfold newId. rewrite ML, ML', N. set (l := flat_map _ _).
    assert (IL : forall p, In p l <-> exists a b x c d y, In (a, b, x) (getEdges g) /\ In (c, d, y) (getEdges o) /\
      (p = (cell (hi - lo) (a - lo) (c - lo'), cell (hi - lo) (b - lo) (d - lo'), dflt) \/ p = (cell (hi - lo) (a - lo) (d - lo'), cell (hi - lo) (b - lo) (c - lo'), dflt))).
    { intro p. unfold l. rewrite in_flat_map. split.
      - intros ([[a b] x] & I & J). apply in_flat_map in J as ([[c d] y] & J & K). exists a, b, x, c, d, y. cbn [In] in K. unfold cell. intuition.
      - intros (a & b & x & c & d & y & I & J & K). exists (a, b, x). split; auto. apply in_flat_map. exists (c, d, y). split; auto. cbn [In]. unfold cell in K. intuition. }
    destruct (cells_build false (hi - lo) (hi' - lo') l (fun a c b d => isEdge M (a + lo) (b + lo) && isEdge O (c + lo') (d + lo'))) as (g' & M' & Q & RR & X).
    - lia.
    - lia.
    - apply Forall_forall. intros p I. apply IL in I as (a & b & x & c & d & y & I & J & [-> | ->]); apply RE in I as (_ & A & B & AB); apply RE' in J as (_ & C & D & CD);
        eexists _, _, _, _; (split; [reflexivity|]); lia.
    - unfold l. apply FOP_flat_map.
      + apply Forall_forall. intros [[a b] x] I. apply RE in I as (_ & A & B & AB). apply FOP_flat_map.
        * apply Forall_forall. intros [[c d] y] J. apply RE' in J as (_ & C & D & CD). repeat constructor. unfold diffPairs, samePair. cbn [fst snd]. intros [[Q1 Q2]|(_ & Q1 & Q2)];
            fold (cell (hi - lo) (a - lo) (c - lo')) in Q1; apply (cell_inj (hi - lo)) in Q1; lia.
        * eapply FOP_ext; [|exact P']. intros [[c d] y] [[c' d'] y'] J J' DF p q IP IQ SP. apply DF. apply RE' in J, J'. cbn [In] in IP, IQ.
          destruct IP as [<-|[<-|[]]], IQ as [<-|[<-|[]]]; unfold samePair in SP; cbn [fst snd] in SP;
            destruct SP as [[Q1 Q2]|(_ & Q1 & Q2)]; apply (cell_inj (hi - lo)) in Q1; try lia; apply (cell_inj (hi - lo)) in Q2; try lia; unfold samePair; cbn [fst snd];
            try (left; lia); try (right; lia).
      + eapply FOP_ext; [|exact P]. intros [[a b] x] [[a' b'] x'] I I' DF p q IP IQ SP. apply DF. apply in_flat_map in IP as ([[c d] y] & J & IP). apply in_flat_map in IQ as ([[c' d'] y'] & J' & IQ).
        apply RE in I, I'. apply RE' in J, J'. cbn [In] in IP, IQ.
          destruct IP as [<-|[<-|[]]], IQ as [<-|[<-|[]]]; unfold samePair in SP; cbn [fst snd] in SP;
            destruct SP as [[Q1 Q2]|(_ & Q1 & Q2)]; apply (cell_inj (hi - lo)) in Q1; try lia; apply (cell_inj (hi - lo)) in Q2; try lia; unfold samePair; cbn [fst snd];
            try (left; lia); try (right; lia).
    - intros a c b d A B C D. rewrite andb_true_iff, !isEdge_true. split.
      + intros ((x & X) & (y & Y)). apply L in X as (u & v & I & J). apply L' in Y as (p & q & I' & J').
        destruct J as [[-> ->]|(_ & -> & ->)], J' as [[-> ->]|(_ & -> & ->)].
        * left. apply IL. eexists _, _, _, _, _, _. split; [exact I|]. split; [exact I'|]. left. f_equal; f_equal; f_equal; lia.
        * left. apply IL. eexists _, _, _, _, _, _. split; [exact I|]. split; [exact I'|]. right. f_equal; f_equal; f_equal; lia.
        * right. split; auto. apply IL. eexists _, _, _, _, _, _. split; [exact I|]. split; [exact I'|]. right. f_equal; f_equal; f_equal; lia.
        * right. split; auto. apply IL. eexists _, _, _, _, _, _. split; [exact I|]. split; [exact I'|]. left. f_equal; f_equal; f_equal; lia.
      + assert (G : forall a c b d, 0 <= a < hi - lo -> 0 <= b < hi - lo -> In (cell (hi - lo) a c, cell (hi - lo) b d, dflt) l ->
          (exists x, M (a + lo) (b + lo) = Some x) /\ (exists y, O (c + lo') (d + lo') = Some y)).
        { clear a b c d A B C D. intros a c b d A B I. apply IL in I as (u & v & x & p & q & y & I & J & K). pose proof (RE _ _ _ I) as (MX & U & V & _).
          pose proof (RE' _ _ _ J) as (OY & _). destruct K as [K|K]; injection K as K1 K2; apply cell_inj in K1; try lia; apply cell_inj in K2; try lia.
          - split; [exists x|exists y].
            + rewrite <- MX. f_equal; lia.
            + rewrite <- OY. f_equal; lia.
          - split; [exists x|exists y].
            + rewrite <- MX. f_equal; lia.
            + rewrite (rep_sym _ _ _ _ _ _ R' eq_refl). rewrite <- OY. f_equal; lia. }
        intros [I|(_ & I)]; [apply G; auto|]. apply G in I; auto. rewrite (rep_sym _ _ _ _ _ _ R eq_refl), (rep_sym _ _ _ _ _ _ R' eq_refl (c + lo')). auto.
    - exists g', M'. split; [exact Q|]. split; auto. intros a b c d A B C D. pose proof (X (a - lo) (c - lo') (b - lo) (d - lo') ltac:(lia) ltac:(lia) ltac:(lia) ltac:(lia)) as XX. unfold cell in XX. rewrite XX.
      replace (a - lo + lo) with a by lia. replace (b - lo + lo) with b by lia. replace (c - lo' + lo') with c by lia. replace (d - lo' + lo') with d by lia. auto.
  Qed.

  Lemma cartesian_rep : forall dir g o M O lo hi lo' hi', represents dir g lo hi M -> represents dir o lo' hi' O ->
    exists g' M', cartesian dflt dir g o = Ok g' /\ represents dir g' 0 ((hi - lo) * (hi' - lo')) M' /\
      forall a b c d, lo <= a < hi -> lo <= b < hi -> lo' <= c < hi' -> lo' <= d < hi' ->
        M' ((c - lo') * (hi - lo) + (a - lo)) ((d - lo') * (hi - lo) + (b - lo)) =
        if (a =? b) && isEdge O c d || isEdge M a b && (c =? d) then Some dflt else None.
  Proof.
    intros dir g o M O lo hi lo' hi' R R'. destruct (rep_len _ _ _ _ _ _ R) as (ML & NC & H & N). destruct (rep_len _ _ _ _ _ _ R') as (ML' & NC' & H' & N').
    pose proof (rep_edges _ _ _ _ _ _ R) as (P & RE & L). pose proof (rep_edges _ _ _ _ _ _ R') as (P' & RE' & L').
    unfold cartesian. rewrite N, N'. unfold newId. rewrite ML, ML', N. unfold alen in NC, NC'.
    replace (length (adj g)) with (Z.to_nat (hi - lo)) by lia. replace (length (adj o)) with (Z.to_nat (hi' - lo')) by lia.
    set (l1 := flat_map _ (getEdges o)). set (l2 := flat_map _ (getEdges g)).
    assert (I1 : forall p, In p l1 <-> exists i u v x, In (u, v, x) (getEdges o) /\ 0 <= i < hi - lo /\ p = (cell (hi - lo) i (u - lo'), cell (hi - lo) i (v - lo'), dflt)).
    { intro p. unfold l1. rewrite in_flat_map. split.
      - intros ([[u v] x] & I & J). apply in_map_iff in J as (i & <- & J). apply in_zseq in J. exists i, u, v, x. split; auto. split; [lia|]. unfold cell. f_equal; f_equal; lia.
      - intros (i & u & v & x & I & J & ->). exists (u, v, x). split; auto. apply in_map_iff. exists i. split; [unfold cell; f_equal; f_equal; lia|apply in_zseq; lia]. }
    assert (I2 : forall p, In p l2 <-> exists i u v x, In (u, v, x) (getEdges g) /\ 0 <= i < hi' - lo' /\ p = (cell (hi - lo) (u - lo) i, cell (hi - lo) (v - lo) i, dflt)).
    { intro p. unfold l2. rewrite in_flat_map. split.
      - intros ([[u v] x] & I & J). apply in_map_iff in J as (i & <- & J). apply in_zseq in J. exists i, u, v, x. split; auto. split; [lia|]. unfold cell. f_equal; f_equal; nia.
      - intros (i & u & v & x & I & J & ->). exists (u, v, x). split; auto. apply in_map_iff. exists i. split; [unfold cell; f_equal; f_equal; nia|apply in_zseq; lia]. }
    destruct (cells_build dir (hi - lo) (hi' - lo') (l1 ++ l2) (fun a c b d => (a =? b) && isEdge O (c + lo') (d + lo') || isEdge M (a + lo) (b + lo) && (c =? d))) as (g' & M' & Q & RR & X).
    - lia.
    - lia.
    - apply Forall_forall. intros p I. apply in_app_or in I as [I|I].
      + apply I1 in I as (i & u & v & x & I & J & ->). apply RE' in I. eexists _, _, _, _. split; [reflexivity|]. lia.
      + apply I2 in I as (i & u & v & x & I & J & ->). apply RE in I. eexists _, _, _, _. split; [reflexivity|]. lia.
    - apply FOP_app. split; [|split].
      + unfold l1. apply FOP_flat_map.
        * apply Forall_forall. intros [[u v] x] I. apply RE' in I as (_ & U & V & UV). rewrite FOP_map. eapply FOP_ext; [|apply zseq_FOP].
          intros i j I J LT SP. apply in_zseq in I, J. unfold samePair in SP. cbn [fst snd] in SP.
          destruct SP as [[Q1 Q2]|(_ & Q1 & Q2)]; apply (cell_inj (hi - lo)) in Q1; lia.
        * eapply FOP_ext; [|exact P']. intros [[u v] x] [[u' v'] x'] I I' DF p q IP IQ SP. apply DF. apply in_map_iff in IP as (i & <- & J). apply in_map_iff in IQ as (i' & <- & J').
          apply in_zseq in J, J'. unfold samePair in *. cbn [fst snd] in *. destruct SP as [[Q1 Q2]|(DD & Q1 & Q2)]; apply (cell_inj (hi - lo)) in Q1; try lia; apply (cell_inj (hi - lo)) in Q2; try lia.
          right. split; auto. lia.
      + unfold l2. apply FOP_flat_map.
        * apply Forall_forall. intros [[u v] x] I. apply RE in I as (_ & U & V & UV). rewrite FOP_map. eapply FOP_ext; [|apply zseq_FOP].
          intros i j I J LT SP. apply in_zseq in I, J. unfold samePair in SP. cbn [fst snd] in SP.
          destruct SP as [[Q1 Q2]|(_ & Q1 & Q2)]; apply (cell_inj (hi - lo)) in Q1; lia.
        * eapply FOP_ext; [|exact P]. intros [[u v] x] [[u' v'] x'] I I' DF p q IP IQ SP. apply RE in I, I'. apply DF. apply in_map_iff in IP as (i & <- & J). apply in_map_iff in IQ as (i' & <- & J').
          apply in_zseq in J, J'. unfold samePair in *. cbn [fst snd] in *. destruct SP as [[Q1 Q2]|(DD & Q1 & Q2)]; apply (cell_inj (hi - lo)) in Q1; try lia; apply (cell_inj (hi - lo)) in Q2; try lia.
          right. split; auto. lia.
      + intros p q IP IQ SP. apply I1 in IP as (i & u & v & x & I & J & ->). apply I2 in IQ as (i' & u' & v' & x' & I' & J' & ->). apply RE in I'. apply RE' in I.
        unfold samePair in SP. cbn [fst snd] in SP. destruct SP as [[Q1 Q2]|(_ & Q1 & Q2)]; apply (cell_inj (hi - lo)) in Q1; try lia; apply (cell_inj (hi - lo)) in Q2; lia.
    - assert (G : forall a c b d, 0 <= a < hi - lo -> 0 <= b < hi - lo -> 0 <= c < hi' - lo' -> 0 <= d < hi' - lo' ->
        (In (cell (hi - lo) a c, cell (hi - lo) b d, dflt) (l1 ++ l2) <->
         (a = b /\ exists x, In (c + lo', d + lo', x) (getEdges o)) \/ (c = d /\ exists x, In (a + lo, b + lo, x) (getEdges g)))).
      { intros a c b d A B C D. rewrite in_app_iff, I1, I2. split.
        - intros [(i & u & v & x & I & J & K)|(i & u & v & x & I & J & K)]; injection K as K1 K2; pose proof I as I'.
          + apply RE' in I'. apply cell_inj in K1; try lia. apply cell_inj in K2; try lia. left. split; [lia|]. exists x. replace (c + lo') with u by lia. replace (d + lo') with v by lia. auto.
          + apply RE in I'. apply cell_inj in K1; try lia. apply cell_inj in K2; try lia. right. split; [lia|]. exists x. replace (a + lo) with u by lia. replace (b + lo) with v by lia. auto.
        - intros [(-> & x & I)|(-> & x & I)].
          + left. exists b, (c + lo'), (d + lo'), x. split; auto. split; [lia|]. f_equal; f_equal; f_equal; lia.
          + right. exists d, (a + lo), (b + lo), x. split; auto. split; [lia|]. f_equal; f_equal; f_equal; lia. }
      intros a c b d A B C D. rewrite !G by lia. rewrite orb_true_iff, !andb_true_iff, !isEdge_true, !Z.eqb_eq. split.
      + intros [(-> & x & K)|((x & K) & ->)].
        * apply L' in K as (u & v & I & [[-> ->]|(DF & -> & ->)]); eauto 6.
        * apply L in K as (u & v & I & [[-> ->]|(DF & -> & ->)]); eauto 6.
      + intros [[(-> & x & K)|(-> & x & K)]|(DF & [(-> & x & K)|(-> & x & K)])].
        * left. split; auto. apply RE' in K as (K & _). eauto.
        * right. split; auto. apply RE in K as (K & _). eauto.
        * left. split; auto. apply RE' in K as (K & _). rewrite (rep_sym _ _ _ _ _ _ R' DF). eauto.
        * right. split; auto. apply RE in K as (K & _). rewrite (rep_sym _ _ _ _ _ _ R DF). eauto.
    - exists g', M'. split; [exact Q|]. split; auto. intros a b c d A B C D. pose proof (X (a - lo) (c - lo') (b - lo) (d - lo') ltac:(lia) ltac:(lia) ltac:(lia) ltac:(lia)) as XX. unfold cell in XX. rewrite XX.
      replace (a - lo + lo) with a by lia. replace (b - lo + lo) with b by lia. replace (c - lo' + lo') with c by lia. replace (d - lo' + lo') with d by lia.
      replace (a - lo =? b - lo) with (a =? b) by lia. replace (c - lo' =? d - lo') with (c =? d) by lia. auto.
  Qed.

  (* the node (a, c) has the number (a - lo) * (hi' - lo') + (c - lo') here *)
  Lemma strongProduct_rep : forall g o M O lo hi lo' hi', represents false g lo hi M -> represents false o lo' hi' O ->
    exists g' M', strongProduct dflt false g o = Ok g' /\ represents false g' 0 ((hi' - lo') * (hi - lo)) M' /\
      forall a b c d, lo <= a < hi -> lo <= b < hi -> lo' <= c < hi' -> lo' <= d < hi' ->
        M' ((a - lo) * (hi' - lo') + (c - lo')) ((b - lo) * (hi' - lo') + (d - lo')) =
        if ((a =? b) && isEdge O c d) || (isEdge M a b && (c =? d)) || (isEdge M a b && isEdge O c d) then Some dflt else None.
  Proof.
    intros g o M O lo hi lo' hi' R R'. unfold strongProduct.
    destruct (cartesian_rep false o g O M lo' hi' lo hi R' R) as (g1 & M1 & -> & R1 & X1). cbn [bind].
    destruct (product_rep o g O M lo' hi' lo hi R' R) as (g2 & M2 & -> & R2 & X2). cbn [bind].
    destruct (combine_rep E false g1 M1 _ _ g2 M2 _ _ R1 R2) as (g' & -> & RC). eexists g', _. split; [reflexivity|]. split.
    - rewrite Z.min_id, Z.max_id in RC. exact RC.
    - intros a b c d A B C D. cbv beta. rewrite X2, X1 by auto. rewrite (Z.eqb_sym c d). destruct (a =? b) eqn:AB, (d =? c) eqn:CD, (isEdge M a b), (isEdge O c d); reflexivity.
  Qed.
End Products.
