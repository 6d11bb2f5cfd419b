(* mcmfWorstcase. *)
From Verif Require Import Base Tac BaseLemmas RndModel RndLemmas RandSpec GenModel GenSpec GenOpsModel GenMakeModel FlowModel FlowSpec FlowProofs GenProofs GenProofs2 GenProofs3.

Definition ca (i : Z) : Z := if i <? 2 then 2 * i + 1 else 5 * 2 ^ (i - 2).
Definition cb (i : Z) : Z := if i <? 2 then 2 else 5 * 2 ^ (i - 2).
Definition cinf (n : Z) : Z := Z.quot (5 * 2 ^ n) 4.
Definition mC (n u v : Z) : option (Z * Z) :=
  if (u =? 0) && (1 <=? v) && (v <=? n) then Some (ca (v - 1), 0)
  else if (u =? 1) && (v =? n + 1) then Some (cinf n, 0)
  else if (1 <=? u) && (u <=? n) && (n + 1 <=? v) && (v <=? 2 * n) && negb (u - 1 =? v - n - 1) then Some (cinf n, 2 ^ Z.max (u - 1) (v - n - 1) - 1)
  else if (n + 1 <=? u) && (u <=? 2 * n) && (v =? 2 * n + 1) then Some (cb (u - n - 1), 0)
  else None.
Lemma mapM_map : forall A B (h : A -> outcome B) (k : A -> B) l, (forall x, In x l -> h x = Ok (k x)) -> mapM h l = Ok (map k l).
Proof.
  induction l as [|x l IH]; intro H; auto. cbn [mapM map]. rewrite (H x) by (left; auto). cbn [bind]. rewrite IH by (intros; apply H; right; auto). auto.
Qed.
Lemma addEdges_app : forall E dir l l' (g : graph E), addEdges dir g (l ++ l') = bind (addEdges dir g l) (fun g => addEdges dir g l').
Proof.
  induction l as [|[[u v] d] l IH]; intros l' g; auto. cbn [app addEdges]. destruct (addEdge dir g u v d); cbn [bind]; auto.
Qed.
Lemma addEdges_cons : forall E dir u v d l (g : graph E), addEdges dir g ((u, v, d) :: l) = bind (addEdge dir g u v d) (fun g => addEdges dir g l).
Proof. reflexivity. Qed.
Lemma pow_small : forall k, 0 <= k <= 60 -> 0 < 2 ^ k <= 2 ^ 60.
Proof. intros. split; [apply Z.pow_pos_nonneg; lia|apply Z.pow_le_mono_r; lia]. Qed.
Lemma shl5_ok : forall k, 0 <= k <= 58 -> shl5 k = Ok (5 * 2 ^ k).
Proof.
  intros k K. unfold shl5. replace ((0 <=? k) && (k <? 64)) with true by lia. f_equal. pose proof (pow_small k ltac:(lia)) as X.
  change (2 ^ 60) with 1152921504606846976 in X. unfold two63. rewrite Z.mod_small; lia.
Qed.
Definition mEdges (n : Z) : list (Z * Z * (Z * Z)) :=
  map (fun i => (0, i + 1, (ca i, 0))) (upto n) ++ (1, n + 1, (cinf n, 0)) ::
  map (fun p : Z * Z => (fst p + 1, snd p + 1 + n, (cinf n, 2 ^ Z.max (fst p) (snd p) - 1)))
    (flat_map (fun i => map (fun j => (i, j)) (filter (fun j => negb (i =? j)) (upto n))) (upto n)) ++
  map (fun i => (i + 1 + n, 2 * n + 1, (cb i, 0))) (upto n).
Lemma in_pairs : forall n i j, In (i, j) (flat_map (fun i => map (fun j => (i, j)) (filter (fun j => negb (i =? j)) (upto n))) (upto n)) <-> 0 <= i < n /\ 0 <= j < n /\ i <> j.
Proof.
  intros n i j. unfold upto. rewrite in_flat_map. split.
  - intros (x & X & I). apply in_map_iff in I as (y & Q & I). inv Q. apply filter_In in I as (I & D). apply in_zseq in X, I. lia.
  - intros (I & J & D). exists i. split; [apply in_zseq; lia|]. apply in_map_iff. exists j. split; auto. apply filter_In. split; [apply in_zseq; lia|lia].
Qed.
Lemma mcmf_rep : forall n, 1 <= n <= 60 -> exists g M, mcmfWorstcase n = Ok g /\ represents true g 0 (2 * n + 2) M /\ (forall u v, M u v = mC n u v).
Proof.
  intros n N. unfold mcmfWorstcase. replace ((0 <? n) && (n <=? 60)) with true by lia. cbn [judgeAssert bind].
  destruct (new_rep (Z * Z) true 0 (2 * n + 2)) as (g0 & Q0 & R0); [lia|]. rewrite Q0. cbn [bind].
  unfold shl1l at 1. replace ((0 <=? n) && (n <? 63)) with true by lia. cbn [bind].
  rewrite chk_Ok. 2: { pose proof (pow_small n ltac:(lia)) as X. change (2 ^ 60) with 1152921504606846976 in X. unfold is_i64, I64_MIN, I64_MAX, two63. lia. }
  cbn [bind]. fold (cinf n).
  rewrite (mapM_map _ _ _ (fun i => (0, i + 1, (ca i, 0)))).
  2: { intros i I. unfold upto in I. apply in_zseq in I. unfold ca. destruct (Z.ltb_spec i 2); cbn [bind]; auto. rewrite shl5_ok by lia. auto. }
  rewrite (mapM_map _ _ _ (fun p : Z * Z => (fst p + 1, snd p + 1 + n, (cinf n, 2 ^ Z.max (fst p) (snd p) - 1)))).
  2: { intros [i j] I. apply in_pairs in I. unfold shl1l. replace ((0 <=? Z.max i j) && (Z.max i j <? 63)) with true by lia. cbn [bind fst snd]. rewrite chk_Ok; auto.
       pose proof (pow_small (Z.max i j) ltac:(lia)) as X. change (2 ^ 60) with 1152921504606846976 in X. unfold is_i64, I64_MIN, I64_MAX, two63. lia. }
  rewrite (mapM_map _ _ _ (fun i => (i + 1 + n, 2 * n + 1, (cb i, 0)))).
  2: { intros i I. unfold upto in I. apply in_zseq in I. unfold cb. destruct (Z.ltb_spec i 2); cbn [bind]; auto. rewrite shl5_ok by lia. auto. }
  assert (LI : forall u v d, In (u, v, d) (mEdges n) -> mC n u v = Some d /\ 0 <= u < 2 * n + 2 /\ 0 <= v < 2 * n + 2 /\ u <> v).
  { intros u v d I. unfold mEdges in I. apply in_app_iff in I. destruct I as [I|[I|I]]; [|inv I|apply in_app_iff in I; destruct I as [I|I]].
    - apply in_map_iff in I as (i & Q & I). unfold upto in I. apply in_zseq in I. inv Q. unfold mC.
      replace ((0 =? 0) && (1 <=? i + 1) && (i + 1 <=? n)) with true by lia. replace (i + 1 - 1) with i by lia. split; auto. lia.
    - unfold mC. replace ((1 =? 0) && (1 <=? n + 1) && (n + 1 <=? n)) with false by lia. replace ((1 =? 1) && (n + 1 =? n + 1)) with true by lia. split; auto. lia.
    - apply in_map_iff in I as ([i j] & Q & I). apply in_pairs in I. cbn [fst snd] in Q. inv Q. unfold mC.
      replace ((i + 1 =? 0) && (1 <=? j + 1 + n) && (j + 1 + n <=? n)) with false by lia.
      replace ((i + 1 =? 1) && (j + 1 + n =? n + 1)) with false by lia.
      replace ((1 <=? i + 1) && (i + 1 <=? n) && (n + 1 <=? j + 1 + n) && (j + 1 + n <=? 2 * n) && negb (i + 1 - 1 =? j + 1 + n - n - 1)) with true by lia.
      replace (i + 1 - 1) with i by lia. replace (j + 1 + n - n - 1) with j by lia. split; auto. lia.
    - apply in_map_iff in I as (i & Q & I). unfold upto in I. apply in_zseq in I. assert (u = i + 1 + n /\ v = 2 * n + 1 /\ d = (cb i, 0)) as (-> & -> & ->) by (split; [|split]; congruence). unfold mC.
      replace ((i + 1 + n =? 0) && (1 <=? 2 * n + 1) && (2 * n + 1 <=? n)) with false by lia.
      replace ((i + 1 + n =? 1) && (2 * n + 1 =? n + 1)) with false by lia.
      replace ((1 <=? i + 1 + n) && (i + 1 + n <=? n) && (n + 1 <=? 2 * n + 1) && (2 * n + 1 <=? 2 * n) && negb (i + 1 + n - 1 =? 2 * n + 1 - n - 1)) with false by lia.
      replace ((n + 1 <=? i + 1 + n) && (i + 1 + n <=? 2 * n) && (2 * n + 1 =? 2 * n + 1)) with true by lia.
      replace (i + 1 + n - n - 1) with i by lia. split; auto. lia. }
  assert (IL : forall u v d, mC n u v = Some d -> In (u, v, d) (mEdges n)).
  { intros u v d Q. unfold mC in Q. unfold mEdges. destruct ((u =? 0) && (1 <=? v) && (v <=? n)) eqn:B1.
    { inv Q. apply in_app_iff. left. apply in_map_iff. exists (v - 1). split; [|unfold upto; apply in_zseq; lia]. replace (v - 1 + 1) with v by lia. replace u with 0 by lia. auto. }
    apply in_app_iff. right. destruct ((u =? 1) && (v =? n + 1)) eqn:B2.
    { inv Q. left. replace u with 1 by lia. replace v with (n + 1) by lia. auto. }
    right. apply in_app_iff.
    destruct ((1 <=? u) && (u <=? n) && (n + 1 <=? v) && (v <=? 2 * n) && negb (u - 1 =? v - n - 1)) eqn:B3.
    { inv Q. left. apply in_map_iff. exists (u - 1, v - n - 1). cbn [fst snd]. split; [|apply in_pairs; lia]. replace (u - 1 + 1) with u by lia. replace (v - n - 1 + 1 + n) with v by lia. auto. }
    destruct ((n + 1 <=? u) && (u <=? 2 * n) && (v =? 2 * n + 1)) eqn:B4; [|discriminate].
    inv Q. right. apply in_map_iff. exists (u - n - 1). split; [|unfold upto; apply in_zseq; lia]. replace (u - n - 1 + 1 + n) with u by lia. replace v with (2 * n + 1) by lia. auto. }
  destruct (addEdges_rep (Z * Z) true (mEdges n) g0 (fun _ _ => None) 0 (2 * n + 2) R0) as (g & Q & R).
  { apply Forall_forall. intros [[u v] d] I. cbn [fst snd]. apply LI in I. tauto. }
  exists g, (putAll (Z * Z) true (fun _ _ => None) (mEdges n)). split; [|split; [auto|]].
  - rewrite <- Q. unfold mEdges. rewrite addEdges_app. cbn [bind]. match goal with |- bind ?x _ = _ => destruct x as [g1| | |] end; cbn [bind]; auto. rewrite addEdges_cons.
    destruct (addEdge true g1 1 (n + 1) (cinf n, 0)) as [g2| | |]; cbn [bind]; auto. rewrite addEdges_app. auto.
  - intros u v. apply putAll_fun; auto. intros; apply LI; auto.
Qed.

(* ---- sums of the capacities ---- *)
Lemma sum_ca : forall k, 2 <= k -> total 0 k ca = 5 * 2 ^ (k - 2) - 1.
Proof.
  intros k K. replace k with (2 + Z.of_nat (Z.to_nat (k - 2))) by lia. generalize (Z.to_nat (k - 2)). clear. induction n as [|n IH]; [reflexivity|].
  replace (2 + Z.of_nat (S n)) with (2 + Z.of_nat n + 1) by lia. rewrite tot_app, tot_one, IH by lia. unfold ca. replace (0 + (2 + Z.of_nat n) <? 2) with false by lia.
  replace (2 + Z.of_nat n + 1 - 2) with (2 + Z.of_nat n - 2 + 1) by lia. rewrite Z.pow_add_r by lia. rewrite Z.add_0_l. lia.
Qed.
Lemma sum_cb : forall k, 2 <= k -> total 0 k cb = 5 * 2 ^ (k - 2) - 1.
Proof.
  intros k K. replace k with (2 + Z.of_nat (Z.to_nat (k - 2))) by lia. generalize (Z.to_nat (k - 2)). clear. induction n as [|n IH]; [reflexivity|].
  replace (2 + Z.of_nat (S n)) with (2 + Z.of_nat n + 1) by lia. rewrite tot_app, tot_one, IH by lia. unfold cb. replace (0 + (2 + Z.of_nat n) <? 2) with false by lia.
  replace (2 + Z.of_nat n + 1 - 2) with (2 + Z.of_nat n - 2 + 1) by lia. rewrite Z.pow_add_r by lia. rewrite Z.add_0_l. lia.
Qed.
Lemma tot_shift : forall f k lo n, total lo n (fun x => f (x - k)) = total (lo - k) n f.
Proof.
  intros f k. apply (tot_ind (fun lo n => total lo n (fun x => f (x - k)) = total (lo - k) n f)); intros lo n L.
  - rewrite !tot_nil; auto.
  - intro IH. rewrite (tot_cons lo), (tot_cons (lo - k)) by auto. rewrite IH. replace (lo + 1 - k) with (lo - k + 1) by lia. auto.
Qed.
Lemma ca_pos : forall i, 0 <= i -> 0 < ca i.
Proof. intros. unfold ca. destruct (Z.ltb_spec i 2); [lia|]. pose proof (Z.pow_pos_nonneg 2 (i - 2)). lia. Qed.
Lemma cb_pos : forall i, 0 <= i -> 0 < cb i.
Proof. intros. unfold cb. destruct (Z.ltb_spec i 2); [lia|]. pose proof (Z.pow_pos_nonneg 2 (i - 2)). lia. Qed.
Lemma cinf_val : forall n, 2 <= n -> cinf n = 5 * 2 ^ (n - 2).
Proof.
  intros n N. unfold cinf. replace n with (n - 2 + 2) at 1 by lia. rewrite Z.pow_add_r by lia. change (2 ^ 2) with 4. rewrite Z.mul_assoc. apply Z.quot_mul. lia.
Qed.
Lemma sums_ok : forall n, 2 <= n -> let PA := total 0 (n - 1) ca in let PB := total 0 (n - 1) cb in
  PA + PB = 5 * 2 ^ (n - 2) - 2 /\ PB <= ca (n - 1) /\ PA <= cb (n - 1) /\ PA <= cinf n /\ PB <= cinf n.
Proof.
  intros n N. cbn zeta. rewrite (cinf_val n N). destruct (Z.eq_dec n 2) as [->|D]; [vm_compute; repeat split; congruence|].
  rewrite sum_ca, sum_cb by lia. unfold ca, cb. replace (n - 1 <? 2) with false by lia. replace (n - 2) with (n - 1 - 2 + 1) by lia. rewrite Z.pow_add_r by lia.
  pose proof (Z.pow_pos_nonneg 2 (n - 1 - 2)). lia.
Qed.
