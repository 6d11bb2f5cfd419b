From Verif Require Import Base BaseLemmas Tac RndModel RndLemmas RandSpec RandSeqModel ShuffleProofs HackModel.
From Coq Require Import ZArith QArith List Lia Permutation.
Import ListNotations.
Open Scope Z_scope.

Lemma zs_len : forall n m, length (zseq m n) = n.
Proof. induction n as [|n IH]; intros m; cbn; [reflexivity|]. rewrite IH. reflexivity. Qed.
Lemma zs_nth : forall n m i, (i < n)%nat -> nth i (zseq m n) 0 = m + Z.of_nat i.
Proof. induction n as [|n IH]; intros m i H; [lia|]. destruct i as [|i]; cbn [zseq nth]; [lia|]. rewrite IH by lia. lia. Qed.
Lemma zs_in : forall n m x, In x (zseq m n) <-> m <= x < m + Z.of_nat n.
Proof. induction n as [|n IH]; intros m x; cbn [zseq In]; [lia|]. rewrite IH. lia. Qed.
Lemma zs_nodup : forall n m, NoDup (zseq m n).
Proof. induction n as [|n IH]; intros m; cbn; constructor; [|apply IH]. rewrite zs_in. lia. Qed.

Lemma repeat_snoc : forall (x : Z) k, repeat x (S k) = repeat x k ++ [x].
Proof. intros x k. induction k as [|k IH]; [reflexivity|]. cbn [repeat app] in *. f_equal. exact IH. Qed.
Lemma aget_mid : forall (a b : list Z) x, aget (a ++ x :: b) (Z.of_nat (length a)) = Ok x.
Proof. intros a b x. unfold aget. replace (Z.of_nat (length a) <? 0) with false by (symmetry; apply Z.ltb_ge; lia). rewrite Nat2Z.id, nth_error_app2, Nat.sub_diag by lia. reflexivity. Qed.
Lemma upd_mid : forall (a b : list Z) x y, upd (a ++ x :: b) (length a) y = a ++ y :: b.
Proof. intros a b x y. induction a as [|z a IH]; [reflexivity|]. cbn. rewrite IH. reflexivity. Qed.
Lemma aset_mid : forall (a b : list Z) x y, aset (a ++ x :: b) (Z.of_nat (length a)) y = Ok (a ++ y :: b).
Proof. intros a b x y. unfold aset, alen. rewrite app_length. cbn [length]. replace ((0 <=? Z.of_nat (length a)) && (Z.of_nat (length a) <? Z.of_nat (length a + S (length b)))) with true by lia. rewrite Nat2Z.id, upd_mid. reflexivity. Qed.
Lemma fill_ok : forall k d p m mx, is_i64 m -> is_i64 (m + Z.of_nat k) ->
  fillDown k (Z.of_nat k - 1) (mkHacked (repeat NO_VALUE k ++ d) p m mx) = Ok (mkHacked (rev (zseq m k) ++ d) p (m + Z.of_nat k) mx).
Proof.
  induction k as [|k IH]; intros d p m mx M1 M2; [cbn; do 2 f_equal; lia|]. cbn [fillDown]. unfold setMin. cbn [hdata hmin hp hmax].
  rewrite repeat_snoc, <- app_assoc. cbn [app]. replace (Z.of_nat (S k) - 1) with (Z.of_nat (length (repeat NO_VALUE k))) by (rewrite repeat_length; lia).
  rewrite aget_mid. cbn [bind]. change (NO_VALUE =? NO_VALUE) with true. cbv iota. rewrite aset_mid. cbn [bind]. rewrite chk_Ok by (mach; lia). cbn [bind].
  rewrite repeat_length. rewrite IH by (mach; lia). cbn [zseq rev]. rewrite <- app_assoc. cbn [app]. do 2 f_equal. lia.
Qed.
Lemma insert_end : forall l x, Forall (fun y => y < x) l -> insertInt x l = l ++ [x].
Proof. intros l x F. induction F as [|y l Y F IH]; [reflexivity|]. cbn. replace (y <? x) with true by lia. rewrite IH. reflexivity. Qed.
Lemma sort_rev : forall k m, sortInts (rev (zseq m k)) = zseq m k.
Proof.
  intros k m. unfold sortInts.
  assert (G : forall k m acc, Forall (fun y => y < m) acc -> fold_left (fun a x => insertInt x a) (zseq m k) acc = acc ++ zseq m k).
  { clear. induction k as [|k IH]; intros m acc F; cbn [zseq fold_left]; [rewrite app_nil_r; reflexivity|]. rewrite insert_end by exact F. rewrite IH; [rewrite <- app_assoc; reflexivity|].
    apply Forall_app. split; [revert F; apply Forall_impl; intros; lia|]. constructor; [lia|constructor]. }
  pose proof (fold_left_rev_right insertInt (zseq m k) []) as E. cbv beta in E. etransitivity; [exact E|]. apply (G k m []). constructor.
Qed.
Lemma range_all : forall l f k, length l = k -> onRange l 0 (Z.of_nat k - 1) f = f l.
Proof.
  intros l f k L. unfold onRange. change (Z.to_nat 0) with 0%nat. replace (Z.to_nat (Z.of_nat k - 1 + 1 - 0)) with k by lia. replace (Z.to_nat (Z.of_nat k - 1 + 1)) with k by lia.
  cbn [firstn skipn app]. rewrite <- L, firstn_all, skipn_all, app_nil_r. reflexivity.
Qed.

(* ---- scatter ---- *)
Lemma scatter_ok : forall p d tmp, length p = length d -> NoDup p -> Forall (fun i => 0 <= i < alen tmp) p ->
  exists r, scatter p d tmp = Ok r /\ length r = length tmp /\ (forall i, (i < length p)%nat -> nth (Z.to_nat (nth i p 0)) r 0 = nth i d 0) /\
    (forall j, (j < length tmp)%nat -> ~ In (Z.of_nat j) p -> nth j r 0 = nth j tmp 0).
Proof.
  induction p as [|a p IH]; intros d tmp L N F.
  - exists tmp. split; [destruct d; reflexivity|]. split; [reflexivity|]. split; [intros i I; cbn in I; lia|auto].
  - destruct d as [|x d]; [discriminate|]. cbn [scatter]. inversion F as [|? ? A F']; subst. inversion N as [|? ? N1 N2]; subst.
    unfold aset. replace ((0 <=? a) && (a <? alen tmp)) with true by lia. cbn [bind].
    destruct (IH d (upd tmp (Z.to_nat a) x)) as (r & E & LR & R1 & R2); [cbn in L; lia|exact N2|revert F'; apply Forall_impl; unfold alen; rewrite upd_length; auto|].
    rewrite upd_length in *. exists r. split; [exact E|]. split; [exact LR|]. unfold alen in *. split.
    + intros [|i] I; cbn [nth] in *; [|apply R1; cbn in I; lia]. rewrite R2 by (try (rewrite Z2Nat.id by lia; assumption); lia). apply nth_upd_same. lia.
    + intros j J NJ. rewrite R2; [|exact J|intros K; apply NJ; right; exact K]. apply nth_upd_other. intros E'. apply NJ. left. lia.
Qed.
Fixpoint idx (v : Z) (l : list Z) : Z := match l with [] => 0 | x :: l => if x =? v then 0 else 1 + idx v l end.
Lemma idx_ok : forall v l, In v l -> 0 <= idx v l < alen l /\ nth (Z.to_nat (idx v l)) l 0 = v.
Proof.
  intros v l. unfold alen. induction l as [|x l IH]; intros I; [destruct I|]. cbn [idx length]. destruct (x =? v) eqn:E; [apply Z.eqb_eq in E; cbn; lia|]. apply Z.eqb_neq in E. destruct I as [I|I]; [congruence|].
  destruct (IH I) as [B N]. split; [lia|]. replace (Z.to_nat (1 + idx v l)) with (S (Z.to_nat (idx v l))) by lia. exact N.
Qed.
Lemma scatter_iff : forall n mi q, Permutation (zseq mi n) q -> exists p0, Permutation (zseq 0 n) p0 /\
  forall p, Permutation (zseq 0 n) p -> exists r, scatter p (zseq mi n) (repeat 0 n) = Ok r /\ (r = q <-> p = p0).
Proof.
  intros n mi q PQ. set (p0 := map (fun v => idx v q) (zseq mi n)). assert (LQ : length q = n) by (rewrite <- (Permutation_length PQ); apply zs_len).
  assert (NQ : NoDup q) by (apply (Permutation_NoDup PQ); apply zs_nodup).
  assert (IQ : forall v, In v (zseq mi n) -> In v q) by (intros v V; apply (Permutation_in v PQ V)).
  assert (L0 : length p0 = n) by (unfold p0; rewrite map_length; apply zs_len).
  assert (P0 : Permutation (zseq 0 n) p0).
  { apply Permutation_sym, NoDup_Permutation_bis.
    - unfold p0. assert (G : forall l, NoDup l -> (forall v, In v l -> In v q) -> NoDup (map (fun v => idx v q) l)).
      { clear - NQ. induction l as [|x l IH]; intros N I; cbn; constructor; inversion N; subst; [|apply IH; auto; intros v V; apply I; right; exact V].
        intros K. apply in_map_iff in K. destruct K as (y & E & Y). destruct (idx_ok x q) as [_ X1]; [apply I; left; reflexivity|]. destruct (idx_ok y q) as [_ Y1]; [apply I; right; exact Y|]. rewrite E in Y1. rewrite X1 in Y1. congruence. }
      apply G; [apply zs_nodup|exact IQ].
    - rewrite L0, zs_len. lia.
    - intros x X. apply in_map_iff in X. destruct X as (v & <- & V). apply zs_in. destruct (idx_ok v q (IQ v V)) as [B _]. unfold alen in B. lia. }
  exists p0. split; [exact P0|]. intros p PP. assert (LP : length p = n) by (rewrite <- (Permutation_length PP); apply zs_len).
  assert (FP : Forall (fun i => 0 <= i < alen (repeat 0 n)) p). { rewrite Forall_forall. intros i I. apply (Permutation_in i (Permutation_sym PP)) in I. apply zs_in in I. unfold alen. rewrite repeat_length. lia. }
  destruct (scatter_ok p (zseq mi n) (repeat 0 n)) as (r & E & LR & R1 & _); [rewrite zs_len; exact LP|apply (Permutation_NoDup PP); apply zs_nodup|exact FP|].
  rewrite repeat_length in *. exists r. split; [exact E|]. split.
  - intros ->. apply (nth_ext p p0 0 0); [lia|]. intros i I. pose proof (R1 i I) as H. rewrite zs_nth in H by lia.
    rewrite Forall_forall in FP. pose proof (FP (nth i p 0) (nth_In _ _ I)) as B. unfold alen in B. rewrite repeat_length in B.
    unfold p0. rewrite (nth_indep (map (fun v => idx v q) (zseq mi n)) 0 (idx 0 q)) by (rewrite map_length, zs_len; lia). rewrite (map_nth (fun v => idx v q)). rewrite zs_nth by lia.
    assert (V : In (mi + Z.of_nat i) q) by (apply IQ, zs_in; lia). destruct (idx_ok _ _ V) as [B2 N2]. unfold alen in B2.
    assert (Z.to_nat (nth i p 0) = Z.to_nat (idx (mi + Z.of_nat i) q)); [|lia]. apply (proj1 (NoDup_nth q 0) NQ); [lia|lia|congruence].
  - intros ->. apply (nth_ext r q 0 0); [lia|]. intros j J.
    assert (IJ : In (Z.of_nat j) p0) by (apply (Permutation_in _ PP), zs_in; lia). apply (In_nth _ _ 0) in IJ. destruct IJ as (i & I & EI).
    pose proof (R1 i I) as H. rewrite EI, Nat2Z.id, zs_nth in H by lia. rewrite H.
    unfold p0 in EI. rewrite (nth_indep (map (fun v => idx v q) (zseq mi n)) 0 (idx 0 q)) in EI by (rewrite map_length, zs_len; lia). rewrite (map_nth (fun v => idx v q)), zs_nth in EI by lia.
    assert (V : In (mi + Z.of_nat i) q) by (apply IQ, zs_in; lia). destruct (idx_ok _ _ V) as [_ N2]. rewrite EI, Nat2Z.id in N2. congruence.
Qed.
Lemma scatter_perm : forall n mi p, Permutation (zseq 0 n) p -> exists r, scatter p (zseq mi n) (repeat 0 n) = Ok r /\ Permutation (zseq mi n) r.
Proof.
  intros n mi p PP. assert (LP : length p = n) by (rewrite <- (Permutation_length PP); apply zs_len).
  assert (FP : Forall (fun i => 0 <= i < alen (repeat 0 n)) p). { rewrite Forall_forall. intros i I. apply (Permutation_in i (Permutation_sym PP)) in I. apply zs_in in I. unfold alen. rewrite repeat_length. lia. }
  destruct (scatter_ok p (zseq mi n) (repeat 0 n)) as (r & E & LR & R1 & _); [rewrite zs_len; exact LP|apply (Permutation_NoDup PP); apply zs_nodup|exact FP|].
  rewrite repeat_length in *. exists r. split; [exact E|]. apply NoDup_Permutation_bis; [apply zs_nodup|rewrite zs_len; lia|].
  intros v V. apply zs_in in V. set (i := Z.to_nat (v - mi)). assert (I : (i < length p)%nat) by (unfold i; lia). pose proof (R1 i I) as H. rewrite zs_nth in H by lia. replace (mi + Z.of_nat i) with v in H by (unfold i; lia). rewrite <- H.
  apply nth_In. rewrite Forall_forall in FP. pose proof (FP (nth i p 0) (nth_In _ _ I)) as B. unfold alen in B. rewrite repeat_length in B. lia.
Qed.


(* ---- ranges ---- *)
Lemma range_mid : forall (a l b : list Z) f left right, left = Z.of_nat (length a) -> right + 1 - left = Z.of_nat (length l) -> onRange (a ++ l ++ b) left right f = a ++ f l ++ b.
Proof.
  intros a l b f left right L R. unfold onRange. subst left. rewrite R, !Nat2Z.id.
  assert (Q : forall x y : list Z, firstn (length x) (x ++ y) = x) by (intros x y; induction x as [|u x IH]; cbn; [reflexivity|rewrite IH; reflexivity]).
  assert (Q2 : forall x y : list Z, skipn (length x) (x ++ y) = y) by (intros x y; induction x as [|u x IH]; cbn; [reflexivity|exact IH]).
  rewrite Q, Q2, Q. do 2 f_equal. replace (Z.to_nat (right + 1)) with (length (a ++ l)) by (rewrite app_length; lia). rewrite app_assoc. apply Q2.
Qed.
Lemma split_three : forall (p : list Z) a k, (a + k <= length p)%nat -> exists x y z, p = x ++ y ++ z /\ length x = a /\ length y = k.
Proof.
  intros p a k L. exists (firstn a p), (firstn k (skipn a p)), (skipn k (skipn a p)). split; [rewrite !firstn_skipn; reflexivity|]. rewrite !firstn_length, skipn_length. lia.
Qed.
Lemma fill_mid : forall k a d p m mx, is_i64 m -> is_i64 (m + Z.of_nat k) ->
  fillDown k (Z.of_nat (length a + k) - 1) (mkHacked (a ++ repeat NO_VALUE k ++ d) p m mx) = Ok (mkHacked (a ++ rev (zseq m k) ++ d) p (m + Z.of_nat k) mx).
Proof.
  induction k as [|k IH]; intros a d p m mx M1 M2; [cbn; do 2 f_equal; lia|]. cbn [fillDown]. unfold setMin. cbn [hdata hmin hp hmax].
  rewrite repeat_snoc, <- app_assoc. cbn [app]. rewrite app_assoc. replace (Z.of_nat (length a + S k) - 1) with (Z.of_nat (length (a ++ repeat NO_VALUE k))) by (rewrite app_length, repeat_length; lia).
  rewrite aget_mid. cbn [bind]. change (NO_VALUE =? NO_VALUE) with true. cbv iota. rewrite aset_mid. cbn [bind]. rewrite chk_Ok by (mach; lia). cbn [bind].
  rewrite app_length, repeat_length. rewrite <- app_assoc. rewrite IH by (mach; lia). cbn [zseq rev]. rewrite <- app_assoc. cbn [app]. do 2 f_equal. lia.
Qed.
Lemma small_run : forall (a d x y z : list Z) k m mx, is_i64 m -> is_i64 (m + Z.of_nat k) -> length x = length a -> length y = k ->
  small (Z.of_nat (length a)) (Z.of_nat (length a + k) - 1) (mkHacked (a ++ repeat NO_VALUE k ++ d) (x ++ y ++ z) m mx) =
    rbind (shuffle y) (fun q => ret (mkHacked (a ++ zseq m k ++ d) (onRange (x ++ y ++ z) (Z.of_nat (length a)) (Z.of_nat (length a + k) - 1) (fun _ => q)) (m + Z.of_nat k) mx)).
Proof.
  intros a d x y z k m mx M1 M2 LX LY. unfold small. cbn [hdata hp].
  replace ((Z.of_nat (length a) <? 0) || (Z.of_nat (length a + k) - 1 + 1 <? Z.of_nat (length a)) || (alen (a ++ repeat NO_VALUE k ++ d) <? Z.of_nat (length a + k) - 1 + 1)) with false
    by (unfold alen; rewrite !app_length, repeat_length; lia).
  replace (Z.to_nat (Z.of_nat (length a + k) - 1 + 1 - Z.of_nat (length a))) with k by lia. rewrite fill_mid by assumption. cbn [lift rbind hdata hp].
  rewrite Nat2Z.id. rewrite range_mid by (try reflexivity; rewrite rev_length, zs_len; lia). rewrite sort_rev.
  assert (Q : forall x y : list Z, firstn (length x) (x ++ y) = x) by (clear; intros x y; induction x as [|u x IH]; cbn; [reflexivity|rewrite IH; reflexivity]).
  assert (Q2 : forall x y : list Z, skipn (length x) (x ++ y) = y) by (clear; intros x y; induction x as [|u x IH]; cbn; [reflexivity|exact IH]).
  assert (E : firstn k (skipn (length a) (x ++ y ++ z)) = y) by (rewrite <- LX, Q2, <- LY; apply Q).
  rewrite E. reflexivity.
Qed.
Lemma range_p : forall (x y z q : list Z) la k, length x = la -> length y = k -> onRange (x ++ y ++ z) (Z.of_nat la) (Z.of_nat (la + k) - 1) (fun _ => q) = x ++ q ++ z.
Proof. intros. apply (range_mid x y z); lia. Qed.
Lemma small_always : forall (a d p : list Z) k m mx, is_i64 m -> is_i64 (m + Z.of_nat k) -> length p = length (a ++ repeat NO_VALUE k ++ d) ->
  always (small (Z.of_nat (length a)) (Z.of_nat (length a + k) - 1) (mkHacked (a ++ repeat NO_VALUE k ++ d) p m mx))
    (returns (fun s => exists p', s = mkHacked (a ++ zseq m k ++ d) p' (m + Z.of_nat k) mx /\ Permutation p p')).
Proof.
  intros a d p k m mx M1 M2 LP. rewrite !app_length, repeat_length in LP. destruct (split_three p (length a) k) as (x & y & z & -> & LX & LY); [lia|].
  rewrite small_run by assumption. apply always_bind. eapply always_mono; [|apply shuffle_always]. intros o O. destruct o as [q| | |]; try contradiction. cbn in O |- *.
  rewrite range_p by assumption. exists (x ++ q ++ z). split; [reflexivity|]. apply Permutation_app_head, Permutation_app_tail, O.
Qed.
(* a range of one known value *)
Lemma one_always : forall (a d p : list Z) v m mx, v <> NO_VALUE -> length p = length (a ++ v :: d) ->
  always (small (Z.of_nat (length a)) (Z.of_nat (length a)) (mkHacked (a ++ v :: d) p m mx))
    (returns (fun s => exists p', s = mkHacked (a ++ v :: d) p' m mx /\ Permutation p p')).
Proof.
  intros a d p v m mx V LP. rewrite !app_length in LP. cbn [length] in LP. destruct (split_three p (length a) 1) as (x & y & z & -> & LX & LY); [lia|].
  unfold small. cbn [hdata hp].
  replace ((Z.of_nat (length a) <? 0) || (Z.of_nat (length a) + 1 <? Z.of_nat (length a)) || (alen (a ++ v :: d) <? Z.of_nat (length a) + 1)) with false by (unfold alen; rewrite !app_length; cbn [length]; lia).
  replace (Z.to_nat (Z.of_nat (length a) + 1 - Z.of_nat (length a))) with 1%nat by lia. cbn [fillDown]. unfold setMin. cbn [hdata]. rewrite aget_mid. cbn [bind].
  replace (v =? NO_VALUE) with false by (symmetry; apply Z.eqb_neq; exact V). cbn [bind lift rbind hdata hp]. change (a ++ v :: d) with (a ++ [v] ++ d). rewrite range_mid by (cbn [length]; lia).
  change (sortInts [v]) with [v]. apply always_bind.
  assert (Q : forall x y : list Z, firstn (length x) (x ++ y) = x) by (clear; intros x y; induction x as [|u x IH]; cbn; [reflexivity|rewrite IH; reflexivity]).
  assert (Q2 : forall x y : list Z, skipn (length x) (x ++ y) = y) by (clear; intros x y; induction x as [|u x IH]; cbn; [reflexivity|exact IH]).
  assert (E : firstn 1 (skipn (Z.to_nat (Z.of_nat (length a))) (x ++ y ++ z)) = y) by (rewrite Nat2Z.id, <- LX, Q2, <- LY; apply Q).
  rewrite E. eapply always_mono; [|apply shuffle_always]. intros o O. destruct o as [q| | |]; try contradiction. cbn in O |- *.
  rewrite (range_mid x y z) by lia. exists (x ++ q ++ z). split; [reflexivity|]. apply Permutation_app_head, Permutation_app_tail, O.
Qed.

(* ---- below the threshold ---- *)
Lemma below_run : forall fuel n mi, 0 <= n < 47 -> is_i64 mi -> is_i64 (mi + n) -> let k := Z.to_nat n in
  HackedSort (S fuel) n mi = rbind (rbind (shuffle (zseq 0 k)) (fun q => ret (mkHacked (zseq mi k ++ []) (onRange (zseq 0 k ++ []) 0 (Z.of_nat k - 1) (fun _ => q)) (mi + Z.of_nat k) (mi + n)))) (fun s => lift (scatter (hp s) (hdata s) (repeat 0 k))).
Proof.
  intros fuel n mi N M1 M2 k. unfold HackedSort. replace (n <? 0) with false by lia. rewrite chk_Ok by assumption. cbn [lift rbind]. fold k.
  cbn [hackedSort]. unfold THRESHOLD. replace (n - 1 - 0 + 1 <? 47) with true by lia.
  assert (K : n = Z.of_nat k) by (unfold k; lia).
  pose proof (small_run [] [] [] (zseq 0 k) [] k mi (mi + n) M1 ltac:(rewrite <- K; exact M2) eq_refl (zs_len k 0)) as H. cbn [app length] in H.
  change (Z.of_nat 0) with 0 in H. change (0 + k)%nat with k in H. rewrite (app_nil_r (repeat NO_VALUE k)), (app_nil_r (zseq 0 k)) in H. rewrite (app_nil_r (zseq 0 k)). replace (n - 1) with (Z.of_nat k - 1) by lia. f_equal. exact H.
Qed.
Lemma below_uniform : forall fuel n mi q, 0 <= n < 47 -> is_i64 mi -> is_i64 (mi + n) -> Permutation (zseq mi (Z.to_nat n)) q ->
  (Pr (HackedSort (S fuel) n mi) (resultIs (list_eq_dec Z.eq_dec) q) == 1 / inject_Z (zfact (Z.to_nat n)))%Q.
Proof.
  intros fuel n mi q N M1 M2 PQ. rewrite below_run by assumption. set (k := Z.to_nat n) in *. destruct (scatter_iff k mi q PQ) as (p0 & P0 & S).
  unfold Pr. rewrite expect_bind, expect_bind. pose proof (shuffle_uniform Z.eq_dec (zseq 0 k) p0 (zs_nodup k 0) P0) as U. rewrite zs_len in U. rewrite <- U. unfold Pr.
  apply expect_ext_always. eapply always_mono; [|apply shuffle_always]. intros o O. destruct o as [p| | |]; try contradiction. cbn in O. cbn [rbind ret expect hp hdata].
  rewrite !app_nil_r. destruct (S p O) as (r & E & I).
  assert (R : onRange (zseq 0 k) 0 (Z.of_nat k - 1) (fun _ => p) = p) by (apply range_all, zs_len). rewrite R, E. cbn [lift expect]. unfold resultIs.
  destruct (list_eq_dec Z.eq_dec r q) as [A|A], (list_eq_dec Z.eq_dec p p0) as [B|B]; try reflexivity; exfalso; tauto.
Qed.
