From Verif Require Import Tac RndModel RandSeqModel RndLemmas SortLemmas.
From Coq Require Import QArith Qfield Permutation Sorted.
From Verif Require Import RandSeqModel.
Open Scope Z_scope.

Definition val (used : list (Z * Z)) (x : Z) : Z :=
  match mfind used x with Some v => v | None => x end.
Definition pool (used : list (Z * Z)) (lower : Z) (m : nat) : list Z :=
  map (val used) (zseq lower m).

Lemma val_cons : forall used x v y, val ((x, v) :: used) y = if x =? y then v else val used y.
Proof. intros. unfold val. simpl. destruct (x =? y); reflexivity. Qed.

Lemma map_val_out : forall used x v l, ~ In x l -> map (val ((x, v) :: used)) l = map (val used) l.
Proof.
  intros used x v l H. apply map_ext_in. intros y Hy. rewrite val_cons.
  destruct (x =? y) eqn:E; auto. assert (x = y) by lia. subst. contradiction.
Qed.

(* one step removes the drawn value from the pool *)
Lemma pool_step : forall used lower m x, lower <= x < lower + Z.of_nat (S m) ->
  Permutation (pool used lower (S m))
    (val used x :: pool ((x, val used (lower + Z.of_nat m)) :: used) lower m).
Proof.
  intros used lower m x Hx. unfold pool. set (last := lower + Z.of_nat m).
  rewrite zseq_snoc, map_app. fold last. cbn [map].
  destruct (Z.eq_dec x last) as [-> | Hne].
  - rewrite map_val_out by (rewrite in_zseq; unfold last; lia).
    symmetry. apply Permutation_cons_append.
  - set (a := Z.to_nat (x - lower)). set (b := (m - a - 1)%nat).
    assert (E : zseq lower m = zseq lower a ++ x :: zseq (x + 1) b).
    { replace m with (a + S b)%nat by lia. rewrite zseq_app. f_equal.
      replace (lower + Z.of_nat a) with x by lia. reflexivity. }
    rewrite E. rewrite !map_app. cbn [map].
    rewrite !map_val_out by (rewrite in_zseq; lia).
    rewrite val_cons, Z.eqb_refl.
    rewrite <- app_assoc. cbn [app].
    transitivity (val used x :: map (val used) (zseq lower a) ++ map (val used) (zseq (x + 1) b) ++ [val used last]).
    { symmetry. apply Permutation_middle. }
    constructor. apply Permutation_app_head. symmetry. apply Permutation_cons_append.
Qed.

Lemma distinctLoop_S : forall n i lower upper used res,
  is_i64 (upper - i) -> is_i64 (upper - i - 1) ->
  distinctLoop (S n) i lower upper used res =
   (let? x := rint lower (upper - i) in
    distinctLoop n (i + 1) lower upper ((x, val used (upper - i - 1)) :: used) (res ++ [val used x])).
Proof.
  intros. cbn [distinctLoop]. rewrite !chk_Ok by auto. cbn [lift rbind]. reflexivity.
Qed.

Section Loop.
  Variables lower upper : Z.
  Hypothesis Hl : is_i64 lower.
  Hypothesis Hu : is_i64 upper.

  (* n remaining iterations, m values left in the pool *)
  Lemma distinctLoop_always : forall n m i used res,
    i + Z.of_nat m = upper - lower -> 0 <= i -> (n <= m)%nat ->
    always (distinctLoop n i lower upper used res)
      (returns (fun l => exists s rest, l = res ++ s /\ length s = n /\
                  Permutation (pool used lower m) (s ++ rest))).
  Proof.
    induction n; intros m i used res Hm Hi Hn.
    - apply returns_ret. exists [], (pool used lower m). rewrite app_nil_r. auto.
    - destruct m as [| m]; [lia |].
      rewrite distinctLoop_S by (mach; lia).
      eapply returns_bind; [apply returns_rint; lia |]. intros x Hx. cbv beta in Hx.
      eapply returns_mono; [| apply (IHn m); lia].
      intros l (s & rest & -> & HL & HP).
      exists (val used x :: s), rest. rewrite <- app_assoc. split; [reflexivity |].
      split; [simpl; lia |].
      rewrite (pool_step used lower m x) by lia. cbn [app]. constructor.
      replace (lower + Z.of_nat m) with (upper - i - 1) by lia. exact HP.
  Qed.

  Notation isList := (resultIs (list_eq_dec Z.eq_dec)).

  Lemma expect_zero : forall A (m : rnd A) f, always m (fun o => (f o == 0)%Q) -> (expect m f == 0)%Q.
  Proof.
    intros A m f H. rewrite (expect_ext_always _ _ _ (fun _ => 0%Q)) by exact H.
    clear H. induction m as [o | lo hi k IH]; simpl; [reflexivity |].
    rewrite qsum_zero by (intros; apply IH). unfold Qdiv. ring.
  Qed.

  (* every ordered selection has the same probability *)
  Lemma distinctLoop_uniform : forall n m i used res t,
    i + Z.of_nat m = upper - lower -> 0 <= i -> (n <= m)%nat ->
    NoDup (pool used lower m) -> length t = n -> NoDup t -> incl t (pool used lower m) ->
    (Pr (distinctLoop n i lower upper used res) (isList (res ++ t)) ==
       inject_Z (zfact (m - n)) / inject_Z (zfact m))%Q.
  Proof.
    induction n; intros m i used res t Hm Hi Hn Hnd HL Ht Hin.
    - destruct t; [| discriminate]. rewrite app_nil_r, Nat.sub_0_r. unfold Pr. simpl.
      destruct (list_eq_dec Z.eq_dec res res); [| contradiction].
      pose proof (zfact_pos m). field. apply inject_Z_nonzero. lia.
    - destruct m as [| m]; [lia |]. destruct t as [| v t]; [discriminate |].
      unfold Pr. rewrite distinctLoop_S by (mach; lia). rewrite expect_bind, expect_rint by lia.
      replace (Z.to_nat (upper - i - lower)) with (S m) by lia.
      assert (Hv : In v (pool used lower (S m))) by (apply Hin; left; reflexivity).
      unfold pool in Hv. apply in_map_iff in Hv. destruct Hv as (x0 & Ev & Hx0).
      assert (Hinj : forall x y, In x (zseq lower (S m)) -> In y (zseq lower (S m)) ->
                 val used x = val used y -> x = y).
      { unfold pool in Hnd. clear - Hnd. revert Hnd. generalize (zseq lower (S m)).
        induction l as [| a l IH]; simpl; intros N x y Hx Hy E; [contradiction |].
        inversion_clear N. destruct Hx as [<- | Hx], Hy as [<- | Hy]; auto.
        - exfalso. apply H. rewrite E. apply in_map. exact Hy.
        - exfalso. apply H. rewrite <- E. apply in_map. exact Hx. }
      inversion_clear Ht as [| ? ? Hvt Ht'].
      rewrite (qsum_single _ _ _ x0 (inject_Z (zfact (m - n)) / inject_Z (zfact m))%Q).
      + replace (S m - S n)%nat with (m - n)%nat by lia. cbn [zfact].
        replace (upper - i - lower) with (Z.of_nat (S m)) by lia.
        rewrite inject_Z_mult. pose proof (zfact_pos m).
        field. split; apply inject_Z_nonzero; lia.
      + apply zseq_NoDup.
      + exact Hx0.
      + apply in_zseq in Hx0. pose proof (pool_step used lower m x0 Hx0) as PS.
        replace (lower + Z.of_nat m) with (upper - i - 1) in PS by lia.
        replace (res ++ v :: t) with ((res ++ [val used x0]) ++ t) by (rewrite Ev, <- app_assoc; reflexivity).
        apply IHn; auto; try lia.
        * eapply Permutation_NoDup in PS; [| exact Hnd]. inversion PS; auto.
        * intros y Hy. assert (In y (pool used lower (S m))) as Iy by (apply Hin; right; exact Hy).
          eapply Permutation_in in Iy; [| exact PS]. destruct Iy as [<- | Iy]; [| exact Iy].
          exfalso. rewrite Ev in Hy. contradiction.
      + intros x Hx Hne. apply expect_zero.
        apply in_zseq in Hx as Hx'.
        eapply always_mono; [| apply (distinctLoop_always n m); lia].
        intros [l | | |]; simpl; try contradiction. intros (s & rest & -> & _ & _).
        destruct (list_eq_dec Z.eq_dec _ _) as [E |]; [| reflexivity].
        exfalso. rewrite <- app_assoc in E. apply app_inv_head in E. cbn [app] in E.
        inversion E as [[E1 E2]]. apply Hne. apply Hinj; auto. congruence.
  Qed.

  (* every unordered selection has the same probability *)
  Definition sortsTo (s : list Z) (o : outcome (list Z)) : bool :=
    match o with Ok l => if list_eq_dec Z.eq_dec (sort l) s then true else false | _ => false end.

  Lemma count_in_pool : forall (T P : list Z), NoDup T -> NoDup P -> incl T P ->
    length (filter (fun v => if in_dec Z.eq_dec v T then true else false) P) = length T.
  Proof.
    intros T P HT HP HI. apply Permutation_length. apply NoDup_Permutation.
    - apply NoDup_filter. exact HP.
    - exact HT.
    - intros v. rewrite filter_In. destruct (in_dec Z.eq_dec v T) as [I | I]; split; intros H.
      + exact I.
      + split; [apply HI; exact I | reflexivity].
      + destruct H; discriminate.
      + contradiction.
  Qed.

  Lemma filter_map_length : forall A B (p : B -> bool) (f : A -> B) l,
    length (filter p (map f l)) = length (filter (fun x => p (f x)) l).
  Proof. intros. induction l; simpl; auto. destruct (p (f a)); simpl; auto. Qed.

  Lemma distinctLoop_uniform_set : forall n m i used res T,
    i + Z.of_nat m = upper - lower -> 0 <= i -> (n <= m)%nat ->
    NoDup (pool used lower m) -> length T = n -> NoDup T -> incl T (pool used lower m) ->
    NoDup (res ++ T) ->
    (forall x, In x res -> ~ In x (pool used lower m)) ->
    (Pr (distinctLoop n i lower upper used res) (sortsTo (sort (res ++ T))) ==
       inject_Z (zfact n) * inject_Z (zfact (m - n)) / inject_Z (zfact m))%Q.
  Proof.
    induction n; intros m i used res T Hm Hi Hn Hnd HL HT Hin HrT Hrp.
    - destruct T; [| discriminate]. rewrite app_nil_r, Nat.sub_0_r. unfold Pr. simpl.
      destruct (list_eq_dec Z.eq_dec (sort res) (sort res)); [| contradiction].
      pose proof (zfact_pos m). field. apply inject_Z_nonzero. lia.
    - destruct m as [| m]; [lia |].
      unfold Pr. rewrite distinctLoop_S by (mach; lia). rewrite expect_bind, expect_rint by lia.
      replace (Z.to_nat (upper - i - lower)) with (S m) by lia.
      set (c := (inject_Z (zfact n) * inject_Z (zfact (m - n)) / inject_Z (zfact m))%Q).
      rewrite (qsum_ext _ _ (fun x => if (if in_dec Z.eq_dec (val used x) T then true else false) then c else 0%Q)).
      + rewrite qsum_indicator.
        rewrite <- (filter_map_length _ _ (fun v => if in_dec Z.eq_dec v T then true else false) (val used)).
        fold (pool used lower (S m)). rewrite count_in_pool by auto. rewrite HL. unfold c.
        replace (S m - S n)%nat with (m - n)%nat by lia. cbn [zfact].
        replace (upper - i - lower) with (Z.of_nat (S m)) by lia.
        rewrite !inject_Z_mult. pose proof (zfact_pos m).
        field. split; apply inject_Z_nonzero; lia.
      + intros x Hx. apply in_zseq in Hx. pose proof (pool_step used lower m x Hx) as PS.
        replace (lower + Z.of_nat m) with (upper - i - 1) in PS by lia.
        pose proof (Permutation_NoDup PS Hnd) as Hnd'. inversion_clear Hnd' as [| ? ? Hv Hnd''].
        destruct (in_dec Z.eq_dec (val used x) T) as [HvT | HvT].
        * apply in_split in HvT. destruct HvT as (T1 & T2 & ->).
          assert (PT : Permutation (T1 ++ val used x :: T2) (val used x :: T1 ++ T2))
            by (symmetry; apply Permutation_middle).
          pose proof (Permutation_NoDup PT HT) as HT'. inversion_clear HT' as [| ? ? Hv2 HT''].
          replace (sort (res ++ T1 ++ val used x :: T2)) with (sort ((res ++ [val used x]) ++ T1 ++ T2)).
          2:{ apply sort_eq_iff. rewrite <- app_assoc. apply Permutation_app_head. symmetry. exact PT. }
          apply IHn; auto; try lia.
          { rewrite app_length in *. simpl in HL. lia. }
          { intros y Hy. assert (In y (pool used lower (S m))) as Iy.
            { apply Hin. apply in_app_iff in Hy. apply in_app_iff. simpl. intuition. }
            eapply Permutation_in in Iy; [| exact PS]. destruct Iy as [<- | Iy]; [contradiction | exact Iy]. }
          { eapply Permutation_NoDup; [| exact HrT]. rewrite <- app_assoc. apply Permutation_app_head. exact PT. }
          { intros y Hy Hp. apply in_app_iff in Hy. destruct Hy as [Hy | [<- | []]]; [| contradiction].
            apply (Hrp y Hy). eapply Permutation_in; [symmetry; exact PS | right; exact Hp]. }
        * apply expect_zero.
          eapply always_mono; [| apply (distinctLoop_always n m); lia].
          intros [l | | |]; simpl; try contradiction. intros (s & rest & -> & _ & _).
          destruct (list_eq_dec Z.eq_dec _ _) as [E |]; [| reflexivity].
          exfalso. apply sort_eq_iff in E. rewrite <- app_assoc in E. apply Permutation_app_inv_l in E.
          apply HvT. eapply Permutation_in; [exact E | left; reflexivity].
  Qed.
End Loop.

Lemma pool_init : forall lower m, pool [] lower m = zseq lower m.
Proof. intros. unfold pool. rewrite <- (map_id (zseq lower m)) at 2. reflexivity. Qed.

Lemma distinct_unfold : forall count lower upper, 0 <= count -> is_i64 (lower + count) ->
  lower + count <= upper ->
  distinct count lower upper = distinctLoop (Z.to_nat count) 0 lower upper [] [].
Proof.
  intros count lower upper H0 H1 H2. unfold distinct, judgeAssert.
  replace (0 <=? count) with true by lia. cbn [lift rbind].
  rewrite chk_Ok by auto. cbn [lift rbind].
  replace (lower + count <=? upper) with true by lia. reflexivity.
Qed.

Lemma distinct_always : forall count lower upper, is_i64 lower -> is_i64 upper ->
  0 <= count -> lower + count <= upper ->
  always (distinct count lower upper)
    (returns (fun l => Z.of_nat (length l) = count /\ NoDup l /\ Forall (fun x => lower <= x < upper) l)).
Proof.
  intros count lower upper Hl Hu Hc Hle. rewrite distinct_unfold by (auto; mach; lia).
  eapply returns_mono; [| apply (distinctLoop_always lower upper Hl Hu _ (Z.to_nat (upper - lower))); lia].
  intros l (s & rest & -> & HL & HP). cbn [app]. rewrite pool_init in HP.
  pose proof (Permutation_NoDup HP (zseq_NoDup _ _)) as N.
  split; [lia |]. split; [eapply NoDup_app_l; exact N |].
  apply Forall_forall. intros x Hx.
  assert (In x (zseq lower (Z.to_nat (upper - lower)))) as I.
  { eapply Permutation_in; [symmetry; exact HP | apply in_app_iff; auto]. }
  apply in_zseq in I. lia.
Qed.

Lemma distinct_throws : forall count lower upper, is_i64 lower -> is_i64 upper ->
  is_i64 (lower + count) -> (count < 0 \/ upper < lower + count) ->
  distinct count lower upper = RRet Throw.
Proof.
  intros count lower upper Hl Hu Hc H. unfold distinct, judgeAssert.
  destruct (0 <=? count) eqn:E; cbn [lift rbind]; [| reflexivity].
  rewrite chk_Ok by auto. cbn [lift rbind].
  replace (lower + count <=? upper) with false by lia. reflexivity.
Qed.

Lemma in_range_pool : forall lower upper t, Forall (fun x => lower <= x < upper) t ->
  incl t (pool [] lower (Z.to_nat (upper - lower))).
Proof.
  intros lower upper t H x Hx. rewrite pool_init. apply in_zseq. rewrite Forall_forall in H.
  specialize (H x Hx). lia.
Qed.

Lemma distinct_uniform : forall count lower upper, is_i64 lower -> is_i64 upper ->
  0 <= count -> lower + count <= upper ->
  forall t, Z.of_nat (length t) = count -> NoDup t -> Forall (fun x => lower <= x < upper) t ->
  (Pr (distinct count lower upper) (resultIs (list_eq_dec Z.eq_dec) t) ==
   inject_Z (zfact (Z.to_nat (upper - lower - count))) / inject_Z (zfact (Z.to_nat (upper - lower))))%Q.
Proof.
  intros count lower upper Hl Hu Hc Hle t HL Ht Hr. rewrite distinct_unfold by (auto; mach; lia).
  change t with ([] ++ t) at 1.
  rewrite (distinctLoop_uniform lower upper Hl Hu _ (Z.to_nat (upper - lower))); auto; try lia.
  - replace (Z.to_nat (upper - lower) - Z.to_nat count)%nat with (Z.to_nat (upper - lower - count)) by lia.
    reflexivity.
  - rewrite pool_init. apply zseq_NoDup.
  - apply in_range_pool; auto.
Qed.

Lemma distinct_uniform_set : forall count lower upper, is_i64 lower -> is_i64 upper ->
  0 <= count -> lower + count <= upper ->
  forall t, Z.of_nat (length t) = count -> NoDup t -> Forall (fun x => lower <= x < upper) t ->
  (Pr (distinct count lower upper) (sortsTo (sort t)) ==
   inject_Z (zfact (Z.to_nat count)) * inject_Z (zfact (Z.to_nat (upper - lower - count)))
     / inject_Z (zfact (Z.to_nat (upper - lower))))%Q.
Proof.
  intros count lower upper Hl Hu Hc Hle t HL Ht Hr. rewrite distinct_unfold by (auto; mach; lia).
  change t with ([] ++ t) at 1.
  rewrite (distinctLoop_uniform_set lower upper Hl Hu _ (Z.to_nat (upper - lower))); auto; try lia.
  - replace (Z.to_nat (upper - lower) - Z.to_nat count)%nat with (Z.to_nat (upper - lower - count)) by lia.
    reflexivity.
  - rewrite pool_init. apply zseq_NoDup.
  - apply in_range_pool; auto.
Qed.

Lemma expect_ret_bind : forall A B (m : rnd A) (f : A -> B) g,
  (expect (rbind m (fun a => ret (f a))) g ==
   expect m (fun o => match o with Ok a => g (Ok (f a)) | Throw => g Throw | UB => g UB | Fuel => g Fuel end))%Q.
Proof. intros. rewrite expect_bind. apply expect_ext. intros [a | | |]; reflexivity. Qed.

Lemma increasing_uniform : forall count lower upper, is_i64 lower -> is_i64 upper ->
  0 <= count -> lower + count <= upper ->
  forall t, Z.of_nat (length t) = count -> StronglySorted Z.lt t -> Forall (fun x => lower <= x < upper) t ->
  (Pr (increasing count lower upper) (resultIs (list_eq_dec Z.eq_dec) t) ==
   inject_Z (zfact (Z.to_nat count)) * inject_Z (zfact (Z.to_nat (upper - lower - count)))
     / inject_Z (zfact (Z.to_nat (upper - lower))))%Q.
Proof.
  intros count lower upper Hl Hu Hc Hle t HL Ht Hr. destruct (lt_sorted t Ht) as [Hs Hn].
  rewrite <- (distinct_uniform_set count lower upper Hl Hu Hc Hle t HL Hn Hr).
  rewrite (sort_id t Hs). unfold increasing, Pr. rewrite expect_ret_bind.
  apply expect_ext. intros [a | | |]; reflexivity.
Qed.

Lemma increasing_always : forall count lower upper, is_i64 lower -> is_i64 upper ->
  0 <= count -> lower + count <= upper ->
  always (increasing count lower upper)
    (returns (fun l => Z.of_nat (length l) = count /\ StronglySorted Z.lt l /\
                       Forall (fun x => lower <= x < upper) l)).
Proof.
  intros count lower upper Hl Hu Hc Hle. unfold increasing.
  eapply returns_bind; [apply distinct_always; auto |]. intros l (H1 & H2 & H3).
  apply returns_ret. pose proof (sort_perm l) as P. split; [| split].
  - rewrite <- (Permutation_length P). exact H1.
  - apply sorted_lt; [apply sort_sorted |]. eapply Permutation_NoDup; eauto.
  - apply Forall_forall. intros x Hx. rewrite Forall_forall in H3. apply H3.
    eapply Permutation_in; [symmetry; exact P | exact Hx].
Qed.

Lemma StronglySorted_rev : forall (R : Z -> Z -> Prop) l, StronglySorted R l ->
  StronglySorted (fun a b => R b a) (rev l).
Proof.
  intros R l H. induction H as [| x l H IH F]; simpl; [constructor |].
  rewrite Forall_forall in F.
  assert (G : forall l', StronglySorted (fun a b => R b a) l' -> (forall y, In y l' -> R x y) ->
              StronglySorted (fun a b => R b a) (l' ++ [x])).
  { induction l' as [| y l' IH']; simpl; intros S Hx; [repeat constructor |].
    inversion_clear S as [| ? ? S' F']. constructor; [apply IH'; auto |].
    apply Forall_app. split; [exact F' |]. constructor; [| constructor]. apply Hx. auto. }
  apply G; auto. intros y Hy. apply F. apply in_rev. exact Hy.
Qed.

Lemma decreasing_always : forall count lower upper, is_i64 lower -> is_i64 upper ->
  0 <= count -> lower + count <= upper ->
  always (decreasing count lower upper)
    (returns (fun l => Z.of_nat (length l) = count /\ StronglySorted Z.gt l /\
                       Forall (fun x => lower <= x < upper) l)).
Proof.
  intros count lower upper Hl Hu Hc Hle. unfold decreasing.
  eapply returns_bind; [apply distinct_always; auto |]. intros l (H1 & H2 & H3).
  apply returns_ret. pose proof (sort_perm l) as P. split; [| split].
  - rewrite rev_length, <- (Permutation_length P). exact H1.
  - assert (S : StronglySorted Z.lt (sort l)).
    { apply sorted_lt; [apply sort_sorted |]. eapply Permutation_NoDup; eauto. }
    apply StronglySorted_rev in S. clear - S. induction S; constructor; auto.
    eapply Forall_impl; [| exact H]. simpl. intros; lia.
  - apply Forall_forall. intros x Hx. rewrite Forall_forall in H3. apply H3.
    eapply Permutation_in; [symmetry; exact P |]. apply in_rev. exact Hx.
Qed.

Lemma multipleLoop_always : forall n lower upper, lower < upper ->
  always (multipleLoop n lower upper)
    (returns (fun l => length l = n /\ Forall (fun x => lower <= x < upper) l)).
Proof.
  induction n; intros lower upper H; simpl multipleLoop.
  - apply returns_ret. auto.
  - eapply returns_bind; [apply returns_rint; auto |]. intros x Hx.
    eapply returns_bind; [apply IHn; auto |]. intros l [HL HF].
    apply returns_ret. split; [simpl; lia | constructor; auto].
Qed.

Lemma multiple_always : forall count lower upper, 0 <= count -> lower < upper ->
  always (multiple count lower upper)
    (returns (fun l => Z.of_nat (length l) = count /\ Forall (fun x => lower <= x < upper) l)).
Proof.
  intros count lower upper Hc H. unfold multiple, judgeAssert. replace (0 <=? count) with true by lia.
  cbn [lift rbind]. eapply returns_mono; [| apply multipleLoop_always; auto].
  intros l [HL HF]. split; [lia | auto].
Qed.

Lemma nonDecreasing_always : forall count lower upper, 0 <= count -> lower < upper ->
  always (nonDecreasing count lower upper)
    (returns (fun l => Z.of_nat (length l) = count /\ StronglySorted Z.le l /\
                       Forall (fun x => lower <= x < upper) l)).
Proof.
  intros count lower upper Hc H. unfold nonDecreasing.
  eapply returns_bind; [apply multiple_always; auto |]. intros l (H1 & H3).
  apply returns_ret. pose proof (sort_perm l) as P. split; [| split].
  - rewrite <- (Permutation_length P). exact H1.
  - apply sort_sorted.
  - apply Forall_forall. intros x Hx. rewrite Forall_forall in H3. apply H3.
    eapply Permutation_in; [symmetry; exact P | exact Hx].
Qed.

Lemma nonIncreasing_always : forall count lower upper, 0 <= count -> lower < upper ->
  always (nonIncreasing count lower upper)
    (returns (fun l => Z.of_nat (length l) = count /\ StronglySorted Z.ge l /\
                       Forall (fun x => lower <= x < upper) l)).
Proof.
  intros count lower upper Hc H. unfold nonIncreasing.
  eapply returns_bind; [apply multiple_always; auto |]. intros l (H1 & H3).
  apply returns_ret. pose proof (sort_perm l) as P. split; [| split].
  - rewrite rev_length, <- (Permutation_length P). exact H1.
  - pose proof (StronglySorted_rev _ _ (sort_sorted l)) as S. clear - S. induction S; constructor; auto.
    eapply Forall_impl; [| exact H]. simpl. intros; lia.
  - apply Forall_forall. intros x Hx. rewrite Forall_forall in H3. apply H3.
    eapply Permutation_in; [symmetry; exact P |]. apply in_rev. exact Hx.
Qed.

(* multiple: independent uniform coordinates *)
Lemma multipleLoop_uniform : forall n lower upper t, lower < upper -> length t = n ->
  Forall (fun x => lower <= x < upper) t ->
  (Pr (multipleLoop n lower upper) (resultIs (list_eq_dec Z.eq_dec) t) ==
   1 / inject_Z ((upper - lower) ^ Z.of_nat n))%Q.
Proof.
  induction n; intros lower upper t H HL HF.
  - destruct t; [| discriminate]. unfold Pr. simpl. reflexivity.
  - destruct t as [| v t]; [discriminate |]. inversion_clear HF as [| ? ? Hv HF'].
    unfold Pr. cbn [multipleLoop]. rewrite expect_bind, expect_rint by auto.
    rewrite (qsum_single _ _ _ v (1 / inject_Z ((upper - lower) ^ Z.of_nat n))%Q).
    + rewrite Nat2Z.inj_succ, Z.pow_succ_r by lia. rewrite inject_Z_mult.
      assert (0 < (upper - lower) ^ Z.of_nat n) by (apply Z.pow_pos_nonneg; lia).
      field. split; apply inject_Z_nonzero; lia.
    + apply zseq_NoDup.
    + apply in_zseq. lia.
    + rewrite <- (IHn lower upper t); auto. unfold Pr. rewrite expect_ret_bind.
      apply expect_ext. intros [l | | |]; try reflexivity. unfold resultIs.
      destruct (list_eq_dec Z.eq_dec (v :: l) (v :: t)), (list_eq_dec Z.eq_dec l t); try reflexivity; congruence.
    + intros x Hx Hne. rewrite expect_ret_bind.
      rewrite (expect_ext _ _ _ (fun _ => 0%Q)).
      * clear. induction (multipleLoop n lower upper) as [o | lo hi k IH]; simpl; [reflexivity |].
        rewrite qsum_zero by (intros; apply IH). unfold Qdiv. ring.
      * intros [l | | |]; try reflexivity. unfold resultIs.
        destruct (list_eq_dec Z.eq_dec (x :: l) (v :: t)); [congruence | reflexivity].
Qed.

Lemma decreasing_uniform : forall count lower upper, is_i64 lower -> is_i64 upper ->
  0 <= count -> lower + count <= upper ->
  forall t, Z.of_nat (length t) = count -> StronglySorted Z.gt t -> Forall (fun x => lower <= x < upper) t ->
  (Pr (decreasing count lower upper) (resultIs (list_eq_dec Z.eq_dec) t) ==
   inject_Z (zfact (Z.to_nat count)) * inject_Z (zfact (Z.to_nat (upper - lower - count)))
     / inject_Z (zfact (Z.to_nat (upper - lower))))%Q.
Proof.
  intros count lower upper Hl Hu Hc Hle t HL Ht Hr.
  assert (Ht' : StronglySorted Z.lt (rev t)).
  { apply StronglySorted_rev in Ht. clear - Ht. induction Ht; constructor; auto.
    eapply Forall_impl; [| exact H]. simpl. intros; lia. }
  rewrite <- (increasing_uniform count lower upper Hl Hu Hc Hle (rev t)); auto.
  - unfold increasing, decreasing, Pr. rewrite !expect_ret_bind. apply expect_ext.
    intros [a | | |]; try reflexivity. unfold resultIs.
    destruct (list_eq_dec Z.eq_dec (rev (sort a)) t) as [E | N], (list_eq_dec Z.eq_dec (sort a) (rev t)) as [E' | N'];
      try reflexivity; exfalso.
    + apply N'. rewrite <- E, rev_involutive. reflexivity.
    + apply N. rewrite E', rev_involutive. reflexivity.
  - rewrite rev_length. exact HL.
  - apply Forall_rev. exact Hr.
Qed.

Lemma multiple_uniform : forall count lower upper t, 0 <= count -> lower < upper ->
  Z.of_nat (length t) = count -> Forall (fun x => lower <= x < upper) t ->
  (Pr (multiple count lower upper) (resultIs (list_eq_dec Z.eq_dec) t) ==
   1 / inject_Z ((upper - lower) ^ count))%Q.
Proof.
  intros count lower upper t Hc H HL HF. unfold multiple, judgeAssert.
  replace (0 <=? count) with true by lia. cbn [lift rbind].
  rewrite multipleLoop_uniform by (auto; lia). rewrite Z2Nat.id by lia. reflexivity.
Qed.
