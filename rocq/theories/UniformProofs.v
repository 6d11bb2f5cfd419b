(* Uniformity of the derived generators: everything reached by relabelling a shuffle. *)
From Coq Require Import ZArith List Bool Lia Permutation QArith.
From Verif Require Import Tac RndModel RandSpec RandSeqModel RndLemmas ShuffleProofs PermProofs.
Import ListNotations.
Open Scope Z_scope.

(* ---- expectation is linear ---- *)
Lemma expect_zero : forall A (m : rnd A), (expect m (fun _ => 0) == 0)%Q.
Proof.
  intros A m. induction m as [o | lo hi k IH]; simpl; [reflexivity |].
  rewrite qsum_zero by (intros; apply IH). unfold Qdiv. ring.
Qed.

Lemma expect_plus : forall A (m : rnd A) f g,
  (expect m (fun o => f o + g o) == expect m f + expect m g)%Q.
Proof.
  intros A m f g. induction m as [o | lo hi k IH]; simpl; [reflexivity |].
  rewrite (qsum_ext _ _ (fun x => expect (k x) f + expect (k x) g)%Q) by (intros; apply IH).
  rewrite qsum_plus. unfold Qdiv. ring.
Qed.

Lemma expect_scale : forall A (m : rnd A) c f, (expect m (fun o => c * f o) == c * expect m f)%Q.
Proof.
  intros A m c f. induction m as [o | lo hi k IH]; simpl; [reflexivity |].
  rewrite (qsum_ext _ _ (fun x => c * expect (k x) f)%Q) by (intros; apply IH).
  rewrite qsum_mult. unfold Qdiv. ring.
Qed.

Lemma expect_qsum : forall A B (m : rnd A) (g : B -> outcome A -> Q) T,
  (expect m (fun o => qsum (fun t => g t o) T) == qsum (fun t => expect m (g t)) T)%Q.
Proof.
  intros A B m g T. induction T as [| t T IH].
  - apply expect_zero.
  - cbn [qsum fold_right]. fold (qsum (fun t => expect m (g t)) T).
    rewrite <- IH. rewrite <- (expect_plus _ m (g t)). apply expect_ext. intros o. reflexivity.
Qed.

(* a program whose every run leaves the draws in range has total mass one *)
Fixpoint proper {A} (m : rnd A) : Prop :=
  match m with
  | RRet _ => True
  | RDraw lo hi k => lo < hi /\ forall x, lo <= x < hi -> proper (k x)
  end.

Lemma expect_one : forall A (m : rnd A), proper m -> (expect m (fun _ => 1) == 1)%Q.
Proof.
  intros A m. induction m as [o | lo hi k IH]; simpl; [reflexivity |]. intros [H HP].
  rewrite (qsum_ext _ _ (fun _ => 1%Q)).
  - rewrite qsum_const, zseq_length, Z2Nat.id by lia.
    unfold Qdiv. rewrite Qmult_1_r. apply Qmult_inv_r. apply inject_Z_nonzero. lia.
  - intros x Hx. apply IH. apply HP. apply in_zseq in Hx. lia.
Qed.

Lemma proper_bind : forall A B (m : rnd A) (f : A -> rnd B),
  proper m -> (forall a, proper (f a)) -> proper (rbind m f).
Proof.
  intros A B m f. induction m as [[a | | |] | lo hi k IH]; simpl; auto.
  intros [H HP] HF. split; [exact H |]. intros x Hx. apply IH; auto.
Qed.

Lemma proper_lift : forall A (o : outcome A), proper (lift o).
Proof. intros A [a | | |]; simpl; exact I. Qed.

Lemma proper_rint : forall lo hi, proper (rint lo hi).
Proof.
  intros lo hi. unfold rint. destruct (lo <? hi) eqn:E; simpl; [| exact I].
  split; [lia | auto].
Qed.

Lemma proper_shuffleFrom : forall A i (l : list A), proper (shuffleFrom i l).
Proof.
  intros A. induction i as [| i IH]; intros l; cbn [shuffleFrom]; [exact I |].
  apply proper_bind; [apply proper_rint |]. intros j.
  apply proper_bind; [apply proper_lift |]. intros l'. apply IH.
Qed.
Lemma proper_shuffle : forall A (l : list A), proper (shuffle l).
Proof. intros. apply proper_shuffleFrom. Qed.

(* ---- all the orders of a list ---- *)
Fixpoint insertions {A} (x : A) (l : list A) : list (list A) :=
  match l with
  | [] => [[x]]
  | y :: l' => (x :: y :: l') :: map (cons y) (insertions x l')
  end.
Fixpoint orders {A} (l : list A) : list (list A) :=
  match l with [] => [[]] | x :: l' => flat_map (insertions x) (orders l') end.

Lemma in_insertions : forall A (x : A) l p, In p (insertions x l) -> Permutation (x :: l) p.
Proof.
  intros A x l. induction l as [| y l IH]; intros p H; cbn [insertions] in H.
  - destruct H as [<- | []]. apply Permutation_refl.
  - destruct H as [<- | H]; [apply Permutation_refl |].
    apply in_map_iff in H. destruct H as (q & <- & Hq).
    etransitivity; [apply perm_swap |]. constructor. apply IH. exact Hq.
Qed.

Lemma insertions_mid : forall A (x : A) a b, In (a ++ x :: b) (insertions x (a ++ b)).
Proof.
  intros A x a b. induction a as [| y a IH]; cbn [app].
  - destruct b; left; reflexivity.
  - cbn [insertions]. right. apply in_map. exact IH.
Qed.

Lemma in_orders : forall A (l p : list A), In p (orders l) <-> Permutation l p.
Proof.
  intros A l. induction l as [| x l IH]; intros p; cbn [orders].
  - split.
    + intros [<- | []]. constructor.
    + intros H. apply Permutation_nil in H. left. auto.
  - rewrite in_flat_map. split.
    + intros (q & Hq & Hp). apply IH in Hq. apply in_insertions in Hp.
      rewrite <- Hp. constructor. exact Hq.
    + intros H. assert (In x p) as Hx by (eapply Permutation_in; [exact H | left; reflexivity]).
      apply in_split in Hx. destruct Hx as (a & b & ->).
      exists (a ++ b). split; [| apply insertions_mid].
      apply IH. eapply Permutation_cons_app_inv. exact H.
Qed.

(* the same orders, each once *)
Section Deduplicated.
  Context {A : Type} (dec : forall x y : A, {x = y} + {x <> y}).
  Definition distinctOrders (l : list A) : list (list A) := nodup (list_eq_dec dec) (orders l).
  Lemma distinctOrders_NoDup : forall l, NoDup (distinctOrders l).
  Proof. intros. apply NoDup_nodup. Qed.
  Lemma in_distinctOrders : forall l p, In p (distinctOrders l) <-> Permutation l p.
  Proof. intros. unfold distinctOrders. rewrite nodup_In. apply in_orders. Qed.
End Deduplicated.

(* a finite-valued program: its expectation is the sum over the values *)
Lemma expect_values : forall A (dec : forall x y : A, {x = y} + {x <> y}) (m : rnd A) T f,
  NoDup T -> always m (returns (fun a => In a T)) ->
  (expect m f == qsum (fun t => f (Ok t) * Pr m (resultIs dec t)) T)%Q.
Proof.
  intros A dec m T f HN HA.
  rewrite (expect_ext_always _ m f
    (fun o => qsum (fun t => f (Ok t) * (if resultIs dec t o then 1 else 0))%Q T)).
  - rewrite (expect_qsum _ _ m (fun t o => f (Ok t) * (if resultIs dec t o then 1 else 0))%Q).
    apply qsum_ext. intros t _. unfold Pr. rewrite expect_scale. reflexivity.
  - eapply always_mono; [| exact HA]. intros [a | | |]; cbn [returns]; try contradiction.
    intros Ha. symmetry. apply (qsum_single _ _ T a); auto.
    + unfold resultIs. destruct (dec a a); [| contradiction]. ring.
    + intros x Hx Hne. unfold resultIs. destruct (dec a x); [congruence |]. ring.
Qed.

(* equal probabilities that sum to one *)
Lemma equal_share : forall A (dec : forall x y : A, {x = y} + {x <> y}) (m : rnd A) T c,
  proper m -> NoDup T -> always m (returns (fun a => In a T)) ->
  (forall t, In t T -> (Pr m (resultIs dec t) == c)%Q) ->
  (inject_Z (Z.of_nat (length T)) * c == 1)%Q.
Proof.
  intros A dec m T c HP HN HA HC. rewrite <- (expect_one _ m HP).
  rewrite (expect_values _ dec m T _ HN HA). rewrite <- qsum_const.
  apply qsum_ext. intros t Ht. rewrite (HC t Ht). ring.
Qed.

Lemma map_NoDup_in : forall A B (f : A -> B) l,
  (forall x y, In x l -> In y l -> f x = f y -> x = y) -> NoDup l -> NoDup (map f l).
Proof.
  intros A B f l. induction l as [| a l IH]; intros HI HN; cbn [map]; constructor; inversion_clear HN.
  - intros HM. apply in_map_iff in HM. destruct HM as (x & E & Hx).
    assert (x = a) by (apply HI; [right; auto | left; auto | auto]). subst x. contradiction.
  - apply IH; auto. intros x y Hx Hy. apply HI; right; auto.
Qed.

Section ShuffleSymmetry.
  Context {A : Type} (dec : forall x y : A, {x = y} + {x <> y}).

  Lemma shuffle_expect : forall (l : list A) f, NoDup l ->
    (expect (shuffle l) f ==
     qsum (fun p => f (Ok p)) (distinctOrders dec l) * (1 / inject_Z (zfact (length l))))%Q.
  Proof.
    intros l f HN.
    rewrite (expect_values _ (list_eq_dec dec) _ (distinctOrders dec l)).
    - rewrite Qmult_comm, <- qsum_mult. apply qsum_ext. intros p Hp.
      apply in_distinctOrders in Hp. rewrite Qmult_comm.
      pose proof (shuffle_uniform dec l p HN Hp) as U.
      unfold resultIs. rewrite U. reflexivity.
    - apply distinctOrders_NoDup.
    - eapply returns_mono; [| apply shuffle_always]. intros p Hp. apply in_distinctOrders. exact Hp.
  Qed.

  Lemma orders_length : forall l : list A, NoDup l ->
    Z.of_nat (length (distinctOrders dec l)) = zfact (length l).
  Proof.
    intros l HN.
    assert (H : (inject_Z (Z.of_nat (length (distinctOrders dec l))) * (1 / inject_Z (zfact (length l))) == 1)%Q).
    { apply (equal_share _ (list_eq_dec dec) (shuffle l)).
      - apply proper_shuffle.
      - apply distinctOrders_NoDup.
      - eapply returns_mono; [| apply shuffle_always]. intros p Hp. apply in_distinctOrders. exact Hp.
      - intros p Hp. apply in_distinctOrders in Hp. apply (shuffle_uniform dec l p HN Hp). }
    assert (HZ : ~ (inject_Z (zfact (length l)) == 0)%Q)
      by (apply inject_Z_nonzero; pose proof (zfact_pos (length l)); lia).
    assert (E : (inject_Z (Z.of_nat (length (distinctOrders dec l))) == inject_Z (zfact (length l)))%Q).
    { rewrite <- (Qmult_1_l (inject_Z (zfact _))). rewrite <- H. field. exact HZ. }
    unfold Qeq in E. simpl in E. lia.
  Qed.

  (* renaming the elements by a bijection does not change the distribution of a shuffle *)
  Lemma shuffle_relabel : forall (l : list A) (pi rho : A -> A) f, NoDup l ->
    Permutation l (map pi l) -> (forall x, In x l -> rho (pi x) = x) ->
    (expect (shuffle l) f ==
     expect (shuffle l) (fun o => match o with Ok p => f (Ok (map pi p)) | _ => f o end))%Q.
  Proof.
    intros l pi rho f HN HP Hinv. rewrite !shuffle_expect by exact HN.
    assert (Permutation (distinctOrders dec l) (map (map pi) (distinctOrders dec l))) as P.
    { symmetry. apply NoDup_Permutation_bis.
      - apply map_NoDup_in; [| apply distinctOrders_NoDup].
        intros p q Hp Hq E. apply in_distinctOrders in Hp, Hq.
        assert (forall r, Permutation l r -> map rho (map pi r) = r) as R.
        { intros r Hr. rewrite map_map. rewrite <- (map_id r) at 2. apply map_ext_in.
          intros x Hx. apply Hinv. eapply Permutation_in; [symmetry; exact Hr | exact Hx]. }
        rewrite <- (R p Hp), <- (R q Hq), E. reflexivity.
      - rewrite map_length. lia.
      - intros q Hq. apply in_map_iff in Hq. destruct Hq as (p & <- & Hp).
        apply in_distinctOrders in Hp. apply in_distinctOrders.
        etransitivity; [exact HP |]. apply Permutation_map. exact Hp. }
    rewrite (qsum_perm _ _ _ _ P) at 1. rewrite qsum_map. reflexivity.
  Qed.
End ShuffleSymmetry.

(* shuffling renamed elements = renaming shuffled elements *)
Definition omap {A B} (g : A -> B) (o : outcome A) : outcome B :=
  match o with Ok a => Ok (g a) | Throw => Throw | UB => UB | Fuel => Fuel end.

Lemma upd_map : forall A B (g : A -> B) l i a, upd (map g l) i (g a) = map g (upd l i a).
Proof.
  intros A B g l. induction l as [| x l IH]; intros [| i] a; cbn [upd map]; auto. f_equal. apply IH.
Qed.
Lemma aget_map : forall A B (g : A -> B) l i, aget (map g l) i = omap g (aget l i).
Proof.
  intros A B g l i. unfold aget. destruct (i <? 0); [reflexivity |].
  rewrite nth_error_map. destruct (nth_error l (Z.to_nat i)); reflexivity.
Qed.
Lemma aset_map : forall A B (g : A -> B) l i a, aset (map g l) i (g a) = omap (map g) (aset l i a).
Proof.
  intros A B g l i a. unfold aset, alen. rewrite map_length, upd_map.
  destruct ((0 <=? i) && (i <? Z.of_nat (length l))); reflexivity.
Qed.
Lemma aswap_map : forall A B (g : A -> B) l i j, aswap (map g l) i j = omap (map g) (aswap l i j).
Proof.
  intros A B g l i j. unfold aswap. rewrite aget_map. destruct (aget l i) as [x | | |]; cbn [omap bind]; auto.
  rewrite aget_map. destruct (aget l j) as [y | | |]; cbn [omap bind]; auto.
  rewrite aset_map. destruct (aset l i y) as [l' | | |]; cbn [omap bind]; auto.
  apply aset_map.
Qed.

Lemma shuffleFrom_map : forall A B (g : A -> B) i l f,
  (expect (shuffleFrom i (map g l)) f == expect (shuffleFrom i l) (fun o => f (omap (map g) o)))%Q.
Proof.
  intros A B g. induction i as [| i IH]; intros l f; cbn [shuffleFrom]; [reflexivity |].
  rewrite !expect_bind. apply expect_ext. intros [j | | |]; cbn [omap]; try reflexivity.
  rewrite !expect_bind, aswap_map.
  destruct (aswap l _ j) as [l' | | |]; cbn [omap lift expect]; try reflexivity. apply IH.
Qed.
Lemma shuffle_map : forall A B (g : A -> B) l f,
  (expect (shuffle (map g l)) f == expect (shuffle l) (fun o => f (omap (map g) o)))%Q.
Proof. intros. unfold shuffle. rewrite map_length. apply shuffleFrom_map. Qed.

(* ---- the bijection that takes one list to another ---- *)
Fixpoint look (a b : list Z) (x : Z) : Z :=
  match a, b with
  | y :: a', z :: b' => if x =? y then z else look a' b' x
  | _, _ => x
  end.

Lemma look_map : forall a b, NoDup a -> length a = length b -> map (look a b) a = b.
Proof.
  induction a as [| x a IH]; intros [| y b] HN HL; try discriminate; [reflexivity |].
  inversion_clear HN. cbn [map look]. rewrite Z.eqb_refl. f_equal.
  transitivity (map (look a b) a); [| apply IH; auto; simpl in HL; lia].
  apply map_ext_in. intros z Hz. destruct (z =? x) eqn:E; [| reflexivity].
  apply Z.eqb_eq in E. subst z. contradiction.
Qed.
Lemma look_outside : forall a b x, ~ In x a -> look a b x = x.
Proof.
  induction a as [| y a IH]; intros [| z b] x H; cbn [look]; try reflexivity.
  destruct (x =? y) eqn:E; [exfalso; apply H; left; lia |]. apply IH. intros C. apply H. right. exact C.
Qed.
Lemma look_in : forall a b x, length a = length b -> In x a -> In (look a b x) b.
Proof.
  induction a as [| y a IH]; intros [| z b] x HL Hx; try discriminate; [contradiction |].
  cbn [look]. destruct (x =? y) eqn:E; [left; reflexivity |]. right. apply IH; [simpl in HL; lia |].
  destruct Hx; [lia | auto].
Qed.
Lemma look_inv : forall a b x, NoDup b -> length a = length b -> In x a -> look b a (look a b x) = x.
Proof.
  induction a as [| y a IH]; intros [| z b] x HN HL Hx; try discriminate; [contradiction |].
  inversion_clear HN. cbn [look]. destruct (x =? y) eqn:E.
  - rewrite Z.eqb_refl. lia.
  - assert (In x a) by (destruct Hx; [lia | auto]). simpl in HL.
    pose proof (look_in a b x ltac:(lia) H1). destruct (look a b x =? z) eqn:F.
    + apply Z.eqb_eq in F. rewrite F in H2. contradiction.
    + apply IH; auto.
Qed.

(* ---- permutations with given cycle lengths ---- *)
Lemma concat_inj : forall (cs ds : list (list Z)), map (@length Z) cs = map (@length Z) ds ->
  concat cs = concat ds -> cs = ds.
Proof.
  induction cs as [| c cs IH]; intros [| d ds] HL HC; try discriminate; [reflexivity |].
  cbn [map concat] in *. injection HL as HL1 HL2.
  assert (c = d).
  { pose proof (f_equal (firstn (length c)) HC) as E.
    rewrite firstn_app, Nat.sub_diag, firstn_all, app_nil_r in E.
    rewrite HL1, firstn_app, Nat.sub_diag, firstn_all, app_nil_r in E. exact E. }
  subst d. f_equal. apply IH; [exact HL2 |]. eapply app_inv_head. exact HC.
Qed.

Lemma lens_nat : forall cs ds : list (list Z),
  map (fun c => Z.of_nat (length c)) cs = map (fun c => Z.of_nat (length c)) ds ->
  map (@length Z) cs = map (@length Z) ds.
Proof.
  induction cs as [| c cs IH]; intros [| d ds] H; try discriminate; [reflexivity |].
  cbn [map] in *. injection H as H1 H2. f_equal; [lia | auto].
Qed.

Lemma isCycle_unique : forall r r' offset c x, isCycle r offset c -> isCycle r' offset c -> In x c ->
  getz r x = getz r' x.
Proof.
  intros r r' offset c x H H' Hx. apply (In_nth _ _ 0) in Hx. destruct Hx as (j & Hj & <-).
  rewrite (H j Hj), (H' j Hj). reflexivity.
Qed.

Lemma cycles_unique : forall r r' offset cs n, length r = n -> length r' = n ->
  Permutation (concat cs) (zseq 0 n) -> Forall (isCycle r offset) cs -> Forall (isCycle r' offset) cs -> r = r'.
Proof.
  intros r r' offset cs n L L' HP F F'. apply (nth_ext _ _ 0 0); [congruence |]. intros i Hi.
  assert (In (Z.of_nat i) (concat cs)) as Hx.
  { eapply Permutation_in; [symmetry; exact HP |]. apply in_zseq. lia. }
  apply in_concat in Hx. destruct Hx as (c & Hc & Hx). rewrite Forall_forall in F, F'.
  pose proof (isCycle_unique r r' offset c _ (F c Hc) (F' c Hc) Hx) as E.
  unfold getz in E. rewrite Nat2Z.id in E. exact E.
Qed.

Lemma isCycle_conj : forall r t offset (pi : Z -> Z) c,
  (forall x, In x c -> getz t (pi x) = pi (getz r x - offset) + offset) ->
  isCycle r offset c -> isCycle t offset (map pi c).
Proof.
  intros r t offset pi c H HC j Hj. rewrite map_length in *.
  assert (forall k, (k < length c)%nat -> nth k (map pi c) 0 = pi (nth k c 0)) as N.
  { intros k Hk. rewrite (nth_indep _ 0 (pi 0)) by (rewrite map_length; exact Hk). apply map_nth. }
  rewrite N by exact Hj. rewrite H by (apply nth_In; exact Hj). rewrite (HC j Hj).
  rewrite N by (destruct (S j =? length c)%nat eqn:E; [lia | apply Nat.eqb_neq in E; lia]).
  f_equal. f_equal. lia.
Qed.

Lemma cycleLoop_char : forall cycles offset p n, Forall (fun c => 0 < c) cycles ->
  n = fold_right Z.add 0 cycles -> is_i64 offset -> is_i64 n -> is_i64 (offset + n) ->
  Permutation (zseq 0 (Z.to_nat n)) p ->
  exists r cs, cycleLoop cycles p (repeat 0 (length p)) 0 offset = Ok r /\ length r = Z.to_nat n /\
    map (fun c => Z.of_nat (length c)) cs = cycles /\ concat cs = p /\ Forall (isCycle r offset) cs.
Proof.
  intros cycles offset p n HF En Ho Hs Hos HP.
  assert (0 <= n) by (rewrite En; clear - HF; induction HF; cbn [fold_right]; lia).
  pose proof (Permutation_length HP) as PL. rewrite zseq_length in PL.
  assert (HA : alen p = n) by (unfold alen; lia).
  destruct (cycleLoop_ok p offset) with (cycles := cycles) (res := repeat 0 (length p)) (tmp := 0)
    as (r & E & L & B & _); auto; try lia.
  - eapply Permutation_NoDup; [exact HP | apply zseq_NoDup].
  - intros x Hx. apply (Permutation_in _ (Permutation_sym HP)) in Hx. apply in_zseq in Hx. lia.
  - rewrite HA. exact Hos.
  - unfold alen. rewrite repeat_length. reflexivity.
  - destruct (blocks_lists p offset) with (cycles := cycles) (tmp := 0) (res := r)
      as (cs & M & C & F); auto; try lia.
    { intros x Hx. apply (Permutation_in _ (Permutation_sym HP)) in Hx. apply in_zseq in Hx. lia. }
    exists r, cs. split; [exact E |]. split; [unfold alen in *; lia |].
    split; [exact M |]. split; [exact C | exact F].
Qed.

(* one direction of the conjugation *)
Lemma conj_result : forall cycles offset n pi s t p, Forall (fun c => 0 < c) cycles ->
  n = fold_right Z.add 0 cycles -> is_i64 offset -> is_i64 n -> is_i64 (offset + n) ->
  Permutation (zseq 0 (Z.to_nat n)) p -> Permutation (zseq 0 (Z.to_nat n)) (map pi p) ->
  length t = Z.to_nat n ->
  (forall x, 0 <= x < n -> getz t (pi x) = pi (getz s x - offset) + offset) ->
  cycleLoop cycles p (repeat 0 (length p)) 0 offset = Ok s ->
  cycleLoop cycles (map pi p) (repeat 0 (length (map pi p))) 0 offset = Ok t.
Proof.
  intros cycles offset n pi s t p HF En Ho Hs Hos HP HP' Lt HC E.
  destruct (cycleLoop_char cycles offset p n) as (r & cs & E1 & L1 & M1 & C1 & F1); auto.
  destruct (cycleLoop_char cycles offset (map pi p) n) as (r' & cs' & E2 & L2 & M2 & C2 & F2); auto.
  rewrite E in E1. injection E1 as <-. rewrite E2. f_equal.
  assert (cs' = map (map pi) cs).
  { apply concat_inj.
    - rewrite map_map. rewrite (map_ext _ (@length Z) (fun l => map_length pi l)).
      apply lens_nat. congruence.
    - rewrite C2, <- C1. apply concat_map. }
  eapply (cycles_unique _ _ offset cs' (Z.to_nat n)); auto.
  - rewrite C2. symmetry. exact HP'.
  - subst cs'. rewrite Forall_forall in F1 |- *. intros d Hd. apply in_map_iff in Hd.
    destruct Hd as (c & <- & Hc). apply (isCycle_conj s); [| apply F1; exact Hc].
    intros x Hx. apply HC. assert (In x p) as Hp by (rewrite <- C1; apply in_concat; eauto).
    apply (Permutation_in _ (Permutation_sym HP)) in Hp. apply in_zseq in Hp.
    assert (0 <= n) by (rewrite En; clear - HF; induction HF; cbn [fold_right]; lia). lia.
Qed.

Lemma hasCycles_conj : forall s t offset lens n, length s = n -> length t = n ->
  hasCycles s offset lens -> hasCycles t offset lens ->
  exists pi rho,
    Permutation (zseq 0 n) (map pi (zseq 0 n)) /\ Permutation (zseq 0 n) (map rho (zseq 0 n)) /\
    (forall x, 0 <= x < Z.of_nat n -> rho (pi x) = x) /\ (forall x, 0 <= x < Z.of_nat n -> pi (rho x) = x) /\
    (forall x, 0 <= x < Z.of_nat n -> getz t (pi x) = pi (getz s x - offset) + offset) /\
    (forall x, 0 <= x < Z.of_nat n -> getz s (rho x) = rho (getz t x - offset) + offset).
Proof.
  assert (half : forall s t offset cs ds n, length s = n -> length t = n ->
    map (fun c => Z.of_nat (length c)) cs = map (fun c => Z.of_nat (length c)) ds ->
    Permutation (concat cs) (zseq 0 n) -> Permutation (concat ds) (zseq 0 n) ->
    Forall (isCycle s offset) cs -> Forall (isCycle t offset) ds ->
    let pi := look (concat cs) (concat ds) in let rho := look (concat ds) (concat cs) in
    Permutation (zseq 0 n) (map pi (zseq 0 n)) /\
    (forall x, 0 <= x < Z.of_nat n -> rho (pi x) = x) /\
    (forall x, 0 <= x < Z.of_nat n -> getz t (pi x) = pi (getz s x - offset) + offset)).
  { intros s t offset cs ds n Ls Lt HL PC PD FC FD pi rho.
    assert (NC : NoDup (concat cs)) by (eapply Permutation_NoDup; [symmetry; exact PC | apply zseq_NoDup]).
    assert (ND : NoDup (concat ds)) by (eapply Permutation_NoDup; [symmetry; exact PD | apply zseq_NoDup]).
    assert (LL : length (concat cs) = length (concat ds))
      by (rewrite (Permutation_length PC), (Permutation_length PD); reflexivity).
    assert (IC : forall x, 0 <= x < Z.of_nat n -> In x (concat cs)).
    { intros x Hx. eapply Permutation_in; [symmetry; exact PC |]. apply in_zseq. lia. }
    pose proof (look_map _ _ NC LL) as M. fold pi in M.
    split; [| split].
    - rewrite <- PD at 1. rewrite <- M. apply Permutation_map. exact PC.
    - intros x Hx. apply look_inv; auto.
    - intros x Hx. pose proof (IC x Hx) as Hin. apply in_concat in Hin. destruct Hin as (c & Hc & Hxc).
      assert (Eds : ds = map (map pi) cs).
      { apply concat_inj.
        - rewrite map_map. rewrite (map_ext _ (@length Z) (fun l => map_length pi l)).
          symmetry. apply lens_nat. exact HL.
        - rewrite <- concat_map. symmetry. exact M. }
      rewrite Forall_forall in FC, FD. specialize (FC c Hc). assert (Hd : In (map pi c) ds) by (rewrite Eds; apply in_map; exact Hc). specialize (FD (map pi c) Hd).
      apply (In_nth _ _ 0) in Hxc. destruct Hxc as (j & Hj & <-).
      rewrite (FC j Hj). specialize (FD j). rewrite map_length in FD. specialize (FD Hj).
      assert (forall k, (k < length c)%nat -> nth k (map pi c) 0 = pi (nth k c 0)) as N.
      { intros k Hk. rewrite (nth_indep _ 0 (pi 0)) by (rewrite map_length; exact Hk). apply map_nth. }
      rewrite N in FD by exact Hj.
      rewrite N in FD by (destruct (S j =? length c)%nat eqn:E; [lia | apply Nat.eqb_neq in E; lia]).
      rewrite FD. f_equal. f_equal. lia. }
  intros s t offset lens n Ls Lt (cs & LC & PC & FC) (ds & LD & PD & FD). rewrite Ls in PC. rewrite Lt in PD.
  destruct (half s t offset cs ds n) as (A1 & A2 & A3); auto; [congruence |].
  destruct (half t s offset ds cs n) as (B1 & B2 & B3); auto; [congruence |].
  exists (look (concat cs) (concat ds)), (look (concat ds) (concat cs)). auto 10.
Qed.

Lemma permCycles_equal : forall cycles offset s t, Forall (fun c => 0 < c) cycles ->
  is_i64 offset -> is_i64 (fold_right Z.add 0 cycles) -> is_i64 (offset + fold_right Z.add 0 cycles) ->
  Z.of_nat (length s) = fold_right Z.add 0 cycles -> Z.of_nat (length t) = fold_right Z.add 0 cycles ->
  hasCycles s offset cycles -> hasCycles t offset cycles ->
  (Pr (permCycles cycles offset) (resultIs (list_eq_dec Z.eq_dec) s) ==
   Pr (permCycles cycles offset) (resultIs (list_eq_dec Z.eq_dec) t))%Q.
Proof.
  intros cycles offset s t HF Ho Hs Hos Ls Lt HS HT. unfold Pr, permCycles.
  set (n := fold_right Z.add 0 cycles) in *.
  assert (Hn : 0 <= n) by lia.
  rewrite accumulate_ok by (auto; fold n; mach; lia). fold n. cbn [lift rbind].
  replace (0 + n) with n by lia.
  rewrite perm_unfold by (auto; mach; lia). rewrite !expect_bind.
  destruct (hasCycles_conj s t offset cycles (Z.to_nat n)) as (pi & rho & P1 & P2 & I1 & I2 & C1 & C2); auto; try lia.
  rewrite Z2Nat.id in I1, I2, C1, C2 by lia.
  symmetry. etransitivity.
  { apply (shuffle_relabel Z.eq_dec (zseq 0 (Z.to_nat n)) pi rho); [apply zseq_NoDup | exact P1 |].
    intros x Hx. apply in_zseq in Hx. apply I1. lia. }
  symmetry.
  apply expect_ext_always. eapply always_mono; [| apply shuffle_always].
  intros [p | | |]; cbn [returns]; try contradiction. intros HP.
  assert (HP1 : Permutation (zseq 0 (Z.to_nat n)) (map pi p)).
  { rewrite P1 at 1. apply Permutation_map. exact HP. }
  assert (Ep : map rho (map pi p) = p).
  { rewrite map_map. rewrite <- (map_id p) at 2. apply map_ext_in. intros x Hx. apply I1.
    apply (Permutation_in _ (Permutation_sym HP)) in Hx. apply in_zseq in Hx. lia. }
  destruct (cycleLoop_char cycles offset p n) as (r & cs & E1 & L1 & _); auto.
  destruct (cycleLoop_char cycles offset (map pi p) n) as (r' & cs' & E2 & L2 & _); auto.
  pose proof (conj_result cycles offset n pi s t p HF eq_refl Ho Hs Hos HP HP1 ltac:(lia) C1) as X1.
  pose proof (conj_result cycles offset n rho t s (map pi p) HF eq_refl Ho Hs Hos HP1
    ltac:(rewrite Ep; exact HP) ltac:(lia) C2) as X2.
  rewrite Ep in X2. rewrite E1, E2 in *. cbn [lift expect resultIs].
  destruct (list_eq_dec Z.eq_dec r s) as [-> | N1]; destruct (list_eq_dec Z.eq_dec r' t) as [-> | N2]; try reflexivity.
  - exfalso. specialize (X1 eq_refl). congruence.
  - exfalso. specialize (X2 eq_refl). congruence.
Qed.

(* ---- permutations with given fixed points ---- *)
(* the values that stand in the places res leaves open *)
Fixpoint freeValues (res r : list Z) (offset : Z) : list Z :=
  match res, r with
  | x :: res', y :: r' => if x <? 0 then (y - offset) :: freeValues res' r' offset else freeValues res' r' offset
  | _, _ => []
  end.

Lemma fillLoop_free : forall res tmp offset r,
  length (filter negb0 tmp) = length (filter (fun x => x <? 0) res) ->
  fillLoop res tmp offset = Ok r -> freeValues res r offset = filter negb0 tmp.
Proof.
  induction res as [| x res IH]; intros tmp offset r HL E; cbn [fillLoop filter] in *.
  - injection E as <-. destruct (filter negb0 tmp); [reflexivity | discriminate].
  - destruct (x <? 0) eqn:Ex.
    + destruct (nextFree_ok tmp) as (v & rest & N1 & N2 & _); [intros C; rewrite C in HL; discriminate |].
      rewrite N1 in E. cbn [bind] in E. rewrite N2 in *. cbn [length] in HL.
      destruct (chk (v + offset)) as [w | | |] eqn:Ew; cbn [bind] in E; try discriminate.
      destruct (fillLoop res rest offset) as [r0 | | |] eqn:E0; cbn [bind] in E; try discriminate.
      injection E as <-. apply chk_inv in Ew. destruct Ew as [-> _]. cbn [freeValues]. rewrite Ex. f_equal; [lia |].
      apply IH; auto.
    + cbn [bind] in E.
      destruct (chk (x + offset)) as [w | | |] eqn:Ew; cbn [bind] in E; try discriminate.
      destruct (fillLoop res tmp offset) as [r0 | | |] eqn:E0; cbn [bind] in E; try discriminate.
      injection E as <-. cbn [freeValues]. rewrite Ex. apply IH; auto.
Qed.

Lemma freeValues_inj : forall res r s offset, length r = length res -> length s = length res ->
  (forall i, (i < length res)%nat -> 0 <= nth i res 0 -> nth i r 0 = nth i s 0) ->
  freeValues res r offset = freeValues res s offset -> r = s.
Proof.
  induction res as [| x res IH]; intros [| a r] [| b s] offset L1 L2 H E; try discriminate; [reflexivity |].
  cbn [length freeValues] in *.
  assert (forall i, (i < length res)%nat -> 0 <= nth i res 0 -> nth i r 0 = nth i s 0) as H'.
  { intros i Hi. apply (H (S i)). lia. }
  destruct (x <? 0) eqn:Ex.
  - injection E as E1 E2. f_equal; [lia |]. eapply IH; eauto.
  - f_equal; [apply (H 0%nat); simpl; lia |]. eapply IH; eauto.
Qed.

Lemma filter_split : forall A (f : A -> bool) l, Permutation l (filter f l ++ filter (fun x => negb (f x)) l).
Proof.
  intros A f l. induction l as [| x l IH]; cbn [filter]; [constructor |].
  destruct (f x); cbn [negb app].
  - constructor. exact IH.
  - rewrite IH at 1. apply Permutation_middle.
Qed.

Lemma filter_map_comm : forall A (fr : A -> bool) (g : A -> A) p,
  (forall x, In x p -> fr (g x) = fr x) -> filter fr (map g p) = map g (filter fr p).
Proof.
  intros A fr g p. induction p as [| x p IH]; intros H; cbn [map filter]; [reflexivity |].
  rewrite (H x (or_introl eq_refl)). rewrite IH by (intros; apply H; right; auto).
  destruct (fr x); reflexivity.
Qed.

(* what a shuffle does to a part of the elements is itself a uniform shuffle *)
Section SubOrder.
  Variables (l : list Z) (fr : Z -> bool).
  Hypothesis NL : NoDup l.
  Let sub : rnd (list Z) := let? p := shuffle l in ret (filter fr p).
  Notation dec := (list_eq_dec Z.eq_dec).

  Lemma subOrder_equal : forall w w', Permutation (filter fr l) w -> Permutation (filter fr l) w' ->
    (Pr sub (resultIs dec w) == Pr sub (resultIs dec w'))%Q.
  Proof.
    intros w w' HW HW'. unfold Pr, sub. rewrite !expect_bind.
    assert (NF : NoDup (filter fr l)) by (apply NoDup_filter; exact NL).
    assert (NW : NoDup w) by (eapply Permutation_NoDup; eassumption).
    assert (NW' : NoDup w') by (eapply Permutation_NoDup; [exact HW' | exact NF]).
    assert (LW : length w = length w').
    { rewrite <- (Permutation_length HW). apply Permutation_length. exact HW'. }
    set (pi := look w w'). set (rho := look w' w).
    assert (InW : forall x, In x w <-> In x l /\ fr x = true).
    { intros x. rewrite <- filter_In. split; intros H; [symmetry in HW |]; eapply Permutation_in; eauto. }
    assert (InW' : forall x, In x w' <-> In x l /\ fr x = true).
    { intros x. rewrite <- filter_In. split; intros H; [symmetry in HW' |]; eapply Permutation_in; eauto. }
    assert (Fpi : forall x, In x l -> fr (pi x) = fr x).
    { intros x Hx. destruct (fr x) eqn:E.
      - assert (In (pi x) w') as H by (apply look_in; auto; apply InW; auto). apply InW' in H. tauto.
      - unfold pi. rewrite look_outside; auto. intros C. apply InW in C. destruct C. congruence. }
    assert (Inv : forall x, In x l -> rho (pi x) = x).
    { intros x Hx. destruct (fr x) eqn:E.
      - apply look_inv; auto. apply InW; auto.
      - unfold pi, rho. rewrite (look_outside w w'), look_outside; auto.
        + intros C. apply InW' in C. destruct C. congruence.
        + intros C. apply InW in C. destruct C. congruence. }
    assert (Pm : Permutation l (map pi l)).
    { etransitivity; [apply (filter_split _ fr) |].
      rewrite (Permutation_map pi (filter_split _ fr l)), map_app. apply Permutation_app.
      - rewrite (Permutation_map pi HW). unfold pi. rewrite look_map by auto. exact HW'.
      - rewrite <- (map_id (filter _ l)) at 1. erewrite map_ext_in; [reflexivity |].
        intros x Hx. apply filter_In in Hx. destruct Hx as [_ Hx]. unfold pi. symmetry. apply look_outside.
        intros C. apply InW in C. destruct C as [_ C]. rewrite C in Hx. discriminate. }
    symmetry. etransitivity; [apply (shuffle_relabel Z.eq_dec l pi rho); auto |]. symmetry.
    apply expect_ext_always. eapply always_mono; [| apply shuffle_always].
    intros [p | | |]; cbn [returns]; try contradiction. intros HP. cbn [ret expect resultIs].
    rewrite filter_map_comm.
    2: { intros x Hx. apply Fpi. eapply Permutation_in; [symmetry; exact HP | exact Hx]. }
    assert (map rho (map pi (filter fr p)) = filter fr p) as R.
    { rewrite map_map. rewrite <- (map_id (filter fr p)) at 2. apply map_ext_in. intros x Hx.
      apply filter_In in Hx. apply Inv. eapply Permutation_in; [symmetry; exact HP | tauto]. }
    assert (map pi w = w') as M1 by (apply look_map; auto).
    assert (map rho w' = w) as M2 by (apply look_map; auto).
    destruct (dec (filter fr p) w) as [E | N]; destruct (dec (map pi (filter fr p)) w') as [E' | N']; try reflexivity.
    - exfalso. apply N'. rewrite E. exact M1.
    - exfalso. apply N. rewrite <- R, E'. exact M2.
  Qed.

  Lemma subOrder_uniform : forall w, Permutation (filter fr l) w ->
    (Pr sub (resultIs dec w) == 1 / inject_Z (zfact (length (filter fr l))))%Q.
  Proof.
    intros w HW.
    assert (NF : NoDup (filter fr l)) by (apply NoDup_filter; exact NL).
    assert (H : (inject_Z (Z.of_nat (length (distinctOrders Z.eq_dec (filter fr l)))) * Pr sub (resultIs dec w) == 1)%Q).
    { apply (equal_share _ dec sub).
      - apply proper_bind; [apply proper_shuffle | intros p; exact I].
      - apply distinctOrders_NoDup.
      - eapply returns_bind; [apply shuffle_always |]. intros p HP. apply returns_ret.
        apply in_distinctOrders. apply filter_perm_len. exact HP.
      - intros t Ht. apply in_distinctOrders in Ht. apply subOrder_equal; auto. }
    rewrite orders_length in H by exact NF.
    assert (HZ : ~ (inject_Z (zfact (length (filter fr l))) == 0)%Q)
      by (apply inject_Z_nonzero; pose proof (zfact_pos (length (filter fr l))); lia).
    rewrite <- H. field. exact HZ.
  Qed.
End SubOrder.

Lemma freeValues_char : forall res r offset, length r = length res ->
  freeValues res r offset =
  map (fun i => getz r i - offset) (filter (fun i => getz res i <? 0) (zseq 0 (length res))).
Proof.
  intros res r offset. revert r.
  assert (G : forall (res r : list Z) k, length r = length res ->
    freeValues res r offset =
    map (fun i => nth (Z.to_nat (i - k)) r 0 - offset)
        (filter (fun i => nth (Z.to_nat (i - k)) res 0 <? 0) (zseq k (length res)))).
  { clear. induction res as [| x res IH]; intros [| y r] k HL; try discriminate; [reflexivity |].
    cbn [length zseq filter freeValues].
    replace (nth (Z.to_nat (k - k)) (x :: res) 0) with x by (rewrite Z.sub_diag; reflexivity).
    injection HL as HL. rewrite (IH r (k + 1) HL).
    assert (E : forall i, In i (zseq (k + 1) (length res)) -> Z.to_nat (i - k) = S (Z.to_nat (i - (k + 1)))).
    { intros i Hi. apply in_zseq in Hi. lia. }
    assert (F : filter (fun i => nth (Z.to_nat (i - k)) (x :: res) 0 <? 0) (zseq (k + 1) (length res)) =
                filter (fun i => nth (Z.to_nat (i - (k + 1))) res 0 <? 0) (zseq (k + 1) (length res))).
    { apply filter_ext_in. intros i Hi. rewrite (E i Hi). reflexivity. }
    rewrite F.
    assert (M : map (fun i => nth (Z.to_nat (i - k)) (y :: r) 0 - offset)
                  (filter (fun i => nth (Z.to_nat (i - (k + 1))) res 0 <? 0) (zseq (k + 1) (length res))) =
                map (fun i => nth (Z.to_nat (i - (k + 1))) r 0 - offset)
                  (filter (fun i => nth (Z.to_nat (i - (k + 1))) res 0 <? 0) (zseq (k + 1) (length res)))).
    { apply map_ext_in. intros i Hi. apply filter_In in Hi. destruct Hi as [Hi _]. rewrite (E i Hi). reflexivity. }
    destruct (x <? 0); cbn [map]; rewrite M; [rewrite Z.sub_diag; reflexivity | reflexivity]. }
  intros r HL. rewrite (G res r 0 HL).
  erewrite map_ext; [erewrite filter_ext; [reflexivity |] |]; intros i; cbv beta; unfold getz; rewrite Z.sub_0_r; reflexivity.
Qed.

Lemma permFix_uniform : forall count fix_ offset sigma, 0 <= count -> is_i64 offset -> is_i64 count ->
  is_i64 (offset + count) -> NoDup fix_ -> Forall (fun x => offset <= x < offset + count) fix_ ->
  Permutation (zseq offset (Z.to_nat count)) sigma -> (forall x, In x fix_ -> getz sigma (x - offset) = x) ->
  (Pr (permFix count fix_ offset) (resultIs (list_eq_dec Z.eq_dec) sigma) ==
   1 / inject_Z (zfact (Z.to_nat count - length fix_)))%Q.
Proof.
  intros count fix_ offset sigma Hc Ho Hc64 Hoc HN HF HS HX. unfold permFix, judgeAssert.
  replace (0 <=? count) with true by lia. cbn [lift rbind].
  unfold rangeUp. replace (Z.to_nat (count - 0)) with (Z.to_nat count) by lia.
  assert (Gz : forall i, 0 <= i < count -> getz (zseq 0 (Z.to_nat count)) i = i).
  { intros i Hi. unfold getz. rewrite zseq_nth by lia. lia. }
  assert (Gr : forall i, 0 <= i < count -> getz (repeat (-1) (Z.to_nat count)) i = -1).
  { intros i Hi. unfold getz. apply (repeat_spec (Z.to_nat count)). apply nth_In. rewrite repeat_length. lia. }
  destruct (fixLoop_ok fix_ (zseq 0 (Z.to_nat count)) (repeat (-1) (Z.to_nat count)) count offset)
    as (tmp & res & E & L1 & L2 & S); auto.
  { unfold alen. rewrite zseq_length. lia. }
  { unfold alen. rewrite repeat_length. lia. }
  rewrite E. cbn [lift rbind]. clear E.
  set (n := Z.to_nat count) in *.
  assert (HL2 : length res = n) by (unfold alen in L2; lia).
  assert (HL1 : length tmp = n) by (unfold alen in L1; lia).
  assert (HLs : length sigma = n) by (rewrite <- (Permutation_length HS); apply zseq_length).
  set (inFix := fun i => existsb (Z.eqb (i + offset)) fix_).
  assert (InF : forall i, inFix i = true <-> In (i + offset) fix_).
  { intros i. unfold inFix. rewrite existsb_exists. split.
    - intros (x & Hx & Ex). apply Z.eqb_eq in Ex. rewrite Ex. exact Hx.
    - intros H. exists (i + offset). split; [exact H | apply Z.eqb_refl]. }
  set (fr := fun i => negb (inFix i)).
  assert (Tv : forall i, 0 <= i < count -> getz tmp i = (if fr i then i else -1)).
  { intros i Hi. destruct (S i Hi) as [S1 S2]. unfold fr. destruct (inFix i) eqn:Ei; cbn [negb].
    - apply S1. apply InF. exact Ei.
    - destruct S2 as [A _]; [rewrite <- InF; congruence |]. rewrite A. apply Gz. exact Hi. }
  assert (Rv : forall i, 0 <= i < count -> getz res i = (if fr i then -1 else i)).
  { intros i Hi. destruct (S i Hi) as [S1 S2]. unfold fr. destruct (inFix i) eqn:Ei; cbn [negb].
    - apply S1. apply InF. exact Ei.
    - destruct S2 as [_ A]; [rewrite <- InF; congruence |]. rewrite A. apply Gr. exact Hi. }
  clear S.
  assert (Et : tmp = map (getz tmp) (zseq 0 n)) by (rewrite <- HL1; apply getz_list).
  (* the free values of a shuffled tmp *)
  assert (Ff : forall p, Permutation (zseq 0 n) p -> filter negb0 (map (getz tmp) p) = filter fr p).
  { intros p HP.
    assert (forall x, In x p -> 0 <= x < count) as R.
    { intros x Hx. apply (Permutation_in _ (Permutation_sym HP)) in Hx. apply in_zseq in Hx. lia. }
    clear HP. induction p as [| x p IH]; [reflexivity |]. cbn [map filter].
    rewrite IH by (intros; apply R; right; auto).
    rewrite Tv by (apply R; left; auto). specialize (R x (or_introl eq_refl)).
    destruct (fr x); unfold negb0; [replace (x <? 0) with false by lia | ]; reflexivity. }
  assert (Fres : length (filter (fun x => x <? 0) res) = length (filter fr (zseq 0 n))).
  { rewrite (getz_list res), HL2.
    assert (forall l, (forall x, In x l -> 0 <= x < count) ->
      length (filter (fun x => x <? 0) (map (getz res) l)) = length (filter fr l)) as G.
    { induction l as [| x l IH]; intros R; [reflexivity |]. cbn [map filter].
      rewrite Rv by (apply R; left; auto). specialize (IH (fun y Hy => R y (or_intror Hy))).
      specialize (R x (or_introl eq_refl)). destruct (fr x); [cbn [length]; simpl; lia |].
      replace (x <? 0) with false by lia. exact IH. }
    apply G. intros x Hx. apply in_zseq in Hx. lia. }
  set (w := freeValues res sigma offset).
  assert (Rneg : forall i, 0 <= i < count -> (getz res i <? 0) = fr i).
  { intros i Hi. rewrite Rv by exact Hi. destruct (fr i); lia. }
  assert (Hw : Permutation (filter fr (zseq 0 n)) w).
  { unfold w. rewrite freeValues_char by lia. rewrite HL2.
    rewrite (filter_ext_in (fun i => getz res i <? 0) fr) by (intros i Hi; apply in_zseq in Hi; apply Rneg; lia).
    assert (Es : Permutation (map (fun i => getz sigma i - offset) (zseq 0 n)) (zseq 0 n)).
    { rewrite <- (map_map (getz sigma) (fun x => x - offset)). rewrite <- HLs at 1. rewrite <- getz_list.
      rewrite <- (Permutation_map (fun x => x - offset) HS).
      assert (forall n lo, map (fun x => x - offset) (zseq lo n) = zseq (lo - offset) n) as G.
      { clear. induction n; intros lo; [reflexivity |]. cbn [zseq map]. f_equal. rewrite IHn. f_equal. lia. }
      rewrite G, Z.sub_diag. reflexivity. }
    (* on the fixed part the values are the places themselves, so the rest is a permutation of the rest *)
    assert (Ep : Permutation (filter fr (zseq 0 n) ++ filter (fun x => negb (fr x)) (zseq 0 n))
                             (map (fun i => getz sigma i - offset) (filter fr (zseq 0 n)) ++
                              filter (fun x => negb (fr x)) (zseq 0 n))).
    { rewrite <- filter_split. rewrite <- Es at 1.
      rewrite (Permutation_map _ (filter_split _ fr (zseq 0 n))), map_app. apply Permutation_app_head.
      rewrite <- (map_id (filter (fun x => negb (fr x)) (zseq 0 n))) at 2.
      erewrite map_ext_in; [reflexivity |]. intros i Hi. apply filter_In in Hi. destruct Hi as [Hi Hb].
      unfold fr in Hb. rewrite negb_involutive in Hb. apply InF in Hb.
      specialize (HX _ Hb). replace (i + offset - offset) with i in HX by lia. cbv beta. lia. }
    apply Permutation_app_inv_r in Ep. exact Ep. }
  (* the probability is that of the order of the free values *)
  assert (Len : length (filter fr (zseq 0 n)) = (n - length fix_)%nat).
  { assert (Permutation (filter (fun x => negb (fr x)) (zseq 0 n)) (map (fun x => x - offset) fix_)) as PF.
    { apply NoDup_Permutation.
      - apply NoDup_filter. apply zseq_NoDup.
      - apply map_NoDup_in; [intros; lia | exact HN].
      - intros i. rewrite filter_In, in_map_iff. unfold fr. rewrite negb_involutive, InF, in_zseq.
        rewrite Forall_forall in HF. split.
        + intros [_ H]. exists (i + offset). split; [lia | exact H].
        + intros (x & <- & Hx). specialize (HF x Hx). replace (x - offset + offset) with x by lia.
          split; [lia | exact Hx]. }
    pose proof (Permutation_length PF) as PL. rewrite map_length in PL.
    pose proof (Permutation_length (filter_split _ fr (zseq 0 n))) as PL2.
    rewrite app_length, zseq_length in PL2. lia. }
  rewrite <- Len. rewrite <- (subOrder_uniform (zseq 0 n) fr (zseq_NoDup _ _) w Hw).
  unfold Pr. rewrite !expect_bind. rewrite Et. rewrite shuffle_map.
  apply expect_ext_always. eapply always_mono; [| apply shuffle_always].
  intros [p | | |]; cbn [returns]; try contradiction. intros HP. cbn [omap].
  assert (Lp : length (filter negb0 (map (getz tmp) p)) = length (filter (fun x => x <? 0) res)).
  { rewrite Ff by exact HP. rewrite Fres. apply Permutation_length. apply filter_perm_len. symmetry. exact HP. }
  assert (Bd : forall l, length l = n -> (forall i, 0 <= i < count -> getz l i < count) ->
            forall x, In x l -> x < count).
  { intros l HL Hl x Hx. rewrite (getz_list l) in Hx. apply in_map_iff in Hx. destruct Hx as (i & <- & Hi).
    apply in_zseq in Hi. apply Hl. lia. }
  destruct (fillLoop_ok res (map (getz tmp) p) offset count) as (r & R1 & R2 & R3 & R4); auto.
  { intros x Hx. apply in_map_iff in Hx. destruct Hx as (i & <- & Hi).
    apply (Permutation_in _ (Permutation_sym HP)) in Hi. apply in_zseq in Hi.
    rewrite Tv by lia. destruct (fr i); lia. }
  { apply (Bd res HL2). intros i Hi. rewrite Rv by exact Hi. destruct (fr i); lia. }
  rewrite R1. cbn [lift ret expect resultIs].
  pose proof (fillLoop_free _ _ _ _ Lp R1) as FV. rewrite Ff in FV by exact HP.
  destruct (list_eq_dec Z.eq_dec r sigma) as [-> | N1];
    destruct (list_eq_dec Z.eq_dec (filter fr p) w) as [E2 | N2]; try reflexivity.
  - exfalso. apply N2. symmetry. exact FV.
  - exfalso. apply N1. apply (freeValues_inj res r sigma offset); try lia; [| rewrite FV; exact E2].
    intros i Hi H0. rewrite R4 by auto. rewrite HL2 in Hi.
    pose proof (Rv (Z.of_nat i) ltac:(lia)) as V. unfold getz in V. rewrite Nat2Z.id in V.
    destruct (fr (Z.of_nat i)) eqn:Ei; [lia |].
    unfold fr in Ei. apply negb_false_iff in Ei. apply InF in Ei. specialize (HX _ Ei).
    replace (Z.of_nat i + offset - offset) with (Z.of_nat i) in HX by lia.
    unfold getz in HX. rewrite Nat2Z.id in HX. lia.
Qed.
