From Verif Require Import Base BaseLemmas Tac RndModel RndLemmas RandSpec RandSeqModel RandMiscProofs GeoModel GeoSpec SimpleSpec SimpleProofs4 HullSpec HullProofs2 PolyModel PolySpec PolyProofs PolyProofs2.
From Coq Require Import ZArith List Sorted Lia Permutation.
Import ListNotations.
Open Scope Z_scope.
Notation tiny := PolySpec.tiny.
Notation P2 := (Z * Z)%type.

(* ---- from the chain to the polygon ---- *)
Lemma side_nth : forall (t : list P2) i d, (i + 1 < length t)%nat -> side t (nth i t d) (nth (i + 1) t d).
Proof.
  induction t as [|a t IH]; intros i d L; cbn [length] in L; [lia|]. destruct i as [|i].
  - destruct t as [|b t]; cbn [length] in L; [lia|]. apply side_hd.
  - apply side_tl. apply IH. lia.
Qed.
Lemma crossFree_nth : forall l i j d, crossFree l -> (i + 1 < j)%nat -> (j + 1 < length l)%nat -> ~ commonPoint (nth i l d) (nth (i + 1) l d) (nth j l d) (nth (j + 1) l d).
Proof.
  induction l as [|a l IH]; intros i j d C I J; [cbn in J; lia|]. destruct j as [|j]; [lia|]. destruct l as [|b t]; [cbn in J; lia|]. destruct i as [|i].
  - destruct j as [|j]; [lia|]. cbn [nth Nat.add]. apply C. apply side_nth. cbn in J. lia.
  - cbn [nth Nat.add]. apply (IH i j d); [apply C|lia|]. cbn [length] in *. lia.
Qed.
Lemma succ_mod : forall i n, (0 < n)%nat -> ((i + 1) mod n = if Nat.eqb (i mod n + 1) n then 0 else i mod n + 1)%nat.
Proof.
  intros i n N. pose proof (Nat.mod_upper_bound i n ltac:(lia)) as B. rewrite <- Nat.add_mod_idemp_l by lia. destruct (Nat.eqb (i mod n + 1) n) eqn:E.
  - apply Nat.eqb_eq in E. rewrite E. apply Nat.mod_same. lia.
  - apply Nat.eqb_neq in E. apply Nat.mod_small. lia.
Qed.
Lemma three_corners : forall l i, NoDup l -> (3 <= length l)%nat ->
  let a := corner l i in let b := corner l (i + 1) in let c := corner l (i + 2) in (In a l /\ In b l /\ In c l) /\ a <> b /\ a <> c /\ b <> c.
Proof.
  intros l i N L. cbv zeta. unfold corner. set (n := length l) in *.
  assert (IN : forall k, In (nth (k mod n) l (0, 0)) l) by (intros k; apply nth_In; apply Nat.mod_upper_bound; lia).
  split; [auto|]. replace (i + 2)%nat with (i + 1 + 1)%nat by lia. rewrite (succ_mod (i + 1)) by lia. rewrite (succ_mod i) by lia.
  pose proof (Nat.mod_upper_bound i n ltac:(lia)) as B. set (r := (i mod n)%nat) in *. clearbody r.
  assert (NE : forall x y, (x < n)%nat -> (y < n)%nat -> x <> y -> nth x l (0, 0) <> nth y l (0, 0)).
  { intros x y X Y D E. apply D. apply (proj1 (NoDup_nth l (0, 0)) N); assumption. }
  destruct (Nat.eqb (r + 1) n) eqn:E1.
  - apply Nat.eqb_eq in E1. replace (Nat.eqb (0 + 1) n) with false by (symmetry; apply Nat.eqb_neq; lia). split; [|split]; apply NE; lia.
  - apply Nat.eqb_neq in E1. destruct (Nat.eqb (r + 1 + 1) n) eqn:E2; [apply Nat.eqb_eq in E2|apply Nat.eqb_neq in E2]; (split; [|split]; apply NE; lia).
Qed.
Lemma orient_rot : forall a b c, orient b c a = orient a b c.
Proof. intros. unfold orient. ring. Qed.
Lemma closing_free : forall dir f q a b, key dir f < key dir q -> key dir q < key dir a -> key dir q < key dir b -> ~ commonPoint a b q f.
Proof.
  intros dir f q a b F A B (m & j & k & M & J & K & E1 & E2).
  assert (L : (m - j) * key dir a + j * key dir b = (m - k) * key dir q + k * key dir f).
  { unfold key. transitivity (((m - j) * fst a + j * fst b) * fst dir + ((m - j) * snd a + j * snd b) * snd dir); [ring|]. rewrite E1, E2. ring. }
  assert (H1 : k * key dir f <= k * key dir q) by (apply Z.mul_le_mono_nonneg_l; lia).
  assert (H2 : (m - j) * (key dir q + 1) <= (m - j) * key dir a) by (apply Z.mul_le_mono_nonneg_l; lia).
  assert (H3 : j * (key dir q + 1) <= j * key dir b) by (apply Z.mul_le_mono_nonneg_l; lia). lia.
Qed.
Lemma chain_simple : forall dir l, general l -> (3 <= length l)%nat -> crossFree l ->
  key dir (hd (0, 0) l) < key dir (last l (0, 0)) -> (forall x, In x l -> x = hd (0, 0) l \/ x = last l (0, 0) \/ key dir (last l (0, 0)) < key dir x) -> simple l.
Proof.
  intros dir l (N & G) L C K1 K2. split; [exact L|]. set (n := length l) in *.
  assert (HD : hd (0, 0) l = nth 0 l (0, 0)) by (destruct l; reflexivity).
  assert (LA : last l (0, 0) = nth (n - 1) l (0, 0)).
  { destruct l as [|a l] using rev_ind; [cbn in L; lia|]. rewrite last_app1. unfold n. rewrite app_length. cbn [length]. rewrite app_nth2 by lia. replace (length l + 1 - 1 - length l)%nat with 0%nat by lia. reflexivity. }
  assert (INN : forall i, (i < n)%nat -> i <> 0%nat -> i <> (n - 1)%nat -> key dir (last l (0, 0)) < key dir (nth i l (0, 0))).
  { intros i I I0 I1. destruct (K2 (nth i l (0, 0)) (nth_In _ _ I)) as [E|[E|E]]; [| |exact E]; exfalso.
    - rewrite HD in E. apply I0. apply (proj1 (NoDup_nth l (0, 0)) N); [exact I|lia|exact E].
    - rewrite LA in E. apply I1. apply (proj1 (NoDup_nth l (0, 0)) N); [exact I|lia|exact E]. }
  assert (CO : forall i, (i < n)%nat -> corner l i = nth i l (0, 0)) by (intros i I; unfold corner; fold n; rewrite Nat.mod_small by exact I; reflexivity).
  assert (MAIN : forall i j, (i < j)%nat -> (j < n)%nat -> ((i + 1) mod n)%nat <> j -> ((j + 1) mod n)%nat <> i -> ~ meet (corner l i) (corner l (i + 1)) (corner l j) (corner l (j + 1))).
  { intros i j I J A B. rewrite meet_iff. rewrite Nat.mod_small in A by lia. rewrite (CO i), (CO (i + 1)%nat), (CO j) by lia.
    destruct (Nat.eq_dec (j + 1) n) as [E|E].
    - rewrite E, Nat.mod_same in B by lia. replace (corner l (j + 1)) with (hd (0, 0) l).
      + replace (nth j l (0, 0)) with (last l (0, 0)) by (rewrite LA; f_equal; lia). apply (closing_free dir); [exact K1|apply INN; lia|apply INN; lia].
      + unfold corner. fold n. rewrite E, Nat.mod_same by lia. exact HD.
    - rewrite (CO (j + 1)%nat) by lia. apply crossFree_nth; [exact C|lia|fold n; lia]. }
  split.
  - intros i j I J D A B. destruct (Nat.lt_ge_cases i j) as [LT|GE]; [apply MAIN; assumption|]. rewrite meet_iff. intros X. apply common_sym in X. rewrite <- meet_iff in X. revert X. apply MAIN; auto. lia.
  - intros i. destruct (three_corners l i N L) as ((A & B & D) & N1 & N2 & N3). pose proof (G _ _ _ A B D N1 N2 N3) as O. split; intros (E & _); apply O; [exact E|rewrite <- orient_rot; exact E].
Qed.

(* ---- polygon ---- *)
Lemma dots_ok : forall dir l, tiny dir -> Forall tiny l -> dotsDefined dir l = Ok tt.
Proof.
  intros [d1 d2] l (D1 & D2) F. induction F as [|[p1 p2] l (A1 & A2) F IH]; [reflexivity|]. cbn [dotsDefined fst snd] in *. unfold dot. cbn [fst snd].
  assert (M : forall x y, Z.abs x < 2 ^ 30 -> Z.abs y < 2 ^ 30 -> Z.abs (x * y) <= 2 ^ 30 * 2 ^ 30) by (intros x y X Y; rewrite Z.abs_mul; apply Z.mul_le_mono_nonneg; lia).
  pose proof (M p1 d1 A1 D1). pose proof (M p2 d2 A2 D2).
  rewrite (chk_Ok (p1 * d1)) by (mach; lia). cbn [bind]. rewrite (chk_Ok (p2 * d2)) by (mach; lia). cbn [bind]. rewrite chk_Ok by (mach; lia). cbn [bind]. exact IH.
Qed.
Lemma swap_second : forall p q (t : list P2), t <> [] -> exists mid, swapSecond (p :: q :: t) = Ok (p :: mid ++ [q]) /\ Permutation mid t.
Proof.
  intros p q t N. destruct t as [|a t]; [congruence|]. exists (last (a :: t) q :: removelast (a :: t)). split; [reflexivity|].
  rewrite (app_removelast_last q (l := a :: t)) at 3 by discriminate. apply Permutation_cons_append.
Qed.
Section P.
  Variable srt : P2 -> list P2 -> list P2.
  Variable prt : list (P2 * bool) -> list P2 * list P2.
  Variable fits : Z -> Z -> bool.
  Hypothesis SRT : sortsBy srt.
  Hypothesis PRT : splits prt.
  Lemma polygonOn_ok : forall fuel pts dir, tiny dir -> Forall tiny pts -> (3 <= length pts)%nat ->
    always (polygonOn srt prt fuel pts dir) (okOrEndless (fun l => Permutation pts l /\
      (general pts -> noRightAngle pts -> (forall a b, In a pts -> In b pts -> a <> b -> key dir a <> key dir b) -> simple l))).
  Proof.
    intros fuel pts dir TD TP L. unfold polygonOn. rewrite dots_ok by assumption. apply oe_ok.
    destruct (SRT dir pts) as [PS SS]. pose proof (Permutation_length PS) as LS. destruct (srt dir pts) as [|p [|q t]]; [cbn in LS; lia|cbn in LS; lia|].
    destruct (swap_second p q t) as (mid & E & PM); [intros ->; cbn in LS; lia|]. unfold point in *. rewrite E. apply oe_ok.
    assert (PA : Permutation pts (p :: mid ++ [q])).
    { transitivity (p :: q :: t); [exact PS|]. constructor. transitivity (q :: mid); [constructor; symmetry; exact PM|]. apply Permutation_cons_append. }
    eapply always_mono; [|apply (findLine_ok prt PRT fuel (p :: mid ++ [q])); rewrite Forall_forall in *; intros x X; apply TP; apply (Permutation_in x (Permutation_sym PA)); exact X].
    intros [l| | |] O; try exact O. destruct O as (P1 & H1 & E1 & C1). assert (PL : Permutation pts l) by (etransitivity; eassumption). split; [exact PL|]. intros G RA KD.
    assert (INC : incl (p :: mid ++ [q]) pts) by (intros x X; apply (Permutation_in x (Permutation_sym PA)); exact X).
    assert (G1 : general (p :: mid ++ [q])) by (apply (general_sub pts); [exact G|exact INC|apply (Permutation_NoDup PA); apply G]).
    inversion SS as [|? ? S1 F1]; subst. inversion S1 as [|? ? _ F2]; subst.
    assert (NP : NoDup (p :: q :: t)) by (apply (Permutation_NoDup PS); apply G). inversion NP as [|? ? NP1 NP2]; subst. inversion NP2 as [|? ? NP3 _]; subst.
    assert (HD : hd (0, 0) l = p) by exact H1. assert (LA : last l (0, 0) = q) by (rewrite E1; change (p :: mid ++ [q]) with ((p :: mid) ++ [q]); apply last_app1).
    assert (IP : forall x, In x (p :: q :: t) -> In x pts) by (intros x X; apply (Permutation_in x (Permutation_sym PS)); exact X).
    apply (chain_simple dir).
    - apply (general_sub pts); [exact G|intros x X; apply (Permutation_in x (Permutation_sym PL)); exact X|apply (Permutation_NoDup PL); apply G].
    - rewrite <- (Permutation_length PL). exact L.
    - apply C1; [exact G1|apply (angle_sub pts); assumption].
    - rewrite HD, LA. pose proof (Forall_inv F1) as K. cbv beta in K. assert (D : p <> q) by (intros D; apply NP1; left; symmetry; exact D).
      pose proof (KD _ q (IP _ (or_introl eq_refl)) (IP q (or_intror (or_introl eq_refl))) D). lia.
    - intros x X. rewrite HD, LA. apply (Permutation_in x (Permutation_sym PL)) in X. apply (Permutation_in x PS) in X. destruct X as [<-|[<-|X]]; [auto|auto|]. right. right.
      rewrite Forall_forall in F2. pose proof (F2 x X) as K. cbv beta in K. assert (D : q <> x) by (intros ->; contradiction).
      pose proof (KD q x (IP q (or_intror (or_introl eq_refl))) (IP x (or_intror (or_intror X))) D). lia.
  Qed.
  Lemma point_in : forall dim, 0 < dim -> dim <= 0x3FFFFFFF -> always (randomPoint dim) (okOrEndless (fun p => Z.abs (fst p) < dim /\ Z.abs (snd p) < dim)).
  Proof.
    intros dim D1 D2. unfold randomPoint. rewrite chk_Ok by (mach; lia). apply oe_ok. rewrite chk_Ok by (mach; lia). apply oe_ok. unfold rint. replace (- dim + 1 <? dim) with true by (symmetry; apply Z.ltb_lt; lia).
    intros x X y Y. cbn. lia.
  Qed.
  Lemma points_in : forall dim, 0 < dim -> dim <= 0x3FFFFFFF -> forall n, always (randomPoints n dim) (okOrEndless (fun l => length l = n /\ Forall (fun p => Z.abs (fst p) < dim /\ Z.abs (snd p) < dim) l)).
  Proof.
    intros dim D1 D2. induction n as [|n IH]; [cbn; auto|]. cbn [randomPoints]. eapply oe_bind; [apply point_in; assumption|]. intros p P. eapply oe_bind; [apply IH|]. intros l (L & F). cbn. split; [lia|]. constructor; assumption.
  Qed.
  Lemma polygon_ok : forall fuel n dim, 0 < dim -> dim <= 0x3FFFFFFF -> fits n dim = true -> 3 <= n ->
    always (polygon srt prt fits fuel n dim) (okOrEndless (fun l => alen l = n /\ Forall (fun p => Z.abs (fst p) < dim /\ Z.abs (snd p) < dim) l)).
  Proof.
    intros fuel n dim D1 D2 F N. unfold polygon. replace (dim <=? 0x3FFFFFFF) with true by (symmetry; apply Z.leb_le; exact D2). replace (0 <? dim) with true by (symmetry; apply Z.ltb_lt; exact D1). rewrite F.
    replace (3 <=? n) with true by (symmetry; apply Z.leb_le; exact N). cbn [judgeAssert]. do 4 apply oe_ok.
    eapply oe_bind; [apply points_in; assumption|]. intros pts (L & FP). eapply oe_bind; [apply point_in; lia|]. intros dir (X & Y).
    eapply always_mono; [|apply polygonOn_ok].
    - intros [l| | |] O; try exact O. destruct O as (P & _). unfold point in *. split; [unfold alen; rewrite <- (Permutation_length P), L; lia|]. rewrite Forall_forall in *. intros x I. apply FP. apply (Permutation_in x (Permutation_sym P)). exact I.
    - unfold tiny. lia.
    - revert FP. apply Forall_impl. unfold tiny. intros a A. lia.
    - lia.
  Qed.
  Lemma polygon_throws : forall fuel n dim, 0x3FFFFFFF < dim \/ dim <= 0 \/ fits n dim = false \/ n < 3 -> polygon srt prt fits fuel n dim = RRet Throw.
  Proof.
    intros fuel n dim H. unfold polygon. destruct (dim <=? 0x3FFFFFFF) eqn:E1; [|reflexivity]. destruct (0 <? dim) eqn:E2; [|reflexivity]. destruct (fits n dim) eqn:E3; [|reflexivity]. destruct (3 <=? n) eqn:E4; [|reflexivity].
    apply Z.leb_le in E1, E4. apply Z.ltb_lt in E2. destruct H as [H|[H|[H|H]]]; [lia|lia|congruence|lia].
  Qed.
  (* ---- a right angle ---- *)
  Lemma endless_bind : forall A B (m : rnd A) (f : A -> rnd B), always m (fun o => o = Fuel) -> always (rbind m f) (fun o => o = Fuel).
  Proof. intros A B m f H. apply always_bind. revert H. apply always_mono. intros o ->. reflexivity. Qed.
  Lemma endless_after : forall A B (m : rnd A) (f : A -> rnd B) P, always m (okOrEndless P) -> (forall a, P a -> always (f a) (fun o => o = Fuel)) -> always (rbind m f) (fun o => o = Fuel).
  Proof. intros A B m f P H K. apply always_bind. revert H. apply always_mono. intros [a| | |] O; try contradiction; [apply K; exact O|reflexivity]. Qed.
  Lemma right_angle : forall fuel p r q, tiny p -> tiny q -> tiny r -> angle r p q = 0 -> always (findLine prt fuel [p; r; q]) (fun o => o = Fuel).
  Proof.
    induction fuel as [|fuel IH]; intros p r q TP TQ TR A; [reflexivity|]. cbn [findLine]. cbv zeta. change (last [r; q] p) with q. change (removelast [r; q]) with [r].
    eapply endless_after; [apply chooseA_in; auto; discriminate|]. intros a ([<-|[]] & O).
    rewrite candidates_t by auto. cbn [filter]. replace (orient r r p) with 0 by (unfold orient; ring). cbn [Z.eqb negb andb]. change (lift (Ok [])) with (@RRet (list P2) (Ok [])). cbn [rbind].
    eapply endless_after; [apply oe_select; discriminate|]. intros b [<-|[]].
    rewrite sides_t by auto. change (lift (Ok ?x)) with (RRet (Ok x)). cbn [rbind lift map]. unfold sideB. replace (orient r q r) with 0 by (unfold orient; ring). cbn [Z.eqb negb].
    replace (angle r q r) with 0 by (unfold angle; ring). replace (angle r q p) with 0 by (rewrite <- A; unfold angle; ring). cbn [Z.sgn Z.eqb].
    destruct (PRT [(r, true)]) as [P1 P2']. cbn in P1, P2'. destruct (prt [(r, true)]) as [s1 s2]. cbn [fst snd] in *. apply Permutation_length_1_inv in P1. apply Permutation_nil in P2'. subst s1 s2.
    cbn [cutToFront app]. apply endless_bind. apply IH; assumption.
  Qed.
  Lemma right_triangle : forall fuel pts dir p q r, tiny dir -> Forall tiny pts -> Permutation [p; q; r] pts -> key dir p < key dir q -> key dir q < key dir r -> angle r p q = 0 ->
    always (polygonOn srt prt fuel pts dir) (fun o => o = Fuel).
  Proof.
    intros fuel pts dir p q r TD TP PP K1 K2 A. unfold polygonOn. rewrite dots_ok by assumption. cbn [lift rbind].
    destruct (SRT dir pts) as [PS SS]. assert (PP' : Permutation [p; q; r] (srt dir pts)) by (etransitivity; eassumption).
    assert (E : srt dir pts = [p; q; r]).
    { pose proof (Permutation_length PP') as L. destruct (srt dir pts) as [|x [|y [|z [|]]]]; try discriminate L.
      inversion SS as [|? ? S1 F1]; subst. inversion S1 as [|? ? _ F2]; subst. pose proof (Forall_inv F1) as O1. pose proof (Forall_inv F2) as O2. cbv beta in O1, O2.
      assert (X : In p [x; y; z] /\ In q [x; y; z] /\ In r [x; y; z]) by (repeat split; apply (Permutation_in _ PP'); cbn; auto).
      destruct X as ([X|[X|[X|[]]]] & [Y|[Y|[Y|[]]]] & [Z0|[Z0|[Z0|[]]]]); subst; try lia; reflexivity. }
    unfold point in *. rewrite E. change (swapSecond [p; q; r]) with (Ok [p; r; q]). cbn [lift rbind].
    assert (T : Forall tiny [p; q; r]) by (rewrite Forall_forall in *; intros x X; apply TP; apply (Permutation_in x PP); exact X).
    inversion T as [|? ? T1 T']; subst. inversion T' as [|? ? T2 T'']; subst. inversion T''; subst. apply right_angle; assumption.
  Qed.
End P.

(* one sort and one partition *)
Fixpoint insertBy (dir x : P2) (l : list P2) : list P2 :=
  match l with [] => [x] | y :: t => if key dir y <? key dir x then y :: insertBy dir x t else x :: l end.
Definition sortBy (dir : P2) (l : list P2) : list P2 := fold_right (insertBy dir) [] l.
Definition splitBy (l : list (P2 * bool)) : list P2 * list P2 := (map fst (filter snd l), map fst (filter (fun x => negb (snd x)) l)).
Lemma insertBy_perm : forall dir x l, Permutation (x :: l) (insertBy dir x l).
Proof. intros dir x. induction l as [|y l IH]; [constructor; constructor|]. cbn. destruct (_ <? _); [|reflexivity]. transitivity (y :: x :: l); [constructor|]. constructor. exact IH. Qed.
Lemma insertBy_sorted : forall dir x l, StronglySorted (fun a b => key dir a <= key dir b) l -> StronglySorted (fun a b => key dir a <= key dir b) (insertBy dir x l).
Proof.
  intros dir x. induction l as [|y l IH]; intros S; [repeat constructor|]. cbn [insertBy]. inversion S as [|? ? S1 F]; subst. destruct (key dir y <? key dir x) eqn:E.
  - apply Z.ltb_lt in E. constructor; [auto|]. rewrite Forall_forall in *. intros z Z0. apply (Permutation_in z (Permutation_sym (insertBy_perm dir x l))) in Z0. destruct Z0 as [<-|Z0]; [lia|auto].
  - apply Z.ltb_ge in E. constructor; [exact S|]. rewrite Forall_forall in *. intros z [<-|Z0]; [lia|]. pose proof (F z Z0) as K. cbv beta in K. lia.
Qed.
Lemma oracles_exist : sortsBy sortBy /\ splits splitBy.
Proof.
  split; [|intros l; split; reflexivity]. intros dir l. induction l as [|x l (P & S)]; [split; constructor|]. cbn [sortBy fold_right]. split; [|apply insertBy_sorted; exact S].
  transitivity (x :: sortBy dir l); [constructor; exact P|apply insertBy_perm].
Qed.
