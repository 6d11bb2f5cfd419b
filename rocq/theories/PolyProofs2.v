From Verif Require Import Base BaseLemmas Tac RndModel RndLemmas RandSpec RandSeqModel RandMiscProofs GeoModel GeoSpec SimpleSpec SimpleProofs4 HullSpec HullProofs2 PolyModel PolySpec PolyProofs.
From Coq Require Import ZArith List Sorted Lia Permutation.
Import ListNotations.
Open Scope Z_scope.
Notation tiny := PolySpec.tiny.
Notation P2 := (Z * Z)%type.

Lemma filter_perm : forall A (f : A -> bool) l, Permutation l (filter f l ++ filter (fun x => negb (f x)) l).
Proof.
  intros A f. induction l as [|x l IH]; [constructor|]. cbn [filter]. destruct (f x); cbn [negb app]; [constructor; exact IH|]. apply Permutation_cons_app. exact IH.
Qed.
Lemma labels_split : forall prt f mid s1 s2, splits prt -> prt (map (fun p => (p, f p)) mid) = (s1, s2) ->
  Permutation mid (s1 ++ s2) /\ (forall x, In x s1 -> f x = true) /\ (forall x, In x s2 -> f x = false).
Proof.
  intros prt f mid s1 s2 SP E. destruct (SP (map (fun p => (p, f p)) mid)) as [A B]. rewrite E in *. cbn [fst snd] in *.
  assert (F1 : map fst (filter snd (map (fun p => (p, f p)) mid)) = filter f mid).
  { clear. induction mid as [|x l IH]; [reflexivity|]. cbn. destruct (f x); cbn; rewrite IH; reflexivity. }
  assert (F2 : map fst (filter (fun x => negb (snd x)) (map (fun p => (p, f p)) mid)) = filter (fun x => negb (f x)) mid).
  { clear. induction mid as [|x l IH]; [reflexivity|]. cbn. destruct (f x); cbn; rewrite IH; reflexivity. }
  rewrite F1 in A. rewrite F2 in B. split; [|split].
  - transitivity (filter f mid ++ filter (fun x => negb (f x)) mid); [apply filter_perm|]. apply Permutation_app; assumption.
  - intros x X. apply (Permutation_in x (Permutation_sym A)) in X. apply filter_In in X. apply X.
  - intros x X. apply (Permutation_in x (Permutation_sym B)) in X. apply filter_In in X. destruct (f x); [destruct X; discriminate|reflexivity].
Qed.
Lemma side_neq : forall l a b, NoDup l -> side l a b -> a <> b.
Proof.
  intros l a b N (x & y & ->). apply NoDup_remove_2 in N. intros ->. apply N. apply in_or_app. right. left. reflexivity.
Qed.
Definition R (l l' : list P2) : Prop :=
  Permutation l l' /\ hd (0, 0) l' = hd (0, 0) l /\ last l' (0, 0) = last l (0, 0) /\ (general l -> noRightAngle l -> crossFree l').
Lemma general_sub : forall l l', general l -> incl l' l -> NoDup l' -> general l'.
Proof. intros l l' (N & G) I N'. split; [exact N'|]. intros a b c A B C. apply G; auto. Qed.
Lemma angle_sub : forall l l', noRightAngle l -> incl l' l -> noRightAngle l'.
Proof. intros l l' G I a b c A B C. apply G; auto. Qed.
Lemma last_app1 : forall (l : list P2) x d, last (l ++ [x]) d = x.
Proof. intros. apply last_last. Qed.
Lemma last_cons_app : forall (l r : list P2) c d, last (l ++ c :: r) d = last (c :: r) d.
Proof.
  induction l as [|x l IH]; intros r c d; [reflexivity|]. cbn [app]. rewrite <- (IH r c d). destruct l; reflexivity.
Qed.
Lemma sgn_mul : forall u v, u <> 0 -> v <> 0 -> (Z.sgn u = Z.sgn v -> 0 < Z.sgn v * u) /\ (Z.sgn u <> Z.sgn v -> Z.sgn v * u < 0).
Proof. intros u v U V. destruct u, v; cbn; split; intros; lia. Qed.

(* the two parts of a range in general position are separated *)
Lemma parts_free : forall first mid lst a b s1 r x y,
  let l := first :: mid ++ [lst] in general l -> noRightAngle l -> In a mid ->
  (b = lst \/ In b mid /\ orient a b first <> 0 /\ Z.sgn (orient a b first) * Z.sgn (orient a b lst) <= 0) ->
  Permutation mid (s1 ++ a :: r) -> (forall p, In p s1 -> sideB a b first p = true) -> (forall p, In p (a :: r) -> sideB a b first p = false) ->
  Permutation (first :: s1) x -> Permutation (r ++ [lst]) y -> crossFree (x ++ [a]) -> crossFree (a :: y) -> crossFree (x ++ a :: y).
Proof.
  intros first mid lst a b s1 r x y l (ND & GE) RA IA HB PM F1 F2 PX PY C1 C2.
  assert (PL : Permutation l (x ++ a :: y)).
  { unfold l. transitivity ((first :: s1) ++ a :: r ++ [lst]).
    - cbn [app]. constructor. change (s1 ++ a :: r ++ [lst]) with (s1 ++ (a :: r) ++ [lst]). rewrite app_assoc. apply Permutation_app_tail. exact PM.
    - apply Permutation_app; [exact PX|]. constructor. exact PY. }
  assert (NX : NoDup (x ++ a :: y)) by (apply (Permutation_NoDup PL ND)).
  assert (IM : forall p, In p mid -> In p l) by (intros p P; right; apply in_or_app; left; exact P).
  assert (IL : In lst l) by (right; apply in_or_app; right; left; reflexivity). assert (IF : In first l) by (left; reflexivity).
  assert (NF : forall p, In p mid -> p <> first) by (intros p P ->; inversion ND as [|? ? K _]; apply K; apply in_or_app; left; exact P).
  assert (NL : forall p, In p mid -> p <> lst). { intros p P ->. inversion ND as [|? ? _ K]; subst. apply NoDup_remove_2 in K. rewrite app_nil_r in K. exact (K P). }
  assert (FL : first <> lst) by (intros ->; inversion ND as [|? ? K _]; apply K; apply in_or_app; right; left; reflexivity).
  assert (IB : In b l) by (destruct HB as [->|(B & _)]; auto).
  assert (BF : b <> first) by (destruct HB as [->|(B & _)]; [congruence|auto]).
  assert (AB : a <> b). { destruct HB as [->|(B & K & _)]; [auto|]. intros ->. apply K. unfold orient. ring. }
  assert (G0 : orient a b first <> 0) by (apply GE; auto).
  set (k := Z.sgn (orient a b first)). set (g := fun p => k * orient a b p).
  assert (Gz : forall p, In p l -> g p = 0 -> p = a \/ p = b).
  { intros p P E. destruct (pt_dec p a) as [|NA]; [auto|]. destruct (pt_dec p b) as [|NB]; [auto|]. exfalso. assert (orient a b p <> 0) by (apply GE; auto). unfold g, k in E. destruct (orient a b first), (orient a b p); cbn in *; lia. }
  assert (M1 : forall p, In p s1 -> In p mid) by (intros p P; apply (Permutation_in p (Permutation_sym PM)); apply in_or_app; auto).
  assert (M2 : forall p, In p (a :: r) -> In p mid) by (intros p P; apply (Permutation_in p (Permutation_sym PM)); apply in_or_app; auto).
  assert (NM : NoDup (s1 ++ a :: r)). { apply (Permutation_NoDup PM). inversion ND as [|? ? _ K]; subst. apply NoDup_remove_1 in K. rewrite app_nil_r in K. exact K. }
  assert (Na : g a = 0) by (unfold g, orient; ring). assert (Nb : g b = 0) by (unfold g, orient; ring).
  assert (D1 : forall p, In p (x ++ [a]) -> p = first \/ In p s1 \/ p = a).
  { intros p P. apply in_app_or in P. destruct P as [P|[P|[]]]; [|auto]. apply (Permutation_in p (Permutation_sym PX)) in P. destruct P as [P|P]; auto. }
  assert (D2 : forall p, In p (a :: y) -> In p (a :: r) \/ p = lst).
  { intros p [P|P]; [left; left; exact P|]. apply (Permutation_in p (Permutation_sym PY)) in P. apply in_app_or in P. destruct P as [P|[P|[]]]; [left; right; exact P|auto]. }
  assert (G1 : forall p, In p (x ++ [a]) -> 0 <= g p).
  { intros p P. destruct (D1 p P) as [->|[P1| ->]]; [unfold g, k; destruct (orient a b first); cbn; lia| |lia].
    destruct (pt_dec p b) as [->|NB]; [lia|]. assert (NA : p <> a) by (intros ->; apply (NoDup_remove_2 _ _ _ NM); apply in_or_app; left; exact P1).
    assert (O : orient a b p <> 0) by (apply GE; auto). pose proof (F1 p P1) as S. unfold sideB in S. replace (orient a b p =? 0) with false in S by (symmetry; apply Z.eqb_neq; exact O). cbn [negb] in S. apply Z.eqb_eq in S.
    apply Z.lt_le_incl. apply (proj1 (sgn_mul _ _ O G0)). exact S. }
  assert (G2 : forall p, In p (a :: y) -> g p <= 0).
  { intros p P. destruct (pt_dec p a) as [->|NA]; [lia|]. destruct (pt_dec p b) as [->|NB]; [lia|]. destruct (D2 p P) as [P1| ->].
    - assert (O : orient a b p <> 0) by (apply GE; auto). pose proof (F2 p P1) as S. unfold sideB in S. replace (orient a b p =? 0) with false in S by (symmetry; apply Z.eqb_neq; exact O). cbn [negb] in S. apply Z.eqb_neq in S.
      apply Z.lt_le_incl. apply (proj2 (sgn_mul _ _ O G0)). exact S.
    - destruct HB as [->|(_ & _ & K)]; [congruence|]. unfold g, k. destruct (orient a b first), (orient a b lst); cbn in *; lia. }
  assert (L1 : forall p, In p (x ++ [a]) -> In p l) by (intros p P; apply (Permutation_in p (Permutation_sym PL)); apply in_app_or in P; apply in_or_app; destruct P as [P|[P|[]]]; [auto|right; left; exact P]).
  assert (L2 : forall p, In p (a :: y) -> In p l) by (intros p P; apply (Permutation_in p (Permutation_sym PL)); apply in_or_app; right; exact P).
  assert (N1 : NoDup (x ++ [a])). { replace (x ++ a :: y) with ((x ++ [a]) ++ y) in NX by (rewrite <- app_assoc; reflexivity). revert NX. generalize (x ++ [a]). clear. induction l as [|z l IH]; intros N; [constructor|]. inversion N; subst. constructor; [|auto]. intros K. apply H1. apply in_or_app. left. exact K. }
  assert (N2 : NoDup (a :: y)). { revert NX. clear. induction x as [|z x IH]; intros N; [exact N|]. inversion N; subst. auto. }
  apply crossFree_app; auto. intros p q r0 s S1 S2 NA.
  destruct (side_in _ _ _ S1) as [P Q]. destruct (side_in _ _ _ S2) as [P' Q']. pose proof (side_neq _ _ _ N1 S1) as PQ. pose proof (side_neq _ _ _ N2 S2) as RS.
  destruct (in_dec pt_dec b (a :: y)) as [BY|BY].
  - assert (BX : ~ In b (x ++ [a])).
    { intros K. apply in_app_or in K. destruct K as [K|[K|[]]]; [|congruence]. destruct BY as [BY|BY]; [congruence|]. apply in_split in K. destruct K as (u & v & ->). rewrite <- app_assoc in NX. cbn [app] in NX. apply NoDup_remove_2 in NX. apply NX. apply in_or_app. right. apply in_or_app. right. right. exact BY. }
    intros K. apply common_sym in K. revert K. apply (separated (fun z => - g z) (- k) a b r0 s p q); auto.
    + intros z. unfold g. ring.
    + pose proof (G2 _ P'). lia.
    + pose proof (G2 _ Q'). lia.
    + pose proof (G1 _ P). lia.
    + pose proof (G1 _ Q). lia.
    + intros z Z0 E. apply Gz; [|lia]. destruct Z0 as [->| ->]; auto.
    + intros z Z0 E. assert (IZ : In z (x ++ [a])) by (destruct Z0 as [->| ->]; auto). destruct (Gz z (L1 z IZ)) as [EZ|EZ]; [lia|exact EZ|subst z; contradiction].
    + tauto.
  - apply (separated g k a b p q r0 s); auto.
    + intros z Z0 E. apply Gz; [|lia]. destruct Z0 as [->| ->]; auto.
    + intros z Z0 E. assert (IZ : In z (a :: y)) by (destruct Z0 as [->| ->]; auto). destruct (Gz z (L2 z IZ)) as [EZ|EZ]; [lia|exact EZ|subst z; contradiction].
Qed.
Lemma findLine_ok : forall prt, splits prt -> forall fuel l, Forall tiny l -> always (findLine prt fuel l) (okOrEndless (R l)).
Proof.
  intros prt SP. induction fuel as [|fuel IH]; intros l T; [exact I|]. cbn [findLine].
  destruct l as [|first [|u [|v z]]]; try (repeat split; auto; intros c d (x & y & E); destruct x; discriminate).
  set (t := u :: v :: z) in *. assert (ET : t = removelast t ++ [last t first]) by (apply app_removelast_last; discriminate).
  set (lst := last t first) in *. set (mid := removelast t) in *. assert (NM : mid <> []) by (intros E; unfold mid, t in E; cbn [removelast] in E; discriminate).
  clearbody lst mid. rewrite ET in *. clear t ET u v z. cbv zeta. rewrite ?last_app1, ?removelast_last.
  assert (TF : tiny first /\ Forall tiny mid /\ tiny lst). { inversion T as [|? ? A B]; subst. apply Forall_app in B. destruct B as [B C]. inversion C; auto. }
  destruct TF as (TF & TM & TL).
  eapply oe_bind; [apply chooseA_in; assumption|]. intros a (A & AO). assert (TA : tiny a) by (rewrite Forall_forall in TM; auto).
  rewrite candidates_t by assumption. apply oe_ok. eapply oe_bind; [apply oe_select; discriminate|]. intros b B. cbv beta in B.
  assert (HB : b = lst \/ In b mid /\ orient a b first <> 0 /\ Z.sgn (orient a b first) * Z.sgn (orient a b lst) <= 0).
  { destruct B as [B|B]; [auto|]. right. apply filter_In in B. destruct B as (B & C). apply andb_prop in C. destruct C as [C D]. split; [exact B|]. split; [|apply Z.leb_le; exact D]. apply Bool.negb_true_iff in C. apply Z.eqb_neq. exact C. }
  assert (TB : tiny b) by (rewrite Forall_forall in TM; destruct HB as [->|(K & _)]; auto).
  rewrite sides_t by assumption. apply oe_ok. destruct (prt _) as [s1 s2] eqn:PR. destruct (labels_split _ _ _ _ _ SP PR) as (PM & F1 & F2).
  destruct (cut_perm a s2) as [PC HC]. 
  match goal with |- context [match ?q with [] => RRet UB | _ :: _ => _ end] => assert (CT : exists c t', q = c :: t') by (destruct (cutToFront a s2); eexists; eexists; reflexivity); destruct CT as (c & t' & CT); rewrite CT end.
  assert (PT : Permutation (s2 ++ [lst]) (c :: t')) by (etransitivity; [apply Permutation_app_tail; exact PC|]; unfold point in CT; rewrite CT; reflexivity).
  assert (PL : Permutation (first :: mid ++ [lst]) ((first :: s1) ++ c :: t')).
  { cbn [app]. constructor. transitivity ((s1 ++ s2) ++ [lst]); [apply Permutation_app_tail; exact PM|]. rewrite <- app_assoc. apply Permutation_app_head. exact PT. }
  assert (T' : Forall tiny ((first :: s1) ++ c :: t')) by (rewrite Forall_forall in *; intros p P; apply T; apply (Permutation_in p (Permutation_sym PL)); exact P).
  apply Forall_app in T'. destruct T' as [T1 T2].
  eapply oe_bind; [apply IH; change (first :: s1 ++ [c]) with ((first :: s1) ++ [c]); apply Forall_app; split; [exact T1|]; inversion T2; auto|].
  intros l1 (P1 & H1 & E1 & C1). unfold point in *.
  assert (L1 : exists x, l1 = x ++ [c] /\ Permutation (first :: s1) x).
  { destruct l1 as [|p l1]; [apply Permutation_sym, Permutation_nil in P1; discriminate|]. exists (removelast (p :: l1)).
    assert (LC : last (p :: l1) (0, 0) = c) by (rewrite E1; change (first :: s1 ++ [c]) with ((first :: s1) ++ [c]); apply last_app1).
    assert (EE : p :: l1 = removelast (p :: l1) ++ [c]) by (rewrite <- LC; apply app_removelast_last; discriminate). split; [exact EE|]. rewrite EE in P1. change (first :: s1 ++ [c]) with ((first :: s1) ++ [c]) in P1. apply Permutation_app_inv_r in P1. exact P1. }
  destruct L1 as (x & -> & PX). rewrite last_app1, removelast_last.
  eapply oe_bind; [apply IH; exact T2|]. intros l2 (P2' & H2 & E2 & C2). unfold point in *.
  assert (L2 : exists y, l2 = c :: y). { destruct l2 as [|p y]; [apply Permutation_sym, Permutation_nil in P2'; discriminate|]. cbn in H2. subst p. exists y. reflexivity. }
  destruct L2 as (y & ->). cbn [ret always okOrEndless]. split; [|split; [|split]].
  - transitivity ((first :: s1) ++ c :: t'); [exact PL|]. apply Permutation_app; assumption.
  - destruct x as [|p x]; [apply Permutation_sym, Permutation_nil in PX; discriminate|]. exact H1.
  - rewrite last_cons_app, E2, <- CT, last_app1. change (first :: mid ++ [lst]) with ((first :: mid) ++ [lst]). rewrite last_app1. reflexivity.
  - intros G RA. pose proof G as (ND & GE).
    assert (NF : a <> first) by (intros ->; inversion ND as [|? ? K _]; apply K; apply in_or_app; left; exact A).
    assert (NL : forall p, In p mid -> p <> lst). { intros p P ->. inversion ND as [|? ? _ K]; subst. apply NoDup_remove_2 in K. rewrite app_nil_r in K. exact (K P). }
    assert (FB : b <> first). { intros ->. destruct HB as [HB|(K & _)]; inversion ND as [|? ? N _]; apply N; apply in_or_app; [right; left; auto|left; exact K]. }
    assert (AB : a <> b). { destruct HB as [->|(_ & K & _)]; [auto|]. intros ->. apply K. unfold orient. ring. }
    assert (IB : In b (first :: mid ++ [lst])). { right. apply in_or_app. destruct HB as [->|(K & _)]; [right; left; reflexivity|left; exact K]. }
    assert (FA : sideB a b first a = false).
    { unfold sideB. replace (orient a b a) with 0 by (unfold orient; ring). cbn [Z.eqb negb]. replace (angle a b a) with 0 by (unfold angle; ring).
      assert (K : angle a b first <> 0). { apply RA; auto; [right; apply in_or_app; left; exact A|left; reflexivity]. }
      destruct (angle a b first); [congruence|reflexivity|reflexivity]. }
    assert (I2 : In a s2). { apply (Permutation_in a PM) in A. apply in_app_or in A. destruct A as [A|A]; [|exact A]. rewrite (F1 a A) in FA. discriminate. }
    destruct (HC I2) as (r & ER). rewrite ER in *. cbn [app] in CT. inv CT.
    assert (NI : NoDup ((first :: s1) ++ c :: r ++ [lst])) by (apply (Permutation_NoDup PL ND)).
    assert (NX : NoDup (x ++ c :: y)). { revert NI. apply Permutation_NoDup. apply Permutation_app; assumption. }
    assert (SUB1 : incl (first :: s1 ++ [c]) (first :: mid ++ [lst])).
    { intros p P. apply (Permutation_in p (Permutation_sym PL)). change (first :: s1 ++ [c]) with ((first :: s1) ++ [c]) in P. apply in_app_or in P. apply in_or_app. destruct P as [P|[P|[]]]; [auto|right; left; exact P]. }
    assert (SUB2 : incl (c :: r ++ [lst]) (first :: mid ++ [lst])).
    { intros p P. apply (Permutation_in p (Permutation_sym PL)). apply in_or_app. right. exact P. }
    assert (ND1 : NoDup ((first :: s1) ++ [c])).
    { replace ((first :: s1) ++ c :: r ++ [lst]) with (((first :: s1) ++ [c]) ++ r ++ [lst]) in NI by (rewrite <- app_assoc; reflexivity). revert NI. generalize ((first :: s1) ++ [c]). clear. intros l. induction l as [|w l IH]; intros N; [constructor|]. inversion N; subst. constructor; [|auto]. intros K. apply H1. apply in_or_app. left. exact K. }
    assert (ND2 : NoDup (c :: r ++ [lst])). { revert NI. generalize (first :: s1). clear. intros l. induction l as [|w l IH]; intros N; [exact N|]. inversion N; subst. auto. }
    apply (parts_free first mid lst c b s1 r x y); auto.
    + transitivity (s1 ++ s2); [exact PM|]. apply Permutation_app_head. exact PC.
    + intros p P. apply F2. apply (Permutation_in p (Permutation_sym PC)). exact P.
    + apply Permutation_cons_inv in P2'. exact P2'.
    + apply C1; [apply (general_sub _ _ G SUB1 ND1)|apply (angle_sub _ _ RA SUB1)].
    + apply C2; [apply (general_sub _ _ G SUB2 ND2)|apply (angle_sub _ _ RA SUB2)].
Qed.
