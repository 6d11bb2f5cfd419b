From Verif Require Import Base BaseLemmas Tac RndModel RndLemmas RandSpec RandSeqModel RandMiscProofs GeoModel GeoSpec SimpleSpec SimpleProofs4 HullSpec HullProofs2 PolyModel PolySpec.
From Coq Require Import ZArith List Sorted Lia Permutation.
Import ListNotations.
Open Scope Z_scope.
Notation tiny := PolySpec.tiny.
Notation P2 := (Z * Z)%type.

Lemma oe_bind : forall A B (m : rnd A) (f : A -> rnd B) P Q, always m (okOrEndless P) -> (forall a, P a -> always (f a) (okOrEndless Q)) -> always (rbind m f) (okOrEndless Q).
Proof.
  intros A B m f P Q H K. apply always_bind. revert H. apply always_mono. intros o O. destruct o; try exact O. apply K, O.
Qed.
Lemma oe_ok : forall A B (x : A) (f : A -> rnd B) Q, always (f x) (okOrEndless Q) -> always (rbind (lift (Ok x)) f) (okOrEndless Q).
Proof. intros A B x f Q H. exact H. Qed.
Lemma oe_select : forall A (l : list A), l <> [] -> always (select l) (okOrEndless (fun x => In x l)).
Proof. intros A l N. eapply always_mono; [|apply (select_always A l N)]. intros [] O; cbn in *; auto; contradiction. Qed.
Lemma pt_dec : forall a b : P2, {a = b} + {a <> b}.
Proof. intros. decide equality; apply Z.eq_dec. Qed.
Lemma cross3_t : forall a b c, tiny a -> tiny b -> tiny c -> cross3 a b c = Ok (orient a b c).
Proof. exact cross3_tiny. Qed.
Lemma mul_lt : forall a b, Z.abs a < 2 ^ 31 - 1 -> Z.abs b < 2 ^ 31 - 1 -> Z.abs (a * b) <= (2 ^ 31 - 2) * (2 ^ 31 - 2).
Proof. intros a b A B. rewrite Z.abs_mul. apply Z.mul_le_mono_nonneg; lia. Qed.
Lemma dot3_t : forall a b c, tiny a -> tiny b -> tiny c -> dot3 a b c = Ok (angle a b c).
Proof.
  intros [a1 a2] [b1 b2] [c1 c2] (A1 & A2) (B1 & B2) (C1 & C2). cbn [fst snd] in *. unfold dot3, dot, angle. cbn [fst snd].
  pose proof (mul_lt (b1 - a1) (c1 - a1) ltac:(lia) ltac:(lia)). pose proof (mul_lt (b2 - a2) (c2 - a2) ltac:(lia) ltac:(lia)).
  rewrite (chk_Ok (b1 - a1)) by (mach; lia). cbn [bind]. rewrite (chk_Ok (b2 - a2)) by (mach; lia). cbn [bind].
  rewrite (chk_Ok (c1 - a1)) by (mach; lia). cbn [bind]. rewrite (chk_Ok (c2 - a2)) by (mach; lia). cbn [bind fst snd].
  rewrite (chk_Ok ((b1 - a1) * (c1 - a1))) by (mach; lia). cbn [bind]. rewrite (chk_Ok ((b2 - a2) * (c2 - a2))) by (mach; lia). cbn [bind].
  apply chk_Ok. mach. lia.
Qed.
Definition sideB (a b first p : P2) : bool :=
  if negb (orient a b p =? 0) then Z.sgn (orient a b p) =? Z.sgn (orient a b first) else Z.sgn (angle a b p) =? Z.sgn (angle a b first).
Lemma sides_t : forall a b first mid, tiny a -> tiny b -> tiny first -> Forall tiny mid -> sides a b first mid = Ok (map (fun p => (p, sideB a b first p)) mid).
Proof.
  intros a b first mid A B F M. induction M as [|p mid P M IH]; [reflexivity|]. cbn [sides]. unfold sameSide. rewrite !cross3_t by assumption. cbn [bind].
  rewrite !dot3_t by assumption. cbn [map]. unfold sideB at 1. destruct (negb (orient a b p =? 0)); cbn [bind]; rewrite IH; reflexivity.
Qed.
Lemma candidates_t : forall a first lst mid, tiny a -> tiny first -> tiny lst -> Forall tiny mid ->
  candidates a first lst mid = Ok (filter (fun p => negb (orient a p first =? 0) && (Z.sgn (orient a p first) * Z.sgn (orient a p lst) <=? 0)) mid).
Proof.
  intros a first lst mid A F L M. induction M as [|p mid P M IH]; [reflexivity|]. cbn [candidates]. rewrite !cross3_t by assumption. cbn [bind]. rewrite IH. cbn [bind filter]. reflexivity.
Qed.
Lemma chooseA_in : forall fuel first lst mid, tiny first -> tiny lst -> Forall tiny mid -> mid <> [] ->
  always (chooseA fuel first lst mid) (okOrEndless (fun a => In a mid /\ orient a first lst <> 0)).
Proof.
  induction fuel as [|fuel IH]; intros first lst mid F L M N; [exact I|]. cbn [chooseA]. eapply oe_bind; [apply oe_select; exact N|]. intros a A. cbv beta in A.
  rewrite cross3_t; [|rewrite Forall_forall in M; exact (M a A)|assumption|assumption]. apply oe_ok. destruct (orient a first lst =? 0) eqn:C; [apply IH; assumption|].
  cbn. split; [exact A|]. apply Z.eqb_neq. exact C.
Qed.
Lemma samePoint_iff : forall a b, samePoint a b = true <-> a = b.
Proof.
  intros [a1 a2] [b1 b2]. unfold samePoint. cbn [fst snd]. rewrite Bool.andb_true_iff, !Z.eqb_eq. split; [intros [-> ->]; reflexivity|intros E; inv E; auto].
Qed.
Lemma swapCut_perm : forall a l h, Permutation (h :: l) (swapCut a h l) /\ (h = a \/ In a l -> exists r, swapCut a h l = a :: r).
Proof.
  intros a. induction l as [|x l IH]; intros h; cbn [swapCut].
  - split; [reflexivity|]. intros [->|[]]. exists []. reflexivity.
  - destruct (samePoint x a) eqn:E.
    + apply samePoint_iff in E. subst x. destruct (IH a) as [P Q]. destruct (swapCut a a l) as [|c r]; [apply Permutation_sym, Permutation_nil in P; discriminate|]. split.
      * transitivity (h :: c :: r); [constructor; exact P|constructor].
      * intros _. destruct Q as (r' & E); [left; reflexivity|]. inv E. eexists. reflexivity.
    + assert (N : x <> a) by (intros ->; rewrite (proj2 (samePoint_iff a a) eq_refl) in E; discriminate).
      destruct (IH h) as [P Q]. destruct (swapCut a h l) as [|c r]; [apply Permutation_sym, Permutation_nil in P; discriminate|]. split.
      * transitivity (x :: h :: l); [constructor|]. transitivity (x :: c :: r); [constructor; exact P|constructor].
      * intros K. destruct Q as (r' & E'); [destruct K as [K|[K|K]]; [left; exact K|congruence|right; exact K]|]. inv E'. eexists. reflexivity.
Qed.
Lemma cut_perm : forall a l, Permutation l (cutToFront a l) /\ (In a l -> exists r, cutToFront a l = a :: r).
Proof.
  intros a [|h l]; [split; [constructor|intros []]|]. cbn [cutToFront]. destruct (swapCut_perm a l h) as [P Q]. split; [exact P|]. intros [->|I]; apply Q; auto.
Qed.

(* ---- chains ---- *)
Fixpoint crossFree (l : list P2) : Prop :=
  match l with
  | a :: ((b :: t) as l') => (forall c d, side t c d -> ~ commonPoint a b c d) /\ crossFree l'
  | _ => True
  end.
Lemma side_in : forall l a b, side l a b -> In a l /\ In b l.
Proof. intros l a b (x & y & ->). split; apply in_or_app; right; cbn; auto. Qed.
Lemma side_tl : forall x l a b, side l a b -> side (x :: l) a b.
Proof. intros x l a b (u & v & ->). exists (x :: u), v. reflexivity. Qed.
Lemma side_hd : forall a b l, side (a :: b :: l) a b.
Proof. intros a b l. exists [], l. reflexivity. Qed.
Lemma side_pre : forall x l a b, side l a b -> side (x ++ l) a b.
Proof. intros x l a b (u & v & ->). exists (x ++ u), v. apply app_assoc. Qed.
Lemma crossFree_app : forall x c y, crossFree (x ++ [c]) -> crossFree (c :: y) -> NoDup (x ++ c :: y) ->
  (forall p q r s, side (x ++ [c]) p q -> side (c :: y) r s -> ~ ((p = c \/ q = c) /\ (r = c \/ s = c)) -> ~ commonPoint p q r s) -> crossFree (x ++ c :: y).
Proof.
  induction x as [|p x IH]; intros c y C1 C2 N H; [exact C2|].
  assert (IHx : crossFree (x ++ c :: y)).
  { apply IH; auto.
    - destruct x; [exact I|apply C1].
    - inversion N; assumption.
    - intros p' q r s S. apply H. apply side_tl. exact S. }
  inversion N as [|? ? N1 N2]; subst. destruct x as [|q x]; cbn [app] in *.
  - split; [|exact IHx]. intros r s S. apply H; [apply side_hd|apply side_tl; exact S|]. intros (_ & K). inversion N2 as [|? ? N3 _]; subst. apply side_in in S. destruct K as [->| ->]; apply N3; apply S.
  - split; [|exact IHx]. intros r s S. apply (proj1 (side_app x c y r s)) in S. destruct S as [S|S].
    + apply C1. exact S.
    + apply H; [apply side_hd|exact S|]. intros (K & _). inversion N2 as [|? ? N3 _]; subst. destruct K as [->| ->]; [apply N1|apply N3]; [right|]; apply in_or_app; right; left; reflexivity.
Qed.

(* ---- a line separates the two parts ---- *)
Lemma separated : forall (g : P2 -> Z) k a b p q r s, (forall x, g x = k * orient a b x) -> p <> q -> r <> s ->
  0 <= g p -> 0 <= g q -> g r <= 0 -> g s <= 0 ->
  (forall x, x = p \/ x = q -> g x = 0 -> x = a \/ x = b) -> (forall x, x = r \/ x = s -> g x = 0 -> x = a) ->
  ~ ((p = a \/ q = a) /\ (r = a \/ s = a)) -> ~ commonPoint p q r s.
Proof.
  intros g k a b p q r s G PQ RS Gp Gq Gr Gs Z1 Z2 NA (m & j & l & M & J & L & E1 & E2).
  assert (LIN : (m - j) * g p + j * g q = (m - l) * g r + l * g s).
  { rewrite !G. unfold orient.
    transitivity (k * ((fst b - fst a) * (((m - j) * snd p + j * snd q) - m * snd a) - (snd b - snd a) * (((m - j) * fst p + j * fst q) - m * fst a))); [ring|]. rewrite E1, E2. ring. }
  assert (T1 : 0 <= (m - j) * g p) by (apply Z.mul_nonneg_nonneg; lia). assert (T2 : 0 <= j * g q) by (apply Z.mul_nonneg_nonneg; lia).
  assert (T3 : (m - l) * g r <= 0) by (apply Z.mul_nonneg_nonpos; lia). assert (T4 : l * g s <= 0) by (apply Z.mul_nonneg_nonpos; lia).
  assert (Y1 : (m - j) * g p = 0) by lia. assert (Y2 : j * g q = 0) by lia. assert (Y3 : (m - l) * g r = 0) by lia. assert (Y4 : l * g s = 0) by lia. clear LIN T1 T2 T3 T4.
  apply Z.mul_eq_0 in Y1, Y2, Y3, Y4.
  assert (EQ : forall x y : P2, m * fst x = m * fst y -> m * snd x = m * snd y -> x = y) by (intros [x1 x2] [y1 y2] U V; cbn in *; f_equal; nia).
  assert (ZA : (r = a \/ s = a) /\ (m - j) * fst p + j * fst q = m * fst a /\ (m - j) * snd p + j * snd q = m * snd a).
  { destruct Y3 as [Y3|Y3].
    - assert (l = m) by lia. subst l. assert (s = a) by (apply Z2; [auto|lia]). subst s. split; [auto|]. split; lia.
    - assert (r = a) by (apply Z2; auto). subst r. destruct Y4 as [Y4|Y4]; [|exfalso; apply RS; symmetry; apply Z2; auto]. subst l. split; [auto|]. split; lia. }
  destruct ZA as (RA & X1 & X2). assert (PA : p <> a /\ q <> a) by (split; intros ->; apply NA; auto). destruct PA as [PA QA].
  destruct Y1 as [Y1|Y1].
  - assert (j = m) by lia. subst j. apply QA. apply EQ; lia.
  - destruct Y2 as [Y2|Y2]; [subst j; apply PA; apply EQ; lia|]. destruct (Z1 p (or_introl eq_refl) Y1); [contradiction|]. destruct (Z1 q (or_intror eq_refl) Y2); [contradiction|]. congruence.
Qed.
