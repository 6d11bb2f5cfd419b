From Verif Require Import Base.
From Coq Require Import ZifyBool ZifyNat ZifyN.
Ltac Zify.zify_post_hook ::= Z.div_mod_to_equations.

(* unfold machine constants for lia *)
Ltac mach :=
  unfold is_i64, is_u64, in_i64, I64_MIN, I64_MAX, two32, two63, two64, two128 in *.

(* split conjunctions only *)
Ltac sp := repeat match goal with |- _ /\ _ => split | |- _ <-> _ => split end.

Lemma bind_Ok : forall A B (x : outcome A) (f : A -> outcome B) b,
  bind x f = Ok b <-> exists a, x = Ok a /\ f a = Ok b.
Proof.
  intros A B x f b; split.
  - destruct x; simpl; intros H; try discriminate; eauto.
  - intros [a [-> H]]; exact H.
Qed.

Ltac inv_bind H :=
  let a := fresh "r" in let H1 := fresh "E" in let H2 := fresh "E" in
  apply bind_Ok in H; destruct H as [a [H1 H2]].

Lemma in_i64_spec : forall z, in_i64 z = true <-> is_i64 z.
Proof. intros; unfold in_i64, is_i64; lia. Qed.

Lemma chk_Ok : forall z, is_i64 z -> chk z = Ok z.
Proof.
  intros z H; unfold chk; apply in_i64_spec in H; rewrite H; reflexivity.
Qed.

Lemma chk_inv : forall z r, chk z = Ok r -> r = z /\ is_i64 z.
Proof.
  unfold chk; intros z r H; destruct (in_i64 z) eqn:E; inversion H; subst.
  split; [reflexivity | apply in_i64_spec; exact E].
Qed.

Lemma chk_cases : forall z, chk z = Ok z /\ is_i64 z \/ chk z = UB /\ ~ is_i64 z.
Proof.
  intros z; unfold chk; destruct (in_i64 z) eqn:E.
  - left; split; [reflexivity | apply in_i64_spec; exact E].
  - right; split; [reflexivity |]. intros H; apply in_i64_spec in H; congruence.
Qed.

Lemma u64_range : forall z, is_u64 (u64 z).
Proof. intros; unfold u64; mach; apply Z.mod_pos_bound; lia. Qed.

Lemma u64_id : forall z, is_u64 z -> u64 z = z.
Proof. intros; unfold u64; mach; apply Z.mod_small; lia. Qed.

Lemma to_i64_range : forall z, is_i64 (to_i64 z).
Proof.
  intros; unfold to_i64; mach.
  pose proof (Z.mod_pos_bound z 18446744073709551616 ltac:(lia)).
  destruct (z mod 18446744073709551616 <? 9223372036854775808) eqn:E; lia.
Qed.

Lemma to_i64_id : forall z, is_i64 z -> to_i64 z = z.
Proof.
  intros; unfold to_i64; mach.
  destruct (z mod 18446744073709551616 <? 9223372036854775808) eqn:E; lia.
Qed.

Lemma to_i64_cong : forall z, to_i64 z mod two64 = z mod two64.
Proof.
  intros; unfold to_i64; mach.
  destruct (z mod 18446744073709551616 <? 9223372036854775808) eqn:E; lia.
Qed.

(* arrays *)
Lemma upd_length : forall A (l : list A) i a, length (upd l i a) = length l.
Proof. induction l; destruct i; simpl; intros; auto. Qed.

Lemma nth_error_upd_same : forall A (l : list A) i a,
  (i < length l)%nat -> nth_error (upd l i a) i = Some a.
Proof. induction l; destruct i; simpl; intros; try lia; auto. apply IHl; lia. Qed.

Lemma nth_error_upd_other : forall A (l : list A) i j a,
  i <> j -> nth_error (upd l i a) j = nth_error l j.
Proof. induction l; destruct i, j; simpl; intros; auto; congruence. Qed.

Lemma nth_upd_same : forall A (l : list A) i a d,
  (i < length l)%nat -> nth i (upd l i a) d = a.
Proof. induction l; destruct i; simpl; intros; try lia; auto. apply IHl; lia. Qed.

Lemma nth_upd_other : forall A (l : list A) i j a d,
  i <> j -> nth j (upd l i a) d = nth j l d.
Proof. induction l; destruct i, j; simpl; intros; auto; congruence. Qed.

Lemma nth_upd : forall A (l : list A) i j a d,
  nth j (upd l i a) d = if (Nat.eqb i j && Nat.ltb i (length l))%bool then a else nth j l d.
Proof.
  intros. destruct (Nat.eqb i j) eqn:E; simpl.
  - apply Nat.eqb_eq in E; subst. destruct (Nat.ltb j (length l)) eqn:F.
    + apply nth_upd_same. apply Nat.ltb_lt; exact F.
    + apply Nat.ltb_ge in F. rewrite !nth_overflow; auto. rewrite upd_length; auto.
  - apply Nat.eqb_neq in E. apply nth_upd_other; auto.
Qed.

Lemma aget_Ok : forall A (l : list A) i d,
  0 <= i < alen l -> aget l i = Ok (nth (Z.to_nat i) l d).
Proof.
  intros A l i d H; unfold aget, alen in *.
  destruct (i <? 0) eqn:E; [lia |].
  rewrite (nth_error_nth' l d) by lia. reflexivity.
Qed.

Lemma aget_inv : forall A (l : list A) i a,
  aget l i = Ok a -> 0 <= i < alen l /\ nth_error l (Z.to_nat i) = Some a.
Proof.
  intros A l i a H; unfold aget, alen in *.
  destruct (i <? 0) eqn:E; [discriminate |].
  destruct (nth_error l (Z.to_nat i)) eqn:F; [| discriminate].
  inversion H; subst. split; auto.
  assert (Z.to_nat i < length l)%nat by (apply nth_error_Some; congruence). lia.
Qed.

Lemma aset_Ok : forall A (l : list A) i a,
  0 <= i < alen l -> aset l i a = Ok (upd l (Z.to_nat i) a).
Proof.
  intros; unfold aset, alen in *.
  replace ((0 <=? i) && (i <? Z.of_nat (length l))) with true by lia. reflexivity.
Qed.

Lemma aset_inv : forall A (l : list A) i a l',
  aset l i a = Ok l' -> 0 <= i < alen l /\ l' = upd l (Z.to_nat i) a.
Proof.
  intros; unfold aset, alen in *.
  destruct ((0 <=? i) && (i <? Z.of_nat (length l))) eqn:E; inversion H; split; auto; lia.
Qed.

(* loops *)
Lemma while_eq : forall S fuel cond (body : S -> outcome S) s,
  while fuel cond body s =
  if cond s then
    match fuel with
    | O => Fuel
    | Datatypes.S f => let! s' := body s in while f cond body s'
    end
  else Ok s.
Proof. intros; destruct fuel; reflexivity. Qed.

Lemma while_total : forall S (I : S -> Prop) (m : S -> Z) cond (body : S -> outcome S),
  (forall s, I s -> cond s = true ->
     exists s', body s = Ok s' /\ I s' /\ 0 <= m s' < m s) ->
  forall fuel s, I s -> m s <= Z.of_nat fuel -> (cond s = true -> 0 < m s) ->
  exists s', while fuel cond body s = Ok s' /\ I s' /\ cond s' = false.
Proof.
  intros S I m cond body step fuel; induction fuel; intros s HI Hm Hp; rewrite while_eq.
  - destruct (cond s) eqn:E; [specialize (Hp eq_refl); lia | eauto].
  - destruct (cond s) eqn:E; [| eauto].
    destruct (step s HI E) as [s' [Hb [HI' Hm']]]. rewrite Hb; simpl.
    apply IHfuel; auto; [lia |].
    intros E'. destruct (step s' HI' E') as [s'' [_ [_ Hm'']]]. lia.
Qed.

Lemma while_partial : forall S (I : S -> Prop) cond (body : S -> outcome S),
  (forall s s', I s -> cond s = true -> body s = Ok s' -> I s') ->
  forall fuel s s', I s -> while fuel cond body s = Ok s' -> I s' /\ cond s' = false.
Proof.
  intros S I cond body step fuel; induction fuel; intros s s' HI H; rewrite while_eq in H.
  - destruct (cond s) eqn:E; inversion H; subst; auto.
  - destruct (cond s) eqn:E; [| inversion H; subst; auto].
    inv_bind H. eapply IHfuel; [| eassumption]. eapply step; eauto.
Qed.
