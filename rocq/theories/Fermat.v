(* Fermat's little theorem over Z, from the standard library only. *)
From Coq Require Import ZArith Znumtheory Zpow_facts List Permutation Lia.
Import ListNotations.
Open Scope Z_scope.

Definition zprod (l : list Z) : Z := fold_right Z.mul 1 l.

Lemma zprod_perm : forall l l', Permutation l l' -> zprod l = zprod l'.
Proof. induction 1; simpl; lia. Qed.

Lemma zprod_map_mod : forall p a l, 0 < p ->
  zprod (map (fun x => (a * x) mod p) l) mod p = (a ^ Z.of_nat (length l) * zprod l) mod p.
Proof.
  intros p a l Hp. induction l as [| x l IH].
  - reflexivity.
  - cbn [map zprod fold_right length]. fold (zprod l).
    fold (zprod (map (fun x => (a * x) mod p) l)).
    rewrite Zmult_mod, IH, Zmod_mod, <- Zmult_mod.
    rewrite Nat2Z.inj_succ, Z.pow_succ_r by apply Nat2Z.is_nonneg.
    f_equal. ring.
Qed.

Lemma zprod_coprime : forall p l, prime p -> (forall x, In x l -> ~ (p | x)) -> ~ (p | zprod l).
Proof.
  intros p l Hp. induction l as [| x l IH]; intros H D; simpl in D.
  - apply Z.divide_1_r_nonneg in D; [| pose proof (prime_ge_2 p Hp); lia].
    pose proof (prime_ge_2 p Hp). lia.
  - apply prime_mult in D; [| exact Hp]. destruct D as [D | D].
    + exact (H x (or_introl eq_refl) D).
    + apply IH in D; [exact D |]. intros y Hy. apply H. right. exact Hy.
Qed.

Definition residues (p : Z) : list Z := map Z.of_nat (seq 1 (Z.to_nat (p - 1))).

Lemma in_residues : forall p x, In x (residues p) <-> 1 <= x < p.
Proof.
  intros p x. unfold residues. rewrite in_map_iff. split.
  - intros (n & <- & Hn). apply in_seq in Hn. lia.
  - intros H. exists (Z.to_nat x). split; [lia |]. apply in_seq. lia.
Qed.

Lemma NoDup_residues : forall p, NoDup (residues p).
Proof.
  intros p. apply FinFun.Injective_map_NoDup; [| apply seq_NoDup].
  intros x y H. lia.
Qed.

Theorem fermat_Z : forall p a, prime p -> ~ (p | a) -> a ^ (p - 1) mod p = 1.
Proof.
  intros p a Hp Ha. pose proof (prime_ge_2 p Hp) as H2.
  assert (Hmem : forall x, In x (residues p) -> ~ (p | a * x)).
  { intros x Hx D. apply in_residues in Hx. apply prime_mult in D; [| exact Hp].
    destruct D as [D | D]; [exact (Ha D) |]. apply Z.divide_pos_le in D; lia. }
  assert (P : Permutation (map (fun x => (a * x) mod p) (residues p)) (residues p)).
  { apply NoDup_Permutation_bis.
    - assert (forall l, NoDup l -> incl l (residues p) ->
                NoDup (map (fun x => (a * x) mod p) l)) as G; [| apply G; [apply NoDup_residues | apply incl_refl]].
      induction l as [| x l IH]; intros Hn Hi; simpl; [constructor |].
      inversion_clear Hn. constructor.
      + rewrite in_map_iff. intros (y & E & Hy).
        assert (Hx1 : 1 <= x < p) by (apply in_residues, Hi; left; reflexivity).
        assert (Hy1 : 1 <= y < p) by (apply in_residues, Hi; right; exact Hy).
        assert (D : (p | a * (y - x))).
        { apply Z.mod_divide; [lia |]. rewrite Z.mul_sub_distr_l, Zminus_mod, E, Z.sub_diag.
          apply Z.mod_0_l. lia. }
        apply prime_mult in D; [| exact Hp]. destruct D as [D | D]; [exact (Ha D) |].
        assert (y = x); [| subst; contradiction].
        destruct D as [k D]. assert (k = 0) by nia. subst k. lia.
      + apply IH; [assumption |]. intros z Hz. apply Hi. right. exact Hz.
    - rewrite map_length. apply le_n.
    - intros y Hy. apply in_map_iff in Hy. destruct Hy as (x & <- & Hx).
      apply in_residues. pose proof (Z.mod_pos_bound (a * x) p ltac:(lia)).
      assert ((a * x) mod p <> 0); [| lia].
      intros E. apply (Hmem x Hx). apply Z.mod_divide; [lia | exact E]. }
  pose proof (zprod_map_mod p a (residues p) ltac:(lia)) as E.
  rewrite (zprod_perm _ _ P) in E.
  assert (L : Z.of_nat (length (residues p)) = p - 1).
  { unfold residues. rewrite map_length, seq_length. lia. }
  rewrite L in E.
  assert (D : (p | (a ^ (p - 1) - 1) * zprod (residues p))).
  { apply Z.mod_divide; [lia |].
    rewrite Z.mul_sub_distr_r, Z.mul_1_l, Zminus_mod, <- E, Z.sub_diag. apply Z.mod_0_l. lia. }
  apply prime_mult in D; [| exact Hp]. destruct D as [D | D].
  - apply Z.mod_divide in D; [| lia].
    replace (a ^ (p - 1)) with ((a ^ (p - 1) - 1) + 1) by ring.
    rewrite Zplus_mod, D, Z.add_0_l, Z.mod_mod by lia. apply Z.mod_1_l. lia.
  - exfalso. revert D. apply zprod_coprime; [exact Hp |].
    intros x Hx D. apply in_residues in Hx. apply Z.divide_pos_le in D; lia.
Qed.
