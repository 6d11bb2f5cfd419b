(* regex_match decides the language of the pattern. *)
From Verif Require Import Base Tac SeqModel RegexModel.

Inductive lang : re -> list Z -> Prop :=
| l_eps : lang REps []
| l_chr : forall p c, p c = true -> lang (RChr p) [c]
| l_cat : forall a b s t, lang a s -> lang b t -> lang (RCat a b) (s ++ t)
| l_altl : forall a b s, lang a s -> lang (RAlt a b) s
| l_altr : forall a b s, lang b s -> lang (RAlt a b) s
| l_star0 : forall a, lang (RStar a) []
| l_star1 : forall a s t, lang a s -> lang (RStar a) t -> lang (RStar a) (s ++ t).

Lemma nullable_lang : forall r, nullable r = true <-> lang r [].
Proof.
  induction r; simpl; split; intro H; try discriminate; try (inversion H; fail); try (constructor; fail); try reflexivity.
  - apply andb_true_iff in H as [H1 H2]. apply (l_cat r1 r2 [] []); [apply IHr1|apply IHr2]; auto.
  - inversion H; subst. apply app_eq_nil in H2 as [-> ->]. apply andb_true_iff. split; [apply IHr1|apply IHr2]; auto.
  - apply orb_true_iff in H as [H|H]; [apply l_altl, IHr1|apply l_altr, IHr2]; auto.
  - apply orb_true_iff. inversion H; subst; [left; apply IHr1|right; apply IHr2]; auto.
Qed.

Lemma star_cons : forall a c s, lang (RStar a) (c :: s) ->
  exists s1 s2, s = s1 ++ s2 /\ lang a (c :: s1) /\ lang (RStar a) s2.
Proof.
  intros a c s H. remember (RStar a) as r. remember (c :: s) as w. revert a c s Heqr Heqw.
  induction H; intros a0 c0 s0 Hr Hw; try discriminate.
  inversion Hr; subst. destruct s as [|x s].
  - simpl in Hw. eapply IHlang2; eauto.
  - simpl in Hw. inversion Hw; subst. exists s, t. auto.
Qed.

Lemma deriv_lang : forall r c s, lang (deriv r c) s <-> lang r (c :: s).
Proof.
  induction r; simpl; intros c s; split; intro H; try (inversion H; fail).
  - destruct (p c) eqn:E; inversion H; subst. constructor. auto.
  - inversion H as [|p' c' Hp E1 [E2 E3]| | | | |]; subst. rewrite Hp. constructor.
  - destruct (nullable r1) eqn:E.
    + inversion H; subst.
      * inversion H3; subst. apply (l_cat r1 r2 (c :: s0) t); auto. apply IHr1; auto.
      * apply (l_cat r1 r2 [] (c :: s)). { apply nullable_lang; auto. } apply IHr2; auto.
    + inversion H; subst. apply (l_cat r1 r2 (c :: s0) t); auto. apply IHr1; auto.
  - inversion H; subst. destruct s0 as [|x s0]; simpl in H2.
    + subst t. assert (E : nullable r1 = true) by (apply nullable_lang; auto). rewrite E.
      apply l_altr, IHr2; auto.
    + inversion H2; subst. assert (L : lang (RCat (deriv r1 c) r2) (s0 ++ t)) by (constructor; auto; apply IHr1; auto).
      destruct (nullable r1); auto. apply l_altl; auto.
  - inversion H; subst; [apply l_altl, IHr1|apply l_altr, IHr2]; auto.
  - inversion H; subst; [apply l_altl, IHr1|apply l_altr, IHr2]; auto.
  - inversion H; subst. apply (l_star1 r (c :: s0) t); auto. apply IHr; auto.
  - apply star_cons in H as (s1 & s2 & -> & L1 & L2). constructor; auto. apply IHr; auto.
Qed.

Lemma regex_match_lang : forall s r, regex_match s r = true <-> lang r s.
Proof.
  induction s as [|c s IH]; simpl; intro r.
  - apply nullable_lang.
  - rewrite IH. apply deriv_lang.
Qed.

(* inversion lemmas *)
Lemma lang_chr : forall p s, lang (RChr p) s <-> exists c, s = [c] /\ p c = true.
Proof. split; [intro H; inversion H; eauto|intros (c & -> & H); constructor; auto]. Qed.
Lemma lang_cat : forall a b s, lang (RCat a b) s <-> exists s1 s2, s = s1 ++ s2 /\ lang a s1 /\ lang b s2.
Proof. split; [intro H; inversion H; subst; eauto|intros (s1 & s2 & -> & H1 & H2); constructor; auto]. Qed.
Lemma lang_alt : forall a b s, lang (RAlt a b) s <-> lang a s \/ lang b s.
Proof. split; [intro H; inversion H; auto|intros [H|H]; [apply l_altl|apply l_altr]; auto]. Qed.
Lemma lang_eps : forall s, lang REps s <-> s = [].
Proof. split; [intro H; inversion H; auto|intros ->; constructor]. Qed.
Lemma lang_star_chr : forall p s, lang (RStar (RChr p)) s <-> Forall (fun c => p c = true) s.
Proof.
  split.
  - intro H. remember (RStar (RChr p)) as r. induction H; try discriminate; [constructor|].
    inversion Heqr; subst. apply lang_chr in H as (c & -> & Hp). simpl. constructor; auto.
  - induction 1 as [|c s Hc Hs IH]; [constructor|].
    apply (l_star1 (RChr p) [c] s); auto. constructor; auto.
Qed.
Lemma lang_opt : forall a s, lang (ROpt a) s <-> lang a s \/ s = [].
Proof. intros. unfold ROpt. rewrite lang_alt, lang_eps. tauto. Qed.
Lemma lang_lit : forall c s, lang (RLit c) s <-> s = [c].
Proof.
  intros. unfold RLit. rewrite lang_chr. split.
  - intros (x & -> & H). apply Z.eqb_eq in H. subst. auto.
  - intros ->. exists c. rewrite Z.eqb_refl. auto.
Qed.
Lemma lang_plus_chr : forall p s, lang (RPlus (RChr p)) s <-> s <> [] /\ Forall (fun c => p c = true) s.
Proof.
  intros. unfold RPlus. rewrite lang_cat. split.
  - intros (s1 & s2 & -> & H1 & H2). apply lang_chr in H1 as (c & -> & Hc). apply lang_star_chr in H2.
    split; [discriminate|]. simpl. constructor; auto.
  - intros [H1 H2]. destruct s as [|c s]; [congruence|]. inversion H2; subst.
    exists [c], s. split; [auto|]. split; [constructor; auto|apply lang_star_chr; auto].
Qed.
