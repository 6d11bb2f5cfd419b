(* Sums over ranges; flows and cuts. *)
From Verif Require Import Base Tac RndModel RndLemmas RandSpec GenModel GenSpec FlowSpec GenProofs GenProofs2 GenProofs3.

Lemma tot_nil : forall lo n f, n <= 0 -> total lo n f = 0.
Proof. intros. unfold total. replace (Z.to_nat n) with O by lia. reflexivity. Qed.
Lemma tot_cons : forall lo n f, 0 < n -> total lo n f = f lo + total (lo + 1) (n - 1) f.
Proof. intros. unfold total. replace (Z.to_nat n) with (S (Z.to_nat (n - 1))) by lia. reflexivity. Qed.
Lemma tot_ind : forall (P : Z -> Z -> Prop), (forall lo n, n <= 0 -> P lo n) -> (forall lo n, 0 < n -> P (lo + 1) (n - 1) -> P lo n) -> forall lo n, P lo n.
Proof.
  intros P H0 H1 lo n. destruct (Z.leb_spec n 0) as [L|L]; auto. replace n with (Z.of_nat (Z.to_nat n)) by lia. generalize (Z.to_nat n). clear n L. intro k.
  revert lo. induction k as [|k IH]; intro lo; [apply H0; lia|]. apply H1; [lia|]. replace (Z.of_nat (S k) - 1) with (Z.of_nat k) by lia. apply IH.
Qed.
Lemma tot_ext : forall f g lo n, (forall x, lo <= x < lo + n -> f x = g x) -> total lo n f = total lo n g.
Proof.
  intros f g. apply (tot_ind (fun lo n => (forall x, lo <= x < lo + n -> f x = g x) -> total lo n f = total lo n g)); intros lo n L.
  - intro. rewrite !tot_nil; auto.
  - intros IH H. rewrite !(tot_cons lo) by auto. rewrite H, IH; auto; try lia; intros; apply H; lia.
Qed.
Lemma tot_zero : forall f lo n, (forall x, lo <= x < lo + n -> f x = 0) -> total lo n f = 0.
Proof.
  intros f. apply (tot_ind (fun lo n => (forall x, lo <= x < lo + n -> f x = 0) -> total lo n f = 0)); intros lo n L.
  - intro. rewrite !tot_nil; auto.
  - intros IH H. rewrite !(tot_cons lo) by auto. rewrite H, IH; auto; try lia; intros; apply H; lia.
Qed.
Lemma tot_app : forall f b lo a, 0 <= a -> 0 <= b -> total lo (a + b) f = total lo a f + total (lo + a) b f.
Proof.
  intros f b. apply (tot_ind (fun lo a => 0 <= a -> 0 <= b -> total lo (a + b) f = total lo a f + total (lo + a) b f)); intros lo a L.
  - intros A B. replace a with 0 by lia. rewrite (tot_nil lo 0) by lia. rewrite !Z.add_0_r, !Z.add_0_l. auto.
  - intros IH A B. rewrite (tot_cons lo (a + b)), (tot_cons lo a) by lia. replace (a + b - 1) with (a - 1 + b) by lia. rewrite IH by lia. replace (lo + 1 + (a - 1)) with (lo + a) by lia. lia.
Qed.
Lemma tot_one : forall f lo, total lo 1 f = f lo.
Proof. intros. rewrite tot_cons by lia. rewrite tot_nil by lia. lia. Qed.
Lemma tot_le : forall f g lo n, (forall x, lo <= x < lo + n -> f x <= g x) -> total lo n f <= total lo n g.
Proof.
  intros f g. apply (tot_ind (fun lo n => (forall x, lo <= x < lo + n -> f x <= g x) -> total lo n f <= total lo n g)); intros lo n L.
  - intro. rewrite !tot_nil; auto. lia.
  - intros IH H. rewrite !(tot_cons lo) by auto. pose proof (H lo ltac:(lia)). specialize (IH ltac:(intros; apply H; lia)). lia.
Qed.
Lemma tot_le_eq : forall f g lo n, (forall x, lo <= x < lo + n -> f x <= g x) -> total lo n f = total lo n g -> forall x, lo <= x < lo + n -> f x = g x.
Proof.
  intros f g. apply (tot_ind (fun lo n => (forall x, lo <= x < lo + n -> f x <= g x) -> total lo n f = total lo n g -> forall x, lo <= x < lo + n -> f x = g x)); intros lo n L.
  - intros. lia.
  - intros IH H E x X. rewrite !(tot_cons lo) in E by auto. pose proof (H lo ltac:(lia)) as A. pose proof (tot_le f g (lo + 1) (n - 1) ltac:(intros; apply H; lia)) as B.
    destruct (Z.eq_dec x lo) as [->|D]; [lia|]. apply IH; try lia; intros; apply H; lia.
Qed.
Lemma tot_add : forall f g lo n, total lo n (fun x => f x + g x) = total lo n f + total lo n g.
Proof.
  intros f g. apply (tot_ind (fun lo n => total lo n (fun x => f x + g x) = total lo n f + total lo n g)); intros lo n L.
  - rewrite !tot_nil; auto.
  - intros IH. rewrite !(tot_cons lo) by auto. lia.
Qed.
Lemma tot_scale : forall f c lo n, total lo n (fun x => c * f x) = c * total lo n f.
Proof.
  intros f c. apply (tot_ind (fun lo n => total lo n (fun x => c * f x) = c * total lo n f)); intros lo n L.
  - rewrite !tot_nil; auto. lia.
  - intros IH. rewrite !(tot_cons lo) by auto. lia.
Qed.
Lemma tot_sub : forall f g lo n, total lo n (fun x => f x - g x) = total lo n f - total lo n g.
Proof.
  intros. rewrite (tot_ext _ (fun x => f x + (-1) * g x)) by (intros; lia). rewrite tot_add, tot_scale. lia.
Qed.
Lemma tot_point : forall f lo n x, lo <= x < lo + n -> (forall y, lo <= y < lo + n -> y <> x -> f y = 0) -> total lo n f = f x.
Proof.
  intros f lo n x X H. replace n with ((x - lo) + (1 + (lo + n - x - 1))) by lia. rewrite !tot_app by lia. rewrite tot_one.
  rewrite !tot_zero; [replace (lo + (x - lo)) with x by lia; lia| |]; intros; apply H; lia.
Qed.
Lemma tot_swap : forall (f : Z -> Z -> Z) lo' n' lo n, total lo n (fun u => total lo' n' (fun v => f u v)) = total lo' n' (fun v => total lo n (fun u => f u v)).
Proof.
  intros f lo' n'. apply (tot_ind (fun lo n => total lo n (fun u => total lo' n' (fun v => f u v)) = total lo' n' (fun v => total lo n (fun u => f u v)))); intros lo n L.
  - rewrite tot_nil by auto. symmetry. apply tot_zero. intros. apply tot_nil. auto.
  - intro IH. rewrite tot_cons by auto. rewrite IH, <- tot_add. apply tot_ext. intros. rewrite (tot_cons lo) by auto. auto.
Qed.

Definition ib (b : bool) : Z := if b then 1 else 0.
Section Cut.
  Variables (N s t : Z) (cap : Z -> Z -> Z) (b : Z -> bool).
  Hypothesis Hs : 0 <= s < N.
  Hypothesis Bs : b s = true.
  Hypothesis Bt : b t = false.
  Definition cutCap (u v : Z) : Z := ib (b u && negb (b v)) * cap u v.
  Definition cutSize : Z := total 0 N (fun u => total 0 N (cutCap u)).
  Definition cross (f : Z -> Z -> Z) (u v : Z) : Z := (ib (b u) - ib (b v)) * f u v.
  Lemma value_cross : forall f, isFlow N cap s t f -> outflow N f s = total 0 N (fun u => total 0 N (cross f u)).
  Proof.
    intros f (F1 & F2).
    assert (A : total 0 N (fun u => ib (b u) * outflow N f u) = outflow N f s).
    { rewrite (tot_point _ 0 N s); [rewrite Bs; unfold ib; lia|lia|]. intros y Y D. destruct (Z.eq_dec y t) as [->|T]; [rewrite Bt; unfold ib; lia|]. rewrite F2 by (auto; lia). lia. }
    rewrite <- A. unfold outflow. rewrite (tot_ext _ (fun u => total 0 N (fun v => ib (b u) * f u v) - total 0 N (fun v => ib (b u) * f v u))) by (intros u U; rewrite (tot_scale (fun v => f u v)), (tot_scale (fun v => f v u)); lia).
    rewrite tot_sub. rewrite (tot_swap (fun u v => ib (b u) * f v u)). rewrite <- tot_sub. apply tot_ext. intros u U. rewrite <- tot_sub. apply tot_ext. intros. unfold cross. lia.
  Qed.
  Lemma cross_le : forall f u v, isFlow N cap s t f -> 0 <= u < N -> 0 <= v < N -> cross f u v <= cutCap u v.
  Proof. intros f u v (F1 & _) U V. specialize (F1 u v U V). unfold cross, cutCap, ib. destruct (b u), (b v); cbn [andb negb]; lia. Qed.
  Lemma cut_bound : forall f, isFlow N cap s t f -> outflow N f s <= cutSize.
  Proof. intros f F. rewrite (value_cross f F). apply tot_le. intros u U. apply tot_le. intros v V. apply cross_le; auto; lia. Qed.
  Lemma cut_tight : forall f, isFlow N cap s t f -> outflow N f s = cutSize -> forall u v, 0 <= u < N -> 0 <= v < N -> cross f u v = cutCap u v.
  Proof.
    intros f F E u v U V. rewrite (value_cross f F) in E.
    assert (R : forall x, 0 <= x < 0 + N -> total 0 N (cross f x) <= total 0 N (cutCap x)) by (intros x X; apply tot_le; intros y Y; apply cross_le; auto; lia).
    pose proof (tot_le_eq _ _ 0 N R E u ltac:(lia)) as Q. cbn beta in Q.
    apply (tot_le_eq (cross f u) (cutCap u) 0 N); auto; try lia. intros; apply cross_le; auto; lia.
  Qed.
End Cut.
Lemma maxFlow_unique : forall N cap s t F F', maxFlow N cap s t F -> maxFlow N cap s t F' -> F = F'.
Proof. intros N cap s t F F' ((f & A & B) & C) ((f' & A' & B') & C'). specialize (C f' A'). specialize (C' f A). lia. Qed.

(* a directed graph built from a list that describes a map *)
Lemma putAll_fun : forall E (C : Z -> Z -> option E) l, (forall u v d, In (u, v, d) l -> C u v = Some d) -> (forall u v d, C u v = Some d -> In (u, v, d) l) ->
  forall u v, putAll E true (fun _ _ => None) l u v = C u v.
Proof.
  intros E C l H1 H2 u v. destruct (C u v) as [d|] eqn:Q.
  - destruct (putAll_some E true l (fun _ _ => None) u v) as (x & y & d' & I & SP & ->).
    + exists u, v, d. split; auto. left. auto.
    + destruct SP as [(-> & ->)|(F & _)]; [|discriminate]. apply H1 in I. congruence.
  - apply putAll_none. intros x y d I [(-> & ->)|(F & _)]; [|discriminate]. apply H1 in I. congruence.
Qed.
