From Verif Require Import Tac RndModel RandSeqModel.
From Verif Require Export RandSpec.
From Coq Require Import QArith Qfield Permutation Setoid Morphisms.
Open Scope Z_scope.

(* ---- always ---- *)
Lemma always_mono : forall A (m : rnd A) (P Q : outcome A -> Prop),
  (forall o, P o -> Q o) -> always m P -> always m Q.
Proof. intros A m P Q H. induction m; simpl; auto. Qed.

Lemma always_bind : forall A B (m : rnd A) (f : A -> rnd B) (P : outcome B -> Prop),
  always m (fun o => match o with
                     | Ok a => always (f a) P
                     | Throw => P Throw | UB => P UB | Fuel => P Fuel
                     end) -> always (rbind m f) P.
Proof.
  intros A B m f P. induction m as [o | lo hi k IH]; simpl; intros H.
  - destruct o; simpl; auto.
  - intros x Hx. apply IH. apply H. exact Hx.
Qed.

Lemma always_bind_inv : forall A B (m : rnd A) (f : A -> rnd B) (P : outcome B -> Prop),
  always (rbind m f) P ->
  always m (fun o => match o with
                     | Ok a => always (f a) P
                     | Throw => P Throw | UB => P UB | Fuel => P Fuel
                     end).
Proof.
  intros A B m f P. induction m as [o | lo hi k IH]; simpl; intros H.
  - destruct o; simpl; auto.
  - intros x Hx. apply IH. apply H. exact Hx.
Qed.

(* the common form: m always returns a value satisfying R *)
Lemma returns_bind : forall A B (m : rnd A) (f : A -> rnd B) (R : A -> Prop) (P : outcome B -> Prop),
  always m (returns R) -> (forall a, R a -> always (f a) P) -> always (rbind m f) P.
Proof.
  intros A B m f R P Hm Hf. apply always_bind. revert Hm. apply always_mono.
  intros [a | | |]; simpl; intuition auto.
Qed.

Lemma returns_ret : forall A (R : A -> Prop) a, R a -> always (ret a) (returns R).
Proof. intros. exact H. Qed.

Lemma returns_rint : forall lo hi, lo < hi -> always (rint lo hi) (returns (fun x => lo <= x < hi)).
Proof.
  intros lo hi H. unfold rint. replace (lo <? hi) with true by lia. simpl. auto.
Qed.

Lemma returns_mono : forall A (m : rnd A) (R S : A -> Prop),
  (forall a, R a -> S a) -> always m (returns R) -> always m (returns S).
Proof. intros A m R S H. apply always_mono. intros [a | | |]; simpl; auto. Qed.

(* ---- can ---- *)
Lemma can_always : forall A (m : rnd A) o (P : outcome A -> Prop), can m o -> always m P -> P o.
Proof.
  intros A m o P. induction m as [o' | lo hi k IH]; simpl.
  - intros ->. auto.
  - intros (x & Hx & Hc) H. apply (IH x); auto.
Qed.

Lemma always_can : forall A (m : rnd A) (P : outcome A -> Prop), (forall o, can m o -> P o) -> always m P.
Proof.
  intros A m P. induction m as [o' | lo hi k IH]; simpl; intros H.
  - auto.
  - intros x Hx. apply IH. intros o Ho. apply H. eauto.
Qed.

Lemma can_bind : forall A B (m : rnd A) (f : A -> rnd B) a o,
  can m (Ok a) -> can (f a) o -> can (rbind m f) o.
Proof.
  intros A B m f a o. induction m as [o' | lo hi k IH]; simpl.
  - intros ->. auto.
  - intros (x & Hx & Hc) H. exists x. split; auto.
Qed.

Lemma can_play : forall A (m : rnd A) xs a, play m xs = Ok a -> can m (Ok a).
Proof.
  intros A m. induction m as [o | lo hi k IH]; simpl; intros xs a H.
  - exact H.
  - destruct xs as [| x xs]; [discriminate |].
    destruct ((lo <=? x) && (x <? hi)) eqn:E; [| discriminate].
    exists x. split; [lia |]. eapply IH. exact H.
Qed.

Lemma can_play_any : forall A (m : rnd A) xs o, play m xs = o -> o <> Fuel -> can m o.
Proof.
  intros A m. induction m as [o | lo hi k IH]; simpl; intros xs o' H Hne.
  - exact H.
  - destruct xs as [| x xs]; [congruence |].
    destruct ((lo <=? x) && (x <? hi)) eqn:E; [| congruence].
    exists x. split; [lia |]. eapply IH; eauto.
Qed.

(* ---- zseq ---- *)
Lemma in_zseq : forall n lo x, In x (zseq lo n) <-> lo <= x < lo + Z.of_nat n.
Proof.
  induction n; intros lo x; simpl.
  - lia.
  - rewrite IHn. lia.
Qed.

Lemma zseq_length : forall n lo, length (zseq lo n) = n.
Proof. induction n; simpl; intros; auto. Qed.

Lemma zseq_NoDup : forall n lo, NoDup (zseq lo n).
Proof.
  induction n; simpl; intros lo; constructor; auto.
  rewrite in_zseq. lia.
Qed.

Lemma zseq_snoc : forall n lo, zseq lo (S n) = zseq lo n ++ [lo + Z.of_nat n].
Proof.
  induction n; intros lo.
  - simpl. f_equal. lia.
  - change (zseq lo (S (S n))) with (lo :: zseq (lo + 1) (S n)). rewrite IHn. simpl.
    do 3 f_equal. lia.
Qed.

Lemma zseq_app : forall a b lo, zseq lo (a + b) = zseq lo a ++ zseq (lo + Z.of_nat a) b.
Proof.
  induction a; intros b lo; simpl.
  - f_equal. lia.
  - f_equal. rewrite IHa. do 2 f_equal. lia.
Qed.

Lemma zseq_nth : forall n lo k d, (k < n)%nat -> nth k (zseq lo n) d = lo + Z.of_nat k.
Proof.
  induction n; intros lo k d H; [lia |]. destruct k; simpl; [lia |]. rewrite IHn; lia.
Qed.

Lemma zseq_nth_error : forall n lo k, (k < n)%nat -> nth_error (zseq lo n) k = Some (lo + Z.of_nat k).
Proof.
  induction n; intros lo k H; [lia |]. destruct k; simpl; [f_equal; lia |]. rewrite IHn; [f_equal|]; lia.
Qed.

(* ---- sums ---- *)
Lemma qsum_ext : forall A (f g : A -> Q) l, (forall x, In x l -> (f x == g x)%Q) -> (qsum f l == qsum g l)%Q.
Proof.
  intros A f g l. induction l; simpl; intros H; [reflexivity |].
  rewrite (H a) by auto. rewrite IHl by auto. reflexivity.
Qed.

Lemma qsum_const : forall A (c : Q) (l : list A), (qsum (fun _ => c) l == inject_Z (Z.of_nat (length l)) * c)%Q.
Proof.
  intros A c l. induction l; cbn [qsum fold_right length].
  - unfold inject_Z. simpl. ring.
  - fold (qsum (fun _ : A => c) l). rewrite IHl. rewrite Nat2Z.inj_succ. unfold Z.succ.
    rewrite inject_Z_plus. change (inject_Z 1) with 1%Q. ring.
Qed.

Lemma qsum_zero : forall A (f : A -> Q) l, (forall x, In x l -> (f x == 0)%Q) -> (qsum f l == 0)%Q.
Proof.
  intros A f l H. rewrite (qsum_ext _ f (fun _ => 0%Q)) by exact H.
  rewrite qsum_const. ring.
Qed.

Lemma qsum_plus : forall A (f g : A -> Q) l, (qsum (fun x => f x + g x) l == qsum f l + qsum g l)%Q.
Proof. intros A f g l. induction l; simpl; [ring |]. unfold qsum in *. rewrite IHl. ring. Qed.

Lemma qsum_mult : forall A c (f : A -> Q) l, (qsum (fun x => c * f x) l == c * qsum f l)%Q.
Proof. intros A c f l. induction l; simpl; [ring |]. unfold qsum in *. rewrite IHl. ring. Qed.

Lemma qsum_app : forall A (f : A -> Q) l l', (qsum f (l ++ l') == qsum f l + qsum f l')%Q.
Proof. intros A f l l'. induction l; simpl; [ring |]. unfold qsum in *. rewrite IHl. ring. Qed.

Lemma qsum_map : forall A B (f : B -> Q) (h : A -> B) l, qsum f (map h l) = qsum (fun x => f (h x)) l.
Proof. intros A B f h l. induction l; simpl; auto. unfold qsum in *. rewrite IHl. reflexivity. Qed.

Lemma qsum_perm : forall A (f : A -> Q) l l', Permutation l l' -> (qsum f l == qsum f l')%Q.
Proof.
  intros A f l l' H. induction H; simpl; try ring.
  - unfold qsum in *. rewrite IHPermutation. ring.
  - rewrite IHPermutation1. exact IHPermutation2.
Qed.

(* exactly one summand is non-zero *)
Lemma qsum_single : forall A (f : A -> Q) l a c, NoDup l -> In a l -> (f a == c)%Q ->
  (forall x, In x l -> x <> a -> (f x == 0)%Q) -> (qsum f l == c)%Q.
Proof.
  intros A f l a c. induction l as [| b l IH]; intros Hn Hi Ha H; [contradiction |].
  inversion_clear Hn. simpl. fold (qsum f l). destruct Hi as [-> | Hi].
  - rewrite Ha, qsum_zero; [ring |]. intros x Hx. apply H; [right; auto |]. intros ->. contradiction.
  - rewrite IH; auto.
    + rewrite (H b); [ring | left; auto |]. intros ->. contradiction.
    + intros x Hx. apply H. right; auto.
Qed.

(* summing an indicator over a list *)
Lemma qsum_indicator : forall A (p : A -> bool) c l,
  (qsum (fun x => if p x then c else 0) l == inject_Z (Z.of_nat (length (filter p l))) * c)%Q.
Proof.
  intros A p c l. induction l as [| a l IH].
  - simpl. unfold inject_Z. ring.
  - simpl. destruct (p a).
    + cbn [length]. rewrite Nat2Z.inj_succ. unfold Z.succ. rewrite inject_Z_plus.
      change (inject_Z 1) with 1%Q. unfold qsum in IH. rewrite IH. ring.
    + unfold qsum in IH. rewrite IH. ring.
Qed.

(* ---- expect ---- *)
Lemma expect_ext : forall A (m : rnd A) f g, (forall o, (f o == g o)%Q) -> (expect m f == expect m g)%Q.
Proof.
  intros A m f g H. induction m as [o | lo hi k IH]; simpl; [apply H |].
  rewrite (qsum_ext _ (fun x => expect (k x) f) (fun x => expect (k x) g)) by (intros; apply IH).
  reflexivity.
Qed.

Lemma expect_ext_always : forall A (m : rnd A) f g,
  always m (fun o => (f o == g o)%Q) -> (expect m f == expect m g)%Q.
Proof.
  intros A m f g. induction m as [o | lo hi k IH]; simpl; intros H; [exact H |].
  rewrite (qsum_ext _ (fun x => expect (k x) f) (fun x => expect (k x) g)); [reflexivity |].
  intros x Hx. apply IH. apply H. apply in_zseq in Hx.
  destruct (Z.le_gt_cases lo hi); lia.
Qed.

Lemma expect_bind : forall A B (m : rnd A) (f : A -> rnd B) g,
  (expect (rbind m f) g ==
   expect m (fun o => match o with
                      | Ok a => expect (f a) g
                      | Throw => g Throw | UB => g UB | Fuel => g Fuel end))%Q.
Proof.
  intros A B m f g. induction m as [o | lo hi k IH]; simpl.
  - destruct o; reflexivity.
  - rewrite (qsum_ext _ _ _ _ (fun x _ => IH x)). reflexivity.
Qed.

Lemma expect_rint : forall lo hi f, lo < hi ->
  (expect (rint lo hi) f == qsum (fun x => f (Ok x)) (zseq lo (Z.to_nat (hi - lo))) / inject_Z (hi - lo))%Q.
Proof.
  intros lo hi f H. unfold rint. replace (lo <? hi) with true by lia. simpl. reflexivity.
Qed.

Lemma inject_Z_nonzero : forall n, n <> 0 -> ~ (inject_Z n == 0)%Q.
Proof. intros n H E. apply H. unfold Qeq in E. simpl in E. lia. Qed.

(* factorials *)
Lemma zfact_pos : forall n, 0 < zfact n.
Proof. induction n; cbn [zfact]; [lia |]. apply Z.mul_pos_pos; lia. Qed.
