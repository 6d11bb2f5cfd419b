(* Proofs about one step of xoshiro256**: it is additive for exclusive or and
   a bijection of the valid states. *)
From Coq Require Import ZArith NArith List Bool Lia.
From Verif Require Import RngModel RngSpec.
Import ListNotations.
Open Scope Z_scope.

(* -------------------------------------------------------------- words *)

Lemma word_bits : forall x n, word x -> 64 <= n -> Z.testbit x n = false.
Proof.
  intros x n (H0 & H) Hn.
  destruct (Z.eq_dec x 0) as [->|E]; [apply Z.bits_0|].
  apply Z.bits_above_log2; [lia|].
  apply Z.lt_le_trans with 64; [|exact Hn].
  apply Z.log2_lt_pow2; lia.
Qed.

Lemma bits_word : forall x, 0 <= x -> (forall n, 64 <= n -> Z.testbit x n = false) -> word x.
Proof.
  intros x H0 H. split; [exact H0|].
  destruct (Z.eq_dec x 0) as [->|E]; [lia|].
  apply Z.log2_lt_pow2; [lia|].
  destruct (Z_lt_le_dec (Z.log2 x) 64) as [L|L]; [exact L|].
  specialize (H _ L). rewrite Z.bit_log2 in H; [discriminate|lia].
Qed.

Lemma word_xor : forall x y, word x -> word y -> word (Z.lxor x y).
Proof.
  intros x y Hx Hy. apply bits_word.
  - apply Z.lxor_nonneg. unfold word in *. lia.
  - intros n Hn. rewrite Z.lxor_spec, !word_bits by assumption. reflexivity.
Qed.

Lemma word_0 : word 0.
Proof. unfold word. lia. Qed.

(* --------------------------------- the two shifts as total linear maps *)

Definition shl17 (x : Z) : Z := Z.shiftl (Z.land x (Z.ones 47)) 17.
Definition rot45 (x : Z) : Z :=
  Z.lxor (Z.shiftl (Z.land x (Z.ones 19)) 45) (Z.land (Z.shiftr x 19) (Z.ones 45)).

Lemma ones_bit : forall k n, 0 <= k -> 0 <= n -> Z.testbit (Z.ones k) n = (n <? k).
Proof.
  intros k n Hk Hn. destruct (Z.ltb_spec n k).
  - apply Z.ones_spec_low. lia.
  - apply Z.ones_spec_high. lia.
Qed.

Lemma shl17_bit : forall x n, 0 <= n ->
  Z.testbit (shl17 x) n = (17 <=? n) && (n <? 64) && Z.testbit x (n - 17).
Proof.
  intros x n Hn. unfold shl17.
  rewrite Z.shiftl_spec by lia. rewrite Z.land_spec.
  destruct (Z.leb_spec 17 n).
  - rewrite ones_bit by lia.
    destruct (Z.ltb_spec (n - 17) 47), (Z.ltb_spec n 64); try lia;
      destruct (Z.testbit x (n - 17)); reflexivity.
  - rewrite Z.testbit_neg_r by lia. reflexivity.
Qed.

Lemma rot45_bit : forall x n, 0 <= n ->
  Z.testbit (rot45 x) n =
  if n <? 45 then Z.testbit x (n + 19) else (n <? 64) && Z.testbit x (n - 45).
Proof.
  intros x n Hn. unfold rot45.
  rewrite Z.lxor_spec, Z.shiftl_spec by lia. rewrite !Z.land_spec, Z.shiftr_spec by lia.
  rewrite (ones_bit 45) by lia.
  destruct (Z.ltb_spec n 45).
  - rewrite (Z.testbit_neg_r x (n - 45)) by lia. cbn.
    destruct (Z.testbit x (n + 19)); reflexivity.
  - rewrite ones_bit by lia.
    destruct (Z.ltb_spec (n - 45) 19), (Z.ltb_spec n 64); try lia;
      destruct (Z.testbit x (n - 45)), (Z.testbit x (n + 19)); reflexivity.
Qed.

Lemma shl64_17 : forall x, shl64 x 17 = shl17 x.
Proof.
  intros x. apply Z.bits_inj'. intros n Hn. rewrite shl17_bit by exact Hn. unfold shl64.
  destruct (Z.ltb_spec n 64).
  - rewrite Z.mod_pow2_bits_low by lia. rewrite Z.shiftl_spec by lia.
    destruct (Z.leb_spec 17 n); [reflexivity|]. rewrite Z.testbit_neg_r by lia. reflexivity.
  - rewrite Z.mod_pow2_bits_high by lia. rewrite andb_false_r. reflexivity.
Qed.

Lemma rotl_45 : forall x, word x -> rotateLeft x 45 = rot45 x.
Proof.
  intros x Hx. apply Z.bits_inj'. intros n Hn. rewrite rot45_bit by exact Hn.
  unfold rotateLeft, shl64. rewrite Z.lor_spec, Z.shiftr_spec by lia.
  change (64 - 45) with 19.
  destruct (Z.ltb_spec n 64).
  - rewrite Z.mod_pow2_bits_low by lia. rewrite Z.shiftl_spec by lia.
    destruct (Z.ltb_spec n 45).
    + rewrite (Z.testbit_neg_r x (n - 45)) by lia. reflexivity.
    + rewrite (word_bits x (n + 19)) by (exact Hx || lia). apply orb_false_r.
  - rewrite Z.mod_pow2_bits_high by lia. rewrite (word_bits x (n + 19)) by (exact Hx || lia).
    destruct (Z.ltb_spec n 45); [lia|reflexivity].
Qed.

Ltac bits := apply Z.bits_inj'; let n := fresh "n" in let H := fresh "Hn" in intros n H;
  rewrite ?Z.lxor_spec, ?shl17_bit, ?rot45_bit, ?Z.lxor_spec by lia.
Ltac bools := repeat match goal with |- context [Z.testbit ?x ?n] => destruct (Z.testbit x n) end;
  try reflexivity.

Lemma shl17_xor : forall x y, shl17 (Z.lxor x y) = Z.lxor (shl17 x) (shl17 y).
Proof.
  intros x y. bits. destruct ((17 <=? n) && (n <? 64)); bools.
Qed.

Lemma rot45_xor : forall x y, rot45 (Z.lxor x y) = Z.lxor (rot45 x) (rot45 y).
Proof.
  intros x y. bits. destruct (n <? 45), (n <? 64); bools.
Qed.

Lemma land_nonneg' : forall x y, 0 <= y -> 0 <= Z.land x y.
Proof. intros x y H. apply Z.land_nonneg. right. exact H. Qed.

Lemma shl17_nonneg : forall x, 0 <= shl17 x.
Proof. intros x. unfold shl17. apply Z.shiftl_nonneg. apply land_nonneg'. cbn. lia. Qed.

Lemma rot45_nonneg : forall x, 0 <= rot45 x.
Proof.
  intros x. unfold rot45. apply Z.lxor_nonneg.
  assert (0 <= Z.shiftl (Z.land x (Z.ones 19)) 45).
  { apply Z.shiftl_nonneg. apply land_nonneg'. cbn. lia. }
  assert (0 <= Z.land (Z.shiftr x 19) (Z.ones 45)).
  { apply land_nonneg'. cbn. lia. }
  tauto.
Qed.

Lemma shl17_word : forall x, word (shl17 x).
Proof.
  intros x. apply bits_word; [apply shl17_nonneg|].
  intros n Hn. rewrite shl17_bit by lia. destruct (Z.ltb_spec n 64); [lia|].
  rewrite andb_false_r. reflexivity.
Qed.

Lemma rot45_word : forall x, word (rot45 x).
Proof.
  intros x. apply bits_word; [apply rot45_nonneg|].
  intros n Hn. rewrite rot45_bit by lia.
  destruct (Z.ltb_spec n 64), (Z.ltb_spec n 45); try lia; reflexivity.
Qed.

(* rotation right by 45, the inverse *)
Definition unrot45 (x : Z) : Z :=
  Z.lxor (Z.shiftl (Z.land x (Z.ones 45)) 19) (Z.land (Z.shiftr x 45) (Z.ones 19)).

Lemma unrot45_bit : forall x n, 0 <= n ->
  Z.testbit (unrot45 x) n =
  if n <? 19 then Z.testbit x (n + 45) else (n <? 64) && Z.testbit x (n - 19).
Proof.
  intros x n Hn. unfold unrot45.
  rewrite Z.lxor_spec, Z.shiftl_spec by lia. rewrite !Z.land_spec, Z.shiftr_spec by lia.
  rewrite (ones_bit 19) by lia.
  destruct (Z.ltb_spec n 19).
  - rewrite (Z.testbit_neg_r x (n - 19)) by lia. cbn.
    destruct (Z.testbit x (n + 45)); reflexivity.
  - rewrite ones_bit by lia.
    destruct (Z.ltb_spec (n - 19) 45), (Z.ltb_spec n 64); try lia;
      destruct (Z.testbit x (n - 19)), (Z.testbit x (n + 45)); reflexivity.
Qed.

Lemma unrot45_word : forall x, word (unrot45 x).
Proof.
  intros x. apply bits_word.
  - unfold unrot45. apply Z.lxor_nonneg.
    assert (0 <= Z.shiftl (Z.land x (Z.ones 45)) 19).
    { apply Z.shiftl_nonneg. apply land_nonneg'. cbn. lia. }
    assert (0 <= Z.land (Z.shiftr x 45) (Z.ones 19)).
    { apply land_nonneg'. cbn. lia. }
    tauto.
  - intros n Hn. rewrite unrot45_bit by lia.
    destruct (Z.ltb_spec n 64), (Z.ltb_spec n 19); try lia; reflexivity.
Qed.

Lemma unrot_rot : forall x, word x -> unrot45 (rot45 x) = x.
Proof.
  intros x Hx. apply Z.bits_inj'. intros n Hn. rewrite unrot45_bit by exact Hn.
  destruct (Z.ltb_spec n 19).
  - rewrite rot45_bit by lia.
    destruct (Z.ltb_spec (n + 45) 45), (Z.ltb_spec (n + 45) 64); try lia.
    replace (n + 45 - 45) with n by lia. reflexivity.
  - destruct (Z.ltb_spec n 64).
    + rewrite rot45_bit by lia. destruct (Z.ltb_spec (n - 19) 45); [|lia].
      replace (n - 19 + 19) with n by lia. reflexivity.
    + rewrite (word_bits x n) by (exact Hx || lia). reflexivity.
Qed.

Lemma rot_unrot : forall x, word x -> rot45 (unrot45 x) = x.
Proof.
  intros x Hx. apply Z.bits_inj'. intros n Hn. rewrite rot45_bit by exact Hn.
  destruct (Z.ltb_spec n 45).
  - rewrite unrot45_bit by lia.
    destruct (Z.ltb_spec (n + 19) 19), (Z.ltb_spec (n + 19) 64); try lia.
    replace (n + 19 - 19) with n by lia. reflexivity.
  - destruct (Z.ltb_spec n 64).
    + rewrite unrot45_bit by lia. destruct (Z.ltb_spec (n - 45) 19); [|lia].
      replace (n - 45 + 45) with n by lia. reflexivity.
    + rewrite (word_bits x n) by (exact Hx || lia). reflexivity.
Qed.

(* shifting left by 17 four times clears a word *)
Lemma shl17_four : forall x, shl17 (shl17 (shl17 (shl17 x))) = 0.
Proof.
  intros x. apply Z.bits_inj'. intros n Hn. rewrite Z.bits_0.
  rewrite shl17_bit by lia. destruct (Z.leb_spec 17 n); [|reflexivity].
  rewrite shl17_bit by lia. destruct (Z.leb_spec 17 (n - 17)); [|cbn; apply andb_false_r].
  rewrite shl17_bit by lia. destruct (Z.leb_spec 17 (n - 17 - 17)); [|cbn; rewrite ?andb_false_r; reflexivity].
  rewrite shl17_bit by lia.
  destruct (Z.leb_spec 17 (n - 17 - 17 - 17)); [|cbn; rewrite ?andb_false_r; reflexivity].
  destruct (Z.ltb_spec n 64); [lia|reflexivity].
Qed.

(* ------------------------------------------------------- the xor group *)

Ltac xor := repeat rewrite Z.lxor_assoc; try reflexivity.

Lemma lxor_cancel : forall a b, Z.lxor a (Z.lxor a b) = b.
Proof. intros a b. rewrite <- Z.lxor_assoc, Z.lxor_nilpotent. apply Z.lxor_0_l. Qed.

Ltac xbits := apply Z.bits_inj'; let n := fresh "n" in let H := fresh "Hn" in intros n H;
  rewrite ?Z.lxor_spec, ?Z.bits_0; bools.

Notation "s (+) t" := (xorState s t) (at level 50, left associativity).

Lemma xor_assoc : forall s t u, s (+) t (+) u = s (+) (t (+) u).
Proof. intros [] [] []. cbn. f_equal; apply Z.lxor_assoc. Qed.

Lemma xor_comm : forall s t, s (+) t = t (+) s.
Proof. intros [] []. cbn. f_equal; apply Z.lxor_comm. Qed.

Lemma xor_self : forall s, s (+) s = zero.
Proof. intros []. cbn. rewrite !Z.lxor_nilpotent. reflexivity. Qed.

Lemma xor_zero_l : forall s, zero (+) s = s.
Proof. intros []. reflexivity. Qed.

Lemma xor_zero_r : forall s, s (+) zero = s.
Proof. intros s. rewrite xor_comm. apply xor_zero_l. Qed.

Lemma xor_swap : forall a b c d, a (+) b (+) (c (+) d) = a (+) c (+) (b (+) d).
Proof.
  intros a b c d. rewrite !xor_assoc. f_equal. rewrite <- !xor_assoc. f_equal. apply xor_comm.
Qed.

Lemma xor_cancel : forall a b, a (+) (a (+) b) = b.
Proof. intros a b. rewrite <- xor_assoc, xor_self. apply xor_zero_l. Qed.

Lemma xor_inj : forall a b c, a (+) b = a (+) c -> b = c.
Proof. intros a b c H. rewrite <- (xor_cancel a b), H. apply xor_cancel. Qed.

Lemma valid_xor : forall s t, valid s -> valid t -> valid (s (+) t).
Proof.
  intros [] [] (A & B & C & D) (A' & B' & C' & D'). cbn.
  auto 10 using word_xor.
Qed.

Lemma valid_zero : valid zero.
Proof. cbn. auto using word_0. Qed.

(* ------------------------------------------------- the step is additive *)

Definition fstep (s : state) : state :=
  match s with
  | St a b c d =>
      let c' := Z.lxor c a in
      let d' := Z.lxor d b in
      St (Z.lxor a d') (Z.lxor b c') (Z.lxor c' (shl17 b)) (rot45 d')
  end.

Lemma step_fstep : forall s, valid s -> step s = fstep s.
Proof.
  intros [a b c d] (A & B & C & D). cbv [fstep step valid] in *. rewrite shl64_17, rotl_45 by (apply word_xor; assumption).
  reflexivity.
Qed.

Lemma fstep_valid : forall s, valid s -> valid (fstep s).
Proof.
  intros [a b c d] (A & B & C & D). cbv [fstep step valid] in *.
  auto 15 using word_xor, shl17_word, rot45_word.
Qed.

Lemma step_valid : forall s, valid s -> valid (step s).
Proof. intros s H. rewrite step_fstep by exact H. apply fstep_valid. exact H. Qed.

Lemma fstep_xor : forall s t, fstep (s (+) t) = fstep s (+) fstep t.
Proof.
  intros [a b c d] [a' b' c' d']. cbv [fstep xorState]. rewrite shl17_xor, !rot45_xor.
  f_equal; xbits.
Qed.

Lemma fstep_zero : fstep zero = zero.
Proof. reflexivity. Qed.

(* ------------------------------------------------ the step is a bijection *)

(* the inverse of the step *)
Definition unstep (s : state) : state :=
  match s with
  | St a b c d =>
      let e := unrot45 d in
      let y := Z.lxor b c in
      let s0 := Z.lxor a e in
      let s1 := Z.lxor y (Z.lxor (shl17 y) (Z.lxor (shl17 (shl17 y)) (shl17 (shl17 (shl17 y))))) in
      St s0 s1 (Z.lxor b (Z.lxor s1 s0)) (Z.lxor e s1)
  end.

Lemma unstep_valid : forall s, valid s -> valid (unstep s).
Proof.
  intros [a b c d] (A & B & C & D). cbv [fstep step unstep valid] in *.
  assert (word (unrot45 d)) by apply unrot45_word.
  auto 20 using word_xor, shl17_word, unrot45_word.
Qed.

Lemma geometric : forall x, let y := Z.lxor x (shl17 x) in
  Z.lxor y (Z.lxor (shl17 y) (Z.lxor (shl17 (shl17 y)) (shl17 (shl17 (shl17 y))))) = x.
Proof.
  intros x y. subst y. rewrite !shl17_xor, shl17_four. xbits.
Qed.

Lemma geometric' : forall y,
  let x := Z.lxor y (Z.lxor (shl17 y) (Z.lxor (shl17 (shl17 y)) (shl17 (shl17 (shl17 y))))) in
  Z.lxor x (shl17 x) = y.
Proof.
  intros x y. subst y. rewrite !shl17_xor, shl17_four. xbits.
Qed.

Lemma unstep_fstep : forall s, valid s -> unstep (fstep s) = s.
Proof.
  intros [a b c d] (A & B & C & D). cbv [fstep step unstep valid] in *.
  rewrite unrot_rot by (apply word_xor; assumption).
  replace (Z.lxor (Z.lxor b (Z.lxor c a)) (Z.lxor (Z.lxor c a) (shl17 b)))
    with (Z.lxor b (shl17 b)) by xbits.
  rewrite geometric. f_equal; xbits.
Qed.

Lemma fstep_unstep : forall s, valid s -> fstep (unstep s) = s.
Proof.
  intros [a b c d] (A & B & C & D). unfold unstep.
  pose proof (geometric' (Z.lxor b c)) as G. cbv zeta in G.
  match type of G with Z.lxor ?x _ = _ => set (s1 := x) in * end.
  cbv zeta. unfold fstep. cbv zeta.
  replace (Z.lxor (Z.lxor (unrot45 d) s1) s1) with (unrot45 d) by xbits.
  rewrite rot_unrot by exact D.
  f_equal; [xbits|xbits|].
  replace (shl17 s1) with (Z.lxor s1 (Z.lxor b c)) by (rewrite <- G; xbits).
  xbits.
Qed.

Lemma fstep_inj : forall s t, valid s -> valid t -> fstep s = fstep t -> s = t.
Proof.
  intros s t Hs Ht E. rewrite <- (unstep_fstep s Hs), E. apply unstep_fstep. exact Ht.
Qed.

Lemma step_inj : forall s t, valid s -> valid t -> step s = step t -> s = t.
Proof.
  intros s t Hs Ht E. rewrite !step_fstep in E by assumption. apply fstep_inj; assumption.
Qed.

Lemma step_surj : forall t, valid t -> exists s, valid s /\ step s = t.
Proof.
  intros t Ht. exists (unstep t). split; [apply unstep_valid; exact Ht|].
  rewrite step_fstep by (apply unstep_valid; exact Ht). apply fstep_unstep. exact Ht.
Qed.

(* ------------------------------------------------------------- iteration *)

Lemma after_0 : forall s, after 0 s = s.
Proof. reflexivity. Qed.

Lemma after_succ : forall n s, after (N.succ n) s = step (after n s).
Proof. intros n s. unfold after. rewrite N.iter_succ. reflexivity. Qed.

Lemma after_add : forall n m s, after (n + m) s = after n (after m s).
Proof. intros n m s. unfold after. apply N.iter_add. Qed.

Lemma after_valid : forall n s, valid s -> valid (after n s).
Proof.
  intros n s H. induction n as [|n IH] using N.peano_ind; [exact H|].
  rewrite after_succ. apply step_valid. exact IH.
Qed.

Lemma after_inj : forall n s t, valid s -> valid t -> after n s = after n t -> s = t.
Proof.
  intros n s t Hs Ht. induction n as [|n IH] using N.peano_ind; [auto|].
  rewrite !after_succ. intros E. apply IH. apply step_inj in E; auto using after_valid.
Qed.

Lemma after_surj : forall n t, valid t -> exists s, valid s /\ after n s = t.
Proof.
  intros n. induction n as [|n IH] using N.peano_ind; intros t Ht; [exists t; auto|].
  destruct (step_surj t Ht) as (u & Hu & E). destruct (IH u Hu) as (s & Hs & Es).
  exists s. split; [exact Hs|]. rewrite after_succ, Es. exact E.
Qed.

Lemma after_zero : forall n, after n zero = zero.
Proof.
  intros n. induction n as [|n IH] using N.peano_ind; [reflexivity|].
  rewrite after_succ, IH. reflexivity.
Qed.

Lemma after_nonzero : forall n s, valid s -> after n s = zero -> s = zero.
Proof.
  intros n s Hs E. apply (after_inj n); [exact Hs|apply valid_zero|].
  rewrite after_zero. exact E.
Qed.
