(* Proof that jump() is 2^128 steps.  A list of bits p stands for the
   polynomial p(T) in the step T, so jump() evaluates one polynomial of degree
   255 at the state.  T is a root of a polynomial of degree 256, and x^(2^128)
   reduced modulo that one is the polynomial of jump(): 128 squarings. *)
From Coq Require Import ZArith NArith List Bool Lia.
From Verif Require Import RngModel RngSpec RngProofs.
Import ListNotations.
Open Scope Z_scope.

(* --------------------------------------------- polynomials in the step *)

Fixpoint ev (p : list bool) (s : state) : state :=
  match p with
  | [] => zero
  | b :: p => (if b then s else zero) (+) ev p (fstep s)
  end.

Definition fn (n : nat) (s : state) : state := Nat.iter n fstep s.

Lemma fn_S : forall n s, fn (S n) s = fn n (fstep s).
Proof.
  intros n s. unfold fn. induction n as [|n IH]; [reflexivity|].
  cbn. cbn in IH. rewrite IH. reflexivity.
Qed.

Lemma ev_xor : forall p s t, ev p (s (+) t) = ev p s (+) ev p t.
Proof.
  induction p as [|b p IH]; intros s t; [reflexivity|].
  cbn [ev]. rewrite fstep_xor, IH.
  destruct b; [apply xor_swap|]. rewrite !xor_zero_l. reflexivity.
Qed.

Lemma ev_fstep : forall p s, ev p (fstep s) = fstep (ev p s).
Proof.
  induction p as [|b p IH]; intros s; [reflexivity|].
  cbn [ev]. rewrite fstep_xor, IH. destruct b; reflexivity.
Qed.

Lemma ev_zero : forall p, ev p zero = zero.
Proof.
  induction p as [|b p IH]; [reflexivity|].
  cbn [ev]. change (fstep zero) with zero. rewrite IH. destruct b; reflexivity.
Qed.

Lemma ev_valid : forall p s, valid s -> valid (ev p s).
Proof.
  induction p as [|b p IH]; intros s H; [apply valid_zero|].
  cbn [ev]. apply valid_xor; [destruct b; [exact H|apply valid_zero]|].
  apply IH. apply fstep_valid. exact H.
Qed.

Lemma fn_valid : forall n s, valid s -> valid (fn n s).
Proof.
  induction n as [|n IH]; intros s H; [exact H|]. cbn. apply fstep_valid. apply IH. exact H.
Qed.

Lemma ev_fn : forall n p s, ev p (fn n s) = fn n (ev p s).
Proof.
  induction n as [|n IH]; intros p s; [reflexivity|].
  change (ev p (fstep (fn n s)) = fstep (fn n (ev p s))).
  rewrite ev_fstep, IH. reflexivity.
Qed.

Lemma fn_zero : forall n, fn n zero = zero.
Proof. induction n as [|n IH]; [reflexivity|]. rewrite fn_S. exact IH. Qed.

Lemma fn_xor : forall n s t, fn n (s (+) t) = fn n s (+) fn n t.
Proof.
  induction n as [|n IH]; intros s t; [reflexivity|].
  change (fstep (fn n (s (+) t)) = fstep (fn n s) (+) fstep (fn n t)).
  rewrite IH. apply fstep_xor.
Qed.

(* sum *)
Fixpoint px (p q : list bool) : list bool :=
  match p, q with
  | [], _ => q
  | _, [] => p
  | a :: p, b :: q => xorb a b :: px p q
  end.

Lemma px_nil : forall p, px p [] = p.
Proof. destruct p; reflexivity. Qed.

Lemma ev_px : forall p q s, ev (px p q) s = ev p s (+) ev q s.
Proof.
  induction p as [|a p IH]; intros [|b q] s; cbn [px ev].
  - reflexivity.
  - rewrite xor_zero_l. reflexivity.
  - rewrite xor_zero_r. reflexivity.
  - rewrite IH, xor_swap. f_equal.
    destruct a, b; cbn [xorb]; rewrite ?xor_self, ?xor_zero_l, ?xor_zero_r; reflexivity.
Qed.

Lemma px_length : forall p q, length (px p q) = Nat.max (length p) (length q).
Proof.
  induction p as [|a p IH]; intros [|b q]; cbn [px length]; [reflexivity|reflexivity|lia|].
  rewrite IH. lia.
Qed.

Lemma ev_app : forall p q s, ev (p ++ q) s = ev p s (+) ev q (fn (length p) s).
Proof.
  induction p as [|a p IH]; intros q s; cbn [app ev length].
  - rewrite xor_zero_l. reflexivity.
  - rewrite IH, fn_S. symmetry. apply xor_assoc.
Qed.

(* square *)
Fixpoint spread (p : list bool) : list bool :=
  match p with [] => [] | b :: p => b :: false :: spread p end.

Lemma spread_length : forall p, length (spread p) = (2 * length p)%nat.
Proof. induction p as [|b p IH]; [reflexivity|]. cbn [spread length]. lia. Qed.

Lemma spread_app : forall p q, spread (p ++ q) = spread p ++ spread q.
Proof. induction p as [|b p IH]; intros q; [reflexivity|]. cbn. rewrite IH. reflexivity. Qed.

Lemma ev_spread : forall p s, ev p (ev p s) = ev (spread p) s.
Proof.
  induction p as [|b p IH]; intros s; [reflexivity|].
  cbn [spread]. cbn [ev]. rewrite xor_zero_l, <- IH.
  rewrite !ev_fstep, ev_xor, !ev_fstep, fstep_xor.
  destruct b.
  - rewrite xor_assoc. f_equal. rewrite xor_cancel. reflexivity.
  - rewrite ev_zero. change (fstep zero) with zero. rewrite !xor_zero_l. reflexivity.
Qed.

(* ---------------------------- the step is a root of a polynomial of degree 256 *)

Fixpoint bitsOf (n : nat) (x : Z) : list bool :=
  match n with O => [] | S n => Z.odd x :: bitsOf n (Z.div2 x) end.

(* the polynomial without its leading term x^256 *)
Definition mlow : list bool :=
  Eval vm_compute in bitsOf 256 0x3c03c3f3ecb1904b4edcf26259f850280002bcefd1a5e9d116f2bb0f0f001.

Lemma mlow_length : length mlow = 256%nat.
Proof. reflexivity. Qed.

Definition root (s : state) : Prop := valid s /\ ev mlow s = fn 256 s.

Lemma root_xor : forall s t, root s -> root t -> root (s (+) t).
Proof.
  intros s t (Vs & Es) (Vt & Et). split; [apply valid_xor; assumption|].
  rewrite ev_xor, fn_xor, Es, Et. reflexivity.
Qed.

Lemma root_fstep : forall s, root s -> root (fstep s).
Proof.
  intros s (V & E). split; [apply fstep_valid; exact V|].
  rewrite ev_fstep, E. rewrite <- fn_S. reflexivity.
Qed.

Lemma root_unstep : forall s, valid s -> root (fstep s) -> root s.
Proof.
  intros s V (_ & E). split; [exact V|].
  apply fstep_inj; [apply ev_valid; exact V|apply fn_valid; exact V|].
  rewrite <- ev_fstep, E. rewrite <- fn_S. reflexivity.
Qed.

Fixpoint evacc (p : list bool) (acc s : state) : state * state :=
  match p with
  | [] => (acc, s)
  | b :: p => evacc p (if b then xorState acc s else acc) (fstep s)
  end.

Lemma evacc_eq : forall p acc s, evacc p acc s = (acc (+) ev p s, fn (length p) s).
Proof.
  induction p as [|b p IH]; intros acc s; cbn [evacc ev].
  - rewrite xor_zero_r. reflexivity.
  - rewrite IH. cbn [length]. rewrite fn_S. f_equal.
    destruct b; [apply xor_assoc|]. rewrite xor_zero_l. reflexivity.
Qed.

Definition steq (s t : state) : bool :=
  match s, t with
  | St a b c d, St a' b' c' d' => (a =? a') && (b =? b') && (c =? c') && (d =? d')
  end.

Lemma steq_eq : forall s t, steq s t = true -> s = t.
Proof.
  intros [] [] H. cbn in H. rewrite !andb_true_iff, !Z.eqb_eq in H.
  destruct H as (((-> & ->) & ->) & ->). reflexivity.
Qed.

Definition checkBit (p : list bool) (i : nat) : bool :=
  let (x, y) := evacc p zero (St (2 ^ Z.of_nat i) 0 0 0) in steq x y.

Lemma checkBit_eq : forall p i, checkBit p i = true ->
  ev p (St (2 ^ Z.of_nat i) 0 0 0) = fn (length p) (St (2 ^ Z.of_nat i) 0 0 0).
Proof.
  intros p i H. unfold checkBit in H. rewrite evacc_eq, xor_zero_l in H.
  apply steq_eq. exact H.
Qed.

Lemma checkBits : forallb (checkBit mlow) (seq 0 64) = true.
Proof. vm_compute. reflexivity. Qed.

Lemma valid_A : forall w, word w -> valid (St w 0 0 0).
Proof. intros w H. cbn. auto using word_0. Qed.

Lemma root_bit : forall i, (i < 64)%nat -> root (St (2 ^ Z.of_nat i) 0 0 0).
Proof.
  intros i Hi. split.
  - apply valid_A. unfold word. split; [apply Z.pow_nonneg; lia|].
    apply Z.pow_lt_mono_r; lia.
  - pose proof checkBits as H. rewrite forallb_forall in H.
    specialize (H i). rewrite in_seq in H. specialize (H ltac:(lia)).
    rewrite <- mlow_length. apply checkBit_eq. exact H.
Qed.

Lemma lxor_top : forall n r, 0 <= n -> 0 <= r < 2 ^ n -> Z.lxor (2 ^ n) r = 2 ^ n + r.
Proof.
  intros n r Hn Hr. symmetry. apply Z.add_nocarry_lxor.
  apply Z.bits_inj'. intros k Hk. rewrite Z.land_spec, Z.bits_0.
  rewrite Z.pow2_bits_eqb by exact Hn. destruct (Z.eqb_spec n k) as [->|E]; [|reflexivity].
  cbn. destruct (Z.eq_dec r 0) as [->|E]; [apply Z.bits_0|].
  apply Z.bits_above_log2; [lia|]. apply Z.log2_lt_pow2; lia.
Qed.

Lemma root_A' : forall n, (n <= 64)%nat -> forall w, 0 <= w < 2 ^ Z.of_nat n -> root (St w 0 0 0).
Proof.
  induction n as [|n IH]; intros Hn w Hw.
  - change (2 ^ Z.of_nat 0) with 1 in Hw. replace w with 0 by lia.
    split; [apply valid_zero|]. change (St 0 0 0 0) with zero. rewrite ev_zero.
    symmetry. apply fn_zero.
  - destruct (Z_lt_le_dec w (2 ^ Z.of_nat n)) as [L|L]; [apply IH; lia|].
    rewrite Nat2Z.inj_succ, Z.pow_succ_r in Hw by lia.
    replace (St w 0 0 0) with (St (2 ^ Z.of_nat n) 0 0 0 (+) St (w - 2 ^ Z.of_nat n) 0 0 0).
    + apply root_xor; [apply root_bit; lia|]. apply IH; lia.
    + unfold xorState. rewrite lxor_top by lia. f_equal. lia.
Qed.

Lemma root_A : forall w, word w -> root (St w 0 0 0).
Proof. intros w H. apply (root_A' 64); [lia|]. exact H. Qed.

Lemma root_C : forall w, word w -> root (St 0 0 w 0).
Proof.
  intros w H. apply root_unstep; [cbn; auto using word_0|].
  replace (fstep (St 0 0 w 0)) with (fstep (St w 0 0 0) (+) St w 0 0 0).
  - apply root_xor; [apply root_fstep|]; apply root_A; exact H.
  - unfold fstep, xorState. change (shl17 0) with 0. change (rot45 (Z.lxor 0 0)) with 0.
    f_equal; xbits.
Qed.

Lemma root_B : forall w, word w -> root (St 0 w 0 0).
Proof.
  intros w H.
  replace (St 0 w 0 0) with (fstep (St w 0 0 0) (+) St w 0 0 0 (+) St 0 0 w 0).
  - apply root_xor; [apply root_xor; [apply root_fstep|]; apply root_A; exact H|].
    apply root_C. exact H.
  - unfold fstep, xorState. change (shl17 0) with 0. change (rot45 (Z.lxor 0 0)) with 0.
    f_equal; xbits.
Qed.

Lemma root_D : forall w, word w -> root (St 0 0 0 w).
Proof.
  intros w H. rewrite <- (rot_unrot w H).
  set (v := unrot45 w). assert (Hv : word v) by apply unrot45_word.
  replace (St 0 0 0 (rot45 v))
    with (fstep (St 0 v 0 0) (+) St v 0 0 0 (+) St 0 v 0 0 (+) St 0 0 (shl17 v) 0).
  - apply root_xor; [apply root_xor; [apply root_xor|]|].
    + apply root_fstep. apply root_B. exact Hv.
    + apply root_A. exact Hv.
    + apply root_B. exact Hv.
    + apply root_C. apply shl17_word.
  - unfold fstep, xorState. replace (Z.lxor 0 v) with v by xbits.
    f_equal; xbits.
Qed.

Lemma root_all : forall s, valid s -> ev mlow s = fn 256 s.
Proof.
  intros [a b c d] (A & B & C & D).
  assert (R : root (St a 0 0 0 (+) St 0 b 0 0 (+) St 0 0 c 0 (+) St 0 0 0 d)).
  { apply root_xor; [apply root_xor; [apply root_xor|]|].
    - apply root_A. exact A.
    - apply root_B. exact B.
    - apply root_C. exact C.
    - apply root_D. exact D. }
  destruct R as (_ & E). unfold xorState in E.
  rewrite !Z.lxor_0_r, !Z.lxor_0_l in E. exact E.
Qed.

(* ------------------------------------- arithmetic modulo that polynomial *)

(* the list without its last element, and the last element *)
Fixpoint unsnoc (p : list bool) (b : bool) : list bool * bool :=
  match p with
  | [] => ([], b)
  | c :: p => let (q, l) := unsnoc p c in (b :: q, l)
  end.

Lemma unsnoc_eq : forall p b q l, unsnoc p b = (q, l) -> b :: p = q ++ [l].
Proof.
  induction p as [|c p IH]; intros b q l H; cbn in H.
  - injection H as <- <-. reflexivity.
  - destruct (unsnoc p c) as (q', l') eqn:E. injection H as <- <-.
    rewrite (IH _ _ _ E). reflexivity.
Qed.

(* multiplication by x *)
Definition xt (p : list bool) : list bool :=
  let (q, l) := unsnoc p false in if l then px q mlow else q.

Lemma xt_length : forall p, length p = 256%nat -> length (xt p) = 256%nat.
Proof.
  intros p H. unfold xt. destruct (unsnoc p false) as (q, l) eqn:E. apply unsnoc_eq in E.
  apply (f_equal (@length bool)) in E. rewrite app_length in E. cbn [length] in E.
  destruct l; [|lia]. rewrite px_length, mlow_length. lia.
Qed.

Lemma ev_xt : forall p s, valid s -> length p = 256%nat -> ev (xt p) s = fstep (ev p s).
Proof.
  intros p s V H. unfold xt. destruct (unsnoc p false) as (q, l) eqn:E. apply unsnoc_eq in E.
  assert (L : length q = 256%nat).
  { apply (f_equal (@length bool)) in E. rewrite app_length in E. cbn [length] in E. lia. }
  rewrite <- ev_fstep. apply (f_equal (fun r => ev r s)) in E. cbn [ev] in E.
  rewrite xor_zero_l in E. rewrite E, ev_app. rewrite L. cbn [ev]. rewrite xor_zero_r.
  destruct l; [|rewrite xor_zero_r; reflexivity].
  rewrite ev_px, root_all by exact V. reflexivity.
Qed.

(* the powers x^256, x^258, x^260, ... *)
Fixpoint powers (n : nat) (r : list bool) : list (list bool) :=
  match n with O => [] | S n => r :: powers n (xt (xt r)) end.

(* the reduced value of the even polynomial with the bits p above x^256 *)
Fixpoint reduce (p : list bool) (tab : list (list bool)) : list bool :=
  match p, tab with
  | b :: p, r :: tab => let q := reduce p tab in if b then px r q else q
  | _, _ => []
  end.

Lemma ev_reduce : forall s, valid s -> forall p n r, (length p <= n)%nat -> length r = 256%nat ->
  ev (reduce p (powers n r)) s = ev (spread p) (ev r s).
Proof.
  intros s V. induction p as [|b p IH]; intros n r Hn Hr; [reflexivity|].
  destruct n as [|n]; [cbn in Hn; lia|]. cbn [length] in Hn.
  cbn [powers reduce spread]. cbn [ev].
  rewrite xor_zero_l. rewrite <- !ev_xt by auto using xt_length.
  rewrite <- (IH n) by (auto using xt_length; lia).
  destruct b; [|rewrite xor_zero_l; reflexivity].
  rewrite ev_px. reflexivity.
Qed.

Lemma reduce_length : forall p n r, length r = 256%nat -> (length (reduce p (powers n r)) <= 256)%nat.
Proof.
  induction p as [|b p IH]; intros n r Hr; [cbn; lia|].
  destruct n as [|n]; [cbn; lia|]. cbn [powers reduce].
  specialize (IH n (xt (xt r)) ltac:(auto using xt_length)).
  destruct b; [rewrite px_length|]; lia.
Qed.

(* the square *)
Definition sq (tab : list (list bool)) (p : list bool) : list bool :=
  px (spread (firstn 128 p)) (reduce (skipn 128 p) tab).

Lemma ev_sq : forall s p, valid s -> length p = 256%nat ->
  ev (sq (powers 128 mlow) p) s = ev p (ev p s).
Proof.
  intros s p V L. unfold sq. rewrite ev_px.
  rewrite ev_reduce by (try exact V; try reflexivity; rewrite skipn_length; lia).
  rewrite root_all by exact V.
  rewrite ev_spread. rewrite <- (firstn_skipn 128 p) at 3. rewrite spread_app, ev_app.
  rewrite spread_length, firstn_length, L. reflexivity.
Qed.

Lemma sq_length : forall p, length p = 256%nat -> length (sq (powers 128 mlow) p) = 256%nat.
Proof.
  intros p L. unfold sq. rewrite px_length, spread_length, firstn_length.
  pose proof (reduce_length (skipn 128 p) 128 mlow eq_refl). lia.
Qed.

(* --------------------------------------------------------------- jump() *)

Definition xpoly : list bool := false :: true :: repeat false 254.

Definition squares (tab : list (list bool)) (k : nat) : list bool := Nat.iter k (sq tab) xpoly.

Lemma squares_length : forall k, length (squares (powers 128 mlow) k) = 256%nat.
Proof.
  induction k as [|k IH]; [reflexivity|]. cbn [squares Nat.iter nat_rect].
  apply sq_length. exact IH.
Qed.

Lemma ev_false : forall n s, ev (repeat false n) s = zero.
Proof.
  induction n as [|n IH]; intros s; [reflexivity|]. cbn [repeat ev]. rewrite IH. reflexivity.
Qed.

Lemma ev_xpoly : forall s, ev xpoly s = fstep s.
Proof.
  intros s. unfold xpoly. cbn [ev]. rewrite ev_false, xor_zero_r, xor_zero_l. reflexivity.
Qed.

Lemma ev_squares : forall k s, valid s ->
  ev (squares (powers 128 mlow) k) s = after (2 ^ N.of_nat k) s.
Proof.
  induction k as [|k IH]; intros s V.
  - change (squares (powers 128 mlow) 0) with xpoly. rewrite ev_xpoly.
    change (2 ^ N.of_nat 0)%N with 1%N. change (after 1 s) with (step s).
    symmetry. apply step_fstep. exact V.
  - change (squares (powers 128 mlow) (S k))
      with (sq (powers 128 mlow) (squares (powers 128 mlow) k)).
    rewrite ev_sq by (try exact V; apply squares_length).
    rewrite (IH s) by exact V. rewrite IH by (apply after_valid; exact V).
    rewrite <- after_add. f_equal. rewrite Nat2N.inj_succ, N.pow_succ_r'. lia.
Qed.

(* the bits of the constants in the order of the loops *)
Definition jumpBits : list bool :=
  Eval vm_compute in flat_map (bitsOf 64) jumps.

Fixpoint boolsEqb (p q : list bool) : bool :=
  match p, q with
  | [], [] => true
  | a :: p, b :: q => Bool.eqb a b && boolsEqb p q
  | _, _ => false
  end.

Lemma boolsEqb_eq : forall p q, boolsEqb p q = true -> p = q.
Proof.
  induction p as [|a p IH]; intros [|b q] H; cbn in H; try discriminate; [reflexivity|].
  apply andb_true_iff in H. destruct H as (A & B). apply eqb_prop in A. rewrite A, (IH q B).
  reflexivity.
Qed.

Lemma jump_poly : squares (powers 128 mlow) 128 = jumpBits.
Proof.
  apply boolsEqb_eq.
  change ((fun tab => boolsEqb (squares tab 128) jumpBits) (powers 128 mlow) = true).
  vm_compute. reflexivity.
Qed.

Lemma jumpBit_word : forall w p s acc, valid s -> (forall b k, nth_error p k = Some b ->
    (Z.land w (shl64 1 (Z.of_nat (64 - length p + k))) =? 0) = negb b) -> (length p <= 64)%nat ->
  fold_left (jumpBit w) (seq (64 - length p) (length p)) (acc, s) = evacc p acc s.
Proof.
  intros w. induction p as [|b p IH]; intros s acc V H L; [reflexivity|].
  cbn [length seq fold_left]. cbn [length] in L.
  replace (jumpBit w (acc, s) (64 - S (length p)))
    with (if b then acc (+) s else acc, fstep s).
  - cbn [evacc]. replace (S (64 - S (length p))) with (64 - length p)%nat by lia.
    apply IH; [apply fstep_valid; exact V| |lia].
    intros c k Hk. rewrite <- (H c (S k) Hk). cbn [length].
    replace (64 - S (length p) + S k)%nat with (64 - length p + k)%nat by lia. reflexivity.
  - unfold jumpBit. pose proof (H b 0%nat eq_refl) as E. cbn [length] in E.
    rewrite Nat.add_0_r in E. rewrite E. unfold call. cbn [snd]. rewrite step_fstep by exact V.
    destruct b; reflexivity.
Qed.

Definition wordBitsOk (w : Z) : bool :=
  forallb (fun k => Bool.eqb (Z.land w (shl64 1 (Z.of_nat k)) =? 0)
                             (negb (nth k (bitsOf 64 w) false))) (seq 0 64).

Lemma bitsOf_length : forall n x, length (bitsOf n x) = n.
Proof. induction n as [|n IH]; intros x; [reflexivity|]. cbn. rewrite IH. reflexivity. Qed.

Lemma jumpWord_ev : forall w s acc, valid s -> wordBitsOk w = true ->
  jumpWord (acc, s) w = evacc (bitsOf 64 w) acc s.
Proof.
  intros w s acc V H. unfold jumpWord.
  pose proof (jumpBit_word w (bitsOf 64 w) s acc V) as J.
  rewrite bitsOf_length in J. apply J; [|lia]. clear J.
  intros b k Hk. assert (Lk : (k < 64)%nat).
  { rewrite <- (bitsOf_length 64 w). apply nth_error_Some. congruence. }
  unfold wordBitsOk in H. rewrite forallb_forall in H. specialize (H k).
  rewrite in_seq in H. specialize (H ltac:(lia)). apply eqb_prop in H.
  replace (64 - 64 + k)%nat with k by lia. rewrite H.
  rewrite (nth_error_nth _ _ _ Hk). reflexivity.
Qed.

Lemma evacc_app : forall p q acc s,
  evacc (p ++ q) acc s = let (a, t) := evacc p acc s in evacc q a t.
Proof.
  induction p as [|b p IH]; intros q acc s; [reflexivity|]. cbn [app evacc]. apply IH.
Qed.

Lemma jumpWords : forall (g : state * state -> Z -> state * state) (f : Z -> list bool) ws s acc,
  valid s -> (forall w s acc, In w ws -> valid s -> g (acc, s) w = evacc (f w) acc s) ->
  fold_left g ws (acc, s) = evacc (flat_map f ws) acc s.
Proof.
  intros g f. induction ws as [|w ws IH]; intros s acc V H; [reflexivity|].
  cbn [fold_left flat_map]. rewrite (H w) by (auto using in_eq).
  rewrite evacc_app. rewrite (evacc_eq (f w)).
  apply IH; [apply fn_valid; exact V|].
  intros w' s' acc' I. apply H. right. exact I.
Qed.

Lemma jumps_ok : forallb wordBitsOk jumps = true.
Proof. vm_compute. reflexivity. Qed.

Lemma jumpBits_eq : flat_map (bitsOf 64) jumps = jumpBits.
Proof. vm_compute. reflexivity. Qed.

Lemma jump_ev : forall s, valid s -> jump s = ev jumpBits s.
Proof.
  intros s V. unfold jump. rewrite (jumpWords jumpWord (bitsOf 64)); [|exact V|].
  2:{ intros w s' acc I V'. apply jumpWord_ev; [exact V'|].
      pose proof jumps_ok as J. rewrite forallb_forall in J. apply J. exact I. }
  rewrite jumpBits_eq, evacc_eq. cbn [fst]. change (St 0 0 0 0) with zero. rewrite xor_zero_l. reflexivity.
Qed.

Lemma jump_after : forall s, valid s -> jump s = after (2 ^ 128) s.
Proof.
  intros s V. rewrite jump_ev by exact V. rewrite <- jump_poly.
  apply (ev_squares 128). exact V.
Qed.
