(* Proofs about the engine AES_RNG: encryption is injective, the counter counts
   modulo 2^128, and how the streams of different seeds are related. *)
From Coq Require Import ZArith NArith List Bool Btauto Lia.
From Verif Require Import AesModel AesSpec AesProofs.
Import ListNotations.
Open Scope Z_scope.

(* ------------------------------------------------------------ injectivity *)

Fixpoint index (l : list Z) (y : Z) : Z :=
  match l with [] => 0 | x :: l => if x =? y then 0 else 1 + index l y end.

Definition unsub (y : Z) : Z := index (concat SBOX) y.

Lemma unsub_sub : forall x, byte x -> unsub (sub x) = x.
Proof. intros x H. apply Z.eqb_eq. revert x H. apply for_bytes. vm_compute. reflexivity. Qed.

Lemma sub_inj : forall x y, byte x -> byte y -> sub x = sub y -> x = y.
Proof. intros x y Hx Hy E. rewrite <- (unsub_sub x Hx), E. apply unsub_sub. exact Hy. Qed.

Lemma SubBytes_inj : forall S, (forall x, byte x -> S x = sub x) -> forall s t, wf s -> wf t ->
  SubBytes S s = SubBytes S t -> s = t.
Proof.
  intros S HS s t Hs Ht E.
  assert (I : forall x y, byte x -> byte y -> S x = S y -> x = y).
  { intros x y X Y F. rewrite !HS in F by assumption. apply sub_inj; assumption. }
  open_state Hs. open_state Ht. unfold SubBytes in E. cbn [map] in E.
  injection E as E0 E1 E2 E3 E4 E5 E6 E7 E8 E9 E10 E11 E12 E13 E14 E15.
  apply I in E0, E1, E2, E3, E4, E5, E6, E7, E8, E9, E10, E11, E12, E13, E14, E15;
    try assumption. subst. reflexivity.
Qed.

Lemma ShiftRows_inj : forall s t, wf s -> wf t -> ShiftRows s = ShiftRows t -> s = t.
Proof.
  intros s t Hs Ht E. open_state Hs. open_state Ht. cbn in E. injection E. intros. subst. reflexivity.
Qed.

Lemma circ1 : forall x, byte x ->
  Z.lxor (mul 14 (mul 2 x)) (Z.lxor (mul 11 x) (Z.lxor (mul 13 x) (mul 9 (mul 3 x)))) = x.
Proof. intros x H. apply Z.eqb_eq. revert x H. apply for_bytes. vm_compute. reflexivity. Qed.
Lemma circ2 : forall x, byte x ->
  Z.lxor (mul 14 (mul 3 x)) (Z.lxor (mul 11 (mul 2 x)) (Z.lxor (mul 13 x) (mul 9 x))) = 0.
Proof. intros x H. apply Z.eqb_eq. revert x H. apply for_bytes. vm_compute. reflexivity. Qed.
Lemma circ3 : forall x, byte x ->
  Z.lxor (mul 14 x) (Z.lxor (mul 11 (mul 3 x)) (Z.lxor (mul 13 (mul 2 x)) (mul 9 x))) = 0.
Proof. intros x H. apply Z.eqb_eq. revert x H. apply for_bytes. vm_compute. reflexivity. Qed.
Lemma circ4 : forall x, byte x ->
  Z.lxor (mul 14 x) (Z.lxor (mul 11 x) (Z.lxor (mul 13 (mul 3 x)) (mul 9 (mul 2 x)))) = 0.
Proof. intros x H. apply Z.eqb_eq. revert x H. apply for_bytes. vm_compute. reflexivity. Qed.

(* row of the inverse matrix *)
Definition unmixRow (p q r t : Z) : Z :=
  Z.lxor (mul 14 p) (Z.lxor (mul 11 q) (Z.lxor (mul 13 r) (mul 9 t))).

Lemma unmixRow_ok : forall a b c d, byte a -> byte b -> byte c -> byte d ->
  unmixRow (Z.lxor (mul 2 a) (Z.lxor (mul 3 b) (Z.lxor c d)))
           (Z.lxor a (Z.lxor (mul 2 b) (Z.lxor (mul 3 c) d)))
           (Z.lxor a (Z.lxor b (Z.lxor (mul 2 c) (mul 3 d))))
           (Z.lxor (mul 3 a) (Z.lxor b (Z.lxor c (mul 2 d)))) = a.
Proof.
  intros a b c d A B C D. unfold unmixRow. rewrite !mul_xor.
  transitivity (Z.lxor (Z.lxor (mul 14 (mul 2 a)) (Z.lxor (mul 11 a) (Z.lxor (mul 13 a) (mul 9 (mul 3 a)))))
    (Z.lxor (Z.lxor (mul 14 (mul 3 b)) (Z.lxor (mul 11 (mul 2 b)) (Z.lxor (mul 13 b) (mul 9 b))))
    (Z.lxor (Z.lxor (mul 14 c) (Z.lxor (mul 11 (mul 3 c)) (Z.lxor (mul 13 (mul 2 c)) (mul 9 c))))
            (Z.lxor (mul 14 d) (Z.lxor (mul 11 d) (Z.lxor (mul 13 (mul 3 d)) (mul 9 (mul 2 d)))))))).
  - generalize (mul 14 (mul 2 a)) (mul 11 a) (mul 13 a) (mul 9 (mul 3 a)).
    generalize (mul 14 (mul 3 b)) (mul 11 (mul 2 b)) (mul 13 b) (mul 9 b).
    generalize (mul 14 c) (mul 11 (mul 3 c)) (mul 13 (mul 2 c)) (mul 9 c).
    generalize (mul 14 d) (mul 11 d) (mul 13 (mul 3 d)) (mul 9 (mul 2 d)).
    clear. intros. rewrite !Z.lxor_assoc.

    apply Z.bits_inj'. intros n Hn. rewrite !Z.lxor_spec. btauto.
  - rewrite circ1, circ2, circ3, circ4 by assumption. apply Z.lxor_0_r.
Qed.

Definition unmixColumn (w : list Z) : list Z :=
  match w with
  | [p; q; r; t] => [unmixRow p q r t; unmixRow q r t p; unmixRow r t p q; unmixRow t p q r]
  | _ => []
  end.

Ltac shuffle := apply Z.bits_inj'; let n := fresh "n" in let H := fresh "Hn" in
  intros n H; rewrite !Z.lxor_spec; btauto.

Lemma unmixRow_ext : forall p q r t p' q' r' t' v,
  unmixRow p' q' r' t' = v -> p = p' -> q = q' -> r = r' -> t = t' -> unmixRow p q r t = v.
Proof. intros; subst; reflexivity. Qed.

Lemma unmixColumn_ok : forall w, bytes 4 w -> unmixColumn (mixColumn w) = w.
Proof.
  intros w H. open_word H. unfold mixColumn, unmixColumn. apply list4_eq.
  - apply unmixRow_ok; assumption.
  - eapply unmixRow_ext; [apply (unmixRow_ok b c d a); assumption|shuffle..].
  - eapply unmixRow_ext; [apply (unmixRow_ok c d a b); assumption|shuffle..].
  - eapply unmixRow_ext; [apply (unmixRow_ok d a b c); assumption|shuffle..].
Qed.

Lemma MixColumns_inj : forall s t, wf s -> wf t -> MixColumns s = MixColumns t -> s = t.
Proof.
  intros s t Hs Ht E.
  assert (G : forall u, wf u -> map unmixColumn (MixColumns u) = u).
  { intros u (_ & F). unfold MixColumns. rewrite map_map. rewrite <- (map_id u) at 2.
    apply map_ext_in. intros w I. apply unmixColumn_ok. rewrite Forall_forall in F. auto. }
  rewrite <- (G s Hs), E. apply G. exact Ht.
Qed.

Lemma lxor_cancel_r : forall a b k, Z.lxor a k = Z.lxor b k -> a = b.
Proof.
  intros a b k E. rewrite <- (Z.lxor_0_r a), <- (Z.lxor_nilpotent k), <- Z.lxor_assoc, E.
  rewrite Z.lxor_assoc, Z.lxor_nilpotent. apply Z.lxor_0_r.
Qed.

Lemma xors_inj : forall a b k, length a = length k -> length b = length k ->
  xors a k = xors b k -> a = b.
Proof.
  induction a as [|x a IH]; intros [|y b] [|z k] La Lb E; try discriminate; [reflexivity|].
  cbn [xors] in E. injection E as E1 E2. apply lxor_cancel_r in E1. subst. f_equal.
  injection La as La. injection Lb as Lb. apply (IH b k); assumption.
Qed.

Lemma AddRoundKey_inj : forall s t k, wf s -> wf t -> wf k ->
  AddRoundKey s k = AddRoundKey t k -> s = t.
Proof.
  intros s t k Hs Ht Hk E.
  apply wf_4 in Hs, Ht, Hk.
  destruct Hs as (s0 & s1 & s2 & s3 & -> & A0 & A1 & A2 & A3).
  destruct Ht as (t0 & t1 & t2 & t3 & -> & B0 & B1 & B2 & B3).
  destruct Hk as (k0 & k1 & k2 & k3 & -> & C0 & C1 & C2 & C3).
  cbn [AddRoundKey] in E. injection E as E0 E1 E2 E3.
  unfold bytes in *.
  f_equal; [|f_equal; [|f_equal; [|f_equal]]].
  - apply (xors_inj _ _ k0); intuition congruence.
  - apply (xors_inj _ _ k1); intuition congruence.
  - apply (xors_inj _ _ k2); intuition congruence.
  - apply (xors_inj _ _ k3); intuition congruence.
Qed.


Lemma Rounds_inj : forall S, (forall x, byte x -> S x = sub x) -> forall key, bytes 32 key -> forall n r s t, wf s -> wf t -> (r + n <= 15)%nat ->
  Rounds S n r (KeyExpansion S key) s = Rounds S n r (KeyExpansion S key) t -> s = t.
Proof.
  intros S idS key H. induction n as [|n IH]; intros r s t Hs Ht Hr E; [exact E|].
  cbn [Rounds] in E.
  destruct (roundKey_ok S idS key r H) as (_ & W); [lia|].
  destruct (round_ok S idS s _ Hs W) as (_ & Ws).
  destruct (round_ok S idS t _ Ht W) as (_ & Wt).
  apply IH in E; [|exact Ws|exact Wt|lia].
  destruct (subBytes_rows S idS s Hs) as (_ & S1). destruct (subBytes_rows S idS t Ht) as (_ & T1).
  destruct (shiftRows_rows _ S1) as (_ & S2). destruct (shiftRows_rows _ T1) as (_ & T2).
  destruct (mixColumns_rows _ S2) as (_ & S3). destruct (mixColumns_rows _ T2) as (_ & T3).
  apply AddRoundKey_inj in E; [|assumption..]. apply MixColumns_inj in E; [|assumption..].
  apply ShiftRows_inj in E; [|assumption..]. apply (SubBytes_inj S idS) in E; assumption.
Qed.

Lemma concat_inj : forall s t, wf s -> wf t -> concat s = concat t -> s = t.
Proof.
  intros s t Hs Ht E. open_state Hs. open_state Ht. cbn [concat app] in E.
  injection E. intros. subst. reflexivity.
Qed.

Definition finish S ws s :=
  concat (AddRoundKey (ShiftRows (SubBytes S (Rounds S 13 1 ws (AddRoundKey s (roundKey ws 0)))))
    (roundKey ws 14)).

Lemma Cipher_finish : forall S key x, Cipher S key x = finish S (KeyExpansion S key) (chunks 4 x).
Proof.
  intros S key x. unfold Cipher, finish. generalize (KeyExpansion S key). intros ws.
  generalize (chunks 4 x). intros s. reflexivity.
Qed.

Lemma finish_eq : forall S ws s, finish S ws s =
  concat (AddRoundKey (ShiftRows (SubBytes S (Rounds S 13 1 ws (AddRoundKey s (roundKey ws 0)))))
    (roundKey ws 14)).
Proof. reflexivity. Qed.

Lemma Cipher_inj : forall S, (forall x, byte x -> S x = sub x) -> forall key x y, bytes 32 key -> bytes 16 x -> bytes 16 y ->
  Cipher S key x = Cipher S key y -> x = y.
Proof.
  intros S idS key x y Hk Hx Hy E.
  rewrite !Cipher_finish, !finish_eq in E.
  destruct (start_rows x Hx) as (_ & X0). destruct (start_rows y Hy) as (_ & Y0).
  destruct (roundKey_ok S idS key 0 Hk) as (_ & K0); [lia|].
  destruct (addRoundKey_rows _ _ X0 K0) as (_ & X1). destruct (addRoundKey_rows _ _ Y0 K0) as (_ & Y1).
  destruct (rounds_ok S idS key Hk 13 1 _ X1) as (_ & X2); [lia|].
  destruct (rounds_ok S idS key Hk 13 1 _ Y1) as (_ & Y2); [lia|].
  destruct (subBytes_rows S idS _ X2) as (_ & X3). destruct (subBytes_rows S idS _ Y2) as (_ & Y3).
  destruct (shiftRows_rows _ X3) as (_ & X4). destruct (shiftRows_rows _ Y3) as (_ & Y4).
  destruct (roundKey_ok S idS key 14 Hk) as (_ & K14); [lia|].
  destruct (addRoundKey_rows _ _ X4 K14) as (_ & X5). destruct (addRoundKey_rows _ _ Y4 K14) as (_ & Y5).
  apply concat_inj in E; [|assumption..].
  apply AddRoundKey_inj in E; [|assumption..].
  apply ShiftRows_inj in E; [|assumption..].
  apply (SubBytes_inj S idS) in E; [|assumption..].
  apply (Rounds_inj S idS key Hk 13 1) in E; [|assumption|assumption|lia].
  apply AddRoundKey_inj in E; [|assumption..].
  destruct (chunks_ok 4 x Hx) as (CX & _). destruct (chunks_ok 4 y Hy) as (CY & _).
  rewrite <- CX, E. exact CY.
Qed.

Lemma encrypt_inj : forall key x y, bytes 32 key -> bytes 16 x -> bytes 16 y ->
  encrypt key x = encrypt key y -> x = y.
Proof.
  assert (H : exists S, forall x, byte x -> S x = sub x) by (exists sub; reflexivity).
  destruct H as (S & HS). intros key x y Hk Hx Hy E.
  rewrite (proj1 (encrypt_cipher S HS key x Hk Hx)), (proj1 (encrypt_cipher S HS key y Hk Hy)) in E.
  exact (Cipher_inj S HS key x y Hk Hx Hy E).
Qed.

(* ------------------------------------------------------------ the counter *)

Fixpoint inc (l : list Z) : list Z :=
  match l with
  | [] => []
  | b :: l => let b' := (b + 1) mod 256 in b' :: (if b' =? 0 then inc l else l)
  end.

Lemma set_app : forall pre b rest x, set_ (pre ++ b :: rest) (length pre) x = pre ++ x :: rest.
Proof.
  intros pre b rest x. unfold set_. rewrite firstn_app, firstn_all, Nat.sub_diag, firstn_O, app_nil_r.
  f_equal. f_equal. rewrite skipn_app.
  replace (S (length pre) - length pre)%nat with 1%nat by lia.
  rewrite skipn_all2 by lia. reflexivity.
Qed.

Lemma at_app : forall pre b rest, at_ (pre ++ b :: rest) (length pre) = b.
Proof.
  intros pre b rest. unfold at_. rewrite app_nth2 by lia. rewrite Nat.sub_diag. reflexivity.
Qed.

Lemma carry_inc : forall rest fuel pre b, (length rest < fuel)%nat ->
  carry fuel (length pre) (pre ++ b :: rest) = pre ++ b :: (if b =? 0 then inc rest else rest).
Proof.
  induction rest as [|c rest IH]; intros fuel pre b Hf; (destruct fuel as [|fuel]; [cbn in Hf; lia|]);
    cbn [carry]; rewrite at_app, app_length; cbn [length].
  - destruct (Z.eqb_spec b 0); cbn [andb]; [|reflexivity].
    destruct (Nat.ltb_spec (length pre + 1) (length pre + 1)); [lia|]. reflexivity.
  - cbn [length] in Hf. destruct (Z.eqb_spec b 0); cbn [andb]; [|reflexivity].
    destruct (Nat.ltb_spec (length pre + 1) (length pre + S (S (length rest)))); [|lia].
    replace (pre ++ b :: c :: rest) with ((pre ++ [b]) ++ c :: rest) by (rewrite <- app_assoc; reflexivity).
    replace (length pre + 1)%nat with (length (pre ++ [b])) by (rewrite app_length; reflexivity).
    unfold incr. rewrite set_app, at_app. rewrite IH by lia.
    rewrite <- app_assoc. reflexivity.
Qed.

Lemma increment_inc : forall iv, (length iv <= 16)%nat -> iv <> [] -> increment iv = inc iv.
Proof.
  intros [|b rest] L N; [congruence|]. unfold increment, incr.
  pose proof (set_app [] b rest ((at_ (b :: rest) 0 + 1) mod 256)) as A. cbn [app length] in A.
  rewrite A. cbn [length] in L. apply (carry_inc rest 16 []). lia.
Qed.

Lemma inc_bytes : forall n l, bytes n l -> bytes n (inc l).
Proof.
  intros n l (L & F). subst n. induction F as [|b l B F IH]; [split; [reflexivity|constructor]|].
  cbn [inc]. destruct IH as (IL & IF).
  assert (byte ((b + 1) mod 256)) by (unfold byte; apply Z.mod_pos_bound; lia).
  destruct ((b + 1) mod 256 =? 0); split; cbn [length]; auto.
Qed.

Lemma value_range : forall l, Forall byte l -> 0 <= value l < 256 ^ Z.of_nat (length l).
Proof.
  intros l F. induction F as [|b l B F IH]; [cbn; lia|].
  cbn [value length]. rewrite Nat2Z.inj_succ, Z.pow_succ_r by lia. unfold byte in B. lia.
Qed.

Lemma value_inc : forall l, Forall byte l ->
  value (inc l) = (value l + 1) mod 256 ^ Z.of_nat (length l).
Proof.
  intros l F. induction F as [|b l B F IH]; [reflexivity|].
  cbn [inc value length]. rewrite Nat2Z.inj_succ, Z.pow_succ_r by lia.
  pose proof (value_range l F) as R.
  set (P := 256 ^ Z.of_nat (length l)) in *. unfold byte in B.
  destruct (Z.eq_dec b 255) as [->|Nb].
  - change ((255 + 1) mod 256) with 0. cbn [Z.eqb]. rewrite IH.
    replace (255 + 256 * value l + 1) with (256 * (value l + 1)) by lia.
    rewrite Z.mul_mod_distr_l by lia. lia.
  - rewrite Z.mod_small by lia. destruct (Z.eqb_spec (b + 1) 0); [lia|].
    rewrite Z.mod_small by lia. lia.
Qed.

Lemma value_inj : forall a b, Forall byte a -> Forall byte b -> length a = length b ->
  value a = value b -> a = b.
Proof.
  induction a as [|x a IH]; intros [|y b] Fa Fb L E; try discriminate; [reflexivity|].
  inversion_clear Fa as [|? ? X Fa']. inversion_clear Fb as [|? ? Y Fb'].
  cbn [value] in E. unfold byte in X, Y.
  assert (x = y) by lia. subst. f_equal. injection L as L. apply IH; auto. lia.
Qed.

Lemma bytes_value : forall x y, bytes 16 x -> bytes 16 y -> (value x = value y <-> x = y).
Proof.
  intros x y (Lx & Fx) (Ly & Fy). split; [|intros ->; reflexivity].
  apply value_inj; [exact Fx|exact Fy|congruence].
Qed.

Lemma increment_ok : forall iv, bytes 16 iv ->
  bytes 16 (increment iv) /\ value (increment iv) = (value iv + 1) mod 2 ^ 128.
Proof.
  intros iv (L & F). rewrite increment_inc; [|lia|intros ->; discriminate].
  split; [apply inc_bytes; split; assumption|].
  rewrite value_inc by exact F. rewrite L. reflexivity.
Qed.

Lemma call_engine : forall g, engine g -> engine (snd (call g)) /\ key (snd (call g)) = key g /\
  value (iv (snd (call g))) = (value (iv g) + 1) mod 2 ^ 128.
Proof.
  intros g (K & I). destruct (increment_ok (iv g) I) as (A & B).
  cbn [call snd key iv]. repeat split; try apply K; try apply A. exact B.
Qed.

Lemma afterCalls_succ : forall n g, afterCalls (N.succ n) g = snd (call (afterCalls n g)).
Proof. intros n g. unfold afterCalls. apply N.iter_succ. Qed.

Lemma afterCalls_ok : forall n g, engine g -> engine (afterCalls n g) /\ key (afterCalls n g) = key g /\
  value (iv (afterCalls n g)) = (value (iv g) + Z.of_N n) mod 2 ^ 128.
Proof.
  intros n g H. induction n as [|n IH] using N.peano_ind.
  - cbn [afterCalls N.iter]. split; [exact H|]. split; [reflexivity|].
    destruct H as (_ & (L & F)). pose proof (value_range _ F) as R. rewrite L in R.
    rewrite Z.add_0_r, Z.mod_small; [reflexivity|]. exact R.
  - rewrite afterCalls_succ. destruct IH as (E & K & V).
    destruct (call_engine _ E) as (E' & K' & V'). split; [exact E'|]. split; [congruence|].
    rewrite V', V, Z.add_mod_idemp_l by (apply Z.pow_nonzero; lia). f_equal. lia.
Qed.

Lemma afterCalls_add : forall n m g, afterCalls (n + m) g = afterCalls n (afterCalls m g).
Proof. intros. unfold afterCalls. apply N.iter_add. Qed.

Lemma block_ok : forall n g, engine g -> bytes 16 (block n g) /\
  value (block n g) = (value (iv g) + Z.of_N n + 1) mod 2 ^ 128.
Proof.
  intros n g H. unfold block. destruct (afterCalls_ok n g H) as (E & _ & V).
  destruct (call_engine _ E) as ((_ & B) & _ & V'). split; [exact B|].
  rewrite V', V, Z.add_mod_idemp_l by (apply Z.pow_nonzero; lia). reflexivity.
Qed.

Lemma mod_eq_shift : forall a n m M, 0 < M -> ((a + n) mod M = (a + m) mod M <-> n mod M = m mod M).
Proof.
  intros a n m M HM. split; intros E.
  - replace n with (a + n - a) by lia. replace m with (a + m - a) by lia.
    rewrite Zminus_mod, E, <- Zminus_mod. reflexivity.
  - rewrite Z.add_mod, E, <- Z.add_mod by lia. reflexivity.
Qed.

Lemma block_eq : forall n m g, engine g ->
  (block n g = block m g <-> (n mod 2 ^ 128 = m mod 2 ^ 128)%N).
Proof.
  intros n m g H. destruct (block_ok n g H) as (Bn & Vn). destruct (block_ok m g H) as (Bm & Vm).
  rewrite <- bytes_value by assumption. rewrite Vn, Vm.
  rewrite <- !(Z.add_assoc (value (iv g))), !(Z.add_comm _ 1), !Z.add_assoc.
  rewrite mod_eq_shift by (apply Z.pow_pos_nonneg; lia).
  change (2 ^ 128) with (Z.of_N (2 ^ 128)). rewrite <- !N2Z.inj_mod. split.
  - apply N2Z.inj.
  - intros ->. reflexivity.
Qed.

Lemma result_block : forall n g, engine g -> result n g = fold64 (encrypt (key g) (block n g)).
Proof.
  intros n g H. unfold result, block. destruct (afterCalls_ok n g H) as (_ & K & _).
  cbn [call fst snd iv]. rewrite K. reflexivity.
Qed.

Lemma encrypted_eq : forall n m g, engine g ->
  (encrypt (key g) (block n g) = encrypt (key g) (block m g) <-> (n mod 2 ^ 128 = m mod 2 ^ 128)%N).
Proof.
  intros n m g H. rewrite <- (block_eq n m g H). split; [|intros ->; reflexivity].
  apply encrypt_inj; [apply H|apply block_ok; exact H|apply block_ok; exact H].
Qed.
