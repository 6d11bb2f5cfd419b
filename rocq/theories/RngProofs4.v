(* The period of xoshiro256** is 2^256 - 1: the step T satisfies T^(2^256-1) = 1
   and T^((2^256-1)/q) + 1 is invertible for every prime factor q.  With
   F_i = 2^(2^i) + 1 the product of F_7 ... F_0 is 2^256 - 1; z_i stands for
   x^(F_7 ... F_(i+1)), c_i for z_i^(2^(2^i)), w_i for c_i / z_i which is
   x^((2^256-1)/F_i), g_q for x^((2^256-1)/q) and h_q for the inverse of
   g_q + 1. The numbers are witnesses, every relation is checked. *)
From Coq Require Import ZArith NArith List Bool Lia.
From Verif Require Import RngModel RngSpec RngProofs RngProofs2.
Import ListNotations.
Open Scope Z_scope.

(* product modulo the polynomial *)
Fixpoint pmul (p q : list bool) : list bool :=
  match p with
  | [] => repeat false 256
  | b :: p => let r := xt (pmul p q) in if b then px q r else r
  end.

Fixpoint ppow (tab : list (list bool)) (p : list bool) (k : positive) : list bool :=
  match k with
  | xH => p
  | xO k => sq tab (ppow tab p k)
  | xI k => pmul p (sq tab (ppow tab p k))
  end.

Definition one : list bool := true :: repeat false 255.

Lemma pmul_length : forall p q, length q = 256%nat -> length (pmul p q) = 256%nat.
Proof.
  intros p q L. induction p as [|b p IH]; [apply repeat_length|].
  cbn [pmul]. destruct b; [rewrite px_length|]; rewrite xt_length by exact IH; [lia|reflexivity].
Qed.

Lemma ev_pmul : forall p q s, valid s -> length q = 256%nat -> ev (pmul p q) s = ev p (ev q s).
Proof.
  intros p q s V L. induction p as [|b p IH]; [apply ev_false|].
  cbn [pmul ev]. rewrite ev_fstep, <- IH.
  destruct b; [rewrite ev_px|rewrite xor_zero_l];
    rewrite ev_xt by (exact V || (apply pmul_length; exact L)); reflexivity.
Qed.

Lemma ev_one : forall s, ev one s = s.
Proof. intros s. unfold one. cbn [ev]. rewrite ev_false. apply xor_zero_r. Qed.

(* p stands for x^e *)
Definition rep (p : list bool) (e : N) : Prop :=
  length p = 256%nat /\ forall s, valid s -> ev p s = after e s.

Lemma rep_x : rep xpoly 1.
Proof.
  split; [reflexivity|]. intros s V. rewrite ev_xpoly. symmetry. apply step_fstep. exact V.
Qed.

Lemma rep_mul : forall p q e f, rep p e -> rep q f -> rep (pmul p q) (e + f).
Proof.
  intros p q e f (Lp & P) (Lq & Q). split; [apply pmul_length; exact Lq|].
  intros s V. rewrite ev_pmul by assumption. rewrite Q by exact V.
  rewrite P by (apply after_valid; exact V). symmetry. apply after_add.
Qed.

Lemma rep_sq : forall p e, rep p e -> rep (sq (powers 128 mlow) p) (e + e).
Proof.
  intros p e (L & P). split; [apply sq_length; exact L|].
  intros s V. rewrite ev_sq by assumption. rewrite (P s) by exact V.
  rewrite P by (apply after_valid; exact V). symmetry. apply after_add.
Qed.

Lemma rep_ext : forall p e f, rep p e -> e = f -> rep p f.
Proof. intros p e f R <-. exact R. Qed.

Lemma rep_pow : forall p e k, rep p e -> rep (ppow (powers 128 mlow) p k) (e * N.pos k).
Proof.
  intros p e k R. induction k as [k IH|k IH|]; cbn [ppow].
  - eapply rep_ext; [apply rep_mul; [exact R|apply rep_sq; exact IH]|]. lia.
  - eapply rep_ext; [apply rep_sq; exact IH|]. lia.
  - eapply rep_ext; [exact R|]. lia.
Qed.

Lemma rep_iter : forall p e n, rep p e ->
  rep (Nat.iter n (sq (powers 128 mlow)) p) (e * 2 ^ N.of_nat n).
Proof.
  intros p e n R. induction n as [|n IH].
  - eapply rep_ext; [exact R|]. cbn. lia.
  - eapply rep_ext; [apply rep_sq; exact IH|]. rewrite Nat2N.inj_succ, N.pow_succ_r'. lia.
Qed.

Lemma rep_div : forall z w e f, length w = 256%nat -> rep z e -> rep (pmul w z) (e + f) -> rep w f.
Proof.
  intros z w e f L (Lz & Z) (Lc & C). split; [exact L|].
  intros s V. destruct (after_surj e s V) as (t & Vt & <-).
  rewrite <- Z by exact Vt. rewrite <- ev_pmul by assumption.
  rewrite C by exact Vt. rewrite Z by exact Vt. rewrite N.add_comm. apply after_add.
Qed.

(* one level of the chain *)
Definition level (n : nat) (z c w z' : list bool) : bool :=
  boolsEqb (Nat.iter n (sq (powers 128 mlow)) z) c && boolsEqb (pmul w z) c &&
  boolsEqb (pmul z c) z' && (length w =? 256)%nat.

Lemma level_ok : forall n z c w z' e f e', level n z c w z' = true -> rep z e ->
  (e + f = e * 2 ^ N.of_nat n -> e + e * 2 ^ N.of_nat n = e' -> rep w f /\ rep z' e')%N.
Proof.
  intros n z c w z' e f e' H R Ef Ee. unfold level in H.
  rewrite !andb_true_iff, Nat.eqb_eq in H. destruct H as (((A & B) & C) & L).
  apply boolsEqb_eq in A, B, C.
  assert (Rc : rep c (e * 2 ^ N.of_nat n)) by (rewrite <- A; apply rep_iter; exact R).
  split.
  - apply (rep_div z w e); [exact L|exact R|]. rewrite B, Ef. exact Rc.
  - rewrite <- C, <- Ee. apply rep_mul; assumption.
Qed.

(* a power of the step without fixed points *)
Definition moves (e : N) : Prop := forall s, valid s -> after e s = s -> s = zero.

Definition witness (w : list bool) (k : positive) (h : list bool) : bool :=
  boolsEqb (pmul h (px (ppow (powers 128 mlow) w k) one)) one.

Lemma witness_ok : forall w k h f e, witness w k h = true -> rep w f ->
  (f * N.pos k = e)%N -> moves e.
Proof.
  intros w k h f e H R E s V F. unfold witness in H. apply boolsEqb_eq in H.
  destruct (rep_pow w f k R) as (L & P).
  apply (f_equal (fun p => ev p s)) in H. rewrite ev_pmul in H.
  - rewrite ev_px, !ev_one, P, E, F, xor_self, ev_zero in H by exact V. symmetry. exact H.
  - exact V.
  - rewrite px_length, L. reflexivity.
Qed.

Definition N256 : N := 2 ^ 256 - 1.

Definition z7 : list bool := xpoly.
Definition c7 : list bool :=
  Eval vm_compute in bitsOf 256 0x39abdc4529b1661ca9582618e03fc9aad5a61266f0c9392c180ec6d33cfd0aba.
Definition w7 : list bool :=
  Eval vm_compute in bitsOf 256 0x1cd5ee2294d8b30e54ac130c701fe4d56ad3093378649c960c0763699e7e855d.
Definition z6 : list bool :=
  Eval vm_compute in bitsOf 256 0x7357b88a5362cc3952b04c31c07f9355ab4c24cde1927258301d8da679fa1574.
Definition c6 : list bool :=
  Eval vm_compute in bitsOf 256 0x158c6a3fcdb1b9ddb01b0802f640bd421310f9a324bffeb16b5f0de6ed5adbcf.
Definition w6 : list bool :=
  Eval vm_compute in bitsOf 256 0xea589bac321fb9a794f89aadd3a130f660161370fcd087627a75d0283f485e6e.
Definition z5 : list bool :=
  Eval vm_compute in bitsOf 256 0x2ccb0c39650b443263c054f9fe32fbaac792b030bd6c5d645687d3d06e01eedc.
Definition c5 : list bool :=
  Eval vm_compute in bitsOf 256 0x8ea8074a611f4ced1fd456af7679380bf31155617e0f638bf27c5f463e4dbfc1.
Definition w5 : list bool :=
  Eval vm_compute in bitsOf 256 0x37fe0ecb0317f607575a66162420831f3d8c828694542642752abdbad5939599.
Definition z4 : list bool :=
  Eval vm_compute in bitsOf 256 0x2a98965e9cc7a32e9b3c6895a0d4409bd3f0f32ff0795458fcf2f5e3c2e8de96.
Definition c4 : list bool :=
  Eval vm_compute in bitsOf 256 0xdb8349df0a525530f958cda0017f4991f9438a91014f8a3c470fb9e02e7fa255.
Definition w4 : list bool :=
  Eval vm_compute in bitsOf 256 0xb676779c1ec18ee71ca799db6f5623d0f6f65e508c7029e05dafe16943ddddf8.
Definition z3 : list bool :=
  Eval vm_compute in bitsOf 256 0x64af5832851e53068eb1596206fe8aa365bb30e5c4a617734bed7cfdeeb096a1.
Definition c3 : list bool :=
  Eval vm_compute in bitsOf 256 0x543b010a5f38e0838d7c371fab914c527df0c6de6fa15516649c982e0bc2b105.
Definition w3 : list bool :=
  Eval vm_compute in bitsOf 256 0xfdb7756e6ac858fd6732aab4918d7df125c6c922eca444e8a2a0bb43afdb4f25.
Definition z2 : list bool :=
  Eval vm_compute in bitsOf 256 0x4f83e15a82b45412bc447bed397f61060e5d146095fc7d792adbde268be952b4.
Definition c2 : list bool :=
  Eval vm_compute in bitsOf 256 0x12e43a874b6b05be0b5c556f614e185082a88b105afa0ce7a054e5faf8b4fd28.
Definition w2 : list bool :=
  Eval vm_compute in bitsOf 256 0x90269340057d7ee7eb21d977cf20f3dc38da22c5375471f2a0a830a7ef328ee9.
Definition z1 : list bool :=
  Eval vm_compute in bitsOf 256 0x9b17f5767b72e1a3c673d4c3e369b20235e972559753b37fdedc95dc103781f.
Definition c1 : list bool :=
  Eval vm_compute in bitsOf 256 0x9b17f5767b72e1a3c673d4c3e369b20235e972559753b37fdedc95dc103781e.
Definition w1 : list bool :=
  Eval vm_compute in bitsOf 256 0x6ec9cd129895d052616a564f042be5956a2075f39c3d432635ad7e8b44cbcdcd.
Definition z0 : list bool :=
  Eval vm_compute in bitsOf 256 0x54d6a48aae687fb68b7f13ce6607e276afab085596734aa97762f281b25ed783.
Definition c0 : list bool :=
  Eval vm_compute in bitsOf 256 0x54d6a48aae687fb68b7f13ce6607e276afab085596734aa97762f281b25ed782.
Definition w0 : list bool :=
  Eval vm_compute in bitsOf 256 0x54d6a48aae687fb68b7f13ce6607e276afab085596734aa97762f281b25ed783.
Definition h59649589127497217 : list bool :=
  Eval vm_compute in bitsOf 256 0x2b0b5d0e0d5dcbfd343a0c7c13920e58856efc82f8b6f3e99a6368bb225afce6.
Definition h5704689200685129054721 : list bool :=
  Eval vm_compute in bitsOf 256 0xca8fcba3c0dd08871d4e3f7290e3e7fb8436109b90a55fd4bc6fe9d31b611e5.
Definition h274177 : list bool :=
  Eval vm_compute in bitsOf 256 0x24d5461cfd63732f63b6b60adc840b312db07c0c8c7b46872d3955d70f9e6ac5.
Definition h67280421310721 : list bool :=
  Eval vm_compute in bitsOf 256 0xc3bc6f4888606c0bfb4a6ce96aa43d28506b49c1c962aba2928641dd24af8cf8.
Definition h641 : list bool :=
  Eval vm_compute in bitsOf 256 0x56ced9120f236c15fdd49ed161d46abc0269afa58693de573c5dcc0645c4b0ff.
Definition h6700417 : list bool :=
  Eval vm_compute in bitsOf 256 0x1c10854fe79f6066b6b1fe5c68be2282e701b5777ef01c8fd5b0ea5458d18c36.
Definition h65537 : list bool :=
  Eval vm_compute in bitsOf 256 0x5b7382b05dc5a20686e618650a39fab806017ce589bb2d98cf9b5a05139e793f.
Definition h257 : list bool :=
  Eval vm_compute in bitsOf 256 0x618e9a9a97b4105e9870464ee696824b10a336ec58f59159b1165cabfe23cd76.
Definition h17 : list bool :=
  Eval vm_compute in bitsOf 256 0xf4646ef27133b2d46393a4c40448d75b8f3adcab0a20793ef8bb26f5b81e7ecf.
Definition h5 : list bool :=
  Eval vm_compute in bitsOf 256 0x9b17f5767b72e1a3c673d4c3e369b20235e972559753b37fdedc95dc103781f.
Definition h3 : list bool :=
  Eval vm_compute in bitsOf 256 0x54d6a48aae687fb68b7f13ce6607e276afab085596734aa97762f281b25ed783.

Lemma level7 : level 128 z7 c7 w7 z6 = true.
Proof. vm_compute. reflexivity. Qed.

Lemma level6 : level 64 z6 c6 w6 z5 = true.
Proof. vm_compute. reflexivity. Qed.

Lemma level5 : level 32 z5 c5 w5 z4 = true.
Proof. vm_compute. reflexivity. Qed.

Lemma level4 : level 16 z4 c4 w4 z3 = true.
Proof. vm_compute. reflexivity. Qed.

Lemma level3 : level 8 z3 c3 w3 z2 = true.
Proof. vm_compute. reflexivity. Qed.

Lemma level2 : level 4 z2 c2 w2 z1 = true.
Proof. vm_compute. reflexivity. Qed.

Lemma level1 : level 2 z1 c1 w1 z0 = true.
Proof. vm_compute. reflexivity. Qed.

Lemma level0 : level 1 z0 c0 w0 one = true.
Proof. vm_compute. reflexivity. Qed.

Lemma witness59649589127497217 : witness w7 5704689200685129054721 h59649589127497217 = true.
Proof. vm_compute. reflexivity. Qed.

Lemma witness5704689200685129054721 : witness w7 59649589127497217 h5704689200685129054721 = true.
Proof. vm_compute. reflexivity. Qed.

Lemma witness274177 : witness w6 67280421310721 h274177 = true.
Proof. vm_compute. reflexivity. Qed.

Lemma witness67280421310721 : witness w6 274177 h67280421310721 = true.
Proof. vm_compute. reflexivity. Qed.

Lemma witness641 : witness w5 6700417 h641 = true.
Proof. vm_compute. reflexivity. Qed.

Lemma witness6700417 : witness w5 641 h6700417 = true.
Proof. vm_compute. reflexivity. Qed.

Lemma witness65537 : witness w4 1 h65537 = true.
Proof. vm_compute. reflexivity. Qed.

Lemma witness257 : witness w3 1 h257 = true.
Proof. vm_compute. reflexivity. Qed.

Lemma witness17 : witness w2 1 h17 = true.
Proof. vm_compute. reflexivity. Qed.

Lemma witness5 : witness w1 1 h5 = true.
Proof. vm_compute. reflexivity. Qed.

Lemma witness3 : witness w0 1 h3 = true.
Proof. vm_compute. reflexivity. Qed.

Lemma rep7 : rep w7 (N256 / 340282366920938463463374607431768211457) /\ rep z6 340282366920938463463374607431768211457.
Proof.
  apply (level_ok 128 z7 c7 w7 z6 1); [exact level7|exact rep_x|reflexivity|reflexivity].
Qed.

Lemma rep6 : rep w6 (N256 / 18446744073709551617) /\ rep z5 6277101735386680764176071790128604879584176795969512275969.
Proof.
  apply (level_ok 64 z6 c6 w6 z5 340282366920938463463374607431768211457); [exact level6|exact (proj2 rep7)|reflexivity|reflexivity].
Qed.

Lemma rep5 : rep w5 (N256 / 4294967297) /\ rep z4 26959946673427741531515197488526605382048662297355296634326893985793.
Proof.
  apply (level_ok 32 z5 c5 w5 z4 6277101735386680764176071790128604879584176795969512275969); [exact level5|exact (proj2 rep6)|reflexivity|reflexivity].
Qed.

Lemma rep4 : rep w4 (N256 / 65537) /\ rep z3 1766874025136433896750911497805568136923323180981774075523881651146915841.
Proof.
  apply (level_ok 16 z4 c4 w4 z3 26959946673427741531515197488526605382048662297355296634326893985793); [exact level4|exact (proj2 rep5)|reflexivity|reflexivity].
Qed.

Lemma rep3 : rep w3 (N256 / 257) /\ rep z2 454086624460063511464984254936031011189294057512315937409637584344757371137.
Proof.
  apply (level_ok 8 z3 c3 w3 z2 1766874025136433896750911497805568136923323180981774075523881651146915841); [exact level3|exact (proj2 rep4)|reflexivity|reflexivity].
Qed.

Lemma rep2 : rep w2 (N256 / 17) /\ rep z1 7719472615821079694904732333912527190217998977709370935963838933860875309329.
Proof.
  apply (level_ok 4 z2 c2 w2 z1 454086624460063511464984254936031011189294057512315937409637584344757371137); [exact level2|exact (proj2 rep3)|reflexivity|reflexivity].
Qed.

Lemma rep1 : rep w1 (N256 / 5) /\ rep z0 38597363079105398474523661669562635951089994888546854679819194669304376546645.
Proof.
  apply (level_ok 2 z1 c1 w1 z0 7719472615821079694904732333912527190217998977709370935963838933860875309329); [exact level1|exact (proj2 rep2)|reflexivity|reflexivity].
Qed.

Lemma rep0 : rep w0 (N256 / 3) /\ rep one N256.
Proof.
  apply (level_ok 1 z0 c0 w0 one 38597363079105398474523661669562635951089994888546854679819194669304376546645); [exact level0|exact (proj2 rep1)|reflexivity|reflexivity].
Qed.

Lemma moves59649589127497217 : moves (N256 / 59649589127497217).
Proof.
  apply (witness_ok w7 5704689200685129054721 h59649589127497217 (N256 / 340282366920938463463374607431768211457)); [exact witness59649589127497217|exact (proj1 rep7)|reflexivity].
Qed.

Lemma moves5704689200685129054721 : moves (N256 / 5704689200685129054721).
Proof.
  apply (witness_ok w7 59649589127497217 h5704689200685129054721 (N256 / 340282366920938463463374607431768211457)); [exact witness5704689200685129054721|exact (proj1 rep7)|reflexivity].
Qed.

Lemma moves274177 : moves (N256 / 274177).
Proof.
  apply (witness_ok w6 67280421310721 h274177 (N256 / 18446744073709551617)); [exact witness274177|exact (proj1 rep6)|reflexivity].
Qed.

Lemma moves67280421310721 : moves (N256 / 67280421310721).
Proof.
  apply (witness_ok w6 274177 h67280421310721 (N256 / 18446744073709551617)); [exact witness67280421310721|exact (proj1 rep6)|reflexivity].
Qed.

Lemma moves641 : moves (N256 / 641).
Proof.
  apply (witness_ok w5 6700417 h641 (N256 / 4294967297)); [exact witness641|exact (proj1 rep5)|reflexivity].
Qed.

Lemma moves6700417 : moves (N256 / 6700417).
Proof.
  apply (witness_ok w5 641 h6700417 (N256 / 4294967297)); [exact witness6700417|exact (proj1 rep5)|reflexivity].
Qed.

Lemma moves65537 : moves (N256 / 65537).
Proof.
  apply (witness_ok w4 1 h65537 (N256 / 65537)); [exact witness65537|exact (proj1 rep4)|reflexivity].
Qed.

Lemma moves257 : moves (N256 / 257).
Proof.
  apply (witness_ok w3 1 h257 (N256 / 257)); [exact witness257|exact (proj1 rep3)|reflexivity].
Qed.

Lemma moves17 : moves (N256 / 17).
Proof.
  apply (witness_ok w2 1 h17 (N256 / 17)); [exact witness17|exact (proj1 rep2)|reflexivity].
Qed.

Lemma moves5 : moves (N256 / 5).
Proof.
  apply (witness_ok w1 1 h5 (N256 / 5)); [exact witness5|exact (proj1 rep1)|reflexivity].
Qed.

Lemma moves3 : moves (N256 / 3).
Proof.
  apply (witness_ok w0 1 h3 (N256 / 3)); [exact witness3|exact (proj1 rep0)|reflexivity].
Qed.

Lemma after_period : forall s, valid s -> after N256 s = s.
Proof.
  intros s V. rewrite <- (proj2 (proj2 rep0) s V). apply ev_one.
Qed.
