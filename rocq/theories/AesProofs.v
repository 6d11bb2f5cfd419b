(* Proof that the cipher of secure_rng.h is AES-256 of FIPS 197. *)
From Coq Require Import ZArith List Bool Lia.
From Verif Require Import AesModel AesSpec.
Import ListNotations.
Open Scope Z_scope.

(* --------------------------------------------------------------- bytes *)

Definition allBytes : list Z := map Z.of_nat (seq 0 256).

Lemma for_bytes : forall P : Z -> bool, forallb P allBytes = true ->
  forall x, byte x -> P x = true.
Proof.
  intros P H x (L & U). rewrite forallb_forall in H. apply H. unfold allBytes.
  apply in_map_iff. exists (Z.to_nat x). split; [lia|]. apply in_seq. lia.
Qed.

Lemma byte_bits : forall x n, byte x -> 8 <= n -> Z.testbit x n = false.
Proof.
  intros x n (H0 & H) Hn.
  destruct (Z.eq_dec x 0) as [->|E]; [apply Z.bits_0|].
  apply Z.bits_above_log2; [lia|].
  apply Z.lt_le_trans with 8; [|exact Hn].
  apply Z.log2_lt_pow2; [lia|]. exact H.
Qed.

Lemma bits_byte : forall x, 0 <= x -> (forall n, 8 <= n -> Z.testbit x n = false) -> byte x.
Proof.
  intros x H0 H. split; [exact H0|].
  destruct (Z.eq_dec x 0) as [->|E]; [lia|].
  change 256 with (2 ^ 8). apply Z.log2_lt_pow2; [lia|].
  destruct (Z_lt_le_dec (Z.log2 x) 8) as [L|L]; [exact L|].
  specialize (H _ L). rewrite Z.bit_log2 in H; [discriminate|lia].
Qed.

Lemma byte_xor : forall x y, byte x -> byte y -> byte (Z.lxor x y).
Proof.
  intros x y Hx Hy. apply bits_byte.
  - apply Z.lxor_nonneg. unfold byte in *. lia.
  - intros n Hn. rewrite Z.lxor_spec, !byte_bits by assumption. reflexivity.
Qed.

Lemma byte_0 : byte 0.
Proof. unfold byte. lia. Qed.

(* ------------------------------------------------------------ linearity *)

Ltac bools := repeat match goal with |- context [Z.testbit ?x ?n] => destruct (Z.testbit x n) end;
  try reflexivity.
Ltac xbits := apply Z.bits_inj'; let n := fresh "n" in let H := fresh "Hn" in intros n H;
  rewrite ?Z.lxor_spec, ?Z.bits_0; bools.

Lemma dbl : forall x, 2 * x = Z.shiftl x 1.
Proof. intros x. rewrite Z.shiftl_mul_pow2 by lia. lia. Qed.

Lemma xtime_xor : forall a b, xtime (Z.lxor a b) = Z.lxor (xtime a) (xtime b).
Proof.
  intros a b. unfold xtime. rewrite Z.lxor_spec.
  replace (Z.land (2 * Z.lxor a b) 255) with (Z.lxor (Z.land (2 * a) 255) (Z.land (2 * b) 255)).
  - destruct (Z.testbit a 7), (Z.testbit b 7); cbn [xorb]; xbits.
  - rewrite !dbl, Z.shiftl_lxor.
    apply Z.bits_inj'. intros n Hn. rewrite !Z.lxor_spec, !Z.land_spec, Z.lxor_spec.
    destruct (Z.testbit 255 n); bools.
Qed.

Lemma gmul_xor : forall n a x y, gmul n a (Z.lxor x y) = Z.lxor (gmul n a x) (gmul n a y).
Proof.
  induction n as [|n IH]; intros a x y; [reflexivity|].
  cbn [gmul]. rewrite xtime_xor, IH. destruct (Z.odd a); xbits.
Qed.

Lemma mul_xor : forall a x y, mul a (Z.lxor x y) = Z.lxor (mul a x) (mul a y).
Proof. intros. apply gmul_xor. Qed.

Lemma xtime_byte : forall x, byte (xtime x).
Proof.
  intros x. unfold xtime. apply byte_xor.
  - apply bits_byte; [apply Z.land_nonneg; lia|].
    intros n Hn. rewrite Z.land_spec, (byte_bits 255) by (unfold byte; lia). apply andb_false_r.
  - destruct (Z.testbit x 7); unfold byte; lia.
Qed.

Lemma gmul_byte : forall n a x, byte x -> byte (gmul n a x).
Proof.
  induction n as [|n IH]; intros a x H; [apply byte_0|].
  cbn [gmul]. apply byte_xor; [destruct (Z.odd a); [exact H|apply byte_0]|].
  apply IH. apply xtime_byte.
Qed.

Lemma mul_byte : forall a x, byte x -> byte (mul a x).
Proof. intros. apply gmul_byte. assumption. Qed.

(* a byte is the xor of its bits *)
Lemma byte_ind : forall P : Z -> Prop, P 0 -> (forall k, 0 <= k < 8 -> P (2 ^ k)) ->
  (forall x y, byte x -> byte y -> P x -> P y -> P (Z.lxor x y)) -> forall x, byte x -> P x.
Proof.
  intros P P0 P2 PX.
  assert (G : forall n, (n <= 8)%nat -> forall x, 0 <= x < 2 ^ Z.of_nat n -> P x).
  { induction n as [|n IH]; intros Hn x Hx.
    - change (2 ^ Z.of_nat 0) with 1 in Hx. replace x with 0 by lia. exact P0.
    - destruct (Z_lt_le_dec x (2 ^ Z.of_nat n)) as [L|L]; [apply IH; lia|].
      rewrite Nat2Z.inj_succ, Z.pow_succ_r in Hx by lia.
      assert (B : 2 ^ Z.of_nat n <= 2 ^ 7) by (apply Z.pow_le_mono_r; lia).
      change (2 ^ 7) with 128 in B.
      assert (E : x = Z.lxor (2 ^ Z.of_nat n) (x - 2 ^ Z.of_nat n)).
      { rewrite <- Z.add_nocarry_lxor; [lia|].
        apply Z.bits_inj'. intros k Hk. rewrite Z.land_spec, Z.bits_0.
        rewrite Z.pow2_bits_eqb by lia. destruct (Z.eqb_spec (Z.of_nat n) k) as [<-|]; [|reflexivity].
        cbn [andb]. destruct (Z.eq_dec (x - 2 ^ Z.of_nat n) 0) as [->|]; [apply Z.bits_0|].
        apply Z.bits_above_log2; [lia|]. apply Z.log2_lt_pow2; lia. }
      rewrite E. apply PX; [unfold byte; lia|unfold byte; lia|apply P2; lia|apply IH; lia]. }
  intros x Hx. apply (G 8%nat); [lia|]. exact Hx.
Qed.

(* ------------------------------------------------------------- the S-box *)

Lemma sub_byte : forall x, byte x -> byte (sub x).
Proof.
  intros x H.
  assert (E : (0 <=? sub x) && (sub x <? 256) = true).
  { apply (for_bytes (fun x => (0 <=? sub x) && (sub x <? 256))); [vm_compute; reflexivity|exact H]. }
  apply andb_true_iff in E. unfold byte. lia.
Qed.

(* the inverse in GF(2^8), x^254 *)
Definition inv (x : Z) : Z :=
  let x2 := mul x x in let x3 := mul x2 x in let x6 := mul x3 x3 in let x12 := mul x6 x6 in
  let x15 := mul x12 x3 in let x30 := mul x15 x15 in let x60 := mul x30 x30 in
  let x120 := mul x60 x60 in let x126 := mul x120 x6 in let x127 := mul x126 x in mul x127 x127.

Definition sboxTest (f g : Z -> Z) (x : Z) : bool :=
  let i := f x in
  (0 <=? i) && (i <? 256) && ((x =? 0) && (i =? 0) || (mul x i =? 1)) &&
  forallb (fun k => Bool.eqb (Z.testbit (g x) k) (affineBit i k)) [0; 1; 2; 3; 4; 5; 6; 7].

Lemma sboxTest_ok : forall f g x, byte (g x) -> sboxTest f g x = true -> sboxed x (g x).
Proof.
  intros f g x G T. split; [exact G|]. unfold sboxTest in T.
  rewrite !andb_true_iff, orb_true_iff, andb_true_iff, !Z.eqb_eq, forallb_forall in T.
  destruct T as (((A & B) & C) & D).
  exists (f x). split.
  - split; [unfold byte; lia|]. exact C.
  - intros k Hk. apply eqb_prop. apply D. cbn [In]. lia.
Qed.

Lemma sboxTests : forallb (sboxTest inv sub) allBytes = true.
Proof. vm_compute. reflexivity. Qed.

Lemma sub_sboxed : forall x, byte x -> sboxed x (sub x).
Proof.
  intros x H. apply (sboxTest_ok inv); [apply sub_byte; exact H|].
  exact (for_bytes _ sboxTests x H).
Qed.

(* inverses are unique *)
Definition unmulTest (f : Z -> Z) (x : Z) : bool :=
  (x =? 0) || forallb (fun k => mul (f x) (mul x (2 ^ k)) =? 2 ^ k) [0; 1; 2; 3; 4; 5; 6; 7].

Lemma unmulTest_ok : forall f x k, unmulTest f x = true -> x <> 0 -> 0 <= k < 8 ->
  mul (f x) (mul x (2 ^ k)) = 2 ^ k.
Proof.
  intros f x k T Nx Hk. unfold unmulTest in T.
  apply orb_true_iff in T. destruct T as [T|T]; [lia|].
  rewrite forallb_forall in T. apply Z.eqb_eq. apply (T k). cbn [In]. lia.
Qed.

Lemma unmulTests : forallb (unmulTest inv) allBytes = true.
Proof. vm_compute. reflexivity. Qed.

Lemma mul_0_r : forall n a, gmul n a 0 = 0.
Proof.
  induction n as [|n IH]; intros a; [reflexivity|]. cbn [gmul]. change (xtime 0) with 0.
  rewrite IH. destruct (Z.odd a); reflexivity.
Qed.

Lemma unmul : forall x y, byte x -> x <> 0 -> byte y -> mul (inv x) (mul x y) = y.
Proof.
  intros x y Hx Nx Hy. revert y Hy. apply byte_ind.
  - unfold mul. rewrite !mul_0_r. reflexivity.
  - intros k Hk. apply unmulTest_ok; [|exact Nx|exact Hk].
    exact (for_bytes _ unmulTests x Hx).
  - intros a b _ _ A B. rewrite !mul_xor, A, B. reflexivity.
Qed.

Lemma gmul_0_l : forall n b, gmul n 0 b = 0.
Proof. induction n as [|n IH]; intros b; [reflexivity|]. cbn [gmul]. apply IH. Qed.

Lemma inverse_unique : forall x i j, byte x -> inverse x i -> inverse x j -> i = j.
Proof.
  intros x i j Hx (Bi & I) (Bj & J).
  destruct (Z.eq_dec x 0) as [->|Nx].
  - unfold mul in I, J. rewrite gmul_0_l in I, J. lia.
  - destruct I as [(I & _)|I]; [contradiction|]. destruct J as [(J & _)|J]; [contradiction|].
    rewrite <- (unmul x i), <- (unmul x j) by assumption. rewrite I, J. reflexivity.
Qed.

Lemma sboxed_unique : forall x y z, byte x -> sboxed x y -> sboxed x z -> y = z.
Proof.
  intros x y z Hx (By & i & Ii & Y) (Bz & j & Ij & Z).
  rewrite (inverse_unique x i j Hx Ii Ij) in Y.
  apply Z.bits_inj'. intros n Hn. destruct (Z_lt_le_dec n 8) as [L|L].
  - rewrite Y, Z by lia. reflexivity.
  - rewrite !byte_bits by assumption. reflexivity.
Qed.

(* ----------------------------------------------------- the other tables *)

Lemma table_ok : forall c x, In c [2; 3; 9; 11; 13; 14] -> byte x ->
  at_ (nth (Z.to_nat c) GF_MUL_TABLE []) (Z.to_nat x) = mul c x.
Proof.
  intros c x Hc Hx. apply Z.eqb_eq.
  revert x Hx. apply for_bytes. cbn [In] in Hc.
  destruct Hc as [<-|[<-|[<-|[<-|[<-|[<-|[]]]]]]]; vm_compute; reflexivity.
Qed.

(* ------------------------------------------------ the state as columns *)

Definition wf (s : list (list Z)) : Prop := length s = 4%nat /\ Forall (bytes 4) s.

Lemma bytes_4 : forall w, bytes 4 w -> exists a b c d, w = [a; b; c; d] /\
  byte a /\ byte b /\ byte c /\ byte d.
Proof.
  intros [|a [|b [|c [|d [|? ?]]]]] (L & F); try discriminate.
  inversion_clear F as [|? ? A F1]. inversion_clear F1 as [|? ? B F2].
  inversion_clear F2 as [|? ? C F3]. inversion_clear F3 as [|? ? D _].
  exists a, b, c, d. auto.
Qed.

Lemma wf_4 : forall s, wf s -> exists p q r t, s = [p; q; r; t] /\
  bytes 4 p /\ bytes 4 q /\ bytes 4 r /\ bytes 4 t.
Proof.
  intros [|a [|b [|c [|d [|? ?]]]]] (L & F); try discriminate.
  inversion_clear F as [|? ? A F1]. inversion_clear F1 as [|? ? B F2].
  inversion_clear F2 as [|? ? C F3]. inversion_clear F3 as [|? ? D _].
  exists a, b, c, d. auto.
Qed.

Ltac open_word H := apply bytes_4 in H;
  let a := fresh "a" in let b := fresh "b" in let c := fresh "c" in let d := fresh "d" in
  destruct H as (a & b & c & d & -> & ? & ? & ? & ?).

Ltac open_state H := apply wf_4 in H;
  let p := fresh "p" in let q := fresh "q" in let r := fresh "r" in let t := fresh "t" in
  let Hp := fresh "Hp" in let Hq := fresh "Hq" in let Hr := fresh "Hr" in let Ht := fresh "Ht" in
  destruct H as (p & q & r & t & -> & Hp & Hq & Hr & Ht);
  open_word Hp; open_word Hq; open_word Hr; open_word Ht.

Lemma mk_bytes_4 : forall a b c d, byte a -> byte b -> byte c -> byte d -> bytes 4 [a; b; c; d].
Proof. intros. split; [reflexivity|]. auto. Qed.

Lemma mk_wf : forall p q r t, bytes 4 p -> bytes 4 q -> bytes 4 r -> bytes 4 t -> wf [p; q; r; t].
Proof. intros. split; [reflexivity|]. auto. Qed.

(* the array state[i][j] of the columns s *)
Definition rows (s : list (list Z)) : list (list Z) := smake (fun i j => nth i (nth j s []) 0).

Section Refine.
Variable S : Z -> Z.
Hypothesis S_sub : forall x, byte x -> S x = sub x.

Lemma S_byte : forall x, byte x -> byte (S x).
Proof. intros x H. rewrite S_sub by exact H. apply sub_byte. exact H. Qed.

Lemma subBytes_rows : forall s, wf s -> subBytes (rows s) = rows (SubBytes S s) /\ wf (SubBytes S s).
Proof.
  intros s H. open_state H. split.
  - unfold SubBytes. cbn [map]. rewrite !S_sub by assumption. reflexivity.
  - unfold SubBytes. cbn [map]. apply mk_wf; apply mk_bytes_4; apply S_byte; assumption.
Qed.

Lemma shiftRows_rows : forall s, wf s -> shiftRows (rows s) = rows (ShiftRows s) /\ wf (ShiftRows s).
Proof.
  intros s H. open_state H. split; [reflexivity|].
  cbn. apply mk_wf; apply mk_bytes_4; assumption.
Qed.

Lemma mul_1 : forall x, byte x -> mul 1 x = x.
Proof.
  intros x H. apply Z.eqb_eq. revert x H. apply for_bytes. vm_compute. reflexivity.
Qed.

Lemma mixTerm_eq : forall s i j k, (i < 4)%nat -> (k < 4)%nat -> byte (sget s k j) ->
  mixTerm s i j k = mul (sget CMDS i k) (sget s k j).
Proof.
  intros s i j k Hi Hk H. unfold mixTerm.
  assert (C : In (sget CMDS i k) [1; 2; 3]).
  { do 4 (destruct i as [|i]; [do 4 (destruct k as [|k]; [cbn; auto|]); lia|]). lia. }
  set (c := sget CMDS i k) in *. clearbody c. cbn [In] in C.
  destruct C as [C|C].
  - rewrite <- C. cbn [Z.eqb Pos.eqb]. symmetry. apply mul_1. exact H.
  - destruct (Z.eqb_spec c 1) as [E|_]; [lia|].
    apply table_ok; [|exact H]. cbn [In] in *. tauto.
Qed.

Lemma list4_eq : forall (A : Type) (a b c d a' b' c' d' : A), a = a' -> b = b' -> c = c' -> d = d' ->
  [a; b; c; d] = [a'; b'; c'; d'].
Proof. intros; subst; reflexivity. Qed.

Lemma mixColumns_rows : forall s, wf s -> mixColumns (rows s) = rows (MixColumns s) /\ wf (MixColumns s).
Proof.
  intros s H. open_state H. split.
  - match goal with |- mixColumns (rows ?s) = _ => set (u := s) end.
    assert (B : forall k j, (k < 4)%nat -> (j < 4)%nat -> byte (sget (rows u) k j)).
    { intros k j Hk Hj.
      do 4 (destruct k as [|k]; [do 4 (destruct j as [|j]; [assumption|]); lia|]). lia. }
    unfold mixColumns. unfold smake at 1. unfold seq, map, fold_left.
    rewrite !mixTerm_eq by (try apply B; lia).
    unfold rows, MixColumns, smake. subst u. unfold map, seq, mixColumn.
    apply list4_eq; apply list4_eq; cbv [sget at_ rows smake map seq nth CMDS];
      rewrite ?mul_1 by assumption; rewrite Z.lxor_0_l, !Z.lxor_assoc; reflexivity.
  - unfold MixColumns. cbn [map]. unfold mixColumn.
    apply mk_wf; apply mk_bytes_4; auto 10 using byte_xor, mul_byte.
Qed.

Lemma xors_bytes : forall a b, bytes 4 a -> bytes 4 b -> bytes 4 (xors a b).
Proof.
  intros a b Ha Hb. open_word Ha. open_word Hb. cbn [xors].
  apply mk_bytes_4; auto using byte_xor.
Qed.

Lemma addRoundKey_rows : forall s k, wf s -> wf k ->
  addRoundKey (rows s) (concat k) = rows (AddRoundKey s k) /\ wf (AddRoundKey s k).
Proof.
  intros s k Hs Hk. open_state Hs. open_state Hk. split; [reflexivity|].
  cbn [AddRoundKey]. apply mk_wf; apply xors_bytes; apply mk_bytes_4; assumption.
Qed.

Lemma final_rows : forall s, wf s ->
  map (fun n => sget (rows s) (n mod 4) (n / 4)) (seq 0 16) = concat s.
Proof. intros s H. open_state H. reflexivity. Qed.

(* ---------------------------------------------------- chunks of four bytes *)

Lemma chunks_ok : forall n l, bytes (4 * n) l ->
  concat (chunks n l) = l /\ length (chunks n l) = n /\ Forall (bytes 4) (chunks n l).
Proof.
  induction n as [|n IH]; intros l (L & F).
  - destruct l; [|discriminate]. repeat split. constructor.
  - destruct l as [|a [|b [|c [|d l]]]]; cbn [length] in L; try lia.
    inversion_clear F as [|? ? A F1]. inversion_clear F1 as [|? ? B F2].
    inversion_clear F2 as [|? ? C F3]. inversion_clear F3 as [|? ? D F4].
    destruct (IH l) as (I1 & I2 & I3); [split; [lia|exact F4]|].
    cbn [chunks firstn skipn concat length]. rewrite I1, I2. split; [reflexivity|].
    split; [reflexivity|]. constructor; [|exact I3]. apply mk_bytes_4; assumption.
Qed.

Lemma start_rows : forall inp, bytes 16 inp ->
  smake (fun i j => at_ inp (i + 4 * j)) = rows (chunks 4 inp) /\ wf (chunks 4 inp).
Proof.
  intros inp H. destruct (chunks_ok 4 inp H) as (A & B & C).
  assert (W : wf (chunks 4 inp)) by (split; assumption). split; [|exact W].
  revert A W. generalize (chunks 4 inp). intros s A W. subst inp.
  open_state W. reflexivity.
Qed.

Lemma concat_length : forall ws, Forall (bytes 4) ws -> length (concat ws) = (4 * length ws)%nat.
Proof.
  induction ws as [|w ws IH]; intros F; [reflexivity|].
  inversion_clear F as [|? ? (A & _) F1]. cbn [concat length]. rewrite app_length, A, IH by exact F1. lia.
Qed.

Lemma concat_at : forall ws i r, Forall (bytes 4) ws -> (r < 4)%nat ->
  at_ (concat ws) (4 * i + r) = nth r (nth i ws []) 0.
Proof.
  unfold at_. induction ws as [|w ws IH]; intros i r F Hr.
  - cbn [concat]. destruct i; cbn [nth]; destruct r; destruct (4 * _ + _)%nat; reflexivity.
  - inversion_clear F as [|? ? W F1]. destruct W as (L & _). cbn [concat].
    destruct i as [|i].
    + rewrite Nat.mul_0_r, Nat.add_0_l. rewrite app_nth1 by lia. reflexivity.
    + rewrite app_nth2 by lia. rewrite L.
      replace (4 * Datatypes.S i + r - 4)%nat with (4 * i + r)%nat by lia. apply IH; assumption.
Qed.

Lemma concat_slice : forall n m ws, Forall (bytes 4) ws ->
  firstn (4 * n) (skipn (4 * m) (concat ws)) = concat (firstn n (skipn m ws)).
Proof.
  assert (A : forall m ws, Forall (bytes 4) ws -> skipn (4 * m) (concat ws) = concat (skipn m ws)).
  { induction m as [|m IH]; intros ws F; [reflexivity|].
    destruct ws as [|w ws]; [cbn [concat]; rewrite skipn_nil; reflexivity|].
    inversion_clear F as [|? ? W F1]. open_word W.
    replace (4 * Datatypes.S m)%nat with (4 + 4 * m)%nat by lia.
    cbn [concat app Nat.add skipn]. apply IH. exact F1. }
  assert (B : forall n ws, Forall (bytes 4) ws -> firstn (4 * n) (concat ws) = concat (firstn n ws)).
  { induction n as [|n IH]; intros ws F; [reflexivity|].
    destruct ws as [|w ws]; [cbn [concat]; rewrite firstn_nil; reflexivity|].
    inversion_clear F as [|? ? W F1]. open_word W.
    replace (4 * Datatypes.S n)%nat with (4 + 4 * n)%nat by lia.
    cbn [concat app Nat.add firstn]. rewrite IH by exact F1. reflexivity. }
  intros n m ws F. rewrite A by exact F. apply B. clear - F. revert ws F.
  induction m as [|m IH]; intros ws F; [exact F|]. destruct ws as [|w ws]; [exact F|].
  inversion_clear F. cbn [skipn]. apply IH. assumption.
Qed.

(* --------------------------------------------------------- key expansion *)

Lemma nth_bytes : forall ws i, Forall (bytes 4) ws -> (i < length ws)%nat -> bytes 4 (nth i ws []).
Proof. intros ws i F H. rewrite Forall_forall in F. apply F. apply nth_In. exact H. Qed.

Lemma last_nth : forall (ws : list (list Z)), last ws [] = nth (length ws - 1) ws [].
Proof.
  intros ws. destruct ws as [|w ws] using rev_ind; [reflexivity|].
  rewrite last_last, app_length. cbn [length].
  rewrite app_nth2 by lia. replace (length ws + 1 - 1 - length ws)%nat with 0%nat by lia. reflexivity.
Qed.

Lemma rcon_ok : forall k, (1 <= k < 8)%nat -> at_ R_CON k = xpow (k - 1) /\ byte (xpow (k - 1)).
Proof.
  intros k Hk. split.
  - do 8 (destruct k as [|k]; [try lia; reflexivity|]). lia.
  - destruct (k - 1)%nat; [unfold byte; cbn; lia|]. apply xtime_byte.
Qed.

Lemma rotWord_4 : forall a b c d, rotWord [a; b; c; d] = [b; c; d; a].
Proof. reflexivity. Qed.

Lemma subWord_4 : forall a b c d, subWord [a; b; c; d] = [sub a; sub b; sub c; sub d].
Proof. reflexivity. Qed.

Lemma xorWord_4 : forall a b c d a' b' c' d', xorWord [a; b; c; d] [a'; b'; c'; d'] =
  [Z.lxor a a'; Z.lxor b b'; Z.lxor c c'; Z.lxor d d'].
Proof. reflexivity. Qed.

Lemma expandStep_ok : forall ws, Forall (bytes 4) ws -> (8 <= length ws < 60)%nat ->
  expandStep (concat ws) = concat (ws ++ [nextWord S ws]) /\ bytes 4 (nextWord S ws).
Proof.
  intros ws F L. unfold expandStep. rewrite concat_length by exact F.
  set (n := length ws) in *.
  replace (4 * n / 4)%nat with n by (rewrite Nat.mul_comm, Nat.div_mul; lia).
  replace (4 * n / 32)%nat with (n / 8)%nat
    by (change 32%nat with (4 * 8)%nat; rewrite Nat.div_mul_cancel_l by lia; reflexivity).
  assert (E : forall r, (r < 4)%nat -> at_ (concat ws) (4 * n - 4 + r) = nth r (last ws []) 0).
  { intros r Hr. replace (4 * n - 4 + r)%nat with (4 * (n - 1) + r)%nat by lia.
    rewrite concat_at by assumption. rewrite last_nth. reflexivity. }
  assert (E8 : forall r, (r < 4)%nat -> at_ (concat ws) (4 * n + r - 32) = nth r (nth (n - 8) ws []) 0).
  { intros r Hr. replace (4 * n + r - 32)%nat with (4 * (n - 8) + r)%nat by lia.
    apply concat_at; assumption. }
  pose proof (E 0%nat ltac:(lia)) as E0. rewrite Nat.add_0_r in E0.
  rewrite E0, !E by lia. clear E E0.
  unfold nextWord. fold n.
  assert (WL : bytes 4 (last ws [])) by (rewrite last_nth; apply nth_bytes; [exact F|lia]).
  assert (W8 : bytes 4 (nth (n - 8) ws [])) by (apply nth_bytes; [exact F|lia]).
  unfold seq, map. rewrite !E8 by lia. clear E8.
  rewrite concat_app. cbn [concat]. rewrite app_nil_r.
  set (w := last ws []) in *. set (v := nth (n - 8) ws []) in *. clearbody w v.
  open_word WL. open_word W8. cbn [nth].
  destruct (rcon_ok (n / 8)) as (RC & RB).
  { split; [apply Nat.div_le_lower_bound; lia|apply Nat.div_lt_upper_bound; lia]. }
  destruct (n mod 8 =? 0)%nat.
  - cbn [RotWord app]. rewrite RC, rotWord_4, subWord_4, xorWord_4.
    rewrite !S_sub by assumption. cbn [xors]. cbv [at_ nth].
    split; [reflexivity|]. apply mk_bytes_4; auto 10 using byte_xor, sub_byte, byte_0.
  - destruct (n mod 8 =? 4)%nat.
    + rewrite subWord_4, !S_sub by assumption. cbn [xors]. cbv [at_ nth].
      split; [reflexivity|]. apply mk_bytes_4; auto 10 using byte_xor, sub_byte.
    + cbv [at_ nth]. cbn [xors].
      split; [reflexivity|]. apply mk_bytes_4; auto 10 using byte_xor.
Qed.

Lemma expand_ok : forall key, bytes 32 key ->
  expand key = concat (KeyExpansion S key) /\ length (KeyExpansion S key) = 60%nat /\
  Forall (bytes 4) (KeyExpansion S key).
Proof.
  intros key H. destruct (chunks_ok 8 key H) as (A & B & C).
  unfold expand, KeyExpansion.
  assert (G : forall k, (k <= 52)%nat ->
    Nat.iter k expandStep key = concat (Nat.iter k (fun ws => ws ++ [nextWord S ws]) (chunks 8 key)) /\
    length (Nat.iter k (fun ws => ws ++ [nextWord S ws]) (chunks 8 key)) = (8 + k)%nat /\
    Forall (bytes 4) (Nat.iter k (fun ws => ws ++ [nextWord S ws]) (chunks 8 key))).
  { induction k as [|k IH]; intros Hk.
    - cbn [Nat.iter nat_rect]. rewrite A, B. auto.
    - destruct (IH ltac:(lia)) as (I1 & I2 & I3).
      cbn [Nat.iter nat_rect]. unfold Nat.iter in I1, I2, I3. rewrite I1.
      set (ws := nat_rect _ (chunks 8 key) _ k) in *.
      destruct (expandStep_ok ws I3) as (J1 & J2); [lia|].
      rewrite J1. split; [reflexivity|]. split.
      + rewrite app_length, I2. cbn [length]. lia.
      + apply Forall_app. split; [exact I3|]. constructor; [exact J2|constructor]. }
  apply (G 52%nat). lia.
Qed.

Lemma roundKey_ok : forall key r, bytes 32 key -> (r < 15)%nat ->
  nth r (roundKeys key) [] = concat (roundKey (KeyExpansion S key) r) /\
  wf (roundKey (KeyExpansion S key) r).
Proof.
  intros key r H Hr. destruct (expand_ok key H) as (A & B & C).
  unfold roundKeys. rewrite A. set (ws := KeyExpansion S key) in *. clearbody ws. split.
  - set (f := fun i => firstn 16 (skipn (16 * i) (concat ws))).
    rewrite (nth_indep _ [] (f 0%nat)) by (rewrite map_length, seq_length; exact Hr).
    rewrite map_nth, seq_nth by exact Hr. unfold f, roundKey. cbn [Nat.add].
    replace (16 * r)%nat with (4 * (4 * r))%nat by lia.
    apply (concat_slice 4 (4 * r) ws C).
  - unfold roundKey. split.
    + rewrite firstn_length, skipn_length. lia.
    + clear - C. revert C. generalize (4 * r)%nat as m. intros m C.
      apply Forall_forall. intros w I. rewrite Forall_forall in C. apply C.
      rewrite <- (firstn_skipn m ws). apply in_or_app. right.
      rewrite <- (firstn_skipn 4 (skipn m ws)). apply in_or_app. left. exact I.
Qed.

(* -------------------------------------------------------------- the cipher *)

Lemma round_ok : forall s k, wf s -> wf k ->
  round (concat k) (rows s) = rows (AddRoundKey (MixColumns (ShiftRows (SubBytes S s))) k) /\
  wf (AddRoundKey (MixColumns (ShiftRows (SubBytes S s))) k).
Proof.
  intros s k Hs Hk. unfold round.
  destruct (subBytes_rows s Hs) as (-> & H1).
  destruct (shiftRows_rows _ H1) as (-> & H2).
  destruct (mixColumns_rows _ H2) as (-> & H3).
  apply addRoundKey_rows; assumption.
Qed.

Lemma rounds_ok : forall key, bytes 32 key -> forall n r s, wf s -> (r + n <= 15)%nat ->
  fold_left (fun s r => round (nth r (roundKeys key) []) s) (seq r n) (rows s) =
    rows (Rounds S n r (KeyExpansion S key) s) /\ wf (Rounds S n r (KeyExpansion S key) s).
Proof.
  intros key H. induction n as [|n IH]; intros r s Hs Hr; [split; [reflexivity|exact Hs]|].
  cbn [seq fold_left Rounds].
  destruct (roundKey_ok key r H) as (-> & W); [lia|].
  destruct (round_ok s _ Hs W) as (-> & W').
  rewrite Nat.add_1_r. apply IH; [exact W'|lia].
Qed.

Lemma encrypt_cipher : forall key inp, bytes 32 key -> bytes 16 inp ->
  encrypt key inp = Cipher S key inp /\ bytes 16 (encrypt key inp).
Proof.
  intros key inp Hk Hi. unfold encrypt, encryptWith, Cipher.
  destruct (start_rows inp Hi) as (-> & W0).
  destruct (roundKey_ok key 0 Hk) as (-> & K0); [lia|].
  destruct (addRoundKey_rows _ _ W0 K0) as (-> & W1).
  destruct (rounds_ok key Hk 13 1 _ W1) as (-> & W2); [lia|].
  destruct (subBytes_rows _ W2) as (-> & W3).
  destruct (shiftRows_rows _ W3) as (-> & W4).
  destruct (roundKey_ok key 14 Hk) as (-> & K14); [lia|].
  destruct (addRoundKey_rows _ _ W4 K14) as (-> & W5).
  rewrite final_rows by exact W5. split; [reflexivity|].
  match goal with |- bytes 16 (concat ?x) => set (s := x) in * end. clearbody s.
  open_state W5. split; [reflexivity|]. cbn [concat app]. auto 20.
Qed.

End Refine.
