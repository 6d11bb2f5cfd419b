(* The PNG writer: checksums, chunks and the stored blocks. *)
From Coq Require Import ZArith List Lia Bool Btauto.
From Verif Require Import Base BaseLemmas PngModel PngSpec.
Import ListNotations.
Local Open Scope Z_scope.
Local Arguments Z.add : simpl never.
Local Arguments Z.mul : simpl never.
Local Arguments Z.div : simpl never.
Local Arguments Z.modulo : simpl never.

(* ------------------------------------------------------------ CRC-32 *)

Lemma lxor_bound : forall n x y, 0 <= x < 2 ^ n -> 0 <= y < 2 ^ n -> 0 <= Z.lxor x y < 2 ^ n.
Proof.
  intros n x y X Y. assert (N : 0 <= Z.lxor x y) by (apply Z.lxor_nonneg; lia). split; [exact N|].
  destruct (Z.eq_dec (Z.lxor x y) 0) as [->|NZ]; [lia|].
  apply Z.log2_lt_pow2; [lia|].
  assert (Hn : 0 <= n).
  { destruct (Z.lt_ge_cases n 0) as [L|L]; [|exact L]. rewrite Z.pow_neg_r in X by exact L. lia. }
  destruct (Z.eq_dec x 0) as [->|Nx].
  - rewrite Z.lxor_0_l in *. apply Z.log2_lt_pow2; lia.
  - destruct (Z.eq_dec y 0) as [->|Ny].
    + rewrite Z.lxor_0_r in *. apply Z.log2_lt_pow2; lia.
    + eapply Z.le_lt_trans; [apply Z.log2_lxor; lia|].
      apply Z.max_lub_lt; apply Z.log2_lt_pow2; lia.
Qed.

Definition poly : Z := 0xEDB88320.

Lemma crcBit_eq : forall c, crcBit c = Z.lxor (Z.shiftr c 1) (if Z.odd c then poly else 0).
Proof.
  intros c. unfold crcBit. change (c / 2) with (c / 2 ^ 1). rewrite <- Z.shiftr_div_pow2 by lia.
  destruct (Z.odd c); [reflexivity|]. symmetry. apply Z.lxor_0_r.
Qed.

Lemma crcBit_lxor : forall x y, crcBit (Z.lxor x y) = Z.lxor (crcBit x) (crcBit y).
Proof.
  intros x y. rewrite !crcBit_eq. rewrite <- !Z.bit0_odd, Z.lxor_spec, Z.shiftr_lxor.
  apply Z.bits_inj'. intros n Hn. rewrite !Z.lxor_spec.
  destruct (Z.testbit x 0), (Z.testbit y 0); cbn [xorb]; rewrite ?Z.bits_0; btauto.
Qed.

Lemma iter_lxor : forall n x y, Nat.iter n crcBit (Z.lxor x y) = Z.lxor (Nat.iter n crcBit x) (Nat.iter n crcBit y).
Proof.
  induction n as [|n IH]; intros x y; [reflexivity|].
  cbn [Nat.iter nat_rect]. change (nat_rect (fun _ => Z) ?z (fun _ : nat => crcBit) n) with (Nat.iter n crcBit z).
  change (crcBit (Nat.iter n crcBit (Z.lxor x y)) = Z.lxor (crcBit (Nat.iter n crcBit x)) (crcBit (Nat.iter n crcBit y))).
  rewrite IH. apply crcBit_lxor.
Qed.

Lemma crcBit_shift : forall h k, 0 <= k -> crcBit (Z.shiftl h (k + 1)) = Z.shiftl h k.
Proof.
  intros h k Hk. rewrite crcBit_eq. rewrite <- Z.bit0_odd, Z.shiftl_spec_low by lia.
  rewrite Z.lxor_0_r. rewrite Z.shiftr_shiftl_l by lia. f_equal. lia.
Qed.

Lemma crc_table : forall n, 0 <= n < 16 -> Nat.iter 4 crcBit n = nth (Z.to_nat n) CRC32 0.
Proof.
  intros n H.
  assert (T : forallb (fun i => Nat.iter 4 crcBit (Z.of_nat i) =? nth i CRC32 0) (seq 0 16) = true)
    by reflexivity.
  rewrite forallb_forall in T. specialize (T (Z.to_nat n)). rewrite in_seq in T.
  apply Z.eqb_eq in T; [|lia]. rewrite Z2Nat.id in T by lia. exact T.
Qed.

Lemma low_nibble : forall c, c = Z.lxor (Z.shiftl (Z.shiftr c 4) 4) (Z.land c 15).
Proof.
  intros c. apply Z.bits_inj'. intros n Hn. rewrite Z.lxor_spec, Z.land_spec.
  change 15 with (Z.ones 4).
  destruct (Z.lt_ge_cases n 4).
  - rewrite Z.shiftl_spec_low, Z.ones_spec_low by lia. rewrite andb_true_r. destruct (Z.testbit c n); reflexivity.
  - rewrite Z.shiftl_spec by lia. rewrite Z.shiftr_spec by lia. rewrite Z.ones_spec_high by lia.
    rewrite andb_false_r, xorb_false_r. f_equal. lia.
Qed.

Lemma crcNibble_bits : forall c, crcNibble c = Nat.iter 4 crcBit c.
Proof.
  intros c. rewrite (low_nibble c) at 2. rewrite iter_lxor. unfold crcNibble. f_equal.
  - change (Nat.iter 4 crcBit (Z.shiftl (Z.shiftr c 4) 4))
      with (crcBit (crcBit (crcBit (crcBit (Z.shiftl (Z.shiftr c 4) 4))))).
    rewrite (crcBit_shift _ 3), (crcBit_shift _ 2), (crcBit_shift _ 1), (crcBit_shift _ 0) by lia.
    symmetry. apply Z.shiftl_0_r.
  - symmetry. apply crc_table. change 15 with (Z.ones 4). rewrite Z.land_ones by lia.
    apply Z.mod_pos_bound. lia.
Qed.

Lemma crcByte_nibbles : forall c x, crcNibble (crcNibble (Z.lxor c x)) = crcByte c x.
Proof. intros c x. rewrite !crcNibble_bits. reflexivity. Qed.

Lemma crcBit_range : forall c, 0 <= c < 2 ^ 32 -> 0 <= crcBit c < 2 ^ 32.
Proof.
  intros c H. rewrite crcBit_eq. apply lxor_bound.
  - rewrite Z.shiftr_div_pow2 by lia. change (2 ^ 1) with 2.
    pose proof (Z.div_mod c 2 ltac:(lia)). pose proof (Z.mod_pos_bound c 2 ltac:(lia)). lia.
  - destruct (Z.odd c); [unfold poly|]; lia.
Qed.

Lemma crcByte_range : forall c x, 0 <= c < 2 ^ 32 -> byte x -> 0 <= crcByte c x < 2 ^ 32.
Proof.
  intros c x Hc Hx. unfold crcByte.
  assert (G : forall n z, 0 <= z < 2 ^ 32 -> 0 <= Nat.iter n crcBit z < 2 ^ 32).
  { induction n as [|n IH]; intros z Hz; [exact Hz|]. change (0 <= crcBit (Nat.iter n crcBit z) < 2 ^ 32).
    apply crcBit_range, IH, Hz. }
  apply G. apply lxor_bound; [exact Hc|]. unfold byte in Hx. lia.
Qed.

Lemma not32_lxor : forall c, 0 <= c < 2 ^ 32 -> not32 c = Z.lxor c 0xFFFFFFFF.
Proof.
  intros c H. unfold not32.
  assert (A : Z.land c (Z.lxor c 4294967295) = 0).
  { apply Z.bits_inj'. intros n Hn. rewrite Z.land_spec, Z.lxor_spec, Z.bits_0.
    change 4294967295 with (Z.ones 32). destruct (Z.lt_ge_cases n 32).
    - rewrite Z.ones_spec_low by lia. destruct (Z.testbit c n); reflexivity.
    - assert (Hb : Z.testbit c n = false).
      { destruct (Z.eq_dec c 0) as [->|]; [apply Z.bits_0|]. apply Z.bits_above_log2; [lia|].
        apply Z.lt_le_trans with 32; [apply Z.log2_lt_pow2; lia|lia]. }
      rewrite Hb. reflexivity. }
  apply Z.add_nocarry_lxor in A. rewrite <- Z.lxor_assoc, Z.lxor_nilpotent, Z.lxor_0_l in A. lia.
Qed.

(* ------------------------------------------------------------ Adler-32 *)

Definition adlerStep (s : Z * Z) (x : Z) : Z * Z :=
  let a := (fst s + x) mod 65521 in (a, (snd s + a) mod 65521).

Lemma sum_app : forall a b, sum (a ++ b) = sum a + sum b.
Proof. induction a as [|x a IH]; intros b; [reflexivity|]. cbn [app sum]. rewrite IH. lia. Qed.

Lemma adlerS2_snoc : forall l x, adlerS2 (l ++ [x]) = adlerS2 l + adlerS1 (l ++ [x]).
Proof.
  intros l x. unfold adlerS2. rewrite app_length. cbn [length]. rewrite Nat.add_1_r, seq_S.
  rewrite map_app, sum_app. cbn [map sum]. replace (1 + length l)%nat with (length (l ++ [x]))
    by (rewrite app_length; cbn; lia).
  rewrite firstn_all. rewrite Z.add_0_r. f_equal. f_equal. apply map_ext_in. intros k Hk. apply in_seq in Hk.
  rewrite firstn_app. replace (k - length l)%nat with 0%nat by lia. rewrite firstn_O, app_nil_r. reflexivity.
Qed.

Lemma adler_fold : forall l, fold_left adlerStep l (1, 0) = (adlerS1 l mod 65521, adlerS2 l mod 65521).
Proof.
  induction l as [|x l IH] using rev_ind; [reflexivity|].
  rewrite fold_left_app, IH. cbn [fold_left]. unfold adlerStep. cbn [fst snd].
  assert (E : (adlerS1 l mod 65521 + x) mod 65521 = adlerS1 (l ++ [x]) mod 65521).
  { rewrite Z.add_mod_idemp_l by lia. f_equal. unfold adlerS1. rewrite sum_app. cbn [sum]. lia. }
  rewrite E, adlerS2_snoc. f_equal. rewrite <- Z.add_mod by lia. reflexivity.
Qed.

(* ------------------------------------------------------------ what a writer emits *)

Definition ok (w : writer) : Prop := 0 <= wc w < 2 ^ 32.

(* the bytes l are written, the bytes al of them counted by Adler *)
Definition emits (l al : list Z) (w w' : writer) : Prop :=
  os w' = os w ++ l /\ wc w' = fold_left crcByte l (wc w) /\
  (wa w', wb w') = fold_left adlerStep al (wa w, wb w) /\ ok w'.

Lemma emits_nil : forall w, ok w -> emits [] [] w w.
Proof. intros w H. repeat split; try apply H. rewrite app_nil_r. reflexivity. Qed.

Lemma emits_app : forall l1 a1 l2 a2 w w1 w2, emits l1 a1 w w1 -> emits l2 a2 w1 w2 ->
  emits (l1 ++ l2) (a1 ++ a2) w w2.
Proof.
  intros l1 a1 l2 a2 w w1 w2 (A1 & A2 & A3 & A4) (B1 & B2 & B3 & B4).
  split; [|split; [|split; [|exact B4]]].
  - rewrite B1, A1. rewrite app_assoc. reflexivity.
  - rewrite fold_left_app, <- A2. exact B2.
  - rewrite fold_left_app, <- A3. exact B3.
Qed.

Lemma emits_ok : forall l al w w', emits l al w w' -> ok w'.
Proof. intros l al w w' H. apply H. Qed.

Lemma writeU8_emits : forall x w, ok w -> byte x -> emits [x] [] w (writeU8 x w).
Proof.
  intros x w H B. unfold emits, writeU8, ok. cbn [os wa wb wc fold_left]. rewrite crcByte_nibbles.
  repeat split; apply crcByte_range; assumption.
Qed.

Lemma writeU8Adler_emits : forall x w, ok w -> byte x -> emits [x] [x] w (writeU8Adler x w).
Proof.
  intros x w H B. unfold emits, writeU8Adler, writeU8, ok. cbn [os wa wb wc fold_left].
  rewrite crcByte_nibbles. repeat split; apply crcByte_range; assumption.
Qed.

Lemma writeAll_emits : forall l w, ok w -> Forall byte l -> emits l [] w (writeAll l w).
Proof.
  induction l as [|x l IH]; intros w H F; [apply emits_nil; exact H|].
  inversion_clear F as [|? ? B F']. change (x :: l) with ([x] ++ l). change ([] : list Z) with ([] ++ [] : list Z).
  pose proof (writeU8_emits x w H B) as E. eapply emits_app; [exact E|].
  apply IH; [apply (emits_ok _ _ _ _ E)|exact F'].
Qed.

(* big endian and little endian *)
Definition enc32 (x : Z) : list Z := [x / 2 ^ 24 mod 256; x / 2 ^ 16 mod 256; x / 2 ^ 8 mod 256; x mod 256].
Definition enc16 (x : Z) : list Z := [x mod 256; x / 2 ^ 8 mod 256].

Lemma low_byte : forall x, Z.land x 255 = x mod 256.
Proof. intros x. change 255 with (Z.ones 8). rewrite Z.land_ones by lia. reflexivity. Qed.

Lemma mod_byte : forall x, byte (x mod 256).
Proof. intros x. unfold byte. apply Z.mod_pos_bound. lia. Qed.

Lemma writeU32_emits : forall x w, ok w -> emits (enc32 x) [] w (writeU32 x w).
Proof.
  intros x w H. unfold writeU32. rewrite !low_byte, !Z.shiftr_div_pow2 by lia.
  pose proof (writeAll_emits (enc32 x) w H) as E. apply E. unfold enc32.
  repeat (apply Forall_cons; [apply mod_byte|]). apply Forall_nil.
Qed.

Lemma writeU16L_emits : forall x w, ok w -> emits (enc16 x) [] w (writeU16L x w).
Proof.
  intros x w H. unfold writeU16L. rewrite !low_byte, !Z.shiftr_div_pow2 by lia.
  pose proof (writeAll_emits (enc16 x) w H) as E. apply E. unfold enc16.
  repeat (apply Forall_cons; [apply mod_byte|]). apply Forall_nil.
Qed.

Lemma enc32_be32 : forall x r, 0 <= x < 2 ^ 32 -> be32 (enc32 x ++ r) = Some (x, r).
Proof.
  intros x r H. unfold enc32. cbn [app be32]. f_equal. f_equal.
  change (2 ^ 24) with (256 * (256 * 256)). change (2 ^ 16) with (256 * 256). change (2 ^ 8) with 256.
  rewrite <- !Z.div_div by lia.
  assert (Hx : x / 256 / 256 / 256 < 256).
  { rewrite !Z.div_div by lia. apply Z.div_lt_upper_bound; lia. }
  assert (0 <= x / 256 / 256 / 256) by (rewrite !Z.div_div by lia; apply Z.div_pos; lia).
  rewrite (Z.mod_small (x / 256 / 256 / 256)) by lia.
  pose proof (Z.div_mod x 256 ltac:(lia)). pose proof (Z.div_mod (x / 256) 256 ltac:(lia)).
  pose proof (Z.div_mod (x / 256 / 256) 256 ltac:(lia)). lia.
Qed.

Lemma enc16_le16 : forall x r, le16 (enc16 x ++ r) = Some (x mod 65536, r).
Proof.
  intros x r. unfold enc16. cbn [app le16]. f_equal. f_equal. change (2 ^ 8) with 256.
  change 65536 with (256 * 256). rewrite Z.rem_mul_r by lia. reflexivity.
Qed.

(* ------------------------------------------------------------ chunks *)

Definition chunk (t : list Z) (d : list Z) : list Z :=
  enc32 (alen d) ++ t ++ d ++ enc32 (crc (t ++ d)).

Lemma crc_fold_range : forall l c, 0 <= c < 2 ^ 32 -> Forall byte l -> 0 <= fold_left crcByte l c < 2 ^ 32.
Proof.
  induction l as [|x l IH]; intros c Hc F; [exact Hc|]. inversion_clear F as [|? ? B F'].
  cbn [fold_left]. apply IH; [apply crcByte_range; assumption|exact F'].
Qed.

Lemma chunk_written : forall t len d al f w, ok w -> Forall byte t ->
  (forall v, ok v -> wa v = wa w -> wb v = wb w -> emits d al v (f v)) ->
  u32 len = alen d ->
  os (endChunk (f (beginChunk t len w))) = os w ++ chunk t d /\
  (wa (endChunk (f (beginChunk t len w))), wb (endChunk (f (beginChunk t len w)))) =
    fold_left adlerStep al (wa w, wb w) /\
  ok (endChunk (f (beginChunk t len w))).
Proof.
  intros t len d al f w H Ft Hf Hl. unfold beginChunk.
  destruct (writeU32_emits (u32 len) w H) as (A1 & A2 & A3 & A4).
  set (w1 := writeU32 (u32 len) w) in *. pose proof (f_equal fst A3) as A3a. pose proof (f_equal snd A3) as A3b.
  cbn [fold_left fst snd] in A3a, A3b. clearbody w1.
  set (w2 := {| os := os w1; wa := wa w1; wb := wb w1; wc := not32 0 |}).
  assert (H2 : ok w2) by (unfold ok, w2, not32; cbn [wc]; lia).
  destruct (writeAll_emits t w2 H2 Ft) as (B1 & B2 & B3 & B4).
  set (w3 := writeAll t w2) in *. cbn [fold_left] in B3. injection B3 as B3a B3b.
  cbn [w2 wa wb] in B3a, B3b.
  destruct (Hf w3 B4) as (C1 & C2 & C3 & C4); [congruence|congruence|].
  set (w4 := f w3) in *. unfold endChunk.
  destruct (writeU32_emits (not32 (wc w4)) w4 C4) as (D1 & D2 & D3 & D4).
  split; [|split; [|exact D4]].
  - rewrite D1, C1, B1. cbn [w2 os]. rewrite A1. unfold chunk. rewrite Hl, <- !app_assoc.
    do 4 f_equal. rewrite not32_lxor by exact C4. unfold crc. rewrite fold_left_app.
    rewrite C2, B2. cbn [w2 wc]. change (not32 0) with 4294967295. reflexivity.
  - cbn [fold_left] in D3. rewrite D3, C3, B3a, B3b, A3a, A3b. reflexivity.
Qed.

Lemma take_app : forall A (a b : list A), take (Z.of_nat (length a)) (a ++ b) = Some (a, b).
Proof.
  intros A a b. unfold take. rewrite app_length, Nat2Z.inj_add.
  destruct (Z.leb_spec (Z.of_nat (length a)) (Z.of_nat (length a) + Z.of_nat (length b))); [|lia].
  rewrite Nat2Z.id, firstn_app, firstn_all, Nat.sub_diag, firstn_O, app_nil_r.
  rewrite skipn_app, skipn_all, Nat.sub_diag. reflexivity.
Qed.

Lemma crc_range : forall l, Forall byte l -> 0 <= crc l < 2 ^ 32.
Proof.
  intros l F. unfold crc. apply lxor_bound; [|lia]. apply crc_fold_range; [lia|exact F].
Qed.

Lemma parse_chunk : forall fuel t d rest, length t = 4%nat -> Forall byte t -> Forall byte d ->
  alen d <= 2147483647 ->
  parseChunks (S fuel) (chunk t d ++ rest) =
    (do r <- parseChunks fuel rest; Some ((t, d) :: r)).
Proof.
  intros fuel t d rest Lt Ft Fd Ld. unfold chunk. rewrite <- !app_assoc.
  assert (R : 0 <= alen d < 2 ^ 32) by (unfold alen in *; lia).
  pose proof (enc32_be32 (alen d) (t ++ d ++ enc32 (crc (t ++ d)) ++ rest) R) as E.
  cbn [parseChunks]. destruct (enc32 (alen d) ++ t ++ d ++ enc32 (crc (t ++ d)) ++ rest) eqn:Q;
    [unfold enc32 in Q; discriminate|].
  rewrite <- Q in *. rewrite E. unfold require. destruct (Z.leb_spec (alen d) 2147483647); [|lia].
  replace 4 with (Z.of_nat (length t)) by (rewrite Lt; reflexivity). rewrite take_app.
  unfold alen. rewrite take_app.
  rewrite enc32_be32 by (apply crc_range, Forall_app; split; assumption).
  rewrite Z.eqb_refl. reflexivity.
Qed.

Lemma parse_too_long : forall fuel t len rest, 2147483648 <= len < 2 ^ 32 ->
  parseChunks (S fuel) (enc32 len ++ t ++ rest) = None.
Proof.
  intros fuel t len rest H. cbn [parseChunks].
  assert (R : 0 <= len < 2 ^ 32) by lia.
  pose proof (enc32_be32 len (t ++ rest) R) as E.
  destruct (enc32 len ++ t ++ rest) eqn:Q; [unfold enc32 in Q; discriminate|].
  rewrite E. unfold require. destruct (Z.leb_spec len 2147483647); [lia|]. reflexivity.
Qed.
