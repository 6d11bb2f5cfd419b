(* The bytes written for an image, and their decoding. *)
From Coq Require Import ZArith List Lia Bool.
From Verif Require Import Base BaseLemmas PngModel PngSpec PngProofs.
Import ListNotations.
Local Open Scope Z_scope.
Local Arguments Z.add : simpl never.
Local Arguments Z.mul : simpl never.
Local Arguments Z.div : simpl never.
Local Arguments Z.modulo : simpl never.

Definition colorBytes (c : Color) : list Z := [cr c; cg c; cb c; ca c].
Definition rowBytes (row : list Color) : list Z := 0 :: flat_map colorBytes row.
Definition blk (final : bool) (p : Z) (row : list Color) : list Z :=
  (if final then 1 else 0) :: enc16 p ++ enc16 (not32 p) ++ rowBytes row.

Lemma byte_0 : byte 0. Proof. unfold byte. lia. Qed.
Lemma byte_1 : byte 1. Proof. unfold byte. lia. Qed.

Lemma writeColor_emits : forall w c, ok w -> isColor c -> emits (colorBytes c) (colorBytes c) w (writeColor w c).
Proof.
  intros w c H (R & G & B & A). unfold colorBytes, writeColor.
  pose proof (writeU8Adler_emits _ w H R) as E1.
  pose proof (writeU8Adler_emits _ _ (emits_ok _ _ _ _ E1) G) as E2.
  pose proof (writeU8Adler_emits _ _ (emits_ok _ _ _ _ E2) B) as E3.
  pose proof (writeU8Adler_emits _ _ (emits_ok _ _ _ _ E3) A) as E4.
  exact (emits_app _ _ _ _ _ _ _ E1 (emits_app _ _ _ _ _ _ _ E2 (emits_app _ _ _ _ _ _ _ E3 E4))).
Qed.

Lemma writeColors_emits : forall row w, ok w -> Forall isColor row ->
  emits (flat_map colorBytes row) (flat_map colorBytes row) w (fold_left writeColor row w).
Proof.
  induction row as [|c row IH]; intros w H F; [apply emits_nil; exact H|].
  inversion_clear F as [|? ? C F']. pose proof (writeColor_emits w c H C) as E.
  cbn [flat_map fold_left]. eapply emits_app; [exact E|]. apply IH; [apply (emits_ok _ _ _ _ E)|exact F'].
Qed.

Lemma writeRow_emits : forall colors p w y, ok w -> (y < length colors)%nat ->
  Forall (Forall isColor) colors ->
  let row := nth y (rev colors) [] in
  emits (blk (y + 1 =? length colors)%nat p row) (rowBytes row) w (writeRow colors p w y).
Proof.
  intros colors p w y H Hy F row. unfold writeRow.
  replace (nth (length colors - 1 - y) colors []) with row
    by (unfold row; rewrite rev_nth by exact Hy; f_equal; lia).
  assert (Fr : Forall isColor row).
  { rewrite Forall_forall in F. apply F. apply in_rev. apply nth_In. rewrite rev_length. exact Hy. }
  assert (Hf : byte (if (y + 1 =? length colors)%nat then 1 else 0))
    by (destruct (y + 1 =? length colors)%nat; [apply byte_1|apply byte_0]).
  pose proof (writeU8_emits _ w H Hf) as E1.
  pose proof (writeU16L_emits p _ (emits_ok _ _ _ _ E1)) as E2.
  pose proof (writeU16L_emits (not32 p) _ (emits_ok _ _ _ _ E2)) as E3.
  pose proof (writeU8Adler_emits 0 _ (emits_ok _ _ _ _ E3) byte_0) as E4.
  pose proof (writeColors_emits row _ (emits_ok _ _ _ _ E4) Fr) as E5.
  exact (emits_app _ _ _ _ _ _ _ E1 (emits_app _ _ _ _ _ _ _ E2 (emits_app _ _ _ _ _ _ _ E3
    (emits_app _ _ _ _ _ _ _ E4 E5)))).
Qed.

(* the blocks, the last one marked *)
Fixpoint blocks (p : Z) (rows : list (list Color)) : list Z :=
  match rows with
  | [] => []
  | r :: rows => blk (match rows with [] => true | _ => false end) p r ++ blocks p rows
  end.

Lemma writeRows_emits : forall colors p rows pre w, ok w -> Forall (Forall isColor) colors ->
  rev colors = pre ++ rows ->
  emits (blocks p rows) (flat_map rowBytes rows) w
    (fold_left (writeRow colors p) (seq (length pre) (length rows)) w).
Proof.
  intros colors p rows. induction rows as [|r rows IH]; intros pre w H F E; [apply emits_nil; exact H|].
  assert (L : length colors = (length pre + S (length rows))%nat).
  { rewrite <- rev_length, E, app_length. reflexivity. }
  pose proof (writeRow_emits colors p w (length pre) H ltac:(lia) F) as E1. cbv zeta in E1.
  rewrite E in E1. rewrite app_nth2, Nat.sub_diag in E1 by lia. cbn [nth] in E1.
  cbn [blocks flat_map length seq fold_left]. eapply emits_app.
  - replace (match rows with [] => true | _ :: _ => false end) with (length pre + 1 =? length colors)%nat; [exact E1|].
    destruct rows; destruct (Nat.eqb_spec (length pre + 1) (length colors)); cbn [length] in L; lia || reflexivity.
  - specialize (IH (pre ++ [r])). rewrite app_length in IH. cbn [length] in IH.
    replace (length pre + 1)%nat with (S (length pre)) in IH by lia.
    apply IH; [apply (emits_ok _ _ _ _ E1)|exact F|]. rewrite E, <- app_assoc. reflexivity.
Qed.

(* ------------------------------------------------------------ lengths *)

Lemma flat_map_length : forall A (f : A -> list Z) n l, (forall x, In x l -> length (f x) = n) ->
  length (flat_map f l) = (length l * n)%nat.
Proof.
  intros A f n l. induction l as [|x l IH]; intros H; [reflexivity|].
  cbn [flat_map length]. rewrite app_length, IH by (intros; apply H; right; assumption).
  rewrite H by (left; reflexivity). lia.
Qed.

Lemma rowBytes_length : forall row, alen (rowBytes row) = 4 * alen row + 1.
Proof.
  intros row. unfold alen, rowBytes. cbn [length]. rewrite (flat_map_length _ _ 4%nat) by reflexivity. lia.
Qed.

Lemma blocks_length : forall p w rows, Forall (fun row => alen row = w) rows ->
  alen (blocks p rows) = alen rows * (4 * w + 6).
Proof.
  intros p w rows F. induction F as [|r rows Hr F IH]; [reflexivity|].
  cbn [blocks]. unfold alen in *. rewrite app_length, Nat2Z.inj_add, IH. unfold blk, enc16.
  cbn [length app]. pose proof (rowBytes_length r) as L. unfold alen in L. rewrite Hr in L. lia.
Qed.

Lemma rowBytes_bytes : forall row, Forall isColor row -> Forall byte (rowBytes row).
Proof.
  intros row F. apply Forall_cons; [apply byte_0|]. induction F as [|c row (R & G & B & A) F IH]; [apply Forall_nil|].
  cbn [flat_map colorBytes app]. auto 10.
Qed.

Lemma enc16_bytes : forall x, Forall byte (enc16 x).
Proof. intros x. unfold enc16. repeat (apply Forall_cons; [apply mod_byte|]). apply Forall_nil. Qed.

Lemma enc32_bytes : forall x, Forall byte (enc32 x).
Proof. intros x. unfold enc32. repeat (apply Forall_cons; [apply mod_byte|]). apply Forall_nil. Qed.

Lemma blocks_bytes : forall p rows, Forall (Forall isColor) rows -> Forall byte (blocks p rows).
Proof.
  intros p rows F. induction F as [|r rows Hr F IH]; [apply Forall_nil|].
  cbn [blocks]. apply Forall_app. split; [|exact IH]. unfold blk. apply Forall_cons.
  - destruct rows; [apply byte_1|apply byte_0].
  - apply Forall_app. split; [apply enc16_bytes|]. apply Forall_app. split; [apply enc16_bytes|].
    apply rowBytes_bytes. exact Hr.
Qed.

(* ------------------------------------------------------------ decoding *)

Lemma inflate_blocks : forall p rows fuel rest, rows <> [] -> 0 <= p < 65536 ->
  Forall (fun row => alen row * 4 + 1 = p) rows -> (length rows <= fuel)%nat ->
  inflate fuel (blocks p rows ++ rest) = Some (flat_map rowBytes rows, rest).
Proof.
  intros p rows. induction rows as [|r rows IH]; intros fuel rest N Hp F Hf; [congruence|].
  inversion_clear F as [|? ? Hr F']. destruct fuel as [|fuel]; [cbn in Hf; lia|].
  cbn [blocks flat_map]. unfold blk. rewrite <- !app_assoc. cbn [app inflate].
  rewrite <- !app_assoc.
  assert (Q : ((if match rows with [] => true | _ :: _ => false end then 1 else 0) / 2) mod 4 =? 0 = true)
    by (destruct rows; reflexivity).
  unfold require at 1. rewrite Q. rewrite !enc16_le16.
  assert (P1 : p mod 65536 = p) by (apply Z.mod_small; lia).
  assert (P2 : not32 p mod 65536 = 65535 - p).
  { unfold not32. replace (4294967295 - p) with (65535 - p + 65535 * 65536) by lia.
    rewrite Z.mod_add by lia. apply Z.mod_small. lia. }
  rewrite P1, P2. unfold require at 1. rewrite Z.eqb_refl.
  assert (L : p = Z.of_nat (length (rowBytes r))).
  { pose proof (rowBytes_length r) as R. unfold alen in *. lia. }
  rewrite L at 1. rewrite take_app.
  destruct rows as [|r' rows].
  - change (1 mod 2 =? 1) with true. cbn [blocks flat_map app]. rewrite app_nil_r. reflexivity.
  - change (0 mod 2 =? 1) with false. cbn [length] in Hf.
    rewrite IH; [reflexivity|discriminate|exact Hp|exact F'|cbn [length]; lia].
Qed.

Lemma group_colors : forall row, group (flat_map colorBytes row) = Some (map pixelOf row).
Proof.
  induction row as [|c row IH]; [reflexivity|]. cbn [flat_map colorBytes app group]. rewrite IH. reflexivity.
Qed.

Lemma scanlines_rows : forall w rows, Forall (fun row => alen row = w) rows ->
  scanlines (length rows) w (flat_map rowBytes rows) = Some (map (map pixelOf) rows).
Proof.
  intros w rows F. induction F as [|r rows Hr F IH]; [reflexivity|].
  cbn [length scanlines flat_map rowBytes app]. unfold require. cbn [Z.eqb].
  assert (L : 4 * w = Z.of_nat (length (flat_map colorBytes r))).
  { rewrite (flat_map_length _ _ 4%nat) by reflexivity. unfold alen in Hr. lia. }
  rewrite L, take_app, group_colors. rewrite IH. reflexivity.
Qed.

Lemma adler_joined : forall l, Z.lor (u32 (Z.shiftl (adlerS2 l mod 65521) 16)) (adlerS1 l mod 65521) = adler l /\
  0 <= adler l < 2 ^ 32.
Proof.
  intros l. unfold adler.
  pose proof (Z.mod_pos_bound (adlerS2 l) 65521 ltac:(lia)) as H2.
  pose proof (Z.mod_pos_bound (adlerS1 l) 65521 ltac:(lia)) as H1.
  set (b := adlerS2 l mod 65521) in *. set (a := adlerS1 l mod 65521) in *.
  assert (E : Z.shiftl b 16 = b * 65536) by (rewrite Z.shiftl_mul_pow2 by lia; reflexivity).
  split; [|lia]. unfold u32, two32. rewrite Z.mod_small by lia.
  assert (A : Z.land (Z.shiftl b 16) a = 0).
  { apply Z.bits_inj'. intros n Hn. rewrite Z.land_spec, Z.bits_0. destruct (Z.lt_ge_cases n 16).
    - rewrite Z.shiftl_spec_low by lia. reflexivity.
    - assert (Q : Z.testbit a n = false).
      { destruct (Z.eq_dec a 0) as [->|]; [apply Z.bits_0|]. apply Z.bits_above_log2; [lia|].
        apply Z.lt_le_trans with 16; [apply Z.log2_lt_pow2; lia|lia]. }
      rewrite Q. apply andb_false_r. }
  rewrite <- E. rewrite <- Z.lxor_lor by exact A. symmetry. apply Z.add_nocarry_lxor. exact A.
Qed.

Definition zdata (p : Z) (rows : list (list Color)) : list Z :=
  0x78 :: 0x1 :: blocks p rows ++ enc32 (adler (flat_map rowBytes rows)).

Lemma unzlib_zdata : forall p rows, rows <> [] -> 0 <= p < 65536 ->
  Forall (fun row => alen row * 4 + 1 = p) rows ->
  unzlib (zdata p rows) = Some (flat_map rowBytes rows).
Proof.
  intros p rows N Hp F. unfold unzlib, zdata.
  unfold require at 1 2 3 4. cbn [Z.eqb Z.leb Z.testbit negb].
  change (120 mod 16 =? 8) with true. change (120 / 16 <=? 7) with true.
  change ((120 * 256 + 1) mod 31 =? 0) with true. cbv iota.
  rewrite inflate_blocks; [|exact N|exact Hp|exact F|].
  - rewrite <- (app_nil_r (enc32 _)). rewrite enc32_be32 by apply adler_joined.
    unfold require. rewrite Z.eqb_refl. reflexivity.
  - rewrite app_length. cbn [enc32 length]. clear. induction rows as [|r rows IH]; [cbn; lia|].
    cbn [blocks length]. rewrite app_length. unfold blk. cbn [length]. lia.
Qed.

(* ------------------------------------------------------------ the file *)

Definition hdata (w h : Z) : list Z := enc32 w ++ enc32 h ++ SETTINGS.

Lemma settings_bytes : Forall byte SETTINGS.
Proof. unfold SETTINGS. repeat (apply Forall_cons; [unfold byte; lia|]). apply Forall_nil. Qed.

Lemma magick_bytes : Forall byte MAGICK.
Proof. unfold MAGICK. repeat (apply Forall_cons; [unfold byte; lia|]). apply Forall_nil. Qed.

Lemma ihdr_bytes : Forall byte s_IHDR.
Proof. unfold s_IHDR. repeat (apply Forall_cons; [unfold byte; lia|]). apply Forall_nil. Qed.
Lemma idat_bytes : Forall byte s_IDAT.
Proof. unfold s_IDAT. repeat (apply Forall_cons; [unfold byte; lia|]). apply Forall_nil. Qed.
Lemma iend_bytes : Forall byte s_IEND.
Proof. unfold s_IEND. repeat (apply Forall_cons; [unfold byte; lia|]). apply Forall_nil. Qed.

(* what follows the writing of the rows: the checksum of Adler *)
Definition finishZ (w : writer) : writer := writeU32 (Z.lor (u32 (Z.shiftl (wb w) 16)) (wa w)) w.

Lemma writePNG_chunks : forall colors w, colors <> [] -> 0 <= w <= 16383 ->
  isImage w (alen colors) colors -> 6 + alen colors * (4 * w + 6) < two32 ->
  writePNG colors = MAGICK ++ chunk s_IHDR (hdata w (alen colors)) ++
    chunk s_IDAT (zdata (4 * w + 1) (rev colors)) ++ chunk s_IEND [].
Proof.
  intros colors w N Hw (_ & F) Hsize. unfold writePNG.
  assert (Fw : Forall (fun row => alen row = w) colors)
    by (apply Forall_forall; intros r I; rewrite Forall_forall in F; apply F; exact I).
  assert (Fc : Forall (Forall isColor) colors)
    by (apply Forall_forall; intros r I; rewrite Forall_forall in F; apply F; exact I).
  assert (Ew : alen (nth 0 colors []) = w).
  { destruct colors as [|r colors]; [congruence|]. inversion_clear Fw. assumption. }
  rewrite Ew. set (h := alen colors) in *.
  assert (Hh : 0 < h) by (unfold h, alen; destruct colors; [congruence|cbn [length]; lia]).
  assert (Hh2 : h < two32) by (unfold two32 in *; nia).
  assert (P : u32 (4 * w + 1) = 4 * w + 1) by (unfold u32, two32; apply Z.mod_small; lia).
  assert (P5 : u32 (4 * w + 1 + 5) = 4 * w + 6) by (unfold u32, two32; rewrite Z.mod_small; lia).
  rewrite P, P5.
  assert (U1 : u32 w = w) by (unfold u32, two32; apply Z.mod_small; lia).
  assert (U2 : u32 h = h) by (unfold u32; apply Z.mod_small; lia).
  assert (U3 : u64 (2 + h * (4 * w + 6) + 4) = 2 + h * (4 * w + 6) + 4).
  { unfold u64. apply Z.mod_small. unfold two64, two32 in *. nia. }
  rewrite U1, U2, U3.
  set (w0 := {| os := []; wa := 1; wb := 0; wc := 0 |}).
  assert (H0 : ok w0) by (unfold ok, w0; cbn [wc]; lia).
  destruct (writeAll_emits MAGICK w0 H0 magick_bytes) as (A1 & _ & A3 & A4).
  set (w1 := writeAll MAGICK w0) in *. cbn [fold_left] in A3.
  (* IHDR *)
  pose proof (chunk_written s_IHDR 13 (hdata w h) []
    (fun v => writeAll SETTINGS (writeU32 h (writeU32 w v))) w1 A4 ihdr_bytes) as B.
  destruct B as (B1 & B2 & B3).
  { intros v Hv _ _. unfold hdata.
    pose proof (writeU32_emits w v Hv) as E1.
    pose proof (writeU32_emits h _ (emits_ok _ _ _ _ E1)) as E2.
    pose proof (writeAll_emits SETTINGS _ (emits_ok _ _ _ _ E2) settings_bytes) as E3.
    exact (emits_app _ _ _ _ _ _ _ E1 (emits_app _ _ _ _ _ _ _ E2 E3)). }
  { reflexivity. }
  cbv beta in B1, B2, B3.
  set (w2 := endChunk (writeAll SETTINGS (writeU32 h (writeU32 w (beginChunk s_IHDR 13 w1))))) in *.
  cbn [fold_left] in B2.
  assert (S2 : wa w2 = 1 /\ wb w2 = 0).
  { split; [exact (f_equal fst (eq_trans B2 A3))|exact (f_equal snd (eq_trans B2 A3))]. }
  clearbody w2.
  (* IDAT *)
  pose proof (chunk_written s_IDAT (2 + h * (4 * w + 6) + 4) (zdata (4 * w + 1) (rev colors))
    (flat_map rowBytes (rev colors))
    (fun v => finishZ (fold_left (writeRow colors (4 * w + 1)) (seq 0 (length colors))
      (writeU8 1 (writeU8 120 v)))) w2 B3 idat_bytes) as C.
  destruct C as (C1 & C2 & C3).
  { intros v Hv Ha Hb. unfold zdata.
    pose proof (writeU8_emits 120 v Hv ltac:(unfold byte; lia)) as E1.
    pose proof (writeU8_emits 1 _ (emits_ok _ _ _ _ E1) byte_1) as E2.
    pose proof (writeRows_emits colors (4 * w + 1) (rev colors) [] _ (emits_ok _ _ _ _ E2) Fc eq_refl) as E3.
    rewrite rev_length in E3. cbn [length] in E3.
    set (w3 := fold_left _ (seq 0 (length colors)) _) in *.
    assert (Q : (wa w3, wb w3) = (adlerS1 (flat_map rowBytes (rev colors)) mod 65521,
                                  adlerS2 (flat_map rowBytes (rev colors)) mod 65521)).
    { destruct E3 as (_ & _ & E3 & _). rewrite E3, <- adler_fold. f_equal.
      cbn [writeU8 wa wb]. destruct S2. f_equal; congruence. }
    pose proof (f_equal fst Q) as Qa. pose proof (f_equal snd Q) as Qb. cbn [fst snd] in Qa, Qb.
    unfold finishZ. rewrite Qa, Qb, (proj1 (adler_joined _)).
    pose proof (writeU32_emits (adler (flat_map rowBytes (rev colors))) _ (emits_ok _ _ _ _ E3)) as E4.
    pose proof (emits_app _ _ _ _ _ _ _ E1 (emits_app _ _ _ _ _ _ _ E2 (emits_app _ _ _ _ _ _ _ E3 E4))) as E.
    cbn [app] in E. rewrite app_nil_r in E. exact E. }
  { unfold zdata, alen. cbn [length]. rewrite app_length. cbn [enc32 length].
    assert (Fr : Forall (fun row => alen row = w) (rev colors)) by (apply Forall_rev; exact Fw).
    pose proof (blocks_length (4 * w + 1) w (rev colors) Fr) as L. unfold alen in L. rewrite rev_length in L.
    fold (alen colors) in L. fold h in L. unfold u32. rewrite Z.mod_small by (unfold two32 in *; nia). lia. }
  unfold finishZ in C1, C2, C3. cbv beta in C1, C2, C3.
  set (w3 := fold_left _ (seq 0 (length colors)) _) in *.
  set (w4 := endChunk (writeU32 _ w3)) in *. clearbody w4.
  (* IEND *)
  pose proof (chunk_written s_IEND 0 [] [] (fun v => v) w4 C3 iend_bytes) as D.
  destruct D as (D1 & _ & _).
  { intros v Hv _ _. apply emits_nil. exact Hv. }
  { reflexivity. }
  cbv beta in D1. rewrite D1, C1, B1, A1. cbn [w0 os app]. rewrite <- !app_assoc. reflexivity.
Qed.

Lemma zdata_length : forall w rows, Forall (fun row => alen row = w) rows ->
  alen (zdata (4 * w + 1) rows) = 6 + alen rows * (4 * w + 6).
Proof.
  intros w rows F. unfold zdata. pose proof (blocks_length (4 * w + 1) w rows F) as L.
  unfold alen in *. cbn [length]. rewrite app_length. cbn [enc32 length]. lia.
Qed.

Lemma sameBytes_refl : forall l, sameBytes l l = true.
Proof. intros l. unfold sameBytes. destruct (list_eq_dec Z.eq_dec l l); [reflexivity|congruence]. Qed.

Lemma decode_writePNG : forall colors w h, 0 < w <= 16383 -> 0 < h -> isImage w h colors ->
  6 + h * (4 * w + 6) < 2 ^ 31 ->
  decode (writePNG colors) = Some (w, h, rev (map (map pixelOf) colors)).
Proof.
  intros colors w h Hw Hh I Hs. destruct I as (Hl & F).
  assert (Fw : Forall (fun row => alen row = w) colors)
    by (apply Forall_forall; intros r In_; rewrite Forall_forall in F; apply F; exact In_).
  assert (Fc : Forall (Forall isColor) colors)
    by (apply Forall_forall; intros r In_; rewrite Forall_forall in F; apply F; exact In_).
  assert (N : colors <> []) by (intros ->; cbn in Hl; lia).
  assert (Ha : alen colors = h) by exact Hl.
  rewrite (writePNG_chunks colors w N ltac:(lia)); [|split; [reflexivity|exact F]|unfold two32; lia].
  rewrite Ha. unfold decode.
  change 8 with (Z.of_nat (length MAGICK)) at 1. rewrite take_app.
  unfold require at 1. change [137; 80; 78; 71; 13; 10; 26; 10] with MAGICK. rewrite sameBytes_refl.
  assert (Lz : alen (zdata (4 * w + 1) (rev colors)) = 6 + h * (4 * w + 6)).
  { rewrite zdata_length by (apply Forall_rev; exact Fw). unfold alen. rewrite rev_length. unfold alen in Ha. lia. }
  assert (Fz : Forall byte (zdata (4 * w + 1) (rev colors))).
  { unfold zdata. apply Forall_cons; [unfold byte; lia|]. apply Forall_cons; [apply byte_1|].
    apply Forall_app. split; [apply blocks_bytes, Forall_rev; exact Fc|apply enc32_bytes]. }
  assert (Fh : Forall byte (hdata w h)).
  { unfold hdata. apply Forall_app. split; [apply enc32_bytes|].
    apply Forall_app. split; [apply enc32_bytes|apply settings_bytes]. }
  set (rest3 := chunk s_IEND []).
  set (rest2 := chunk s_IDAT (zdata (4 * w + 1) (rev colors)) ++ rest3).
  assert (C : forall fuel, (4 <= fuel)%nat -> parseChunks fuel (chunk s_IHDR (hdata w h) ++ rest2) =
    Some [(s_IHDR, hdata w h); (s_IDAT, zdata (4 * w + 1) (rev colors)); (s_IEND, [])]).
  { intros fuel Hf. destruct fuel as [|[|[|fuel]]]; try lia.
    rewrite parse_chunk; [|reflexivity|apply ihdr_bytes|exact Fh|cbn; lia]. unfold rest2.
    rewrite parse_chunk; [|reflexivity|apply idat_bytes|exact Fz|lia]. unfold rest3.
    rewrite <- (app_nil_r (chunk s_IEND [])).
    rewrite parse_chunk; [|reflexivity|apply iend_bytes|apply Forall_nil|cbn; lia].
    destruct fuel; reflexivity. }
  rewrite C by (unfold chunk; rewrite !app_length; cbn [enc32 length]; lia).
  unfold require at 1. change IHDR with s_IHDR. rewrite sameBytes_refl. unfold hdata.
  rewrite enc32_be32 by lia. rewrite enc32_be32 by nia.
  unfold require at 1. change [8; 6; 0; 0; 0] with SETTINGS. rewrite sameBytes_refl.
  unfold require at 1.
  destruct (Z.leb_spec 1 w); [|lia]. destruct (Z.leb_spec w 2147483647); [|lia].
  destruct (Z.leb_spec 1 h); [|lia]. destruct (Z.leb_spec h 2147483647); [|nia]. cbn [andb].
  assert (K : collect [(s_IDAT, zdata (4 * w + 1) (rev colors)); (s_IEND, [])] =
    Some (zdata (4 * w + 1) (rev colors))).
  { cbn [collect]. change (sameBytes s_IDAT IEND) with false. change (sameBytes s_IEND IEND) with true.
    change (sameBytes s_IDAT IDAT) with true. cbn [require]. rewrite app_nil_r. reflexivity. }
  rewrite K.
  rewrite unzlib_zdata; [|intros E; apply N; rewrite <- (rev_involutive colors), E; reflexivity|lia|].
  - replace (Z.to_nat h) with (length (rev colors)) by (rewrite rev_length; unfold alen in Ha; lia).
    rewrite scanlines_rows by (apply Forall_rev; exact Fw). rewrite map_rev. reflexivity.
  - apply Forall_rev. eapply Forall_impl; [|exact Fw]. intros r E. cbv beta in *. lia.
Qed.

(* The length of a chunk must not exceed 2^31 - 1. *)
Lemma decode_too_large : forall colors w h, 0 < w <= 16383 -> 0 < h -> isImage w h colors ->
  2 ^ 31 <= 6 + h * (4 * w + 6) < 2 ^ 32 -> decode (writePNG colors) = None.
Proof.
  intros colors w h Hw Hh I Hs. destruct I as (Hl & F).
  assert (Fw : Forall (fun row => alen row = w) colors)
    by (apply Forall_forall; intros r In_; rewrite Forall_forall in F; apply F; exact In_).
  assert (N : colors <> []) by (intros ->; cbn in Hl; lia).
  assert (Ha : alen colors = h) by exact Hl.
  rewrite (writePNG_chunks colors w N ltac:(lia)); [|split; [reflexivity|exact F]|unfold two32; lia].
  rewrite Ha. unfold decode.
  change 8 with (Z.of_nat (length MAGICK)) at 1. rewrite take_app.
  unfold require at 1. change [137; 80; 78; 71; 13; 10; 26; 10] with MAGICK. rewrite sameBytes_refl.
  assert (Lz : alen (zdata (4 * w + 1) (rev colors)) = 6 + h * (4 * w + 6)).
  { rewrite zdata_length by (apply Forall_rev; exact Fw). unfold alen. rewrite rev_length. unfold alen in Ha. lia. }
  assert (Fh : Forall byte (hdata w h)).
  { unfold hdata. apply Forall_app. split; [apply enc32_bytes|].
    apply Forall_app. split; [apply enc32_bytes|apply settings_bytes]. }
  assert (C : forall fuel rest, (2 <= fuel)%nat -> parseChunks fuel (chunk s_IHDR (hdata w h) ++
    chunk s_IDAT (zdata (4 * w + 1) (rev colors)) ++ rest) = None).
  { intros fuel rest Hf. destruct fuel as [|[|fuel]]; try lia.
    rewrite parse_chunk; [|reflexivity|apply ihdr_bytes|exact Fh|cbn; lia].
    unfold chunk at 1. rewrite Lz. rewrite <- app_assoc.
    rewrite parse_too_long by lia. reflexivity. }
  rewrite C by (unfold chunk; rewrite !app_length; cbn [enc32 length]; lia). reflexivity.
Qed.
