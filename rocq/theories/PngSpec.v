(* What a PNG file means: a decoder following the PNG specification (second edition),
   RFC 1950 (zlib) and RFC 1951 (deflate). It knows only the features a writer of
   uncompressed images needs: critical chunks, 8-bit RGBA without interlacing, stored
   blocks, filter type 0; everything else is rejected. *)
From Coq Require Import ZArith List Bool.
From Verif Require Import Base PngModel.
Import ListNotations.
Open Scope Z_scope.

(* ------------------------------------------------------------ numbers *)

Definition byte (x : Z) : Prop := 0 <= x < 256.

Definition be32 (l : list Z) : option (Z * list Z) :=
  match l with
  | a :: b :: c :: d :: l => Some (((a * 256 + b) * 256 + c) * 256 + d, l)
  | _ => None
  end.

Definition le16 (l : list Z) : option (Z * list Z) :=
  match l with a :: b :: l => Some (a + 256 * b, l) | _ => None end.

(* the first n elements and the rest *)
Definition take {A} (n : Z) (l : list A) : option (list A * list A) :=
  if n <=? Z.of_nat (length l) then Some (firstn (Z.to_nat n) l, skipn (Z.to_nat n) l) else None.

Notation "'do' p <- e ; k" := (match e with Some p => k | None => None end)
  (at level 200, p pattern, e at level 100, k at level 200).
Definition require {A} (b : bool) (k : option A) : option A := if b then k else None.

Definition sameBytes (a b : list Z) : bool := if list_eq_dec Z.eq_dec a b then true else false.

(* ------------------------------------------------------------ checksums *)

(* CRC-32, bit by bit, as in annex D of the PNG specification *)
Definition crcBit (c : Z) : Z :=
  if Z.odd c then Z.lxor (c / 2) 0xEDB88320 else c / 2.
Definition crcByte (c x : Z) : Z := Nat.iter 8 crcBit (Z.lxor c x).
Definition crc (l : list Z) : Z := Z.lxor (fold_left crcByte l 0xFFFFFFFF) 0xFFFFFFFF.

(* Adler-32, RFC 1950 section 2.2: s1 is 1 plus the sum of all bytes, s2 the sum of the
   values of s1 after each byte, both modulo 65521 *)
Fixpoint sum (l : list Z) : Z := match l with [] => 0 | x :: l => x + sum l end.
Definition adlerS1 (l : list Z) : Z := 1 + sum l.
Definition adlerS2 (l : list Z) : Z := sum (map (fun k => adlerS1 (firstn k l)) (seq 1 (length l))).
Definition adler (l : list Z) : Z := (adlerS2 l mod 65521) * 65536 + adlerS1 l mod 65521.

(* ------------------------------------------------------------ chunks *)

Fixpoint parseChunks (fuel : nat) (l : list Z) : option (list (list Z * list Z)) :=
  match l, fuel with
  | [], _ => Some []
  | _, O => None
  | _, S fuel =>
      do (len, l) <- be32 l;
      require (len <=? 2147483647) (
      do (type, l) <- take 4 l;
      do (data, l) <- take len l;
      do (check, l) <- be32 l;
      require (check =? crc (type ++ data)) (
      do rest <- parseChunks fuel l;
      Some ((type, data) :: rest)))
  end.

Definition IHDR : list Z := [0x49; 0x48; 0x44; 0x52].
Definition IDAT : list Z := [0x49; 0x44; 0x41; 0x54].
Definition IEND : list Z := [0x49; 0x45; 0x4E; 0x44].

(* the data of the chunks IDAT up to IEND *)
Fixpoint collect (cs : list (list Z * list Z)) : option (list Z) :=
  match cs with
  | [] => None
  | (type, data) :: cs =>
      if sameBytes type IEND then
        match cs, data with [], [] => Some [] | _, _ => None end
      else require (sameBytes type IDAT) (do rest <- collect cs; Some (data ++ rest))
  end.

(* ------------------------------------------------------------ deflate and zlib *)

(* stored blocks: BFINAL is the lowest bit of the header, BTYPE the next two; the rest
   of the byte is skipped *)
Fixpoint inflate (fuel : nat) (l : list Z) : option (list Z * list Z) :=
  match fuel, l with
  | S fuel, head :: l =>
      require ((head / 2) mod 4 =? 0) (
      do (len, l) <- le16 l;
      do (nlen, l) <- le16 l;
      require (nlen =? 65535 - len) (
      do (data, l) <- take len l;
      if head mod 2 =? 1 then Some (data, l)
      else do (more, l) <- inflate fuel l; Some (data ++ more, l)))
  | _, _ => None
  end.

Definition unzlib (l : list Z) : option (list Z) :=
  match l with
  | cmf :: flg :: l =>
      require (cmf mod 16 =? 8) (
      require (cmf / 16 <=? 7) (
      require ((cmf * 256 + flg) mod 31 =? 0) (
      require (negb (Z.testbit flg 5)) (
      do (data, l) <- inflate (length l) l;
      do (check, l) <- be32 l;
      require (match l with [] => true | _ => false end) (
      require (check =? adler data) (Some data))))))
  | _ => None
  end.

(* ------------------------------------------------------------ pixels *)

Definition pixel : Type := Z * Z * Z * Z. (* red, green, blue, alpha *)

Fixpoint group (l : list Z) : option (list pixel) :=
  match l with
  | [] => Some []
  | r :: g :: b :: a :: l => do rest <- group l; Some ((r, g, b, a) :: rest)
  | _ => None
  end.

(* h scanlines of 4 * w bytes, each preceded by its filter type *)
Fixpoint scanlines (h : nat) (w : Z) (l : list Z) : option (list (list pixel)) :=
  match h with
  | O => match l with [] => Some [] | _ => None end
  | S h =>
      match l with
      | filter :: l =>
          require (filter =? 0) (
          do (row, l) <- take (4 * w) l;
          do row <- group row;
          do rows <- scanlines h w l;
          Some (row :: rows))
      | [] => None
      end
  end.

(* ------------------------------------------------------------ the decoder *)

(* width, height and the pixels, top row first *)
Definition decode (l : list Z) : option (Z * Z * list (list pixel)) :=
  do (sig, l) <- take 8 l;
  require (sameBytes sig [137; 80; 78; 71; 13; 10; 26; 10]) (
  do cs <- parseChunks (length l) l;
  match cs with
  | (type, head) :: cs =>
      require (sameBytes type IHDR) (
      do (w, head) <- be32 head;
      do (h, head) <- be32 head;
      require ((1 <=? w) && (w <=? 2147483647) && (1 <=? h) && (h <=? 2147483647)) (
      require (sameBytes head [8; 6; 0; 0; 0]) (* depth, colour type, compression, filter, interlace *) (
      do z <- collect cs;
      do data <- unzlib z;
      do rows <- scanlines (Z.to_nat h) w data;
      Some (w, h, rows))))
  | [] => None
  end).

(* ------------------------------------------------------------ images *)

Definition isColor (c : Color) : Prop := byte (cr c) /\ byte (cg c) /\ byte (cb c) /\ byte (ca c).

(* h rows of w colours *)
Definition isImage (w h : Z) (img : image) : Prop :=
  Z.of_nat (length img) = h /\ Forall (fun row => Z.of_nat (length row) = w /\ Forall isColor row) img.

Definition pixelOf (c : Color) : pixel := (cr c, cg c, cb c, ca c).

(* the colour at (x, y), counted from the lower left corner *)
Definition at_ (img : image) (x y : Z) : option Color :=
  if (x <? 0) || (y <? 0) then None
  else match nth_error img (Z.to_nat y) with
       | Some row => nth_error row (Z.to_nat x)
       | None => None
       end.

Definition inside (w h : Z) (p : Z * Z) : Prop := 0 <= fst p < w /\ 0 <= snd p < h.

(* q can be reached from p by steps to a neighbour to the left, right, above or below,
   staying on pixels of the colour c *)
Inductive connected (img : image) (c : Color) : Z * Z -> Z * Z -> Prop :=
| conn_refl : forall x y, at_ img x y = Some c -> connected img c (x, y) (x, y)
| conn_step : forall p x y x' y', connected img c p (x, y) ->
    Z.abs (x' - x) + Z.abs (y' - y) = 1 -> at_ img x' y' = Some c ->
    connected img c p (x', y').

(* lines: p is at most half a pixel away from the segment from a to b, measured along
   the axis in which the segment is shorter *)
Definition near (a b p : Z * Z) : Prop :=
  2 * Z.abs ((fst p - fst a) * (snd b - snd a) - (snd p - snd a) * (fst b - fst a)) <=
    Z.max (Z.abs (fst b - fst a)) (Z.abs (snd b - snd a)).

Definition inBox (a b p : Z * Z) : Prop :=
  Z.min (fst a) (fst b) <= fst p <= Z.max (fst a) (fst b) /\
  Z.min (snd a) (snd b) <= snd p <= Z.max (snd a) (snd b).

(* consecutive pixels touch, at least at a corner *)
Fixpoint touching (path : list (Z * Z)) : Prop :=
  match path with
  | p :: (q :: _) as rest => Z.max (Z.abs (fst q - fst p)) (Z.abs (snd q - snd p)) = 1 /\ touching rest
  | _ => True
  end.

(* the pixels of a line from a to b: one for each step along the longer axis *)
Definition isLine (a b : Z * Z) (path : list (Z * Z)) : Prop :=
  hd_error path = Some a /\ last path a = b /\ touching path /\ NoDup path /\
  Z.of_nat (length path) = Z.max (Z.abs (fst b - fst a)) (Z.abs (snd b - snd a)) + 1 /\
  Forall (near a b) path /\ Forall (inBox a b) path.

(* img' is img with the colour c combined once into the pixels in P and no other *)
Definition paintedOn (m : BlendMode) (c : Color) (P : Z * Z -> Prop) (img img' : image) : Prop :=
  forall x y, (P (x, y) -> at_ img' x y = option_map (fun old => combine m old c) (at_ img x y)) /\
              (~ P (x, y) -> at_ img' x y = at_ img x y).

(* rectangles with the corners a and b *)
Definition onBorder (a b p : Z * Z) : Prop :=
  fst p = fst a \/ fst p = fst b \/ snd p = snd a \/ snd p = snd b.

(* img' is img with the rectangle drawn *)
Definition rectangleOn (m : BlendMode) (a b : Z * Z) (border fill : Color) (img img' : image) : Prop :=
  forall x y,
    (inBox a b (x, y) -> onBorder a b (x, y) ->
      at_ img' x y = option_map (fun old => combine m old border) (at_ img x y)) /\
    (inBox a b (x, y) -> ~ onBorder a b (x, y) ->
      at_ img' x y = option_map (fun old => combine m old fill) (at_ img x y)) /\
    (~ inBox a b (x, y) -> at_ img' x y = at_ img x y).

(* drawing calls *)
Inductive op :=
| Clear (w h : Z) (fill : Color)
| Put (x y : Z) (c : Color)
| Fill (m : BlendMode) (a b : Z * Z) (border fill : Color)
| Flood (m : BlendMode) (a : Z * Z) (fill : Color)
| Line (m : BlendMode) (a b : Z * Z) (fill : Color).

Definition runOp (fuel : nat) (img : image) (o : op) : outcome image :=
  match o with
  | Clear w h fill => clear w h fill
  | Put x y c => setPx img x y c
  | Fill m a b border fill => fillRectangle fuel m a b border fill img
  | Flood m a fill => floodFill m a fill img
  | Line m a b fill => drawLine m a b fill img
  end.

(* a new PNG object has no pixels *)
Fixpoint runOps (fuel : nat) (img : image) (os : list op) : outcome image :=
  match os with
  | [] => Ok img
  | o :: os => let! img := runOp fuel img o in runOps fuel img os
  end.

Definition opColors (o : op) : Prop :=
  match o with
  | Clear _ _ c => isColor c
  | Put _ _ c => isColor c
  | Fill _ _ _ c d => isColor c /\ isColor d
  | Flood _ _ c => isColor c
  | Line _ _ _ c => isColor c
  end.
