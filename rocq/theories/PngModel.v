(* Model of /repo/src/visualizer_png.h: colours, the image and the PNG writer.
   Operations with a factor of type Real (94-116, 140-143) are in ColorModel.v. Not modelled:
   the destructor (408-410) that calls write. assert is taken to be active. *)
From Verif Require Import Base.

(* ------------------------------------------------------------ Color *)

(* visualizer_png.h:26-27, the components are std::uint8_t *)
Record Color := { cr : Z; cg : Z; cb : Z; ca : Z }.

(* visualizer_png.h:28-32, Color(rgb, a) *)
Definition rgb (x a : Z) : Color :=
  {| cr := Z.land (Z.shiftr x 16) 255; cg := Z.land (Z.shiftr x 8) 255;
     cb := Z.land x 255; ca := a |}.

(* visualizer_png.h:179, TRANSPARENT *)
Definition TRANSPARENT : Color := rgb 0 0.

(* visualizer_png.h:67-69 *)
Definition colorEq (a b : Color) : bool :=
  (cr a =? cr b) && (cg a =? cg b) && (cb a =? cb b) && (ca a =? ca b).

(* visualizer_png.h:71-73 *)
Definition colorNe (a b : Color) : bool :=
  negb (cr a =? cr b) || negb (cg a =? cg b) || negb (cb a =? cb b) || negb (ca a =? ca b).

(* visualizer_png.h:84-92, clamp_color of an integer *)
Definition clampColor (c : Z) : Z := if c <? 0 then 0 else if 255 <? c then 255 else c.

(* visualizer_png.h:118-123, operator+ *)
Definition addColor (a b : Color) : Color :=
  {| cr := clampColor (cr a + cr b); cg := clampColor (cg a + cg b);
     cb := clampColor (cb a + cb b); ca := clampColor (ca a + ca b) |}.

(* visualizer_png.h:129-134, operator- *)
Definition subColor (a b : Color) : Color :=
  {| cr := clampColor (cr a - cr b); cg := clampColor (cg a - cg b);
     cb := clampColor (cb a - cb b); ca := clampColor (ca a - ca b) |}.

(* visualizer_png.h:145-154; / truncates, a division by zero would be UB and is 0
   here (aRes is positive, proved) *)
Definition blend (lower upper : Color) : Color :=
  if ca upper =? 255 then upper
  else if ca upper =? 0 then lower
  else
    let aLower := Z.quot (ca lower * (255 - ca upper)) 255 in
    let aRes := ca upper + aLower in
    {| cr := clampColor (Z.quot (cr upper * ca upper + cr lower * aLower) aRes);
       cg := clampColor (Z.quot (cg upper * ca upper + cg lower * aLower) aRes);
       cb := clampColor (Z.quot (cb upper * ca upper + cb lower * aLower) aRes);
       ca := clampColor aRes |}.

(* visualizer_png.h:156 *)
Inductive BlendMode := ASSIGN | BLEND | ADD | SUBTRACT.

(* visualizer_png.h:164-170 *)
Definition combine (m : BlendMode) (lower upper : Color) : Color :=
  match m with
  | ASSIGN => upper
  | BLEND => blend lower upper
  | ADD => addColor lower upper
  | SUBTRACT => subColor lower upper
  end.

(* ------------------------------------------------------------ PNGWriter *)

(* visualizer_png.h:190-193 *)
Definition CRC32 : list Z :=
  [0x00000000; 0x1db71064; 0x3b6e20c8; 0x26d930ac; 0x76dc4190; 0x6b6b51f4; 0x4db26158; 0x5005713c;
   0xedb88320; 0xf00f9344; 0xd6d6a3e8; 0xcb61b38c; 0x9b64c2b0; 0x86d3d2d4; 0xa00ae278; 0xbdbdf21c].

(* visualizer_png.h:194 *)
Definition MAGICK : list Z := [0x89; 0x50; 0x4E; 0x47; 0x0D; 0x0A; 0x1A; 0x0A].

(* visualizer_png.h:195-201 *)
Definition SETTINGS : list Z := [0x08; 0x06; 0x00; 0x00; 0x00].

(* visualizer_png.h:203-205; os holds the bytes written so far *)
Record writer := { os : list Z; wa : Z; wb : Z; wc : Z }.

(* one of the two equal statements of visualizer_png.h:210-211 *)
Definition crcNibble (c : Z) : Z := Z.lxor (Z.shiftr c 4) (nth (Z.to_nat (Z.land c 15)) CRC32 0).

(* visualizer_png.h:207-212 *)
Definition writeU8 (x : Z) (w : writer) : writer :=
  {| os := os w ++ [x]; wa := wa w; wb := wb w;
     wc := crcNibble (crcNibble (Z.lxor (wc w) x)) |}.

(* visualizer_png.h:213-216 *)
Definition writeU16L (x : Z) (w : writer) : writer :=
  writeU8 (Z.land (Z.shiftr x 8) 255) (writeU8 (Z.land x 255) w).

(* visualizer_png.h:217-222 *)
Definition writeU32 (x : Z) (w : writer) : writer :=
  writeU8 (Z.land x 255) (writeU8 (Z.land (Z.shiftr x 8) 255)
    (writeU8 (Z.land (Z.shiftr x 16) 255) (writeU8 (Z.land (Z.shiftr x 24) 255) w))).

(* visualizer_png.h:223-227; a + x and b + a stay below 2^32 *)
Definition writeU8Adler (x : Z) (w : writer) : writer :=
  let w := writeU8 x w in
  let a := (wa w + x) mod 65521 in
  let b := (wb w + a) mod 65521 in
  {| os := os w; wa := a; wb := b; wc := wc w |}.

(* for (uint8_t x : l) writeU8(x), visualizer_png.h:228-229, 233 *)
Definition writeAll (l : list Z) (w : writer) : writer := fold_left (fun w x => writeU8 x w) l w.

(* ~x on std::uint32_t *)
Definition not32 (x : Z) : Z := 4294967295 - x.

(* visualizer_png.h:230-234 *)
Definition beginChunk (s : list Z) (l : Z) (w : writer) : writer :=
  let w := writeU32 (u32 l) w in
  writeAll s {| os := os w; wa := wa w; wb := wb w; wc := not32 0 |}.

(* visualizer_png.h:235 *)
Definition endChunk (w : writer) : writer := writeU32 (not32 (wc w)) w.

(* "IHDR", "IDAT" and "IEND", visualizer_png.h:251, 257, 284 *)
Definition s_IHDR : list Z := [73; 72; 68; 82].
Definition s_IDAT : list Z := [73; 68; 65; 84].
Definition s_IEND : list Z := [73; 69; 78; 68].

(* visualizer_png.h:268-272 *)
Definition writeColor (w : writer) (x : Color) : writer :=
  writeU8Adler (ca x) (writeU8Adler (cb x) (writeU8Adler (cg x) (writeU8Adler (cr x) w))).

(* one iteration of visualizer_png.h:260-281, FLIP_Y is true (line 24) *)
Definition writeRow (colors : list (list Color)) (p : Z) (w : writer) (y : nat) : writer :=
  let w := writeU8 (if (y + 1 =? length colors)%nat then 1 else 0) w in
  let w := writeU16L p w in
  let w := writeU16L (not32 p) w in
  let w := writeU8Adler 0 w in
  fold_left writeColor (nth (length colors - 1 - y) colors []) w.

(* visualizer_png.h:244-286 on an empty file; colors is not empty *)
Definition writePNG (colors : list (list Color)) : list Z :=
  let width := alen (nth 0 colors []) in
  let height := alen colors in
  let w := {| os := []; wa := 1; wb := 0; wc := 0 |} in
  let p := u32 (4 * width + 1) in
  let w := writeAll MAGICK w in
  let w := beginChunk s_IHDR 13 w in
  let w := writeU32 (u32 width) w in
  let w := writeU32 (u32 height) w in
  let w := writeAll SETTINGS w in
  let w := endChunk w in
  let w := beginChunk s_IDAT (u64 (2 + height * u32 (p + 5) + 4)) w in
  let w := writeU8 0x78 w in
  let w := writeU8 0x1 w in
  let w := fold_left (writeRow colors p) (seq 0 (length colors)) w in
  let w := writeU32 (Z.lor (u32 (Z.shiftl (wb w) 16)) (wa w)) w in
  let w := endChunk w in
  let w := beginChunk s_IEND 0 w in
  os (endChunk w).

(* ------------------------------------------------------------ PNG *)

(* the member colors of PNG, colors[y][x] *)
Definition image := list (list Color).

(* a std::vector of 24-byte objects, std::vector<Color>, cannot have more elements;
   libstdc++ throws std::length_error *)
Definition maxRows : Z := (two63 - 1) / 24.

(* visualizer_png.h:319-323; negative sizes become too large ones *)
Definition clear (w h : Z) (fill : Color) : outcome image :=
  if negb (w <=? 16383) then Throw (* assert *)
  else if (w <? 0) || (h <? 0) || (maxRows <? h) then Throw
  else Ok (repeat (repeat fill (Z.to_nat w)) (Z.to_nat h)).

(* visualizer_png.h:325-331, reading and writing colors[y][x] *)
Definition getPx (img : image) (x y : Z) : outcome Color :=
  let! row := aget img y in aget row x.
Definition setPx (img : image) (x y : Z) (c : Color) : outcome image :=
  let! row := aget img y in
  let! row := aset row x c in
  aset img y row.

(* visualizer_png.h:333-339 *)
Definition width (img : image) : Z := match img with [] => 0 | row :: _ => alen row end.
Definition height (img : image) : Z := alen img.

(* colors[y][x] = details::combine<M>(colors[y][x], c) *)
Definition paint (m : BlendMode) (c : Color) (img : image) (x y : Z) : outcome image :=
  let! old := getPx img x y in setPx img x y (combine m old c).

(* visualizer_png.h:344-350, the loop over x on its values; note that the condition
   assigns to y:
   if (y = (a.y or y == b.y or x == a.x or x == b.x)) *)
Fixpoint fillRow (m : BlendMode) (ax ay bx by_ : Z) (border fill : Color) (xs : list Z)
    (y : Z) (img : image) : outcome (Z * image) :=
  match xs with
  | [] => Ok (y, img)
  | x :: xs =>
      let cond := negb (ay =? 0) || (y =? by_) || (x =? ax) || (x =? bx) in
      let y := if cond then 1 else 0 in
      let! img := paint m (if cond then border else fill) img x y in
      fillRow m ax ay bx by_ border fill xs y img
  end.

(* the values of x from lo to hi *)
Definition range (lo hi : Z) : list Z := map (fun i => lo + Z.of_nat i) (seq 0 (Z.to_nat (hi - lo + 1))).

(* visualizer_png.h:342-352; the number of iterations of the outer loop is limited to fuel *)
Definition fillRectangle (fuel : nat) (m : BlendMode) (a b : Z * Z) (border fill : Color) (img : image)
  : outcome image :=
  let (ax, ay) := a in let (bx, by_) := b in
  let! (_, img) := while fuel (fun s => fst s <=? Z.max ay by_)
    (fun s : Z * image => let (y, img) := s in
       let! (y, img) := fillRow m ax ay bx by_ border fill (range (Z.min ax bx) (Z.max ax bx)) y img in
       let! y := chk (y + 1) in
       Ok (y, img))
    (Z.min ay by_, img) in
  Ok img.

(* visualizer_png.h:289 *)
Definition DIRECTIONS : list (Z * Z) := [(0, 1); (0, -1); (1, 0); (-1, 0)].

(* visualizer_png.h:368-374, the loop over the directions; todo.back() is the head *)
Fixpoint spread (m : BlendMode) (fill old : Color) (p : Z * Z) (dirs : list (Z * Z))
    (todo : list (Z * Z)) (img : image) : outcome (list (Z * Z) * image) :=
  match dirs with
  | [] => Ok (todo, img)
  | (dx, dy) :: dirs =>
      let! y := chk (snd p + dy) in
      let! x := chk (fst p + dx) in
      if (y <? 0) || (height img <=? y) then spread m fill old p dirs todo img
      else if (x <? 0) || (width img <=? x) then spread m fill old p dirs todo img
      else
        let! c := getPx img x y in
        if colorNe c old then spread m fill old p dirs todo img
        else
          let! img := paint m fill img x y in
          spread m fill old p dirs ((x, y) :: todo) img
  end.

(* visualizer_png.h:360-376; no pixel is pushed twice, so the fuel suffices (proved) *)
Definition floodFill (m : BlendMode) (a : Z * Z) (fill : Color) (img : image) : outcome image :=
  let (ax, ay) := a in
  let! old := getPx img ax ay in
  let! img := paint m fill img ax ay in
  let! new := getPx img ax ay in
  if colorEq old new then Ok img
  else
    let! (_, img) := while (S (Z.to_nat (width img * height img)))
      (fun s => match fst s with [] => false | _ => true end)
      (fun s : list (Z * Z) * image =>
         match s with
         | ([], img) => Ok s
         | (p :: todo, img) => spread m fill old p DIRECTIONS todo img
         end)
      ([a], img) in
    Ok img.

(* (d < 0) - (d > 0), visualizer_png.h:382, 384 *)
Definition sign01 (d : Z) : Z := (if d <? 0 then 1 else 0) - (if d >? 0 then 1 else 0).

(* visualizer_png.h:389-398, the body of the loop *)
Definition lineStep (m : BlendMode) (fill : Color) (dx dy sx sy : Z) (s : Z * (Z * Z) * image)
  : outcome (Z * (Z * Z) * image) :=
  let '(error, (x, y), img) := s in
  let! e2 := chk (2 * error) in
  let! (error, x) :=
    if e2 >=? dy then let! error := chk (error + dy) in let! x := chk (x + sx) in Ok (error, x)
    else Ok (error, x) in
  let! (error, y) :=
    if e2 <=? dx then let! error := chk (error + dx) in let! y := chk (y + sy) in Ok (error, y)
    else Ok (error, y) in
  let! img := paint m fill img x y in
  Ok (error, (x, y), img).

(* visualizer_png.h:379-400; every iteration gets closer to b, so the fuel suffices
   for points in the image (proved) *)
Definition drawLine (m : BlendMode) (a b : Z * Z) (fill : Color) (img : image) : outcome image :=
  let (ax, ay) := a in let (bx, by_) := b in
  let! ex := chk (bx - ax) in
  let! dx := chk (Z.abs ex) in
  let! fx := chk (ax - bx) in
  let sx := sign01 fx in
  let! ey := chk (by_ - ay) in
  let! ey := chk (Z.abs ey) in
  let! dy := chk (- ey) in
  let! fy := chk (ay - by_) in
  let sy := sign01 fy in
  let! error := chk (dx + dy) in
  let! img := paint m fill img ax ay in
  let! (_, _, img) := while (Z.to_nat (Z.max dx ey))
    (fun s => let '(_, (x, y), _) := s in negb (x =? bx) || negb (y =? by_))
    (lineStep m fill dx dy sx sy)
    (error, (ax, ay), img) in
  Ok img.

(* visualizer_png.h:402-406; the file written, if any. fileName tells whether there is one *)
Definition write (fileName : bool) (img : image) : option (list Z) :=
  if negb fileName || (width img =? 0) then None else Some (writePNG img).
