(* archive/javaSortHack.cpp: HackedSort. *)
From Verif Require Import Base RndModel RandSeqModel.
From Coq Require Import ZArith List.
Import ListNotations.
Open Scope Z_scope.

(* javaSortHack.cpp:7-8 *)
Definition NO_VALUE : Z := -1.
Definition THRESHOLD : Z := 47.
(* javaSortHack.cpp:11 and 24-25, the members *)
Record hacked := mkHacked { hdata : list Z; hp : list Z; hmin : Z; hmax : Z }.

(* javaSortHack.cpp:27-32 *)
Definition myLess (s : hacked) (a b : Z) : bool :=
  if negb (a =? NO_VALUE) && negb (b =? NO_VALUE) then a <? b
  else if a =? NO_VALUE then hmax s <? b
  else if b =? NO_VALUE then a <? hmin s
  else false.
(* javaSortHack.cpp:34-39 *)
Definition myGreater (s : hacked) (a b : Z) : bool :=
  if negb (a =? NO_VALUE) && negb (b =? NO_VALUE) then b <? a
  else if a =? NO_VALUE then b <? hmin s
  else if b =? NO_VALUE then hmax s <? a
  else false.

Definition withData (s : hacked) (d p : list Z) : hacked := mkHacked d p (hmin s) (hmax s).
(* if (data[i] == NO_VALUE) data[i] = MIN_VALUE++; *)
Definition setMin (s : hacked) (i : Z) : outcome hacked :=
  let! x := aget (hdata s) i in
  if x =? NO_VALUE then
    let! d := aset (hdata s) i (hmin s) in
    let! m := chk (hmin s + 1) in
    Ok (mkHacked d (hp s) m (hmax s))
  else Ok s.
(* if (data[i] == NO_VALUE) data[i] = MAX_VALUE--; *)
Definition setMax (s : hacked) (i : Z) : outcome hacked :=
  let! x := aget (hdata s) i in
  if x =? NO_VALUE then
    let! d := aset (hdata s) i (hmax s) in
    let! m := chk (hmax s - 1) in
    Ok (mkHacked d (hp s) (hmin s) m)
  else Ok s.
(* std::swap(data[i], data[j]); std::swap(p[i], p[j]); *)
Definition swapBoth (s : hacked) (i j : Z) : outcome hacked :=
  let! d := aswap (hdata s) i j in
  let! p := aswap (hp s) i j in
  Ok (withData s d p).

(* javaSortHack.cpp:44-46; k iterations are left *)
Fixpoint fillDown (k : nat) (i : Z) (s : hacked) : outcome hacked :=
  match k with
  | O => Ok s
  | S k => let! s := setMin s i in fillDown k (i - 1) s
  end.
(* std::sort of Integers *)
Fixpoint insertInt (x : Z) (l : list Z) : list Z :=
  match l with [] => [x] | y :: t => if y <? x then y :: insertInt x t else x :: l end.
Definition sortInts (l : list Z) : list Z := fold_right insertInt [] l.
(* replaces the elements with index left..right *)
Definition onRange (l : list Z) (left right : Z) (f : list Z -> list Z) : list Z :=
  firstn (Z.to_nat left) l ++ f (firstn (Z.to_nat (right + 1 - left)) (skipn (Z.to_nat left) l)) ++ skipn (Z.to_nat (right + 1)) l.
(* javaSortHack.cpp:43-50 *)
Definition small (left right : Z) (s : hacked) : rnd hacked :=
  if (left <? 0) || (right + 1 <? left) || (alen (hdata s) <? right + 1) then RRet UB else
  let? s := lift (fillDown (Z.to_nat (right + 1 - left)) right s) in
  let d := onRange (hdata s) left right sortInts in
  let? q := shuffle (firstn (Z.to_nat (right + 1 - left)) (skipn (Z.to_nat left) (hp s))) in
  ret (withData s d (onRange (hp s) left right (fun _ => q))).

(* javaSortHack.cpp:65-70, the inner loop: e are the five indices *)
Fixpoint sink (j : nat) (e : list Z) (s : hacked) : outcome hacked :=
  match j with
  | O => Ok s
  | S j' =>
    let! i := aget e (Z.of_nat j) in
    let! i' := aget e (Z.of_nat j') in
    let! x := aget (hdata s) i in
    let! y := aget (hdata s) i' in
    if myLess s x y then let! s := swapBoth s i i' in sink j' e s else Ok s
  end.
(* javaSortHack.cpp:85 *)
Fixpoint scanUp (fuel : nat) (s : hacked) (pivot less : Z) : outcome Z :=
  match fuel with
  | O => Fuel
  | S fuel => let! x := aget (hdata s) (less + 1) in if myLess s x pivot then scanUp fuel s pivot (less + 1) else Ok (less + 1)
  end.
(* javaSortHack.cpp:86 *)
Fixpoint scanDown (fuel : nat) (s : hacked) (pivot great : Z) : outcome Z :=
  match fuel with
  | O => Fuel
  | S fuel => let! x := aget (hdata s) (great - 1) in if myGreater s x pivot then scanDown fuel s pivot (great - 1) else Ok (great - 1)
  end.
(* javaSortHack.cpp:94-96 and 128-130; true is the jump *)
Fixpoint dropGreat (fuel : nat) (d : list Z) (gt : Z -> bool) (k great : Z) : outcome (Z * bool) :=
  match fuel with
  | O => Fuel
  | S fuel =>
    let! x := aget d great in
    if gt x then (if great =? k then Ok (great - 1, true) else dropGreat fuel d gt k (great - 1)) else Ok (great, false)
  end.
(* javaSortHack.cpp:88-107 and 122-142; k is its value before the test. Neither loop changes
   MIN_VALUE or MAX_VALUE. The results are the state, less and great. *)
Fixpoint partLoop (fuel : nat) (lt gt : Z -> bool) (k less great : Z) (s : hacked) : outcome (hacked * Z * Z) :=
  match fuel with
  | O => Fuel
  | S fuel =>
    let k := k + 1 in
    if k <=? great then
      let! x := aget (hdata s) k in
      if lt x then
        let! s := swapBoth s k less in partLoop fuel lt gt k (less + 1) great s
      else if gt x then
        let! (great, out) := dropGreat fuel (hdata s) gt k great in
        if out then Ok (s, less, great)
        else
          let! s := swapBoth s k great in
          let! x := aget (hdata s) k in
          if lt x then
            let! s := swapBoth s k less in partLoop fuel lt gt k (less + 1) (great - 1) s
          else partLoop fuel lt gt k less (great - 1) s
      else partLoop fuel lt gt k less great s
    else Ok (s, less, great)
  end.
(* data[i] = data[j]; p[i] = p[j]; *)
Definition moveBoth (s : hacked) (i j : Z) : outcome hacked :=
  let! x := aget (hdata s) j in let! d := aset (hdata s) i x in
  let! y := aget (hp s) j in let! p := aset (hp s) i y in
  Ok (withData s d p).
Definition setBoth (s : hacked) (i x y : Z) : outcome hacked :=
  let! d := aset (hdata s) i x in let! p := aset (hp s) i y in Ok (withData s d p).

(* javaSortHack.cpp:51-57, the five indices *)
Definition fiveIndices (left right : Z) : list Z :=
  let length := right - left + 1 in
  let seventh := Z.shiftr length 3 + Z.shiftr length 6 + 1 in
  let e2 := Z.shiftr (left + right) 1 in
  [e2 - seventh - seventh; e2 - seventh; e2; e2 + seventh; e2 + seventh + seventh].
(* javaSortHack.cpp:59-116, up to the recursive calls: state, less, great, pivot1, pivot2 *)
Definition dualPivot (fuel : nat) (left right : Z) (s : hacked) : outcome (hacked * Z * Z * Z * Z) :=
  let e := fiveIndices left right in
  let! e1 := aget e 1 in
  let! e3 := aget e 3 in
  let! i := aget e 4 in let! s := setMin s i in
  let! i := aget e 3 in let! s := setMin s i in
  let! i := aget e 0 in let! s := setMax s i in
  let! i := aget e 1 in let! s := setMax s i in
  let! s := sink 1 e s in
  let! s := sink 2 e s in
  let! s := sink 3 e s in
  let! s := sink 4 e s in
  let! pivot1 := aget (hdata s) e1 in
  let! pivot2 := aget (hdata s) e3 in
  let! ppivot1 := aget (hp s) e1 in
  let! ppivot2 := aget (hp s) e3 in
  let! s := moveBoth s e1 left in
  let! s := moveBoth s e3 right in
  let! less := scanUp fuel s pivot1 left in
  let! great := scanDown fuel s pivot2 right in
  let! (s, less, great) := partLoop fuel (fun x => myLess s x pivot1) (fun x => myGreater s x pivot2) (less - 1) less great s in
  let! s := moveBoth s left (less - 1) in
  let! s := setBoth s (less - 1) pivot1 ppivot1 in
  let! s := moveBoth s right (great + 1) in
  let! s := setBoth s (great + 1) pivot2 ppivot2 in
  Ok (s, less, great, pivot1, pivot2).
(* javaSortHack.cpp:41-144; leftmost is not used. Indices of vectors do not overflow. *)
Fixpoint hackedSort (fuel : nat) (left right : Z) (s : hacked) : rnd hacked :=
  match fuel with
  | O => RRet Fuel
  | S fuel =>
    if right - left + 1 <? THRESHOLD then small left right s
    else
      let? (s, less, great, pivot1, pivot2) := lift (dualPivot fuel left right s) in
      let? s := hackedSort fuel left (less - 2) s in
      let? s := hackedSort fuel (great + 2) right s in
      let? (s, less, great) := lift (
        let! e0 := aget (fiveIndices left right) 0 in
        let! e4 := aget (fiveIndices left right) 4 in
        if (less <? e0) && (e4 <? great) then partLoop fuel (fun x => x =? pivot1) (fun x => x =? pivot2) (less - 1) less great s
        else Ok (s, less, great)) in
      hackedSort fuel less great s
  end.
(* javaSortHack.cpp:16-19 *)
Fixpoint scatter (p d tmp : list Z) : outcome (list Z) :=
  match p, d with
  | i :: p, x :: d => let! tmp := aset tmp i x in scatter p d tmp
  | _, _ => Ok tmp
  end.
(* javaSortHack.cpp:13-21; a vector of negative size is not created *)
Definition HackedSort (fuel : nat) (n mi : Z) : rnd (list Z) :=
  if n <? 0 then RRet Throw else
  let? mx := lift (chk (mi + n)) in
  let? s := hackedSort fuel 0 (n - 1) (mkHacked (repeat NO_VALUE (Z.to_nat n)) (zseq 0 (Z.to_nat n)) mi mx) in
  lift (scatter (hp s) (hdata s) (repeat 0 (Z.to_nat n))).
