(* Model of the random sequences of /repo/src/validate.h:1423-1428, 1588-1830. *)
From Verif Require Import Base RndModel MathModel.

(* std::swap(a[i], a[j]) *)
Definition aswap {A} (l : list A) (i j : Z) : outcome (list A) :=
  let! x := aget l i in
  let! y := aget l j in
  let! l := aset l i y in
  aset l j x.

(* validate.h:1643-1649  shuffle: i counts down from n-1 to 1; the structural argument is
   the current value of i *)
Fixpoint shuffleFrom {A} (i : nat) (l : list A) : rnd (list A) :=
  match i with
  | O => ret l
  | S i' =>
    let? j := rint 0 (Z.of_nat i + 1) in
    let? l := lift (aswap l (Z.of_nat i) j) in
    shuffleFrom i' l
  end.
Definition shuffle {A} (l : list A) : rnd (list A) := shuffleFrom (length l - 1) l.

(* validate.h:1609-1613  select *)
Definition select {A} (l : list A) : rnd A :=
  let? _ := lift (judgeAssert (0 <? alen l)) in
  let? i := rint 0 (alen l) in
  lift (aget l i).

(* validate.h:1671-1675  rotate: std::rotate moves element k to the front *)
Definition rotate {A} (l : list A) : rnd (Z * list A) :=
  let? k := rint 0 (alen l) in
  ret (k, skipn (Z.to_nat k) l ++ firstn (Z.to_nat k) l).

(* std::map<Integer, Integer>: newest binding first *)
Fixpoint mfind (m : list (Z * Z)) (x : Z) : option Z :=
  match m with
  | [] => None
  | (k, v) :: m' => if k =? x then Some v else mfind m' x
  end.

(* validate.h:1692-1702  loop of distinct; n = remaining iterations, i = iteration index *)
Fixpoint distinctLoop (n : nat) (i lower upper : Z) (used : list (Z * Z)) (res : list Z)
  : rnd (list Z) :=
  match n with
  | O => ret res
  | S n' =>
    let? hi := lift (chk (upper - i)) in
    let? x := rint lower hi in
    let res := res ++ [match mfind used x with Some v => v | None => x end] in
    let? last := lift (chk (upper - i - 1)) in
    let used := (x, match mfind used last with Some v => v | None => last end) :: used in
    distinctLoop n' (i + 1) lower upper used res
  end.
(* validate.h:1687-1704 *)
Definition distinct (count lower upper : Z) : rnd (list Z) :=
  let? _ := lift (judgeAssert (0 <=? count)) in
  let? e := lift (chk (lower + count)) in
  let? _ := lift (judgeAssert (e <=? upper)) in
  distinctLoop (Z.to_nat count) 0 lower upper [] [].

(* validate.h:792-807 range(from, to) for from <= to, as used by perm (step 1) *)
Definition rangeUp (from to : Z) : list Z := zseq from (Z.to_nat (to - from)).

(* validate.h:1707-1712  perm(count, offset) *)
Definition perm (count offset : Z) : rnd (list Z) :=
  let? _ := lift (judgeAssert (0 <=? count)) in
  let? e := lift (chk (offset + count)) in
  shuffle (rangeUp offset e).

(* validate.h:1719-1722  one cycle p[tmp], p[tmp+1], ..., p[tmp+c-1]; k = remaining steps *)
Fixpoint cycleInner (k : nat) (p res : list Z) (j offset : Z) : outcome (list Z) :=
  match k with
  | O => Ok res
  | S k' =>
    let! a := aget p j in
    let! b := aget p (j + 1) in
    let! v := chk (b + offset) in
    let! res := aset res a v in
    cycleInner k' p res (j + 1) offset
  end.
(* validate.h:1718-1725 *)
Fixpoint cycleLoop (cycles p res : list Z) (tmp offset : Z) : outcome (list Z) :=
  match cycles with
  | [] => Ok res
  | c :: cs =>
    let! _ := judgeAssert (0 <? c) in
    let! res := cycleInner (Z.to_nat (c - 1)) p res tmp offset in
    let! a := aget p (tmp + c - 1) in
    let! b := aget p tmp in
    let! v := chk (b + offset) in
    let! res := aset res a v in
    cycleLoop cs p res (tmp + c) offset
  end.
(* std::accumulate over Integer *)
Fixpoint accumulate (l : list Z) (s : Z) : outcome Z :=
  match l with [] => Ok s | x :: l' => let! s := chk (s + x) in accumulate l' s end.
(* validate.h:1714-1726  perm(cycles, offset) *)
Definition permCycles (cycles : list Z) (offset : Z) : rnd (list Z) :=
  let? n := lift (accumulate cycles 0) in
  let? p := perm n 0 in
  lift (cycleLoop cycles p (repeat 0 (length p)) 0 offset).

(* validate.h:1731-1734  swap the fixed points into res; `and` does not add for x < offset *)
Fixpoint fixLoop (fix_ : list Z) (tmp res : list Z) (count offset : Z)
  : outcome (list Z * list Z) :=
  match fix_ with
  | [] => Ok (tmp, res)
  | x :: xs =>
    let! inside := (if offset <=? x then let! e := chk (offset + count) in Ok (x <? e) else Ok false) in
    let! _ := judgeAssert inside in
    let! a := aget tmp (x - offset) in
    let! b := aget res (x - offset) in
    let! tmp := aset tmp (x - offset) b in
    let! res := aset res (x - offset) a in
    fixLoop xs tmp res count offset
  end.
(* validate.h:1738  for (; x < 0; i++) x = tmp[i]; returns x and the rest of tmp.
   Reading beyond the end of tmp is UB. *)
Fixpoint nextFree (tmp : list Z) : outcome (Z * list Z) :=
  match tmp with
  | [] => UB
  | t :: tmp' => if t <? 0 then nextFree tmp' else Ok (t, tmp')
  end.
(* validate.h:1737-1740 *)
Fixpoint fillLoop (res tmp : list Z) (offset : Z) : outcome (list Z) :=
  match res with
  | [] => Ok []
  | x :: res' =>
    let! (x, tmp) := if x <? 0 then nextFree tmp else Ok (x, tmp) in
    let! v := chk (x + offset) in
    let! r := fillLoop res' tmp offset in
    Ok (v :: r)
  end.
(* validate.h:1728-1742  perm(count, fix, offset) *)
Definition permFix (count : Z) (fix_ : list Z) (offset : Z) : rnd (list Z) :=
  let? _ := lift (judgeAssert (0 <=? count)) in
  let? (tmp, res) := lift (fixLoop fix_ (rangeUp 0 count) (repeat (-1) (Z.to_nat count)) count offset) in
  let? tmp := shuffle tmp in
  lift (fillLoop res tmp offset).

(* validate.h:1745-1749  multiple; the vector constructor throws for negative count *)
Fixpoint multipleLoop (n : nat) (lower upper : Z) : rnd (list Z) :=
  match n with
  | O => ret []
  | S n' => let? x := rint lower upper in
            let? r := multipleLoop n' lower upper in
            ret (x :: r)
  end.
Definition multiple (count lower upper : Z) : rnd (list Z) :=
  let? _ := lift (judgeAssert (0 <=? count)) in multipleLoop (Z.to_nat count) lower upper.

(* std::sort with less / greater on integers: insertion sort, the sorted arrangement of a
   list of integers is unique *)
Fixpoint insert (x : Z) (l : list Z) : list Z :=
  match l with
  | [] => [x]
  | y :: l' => if x <=? y then x :: l else y :: insert x l'
  end.
Definition sort (l : list Z) : list Z := fold_right insert [] l.

(* validate.h:1754-1788 *)
Definition increasing (count lower upper : Z) := let? r := distinct count lower upper in ret (sort r).
Definition decreasing (count lower upper : Z) := let? r := distinct count lower upper in ret (rev (sort r)).
Definition nonDecreasing (count lower upper : Z) := let? r := multiple count lower upper in ret (sort r).
Definition nonIncreasing (count lower upper : Z) := let? r := multiple count lower upper in ret (rev (sort r)).

(* validate.h:1797-1801  differences of the cut points *)
Fixpoint diffLoop (l : list Z) (last min : Z) : outcome (list Z) :=
  match l with
  | [] => Ok []
  | x :: l' =>
    let! d := chk (x - last) in
    let! last := chk (last + d) in
    let! m := chk (min - 1) in
    let! v := chk (d + m) in
    let! r := diffLoop l' last min in
    Ok (v :: r)
  end.
(* validate.h:1790-1803  partition(n, k, min) *)
Definition partition (n k min : Z) : rnd (list Z) :=
  let? _ := lift (judgeAssert (0 <? n)) in
  let? _ := lift (judgeAssert (0 <? k)) in
  let? ok := lift (if min <=? 0 then Ok true else let! q := cdiv n min in Ok (k <=? q)) in
  let? _ := lift (judgeAssert ok) in
  let? m := lift (chk (min - 1)) in
  let? mk := lift (chk (m * k)) in
  let? n := lift (chk (n - mk)) in
  let? res := increasing (k - 1) 1 n in
  lift (diffLoop (res ++ [n]) 0 min).

(* validate.h:1805-1811  string(n, alphabet) *)
Fixpoint stringLoop {A} (n : nat) (alphabet : list A) : rnd (list A) :=
  match n with
  | O => ret []
  | S n' => let? c := select alphabet in
            let? r := stringLoop n' alphabet in
            ret (c :: r)
  end.
Definition rstring {A} (n : Z) (alphabet : list A) : rnd (list A) :=
  let? _ := lift (judgeAssert ((0 <=? n) && (n <=? 4294967295))) in
  let? _ := lift (judgeAssert (0 <? alen alphabet)) in
  stringLoop (Z.to_nat n) alphabet.

(* validate.h:1816-1824  body of bracketSequence; true = open. k = remaining iterations *)
Fixpoint bracketLoop (k : nat) (n i diff : Z) : rnd (list bool) :=
  match k with
  | O => ret []
  | S k' =>
    let opened := Z.quot (i + diff) 2 in
    let? bound := lift (chk ((2 * n - i) * (diff + 1))) in
    let? x := rint 0 bound in
    let? lim := lift (chk ((n - opened) * (diff + 2))) in
    if x <? lim
    then let? r := bracketLoop k' n (i + 1) (diff + 1) in ret (true :: r)
    else let? r := bracketLoop k' n (i + 1) (diff - 1) in ret (false :: r)
  end.
(* validate.h:1813-1826 *)
Definition bracketSequence (n : Z) : rnd (list bool) :=
  let? _ := lift (judgeAssert ((0 <=? n) && (n <=? 2147483647))) in
  bracketLoop (Z.to_nat (2 * n)) n 0 0.

(* validate.h:1592-1597  at most k trials. 4 * (upper - lower) is evaluated in the loop
   condition. *)
Fixpoint primeLoop (k : nat) (i lower upper sampleL sampleU : Z) : rnd (option Z) :=
  match k with
  | O => ret None
  | S k' =>
    let? d := lift (chk (upper - lower)) in
    let? d4 := lift (chk (4 * d)) in
    if i <? d4 then
      let? x := rint sampleL sampleU in
      let? x2 := lift (chk (2 * x)) in
      let res := Z.max 2 (Z.lor x2 1) in
      let? ok := lift (isPrime res) in
      if ok : bool then ret (Some res) else primeLoop k' (i + 1) lower upper sampleL sampleU
    else ret None
  end.
(* validate.h:1588-1603  prime(lower, upper); PRIME_TRIALS = 6400 *)
Definition randomPrime (lower upper : Z) : rnd Z :=
  let? _ := lift (judgeAssert (lower <? upper)) in
  let sampleL := if lower <=? 2 then 0 else Z.quot lower 2 in
  let sampleU := Z.quot upper 2 in
  let? r := if sampleL <? sampleU
            then primeLoop (Z.to_nat 6400) 0 lower upper sampleL sampleU else ret None in
  match r with Some p => ret p | None => RRet Throw end.

(* validate.h:1336-1342, 1423-1428  discrete<Is...>: prefix sums (constexpr, so overflow is
   a compile error and not modelled), then upper_bound of a draw *)
Fixpoint prefixSum (l : list Z) (s : Z) : list Z :=
  match l with [] => [] | x :: l' => (s + x) :: prefixSum l' (s + x) end.
Fixpoint upperBound (l : list Z) (v : Z) : Z :=
  match l with [] => 0 | x :: l' => if v <? x then 0 else 1 + upperBound l' v end.
Definition discrete (ws : list Z) : rnd Z :=
  let? x := rint 0 (last (prefixSum ws 0) 0) in
  ret (upperBound (prefixSum ws 0) x).
