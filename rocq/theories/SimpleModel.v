(* isSimple of /repo/src/validate.h, for points that are pairs of Integer. Indices are
   mathematical integers (std::size_t in the header, all below the number of points). *)
From Verif Require Import Base GeoModel.

(* validate.h:1241-1245, Segment *)
Record seg := { sl : point; sr : point; sid : Z }.

(* validate.h:1248-1254, operator< from the second line on *)
Definition segLess1 (a b : seg) : outcome bool :=
  let! s := cross3 (sl a) (sr a) (sl b) in
  if negb (s =? 0) then Ok (0 <? s)
  else
    let! s := cross3 (sl a) (sr a) (sr b) in
    if 0 <? s then Ok true
    else Ok (snd (sl a) <? snd (sl b)).

(* validate.h:1247-1254, operator<; the call !(other < *this) does not get to the call again *)
Definition segLess (a b : seg) : outcome bool :=
  if fst (sl b) <? fst (sl a) then let! r := segLess1 b a in Ok (negb r)
  else segLess1 a b.

(* validate.h:1256-1261 *)
Definition segMeet (a b : seg) (n : Z) : outcome bool :=
  let d := Z.abs (sid a - sid b) in
  if (d =? 1) || (d =? n - 1) then Ok false
  else
    let! u := cross3 (sl a) (sr a) (sl b) in
    let! v := cross3 (sl a) (sr a) (sr b) in
    let! w := chk (Z.sgn u * v) in
    if w <=? 0 then
      let! u := cross3 (sl b) (sr b) (sl a) in
      let! v := cross3 (sl b) (sr b) (sr a) in
      let! w := chk (Z.sgn u * v) in
      Ok (w <=? 0)
    else Ok false.

(* validate.h:1267, the elements of events *)
Record event := { ex : Z; ey : Z; erem : bool; eswap : bool; eid : Z }.

(* operator< of std::tuple *)
Definition boolLess (a b : bool) : bool := negb a && b.
Definition eventLess (a b : event) : bool :=
  if ex a =? ex b then
    if ey a =? ey b then
      if Bool.eqb (erem a) (erem b) then
        if Bool.eqb (eswap a) (eswap b) then eid a <? eid b
        else boolLess (eswap a) (eswap b)
      else boolLess (erem a) (erem b)
    else ey a <? ey b
  else ex a <? ex b.

(* validate.h:1269-1274, a and b in the order of the sweep and whether they were swapped *)
Definition ordered (ps : list point) (n i : Z) : outcome (point * point * bool) :=
  let! a := aget ps i in
  let! b := aget ps ((i + 1) mod n) in
  let swap := (fst b <? fst a) || ((fst a =? fst b) && (snd b <? snd a)) in
  Ok (if swap then (b, a, swap) else (a, b, swap)).

(* validate.h:1268-1278 *)
Fixpoint makeEvents (ps : list point) (n : Z) (is : list Z) : outcome (list event) :=
  match is with
  | [] => Ok []
  | i :: is =>
      let! (a, b, swap) := ordered ps n i in
      let! evs := makeEvents ps n is in
      Ok ({| ex := fst a; ey := snd a; erem := false; eswap := swap; eid := i |}
          :: {| ex := fst b; ey := snd b; erem := true; eswap := swap; eid := i |} :: evs)
  end.

(* validate.h:1279, std::sort; no two events are equal, so the result is determined *)
Fixpoint insertEvent (e : event) (l : list event) : list event :=
  match l with
  | [] => [e]
  | x :: l' => if eventLess e x then e :: l else x :: insertEvent e l'
  end.
Definition sortEvents (l : list event) : list event := fold_right insertEvent [] l.

(* where[i]: the segments before and after the one with number i *)
Fixpoint splitId (i : Z) (l : list seg) : option (list seg * list seg) :=
  match l with
  | [] => None
  | s :: l =>
      if sid s =? i then Some ([], l)
      else match splitId i l with Some (a, b) => Some (s :: a, b) | None => None end
  end.

Definition lastOpt (l : list seg) : option seg :=
  match rev l with [] => None | s :: _ => Some s end.
Definition headOpt (l : list seg) : option seg :=
  match l with [] => None | s :: _ => Some s end.

Fixpoint allCompare (z : seg) (l : list seg) : outcome unit :=
  match l with
  | [] => Ok tt
  | s :: l => let! _ := segLess z s in let! _ := segLess s z in allCompare z l
  end.

Section oracle.
  (* The search of std::set::emplace: at the given number of remaining events it finds the
     place for a segment in the sequence of the elements. It depends on the shape of the
     tree; see searches in SimpleSpec.v. *)
  Variable place : nat -> seg -> list seg -> nat.

  (* emplace, validate.h:1293: the elements before and after the new one, or None if
     the search ends at an element equivalent to it. Which elements are compared depends on
     the tree, so all comparisons have to be defined. *)
  Definition emplace (k : nat) (z : seg) (l : list seg) : outcome (option (list seg * list seg)) :=
    let! _ := allCompare z l in
    let a := firstn (place k z l) l in
    let b := skipn (place k z l) l in
    match lastOpt a with
    | None => Ok (Some (a, b))
    | Some p => let! c := segLess p z in Ok (if c then Some (a, b) else None)
    end.

  (* validate.h:1283-1299, the loop over the events *)
  Fixpoint sweep (ps : list point) (n : Z) (evs : list event) (l : list seg) : outcome bool :=
    match evs with
    | [] => Ok true
    | e :: evs =>
        if erem e then
          match splitId (eid e) l with
          | None => UB
          | Some (a, b) =>
              let! m := match lastOpt a, headOpt b with
                        | Some p, Some s => segMeet s p n
                        | _, _ => Ok false
                        end in
              if m then Ok false else sweep ps n evs (a ++ b)
          end
        else
          let! p := aget ps (eid e) in
          let! q := aget ps ((eid e + 1) mod n) in
          let z := if eswap e then {| sl := q; sr := p; sid := eid e |}
                   else {| sl := p; sr := q; sid := eid e |} in
          let! r := emplace (length evs) z l in
          match r with
          | None => Ok false
          | Some (a, b) =>
              let! m := match lastOpt a with Some p => segMeet z p n | None => Ok false end in
              if m then Ok false
              else
                let! m := match headOpt b with Some s => segMeet z s n | None => Ok false end in
                if m then Ok false else sweep ps n evs (a ++ z :: b)
          end
    end.

  (* validate.h:1238-1301 *)
  Definition isSimple (ps : list point) : outcome bool :=
    let! n := assertBounds ps in
    if n <? 3 then Ok false
    else
      let! evs := makeEvents ps n (indices n) in
      sweep ps n (sortEvents evs) [].
End oracle.
