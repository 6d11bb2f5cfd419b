(* Common vocabulary of all models: machine integers, outcomes, arrays, loops. *)
From Coq Require Export ZArith List Bool Lia.
Export ListNotations.
Open Scope Z_scope.

(* /repo/src/validate.h:113-116  Integer = int64_t, UInteger = uint64_t.
   Values are mathematical integers; the width is made explicit here. *)
Definition two32 : Z := 4294967296.
Definition two63 : Z := 9223372036854775808.
Definition two64 : Z := 18446744073709551616.
Definition two128 : Z := 340282366920938463463374607431768211456.
Definition I64_MIN : Z := - two63.
Definition I64_MAX : Z := two63 - 1.

Definition in_i64 (z : Z) : bool := (I64_MIN <=? z) && (z <=? I64_MAX).
Definition is_i64 (z : Z) : Prop := I64_MIN <= z <= I64_MAX.
Definition is_u64 (z : Z) : Prop := 0 <= z < two64.

(* conversion to uint64_t / reinterpretation as int64_t (two's complement) *)
Definition u64 (z : Z) : Z := z mod two64.
Definition u32 (z : Z) : Z := z mod two32.
Definition to_i64 (z : Z) : Z :=
  let u := z mod two64 in if u <? two63 then u else u - two64.

(* Result of running a piece of C++:
   Throw = a failed judgeAssert or other exception, UB = undefined behaviour,
   Fuel = the loop bound of the model was exhausted (never a C++ behaviour). *)
Inductive outcome (A : Type) : Type :=
| Ok (a : A)
| Throw
| UB
| Fuel.
Arguments Ok {A} a.
Arguments Throw {A}.
Arguments UB {A}.
Arguments Fuel {A}.

Definition bind {A B} (x : outcome A) (f : A -> outcome B) : outcome B :=
  match x with
  | Ok a => f a
  | Throw => Throw
  | UB => UB
  | Fuel => Fuel
  end.
Notation "'let!' x ':=' e 'in' k" := (bind e (fun x => k))
  (at level 200, x pattern, e at level 100, k at level 200, right associativity).

Definition omap {A B} (f : A -> B) (x : outcome A) : outcome B :=
  let! a := x in Ok (f a).

(* judgeAssert, /repo/src/validate.h:153-156 *)
Definition judgeAssert (b : bool) : outcome unit := if b then Ok tt else Throw.

(* checked signed 64-bit result: overflow is undefined behaviour *)
Definition chk (z : Z) : outcome Z := if in_i64 z then Ok z else UB.

(* C++ division and remainder truncate towards zero *)
Definition cdiv (a b : Z) : outcome Z :=
  if b =? 0 then UB else chk (Z.quot a b).
Definition crem (a b : Z) : outcome Z :=
  if b =? 0 then UB
  else if (a =? I64_MIN) && (b =? -1) then UB else Ok (Z.rem a b).

(* arrays: a vector is a list, access outside is undefined behaviour *)
Definition alen {A} (l : list A) : Z := Z.of_nat (length l).
Definition aget {A} (l : list A) (i : Z) : outcome A :=
  if i <? 0 then UB
  else match nth_error l (Z.to_nat i) with Some a => Ok a | None => UB end.
Fixpoint upd {A} (l : list A) (i : nat) (a : A) : list A :=
  match l, i with
  | [], _ => []
  | _ :: t, O => a :: t
  | h :: t, S i' => h :: upd t i' a
  end.
Definition aset {A} (l : list A) (i : Z) (a : A) : outcome (list A) :=
  if (0 <=? i) && (i <? alen l) then Ok (upd l (Z.to_nat i) a) else UB.

(* while (cond) body; *)
Fixpoint while {S} (fuel : nat) (cond : S -> bool) (body : S -> outcome S) (s : S)
  : outcome S :=
  if cond s then
    match fuel with
    | O => Fuel
    | Datatypes.S f => let! s' := body s in while f cond body s'
    end
  else Ok s.
Arguments while : simpl never.
