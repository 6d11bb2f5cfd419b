(* Specification vocabulary for sequences. *)
From Verif Require Import Base.

(* x and y are the i-th neighbours (counting from 1) of l *)
Definition neighbours {A} (l : list A) (i : Z) (x y : A) : Prop :=
  1 <= i /\ nth_error l (Z.to_nat (i - 1)) = Some x /\ nth_error l (Z.to_nat i) = Some y.

(* the Thue-Morse sequence by its recursion t(2n) = t(n), t(2n+1) = 1 - t(n) *)
Fixpoint tmPos (p : positive) : Z :=
  match p with xH => 1 | xO q => tmPos q | xI q => 1 - tmPos q end.
Definition tm (n : Z) : Z := match n with Zpos p => tmPos p | _ => 0 end.

Definition countZ (l : list Z) (x : Z) : nat := count_occ Z.eq_dec l x.
(* number of entries below x *)
Definition below (l : list Z) (x : Z) : nat := length (filter (fun y => y <? x) l).

(* ASCII letters and case folding *)
Definition upperCase (c : Z) : Prop := 65 <= c <= 90.
Definition lowerCase (c : Z) : Prop := 97 <= c <= 122.
Inductive sameLetter : Z -> Z -> Prop :=
  | sameChar : forall c, sameLetter c c
  | upLow : forall c, upperCase c -> sameLetter c (c + 32)
  | lowUp : forall c, upperCase c -> sameLetter (c + 32) c.
(* equality of characters, exact or up to case *)
Definition eqChar (cs : bool) (x y : Z) : Prop := if cs then x = y else sameLetter x y.
