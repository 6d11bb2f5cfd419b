(* Model of OutputStream, /repo/src/validate.h:245-309. *)
From Verif Require Import Base PassModel.

(* What can be printed: Integer, bool (std::boolalpha, 248-252), everything with an
   ostream operator that copies characters (char, string, string_view, C string), pairs
   and tuples or containers. Real is an IText with the text of PrintModel. *)
Inductive item : Type :=
| IInt (n : Z)
| IBool (b : bool)
| IText (s : list Z)
| IPair (a b : item)
| ISeq (l : list item).

(* 118, 134 *)
Definition NOSEP : Z := 0.
Definition DEFAULT_SEPARATOR : Z := 32.

(* 294-308  join of a tuple and join of a range; first: nothing was printed yet *)
Section Join.
  Variable put : item -> list Z.
  Variable separator : Z.
  Fixpoint joinLoop (first : bool) (l : list item) : list Z :=
    match l with
    | [] => []
    | x :: l' => (if negb first && negb (separator =? NOSEP) then [separator] else []) ++ put x ++ joinLoop false l'
    end.
End Join.

(* 268-286  operator<<: what is appended to the stream *)
Fixpoint put (x : item) : list Z :=
  match x with
  | IInt n => showInteger n
  | IBool b => if b then [116; 114; 117; 101] else [102; 97; 108; 115; 101]
  | IText s => s
  | IPair a b => put a ++ [DEFAULT_SEPARATOR] ++ put b
  | ISeq l => joinLoop put DEFAULT_SEPARATOR true l
  end.

(* 363-427  the free functions join(..., separator), written to a stream *)
Definition join (l : list item) (separator : Z) : list Z := joinLoop put separator true l.
