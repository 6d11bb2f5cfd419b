(* What the error report of InputStream is about. *)
From Verif Require Import Base InputSpec.

Definition graphic (c : Z) : Prop := 33 <= c <= 126.
(* the parts of a text: words that start with a graphic character, and single characters *)
Inductive parts : list Z -> list (list Z) -> Prop :=
| parts_nil : parts [] []
| parts_word : forall c w s ps, graphic c -> Forall (fun x => ~ whitespace x) w -> endsToken s -> parts s ps ->
    parts ((c :: w) ++ s) ((c :: w) :: ps)
| parts_char : forall c s ps, ~ graphic c -> parts s ps -> parts (c :: s) ([c] :: ps).

Definition newlines (s : list Z) : Z := alen (filter (fun c => c =? 10) s).
(* cur is what of s belongs to its last line *)
Definition lastLine (s cur : list Z) : Prop :=
  ~ In 10 cur /\ (s = cur \/ exists before, s = before ++ 10 :: cur).
(* a newline is printed as a space *)
Definition shown (c : Z) : Z := if c =? 10 then 32 else c.

(* row shows a part of text; column col of the text is column at of the row. What is left out
   at an end is replaced by an ellipsis. whole: nothing is left out at the right end. *)
Definition ellipsis : list Z := [91; 46; 46; 46; 93].
Definition excerpt (text row : list Z) (col at_ : Z) : Prop :=
  exists a mid b left right, text = a ++ mid ++ b /\ row = left ++ mid ++ right /\
    (left = [] /\ a = [] \/ left = ellipsis) /\ (right = [] /\ b = [] \/ right = ellipsis) /\
    alen left <= at_ < alen left + alen mid /\ col = alen a + (at_ - alen left).
(* the line of s with column |cur|, when cur is what is before this column *)
Definition lineText (cur after line : list Z) : Prop :=
  exists rest more, after = rest ++ more /\ ~ In 10 rest /\ (more = [] \/ exists m, more = 10 :: m) /\ line = cur ++ rest.
(* t shows the character of s at position pos among its neighbours *)
Definition shows (s t : list Z) (pos : Z) : Prop :=
  exists a mid b u w, s = a ++ mid ++ b /\ t = u ++ mid ++ w /\ alen a <= pos < alen a + alen mid.
(* a word: starts with a graphic character *)
Definition wordPart (x : list Z) : Prop := exists c w, x = c :: w /\ graphic c.
