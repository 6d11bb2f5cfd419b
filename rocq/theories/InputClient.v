(* Client programs of InputStream and sample values for the examples. *)
From Verif Require Import Base SeqModel RegexModel FloatModel InputModel.

(* integers(lower, upper, count, sep); newline(); eof() *)
Definition integerFile (st : cfg) (lower upper count sep : Z) : rd (list Z) :=
  read! l := integersIn st lower upper count sep in
  read! _ := newline st in
  read! _ := eof st in
  rret l.
Definition integerWords (st : cfg) (lower upper count sep : Z) : rd (list Z) :=
  read! l := integersIn st lower upper count sep in
  read! _ := eof st in
  rret l.
Definition stringFile (st : cfg) (count sep : Z) : rd (list (list Z)) :=
  read! l := strings st count sep in
  read! _ := newline st in
  read! _ := eof st in
  rret l.
Definition stringWords (st : cfg) (count sep : Z) : rd (list (list Z)) :=
  read! l := strings st count sep in
  read! _ := eof st in
  rret l.

Definition exTol : real := S754_finite false 9223372036854775808 (-83).
Definition exCfg : cfg := mkCfg true true 43 exTol exTol.
Definition exOne : real := S754_finite false 9223372036854775808 (-63).
Definition exTwo : real := S754_finite false 9223372036854775808 (-62).
(* reads 1 and 2 only *)
Definition exParse (t : list Z) : option real :=
  match t with [49] => Some exOne | [48; 49] => Some exOne | [50] => Some exTwo | _ => None end.
