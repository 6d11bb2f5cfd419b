(* The error report of InputStream. *)
From Coq Require Import String.
From Verif Require Import Base PassModel SeqModel SeqSpec InputSpec InitSpec ReportModel ReportSpec ReportProofs.

(* ---- C74 ---- *)
(* every text has parts *)
Theorem C74_parts : forall s, exists ps, parts s ps.
Proof. exact parts_total. Qed.
Print Assumptions C74_parts.
(* the report names line and column of the last part that was read from, shows its line and marks the part *)
Theorem C74_report : forall s xs x ys pos, parts s (xs ++ x :: ys) -> alen (concat xs) < pos <= alen (concat xs) + alen x ->
  (wordPart x -> ys <> []) ->
  exists cur line row l r, lastLine (concat xs) cur /\
    (x = [10] /\ line = cur ++ [32] \/ x <> [10] /\ lineText cur (x ++ concat ys) line) /\
    report s (Some pos) = Ok (text " Line: " ++ showInteger (1 + newlines (concat xs) + newlines x) ++ text ", Char: " ++ showInteger (alen cur) ++ [10] ++
      row ++ [10] ++ repeat 32 (Z.to_nat l) ++ [94] ++ repeat 126 (Z.to_nat (r - l - 1))) /\
    0 <= l < 60 /\ l < r /\ r <= alen row /\ alen row <= 80 /\ (r - l = alen x \/ r - l < alen x /\ r = 80 /\ alen row = 80) /\
    excerpt line row (alen cur) l.
Proof. exact report_ok. Qed.
Print Assumptions C74_report.
(* no position is given if this part is a word that ends the file *)
Theorem C74_report_eof : forall s xs x pos, parts s (xs ++ [x]) -> alen (concat xs) < pos <= alen (concat xs) + alen x -> wordPart x -> report s (Some pos) = Ok [].
Proof. exact report_eof. Qed.
Print Assumptions C74_report_eof.
(* and none before the first read, or for a stream without positions *)
Theorem C74_report_none : forall s, report s None = Ok [] /\ report s (Some 0) = Ok [].
Proof. exact report_none. Qed.
Print Assumptions C74_report_none.
(* the report never throws *)
Theorem C74_report_total : forall s pos, 0 <= pos <= alen s -> exists t, report s (Some pos) = Ok t.
Proof. exact report_total. Qed.
Print Assumptions C74_report_total.
(* the message of expectString *)
Theorem C74_expectString : forall seen expected cs,
  (expectMessage seen expected cs = Ok None /\ Forall2 (eqChar cs) seen expected) \/
  (exists pos a b, expectMessage seen expected cs = Ok (Some (text "Expected """ ++ a ++ text """ but got """ ++ b ++ text """!" ++
      (if 5 <? pos then text " (different at position: " ++ showInteger (pos + 1) ++ [41] else []))) /\
    ~ Forall2 (eqChar cs) seen expected /\ 0 <= pos <= alen seen /\ pos <= alen expected /\
    Forall2 (eqChar cs) (firstn (Z.to_nat pos) seen) (firstn (Z.to_nat pos) expected) /\
    alen a <= 25 /\ alen b <= 25 /\ (alen expected <= 25 -> a = expected) /\ (alen seen <= 25 -> b = seen) /\
    (pos < alen expected -> shows expected a pos) /\ (pos < alen seen -> shows seen b pos)).
Proof. exact expect_ok. Qed.
Print Assumptions C74_expectString.

(* "1 2\n30 x\n", the failure is behind x: Line 2, Char 3 *)
Example C74_ex_report : report [49; 32; 50; 10; 51; 48; 32; 120; 10] (Some 8) =
  Ok (text " Line: " ++ [50] ++ text ", Char: " ++ [51] ++ [10] ++ [51; 48; 32; 120] ++ [10] ++ [32; 32; 32] ++ [94]).
Proof. vm_compute. reflexivity. Qed.
(* a word of 100 letters behind 50 other ones is cut at both ends *)
Example C74_ex_cut : report (repeat 97 50 ++ [32] ++ repeat 98 100 ++ [10]) (Some 151) =
  Ok (text " Line: " ++ [49] ++ text ", Char: " ++ [53; 49] ++ [10] ++ text "[...]" ++ repeat 97 14 ++ [32] ++ repeat 98 55 ++ text "[...]" ++ [10] ++
      repeat 32 20 ++ [94] ++ repeat 126 59).
Proof. vm_compute. reflexivity. Qed.
Example C74_ex_parts : parts [49; 50; 32; 10; 51] [[49; 50]; [32]; [10]; [51]].
Proof.
  apply (parts_word 49 [50] [32; 10; 51]); [unfold graphic; lia|constructor; auto; unfold whitespace; lia|cbn; unfold whitespace; lia|].
  apply parts_char; [unfold graphic; lia|]. apply parts_char; [unfold graphic; lia|].
  apply (parts_word 51 [] []); [unfold graphic; lia|constructor|exact I|constructor].
Qed.
Example C74_ex_expect : expectMessage [97; 98] [97; 99] true = Ok (Some (text "Expected """ ++ [97; 99] ++ text """ but got """ ++ [97; 98] ++ text """!")) /\
  expectMessage [65; 66] [97; 98] false = Ok None.
Proof. vm_compute. auto. Qed.

(* A newline that is read from as last part is attributed to the line behind it: with the
   input "1\n2\n" a failure at the first newline is reported for line 2, with the text of line 1. *)
Theorem C74_newline_refuted : exists s pos,
  newlines (firstn (Z.to_nat pos - 1) s) = 0 /\
  report s (Some pos) = Ok (text " Line: " ++ [50] ++ text ", Char: " ++ [49] ++ [10] ++ [49; 32] ++ [10] ++ [32] ++ [94]).
Proof. exact newline_wrong. Qed.
Print Assumptions C74_newline_refuted.
(* The two texts in the message of expectString can be the same although they stand for different
   words: only the position then tells the difference. *)
Theorem C74_same_text_refuted : exists seen expected a,
  ~ Forall2 (eqChar true) seen expected /\
  expectMessage seen expected true = Ok (Some (text "Expected """ ++ a ++ text """ but got """ ++ a ++ text """!" ++ text " (different at position: " ++ [50; 54] ++ [41])).
Proof. exact same_text. Qed.
Print Assumptions C74_same_text_refuted.
