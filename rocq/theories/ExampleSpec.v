(* What the example programs accept. *)
From Coq Require Import String.
From Verif Require Import Base InputSpec InitSpec GraphSpec.

(* w is the first word of s; w is all of s: one line if spaces count *)
Definition firstWord (sensitive : bool) (s w : list Z) : Prop := exists rest, nextToken sensitive s w rest.
Definition onlyWord (sensitive : bool) (s w : list Z) : Prop :=
  if sensitive then plainToken w /\ s = w ++ [10] else wordsOf s [w].
Definition same (caseSens : bool) (a b : list Z) : Prop := folded caseSens a = folded caseSens b.
Definition impossible : list Z := text "impossible".
(* the first word is the decimal notation of an Integer *)
Definition firstInteger (sensitive : bool) (s : list Z) (v : Z) : Prop :=
  exists w, firstWord sensitive s w /\ decimalOf w v /\ is_i64 v.

(* outputValidator.cpp and interactor.cpp: twice the only word is n; twice the first word overflows *)
Definition half (b : bool) (bm : list Z) (n : Z) : Prop := exists w ans, onlyWord b bm w /\ decimalOf w ans /\ n = 2 * ans.
Definition overflows (b : bool) (bm : list Z) : Prop :=
  exists w r ans, nextToken b bm w r /\ decimalOf w ans /\ is_i64 ans /\ ~ is_i64 (2 * ans) /\ (b = true -> exists r', r = 10 :: r').
Definition outputAccepts (b cs : bool) (test jury team : list Z) : Prop :=
  exists j, firstWord false jury j /\
    ((same cs j impossible /\ exists w, onlyWord b team w /\ same cs w impossible) \/
     (~ same cs j impossible /\ exists n, firstInteger false test n /\ half b team n)).
Definition outputFails (cs : bool) (test jury : list Z) : Prop :=
  (forall j, ~ firstWord false jury j) \/
  (exists j, firstWord false jury j /\ ~ same cs j impossible /\ forall n, ~ firstInteger false test n).
Definition outputUndefined (b cs : bool) (test jury team : list Z) : Prop :=
  exists j, firstWord false jury j /\ ~ same cs j impossible /\ exists n, firstInteger false test n /\ overflows b team.
(* inputValidator.cpp: two words in the first line, 5 or 6 in the second *)
Definition inputAccepts (s : list Z) : Prop :=
  exists w1 w2 w3, plainToken w1 /\ plainToken w2 /\ 5 <= alen w2 < 7 /\ (w3 = [53] \/ w3 = [54]) /\
    s = w1 ++ 32 :: w2 ++ 10 :: w3 ++ [10].
(* answerValidator.cpp: t lines with numbers below 100 *)
Definition answerAccepts (t : Z) (s : list Z) : Prop :=
  exists vs ts, alen vs = t /\ Forall (fun v => 0 <= v < 100) vs /\ Forall2 decimalOf ts vs /\ s = joined 10 ts ++ [10].
(* two numbers in a line *)
Definition decimalPair (l : list Z) (a b : Z) : Prop :=
  exists s t, decimalOf s a /\ decimalOf t b /\ l = s ++ 32 :: t.
(* inputValidator.graph.cpp: a tree with at least one edge *)
Definition treeFile (s : list Z) : Prop :=
  exists n es, 2 <= n < 100000 /\ alen es = n - 1 /\ edgesIn 1 (n + 1) es /\ connectedGraph 1 (n + 1) es /\ acyclic es /\
    exists header ls, decimalPair header n (n - 1) /\ Forall2 (fun l e => decimalPair l (fst e) (snd e)) ls es /\ s = joined 10 (header :: ls) ++ [10].
