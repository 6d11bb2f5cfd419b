(* C94: in a list of strings, integers or reals the complaint is about the first bad entry. *)
From Coq Require Import String.
From Verif Require Import Base SeqSpec RegexModel RegexProofs FloatModel FloatSpec InitSpec DecimalModel InputModel InputSpec InputProofs3 InputProofs4 InputClient MsgModel MsgSpec AuditMsgSpec AuditMsgProofs.
From Coq Require Import ZArith List.
Import ListNotations.
Open Scope Z_scope.
Open Scope list_scope.

Theorem C94_first_integer : forall st file seekable sep l u, sep = 32 \/ sep = 10 -> is_i64 l -> is_i64 u ->
  firstBad st file seekable sep (mintegerIn st file seekable l u) (fun t => exists v, decimalOf t v /\ l <= v < u) (fun t => notInRange t l u).
Proof. exact first_integer. Qed.
Print Assumptions C94_first_integer.
Theorem C94_first_string : forall st file seekable sep p l u, sep = 32 \/ sep = 10 -> is_i64 l -> is_i64 u -> is_i64 (alen file) ->
  firstBad st file seekable sep (mstringReLen st file seekable p l u) (fun t => l <= alen t < u /\ lang p t) (fun t => notFitting t p l u).
Proof. exact first_string. Qed.
Print Assumptions C94_first_string.
Theorem C94_first_real : forall st file seekable parse sep l u, sep = 32 \/ sep = 10 -> goodTol (floatAbsTol st) -> goodTol (floatRelTol st) ->
  firstBad st file seekable sep (mrealIn st parse file seekable l u)
    (fun t => exists v, realToken t /\ parse t = Some v /\ (near st v l \/ near st v u \/ ~ beyond l u v)) (fun t => notRealIn parse (near st) t l u).
Proof. exact first_real. Qed.
Print Assumptions C94_first_real.
Theorem C94_first_realStrict : forall st file seekable parse sep l u a b, sep = 32 \/ sep = 10 ->
  firstBad st file seekable sep (mrealStrict st parse file seekable l u a b)
    (fun t => exists k v, strictReal t k /\ a <= k < b /\ parse t = Some v /\ ~ beyond l u v) (fun t => notStrict parse t l u a b).
Proof. exact first_realStrict. Qed.
Print Assumptions C94_first_realStrict.

(* a loose stream, a list with several white spaces, and the strict reals *)
Definition loose : cfg := mkCfg false false 42 exTol exTol.
Definition words : list Z := text "ab" ++ [10; 32] ++ text "Cd  x7 e".
Example C94_ex_first_words : words = entries [(text "ab", [10; 32]); (text "Cd", [32; 32])] ++ text "x7" ++ text " e" /\
  Forall (gap false 32) [[10; 32]; [32; 32]] /\
  mmany loose words true (mstringReLen loose words true (RStar (RChr (fun c => (97 <=? c) && (c <=? 122)))) 1 3) 4 32 words =
    MExit 42 (text "Token ""x7"" does not match pattern! Line: 2, Char: 5" ++ [10] ++ text " Cd  x7 e" ++ [10] ++ text "     ^~" ++ [10]).
Proof. split; [reflexivity|]. split; [repeat constructor; discriminate|]. vm_compute. reflexivity. Qed.
Definition decimals : list Z := text "0.5 1.25 0.125 2".
Example C94_ex_first_reals : decimals = entries [(text "0.5", [32]); (text "1.25", [32])] ++ text "0.125" ++ text " 2" /\ Forall (gap true 32) [[32]; [32]] /\
  mmany exCfg decimals true (mrealStrict exCfg decimalReal decimals true exOne exTwo 0 3) 4 32 decimals =
    MExit 43 (text "Real 0.500000 out of range [1.000000, 2.000000)! Line: 1, Char: 0" ++ [10] ++ text "0.5 1.25 0.125 2" ++ [10] ++ text "^~~" ++ [10]) /\
  mmany exCfg decimals false (mrealStrict exCfg decimalReal decimals false rzero exTwo 0 3) 4 32 decimals = MExit 43 (text "Real 0.125 has wrong amount of decimals!" ++ [10]).
Proof. split; [reflexivity|]. split; [repeat constructor|]. vm_compute. auto. Qed.
