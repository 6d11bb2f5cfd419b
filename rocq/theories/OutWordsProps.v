(* C72: the words bools are written with. *)
From Coq Require Import String.
From Verif Require Import InitSpec.
From Verif Require Import Base InputSpec InputModel InputClient OutModel OutSpec OutWordsProofs.

Theorem C72_bools_back : forall st sep (bs : list bool), sep = 32 \/ sep = 10 -> spaceSensitive st = true ->
  stringFile st (alen bs) sep (join (map IBool bs) sep ++ [10]) = Ret (map (fun b : bool => text (if b then "true" else "false")) bs) [].
Proof. exact bools_back. Qed.
Print Assumptions C72_bools_back.
Example C72_bools_back_ex : join (map IBool [false; true]) 32 = text "false true" /\
  stringFile exCfg 2 32 (text "false true" ++ [10]) = Ret [text "false"; text "true"] [].
Proof. vm_compute. auto. Qed.
