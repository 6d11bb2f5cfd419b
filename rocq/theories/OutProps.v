(* What OutputStream writes is read back by InputStream. *)
From Verif Require Import Base InputSpec InputModel InputClient OutModel OutSpec OutProofs.

(* ---- C72 ---- *)
Theorem C72_integer_notation : forall v, is_i64 v -> decimalOf (put (IInt v)) v.
Proof. exact show_decimal. Qed.
Print Assumptions C72_integer_notation.
Example C72_integer_notation_ex :
  put (IInt (-120)) = [45; 49; 50; 48] /\ put (IInt I64_MIN) = [45; 57; 50; 50; 51; 51; 55; 50; 48; 51; 54; 56; 53; 52; 55; 55; 53; 56; 48; 56].
Proof. vm_compute. auto. Qed.

Theorem C72_join : forall l sep, sep <> 0 -> join l sep = joined sep (map put l).
Proof. exact join_joined. Qed.
Print Assumptions C72_join.
Theorem C72_join_nosep : forall l, join l 0 = concat (map put l).
Proof. exact join_nosep. Qed.
Print Assumptions C72_join_nosep.
Example C72_join_ex :
  join [IInt 7; IBool true; IPair (IInt 1) (IInt (-2))] 44 = [55; 44; 116; 114; 117; 101; 44; 49; 32; 45; 50] /\
  join [IText [97]; IText [98]] 0 = [97; 98].
Proof. vm_compute. auto. Qed.

(* integers written with either separator, read space sensitively *)
Theorem C72_integers_back : forall st lower upper sep vs, sep = 32 \/ sep = 10 -> spaceSensitive st = true ->
  Forall (fun v => is_i64 v /\ lower <= v < upper) vs ->
  integerFile st lower upper (alen vs) sep (join (map IInt vs) sep ++ [10]) = Ret vs [].
Proof. exact integers_back. Qed.
Print Assumptions C72_integers_back.
Example C72_integers_back_ex :
  join (map IInt [3; -14; 0]) 32 ++ [10] = [51; 32; 45; 49; 52; 32; 48; 10] /\
  integerFile exCfg (-20) 20 3 32 [51; 32; 45; 49; 52; 32; 48; 10] = Ret [3; -14; 0] [].
Proof. vm_compute. auto. Qed.

(* strings that are not empty and have no white space *)
Theorem C72_strings_back : forall st sep ts, sep = 32 \/ sep = 10 -> spaceSensitive st = true -> Forall plainToken ts ->
  stringFile st (alen ts) sep (join (map IText ts) sep ++ [10]) = Ret (map (folded (caseSensitive st)) ts) [].
Proof. exact strings_back. Qed.
Print Assumptions C72_strings_back.
Example C72_strings_back_ex :
  stringFile exCfg 2 32 (join (map IText [[97; 66]; [45]]) 32 ++ [10]) = Ret [[97; 66]; [45]] [].
Proof. vm_compute. auto. Qed.

(* whole test cases: lines of integers, empty lines included; the strict reader accepts
   exactly what the writer writes *)
Theorem C72_lines_iff : forall st lower upper lens file lines, spaceSensitive st = true ->
  (readLines st lower upper lens file = Ret lines [] <->
   lens = map alen lines /\ Forall (Forall (fun v => is_i64 v /\ lower <= v < upper)) lines /\ file = writeLines lines).
Proof. exact lines_iff. Qed.
Print Assumptions C72_lines_iff.
Example C72_lines_iff_ex :
  writeLines [[2; -1]; []; [5]] = [50; 32; 45; 49; 10; 10; 53; 10] /\
  readLines exCfg (-9) 9 [2; 0; 1] (writeLines [[2; -1]; []; [5]]) = Ret [[2; -1]; []; [5]] [] /\
  readLines exCfg (-9) 9 [2; 1] (writeLines [[2; -1]; []; [5]]) = Exit 43.
Proof. vm_compute. auto. Qed.

(* nested containers, tuples and pairs: the leaves with single spaces between them *)
Theorem C72_nested : forall x, inhabited x -> put x = joined 32 (map put (leaves x)).
Proof. exact put_inhabited. Qed.
Print Assumptions C72_nested.
Theorem C72_nested_back : forall st lower upper x vs, spaceSensitive st = true -> inhabited x ->
  leaves x = map IInt vs -> Forall (fun v => is_i64 v /\ lower <= v < upper) vs ->
  integerFile st lower upper (alen vs) 32 (put x ++ [10]) = Ret vs [].
Proof. exact nested_back. Qed.
Print Assumptions C72_nested_back.
Example C72_nested_ex :
  let x := ISeq [ISeq [IInt 1; IInt 2]; IPair (IInt 3) (ISeq [IInt 4])] in
  inhabited x /\ leaves x = map IInt [1; 2; 3; 4] /\ put x = [49; 32; 50; 32; 51; 32; 52].
Proof. vm_compute. split; auto. repeat (constructor; try discriminate). Qed.

(* with empty parts there are two spaces in a row, which a reader that does not look at
   white space does not mind *)
Theorem C72_words : forall x,
  Forall (fun y => match y with IInt n => is_i64 n | IText s => token s | _ => True end) (leaves x) ->
  wordsOf (put x) (map put (leaves x)).
Proof. exact put_words'. Qed.
Print Assumptions C72_words.
Theorem C72_loose_back : forall st lower upper count sep x vs, sep = 32 \/ sep = 10 -> spaceSensitive st = false ->
  leaves x = map IInt vs -> Forall (fun v => is_i64 v /\ lower <= v < upper) vs -> alen vs = count ->
  integerWords st lower upper count sep (put x) = Ret vs [].
Proof. exact item_back. Qed.
Print Assumptions C72_loose_back.
Theorem C72_empty_refuted : exists x vs,
  leaves x = map IInt vs /\ put x = [49; 32; 32; 50] /\
  integerFile exCfg 0 9 (alen vs) 32 (put x ++ [10]) = Exit 43 /\
  integerWords (mkCfg false true 43 exTol exTol) 0 9 (alen vs) 32 (put x) = Ret vs [].
Proof. exact empty_part. Qed.
Print Assumptions C72_empty_refuted.
