(* The words bools are written with. *)
From Coq Require Import String.
From Verif Require Import InitSpec.
From Verif Require Import Base Tac InputSpec InputModel InputClient OutModel OutSpec OutProofs.

Lemma bool_put : forall b : bool, put (IBool b) = text (if b then "true" else "false").
Proof. intros []; reflexivity. Qed.
Lemma bools_back : forall st sep (bs : list bool), sep = 32 \/ sep = 10 -> spaceSensitive st = true ->
  stringFile st (alen bs) sep (join (map IBool bs) sep ++ [10]) = Ret (map (fun b : bool => text (if b then "true" else "false")) bs) [].
Proof.
  intros st sep bs S SS. set (w := fun b : bool => text (if b then "true" else "false")).
  assert (J : join (map IBool bs) sep = join (map IText (map w bs)) sep).
  { rewrite !join_joined by lia. rewrite !map_map. f_equal. apply map_ext. intro b. rewrite bool_put. reflexivity. }
  assert (A : alen bs = alen (map w bs)) by (unfold alen; rewrite map_length; auto).
  rewrite J, A, strings_back; auto.
  - f_equal. rewrite map_map. apply map_ext. intros b. unfold folded. destruct (caseSensitive st), b; reflexivity.
  - apply Forall_forall. intros t I. apply in_map_iff in I as (b & <- & _). unfold plainToken, token, graphic, whitespace.
    destruct b; (split; [split; [cbn; discriminate|]|cbn; lia]); cbn; repeat (apply Forall_cons; [lia|]); apply Forall_nil.
Qed.
