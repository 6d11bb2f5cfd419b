(* outputValidator2.cpp with other jury answers. *)
From Coq Require Import String.
From Verif Require Import Base Tac SeqModel RegexModel RegexProofs FloatModel InputSpec InputModel InputClient InputProofs InputProofs2 InputProofs3 InputProofs4 ArgsModel InitModel InitSpec InitProofs ExampleModel ExampleSpec ExampleProofs ExampleProofs2 ExampleProofs3 OutProofs OutSpec.
Open Scope Z_scope.

Section Output2.
Variables (cs : bool) (cj cm : cfg) (bj bm : list Z).
Hypotheses (SJ : spaceSensitive cj = false) (KJ : caseSensitive cj = cs) (KM : caseSensitive cm = cs) (FJ : onFail cj = 1) (FM : onFail cm = 43).
Lemma output2_wrong : forall j s ts n, wordsOf bj (j :: s :: ts) -> same cs j (text "Yes") -> decimalOf s n -> is_i64 n -> n <> 6 ->
  let x := output2Body cs (cj, bj) (cm, bm) in (x = Code 1 \/ x = Code 43) /\
  (spaceSensitive cm = false -> (x = Code 1 <-> exists w, firstWord false bm w /\ (same cs w (text "Yes") \/ same cs w (text "No")))).
Proof.
  intros j s ts n WO SA DE I64 NE. cbv zeta. apply words_step in WO as (rj & NJ & WO). apply words_step in WO as (rj2 & NS & WO).
  unfold output2Body. set (K := fun (j : list Z) (rj : list Z) => on (stringRe cm _) _ _).
  destruct (on_options cj cs bj K KJ) as [(w & r & N & _ & ->)|(N & _)]; rewrite SJ in N.
  2: { exfalso. destruct (N j) as (A & B); [exists rj; auto|tauto]. }
  destruct (nextToken_unique _ _ _ _ _ _ NJ N). subst w r. unfold K. clear K.
  match goal with |- context [on (stringRe cm (options cs)) bm ?k] => set (K := k) end. destruct (on_options cm cs bm K KM) as [(t & rt & NT & TY & ->)|(NT & ->)].
  2: { rewrite FM. split; [auto|]. intro SM. rewrite SM in NT. split; [discriminate|]. intros (w & F & Y). exfalso. destruct (NT w F). tauto. }
  unfold K. clear K. match goal with |- context [on (newline cm) rt ?k] => set (K := k) end. destruct (on_newline cm rt K) as [(rm & NR & ->)|(SM & _ & ->)].
  2: { rewrite FM. split; [auto|]. congruence. }
  unfold K. clear K. rewrite chars_text. rewrite (equal_true (folded cs j)) by (apply same_folded; auto).
  match goal with |- context [on (integer cj) rj ?k] => set (K := k) end. destruct (on_integer cj rj K) as [(w & v & r & N2 & D & I & ->)|(N2 & _)]; rewrite SJ in N2.
  2: { exfalso. apply (N2 n). exists s. split; [exists rj2; auto|]. split; auto. }
  destruct (nextToken_unique _ _ _ _ _ _ NS N2). subst w r. rewrite (decimal_val _ _ _ D DE). unfold K, verify. clear K. replace (n =? 6) with false by lia. cbn [negb].
  split; [auto|]. intros SM. split; [|auto]. intros _. exists t. split; [|exact TY]. exists rt. rewrite SM in NT. exact NT.
Qed.
Lemma output2_second : forall j s u ts n, wordsOf bj (j :: s :: u :: ts) -> same cs j (text "Yes") -> decimalOf s 6 -> decimalOf u n -> is_i64 n -> spaceSensitive cm = false ->
  let x := output2Body cs (cj, bj) (cm, bm) in (x = Code 42 \/ x = Code 43) /\ (x = Code 42 <-> n = 6 /\ exists w, onlyWord false bm w /\ same cs w (text "Yes")).
Proof.
  intros j s u ts n WO SA DE DU I64 SM. cbv zeta. apply words_step in WO as (rj & NJ & WO). apply words_step in WO as (rj2 & NS & WO). apply words_step in WO as (rj3 & NU & WO).
  unfold output2Body. set (K := fun (j : list Z) (rj : list Z) => on (stringRe cm _) _ _).
  destruct (on_options cj cs bj K KJ) as [(w & r & N & _ & ->)|(N & _)]; rewrite SJ in N.
  2: { exfalso. destruct (N j) as (A & B); [exists rj; auto|tauto]. }
  destruct (nextToken_unique _ _ _ _ _ _ NJ N). subst w r. unfold K. clear K.
  match goal with |- context [on (stringRe cm (options cs)) bm ?k] => set (K := k) end. destruct (on_options cm cs bm K KM) as [(t & rt & NT & TY & ->)|(NT & ->)].
  2: { rewrite FM. split; [auto|]. rewrite SM in NT. split; [discriminate|]. intros (_ & w & F & Y). apply onlyWord_first in F. exfalso. destruct (NT w F). tauto. }
  unfold K. clear K. match goal with |- context [on (newline cm) rt ?k] => set (K := k) end. destruct (on_newline cm rt K) as [(rm & NR & ->)|(SM' & _ & ->)]; [|congruence].
  rewrite SM in NR, NT. subst rm. unfold K. clear K. rewrite chars_text. rewrite (equal_true (folded cs j)) by (apply same_folded; auto).
  match goal with |- context [on (integer cj) rj ?k] => set (K := k) end. destruct (on_integer cj rj K) as [(w & v & r & N2 & D & I & ->)|(N2 & _)]; rewrite SJ in N2.
  2: { exfalso. apply (N2 6). exists s. split; [exists rj2; auto|]. split; auto. mach. lia. }
  destruct (nextToken_unique _ _ _ _ _ _ NS N2). subst w r. rewrite (decimal_val _ _ _ D DE). unfold K. clear K. unfold verify at 1. cbn [Z.eqb Pos.eqb negb].
  assert (FW : forall w, firstWord false bm w -> w = t) by (intros w F; eapply firstWord_unique; [exact F|]; exists rt; auto).
  destruct TY as [TY|TY].
  - rewrite (equal_true (folded cs t)) by (apply same_folded; auto). match goal with |- context [on (integer cj) rj2 ?k] => set (K := k) end. destruct (on_integer cj rj2 K) as [(w & v2 & r & N3 & D3 & _ & ->)|(N3 & _)]; rewrite SJ in N3.
    2: { exfalso. apply (N3 n). exists u. split; [exists rj3; auto|]. split; auto. }
    destruct (nextToken_unique _ _ _ _ _ _ NU N3). subst w r. rewrite (decimal_val _ _ _ D3 DU). unfold K. clear K.
    match goal with |- context [on (newline cm) rt ?k] => set (K := k) end. destruct (on_newline cm rt K) as [(rm & NR & ->)|(SM' & _ & ->)]; [|congruence]. rewrite SM in NR. subst rm. unfold K, verify. clear K.
    destruct (Z.eqb_spec n 6) as [E6|E6]; cbn [negb].
    2: { split; [auto|]. split; [discriminate|]. intros (E & _). contradiction. }
    assert (EQ : fst (stringEqual (folded cs j) (folded cs t) cs) = true) by (apply equal_true; unfold same in *; rewrite !folded_idem; congruence). rewrite EQ.
    match goal with |- context [on (eof cm) rt ?k] => destruct (on_eof cm rt k) as [(E & ->)|(E & ->)] end; rewrite SM in E; cbn [endTail] in E.
    + split; [auto|]. split; auto. intros _. split; [exact E6|]. exists t. split; auto. apply onlyWord_iff. exists rt. auto.
    + rewrite FM. split; [auto|]. split; [discriminate|]. intros (_ & w & F & Y). exfalso. eapply E. apply (onlyWord_unique _ _ _ _ _ F NT).
  - assert (NY : ~ same cs t (text "Yes")) by (intro; eapply yes_no; eauto). rewrite (equal_false (folded cs t) (text "Yes")) by (rewrite same_folded; auto).
    assert (X : on (eof cm) rt (fun _ _ => if fst (stringEqual (folded cs j) (folded cs t) cs) then Code AC else Code WA) = Code 43).
    { match goal with |- on _ _ ?k = _ => destruct (on_eof cm rt k) as [(_ & ->)|(_ & ->)] end; auto.
      - rewrite equal_false; auto. intro Q. unfold same in *. rewrite !folded_idem in Q. congruence.
      - congruence. }
    rewrite X. split; auto. split; [discriminate|]. intros (_ & w & F & Y). apply onlyWord_first in F. rewrite (FW w F) in Y. tauto.
Qed.
End Output2.
