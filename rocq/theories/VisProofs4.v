(* Without a name; conversion; tactics for the examples. *)
From Coq Require Import String.
From Verif Require Import Base Tac FloatModel FloatSpec RealSpec RealModel InputSpec InitSpec DecimalSpec DecimalModel DecimalProofs2 VisModel VisSpec.
From Coq Require Import ZArith QArith Qabs List Lia SpecFloat.
Import ListNotations.
Open Scope Z_scope.
Open Scope list_scope.

Lemma nameless : forall fuel convert files, pngMain fuel [] files = Throw /\ svgMain convert [] files = Throw.
Proof. split; reflexivity. Qed.
Lemma decimal_strtold : strtold (fun t => match decimalReal t with Some v => (v, true) | None => (rzero, false) end).
Proof. intros t q D R. destruct (decimalReal_fromChars t q D) as (A & B). destruct (B R) as (v & E). exists v. rewrite E. auto. Qed.

Lemma word_space : forall t s ts, token t -> wordsOf s ts -> endsToken s -> wordsOf (t ++ s) (t :: ts).
Proof. intros t s ts T W E. apply (words_cons [] t s ts); auto. Qed.
Lemma word_skip : forall s ts, wordsOf s ts -> wordsOf (32 :: s) ts.
Proof. intros s ts W. inversion W as [ws F|ws t s' ts' F T E W']; subst; [constructor; constructor; auto; unfold whitespace; lia|]. apply (words_cons (32 :: ws)); auto. constructor; auto. unfold whitespace; lia. Qed.
Ltac someWord := repeat match goal with |- wordsOf (32 :: _) _ => apply word_skip end;
  match goal with |- wordsOf ?x (?t :: ?ts) => let n := eval vm_compute in (List.length t) in
    let u := eval vm_compute in (skipn n x) in let t' := eval vm_compute in t in change x with (t' ++ u); change (wordsOf (t' ++ u) (t' :: ts)); apply word_space; [split; [discriminate|repeat (apply Forall_cons; [unfold whitespace; lia|]); constructor]| |cbn; unfold whitespace; lia || exact I] end.
Ltac someInt := match goal with |- decimalOf ?t ?v => let d := eval vm_compute in (hd 0 t - 48) in
  exists [d]; split; [split; [repeat constructor; unfold digit; lia|first [left; reflexivity|right; exists d, []; split; [reflexivity|discriminate]]]|left; split; reflexivity] end.
Ltac someReal := match goal with |- decimalValue ?t ?v => let d := eval vm_compute in (hd 0 t - 48) in
  exists [], [d], [], false, [], 0; split; [left; reflexivity|]; split; [repeat constructor; unfold digit; lia|]; split; [constructor|]; split; [left; split; reflexivity|]; split; [left; discriminate|]; split; [reflexivity|]; split; reflexivity end.
Ltac rangeOk := first [left; reflexivity|right; split; vm_compute; discriminate].
