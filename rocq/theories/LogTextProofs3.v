From Coq Require Import String.
From Verif Require Import Base Tac FloatModel FloatSpec RealSpec RealModel InputSpec InputProofs4 InitSpec DecimalSpec InitModel PassModel OutProofs PrintModel PrintSpec ArgsModel ConstraintModel ConstraintSpec LogTextModel LogTextSpec LogTextProofs.
From Coq Require Import ZArith QArith Qabs List Lia SpecFloat.
Import ListNotations.
Open Scope Z_scope.
Open Scope list_scope.

(* about 4.7e-7 *)
Definition tiny : real := S754_finite false 9223372036854775808 (-84).
Definition tinyOps : list (str * logCall) := [(text "x", LogReal (S754_zero false) tiny tiny)].
Definition tinyWords : list (list Z) := [text "LocationNotSupported:x"; text "x"; [49]; [49]; text "0.000000"; text "0.000000"; text "0.000000"; text "0.000000"].
Lemma zero_value : decimalValue (text "0.000000") 0.
Proof.
  destruct (PrintProofs.show_fixed 6 (S754_zero false) ltac:(lia)) as (k & S & D & U); [split; reflexivity|]. change (showFixed 6 (S754_zero false)) with (text "0.000000") in D. eapply PrintProofs.decimal_ext; [|exact D].
  destruct (U 0) as (A & _). assert (Z0 : (units 6 0 - val (S754_zero false) == 0)%Q) by reflexivity. rewrite Z0 in A. change (Qabs 0) with 0%Q in A.
  assert (V : (units 6 k - val (S754_zero false) == units 6 k)%Q) by (cbn [val]; ring). rewrite V in A. pose proof (Qabs_nonneg (units 6 k)) as B. apply Qabs_Qle_condition in A. destruct A as (A1 & A2). apply Qle_antisym; auto.
Qed.
Lemma rounded_max : exists ops g s ws n lo up x q, Forall (fun op => fine (snd op)) ops /\ logRun DEFAULT_EPS emptyLogger ops = Ok g /\
  logText true g = Ok (Some s) /\ wordsOf s ws /\ In (n, LogReal lo up x) ops /\ nth 1 ws [] = n /\ decimalValue (nth 5 ws []) q /\ (q < val x)%Q.
Proof.
  exists tinyOps. eexists. exists (spaced tinyWords ++ [10]), tinyWords, (text "x"), (S754_zero false), tiny, tiny, 0%Q.
  split; [unfold tinyOps, fine; repeat constructor; discriminate|]. split; [vm_compute; reflexivity|]. split; [vm_compute; reflexivity|]. split.
  { pose proof (lines_words [tinyWords]) as L. cbn [flat_map concat] in L. rewrite !app_nil_r in L. apply L. constructor; [|constructor]. apply Forall_forall. intros t I. apply isToken_iff. revert t I. apply Forall_forall. vm_compute. repeat constructor. }
  split; [left; reflexivity|]. split; [reflexivity|]. split; [apply zero_value|vm_compute; reflexivity].
Qed.
(* 2^30 and 2^30 + 512 *)
Definition big : real := S754_finite false 9223372036854775808 (-33).
Definition bigger : real := S754_finite false (9223372036854775808 + 4398046511104) (-33).
Definition bigOps : list (str * logCall) := [(text "x", LogReal big (S754_finite false 9223372036854775808 (-30)) bigger)].
Definition bigWords : list (list Z) := [text "LocationNotSupported:x"; text "x"; [49]; [48]; text "1073742336.000000"; text "1073742336.000000"; text "1073741824.000000"; text "8589934592.000000"].
Lemma near_hit : exists ops g s ws, Forall (fun op => fine (snd op)) ops /\ logRun DEFAULT_EPS emptyLogger ops = Ok g /\
  logText true g = Ok (Some s) /\ wordsOf s ws /\ nth 2 ws [] = [49] /\ nth 4 ws [] <> nth 6 ws [].
Proof.
  exists bigOps. eexists. exists (spaced bigWords ++ [10]), bigWords.
  split; [unfold bigOps, fine; repeat constructor; discriminate|]. split; [vm_compute; reflexivity|]. split; [vm_compute; reflexivity|]. split.
  { pose proof (lines_words [bigWords]) as L. cbn [flat_map concat] in L. rewrite !app_nil_r in L. apply L. constructor; [|constructor]. apply Forall_forall. intros t I. apply isToken_iff. revert t I. apply Forall_forall. vm_compute. repeat constructor. }
  split; [reflexivity|]. vm_compute. discriminate.
Qed.
