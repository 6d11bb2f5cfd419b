(* What the utilities of validate.h leave undefined: taking from an empty queue, emplacing from a container into itself. *)
From Verif Require Import Base UtilModel UtilSpec UtilProofs UtilProofs2.
From Coq Require Import List Permutation Lia.
Import ListNotations.

Lemma run_undefined : forall (A : Type) pick (cmp : A -> A -> bool), tops cmp pick -> forall ops q, ~ enough (length q) ops -> queueRun pick cmp q ops = UB.
Proof.
  intros A pick cmp T. induction ops as [|[a|] ops IH]; intros q H; cbn [enough queueRun] in *.
  - tauto.
  - apply IH. rewrite app_length. cbn. rewrite Nat.add_1_r. auto.
  - destruct q as [|x q]; cbn [length] in H.
    + destruct (pick cmp []); reflexivity.
    + destruct (T (x :: q) ltac:(discriminate)) as (a & N & _). rewrite N.
      assert (P := remove_perm A pick cmp _ _ _ N). apply Permutation_length in P. cbn [length] in P. injection P as P.
      rewrite IH; auto. rewrite <- P. auto.
Qed.
Lemma queue_undefined : forall (A : Type) (less : A -> A -> bool) pick ops, ~ enough 0 ops ->
  (tops (fun a b => less b a) pick -> minQueue less pick ops = UB) /\ (tops less pick -> maxQueue less pick ops = UB).
Proof. intros A less pick ops H. split; intros T; [apply (run_undefined A pick (invert less) T ops [] H)|apply (run_undefined A pick less T ops [] H)]. Qed.
Lemma emplace_alias : forall (A : Type) (m : list (list A)) i, (emplaceFrom m i i = UB <-> nth i m [] <> []) /\ (nth i m [] = [] -> emplaceFrom m i i = Ok m).
Proof.
  intros A m i. unfold emplaceFrom. change (content m i) with (nth i m []). destruct (nth i m []) as [|x l]; [split; auto; split; intros H; [discriminate|congruence]|].
  rewrite Nat.eqb_refl. repeat split; auto; discriminate.
Qed.
