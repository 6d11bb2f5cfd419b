(* Concrete counterexamples for the graph classes. *)
From Verif Require Import Tac RndModel RandSeqModel RndLemmas GraphModel GraphSpec GraphClientSpec.
From Verif Require Import UnionFindProofs GraphProofs GraphProofs2 DiGraphProofs.

Lemma isTree_wrong : exists l r es g x, edgesIn l r es /\
  (let! g := newDiGraph l r in arcsRun g es) = Ok g /\ diIsTree g = Some x /\ ~ node l r x /\
  forall y, ~ arborescence l r es y.
Proof.
  exists 0, 3, [(1, 2); (2, 1)].
  destruct (di_tree 0 3 [(1, 2); (2, 1)]) as (g & G1 & G2 & G3); try (mach; lia).
  { repeat constructor; simpl; lia. } { simpl. mach. lia. }
  exists g, 3. assert (T : diIsTree g = Some 3).
  { vm_compute in G1. injection G1 as <-. reflexivity. }
  repeat split; auto.
  - repeat constructor; simpl; lia.
  - unfold node. lia.
  - intros y HA. pose proof HA as [Hy _]. apply G2 in HA; auto. rewrite T in HA. inv HA. unfold node in Hy. lia.
Qed.

Lemma isDAG_wrong : exists l r es g, edgesIn l r es /\
  (let! g := newDiGraph l r in arcsRun g es) = Ok g /\ isDAG g = Ok None /\
  forall x y, reaches es x y -> reaches es y x -> x = y.
Proof.
  exists 0, 2, [(0, 1)]. eexists. split; [repeat constructor; simpl; lia |].
  split; [vm_compute; reflexivity |]. split; [vm_compute; reflexivity |].
  assert (G : forall x y, reaches [(0, 1)] x y -> x = y \/ (x = 0 /\ y = 1)).
  { intros x y H. induction H as [| x a b H IH Hin]; auto. destruct Hin as [Hin | []]. inv Hin.
    destruct IH as [-> | [-> IH]]; auto. }
  intros x y H1 H2. apply G in H1. apply G in H2. lia.
Qed.
