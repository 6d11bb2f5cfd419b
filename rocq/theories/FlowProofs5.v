(* The flow networks. *)
From Verif Require Import Base Tac BaseLemmas RndModel GenModel GenSpec GenProofs3 FlowModel FlowSpec FlowProofs FlowProofs2 FlowProofs3 FlowProofs4.

Lemma ff_main : forall n, 1 <= n <= 63 -> exists g M, ffWorstcase n = Ok g /\ represents true g 0 (2 * n) M /\ maxFlow (2 * n) (capOf M) 0 (2 * n - 1) (2 ^ (n - 1)).
Proof. intros n N. destruct (ff_rep n N) as (g & M & Q & R & HM & _). exists g, M. split; auto. split; auto. apply ff_flow; auto. Qed.
Lemma ff_edges : forall n, 1 <= n <= 63 -> exists g, ffWorstcase n = Ok g /\ edgeCount g = 4 * n - 3 /\
  getEdges g = (n - 1, n, 1) :: flat_map (fun p => [(n - 2 - p, n - 1 - p, 2 ^ p); (n - 2 - p, n + p, 2 ^ p); (n - 1 - p, n + 1 + p, 2 ^ p); (n + p, n + 1 + p, 2 ^ p)]) (zseq 0 (Z.to_nat (n - 1))).
Proof.
  intros n N. destruct (ff_rep n N) as (g & M & Q & R & HM & L). exists g. split; auto. split; [|exact L].
  assert (X : edgeCount g = alen (getEdges g)) by (unfold edgeCount, getEdges, alen; rewrite map_length; auto). rewrite X, L. unfold alen. cbn [length].
  assert (LEN : forall k p, length (flat_map (ffEdges n) (zseq p k)) = (4 * k)%nat) by (clear; induction k as [|k IH]; intro p; auto; cbn [zseq flat_map]; rewrite app_length, IH; cbn [ffEdges length]; lia).
  rewrite LEN. lia.
Qed.
Lemma ff_refuted : exists n g M, ffWorstcase n = Ok g /\ represents true g 0 (2 * n) M /\ ~ maxFlow (2 * n) (capOf M) 0 (2 * n - 1) (2 ^ n).
Proof.
  exists 5. destruct (ff_main 5) as (g & M & Q & R & F); [lia|]. exists g, M. split; auto. split; auto. intro F'.
  pose proof (maxFlow_unique _ _ _ _ _ _ F F') as X. revert X. clear. vm_compute. congruence.
Qed.
Lemma mcmf_main : forall n, 1 <= n <= 60 -> let F := if n =? 1 then 1 else 5 * 2 ^ (n - 2) - 2 in
  exists g M, mcmfWorstcase n = Ok g /\ represents true g 0 (2 * n + 2) M /\ maxFlow (2 * n + 2) (cap2Of M) 0 (2 * n + 1) F /\
    (forall f, isFlow (2 * n + 2) (cap2Of M) 0 (2 * n + 1) f -> outflow (2 * n + 2) f 0 = F -> flowCost (2 * n + 2) (cost2Of M) f = F * (2 ^ (n - 1) - 1)).
Proof.
  intros n N F. destruct (mcmf_rep n N) as (g & M & Q & R & HM). exists g, M. split; auto. split; auto. unfold F. destruct (Z.eqb_spec n 1) as [->|D].
  - destruct (one_max M HM) as (A & B). split; [exact A|]. intros f X _. change (1 * (2 ^ (1 - 1) - 1)) with 0. apply B. exact X.
  - split; [apply big_max; auto; lia|]. intros f X Y. apply big_cost; auto. lia.
Qed.
Lemma flow_throws : forall n, (~ (1 <= n <= 63) -> ffWorstcase n = Throw) /\ (~ (1 <= n <= 60) -> mcmfWorstcase n = Throw).
Proof.
  intro n. split; intro H.
  - unfold ffWorstcase. replace ((0 <? n) && (n <=? 63)) with false by lia. reflexivity.
  - unfold mcmfWorstcase. replace ((0 <? n) && (n <=? 60)) with false by lia. reflexivity.
Qed.
