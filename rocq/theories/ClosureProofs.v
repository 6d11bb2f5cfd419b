From Verif Require Import Base Tac GenModel GenSpec GenOpsModel GenOpsSpec GenProofs3 GenOpsProofs4 ClosureModel.
From Coq Require Import ZArith List Lia.
Import ListNotations.
Open Scope Z_scope.

Lemma walk_fun : forall E (M : emap E) n u v, walk M n u v <-> exists f, f O = u /\ f n = v /\ forall i, (i < n)%nat -> isEdge M (f i) (f (S i)) = true.
Proof.
  intros E M n. induction n as [|n IH]; intros u v; split.
  - intros W. inversion W; subst. exists (fun _ => v). repeat split; auto. intros i L. lia.
  - intros (f & <- & <- & _). constructor.
  - intros W. inversion W as [|? ? w ? W' ED]; subst. apply IH in W' as (f & F0 & FN & FE). exists (fun i => if Nat.leb i n then f i else v). repeat split; auto.
    + destruct (Nat.leb_spec (S n) n); [lia|auto].
    + intros i L. destruct (Nat.leb_spec i n), (Nat.leb_spec (S i) n); try lia; auto. replace i with n by lia. rewrite FN. auto.
  - intros (f & F0 & FN & FE). apply walk_snoc with (f n); [|rewrite <- FN; apply FE; lia]. apply IH. exists f. repeat split; auto.
Qed.
Lemma not_nodup : forall (f : nat -> Z) n, ~ NoDup (map f (seq 0 n)) -> exists i j, (i < j < n)%nat /\ f i = f j.
Proof.
  intros f n. induction n as [|n IH]; intros H; [exfalso; apply H; constructor|].
  rewrite seq_S, map_app in H. cbn [map plus] in H. destruct (in_dec Z.eq_dec (f n) (map f (seq 0 n))) as [I|I].
  - apply in_map_iff in I as (i & E & I). apply in_seq in I. exists i, n. split; [lia|auto].
  - destruct IH as (i & j & L & E); [|exists i, j; split; [lia|auto]]. intros ND. apply H. apply NoDup_rev in ND. rewrite <- (rev_involutive (map f (seq 0 n) ++ [f n])). apply NoDup_rev.
    rewrite rev_app_distr. cbn [rev app]. constructor; auto. rewrite <- in_rev. auto.
Qed.
(* a walk of a graph with hi - lo nodes can be shortened below this number of edges *)
Lemma walk_short : forall E (M : emap E) lo hi, (forall u v, isEdge M u v = true -> lo <= u < hi /\ lo <= v < hi /\ u <> v) ->
  forall n u v, lo <= u < hi -> walk M n u v -> exists m, Z.of_nat m < hi - lo /\ walk M m u v.
Proof.
  intros E M lo hi R n. induction n as [n IH] using (well_founded_induction lt_wf). intros u v U W.
  destruct (Z.lt_ge_cases (Z.of_nat n) (hi - lo)) as [L|G]; [eauto|]. apply walk_fun in W as (f & F0 & FN & FE).
  assert (RF : forall i, (i <= n)%nat -> lo <= f i < hi). { intros i L. destruct i; [rewrite F0; auto|]. apply (R _ _ (FE i ltac:(lia))). }
  destruct (not_nodup f (S n)) as (i & j & L & EQ).
  { intros ND. assert (LE : (length (map f (seq 0 (S n))) <= length (map (fun k => (lo + Z.of_nat k)%Z) (seq 0 (Z.to_nat (hi - lo)%Z))))%nat).
    { apply NoDup_incl_length; auto. intros x I. apply in_map_iff in I as (k & <- & I). apply in_seq in I. specialize (RF k ltac:(lia)).
      apply in_map_iff. exists (Z.to_nat (f k - lo)). split; [lia|]. apply in_seq. lia. }
    rewrite !map_length, !seq_length in LE. lia. }
  apply (IH (n - (j - i))%nat); [lia|auto|]. apply walk_fun. exists (fun t => if Nat.leb t i then f t else f (t + (j - i))%nat). repeat split; auto.
  - destruct (Nat.leb_spec (n - (j - i)) i).
    + assert (j = n) by lia. subst j. replace (n - (n - i))%nat with i by lia. congruence.
    + rewrite <- FN. f_equal. lia.
  - intros t T. destruct (Nat.leb_spec t i), (Nat.leb_spec (S t) i); try lia.
    + apply FE. lia.
    + assert (t = i) by lia. subst t. rewrite EQ. replace (S i + (j - i))%nat with (S j) by lia. apply FE. lia.
    + replace (S t + (j - i))%nat with (S (t + (j - i)))%nat by lia. apply FE. lia.
Qed.
Lemma closure_rep : forall E (dflt : E) g M lo hi, represents true g lo hi M ->
  exists g' M', transitiveClosure dflt true g = Ok g' /\ represents true g' lo hi M' /\
    (forall u v, isEdge M' u v = true <-> u <> v /\ exists n, walk M n u v) /\ (forall u v d, M' u v = Some d -> d = dflt) /\
    (forall u v w, isEdge M' u v = true -> isEdge M' v w = true -> u <> w -> isEdge M' u w = true).
Proof.
  intros E dflt g M lo hi R. destruct (power_rep E dflt g M lo hi (nodeCount g) R) as (g' & M' & P & R' & C & D). exists g', M'. split; [exact P|]. split; [exact R'|].
  assert (RG := R). destruct RG as (_ & N & _ & _ & RR & _).
  assert (C' : forall u v, isEdge M' u v = true <-> u <> v /\ exists n, walk M n u v).
  { intros u v. rewrite C. split.
    - intros (_ & NE & n & _ & W). eauto.
    - intros (NE & n & W). assert (U : lo <= u < hi). { apply walk_fun in W as (f & F0 & FN & FE). destruct n; [congruence|]. rewrite <- F0. apply (RR _ _ (FE O ltac:(lia))). }
      split; [auto|]. split; [auto|]. destruct (walk_short E M lo hi RR n u v U W) as (m & L & W'). exists m. split; auto. unfold nodeCount. lia. }
  split; [exact C'|]. split; [exact D|]. intros u v w A B NE. apply C' in A as (_ & a & WA). apply C' in B as (_ & b & WB). apply C'. split; auto.
  exists (a + b)%nat. clear - WA WB. induction WB as [|b v x w WB IH ED]; [rewrite Nat.add_0_r; auto|]. rewrite Nat.add_succ_r. eapply walk_snoc; eauto.
Qed.
