(* mcmfWorstcase: value and cost of the maximum flow. *)
From Verif Require Import Base Tac BaseLemmas RndModel RndLemmas RandSpec GenModel GenSpec FlowModel FlowSpec FlowProofs FlowProofs3.

Lemma tot_nonneg : forall f lo n, (forall x, lo <= x < lo + n -> 0 <= f x) -> 0 <= total lo n f.
Proof. intros f lo n H. pose proof (tot_le (fun _ => 0) f lo n H) as X. rewrite (tot_zero (fun _ => 0)) in X; auto. Qed.

Section Net.
  Variables (n : Z) (M : emap (Z * Z)).
  Hypothesis N : 1 <= n.
  Hypothesis HM : forall u v, M u v = mC n u v.
  Let T := 2 * n + 1.
  Let SZ := 2 * n + 2.

  Lemma inf_pos : 0 <= cinf n.
  Proof. unfold cinf. apply Z.quot_pos; [|lia]. pose proof (Z.pow_pos_nonneg 2 n). lia. Qed.
  Lemma cap_nonneg : forall u v, 0 <= cap2Of M u v.
  Proof.
    intros u v. unfold cap2Of. rewrite HM. unfold mC. destruct ((u =? 0) && (1 <=? v) && (v <=? n)) eqn:B1; [pose proof (ca_pos (v - 1)); lia|].
    pose proof inf_pos. destruct ((u =? 1) && (v =? n + 1)); [auto|]. destruct (_ && negb _); [auto|].
    destruct ((n + 1 <=? u) && (u <=? 2 * n) && (v =? 2 * n + 1)) eqn:B4; [|lia]. pose proof (cb_pos (u - n - 1)). lia.
  Qed.
  (* rows of the capacity matrix *)
  Lemma cap_source : forall v, cap2Of M 0 v = if (1 <=? v) && (v <=? n) then ca (v - 1) else 0.
  Proof.
    intro v. unfold cap2Of. rewrite HM. unfold mC. rewrite Z.eqb_refl. cbn [andb]. destruct ((1 <=? v) && (v <=? n)); auto.
    replace ((0 =? 1) && (v =? n + 1)) with false by lia. replace ((1 <=? 0) && (0 <=? n) && (n + 1 <=? v) && (v <=? 2 * n) && negb (0 - 1 =? v - n - 1)) with false by lia.
    replace ((n + 1 <=? 0) && (0 <=? 2 * n) && (v =? 2 * n + 1)) with false by lia. auto.
  Qed.
  Lemma cap_left : forall u v, 1 <= u <= n -> cap2Of M u v = if (n + 1 <=? v) && (v <=? 2 * n) && ((u =? 1) && (v =? n + 1) || negb (v =? u + n)) then cinf n else 0.
  Proof.
    intros u v U. unfold cap2Of. rewrite HM. unfold mC. replace ((u =? 0) && (1 <=? v) && (v <=? n)) with false by lia.
    destruct ((u =? 1) && (v =? n + 1)) eqn:B2.
    { replace ((n + 1 <=? v) && (v <=? 2 * n)) with true by lia. cbn [andb orb]. auto. }
    replace ((1 <=? u) && (u <=? n) && (n + 1 <=? v) && (v <=? 2 * n) && negb (u - 1 =? v - n - 1)) with ((n + 1 <=? v) && (v <=? 2 * n) && (false || negb (v =? u + n))) by lia.
    destruct ((n + 1 <=? v) && (v <=? 2 * n) && (false || negb (v =? u + n))); auto.
    replace ((n + 1 <=? u) && (u <=? 2 * n) && (v =? 2 * n + 1)) with false by lia. auto.
  Qed.
  Lemma cap_right : forall u v, n + 1 <= u <= 2 * n -> cap2Of M u v = if v =? T then cb (u - n - 1) else 0.
  Proof.
    intros u v U. unfold cap2Of, T. rewrite HM. unfold mC. replace ((u =? 0) && (1 <=? v) && (v <=? n)) with false by lia. replace ((u =? 1) && (v =? n + 1)) with false by lia.
    replace ((1 <=? u) && (u <=? n) && (n + 1 <=? v) && (v <=? 2 * n) && negb (u - 1 =? v - n - 1)) with false by lia.
    replace ((n + 1 <=? u) && (u <=? 2 * n)) with true by lia. cbn [andb]. destruct (v =? 2 * n + 1); auto.
  Qed.
  Lemma cap_sink : forall v, cap2Of M T v = 0.
  Proof.
    intro v. unfold cap2Of, T. rewrite HM. unfold mC. replace ((2 * n + 1 =? 0) && (1 <=? v) && (v <=? n)) with false by lia. replace ((2 * n + 1 =? 1) && (v =? n + 1)) with false by lia.
    replace ((1 <=? 2 * n + 1) && (2 * n + 1 <=? n) && (n + 1 <=? v) && (v <=? 2 * n) && negb (2 * n + 1 - 1 =? v - n - 1)) with false by lia.
    replace ((n + 1 <=? 2 * n + 1) && (2 * n + 1 <=? 2 * n) && (v =? 2 * n + 1)) with false by lia. auto.
  Qed.
  Lemma cost_left : forall u v, 1 <= u <= n -> n + 1 <= v <= 2 * n -> v <> u + n -> cost2Of M u v = 2 ^ Z.max (u - 1) (v - n - 1) - 1.
  Proof.
    intros u v U V D. unfold cost2Of. rewrite HM. unfold mC. replace ((u =? 0) && (1 <=? v) && (v <=? n)) with false by lia. replace ((u =? 1) && (v =? n + 1)) with false by lia.
    replace ((1 <=? u) && (u <=? n) && (n + 1 <=? v) && (v <=? 2 * n) && negb (u - 1 =? v - n - 1)) with true by lia. auto.
  Qed.
  Lemma cost_other : forall u v, ~ (1 <= u <= n /\ n + 1 <= v <= 2 * n) -> cost2Of M u v = 0.
  Proof.
    intros u v D. unfold cost2Of. rewrite HM. unfold mC. destruct ((u =? 0) && (1 <=? v) && (v <=? n)); auto. destruct ((u =? 1) && (v =? n + 1)); auto.
    replace ((1 <=? u) && (u <=? n) && (n + 1 <=? v) && (v <=? 2 * n) && negb (u - 1 =? v - n - 1)) with false by lia. destruct (_ && _); auto.
  Qed.
  (* the amount through the middle is the value *)
  Lemma value_middle : forall f, isFlow SZ (cap2Of M) 0 T f ->
    outflow SZ f 0 = total 0 SZ (fun u => total 0 SZ (fun v => ib ((1 <=? u) && (u <=? n) && (n + 1 <=? v) && (v <=? 2 * n)) * f u v)).
  Proof.
    intros f F. rewrite (value_cross SZ 0 T (cap2Of M) (fun u => u <=? n)) by (auto; unfold SZ, T; lia). pose proof F as (F1 & _).
    apply tot_ext. intros u U. apply tot_ext. intros v V. unfold cross. specialize (F1 u v). unfold SZ in *. specialize (F1 ltac:(lia) ltac:(lia)).
    assert (X : u = 0 \/ 1 <= u <= n \/ n + 1 <= u <= 2 * n \/ u = T) by (unfold T; lia). destruct X as [->|[X|[X| ->]]].
    - rewrite cap_source in F1. replace ((1 <=? 0) && (0 <=? n) && (n + 1 <=? v) && (v <=? 2 * n)) with false by lia. unfold ib. replace (0 <=? n) with true by lia.
      destruct (Z.leb_spec v n); [lia|]. replace ((1 <=? v) && false) with false in F1 by lia. lia.
    - rewrite cap_left in F1 by auto. unfold ib. replace ((1 <=? u) && (u <=? n)) with true by lia. replace (u <=? n) with true by lia. cbn [andb].
      destruct (Z.leb_spec v n); [replace ((n + 1 <=? v) && (v <=? 2 * n)) with false in * by lia; cbn [andb] in F1; lia|].
      replace (n + 1 <=? v) with true in * by lia. cbn [andb] in *. destruct (v <=? 2 * n); [lia|cbn [andb] in F1; lia].
    - rewrite cap_right in F1 by auto. replace ((1 <=? u) && (u <=? n) && (n + 1 <=? v) && (v <=? 2 * n)) with false by lia. unfold ib. replace (u <=? n) with false by lia.
      destruct (Z.leb_spec v n); [|lia]. replace (v =? T) with false in F1 by (unfold T; lia). lia.
    - rewrite cap_sink in F1. assert (f T v = 0) as -> by lia. lia.
  Qed.
End Net.

Section Big.
  Variables (n : Z) (M : emap (Z * Z)).
  Hypothesis N : 2 <= n.
  Hypothesis HM : forall u v, M u v = mC n u v.
  Let PA := total 0 (n - 1) ca.
  Let PB := total 0 (n - 1) cb.
  Let b := fun u => (u =? 0) || (n <=? u) && (u <=? 2 * n - 1).

  Lemma cut_value : cutSize (2 * n + 2) (cap2Of M) b = PA + PB.
  Proof.
    unfold cutSize. assert (N1 : 1 <= n) by lia.
    replace (2 * n + 2) with (1 + (n + ((n - 1) + 2))) at 1 by lia. rewrite !tot_app, tot_one by lia. rewrite !Z.add_0_l.
    replace (total 0 (2 * n + 2) (cutCap (cap2Of M) b 0)) with PA.
    2: { replace (2 * n + 2) with (1 + ((n - 1) + (n + 2))) by lia. rewrite (tot_app _ ((n - 1) + (n + 2))), (tot_app _ (n + 2)), tot_one by lia. replace (cutCap (cap2Of M) b 0 0) with 0 by reflexivity. rewrite !Z.add_0_l.
         rewrite (tot_ext (cutCap (cap2Of M) b 0) (fun v => ca (v - 1)) 1 (n - 1)).
         - rewrite (tot_shift ca 1). rewrite (tot_zero (cutCap (cap2Of M) b 0)); [unfold PA; rewrite Z.sub_diag; lia|]. intros x X. unfold cutCap. rewrite (cap_source n M) by auto. unfold b.
           destruct (Z.eq_dec x n) as [->|D]; [replace (_ && _) with false by lia; unfold ib; lia|]. replace ((1 <=? x) && (x <=? n)) with false by lia. lia.
         - intros x X. unfold cutCap, b. rewrite (cap_source n M) by auto. replace ((1 <=? x) && (x <=? n)) with true by lia. replace (_ && _) with true by lia. unfold ib. lia. }
    rewrite (tot_zero _ 1 n).
    2: { intros u U. apply tot_zero. intros v V. unfold cutCap. rewrite (cap_left n M) by (auto; lia). unfold b. destruct (Z.eq_dec u n) as [->|D].
         - destruct ((n + 1 <=? v) && (v <=? 2 * n) && _) eqn:B; [|lia]. replace (_ && negb _) with false by lia. unfold ib. lia.
         - replace (((u =? 0) || (n <=? u) && (u <=? 2 * n - 1)) && _) with false by lia. unfold ib. lia. }
    rewrite (tot_ext _ (fun u => cb (u - (n + 1))) (1 + n) (n - 1)).
    2: { intros u U. rewrite (tot_point _ 0 (2 * n + 2) (2 * n + 1)); [|lia|].
         - unfold cutCap. rewrite (cap_right n M) by (auto; lia). rewrite Z.eqb_refl. unfold b. replace (_ && negb _) with true by lia. unfold ib. replace (u - n - 1) with (u - (n + 1)) by lia. lia.
         - intros y Y D. unfold cutCap. rewrite (cap_right n M) by (auto; lia). replace (y =? 2 * n + 1) with false by lia. lia. }
    rewrite (tot_shift cb (n + 1)). replace (1 + n - (n + 1)) with 0 by lia. fold PB. rewrite tot_zero; [lia|].
    intros u U. apply tot_zero. intros v V. unfold cutCap, b. replace (_ && negb _) with false by lia. unfold ib. lia.
  Qed.
  Definition flowOf (u v : Z) : Z :=
    if u =? 0 then if (1 <=? v) && (v <=? n - 1) then ca (v - 1) else if v =? n then PB else 0
    else if (1 <=? u) && (u <=? n - 1) then if v =? 2 * n then ca (u - 1) else 0
    else if u =? n then if (n + 1 <=? v) && (v <=? 2 * n - 1) then cb (v - (n + 1)) else 0
    else if (n + 1 <=? u) && (u <=? 2 * n - 1) then if v =? 2 * n + 1 then cb (u - (n + 1)) else 0
    else if u =? 2 * n then if v =? 2 * n + 1 then PA else 0
    else 0.
  Lemma part_ca : forall i, 0 <= i < n - 1 -> ca i <= PA.
  Proof.
    intros i I. unfold PA. replace (n - 1) with (i + (1 + (n - 1 - i - 1))) by lia. rewrite !tot_app, tot_one by lia. rewrite Z.add_0_l.
    assert (0 <= total 0 i ca) by (apply tot_nonneg; intros x X; pose proof (ca_pos x); lia).
    assert (0 <= total (i + 1) (n - 1 - i - 1) ca) by (apply tot_nonneg; intros x X; pose proof (ca_pos x); lia). lia.
  Qed.
  Lemma part_cb : forall i, 0 <= i < n - 1 -> cb i <= PB.
  Proof.
    intros i I. unfold PB. replace (n - 1) with (i + (1 + (n - 1 - i - 1))) by lia. rewrite !tot_app, tot_one by lia. rewrite Z.add_0_l.
    assert (0 <= total 0 i cb) by (apply tot_nonneg; intros x X; pose proof (cb_pos x); lia).
    assert (0 <= total (i + 1) (n - 1 - i - 1) cb) by (apply tot_nonneg; intros x X; pose proof (cb_pos x); lia). lia.
  Qed.
  Ltac bf := repeat match goal with |- context [if ?c then _ else _] => first [replace c with true by lia|replace c with false by lia] end.
  Lemma flowOf_flow : isFlow (2 * n + 2) (cap2Of M) 0 (2 * n + 1) flowOf.
  Proof.
    assert (N1 : 1 <= n) by lia. destruct (sums_ok n N) as (_ & X1 & X2 & X3 & X4). fold PA PB in X1, X2, X3, X4.
    assert (PA0 : 0 <= PA) by (pose proof (part_ca 0); pose proof (ca_pos 0); lia). assert (PB0 : 0 <= PB) by (pose proof (part_cb 0); pose proof (cb_pos 0); lia).
    split.
    - intros u v U V. assert (X : u = 0 \/ 1 <= u <= n \/ n + 1 <= u <= 2 * n \/ u = 2 * n + 1) by lia. destruct X as [->|[X|[X| ->]]].
      + rewrite (cap_source n M) by auto. unfold flowOf. rewrite Z.eqb_refl. destruct (Z.eqb_spec v n) as [->|D].
        * bf. replace (n - 1) with (n - 1) by lia. lia.
        * destruct ((1 <=? v) && (v <=? n - 1)) eqn:B; bf; [pose proof (ca_pos (v - 1)); lia|lia].
      + pose proof (cap_nonneg n M N1 HM u v) as CN. rewrite (cap_left n M) in * by auto. unfold flowOf. destruct (Z.eqb_spec u n) as [->|D].
        * bf. destruct ((n + 1 <=? v) && (v <=? 2 * n - 1)) eqn:B; [|lia]. bf. pose proof (part_cb (v - (n + 1))). pose proof (cb_pos (v - (n + 1))). lia.
        * bf. destruct (Z.eqb_spec v (2 * n)) as [->|D2]; [|lia]. bf. pose proof (part_ca (u - 1)). pose proof (ca_pos (u - 1)). lia.
      + rewrite (cap_right n M) by auto. unfold flowOf. destruct (Z.eqb_spec u (2 * n)) as [->|D].
        * bf. destruct (v =? 2 * n + 1); [|lia]. replace (2 * n - n - 1) with (n - 1) by lia. lia.
        * bf. destruct (v =? 2 * n + 1); [|lia]. replace (u - n - 1) with (u - (n + 1)) by lia. pose proof (cb_pos (u - (n + 1))). lia.
      + rewrite (cap_sink n M) by auto. unfold flowOf. bf. lia.
    - intros u U D1 D2. unfold outflow. assert (X : 1 <= u <= n - 1 \/ u = n \/ n + 1 <= u <= 2 * n - 1 \/ u = 2 * n) by lia. destruct X as [X|[->|[X| ->]]].
      + rewrite (tot_point _ 0 (2 * n + 2) (2 * n)), (tot_point (fun v => flowOf v u) 0 (2 * n + 2) 0); try lia; unfold flowOf.
        * bf. lia.
        * intros y Y D. bf. destruct (y =? n) eqn:B; bf; auto. destruct ((1 <=? y) && (y <=? n - 1)); bf; auto. destruct (_ && _); auto. destruct (y =? 2 * n); auto.
        * intros y Y D. bf. auto.
      + rewrite (tot_point (fun v => flowOf v n) 0 (2 * n + 2) 0); try lia.
        * replace (2 * n + 2) with ((n + 1) + ((n - 1) + 2)) by lia. rewrite (tot_app _ ((n - 1) + 2)), (tot_app _ 2) by lia. rewrite (tot_zero (fun v => flowOf n v) 0 (n + 1)), (tot_zero (fun v => flowOf n v) _ 2).
          -- rewrite (tot_ext _ (fun v => cb (v - (n + 1))) (0 + (n + 1)) (n - 1)). ++ rewrite (tot_shift cb (n + 1)). replace (0 + (n + 1) - (n + 1)) with 0 by lia. fold PB. unfold flowOf. bf. lia.
             ++ intros x X. unfold flowOf. bf. auto.
          -- intros x X. unfold flowOf. bf. auto.
          -- intros x X. unfold flowOf. bf. auto.
        * intros y Y D. unfold flowOf. bf. destruct ((1 <=? y) && (y <=? n - 1)); bf; auto. destruct (y =? n); bf; auto. destruct (_ && _); auto. destruct (y =? 2 * n); auto.
      + rewrite (tot_point _ 0 (2 * n + 2) (2 * n + 1)), (tot_point (fun v => flowOf v u) 0 (2 * n + 2) n); try lia; unfold flowOf.
        * bf. lia.
        * intros y Y D. destruct (y =? 0) eqn:B0; bf; auto. destruct ((1 <=? y) && (y <=? n - 1)); bf; auto. destruct (_ && _); auto. destruct (y =? 2 * n); auto.
        * intros y Y D. bf. auto.
      + rewrite (tot_point (fun v => flowOf (2 * n) v) 0 (2 * n + 2) (2 * n + 1)); try lia.
        * replace (2 * n + 2) with (1 + ((n - 1) + (n + 2))) by lia. rewrite (tot_app _ ((n - 1) + (n + 2))), (tot_app _ (n + 2)), tot_one by lia. rewrite (tot_zero _ (0 + 1 + (n - 1)) (n + 2)).
          -- rewrite (tot_ext _ (fun v => ca (v - 1)) (0 + 1) (n - 1)). ++ rewrite (tot_shift ca 1). replace (0 + 1 - 1) with 0 by lia. fold PA. unfold flowOf. bf. lia.
             ++ intros x X. unfold flowOf. bf. auto.
          -- intros x X. unfold flowOf. bf. destruct (x =? n) eqn:B; bf; auto. destruct (_ && _); auto. destruct (x =? 2 * n); auto.
        * intros y Y D. unfold flowOf. bf. auto.
  Qed.
  Lemma flowOf_value : outflow (2 * n + 2) flowOf 0 = PA + PB.
  Proof.
    unfold outflow. rewrite (tot_zero (fun v => flowOf v 0)).
    - replace (2 * n + 2) with (1 + ((n - 1) + (1 + (n + 1)))) by lia. rewrite (tot_app _ ((n - 1) + (1 + (n + 1)))), (tot_app _ (1 + (n + 1))), (tot_app _ (n + 1)), !tot_one by lia.
      rewrite (tot_ext _ (fun v => ca (v - 1)) (0 + 1) (n - 1)).
      + rewrite (tot_shift ca 1). replace (0 + 1 - 1) with 0 by lia. fold PA. rewrite tot_zero; [unfold flowOf; bf; lia|]. intros x X. unfold flowOf. bf. auto.
      + intros x X. unfold flowOf. bf. auto.
    - intros x X. unfold flowOf. destruct (x =? 0) eqn:B; bf; auto. destruct (_ && _); auto. destruct (x =? n); auto. destruct (_ && _); auto. destruct (x =? 2 * n); auto.
  Qed.
  Lemma big_max : maxFlow (2 * n + 2) (cap2Of M) 0 (2 * n + 1) (5 * 2 ^ (n - 2) - 2).
  Proof.
    destruct (sums_ok n N) as (E & _). fold PA PB in E. rewrite <- E. split.
    - exists flowOf. split; [apply flowOf_flow|apply flowOf_value].
    - intros f F. rewrite <- cut_value. apply (cut_bound (2 * n + 2) 0 (2 * n + 1)); auto; try lia; unfold b; lia.
  Qed.
  Lemma big_cost : forall f, isFlow (2 * n + 2) (cap2Of M) 0 (2 * n + 1) f -> outflow (2 * n + 2) f 0 = 5 * 2 ^ (n - 2) - 2 ->
    flowCost (2 * n + 2) (cost2Of M) f = (5 * 2 ^ (n - 2) - 2) * (2 ^ (n - 1) - 1).
  Proof.
    intros f F E. pose proof E as E0. destruct (sums_ok n N) as (E1 & _). fold PA PB in E1. rewrite <- E1, <- cut_value in E.
    assert (N1 : 1 <= n) by lia.
    pose proof (cut_tight (2 * n + 2) 0 (2 * n + 1) (cap2Of M) b ltac:(lia) ltac:(unfold b; lia) ltac:(unfold b; lia) f F E) as TI.
    rewrite (value_middle n M) in E0 by auto. rewrite <- E0, (Z.mul_comm (total _ _ _)). rewrite <- tot_scale. unfold flowCost. apply tot_ext. intros u U. rewrite <- tot_scale. apply tot_ext. intros v V.
    unfold ib. destruct ((1 <=? u) && (u <=? n) && (n + 1 <=? v) && (v <=? 2 * n)) eqn:B; [|rewrite (cost_other n M) by (auto; lia); lia].
    destruct (Z.eq_dec v (u + n)) as [->|D].
    - (* no edge, except in the first pair *)
      destruct F as (F1 & _). specialize (F1 u (u + n) ltac:(lia) ltac:(lia)). rewrite (cap_left n M) in F1 by (auto; lia).
      destruct (Z.eq_dec u 1) as [->|U1].
      + specialize (TI 1 (1 + n) ltac:(lia) ltac:(lia)). unfold cross, cutCap, b, ib in TI. revert TI. bf. intro TI. assert (f 1 (1 + n) = 0) as -> by lia. lia.
      + replace ((n + 1 <=? u + n) && (u + n <=? 2 * n) && ((u =? 1) && (u + n =? n + 1) || negb (u + n =? u + n))) with false in F1 by lia.
        assert (f u (u + n) = 0) as -> by lia. lia.
    - rewrite (cost_left n M) by (auto; lia). destruct (Z.eq_dec u n) as [->|U1]; [|destruct (Z.eq_dec v (2 * n)) as [->|V1]].
      + replace (Z.max (n - 1) (v - n - 1)) with (n - 1) by lia. lia.
      + replace (Z.max (u - 1) (2 * n - n - 1)) with (n - 1) by lia. lia.
      + specialize (TI u v ltac:(lia) ltac:(lia)). unfold cross, cutCap, b, ib in TI. revert TI. bf. intro TI. assert (f u v = 0) as -> by lia. lia.
  Qed.
End Big.

Lemma one_max : forall M, (forall u v, M u v = mC 1 u v) -> maxFlow 4 (cap2Of M) 0 3 1 /\
  forall f, isFlow 4 (cap2Of M) 0 3 f -> flowCost 4 (cost2Of M) f = 0.
Proof.
  intros M HM. split.
  - split.
    + exists (fun u v => if (v =? u + 1) && (0 <=? u) && (u <=? 2) then 1 else 0). split; [split|reflexivity].
      * intros u v U V. unfold cap2Of. rewrite HM.
        assert (X : u = 0 \/ u = 1 \/ u = 2 \/ u = 3) by lia. assert (Y : v = 0 \/ v = 1 \/ v = 2 \/ v = 3) by lia.
        destruct X as [->|[->|[->| ->]]]; destruct Y as [->|[->|[->| ->]]]; vm_compute; split; congruence.
      * intros u U A B. assert (u = 1 \/ u = 2) as [->| ->] by lia; reflexivity.
    + intros f F. pose proof (cut_bound 4 0 3 (cap2Of M) (fun u => u =? 0) ltac:(lia) ltac:(lia) ltac:(lia) f F) as X.
      assert (Y : cutSize 4 (cap2Of M) (fun u => u =? 0) = 1); [|lia]. unfold cutSize. rewrite (tot_ext _ (fun u => total 0 4 (cutCap (cap2Of (mC 1)) (fun u => u =? 0) u))); [reflexivity|].
      intros u U. apply tot_ext. intros v V. unfold cutCap, cap2Of. rewrite HM. auto.
  - intros f F. unfold flowCost. apply tot_zero. intros u U. apply tot_zero. intros v V. unfold cost2Of. rewrite HM. 
    assert (X : u = 0 \/ u = 1 \/ u = 2 \/ u = 3) by lia. assert (Y : v = 0 \/ v = 1 \/ v = 2 \/ v = 3) by lia.
    destruct X as [->|[->|[->| ->]]]; destruct Y as [->|[->|[->| ->]]]; vm_compute mC; lia.
Qed.
