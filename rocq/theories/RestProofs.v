From Coq Require Import String.
From Verif Require Import Base BaseLemmas Tac SeqModel ArgsModel ArgsSpec ArgsClient RandIntModel GenModel GenSpec GenProofs3 FloatModel InputModel InitModel InitSpec InitProofs ColorModel PipeModel PipeSpec PipeProofs2.
From Coq Require Import ZArith List Lia.
Import ListNotations.
Open Scope Z_scope.

Lemma any_bijection : (forall w, is_u64 w -> is_i64 (anyInteger w)) /\ (forall w w', is_u64 w -> is_u64 w' -> anyInteger w = anyInteger w' -> w = w') /\
  forall v, is_i64 v -> exists w, is_u64 w /\ anyInteger w = v.
Proof.
  unfold anyInteger. split; [intros; apply to_i64_range|]. split.
  - intros w w' W W' E. assert (M := to_i64_cong w). assert (M' := to_i64_cong w'). rewrite E in M. rewrite M in M'. rewrite !Z.mod_small in M' by (mach; lia). auto.
  - intros v V. exists (v mod two64). assert (B := Z.mod_pos_bound v two64 eq_refl). split; [mach; lia|]. unfold to_i64. rewrite Z.mod_mod by discriminate. apply to_i64_id in V. exact V.
Qed.
Lemma string_default : forall c ps d, shows c ps -> asStringOr (ctoken c) d = match ps with [] => d | s :: _ => s end.
Proof. intros c ps d (_ & _ & T & _). rewrite T. destruct ps; reflexivity. Qed.
Lemma degrees_rep : forall E dir (g : graph E) lo hi M, represents dir g lo hi M -> alen (getDegrees g) = hi - lo /\
  forall u, lo <= u < hi -> exists n, neighbourList M u n /\ nth_error (getDegrees g) (Z.to_nat (u - lo)) = Some (alen n).
Proof.
  intros E dir g lo hi M R. assert (ML : minId g = lo /\ lo + alen (adj g) = hi) by (destruct R as (A & B & _); auto). destruct ML as (ML & LN).
  split; [unfold getDegrees, alen in *; rewrite map_length; lia|]. intros u U.
  destruct (rep_observe E dir g M lo hi [CDegree u] R ltac:(constructor; [exact U|constructor])) as (g' & l & G & A).
  inversion A as [| | | | |? ? n ? l' N A'| | |]; subst. exists n. split; auto. cbn [grun gstep] in G. unfold degree in G.
  destruct (assertNode g u) as [?| | |]; try discriminate. cbn [bind] in G. unfold aget in G. destruct (u - minId g <? 0) eqn:LT; [discriminate|].
  destruct (nth_error (adj g) (Z.to_nat (u - minId g))) as [s|] eqn:NT; [|discriminate]. cbn [bind] in G. injection G as _ Q _. unfold getDegrees.
  rewrite nth_error_map, NT. cbn. congruence.
Qed.
Lemma generator_cases : forall parse args w,
  (ready parse args w /\ exists w', initGenerator parse args w = Ok w' /\ configured parse args w w') \/ (~ ready parse args w /\ initGenerator parse args w = Throw).
Proof.
  intros parse args w. unfold initGenerator. destruct (init_two parse args w) as [(R & p & w' & E & _ & C)|(R & E)]; rewrite E; cbn [bind]; [left|right]; eauto.
Qed.
Lemma settings_equal : forall parse args w p w' a r x y, init parse args w = Ok (p, w') ->
  toleranceOf parse args (text "float_absolute_tolerance") (wAbs w) a -> toleranceOf parse args (text "float_relative_tolerance") (wRel w) r ->
  settingsEqual w' x y = floatEqual x y a r.
Proof.
  intros parse args w p w' a r x y I A R. destruct (init_two parse args w) as [(_ & p' & w2 & E & _ & C)|(_ & E)]; [|congruence]. rewrite I in E. inv E.
  destruct C as (CA & CR & _). unfold settingsEqual. f_equal; eapply toleranceOf_unique; eauto.
Qed.
Lemma gray_rgb : forall x, 0 <= x < 256 -> ofGray x = ofRgb (x * 65536 + x * 256 + x).
Proof.
  intros x X. unfold ofGray, ofRgb. change 255 with (Z.ones 8). rewrite !Z.land_ones, !Z.shiftr_div_pow2 by lia. change (2 ^ 16) with 65536. change (2 ^ 8) with 256.
  f_equal; Z.div_mod_to_equations; lia.
Qed.
Lemma weighted_back : forall (g : graph Z) lo hi M st nLo nHi mHi wLo wHi,
  represents false g lo hi M -> spaceSensitive st = true -> nLo <= hi - lo < nHi -> edgeCount g < mHi -> edgeCount g <= I64_MAX ->
  is_i64 lo -> is_i64 (lo + nLo) -> is_i64 (lo + nHi - 1) -> is_i64 (2 * (hi - lo)) ->
  (forall u v w, M u v = Some w -> is_i64 w /\ wLo <= w < wHi) ->
  exists v, readUndirected st nLo nHi mHi lo [(wLo, wHi)] (showGraph intData g ++ [10]) = Ret (v, map (fun e => [snd e]) (getEdges g)) [].
Proof.
  intros g lo hi M st nLo nHi mHi wLo wHi R SS N EM EI I1 I2 I3 I4 W.
  destruct (graph_back Z g intData lo hi M st nLo nHi mHi [(wLo, wHi)] R SS N EM EI I1 I2 I3 I4) as (v & V & _); [|exists v; exact V].
  apply Forall_forall. intros ((a, b), w) I. destruct R as (_ & _ & _ & (EL & _) & _). assert (Q : M a b = Some w) by (apply EL; exact I). apply W in Q. unfold within, intData. constructor; [exact Q|constructor].
Qed.
