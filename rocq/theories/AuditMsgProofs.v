From Verif Require Import Base Tac SeqModel SeqSpec RegexModel RegexProofs FloatModel FloatSpec InputModel InputSpec InputProofs InputProofs2 InputProofs3 InputProofs4
  OutProofs SeqProofs ReportModel ReportSpec ReportProofs MsgModel MsgSpec MsgProofs AuditMsgSpec.
From Coq Require Import ZArith List Lia.
Import ListNotations.
Open Scope Z_scope.
Open Scope list_scope.

Section First.
  Variable st : cfg.
  Variable file : list Z.
  Variable seekable : bool.
  Notation fold := (folded (caseSensitive st)).

  Lemma first_general : forall A (item : mrd A) (good : list Z -> Prop) (value : list Z -> A -> Prop) about sep,
    sep = 32 \/ sep = 10 ->
    (forall s before raw after, nextWord (spaceSensitive st) file s before raw after -> answers (onFail st) seekable (item s) before raw after (value (fold raw)) (about (fold raw))) ->
    (forall t v, value t v -> good t) -> (forall t msg, about t msg -> ~ good t) -> firstBad st file seekable sep item good about.
  Proof.
    intros A item good value about sep SEP ANS VG AB before ws es bad after count F B W SW G P BAD T C. unfold mmany, mcheckSeparator.
    assert (K : forall sepCall, (forall x y, gap (spaceSensitive st) sep x -> sepCall (x ++ y) = MRet tt (if spaceSensitive st then y else x ++ y)) ->
      forall es before ws n, file = before ++ ws ++ entries es ++ bad ++ after -> wordStart (before ++ ws) -> Forall whitespace ws -> (spaceSensitive st = true -> ws = []) ->
      Forall (fun e => plainToken (fst e) /\ good (fold (fst e)) /\ gap (spaceSensitive st) sep (snd e)) es -> (length es < n)%nat ->
      exists said, mrepeat n item sepCall (ws ++ entries es ++ bad ++ after) = MExit (onFail st) said /\ complaint seekable (before ++ ws ++ entries es) bad after (about (fold bad)) said).
    { clear es before ws count F B W SW G C. intros sepCall HS es. unfold entries. induction es as [|[t g] es IH]; intros before ws n F B W SW G C; (destruct n as [|n]; [cbn in C; lia|]).
      - cbn [map concat app] in *. rewrite app_nil_r. cbn [mrepeat]. unfold mbind at 1.
        assert (NW : nextWord (spaceSensitive st) file (ws ++ bad ++ after) (before ++ ws) bad after).
        { exists before, ws. repeat (split; auto). }
        destruct (ANS _ _ _ _ NW) as [(v & E & V)|(said & E & Q)]; [exfalso; apply BAD; eapply VG; eauto|]. rewrite E. exists said. auto.
      - cbn [map concat fst snd] in *. destruct (Forall_inv G) as (PT & GT & GG). pose proof (Forall_inv_tail G) as G'. cbn [fst snd] in *. rewrite <- !app_assoc in *.
        set (rest := concat (map (fun e => fst e ++ snd e) es) ++ bad ++ after) in *.
        assert (GW : g <> [] /\ Forall whitespace g).
        { unfold gap in GG. destruct (spaceSensitive st); [|exact GG]. subst g. split; [discriminate|]. constructor; [unfold whitespace; lia|constructor]. }
        assert (NW : nextWord (spaceSensitive st) file (ws ++ t ++ g ++ rest) (before ++ ws) t (g ++ rest)).
        { exists before, ws. split; [exact F|]. split; [reflexivity|]. split; [reflexivity|]. split; [exact W|]. split; [exact SW|]. split; [exact B|]. split; [exact PT|].
          destruct GW as [GN GW]. destruct g; [contradiction|]. cbn. exact (Forall_inv GW). }
        cbn [mrepeat]. unfold mbind at 1. destruct (ANS _ _ _ _ NW) as [(v & E & V)|(said & E & (msg & loc & Q & _))]; [|exfalso; exact (AB _ _ Q GT)].
        rewrite E. destruct n as [|n]; [cbn in C; lia|]. unfold mbind at 1. rewrite HS by exact GG. unfold mbind at 1.
        assert (LW : wordStart (before ++ ws ++ t ++ g)).
        { destruct GW as [GN GW]. destruct (exists_last GN) as (g' & c & ->). right. exists (before ++ ws ++ t ++ g'), c. split; [rewrite <- !app_assoc; reflexivity|].
          apply Forall_app in GW. destruct GW as [_ GW]. exact (Forall_inv GW). }
        assert (EX : exists said, mrepeat (S n) item sepCall (if spaceSensitive st then rest else g ++ rest) = MExit (onFail st) said /\
          complaint seekable (before ++ ws ++ t ++ g ++ concat (map (fun e => fst e ++ snd e) es)) bad after (about (fold bad)) said).
        { remember (spaceSensitive st) as b eqn:EB. destruct b.
          - destruct (IH (before ++ ws ++ t ++ g) [] (S n)) as (said & M & Q); auto; [rewrite F; unfold rest; rewrite <- !app_assoc; reflexivity|rewrite app_nil_r; exact LW|cbn in C; lia|].
            exists said. split; [exact M|]. cbn [app] in Q. rewrite <- !app_assoc in Q. exact Q.
          - destruct (IH (before ++ ws ++ t) g (S n)) as (said & M & Q); auto; [rewrite F; unfold rest; rewrite <- !app_assoc; reflexivity|rewrite <- !app_assoc; exact LW|tauto|discriminate|cbn in C; lia|].
            exists said. split; [exact M|]. rewrite <- !app_assoc in Q. exact Q. }
        destruct EX as (said & M & Q). rewrite M. exists said. split; [reflexivity|]. exact Q. }
    assert (N : (count <? 0) = false) by (pose proof (alen_pos _ es); lia).
    assert (CN : (length es < Z.to_nat count)%nat) by (unfold alen in C; lia).
    destruct SEP as [-> | ->]; cbn [Z.eqb Pos.eqb]; rewrite N; apply K; auto; intros x y X; unfold gap in X; unfold mspace, mnewline, mnoteof, mskip, mbind, mgetChar;
      destruct (spaceSensitive st); try reflexivity; subst x; reflexivity.
  Qed.

  Lemma first_integer : forall sep l u, sep = 32 \/ sep = 10 -> is_i64 l -> is_i64 u ->
    firstBad st file seekable sep (mintegerIn st file seekable l u) (fun t => exists v, decimalOf t v /\ l <= v < u) (fun t => notInRange t l u).
  Proof.
    intros sep l u S L U. apply (first_general _ _ _ (fun t v => decimalOf t v /\ l <= v < u)); auto.
    - intros s before raw after W. exact (answer_integerIn st (fun _ => None) file seekable _ _ _ _ W l u L U).
    - intros t v V. exists v. exact V.
    - intros t msg Q (v & V & R). destruct Q as [msg [Q|w D I]|w tl tu D I Q _ _].
      + apply (Q v V).
      + apply I. rewrite (decimal_value_unique _ _ _ D V). unfold is_i64 in *. lia.
      + apply Q. rewrite (decimal_value_unique _ _ _ D V). exact R.
  Qed.
  Lemma fold_length : forall b t, alen (folded b t) = alen t.
  Proof. intros b t. unfold folded, alen. destruct b; [reflexivity|]. rewrite map_length. reflexivity. Qed.
  Lemma first_string : forall sep p l u, sep = 32 \/ sep = 10 -> is_i64 l -> is_i64 u -> is_i64 (alen file) ->
    firstBad st file seekable sep (mstringReLen st file seekable p l u) (fun t => l <= alen t < u /\ lang p t) (fun t => notFitting t p l u).
  Proof.
    intros sep p l u S L U I. apply (first_general _ _ _ (fun t a => a = t /\ l <= alen t < u /\ lang p t)); auto.
    - intros s before raw after W. apply (answer_string st (fun _ => None) file seekable _ _ _ _ W p l u L U). rewrite fold_length.
      destruct W as (pre & ws & F & E & _). assert (alen raw <= alen file) by (rewrite F, E; unfold alen; rewrite !app_length; lia). pose proof (alen_pos _ raw). unfold is_i64 in *. mach. lia.
    - intros t v V. tauto.
    - intros t msg Q V. inversion Q; tauto.
  Qed.
  Lemma first_real : forall parse sep l u, sep = 32 \/ sep = 10 -> goodTol (floatAbsTol st) -> goodTol (floatRelTol st) ->
    firstBad st file seekable sep (mrealIn st parse file seekable l u)
      (fun t => exists v, realToken t /\ parse t = Some v /\ (near st v l \/ near st v u \/ ~ beyond l u v)) (fun t => notRealIn parse (near st) t l u).
  Proof.
    intros parse sep l u S GA GR. apply (first_general _ _ _ (fun t v => realToken t /\ parse t = Some v /\ (near st v l \/ near st v u \/ ~ beyond l u v))); auto.
    - intros s before raw after W. exact (answer_realIn st parse file seekable _ _ _ _ W l u GA GR).
    - intros t v V. exists v. exact V.
    - intros t msg Q (v & R & PV & V). destruct Q as [msg [Q|Q1 Q2]|w Q1 Q2 N1 N2 Q].
      + tauto.
      + congruence.
      + assert (v = w) by congruence. subst w. tauto.
  Qed.
  Lemma first_realStrict : forall parse sep l u a b, sep = 32 \/ sep = 10 ->
    firstBad st file seekable sep (mrealStrict st parse file seekable l u a b)
      (fun t => exists k v, strictReal t k /\ a <= k < b /\ parse t = Some v /\ ~ beyond l u v) (fun t => notStrict parse t l u a b).
  Proof.
    intros parse sep l u a b S. apply (first_general _ _ _ (fun t v => exists k, strictReal t k /\ a <= k < b /\ parse t = Some v /\ ~ beyond l u v)); auto.
    - intros s before raw after W. exact (answer_realStrict st parse file seekable _ _ _ _ W l u a b).
    - intros t v (k & V). exists k, v. exact V.
    - intros t msg Q (k & v & R & D & PV & V). assert (U : forall k', strictReal t k' -> k' = k) by (intros k' R'; pose proof (strict_decimals _ _ R'); pose proof (strict_decimals _ _ R); congruence).
      destruct Q as [Q|k' Q1 Q2|k' Q1 Q2 Q3|k' w Q1 Q2 Q3 Q4].
      + exact (Q k R).
      + rewrite (U _ Q1) in Q2. tauto.
      + congruence.
      + assert (v = w) by congruence. subst w. tauto.
  Qed.
End First.
