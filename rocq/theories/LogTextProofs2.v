From Coq Require Import String.
From Verif Require Import Base Tac FloatModel FloatSpec RealSpec RealModel InputSpec InputProofs InputProofs2 InputProofs3 InputProofs4 InitSpec DecimalSpec DecimalProofs2 DecimalProofs3 SeqModel PassModel OutProofs ExampleProofs ExampleProofs3 PrintModel PrintSpec PrintProofs PrintProofs2 PrintProofs3 ArgsModel ConstraintModel ConstraintSpec ConstraintProofs ConstraintProofs2 LogTextModel LogTextSpec LogTextProofs.
From Coq Require Import ZArith QArith Qabs List Lia Lqa SpecFloat.
Import ListNotations.
Open Scope Z_scope.
Open Scope list_scope.

Lemma words_unique : forall ts s us, wordsOf s ts -> wordsOf s us -> ts = us.
Proof.
  induction ts as [|t ts IH]; intros s us A B.
  - destruct us as [|u us]; auto. exfalso. apply words_step in B as (r & B & _). eapply words_none; [exact A|]. exists r. exact B.
  - destruct us as [|u us].
    + exfalso. apply words_step in A as (r & A & _). eapply words_none; [exact B|]. exists r. exact A.
    + apply words_step in A as (r & A & A'). apply words_step in B as (r' & B & B'). destruct (nextToken_unique _ _ _ _ _ _ A B) as (-> & ->). f_equal. eapply IH; eauto.
Qed.
Lemma concat_unique : forall n (a b : list (list (list Z))), (0 < n)%nat -> Forall (fun l => length l = n) a -> Forall (fun l => length l = n) b -> concat a = concat b -> a = b.
Proof.
  intros n a b N A. revert b. induction A as [|l a E A IH]; intros b B H.
  - destruct B as [|l b E B]; auto. cbn in H. symmetry in H. apply app_eq_nil in H as (-> & _). cbn in E. lia.
  - destruct B as [|l' b E' B]; [cbn in H; apply app_eq_nil in H as (-> & _); cbn in E; lia|]. cbn in H.
    assert (X : l = l' /\ concat a = concat b). { assert (Y : firstn n (l ++ concat a) = firstn n (l' ++ concat b)) by (rewrite H; auto). assert (Z : skipn n (l ++ concat a) = skipn n (l' ++ concat b)) by (rewrite H; auto).
      rewrite !firstn_app, !skipn_app, E, E' in *. rewrite Nat.sub_diag in *. cbn in *. rewrite !app_nil_r in Y. rewrite <- E in Y at 1. rewrite <- E' in Y. rewrite !firstn_all in Y. rewrite <- E in Z at 1. rewrite <- E' in Z. rewrite !skipn_all in Z. auto. }
    destruct X as (-> & X). f_equal. auto.
Qed.
Lemma describes_line : forall eps ops n ws, describes eps ops n ws -> length ws = 8%nat /\ nth 1 ws [] = n.
Proof. intros eps ops n ws [(b & _ & _ & u & v & lo & up & -> & _)|(b & _ & _ & u & v & lo & up & -> & _)]; split; reflexivity. Qed.
Lemma int_real : forall t v x, decimalOf t v -> showsReal t x -> False.
Proof.
  intros t v x (ds & (F & NZ) & H) R.
  assert (ND : Forall (fun c => c = 45 \/ 48 <= c <= 57) t).
  { assert (FD : Forall (fun c => c = 45 \/ 48 <= c <= 57) (InputSpec.showDigits ds)). { unfold InputSpec.showDigits. apply Forall_forall. intros c I. apply in_map_iff in I as (d & <- & I). rewrite Forall_forall in F. apply F in I. unfold digit in I. lia. }
    destruct H as [(-> & _)|(-> & _)]; auto. }
  rewrite Forall_forall in ND.
  assert (ST : forall k, ~ (strictReal t 6 /\ decimalValue t (units 6 k) /\ nearestUnits 6 (val x) k)).
  { intros k ((neg & ip & _ & _ & [(_ & E)|(fp & _ & _ & E & _)]) & _); [discriminate|]. assert (I : In 46 t) by (rewrite E; apply in_or_app; right; apply in_or_app; right; left; auto). apply ND in I. lia. }
  destruct x as [s|s| |s m e]; cbn in R; [destruct R as (k & R); apply (ST k R)| |contradiction|destruct R as (k & R); apply (ST k R)].
  assert (I : In 105 t) by (rewrite R; destruct s; vm_compute; tauto). apply ND in I. lia.
Qed.
Lemma inf_real : forall (s : bool) k, ~ strictReal (if s then text "-inf" else text "inf") k.
Proof.
  intros s k (neg & ip & F & N & H). assert (I : In 105 (if s then text "-inf" else text "inf")) by (destruct s; vm_compute; tauto).
  assert (D : forall l c, Forall digit l -> In c (InputSpec.showDigits l) -> 48 <= c <= 57). { unfold InputSpec.showDigits. intros l c G J. apply in_map_iff in J as (d & <- & J). rewrite Forall_forall in G. apply G in J. unfold digit in J. lia. }
  assert (M : In 105 (optMinus neg) -> False) by (destruct neg; cbn; lia).
  destruct H as [(E & _)|(fp & (CF & _) & FF & E & _)]; rewrite E in I.
  - apply in_app_or in I as [I|I]; [auto|]. apply D in I; auto. lia.
  - apply in_app_or in I as [I|I]; [auto|]. apply in_app_or in I as [I|[I|I]]; [apply D in I; auto; lia|lia|apply D in I; auto; lia].
Qed.
Lemma same_near : forall t x y, showsReal t x -> showsReal t y -> near x y.
Proof.
  intros t x y A B. unfold near.
  assert (FF : forall k j, decimalValue t (units 6 k) -> decimalValue t (units 6 j) -> nearestUnits 6 (val x) k -> nearestUnits 6 (val y) j -> (Qabs (val x - val y) <= 1 # 1000000)%Q).
  { intros k j D D' U U'. pose proof (value_unique _ _ _ D D') as E. apply nearest_half in U. apply nearest_half in U'. change (tenTo (Z.opp 6)) with (1 # 1000000)%Q in *. apply Qabs_Qle_condition in U. apply Qabs_Qle_condition in U'. rewrite E in U. apply Qabs_Qle_condition. split; lra. }
  assert (FX : forall x, showsReal t x -> isfinite x = true -> exists k, strictReal t 6 /\ decimalValue t (units 6 k) /\ nearestUnits 6 (val x) k) by (intros [s|s| |s m e] H E; try discriminate; exact H).
  assert (IX : forall x, showsReal t x -> isfinite x = false -> exists s : bool, x = S754_infinity s /\ t = (if s then text "-inf" else text "inf")) by (intros [s|s| |s m e] H E; try discriminate; [eauto|contradiction]).
  destruct (isfinite x) eqn:EX, (isfinite y) eqn:EY.
  - destruct (FX x A EX) as (k & _ & D & U). destruct (FX y B EY) as (j & _ & D' & U'). split; [auto|exact (FF k j D D' U U')].
  - destruct (FX x A EX) as (k & S & _). destruct (IX y B EY) as (s & _ & E). rewrite E in S. apply inf_real in S. contradiction.
  - destruct (FX y B EY) as (k & S & _). destruct (IX x A EX) as (s & _ & E). rewrite E in S. apply inf_real in S. contradiction.
  - destruct (IX x A EX) as (s & -> & E). destruct (IX y B EY) as (s' & -> & E'). rewrite E in E'. destruct s, s'; auto; vm_compute in E'; discriminate.
Qed.
Lemma flag_same : forall a b, flag a = flag b -> a = b.
Proof. intros [] []; auto; unfold flag; intros H; injection H; discriminate. Qed.
(* what the same line says of two logs *)
Lemma line_int : forall n b c ws, lineOf decimalOf n b ws -> lineOf decimalOf n c ws -> b = c.
Proof.
  intros n [h1 h2 p q r s] [h1' h2' p' q' r' s'] ws (u & v & lo & up & E & A1 & A2 & A3 & A4) (u' & v' & lo' & up' & E' & B1 & B2 & B3 & B4). rewrite E in E'. injection E' as F1 F2 <- <- <- <-. cbn [hadMin hadMax bmin bmax blower bupper] in *.
  rewrite (decimal_value_unique _ _ _ A1 B1), (decimal_value_unique _ _ _ A2 B2), (decimal_value_unique _ _ _ A3 B3), (decimal_value_unique _ _ _ A4 B4).
  f_equal; apply flag_same; unfold flag; congruence.
Qed.
Lemma line_real : forall n b c ws, lineOf showsReal n b ws -> lineOf showsReal n c ws -> nearBounds b c.
Proof.
  intros n [h1 h2 p q r s] [h1' h2' p' q' r' s'] ws (u & v & lo & up & E & A1 & A2 & A3 & A4) (u' & v' & lo' & up' & E' & B1 & B2 & B3 & B4). rewrite E in E'. injection E' as F1 F2 <- <- <- <-. unfold nearBounds. cbn [hadMin hadMax bmin bmax blower bupper] in *.
  split; [apply flag_same; unfold flag; congruence|]. split; [apply flag_same; unfold flag; congruence|]. repeat split; eapply same_near; eauto.
Qed.
Lemma line_both : forall n b c ws, lineOf decimalOf n b ws -> lineOf showsReal n c ws -> False.
Proof. intros n b c ws (u & v & lo & up & E & A1 & _) (u' & v' & lo' & up' & E' & B1 & _). rewrite E in E'. injection E' as F1 F2 <- <- <- <-. eapply int_real; eauto. Qed.
Lemma least_eq : forall (l : list Z) x y, least Z.le l x -> least Z.le l y -> x = y.
Proof. intros l x y (A & A') (B & B'). apply A' in B. apply B' in A. lia. Qed.
Lemma least_eq' : forall (l : list Z) x y, least Z.ge l x -> least Z.ge l y -> x = y.
Proof. intros l x y (A & A') (B & B'). apply A' in B. apply B' in A. lia. Qed.
Lemma bool_eq : forall (a b : bool) P, (a = true <-> P) -> (b = true <-> P) -> a = b.
Proof. intros [] [] P A B; auto; [symmetry; apply B, A; auto|apply A, B; auto]. Qed.
Lemma summary_unique : forall l b c, summaryInt l b -> summaryInt l c -> b = c.
Proof.
  intros l [h1 h2 p q r s] [h1' h2' p' q' r' s'] (A1 & A2 & A3 & A4 & A5 & A6) (B1 & B2 & B3 & B4 & B5 & B6). cbn [hadMin hadMax bmin bmax blower bupper] in *.
  rewrite (least_eq _ _ _ A1 B1), (least_eq' _ _ _ A2 B2), (least_eq _ _ _ A3 B3), (least_eq' _ _ _ A4 B4), (bool_eq _ _ _ A5 B5), (bool_eq _ _ _ A6 B6). reflexivity.
Qed.
Lemma same_lines : forall eps, goodTol eps -> forall ops ops' g g' s, Forall (fun op => fine (snd op)) ops -> Forall (fun op => fine (snd op)) ops' ->
  logRun eps emptyLogger ops = Ok g -> logRun eps emptyLogger ops' = Ok g' -> logText true g = Ok (Some s) -> logText true g' = Ok (Some s) ->
  exists wss, Forall2 (describes eps ops) (namesOf ops) wss /\ Forall2 (describes eps ops') (namesOf ops') wss /\ namesOf ops = namesOf ops'.
Proof.
  intros eps G ops ops' g g' s F F' R R' T T'. destruct (log_file eps G ops g F R) as (s1 & wss & T1 & _ & W & D). destruct (log_file eps G ops' g' F' R') as (s2 & wss' & T2 & _ & W' & D'). rewrite T in T1. injection T1 as <-. rewrite T' in T2. injection T2 as <-.
  assert (LN : forall eps ops names wss, Forall2 (describes eps ops) names wss -> Forall (fun l => length l = 8%nat) wss /\ map (fun ws => nth 1 ws []) wss = names).
  { clear. intros eps ops names wss H. induction H as [|n ws names wss D H IH]; [split; auto|]. destruct IH as (A & B). destruct (describes_line _ _ _ _ D) as (L & N). split; [constructor; auto|]. cbn [map]. rewrite N, B. auto. }
  destruct (LN _ _ _ _ D) as (L & N). destruct (LN _ _ _ _ D') as (L' & N'). assert (E : wss = wss') by (apply (concat_unique 8); auto; [lia|eapply words_unique; eauto]). subst wss'.
  exists wss. split; auto. split; auto. congruence.
Qed.
Lemma forall2_both : forall {A B} (P Q : A -> B -> Prop) l m a, Forall2 P l m -> Forall2 Q l m -> In a l -> exists b, P a b /\ Q a b.
Proof. intros A B P Q l m a F. induction F as [|x y l m H F IH]; intros G I; [contradiction|]. inversion G; subst. destruct I as [<-|I]; eauto. Qed.
Lemma same_int : forall eps, goodTol eps -> forall ops ops' g g' s, Forall (fun op => fine (snd op)) ops -> Forall (fun op => fine (snd op)) ops' ->
  logRun eps emptyLogger ops = Ok g -> logRun eps emptyLogger ops' = Ok g' -> logText true g = Ok (Some s) -> logText true g' = Ok (Some s) ->
  namesOf ops = namesOf ops' /\
  (forall n b, In n (namesOf ops) -> summaryInt (intCalls (callsOf n ops)) b -> summaryInt (intCalls (callsOf n ops')) b).
Proof.
  intros eps G ops ops' g g' s F F' R R' T T'. destruct (same_lines eps G ops ops' g g' s F F' R R' T T') as (wss & D & D' & E). split; auto. intros n b I S.
  rewrite <- E in D'. destruct (forall2_both _ _ _ _ n D D' I) as (ws & X & Y). destruct X as [(b1 & S1 & _ & L1)|(b1 & _ & N1 & _)].
  - rewrite (summary_unique _ _ _ S S1). destruct Y as [(b2 & S2 & _ & L2)|(b2 & _ & _ & L2)]; [rewrite (line_int _ _ _ _ L1 L2); auto|exfalso; eapply line_both; eauto].
  - rewrite N1 in S. destruct S as (([] & _) & _).
Qed.
(* extreme Reals are equal up to the sign of zero *)
Lemma rle_both : forall x y, rle x y -> rle y x -> realOk x -> realOk y -> forall z, near y z -> near x z.
Proof.
  intros x y A B OX OY z N. unfold rle in *. destruct (isfinite x) eqn:FX, (isfinite y) eqn:FY; unfold near in *; rewrite FX; rewrite FY in N.
  - assert (NX : RealSpec.number x) by (split; auto). assert (NY : RealSpec.number y) by (split; auto). apply leb_num in A; auto. apply leb_num in B; auto. destruct N as (N & Q). split; auto. assert (E : (val x == val y)%Q) by lra. rewrite E. auto.
  - exfalso. destruct x as [s|s| |s m e], y as [s'|s'| |s' m' e']; try discriminate; destruct s'; try discriminate; destruct s; discriminate.
  - exfalso. destruct x as [s|s| |s m e], y as [s'|s'| |s' m' e']; try discriminate; destruct s; try discriminate; destruct s'; discriminate.
  - subst z. destruct x as [s|s| |s m e], y as [s'|s'| |s' m' e']; try discriminate; destruct s', s; try discriminate; auto.
Qed.
Lemma same_real : forall eps, goodTol eps -> forall ops ops' g g' s, Forall (fun op => fine (snd op)) ops -> Forall (fun op => fine (snd op)) ops' ->
  logRun eps emptyLogger ops = Ok g -> logRun eps emptyLogger ops' = Ok g' -> logText true g = Ok (Some s) -> logText true g' = Ok (Some s) ->
  forall n b, In n (namesOf ops) -> summaryReal eps (realCalls (callsOf n ops)) b -> exists c, summaryReal eps (realCalls (callsOf n ops')) c /\ nearBounds b c.
Proof.
  intros eps G ops ops' g g' s F F' R R' T T'. destruct (same_lines eps G ops ops' g g' s F F' R R' T T') as (wss & D & D' & E). intros n b I S.
  rewrite <- E in D'. destruct (forall2_both _ _ _ _ n D D' I) as (ws & X & Y). destruct X as [(b1 & _ & N1 & _)|(b1 & S1 & _ & L1)].
  - rewrite N1 in S. destruct S as (([] & _) & _).
  - destruct Y as [(b2 & _ & _ & L2)|(b2 & S2 & _ & L2)]; [exfalso; eapply line_both; eauto|]. exists b2. split; auto. pose proof (line_real _ _ _ _ L1 L2) as (H1 & H2 & H3 & H4 & H5 & H6).
    pose proof (summary_reals _ _ _ _ F S) as O. pose proof (summary_reals _ _ _ _ F S1) as O1. rewrite Forall_forall in O, O1.
    destruct S as (A1 & A2 & A3 & A4 & A5 & A6), S1 as (B1 & B2 & B3 & B4 & B5 & B6).
    split; [rewrite <- H1; eapply bool_eq; eauto|]. split; [rewrite <- H2; eapply bool_eq; eauto|].
    split; [|split; [|split]].
    + eapply rle_both; [apply A1, B1|apply B1, A1|apply O|apply O1|auto]; cbn; auto.
    + eapply rle_both; [apply B2, A2|apply A2, B2|apply O|apply O1|auto]; cbn; auto.
    + eapply rle_both; [apply A3, B3|apply B3, A3|apply O|apply O1|auto]; cbn; auto.
    + eapply rle_both; [apply B4, A4|apply A4, B4|apply O|apply O1|auto]; cbn; auto 6.
Qed.
Lemma no_file : forall g, logText false g = Ok None.
Proof. reflexivity. Qed.
