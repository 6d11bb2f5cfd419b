From Coq Require Import String.
From Verif Require Import Base Tac FloatModel FloatSpec RealSpec InputSpec InputProofs InputProofs2 InputProofs3 InputProofs4 InitSpec DecimalSpec SeqModel PassModel OutProofs PrintModel PrintSpec PrintProofs PrintProofs2 PrintProofs3 ArgsModel ConstraintModel ConstraintSpec ConstraintProofs ConstraintProofs2 LogTextModel LogTextSpec.
From Coq Require Import ZArith QArith Qabs List Lia SpecFloat.
Import ListNotations.
Open Scope Z_scope.
Open Scope list_scope.

Lemma shows_real : forall x, realOk x -> x <> S754_nan -> showsReal (putReal x) x.
Proof.
  intros x OK N. destruct x as [s|s| |s m e]; [| |congruence|].
  - destruct (show_fixed 6 (S754_zero s) ltac:(lia)) as (k & S & D & U); [split; auto; reflexivity|]. exists k. auto.
  - destruct s; reflexivity.
  - destruct (show_fixed 6 (S754_finite s m e) ltac:(lia)) as (k & S & D & U); [split; auto; reflexivity|]. exists k. auto.
Qed.
Lemma in_calls : forall n ops c, In c (callsOf n ops) -> exists m, In (m, c) ops.
Proof. intros n ops c I. unfold callsOf in I. apply in_map_iff in I as ((m, d) & E & I). cbn [snd] in E. subst d. apply filter_In in I as (I & _). eauto. Qed.
Lemma int_fine : forall ops n lo up v, Forall (fun op => fine (snd op)) ops -> In (lo, up, v) (intCalls (callsOf n ops)) -> is_i64 lo /\ is_i64 up /\ is_i64 v.
Proof.
  intros ops n lo up v F I. unfold intCalls in I. apply in_flat_map in I as (c & I & J). destruct c as [|x lo' up' v'|]; cbn in J; try contradiction. destruct J as [J|[]]. injection J as -> -> ->.
  apply in_calls in I as (m & I). rewrite Forall_forall in F. apply F in I. cbn in I. tauto.
Qed.
Lemma real_fine : forall ops n lo up v, Forall (fun op => fine (snd op)) ops -> In (lo, up, v) (realCalls (callsOf n ops)) ->
  (realOk lo /\ lo <> S754_nan) /\ (realOk up /\ up <> S754_nan) /\ (realOk v /\ v <> S754_nan).
Proof.
  intros ops n lo up v F I. unfold realCalls in I. apply in_flat_map in I as (c & I & J). destruct c as [| |lo' up' v']; cbn in J; try contradiction. destruct J as [J|[]]. injection J as -> -> ->.
  apply in_calls in I as (m & I). rewrite Forall_forall in F. apply F in I. exact I.
Qed.
Definition wordsOfLine (l : str * variant) : list (list Z) :=
  match snd l with
  | VNone => []
  | VInt b => [text "LocationNotSupported:" ++ fst l; fst l; flag (hadMin b); flag (hadMax b); showInteger (bmin b); showInteger (bmax b); showInteger (blower b); showInteger (bupper b)]
  | VReal b => [text "LocationNotSupported:" ++ fst l; fst l; flag (hadMin b); flag (hadMax b); putReal (bmin b); putReal (bmax b); putReal (blower b); putReal (bupper b)]
  end.
Lemma line_words : forall l, snd l <> VNone -> lineText l = spaced (wordsOfLine l) ++ [10].
Proof.
  intros (n, v) N. unfold lineText, wordsOfLine, boundsText. cbn [fst snd] in *. destruct v as [|b|b]; [congruence| |]; cbn [spaced]; unfold boolText, flag; destruct (hadMin b), (hadMax b); rewrite <- !app_assoc; reflexivity.
Qed.
Lemma summary_ints : forall ops n b, Forall (fun op => fine (snd op)) ops -> summaryInt (intCalls (callsOf n ops)) b -> (forall lo up v, In (lo, up, v) (intCalls (callsOf n ops)) -> is_i64 (up - 1)) ->
  is_i64 (bmin b) /\ is_i64 (bmax b) /\ is_i64 (blower b) /\ is_i64 (bupper b).
Proof.
  intros ops n b F ((A & _) & (B & _) & (C & _) & (D & _) & _) U. apply in_map_iff in A as (((a1, a2), a3) & EA & IA). apply in_map_iff in B as (((b1, b2), b3) & EB & IB). apply in_map_iff in C as (((c1, c2), c3) & EC & IC). apply in_map_iff in D as (((d1, d2), d3) & ED & ID).
  cbn [fst snd] in *. rewrite <- EA, <- EB, <- EC, <- ED. pose proof (int_fine _ _ _ _ _ F IA). pose proof (int_fine _ _ _ _ _ F IB). pose proof (int_fine _ _ _ _ _ F IC). pose proof (U _ _ _ ID). tauto.
Qed.
Lemma summary_reals : forall eps ops n b, Forall (fun op => fine (snd op)) ops -> summaryReal eps (realCalls (callsOf n ops)) b ->
  Forall (fun x => realOk x /\ x <> S754_nan) [bmin b; bmax b; blower b; bupper b].
Proof.
  intros eps ops n b F ((A & _) & (B & _) & (C & _) & (D & _) & _). apply in_map_iff in A as (((a1, a2), a3) & EA & IA). apply in_map_iff in B as (((b1, b2), b3) & EB & IB). apply in_map_iff in C as (((c1, c2), c3) & EC & IC). apply in_map_iff in D as (((d1, d2), d3) & ED & ID).
  cbn [fst snd] in *. rewrite <- EA, <- EB, <- EC, <- ED. pose proof (real_fine _ _ _ _ _ F IA). pose proof (real_fine _ _ _ _ _ F IB). pose proof (real_fine _ _ _ _ _ F IC). pose proof (real_fine _ _ _ _ _ F ID).
  apply Forall_cons; [tauto|]. apply Forall_cons; [tauto|]. apply Forall_cons; [tauto|]. apply Forall_cons; [tauto|constructor].
Qed.
Lemma fine_ok : forall c, fine c -> callOk c.
Proof. intros [|x lo up v|lo up v] H; cbn in *; unfold ConstraintSpec.number; tauto. Qed.
(* words *)
Lemma decimal_token : forall t v, decimalOf t v -> token t.
Proof. intros t v H. apply decimal_plain in H. apply H. Qed.
Lemma real_token : forall x, realOk x -> x <> S754_nan -> token (putReal x).
Proof.
  intros x OK N. destruct x as [s|s| |s m e]; [| |congruence|].
  - apply (fixed_plain 6); [lia|]. split; auto; reflexivity.
  - apply isToken_iff. destruct s; reflexivity.
  - apply (fixed_plain 6); [lia|]. split; auto; reflexivity.
Qed.
Lemma flag_token : forall b, token (flag b).
Proof. intros b. split; [discriminate|]. constructor; [|constructor]. destruct b; unfold whitespace; lia. Qed.
Lemma name_token : forall n, token n -> token (text "LocationNotSupported:" ++ n).
Proof. intros n (N & F). split; [discriminate|]. apply Forall_app. split; auto. apply (isToken_iff (text "LocationNotSupported:")). reflexivity. Qed.
Lemma spaced_words : forall ws, Forall token ws -> wordsOf (spaced ws) ws.
Proof.
  induction ws as [|w ws IH]; intros F; [constructor; constructor|]. inversion F as [|x l T F']; subst. destruct ws as [|w' ws]; [apply words_token; auto|].
  change (spaced (w :: w' :: ws)) with (w ++ 32 :: spaced (w' :: ws)). change (w :: w' :: ws) with ([w] ++ (w' :: ws)).
  apply words_app; [apply words_token; auto|apply words_sep, IH; auto|]. cbn. unfold whitespace. auto.
Qed.
Lemma lines_words : forall wss, Forall (Forall token) wss -> wordsOf (flat_map (fun ws => spaced ws ++ [10]) wss) (concat wss).
Proof.
  assert (L : forall wss, Forall (Forall token) wss -> wordsOf ([10] ++ flat_map (fun ws => spaced ws ++ [10]) wss) (concat wss)).
  { induction wss as [|ws wss IH]; intros F; [constructor; repeat constructor; unfold whitespace; lia|]. inversion F as [|x l T F']; subst. cbn [flat_map concat]. apply words_lead; [repeat constructor; unfold whitespace; lia|].
    rewrite <- app_assoc. apply words_app; [apply spaced_words; auto|apply IH; auto|]. cbn. unfold whitespace. lia. }
  intros [|ws wss] F; [constructor; constructor|]. inversion F as [|x l T F']; subst. cbn [flat_map concat]. rewrite <- app_assoc. apply words_app; [apply spaced_words; auto|apply L; auto|]. cbn. unfold whitespace. lia.
Qed.
Definition describes (eps : real) (ops : list (str * logCall)) (n : list Z) (ws : list (list Z)) : Prop := describesInt ops n ws \/ describesReal eps ops n ws.
Lemma line_describes : forall eps ops l, Forall (fun op => fine (snd op)) ops -> Forall (fun op => callFits (snd op)) ops -> token (fst l) -> lineOk eps ops l ->
  describes eps ops (fst l) (wordsOfLine l) /\ Forall token (wordsOfLine l) /\ lineText l = spaced (wordsOfLine l) ++ [10].
Proof.
  intros eps ops (n, v) F C T L. cbn [fst] in *. unfold lineOk in L. cbn [fst snd] in L. split; [|split; [|apply line_words; cbn; intros ->; auto]].
  - destruct v as [|b|b]; [contradiction| |]; destruct L as (S & E); [left|right]; exists b; (split; [auto|split; [auto|]]); do 4 eexists; (split; [reflexivity|]).
    + destruct (summary_ints _ _ _ F S) as (B1 & B2 & B3 & B4); [|repeat split; apply show_decimal; auto].
      intros lo up v I. unfold intCalls in I. apply in_flat_map in I as (c & I & J). destruct c as [|x lo' up' v'|]; cbn in J; try contradiction. destruct J as [J|[]]. injection J as -> -> ->.
      apply in_calls in I as (m & I). rewrite Forall_forall in C. apply C in I. exact I.
    + pose proof (summary_reals _ _ _ _ F S) as R. rewrite Forall_forall in R. repeat split; apply shows_real; apply R; cbn; tauto.
  - destruct v as [|b|b]; [contradiction| |]; destruct L as (S & E); unfold wordsOfLine; cbn [fst snd]; (apply Forall_cons; [apply name_token; auto|]); (apply Forall_cons; [auto|]); (apply Forall_cons; [apply flag_token|]); (apply Forall_cons; [apply flag_token|]).
    + destruct (summary_ints _ _ _ F S) as (B1 & B2 & B3 & B4).
      { intros lo up v I. unfold intCalls in I. apply in_flat_map in I as (c & I & J). destruct c as [|x lo' up' v'|]; cbn in J; try contradiction. destruct J as [J|[]]. injection J as -> -> ->.
        apply in_calls in I as (m & I). rewrite Forall_forall in C. apply C in I. exact I. }
      (apply Forall_cons; [eapply decimal_token, show_decimal; auto|]). (apply Forall_cons; [eapply decimal_token, show_decimal; auto|]). (apply Forall_cons; [eapply decimal_token, show_decimal; auto|]). (apply Forall_cons; [eapply decimal_token, show_decimal; auto|constructor]).
    + pose proof (summary_reals _ _ _ _ F S) as R. rewrite Forall_forall in R.
      (apply Forall_cons; [apply real_token; apply R; cbn; tauto|]). (apply Forall_cons; [apply real_token; apply R; cbn; tauto|]). (apply Forall_cons; [apply real_token; apply R; cbn; tauto|]). (apply Forall_cons; [apply real_token; apply R; cbn; tauto|constructor]).
Qed.
Lemma log_file : forall eps, goodTol eps -> forall ops g, Forall (fun op => fine (snd op)) ops -> logRun eps emptyLogger ops = Ok g ->
  exists s wss, logText true g = Ok (Some s) /\ s = flat_map (fun ws => spaced ws ++ [10]) wss /\ wordsOf s (concat wss) /\ Forall2 (describes eps ops) (namesOf ops) wss.
Proof.
  intros eps G ops g F R. assert (F' : Forall (fun op => callOk (snd op)) ops). { eapply Forall_impl; [|exact F]. intros op. apply fine_ok. }
  destruct (log_write eps G ops g F' R) as (lines & W & N & L). assert (TC : Forall (fun op => token (fst op) /\ callFits (snd op)) ops) by (apply (log_succeeds eps G ops F'); eauto).
  assert (A : Forall (fun l => describes eps ops (fst l) (wordsOfLine l) /\ Forall token (wordsOfLine l) /\ lineText l = spaced (wordsOfLine l) ++ [10]) lines).
  { rewrite Forall_forall in *. intros l I. apply line_describes; auto.
    - apply Forall_forall. auto.
    - apply Forall_forall. intros op J. apply TC. auto.
    - assert (J : In (fst l) (map fst lines)) by (apply in_map; auto). rewrite N in J. apply filter_In in J as (J & _). apply in_firsts in J as (J & _). apply in_map_iff in J as (op & <- & J). apply TC. auto. }
  exists (flat_map lineText lines), (map wordsOfLine lines). unfold logText. rewrite W. cbn [bind]. split; [reflexivity|].
  assert (E : flat_map lineText lines = flat_map (fun ws => spaced ws ++ [10]) (map wordsOfLine lines)).
  { clear - A. induction A as [|l ls (_ & _ & E) A IH]; auto. cbn [flat_map map]. rewrite E, IH. reflexivity. }
  split; [exact E|]. rewrite E. split; [apply lines_words|].
  - clear - A. induction A as [|l ls (_ & E & _) A IH]; constructor; auto.
  - unfold namesOf. rewrite <- N. clear - A. induction A as [|l ls (E & _) A IH]; constructor; auto.
Qed.
