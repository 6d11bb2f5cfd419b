From Verif Require Import Tac PassModel SeqModel SeqSpec SeqProofs InputSpec InputModel InputProofs InputProofs2 ReportModel ReportSpec.

Lemma alen_app : forall A (a b : list A), alen (a ++ b) = alen a + alen b.
Proof. intros. unfold alen. rewrite app_length. lia. Qed.
Lemma alen_cons : forall A (x : A) l, alen (x :: l) = 1 + alen l.
Proof. intros. unfold alen. cbn [length]. lia. Qed.
Lemma alen_pos : forall A (l : list A), 0 <= alen l.
Proof. intros. unfold alen. lia. Qed.

Lemma parts_concat : forall s ps, parts s ps -> s = concat ps.
Proof. induction 1; cbn [concat]; auto; rewrite IHparts at 1; auto. Qed.
Lemma parts_total : forall s, exists ps, parts s ps.
Proof.
  intro s. remember (length s) as n eqn:L. revert s L. induction n as [n IH] using lt_wf_ind. intros s L.
  destruct s as [|c s]; [exists []; constructor|]. destruct (Z_le_dec 33 c) as [A|A]; [destruct (Z_le_dec c 126) as [B|B]|].
  - destruct (takeToken_split s) as (E & F & D). destruct (IH (length (dropToken s))) with (s := dropToken s) as (ps & P); auto.
    + subst n. cbn [length]. rewrite E at 2. rewrite app_length. lia.
    + exists ((c :: takeToken s) :: ps). rewrite E at 1. apply (parts_word c (takeToken s) (dropToken s) ps); auto. unfold graphic. lia.
  - destruct (IH (length s)) with (s := s) as (ps & P); auto; [subst n; cbn; lia|]. exists ([c] :: ps). constructor; auto. unfold graphic. lia.
  - destruct (IH (length s)) with (s := s) as (ps & P); auto; [subst n; cbn; lia|]. exists ([c] :: ps). constructor; auto. unfold graphic. lia.
Qed.

Lemma newlines_app : forall a b, newlines (a ++ b) = newlines a + newlines b.
Proof. intros. unfold newlines. rewrite filter_app. apply alen_app. Qed.
Lemma newlines_none : forall a, ~ In 10 a -> newlines a = 0.
Proof.
  unfold newlines. induction a as [|c a IH]; intro N; auto. cbn [filter]. destruct (Z.eqb_spec c 10); [exfalso; apply N; left; auto|].
  apply IH. intro I. apply N. right. auto.
Qed.
Lemma lastLine_app : forall s cur x, lastLine s cur -> ~ In 10 x -> lastLine (s ++ x) (cur ++ x).
Proof.
  intros s cur x (N & H) Nx. split; [intro I; apply in_app_iff in I; tauto|]. destruct H as [->|(b & ->)]; [left; auto|].
  right. exists b. rewrite <- app_assoc. reflexivity.
Qed.
Lemma lastLine_newline : forall s, lastLine (s ++ [10]) [].
Proof. intro s. split; auto. right. exists s. auto. Qed.
Lemma word_nonl : forall c w, graphic c -> Forall (fun x => ~ whitespace x) w -> ~ In 10 (c :: w).
Proof.
  intros c w G F [->|I]; [unfold graphic in G; lia|]. rewrite Forall_forall in F. apply (F _ I). unfold whitespace. lia.
Qed.
Lemma isgraph_iff : forall c s, isgraphPeek (c :: s) = true <-> graphic c.
Proof. intros. cbn. unfold graphic. lia. Qed.
Lemma isgraph_false : forall c s, ~ graphic c -> isgraphPeek (c :: s) = false.
Proof. intros. cbn. unfold graphic in *. lia. Qed.
Lemma graphic_space : forall c, graphic c -> ~ whitespace c.
Proof. intros c G W. unfold graphic, whitespace in *. lia. Qed.

(* what the loop has found when the last part is x *)
Definition foundAt (line : Z) (cur x : list Z) (ys : list (list Z)) (extend : bool) : found :=
  if isgraphPeek x then
    match ys with
    | [] => mkFound line (alen cur) (alen cur) (cur ++ x) extend []
    | _ => mkFound line (alen cur) (alen cur + alen x) (cur ++ x) extend (concat ys)
    end
  else if newlines x =? 0 then mkFound line (alen cur) (alen cur + alen x) (cur ++ x) extend (concat ys)
  else mkFound (line + 1) (alen cur) (alen cur + 1) (cur ++ [32]) false (concat ys).

Lemma scan_stop : forall fuel pos p line l r buffer extend rest, (0 < fuel)%nat -> pos <= p ->
  scan fuel pos p line l r buffer extend rest = Ok (mkFound line l r buffer extend rest).
Proof. intros fuel pos p line l r buffer extend rest F P. destruct fuel; [lia|]. cbn [scan]. replace (p <? pos) with false by lia. reflexivity. Qed.

Lemma scan_parts : forall xs x ys s, parts s (xs ++ x :: ys) -> forall fuel pos p line l r cur before extend,
  (length s < fuel)%nat -> p = alen before -> lastLine before cur ->
  p + alen (concat xs) < pos <= p + alen (concat xs) + alen x ->
  exists cur', lastLine (before ++ concat xs) cur' /\
    scan fuel pos p line l r cur extend s = Ok (foundAt (line + newlines (concat xs)) cur' x ys extend).
Proof.
  induction xs as [|y xs IH]; intros x ys s P fuel pos p line l r cur before extend FU Pp LL B.
  - cbn [app concat] in *. change (alen []) with 0 in B. exists cur. rewrite app_nil_r. split; auto.
    change (newlines []) with 0. replace (line + 0) with line by lia.
    destruct fuel as [|fuel]; [lia|]. cbn [scan]. replace (p <? pos) with true by lia. cbn [negb].
    inversion P as [|c w s' ps G F En P' E1 E2|c s' ps G P' E1 E2]; subst.
    + cbn [app]. assert (F' : Forall (fun z => ~ whitespace z) (c :: w)) by (constructor; auto; apply graphic_space; auto).
      destruct (takeToken_app (c :: w) s' F' En) as (T1 & T2). cbn [app] in T1, T2. rewrite T1, T2.
      unfold foundAt. rewrite !(proj2 (isgraph_iff c _) G).
      rewrite (parts_concat _ _ P') in *. destruct P' as [|c' w' s'' ps' G' F'' En' P''|c' s'' ps' G' P'']; [reflexivity|..].
      * cbn [concat app]. rewrite scan_stop; [|cbn [length app] in FU; lia|lia]. replace (pos <=? alen before + alen (c :: w)) with true by lia. rewrite alen_app. reflexivity.
      * cbn [concat app]. rewrite scan_stop; [|cbn [length app] in FU; rewrite app_length in FU; cbn [length] in FU; lia|lia]. replace (pos <=? alen before + alen (c :: w)) with true by lia. rewrite alen_app. reflexivity.
    + rewrite (isgraph_false c s' G). unfold foundAt. rewrite (isgraph_false c [] G). change (alen [c]) with 1 in *. cbn [length] in FU.
      rewrite (parts_concat _ _ P') in *. destruct (Z.eqb_spec c 10) as [->|N].
      * replace (alen before + 1 <? pos) with false by lia. rewrite scan_stop by lia. rewrite alen_app. reflexivity.
      * rewrite scan_stop by lia. replace (pos <=? alen before + 1) with true by lia. rewrite newlines_none by (intros [|[]]; lia). rewrite alen_app. reflexivity.
  - cbn [app concat] in P, B. rewrite alen_app in B. pose proof (alen_pos _ (concat xs)) as CP.
    destruct fuel as [|fuel]; [lia|]. cbn [scan]. replace (p <? pos) with true by (pose proof (alen_pos _ y); lia). cbn [negb].
    inversion P as [|c w s' ps G F En P' E1 E2|c s' ps G P' E1 E2]; subst.
    + cbn [app]. assert (F' : Forall (fun z => ~ whitespace z) (c :: w)) by (constructor; auto; apply graphic_space; auto).
      destruct (takeToken_app (c :: w) s' F' En) as (T1 & T2). cbn [app] in T1, T2. rewrite T1, T2.
      rewrite (proj2 (isgraph_iff c _) G). pose proof (word_nonl c w G F) as NN.
      cbn [length app] in FU. rewrite app_length in FU.
      destruct (IH x ys s' P' fuel pos (alen before + alen (c :: w)) line (alen cur) (if pos <=? alen before + alen (c :: w) then alen (cur ++ c :: w) else alen cur) (cur ++ c :: w) (before ++ c :: w) extend) as (cur' & L' & S');
        [lia|rewrite alen_app; auto|apply lastLine_app; auto|lia|].
      exists cur'. split; [rewrite <- app_assoc in L'; exact L'|].
      destruct s' as [|c' s'']. { inversion P'; destruct xs; discriminate. }
      rewrite S'. cbn [concat]. rewrite newlines_app, (newlines_none (c :: w) NN). reflexivity.
    + rewrite (isgraph_false c s' G). change (alen [c]) with 1 in *. cbn [length] in FU. destruct (Z.eqb_spec c 10) as [->|N].
      * assert (XP : 0 < alen x).
        { clear - P. assert (X : In x ([10] :: xs ++ x :: ys)) by (right; apply in_app_iff; right; left; auto). revert X. generalize dependent ([10] :: xs ++ x :: ys).
          intros l P I. induction P; [destruct I|..]; (destruct I as [<-|I]; [unfold alen; cbn [length]; lia|auto]). }
        replace (alen before + 1 <? pos) with true by lia.
        destruct (IH x ys s' P' fuel pos (alen before + 1) (line + 1) (alen cur) (alen cur) [] (before ++ [10]) extend) as (cur' & L' & S');
          [lia|rewrite alen_app; auto|apply lastLine_newline|lia|].
        exists cur'. rewrite <- app_assoc in L'. split; auto. rewrite S'. cbn [concat]. rewrite newlines_app. change (newlines [10]) with 1. f_equal. f_equal. lia.
      * assert (NN : ~ In 10 [c]) by (intros [|[]]; lia).
        destruct (IH x ys s' P' fuel pos (alen before + 1) line (alen cur) (if pos <=? alen before + 1 then alen (cur ++ [c]) else alen cur) (cur ++ [c]) (before ++ [c]) extend) as (cur' & L' & S');
          [lia|rewrite alen_app; auto|apply lastLine_app; auto|lia|].
        exists cur'. rewrite <- app_assoc in L'. split; auto. rewrite S'. cbn [concat]. rewrite newlines_app, (newlines_none [c] NN). reflexivity.
Qed.

Lemma extend_prefix : forall rest r buffer, exists ext more, extendLine r buffer rest = buffer ++ ext /\ rest = ext ++ more /\ ~ In 10 ext /\
  ((more = [] \/ exists m, more = 10 :: m) \/ (80 <= alen (buffer ++ ext) /\ r + 80 <= alen (buffer ++ ext))).
Proof.
  induction rest as [|c rest IH]; intros r buffer; cbn [extendLine].
  - exists [], []. rewrite app_nil_r. destruct (_ || _); auto 10.
  - destruct ((alen buffer <? 80) || (alen buffer <? r + 80)) eqn:C.
    + destruct (Z.eqb_spec c 10) as [->|N].
      * exists [], (10 :: rest). rewrite app_nil_r. split; auto. split; auto. split; auto. left. right. exists rest. auto.
      * destruct (IH r (buffer ++ [c])) as (ext & more & E & R & NI & S). exists (c :: ext), more. rewrite <- app_assoc in E, S. cbn [app] in E, S. split; auto. split; [cbn; congruence|].
        split; [intros [|I]; auto|]. auto.
    + exists [], (c :: rest). rewrite app_nil_r. split; auto. split; auto. split; auto. right. lia.
Qed.

Lemma firstn_mid : forall (b : list Z) k, 0 <= k <= alen b -> exists m n, b = m ++ n /\ firstn (Z.to_nat k) b = m /\ alen m = k /\ skipn (Z.to_nat k) b = n.
Proof.
  intros b k K. exists (firstn (Z.to_nat k) b), (skipn (Z.to_nat k) b). split; [symmetry; apply firstn_skipn|]. split; auto. split; auto.
  unfold alen in *. rewrite firstn_length. lia.
Qed.

(* more stands for text behind the buffer that is not read because it would not be shown *)
Lemma marked_ok : forall buffer l r more, 0 <= l < r -> r <= alen buffer -> (more = [] \/ 80 + r <= alen buffer) ->
  exists row l' r', marked buffer l r = Ok (row ++ [10] ++ repeat 32 (Z.to_nat l') ++ [94] ++ repeat 126 (Z.to_nat (r' - l' - 1))) /\
    0 <= l' < 60 /\ l' < r' /\ r' <= alen row /\ alen row <= 80 /\ (r' - l' = r - l \/ r' - l' < r - l /\ r' = 80 /\ alen row = 80) /\
    excerpt (buffer ++ more) row l l'.
Proof.
  intros buffer l r more L R M. unfold marked.
  assert (LE : alen TEXT_ELLIPSIS = 5) by reflexivity. pose proof (alen_pos _ more) as MP.
  (* the first cut *)
  assert (X : exists b1 l1 r1 a m lft, cutLeft buffer l r = Ok (b1, l1, r1) /\ b1 = lft ++ m /\ buffer = a ++ m /\ (lft = [] /\ a = [] \/ lft = ellipsis) /\ alen lft <= l1 < 60 /\ l1 < r1 <= alen b1 /\
      r1 - l1 = r - l /\ l = alen a + (l1 - alen lft) /\ (more = [] \/ 80 < alen b1) /\ alen lft <= 5).
  { unfold cutLeft. destruct ((60 <? r) && (20 <? l)) eqn:C.
    - cbv zeta. unfold substrFrom. replace (alen buffer <? Z.min (l - 20) (r - 60) + 5) with false by lia. cbn [bind].
      destruct (firstn_mid buffer (Z.min (l - 20) (r - 60) + 5)) as (a & m & E & _ & A & ->); [lia|].
      exists (TEXT_ELLIPSIS ++ m), (l - Z.min (l - 20) (r - 60)), (r - Z.min (l - 20) (r - 60)), a, m, TEXT_ELLIPSIS.
      assert (AM : alen buffer = alen a + alen m) by (rewrite E at 1; apply alen_app).
      split; auto. split; auto. split; auto. split; [right; reflexivity|]. rewrite alen_app, LE. split; [lia|]. split; [lia|]. split; [lia|]. split; [lia|]. split; [|lia].
      destruct M as [M|M]; [auto|right; lia].
    - exists buffer, l, r, [], buffer, []. split; auto. split; auto. split; auto. split; auto. change (alen []) with 0. split; [lia|]. split; [lia|]. split; [lia|]. split; [lia|]. split; [|lia].
      destruct M as [M|M]; [auto|right; lia]. }
  destruct X as (b1 & l1 & r1 & a & m & lft & -> & E1 & E2 & HL & B1 & B2 & RL & LC & MM & L5). cbn [bind].
  (* the second *)
  destruct (80 <? alen b1) eqn:C.
  - unfold substr. replace (alen b1 <? 0) with false by (pose proof (alen_pos _ b1); lia). cbn [bind skipn Z.to_nat].
    change (80 - 5) with 75. destruct (firstn_mid b1 75) as (u & w & E & -> & A & _); [lia|]. rewrite alen_app, LE, A.
    unfold fillString. replace (l1 <? 0) with false by (pose proof (alen_pos _ lft); lia). cbn [bind].
    replace (Z.min r1 (75 + 5) - l1 - 1 <? 0) with false by lia. cbn [bind].
    exists (u ++ TEXT_ELLIPSIS), l1, (Z.min r1 (75 + 5)). rewrite alen_app, LE, A. split; auto. split; [pose proof (alen_pos _ lft); lia|]. split; [lia|]. split; [lia|]. split; [lia|].
    split. { destruct (Z.le_gt_cases r1 80); [left; lia|right; lia]. }
    (* u = lft ++ a prefix of m *)
    assert (U : exists m1 m2, m = m1 ++ m2 /\ u = lft ++ m1).
    { exists (firstn (length u - length lft) m), (skipn (length u - length lft) m). split; [symmetry; apply firstn_skipn|].
      assert (F : firstn (length u) b1 = u) by (rewrite E, firstn_app, Nat.sub_diag, firstn_all; cbn; apply app_nil_r).
      rewrite <- F at 1. rewrite E1, firstn_app, firstn_all2; auto. unfold alen in *. lia. }
    destruct U as (m1 & m2 & M1 & M2). exists a, m1, (m2 ++ more), lft, TEXT_ELLIPSIS. split; [rewrite E2, M1, <- !app_assoc; reflexivity|].
    split; [rewrite M2, <- app_assoc; reflexivity|]. split; auto. split; [right; reflexivity|]. split; [|auto].
    assert (alen u = alen lft + alen m1) by (rewrite M2; apply alen_app). lia.
  - unfold fillString. cbn [bind]. replace (l1 <? 0) with false by (pose proof (alen_pos _ lft); lia). cbn [bind].
    replace (r1 - l1 - 1 <? 0) with false by lia. cbn [bind]. exists b1, l1, r1. split; auto. split; [pose proof (alen_pos _ lft); lia|].
    split; [lia|]. split; [lia|]. split; [lia|]. split; [left; lia|]. destruct MM as [->|MM]; [|lia]. rewrite app_nil_r.
    exists a, m, [], lft, []. split; [rewrite app_nil_r; auto|]. split; [rewrite app_nil_r; auto|]. split; auto. split; auto. split; [|auto].
    assert (alen b1 = alen lft + alen m) by (rewrite E1; apply alen_app). lia.
Qed.

Lemma split_newline : forall s, exists a more, s = a ++ more /\ ~ In 10 a /\ (more = [] \/ exists m, more = 10 :: m).
Proof.
  induction s as [|c s (a & more & -> & N & M)]; [exists [], []; auto|]. destruct (Z.eq_dec c 10) as [->|C].
  - exists [], (10 :: a ++ more). split; auto. split; auto. right. eauto.
  - exists (c :: a), more. split; auto. split; auto. intros [|]; auto.
Qed.
Lemma part_newline : forall s ps x, parts s ps -> In x ps -> x = [10] \/ (~ In 10 x /\ newlines x = 0).
Proof.
  intros s ps x P I. induction P as [|c w s ps G F En P IH|c s ps G P IH]; [destruct I|..]; (destruct I as [<-|I]; [|auto]).
  - right. assert (NN : ~ In 10 (c :: w)) by (apply word_nonl; auto). split; auto. apply newlines_none; auto.
  - destruct (Z.eq_dec c 10) as [->|N]; auto. right. assert (NN : ~ In 10 [c]) by (intros [|[]]; lia). split; auto. apply newlines_none; auto.
Qed.
Lemma part_pos : forall s ps x, parts s ps -> In x ps -> 0 < alen x.
Proof. intros s ps x P I. induction P; [destruct I|..]; (destruct I as [<-|I]; [unfold alen; cbn [length]; lia|auto]). Qed.

Lemma isgraph_word : forall x, isgraphPeek x = true <-> wordPart x.
Proof.
  intros [|c w]; split.
  - discriminate.
  - intros (c & w & E & _). discriminate.
  - intro H. apply isgraph_iff in H. exists c, w. auto.
  - intros (c' & w' & E & G). inversion E; subst. apply isgraph_iff. auto.
Qed.

Lemma report_ok : forall s xs x ys pos, parts s (xs ++ x :: ys) -> alen (concat xs) < pos <= alen (concat xs) + alen x ->
  (wordPart x -> ys <> []) ->
  exists cur line row l r, lastLine (concat xs) cur /\
    (x = [10] /\ line = cur ++ [32] \/ x <> [10] /\ lineText cur (x ++ concat ys) line) /\
    report s (Some pos) = Ok (textLine ++ showInteger (1 + newlines (concat xs) + newlines x) ++ textChar ++ showInteger (alen cur) ++ [10] ++
      row ++ [10] ++ repeat 32 (Z.to_nat l) ++ [94] ++ repeat 126 (Z.to_nat (r - l - 1))) /\
    0 <= l < 60 /\ l < r /\ r <= alen row /\ alen row <= 80 /\ (r - l = alen x \/ r - l < alen x /\ r = 80 /\ alen row = 80) /\
    excerpt line row (alen cur) l.
Proof.
  intros s xs x ys pos P B W. assert (IX : In x (xs ++ x :: ys)) by (apply in_app_iff; right; left; auto).
  destruct (scan_parts xs x ys s P (S (length s)) pos 0 1 0 0 [] [] true) as (cur & LL & SC); [lia|auto|split; auto|lia|].
  cbn [app] in LL. pose proof (part_pos _ _ _ P IX) as XP. pose proof (alen_pos _ cur) as CP. unfold report. rewrite SC. cbn [bind]. unfold foundAt.
  destruct (part_newline _ _ _ P IX) as [->|(NX & ZX)].
  - change (isgraphPeek [10]) with false. change (newlines [10]) with 1. cbn [Z.eqb fl fr fExtend fBuffer fRest fLine].
    replace (alen cur =? alen cur + 1) with false by lia. cbn [negb].
    destruct (marked_ok (cur ++ [32]) (alen cur) (alen cur + 1) []) as (row & l & r & -> & H1 & H2 & H3 & H4 & H5 & H6); [lia|rewrite alen_app; cbn; lia|auto|].
    cbn [bind]. rewrite app_nil_r in H6. exists cur, (cur ++ [32]), row, l, r. split; auto. split; auto. split; [reflexivity|]. replace (alen cur + 1 - alen cur) with 1 in H5 by lia. change (alen [10]) with 1. auto 10.
  - assert (F : (if isgraphPeek x then match ys with [] => mkFound (1 + newlines (concat xs)) (alen cur) (alen cur) (cur ++ x) true [] | _ => mkFound (1 + newlines (concat xs)) (alen cur) (alen cur + alen x) (cur ++ x) true (concat ys) end
      else if newlines x =? 0 then mkFound (1 + newlines (concat xs)) (alen cur) (alen cur + alen x) (cur ++ x) true (concat ys) else mkFound (1 + newlines (concat xs) + 1) (alen cur) (alen cur + 1) (cur ++ [32]) false (concat ys)) =
      mkFound (1 + newlines (concat xs)) (alen cur) (alen cur + alen x) (cur ++ x) true (concat ys)).
    { destruct (isgraphPeek x) eqn:G; [|rewrite ZX; reflexivity]. apply isgraph_word in G. destruct ys; [exfalso; apply W; auto|]. reflexivity. }
    rewrite F. clear F. cbn [fl fr fExtend fBuffer fRest fLine]. replace (alen cur =? alen cur + alen x) with false by lia. cbn [negb].
    destruct (extend_prefix (concat ys) (alen cur + alen x) (cur ++ x)) as (ext & more & -> & R & NE & SZ).
    destruct (split_newline more) as (m1 & m2 & M12 & NM & MN).
    assert (LN : lineText cur (x ++ concat ys) (cur ++ x ++ ext ++ m1)).
    { exists (x ++ ext ++ m1), m2. split; [rewrite R, M12, <- !app_assoc; reflexivity|]. split; [rewrite !in_app_iff; tauto|]. auto. }
    destruct (marked_ok ((cur ++ x) ++ ext) (alen cur) (alen cur + alen x) m1) as (row & l & r & -> & H1 & H2 & H3 & H4 & H5 & H6);
      [lia|rewrite !alen_app; pose proof (alen_pos _ ext); lia| |].
    { destruct SZ as [[->|(m & ->)]|SZ]; [| |right; lia]; left.
      - destruct m1; [auto|discriminate].
      - destruct m1; auto. inversion M12; subst. exfalso. apply NM. left. auto. }
    cbn [bind]. exists cur, (cur ++ x ++ ext ++ m1), row, l, r. split; auto. split. { right. split; auto. intro E. subst x. apply NX. left. auto. }
    rewrite ZX. replace (1 + newlines (concat xs) + 0) with (1 + newlines (concat xs)) by lia. split; [reflexivity|]. replace (alen cur + alen x - alen cur) with (alen x) in H5 by lia.
    rewrite <- !app_assoc in H6. auto 10.
Qed.
Lemma report_eof : forall s xs x pos, parts s (xs ++ [x]) -> alen (concat xs) < pos <= alen (concat xs) + alen x -> wordPart x -> report s (Some pos) = Ok [].
Proof.
  intros s xs x pos P B W.
  destruct (scan_parts xs x [] s P (S (length s)) pos 0 1 0 0 [] [] true) as (cur & LL & SC); [lia|auto|split; auto|lia|].
  unfold report. rewrite SC. cbn [bind]. unfold foundAt. rewrite (proj2 (isgraph_word x) W). cbn [fl fr]. rewrite Z.eqb_refl. reflexivity.
Qed.
Lemma report_none : forall s, report s None = Ok [] /\ report s (Some 0) = Ok [].
Proof. intro s. split; [reflexivity|]. unfold report. cbn [scan]. reflexivity. Qed.
(* every position is in or behind some part *)
Lemma part_at : forall (ps : list (list Z)) pos, 0 < pos <= alen (concat ps) -> exists xs x ys, ps = xs ++ x :: ys /\ alen (concat xs) < pos <= alen (concat xs) + alen x.
Proof.
  induction ps as [|y ps IH]; intros pos B; cbn [concat] in B; [change (alen []) with 0 in B; lia|]. rewrite alen_app in B.
  destruct (Z.le_gt_cases pos (alen y)); [exists [], y, ps; split; auto; change (alen (concat [])) with 0; lia|].
  destruct (IH (pos - alen y)) as (xs & x & ys & -> & H'); [lia|]. exists (y :: xs), x, ys. split; auto. cbn [concat]. rewrite alen_app. lia.
Qed.
Lemma report_total : forall s pos, 0 <= pos <= alen s -> exists t, report s (Some pos) = Ok t.
Proof.
  intros s pos B. destruct (Z.eq_dec pos 0) as [->|N]; [eexists; apply report_none|]. destruct (parts_total s) as (ps & P).
  pose proof (parts_concat _ _ P) as E. destruct (part_at ps pos) as (xs & x & ys & -> & H); [rewrite <- E; lia|].
  destruct (isgraphPeek x) eqn:G; [apply isgraph_word in G; destruct ys as [|y ys]|].
  - eexists. eapply report_eof; eauto.
  - destruct (report_ok s xs x (y :: ys) pos P H) as (cur & line & row & l & r & _ & _ & -> & _); [discriminate|eauto].
  - destruct (report_ok s xs x ys pos P H) as (cur & line & row & l & r & _ & _ & -> & _); [|eauto]. intro W. apply isgraph_word in W. congruence.
Qed.

(* ---- expectString ---- *)
Lemma F2_len : forall (P : Z -> Z -> Prop) a b, Forall2 P a b -> length a = length b.
Proof. induction 1; cbn; auto. Qed.
Lemma format_ok : forall pos s, 0 <= pos -> exists t, format pos s = Ok t /\ alen t <= 25 /\ (alen s <= 25 -> t = s) /\
  (exists h x y, s = h ++ x /\ t = h ++ y /\ (alen h = 10 \/ x = [])) /\ (pos < alen s -> shows s t pos).
Proof.
  intros pos s P. unfold format. destruct (alen s <=? 25) eqn:C.
  { exists s. split; auto. split; [lia|]. split; auto. split; [exists s, [], []; rewrite app_nil_r; auto|]. intro L. exists [], s, [], [], []. rewrite app_nil_r. change (alen []) with 0. auto with zarith. }
  assert (LE : alen TEXT_ELLIPSIS = 5) by reflexivity. unfold substr, substrFrom. replace (alen s <? 0) with false by lia. change (Z.to_nat 0) with 0%nat. cbn [bind skipn].
  destruct (firstn_mid s 10) as (h & x & E & H1 & H2 & _); [lia|].
  assert (HD : forall y, exists h' x' y', s = h' ++ x' /\ h ++ y = h' ++ y' /\ (alen h' = 10 \/ x' = [])) by (intro y; exists h, x, y; auto).
  destruct ((pos <=? 17) || (alen s <=? pos)) eqn:D.
  { destruct (firstn_mid s 20) as (a & m & E' & -> & A & _); [lia|]. exists (a ++ TEXT_ELLIPSIS). split; auto. rewrite alen_app, LE. split; [lia|]. split; [lia|]. split.
    - exists h, x. assert (exists z, a = h ++ z) as (z & ->).
      { exists (skipn 10 a). rewrite E', firstn_app in H1. replace (Z.to_nat 10 - length a)%nat with 0%nat in H1 by (unfold alen in A; lia).
        cbn [firstn] in H1. rewrite app_nil_r in H1. change (Z.to_nat 10) with 10%nat in H1. rewrite <- H1. symmetry. apply firstn_skipn. }
      exists (z ++ TEXT_ELLIPSIS). rewrite <- app_assoc. auto.
    - intro L. exists [], a, m, [], TEXT_ELLIPSIS. change (alen []) with 0. split; auto. split; auto. lia. }
  destruct (alen s <? pos + 5 + 2) eqn:F; rewrite H1; cbn [bind]; replace (alen s <? pos - 2) with false by lia; cbn [bind];
    (destruct (firstn_mid s (pos - 2)) as (a & m & E' & _ & A & ->); [lia|]); assert (AM : alen s = alen a + alen m) by (rewrite E'; apply alen_app).
  - exists (h ++ TEXT_ELLIPSIS ++ m). split; auto. rewrite !alen_app, LE. split; [lia|]. split; [lia|]. split; [apply HD|].
    intro L. exists a, m, [], (h ++ TEXT_ELLIPSIS), []. rewrite !app_nil_r, <- app_assoc. split; auto. split; auto. lia.
  - destruct (firstn_mid m 5) as (m1 & m2 & M & -> & AM1 & _); [lia|]. exists (h ++ TEXT_ELLIPSIS ++ m1 ++ TEXT_ELLIPSIS). split; auto. rewrite !alen_app, LE. split; [lia|]. split; [lia|]. split; [apply HD|].
    intro L. exists a, m1, m2, (h ++ TEXT_ELLIPSIS), TEXT_ELLIPSIS. rewrite <- !app_assoc. split; [congruence|]. split; auto. lia.
Qed.

Lemma expect_ok : forall seen expected cs,
  (expectMessage seen expected cs = Ok None /\ Forall2 (eqChar cs) seen expected) \/
  (exists pos a b, expectMessage seen expected cs = Ok (Some (textExpected ++ a ++ textGot ++ b ++ textEnd ++
      (if 5 <? pos then textDifferent ++ showInteger (pos + 1) ++ [41] else []))) /\
    ~ Forall2 (eqChar cs) seen expected /\ 0 <= pos <= alen seen /\ pos <= alen expected /\
    Forall2 (eqChar cs) (firstn (Z.to_nat pos) seen) (firstn (Z.to_nat pos) expected) /\
    alen a <= 25 /\ alen b <= 25 /\ (alen expected <= 25 -> a = expected) /\ (alen seen <= 25 -> b = seen) /\
    (pos < alen expected -> shows expected a pos) /\ (pos < alen seen -> shows seen b pos)).
Proof.
  intros seen expected cs. unfold expectMessage. destruct (stringEqual_ok seen expected cs) as [(-> & F)|(k & -> & K1 & K2 & F & N & _)]; [left; auto|right].
  destruct (format_ok (Z.of_nat k) expected ltac:(lia)) as (a & -> & A1 & A2 & _ & A3).
  destruct (format_ok (Z.of_nat k) seen ltac:(lia)) as (b & -> & B1 & B2 & _ & B3). cbn [bind].
  exists (Z.of_nat k), a, b. rewrite Nat2Z.id. unfold alen in *. split; auto. split; auto. split; [lia|]. split; [lia|]. auto 10.
Qed.

Lemma newline_wrong : exists s pos,
  newlines (firstn (Z.to_nat pos - 1) s) = 0 /\
  report s (Some pos) = Ok (textLine ++ [50] ++ textChar ++ [49] ++ [10] ++ [49; 32] ++ [10] ++ [32] ++ [94]).
Proof. exists [49; 10; 50; 10], 2. vm_compute. auto. Qed.
Lemma same_text : exists seen expected a,
  ~ Forall2 (eqChar true) seen expected /\
  expectMessage seen expected true = Ok (Some (textExpected ++ a ++ textGot ++ a ++ textEnd ++ textDifferent ++ [50; 54] ++ [41])).
Proof.
  exists (repeat 97 10 ++ TEXT_ELLIPSIS ++ [46; 93; 98; 98; 98] ++ TEXT_ELLIPSIS).
  exists (repeat 97 10 ++ TEXT_ELLIPSIS ++ [46; 93; 98; 98; 98] ++ TEXT_ELLIPSIS ++ repeat 98 7).
  exists (repeat 97 10 ++ TEXT_ELLIPSIS ++ [46; 93; 98; 98; 98] ++ TEXT_ELLIPSIS). split.
  - intro F. apply F2_len in F. vm_compute in F. discriminate.
  - vm_compute. reflexivity.
Qed.
