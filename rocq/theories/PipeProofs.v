From Verif Require Import Tac PassModel InputSpec InputModel InputProofs InputProofs2 OutModel OutSpec OutProofs GenModel GenSpec PipeModel PipeSpec GraphSpec.

(* ---- the file read ---- *)
Lemma intIn_strict : forall st lo up s v rest, spaceSensitive st = true ->
  (integerIn st lo up s = Ret v rest <-> is_i64 v /\ lo <= v < up /\ s = showInteger v ++ rest /\ endsToken rest).
Proof.
  intros st lo up s v rest SS. rewrite integerIn_spec, SS. split.
  - intros (t & N & D & I & B). apply nextToken_true in N as (-> & _ & E); auto.
    rewrite (decimal_unique _ _ _ D (show_decimal v I)). auto.
  - intros (I & B & -> & E). exists (showInteger v). rewrite nextToken_true by exact SS.
    pose proof (show_decimal v I) as D. split; [|auto]. split; auto. split; auto. eapply decimal_plain; eauto.
Qed.

Lemma intIn_write : forall st lo up v rest, spaceSensitive st = true -> is_i64 v -> lo <= v < up -> endsToken rest ->
  integerIn st lo up (showInteger v ++ rest) = Ret v rest.
Proof. intros. apply intIn_strict; auto. Qed.

(* what stands behind the second node of an edge *)
Definition tailOf (ws : list Z) : list Z := flat_map (fun w => [32] ++ showInteger w) ws.
Lemma tail_ends : forall ws c r, whitespace c -> endsToken (tailOf ws ++ c :: r).
Proof. intros [|w ws] c r W; cbn; auto. unfold whitespace. auto. Qed.

Lemma join_tail : forall v ws, join (map IInt (v :: ws)) 32 = showInteger v ++ tailOf ws.
Proof.
  intros v ws. rewrite join_joined by lia. revert v. induction ws as [|w ws IH]; intro v.
  - cbn [map joined tailOf flat_map OutModel.put]. rewrite app_nil_r. reflexivity.
  - change (joined 32 (map OutModel.put (map IInt (v :: w :: ws)))) with (showInteger v ++ 32 :: joined 32 (map OutModel.put (map IInt (w :: ws)))).
    rewrite IH. reflexivity.
Qed.

Lemma writeLines_cons : forall v ws ls, writeLines ((v :: ws) :: ls) = showInteger v ++ tailOf ws ++ 10 :: writeLines ls.
Proof. intros. unfold writeLines. cbn [flat_map]. rewrite join_tail, <- !app_assoc. reflexivity. Qed.

Section Read.
  Variable G : Type.
  Variable make : Z -> Z -> outcome G.
  Variable add : G -> Z -> Z -> outcome G.
  Variable st : cfg.
  Hypothesis SS : spaceSensitive st = true.
  Variable nLo nHi mHi first : Z.
  Variable data : list (Z * Z).

  Lemma readData_iff : forall ls s ws c r, whitespace c ->
    (readData st ls s = Ret ws (c :: r) <-> within ls ws /\ s = tailOf ws ++ c :: r).
  Proof.
    induction ls as [|[lo up] ls IH]; intros s ws c r W; cbn [readData].
    - unfold rret. split; [intro H; inversion H; subst; split; [constructor|reflexivity]|].
      intros (H & ->). inversion H; subst. reflexivity.
    - unfold rbind. split.
      + destruct (space st s) as [[] s1| |] eqn:E1; [|discriminate..]. apply space_iff in E1; auto. subst s.
        destruct (integerIn st lo up s1) as [w s2| |] eqn:E2; [|discriminate..]. apply intIn_strict in E2 as (I & B & -> & _); auto.
        destruct (readData st ls s2) as [ws' s3| |] eqn:E3; [|discriminate..]. unfold rret. intro H. inversion H; subst.
        apply IH in E3 as (F & ->); auto. split; [constructor; auto|]. cbn [tailOf flat_map app]. rewrite <- app_assoc. reflexivity.
      + intros (F & ->). inversion F as [|l w ls' ws' (I & B) F']; subst. cbn [fst snd] in B. cbn [tailOf flat_map app]. fold (tailOf ws').
        rewrite (proj2 (space_iff st SS _ _) eq_refl). rewrite <- app_assoc.
        rewrite (proj2 (intIn_strict st lo up _ w (tailOf ws' ++ c :: r) SS)) by (auto using tail_ends).
        rewrite (proj2 (IH _ ws' c r W)) by auto. reflexivity.
  Qed.

  Definition linesOf (es : list (Z * Z)) (ds : list (list Z)) : list (list Z) :=
    map (fun p => fst (fst p) :: snd (fst p) :: snd p) (combine es ds).
  Lemma tail2 : forall b ws, tailOf (b :: ws) = 32 :: showInteger b ++ tailOf ws.
  Proof. reflexivity. Qed.

  Lemma readEdges_iff : forall n k g s v ds rest, is_i64 first -> is_i64 (first + n) ->
    (readEdges G add st first data n k g s = Ret (v, ds) rest <->
     exists es, length es = k /\ length ds = k /\ edgesIn first (first + n) es /\ Forall (within data) ds /\
       s = writeLines (linesOf es ds) ++ rest /\ addAll add g es = Ok v).
  Proof.
    intros n. induction k as [|k IH]; intros g s v ds rest IF IN; cbn [readEdges].
    - unfold rret. split.
      + intro H. inversion H; subst. exists []. split; auto. split; auto. split; [constructor|]. split; [constructor|]. auto.
      + intros ([|e es] & L & L2 & _ & _ & -> & A); [|discriminate]. destruct ds; [|discriminate]. cbn in A. inversion A; subst. reflexivity.
    - unfold rbind, rlift. split.
      + destruct (integerIn st first (first + n) s) as [a s1| |] eqn:E1; [|discriminate..]. apply intIn_strict in E1 as (I1 & B1 & -> & _); auto.
        destruct (space st s1) as [[] s2| |] eqn:E2; [|discriminate..]. apply space_iff in E2; auto. subst s1.
        destruct (integerIn st first (first + n) s2) as [b s3| |] eqn:E3; [|discriminate..]. apply intIn_strict in E3 as (I3 & B3 & -> & _); auto.
        destruct (readData st data s3) as [d s4| |] eqn:E4; [|discriminate..].
        destruct (newline st s4) as [[] s5| |] eqn:E5; [|discriminate..]. apply newline_iff in E5; auto. subst s4.
        apply readData_iff in E4 as (W & ->); [|unfold whitespace; lia].
        destruct (add g a b) as [g'| | |] eqn:E6; [|discriminate..].
        destruct (readEdges G add st first data n k g' s5) as [[v' ds'] r'| |] eqn:E7; [|discriminate..].
        unfold rret. cbn [fst snd]. intro H. inversion H; subst. apply IH in E7 as (es & L & L2 & F & D & -> & A); auto.
        exists ((a, b) :: es). split; [cbn; auto|]. split; [cbn; auto|]. split; [constructor; auto; cbn; unfold node; lia|]. split; [constructor; auto|].
        split; [|cbn [addAll]; rewrite E6; exact A].
        unfold linesOf. cbn [combine map fst snd]. rewrite writeLines_cons, tail2. rewrite <- !app_assoc. cbn [app]. rewrite <- !app_assoc. reflexivity.
      + intros ([|[a b] es] & L & L2 & F & D & -> & A); [discriminate|]. destruct ds as [|d ds]; [discriminate|].
        inversion F as [|e es' (F1 & F2) F']; subst. inversion D as [|d' ds' D1 D']; subst. cbn [fst snd] in F1, F2. unfold node in F1, F2.
        assert (is_i64 a /\ is_i64 b) as (Ia & Ib) by (mach; lia).
        unfold linesOf. cbn [combine map fst snd]. fold (linesOf es ds). rewrite writeLines_cons, tail2. rewrite <- !app_assoc. cbn [app]. rewrite <- !app_assoc. cbn [app].
        rewrite intIn_write by (auto; cbn; unfold whitespace; auto).
        rewrite (proj2 (space_iff st SS _ _) eq_refl).
        rewrite intIn_write; auto; [|apply tail_ends; unfold whitespace; lia].
        rewrite (proj2 (readData_iff data _ d 10 (writeLines (linesOf es ds) ++ rest) ltac:(unfold whitespace; lia))) by auto.
        rewrite (proj2 (newline_iff st SS _ _) eq_refl). cbn [addAll] in A. destruct (add g a b) as [g'| | |]; try discriminate. cbn [bind] in A.
        rewrite (proj2 (IH g' (writeLines (linesOf es ds) ++ rest) v ds rest IF IN)); [reflexivity|].
        exists es. cbn [length] in *. auto 10.
  Qed.

  Lemma readGraph_iff : forall file v ds rest, is_i64 first -> is_i64 (first + nLo) -> is_i64 (first + nHi - 1) ->
    (readGraph G make add st nLo nHi mHi first data file = Ret (v, ds) rest <->
     exists n es, nLo <= n < nHi /\ is_i64 n /\ alen es < mHi /\ alen es <= I64_MAX /\ alen ds = alen es /\
       edgesIn first (first + n) es /\ Forall (within data) ds /\
       file = graphFile n es ds /\ rest = [] /\ (let! g := make first (first + n) in addAll add g es) = Ok v).
  Proof.
    intros file v ds rest IF IA IB. unfold readGraph, rbind, rlift, graphFile. split.
    - destruct (integerIn st nLo nHi file) as [n s1| |] eqn:E1; [|discriminate..]. apply intIn_strict in E1 as (I1 & B1 & -> & _); auto.
      destruct (space st s1) as [[] s2| |] eqn:E2; [|discriminate..]. apply space_iff in E2; auto. subst s1.
      destruct (integerIn st 0 mHi s2) as [m s3| |] eqn:E3; [|discriminate..]. apply intIn_strict in E3 as (I3 & B3 & -> & _); auto.
      destruct (newline st s3) as [[] s4| |] eqn:E4; [|discriminate..]. apply newline_iff in E4; auto. subst s3.
      destruct (make first (first + n)) as [g| | |] eqn:E5; [|discriminate..].
      destruct (readEdges G add st first data n (Z.to_nat m) g s4) as [[v' ds'] r'| |] eqn:E6; [|discriminate..].
      destruct (eof st r') as [u r''| |] eqn:E7; [|discriminate..]. apply eof_iff in E7 as (-> & ->); auto.
      unfold rret. intro H. inversion H; subst. apply readEdges_iff in E6 as (es & L & L2 & F & D & -> & A); auto; [|mach; lia].
      exists n, es. assert (alen es = m) by (unfold alen; lia). split; [lia|]. split; auto. split; [lia|]. split; [mach; lia|].
      split; [unfold alen in *; lia|]. split; auto. split; auto. split; [|split; [auto|rewrite E5; exact A]].
      fold (linesOf es ds). rewrite writeLines_cons, tail2. cbn [tailOf flat_map]. rewrite !app_nil_r, <- H0. cbn [app]. rewrite <- ?app_assoc. reflexivity.
    - intros (n & es & B & I & M & M2 & L & F & D & -> & -> & A). fold (linesOf es ds).
      rewrite writeLines_cons, tail2. cbn [tailOf flat_map]. rewrite !app_nil_r. cbn [app].
      rewrite intIn_write by (auto; cbn; unfold whitespace; auto).
      rewrite (proj2 (space_iff st SS _ _) eq_refl).
      assert (NN : 0 <= alen es) by (unfold alen; lia).
      rewrite intIn_write; auto; [|mach; lia|cbn; unfold whitespace; lia].
      rewrite (proj2 (newline_iff st SS _ _) eq_refl).
      destruct (make first (first + n)) as [g| | |]; try discriminate. cbn [bind] in A.
      rewrite (proj2 (readEdges_iff n (Z.to_nat (alen es)) g (writeLines (linesOf es ds)) v ds [] IF ltac:(mach; lia))).
      + rewrite (proj2 (eof_iff st SS [] tt [])) by auto. reflexivity.
      + exists es. split; [unfold alen; lia|]. split; [unfold alen in *; lia|]. rewrite app_nil_r. auto.
  Qed.
End Read.

(* ---- the graph printed ---- *)
Lemma showGraph_file : forall E (numbers : E -> list Z) (g : graph E),
  showGraph numbers g ++ [10] = graphFile (nodeCount g) (map fst (getEdges g)) (map (fun e => numbers (snd e)) (getEdges g)).
Proof.
  intros E numbers g. unfold showGraph, graphFile. rewrite writeLines_cons, tail2. cbn [tailOf flat_map]. rewrite app_nil_r.
  replace (alen (map fst (getEdges g))) with (edgeCount g) by (unfold edgeCount, getEdges, alen; rewrite !map_length; auto).
  rewrite <- !app_assoc. cbn [app]. f_equal. f_equal. f_equal.
  induction (getEdges g) as [|[[u v] d] l IH]; [reflexivity|].
  cbn [flat_map map combine fst snd app]. rewrite writeLines_cons, tail2. cbn [showEdge]. fold (tailOf (numbers d)).
  rewrite <- !app_assoc. cbn [app]. rewrite <- !app_assoc. rewrite IH. reflexivity.
Qed.
