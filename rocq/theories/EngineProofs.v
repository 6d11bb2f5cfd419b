From Coq Require Import QArith Qfield Lqa Permutation.
From Verif Require Import Tac RndModel RandIntModel RandIntProofs RndLemmas RandSpec RandSeqModel ShuffleProofs UniformProofs EngineModel EngineSpec.
Open Scope Z_scope.

Definition fits (lo hi : Z) : Prop :=
  lo < hi /\ ((is_i64 lo /\ is_i64 hi) \/ (lo = 0 /\ hi = two64)).

(* what one word gives *)
Definition step (bit : bool) (lo hi w : Z) : option Z :=
  match sampleWith integer bit lo hi [w] with Ok (v, _) => Some v | _ => None end.

Lemma sample_nil : forall bit lo hi, fits lo hi -> sampleWith integer bit lo hi [] = Fuel.
Proof.
  intros bit lo hi [H F]. unfold sampleWith.
  destruct ((lo =? 0) && (hi =? two64)); [reflexivity|].
  destruct (bit && (lo =? 0) && (hi =? 2)); [reflexivity|].
  unfold integer, integerWith, judgeAssert. replace (lo <? hi) with true by lia. reflexivity.
Qed.

Lemma sample_cons : forall bit lo hi w ws, fits lo hi ->
  sampleWith integer bit lo hi (w :: ws) =
  match step bit lo hi w with Some v => Ok (v, ws) | None => sampleWith integer bit lo hi ws end.
Proof.
  intros bit lo hi w ws [H F]. unfold step, sampleWith.
  destruct ((lo =? 0) && (hi =? two64)) eqn:E; [reflexivity|].
  destruct (bit && (lo =? 0) && (hi =? 2)) eqn:E2; [reflexivity|].
  destruct F as [[F1 F2]|[F1 F2]]; [|subst; discriminate].
  rewrite integer_redraw by auto. destruct (integer lo hi [w]) as [[v r]| | |]; reflexivity.
Qed.

Lemma sample_total : forall bit lo hi ws, fits lo hi ->
  match sampleWith integer bit lo hi ws with Ok _ | Fuel => True | _ => False end.
Proof.
  intros bit lo hi ws F. induction ws as [|w ws IH].
  - rewrite sample_nil by auto. exact I.
  - rewrite sample_cons by auto. destruct (step bit lo hi w); [exact I|exact IH].
Qed.

(* ---- counting words ---- *)
Definition allWords : list Z := zseq 0 (Z.to_nat two64).
Lemma in_words : forall w, In w allWords <-> is_u64 w.
Proof. intros w. unfold allWords, is_u64. rewrite in_zseq, Z2Nat.id by discriminate. lia. Qed.

Lemma words_nodup : NoDup allWords.
Proof. apply zseq_NoDup. Qed.
Lemma words_one : forall c, (qsum (fun _ => c) allWords == inject_Z two64 * c)%Q.
Proof. intros c. unfold allWords. rewrite qsum_const, zseq_length, Z2Nat.id by discriminate. reflexivity. Qed.
Lemma words_interval : allWords = zseq 0 (Z.to_nat two64).
Proof. reflexivity. Qed.
Lemma to_words : forall w, In w allWords -> is_u64 w.
Proof. intros w. exact (proj1 (in_words w)). Qed.
Lemma of_words : forall w, is_u64 w -> In w allWords.
Proof. intros w. exact (proj2 (in_words w)). Qed.
Opaque allWords.

Definition ind (b : bool) : Q := if b then 1%Q else 0%Q.

Lemma qsum_swap : forall A B (f : A -> B -> Q) la lb,
  (qsum (fun a => qsum (f a) lb) la == qsum (fun b => qsum (fun a => f a b) la) lb)%Q.
Proof.
  intros A B f la lb. induction la as [|a la IH].
  - simpl. symmetry. apply qsum_zero. intros. reflexivity.
  - cbn [qsum fold_right]. fold (qsum (fun a => qsum (f a) lb) la). rewrite IH.
    rewrite <- qsum_plus. apply qsum_ext. intros. reflexivity.
Qed.

Lemma interval_count : forall n b q, 0 <= b -> 0 <= q -> b + q <= Z.of_nat n ->
  (qsum (fun x => ind ((b <=? x) && (x <? b + q))) (zseq 0 n) == inject_Z q)%Q.
Proof.
  intros n b q Hb Hq H.
  replace n with (Z.to_nat b + (Z.to_nat q + (n - Z.to_nat b - Z.to_nat q)))%nat by lia.
  rewrite !zseq_app, !qsum_app. rewrite !Z2Nat.id by lia.
  rewrite (qsum_zero _ _ (zseq 0 (Z.to_nat b))).
  2:{ intros x Hx. apply in_zseq in Hx. replace ((b <=? x) && (x <? b + q)) with false by lia. reflexivity. }
  rewrite (qsum_ext _ _ (fun _ => 1%Q) (zseq (0 + b) (Z.to_nat q))).
  2:{ intros x Hx. apply in_zseq in Hx. replace ((b <=? x) && (x <? b + q)) with true by lia. reflexivity. }
  rewrite (qsum_zero _ _ (zseq (0 + b + q) _)).
  2:{ intros x Hx. apply in_zseq in Hx. replace ((b <=? x) && (x <? b + q)) with false by lia. reflexivity. }
  rewrite qsum_const, zseq_length, Z2Nat.id by lia. ring.
Qed.

Definition stepIs bit lo hi v w : bool :=
  match step bit lo hi w with Some x => x =? v | None => false end.

Lemma bit_count : (qsum (fun w => ind (bitOf w)) allWords == inject_Z two63)%Q /\
  (qsum (fun w => ind (negb (bitOf w))) allWords == inject_Z two63)%Q.
Proof.
  assert (E : (qsum (fun w => ind (bitOf w)) allWords == qsum (fun w => ind (negb (bitOf w))) allWords)%Q).
  { transitivity (qsum (fun w => ind (bitOf w)) (map (fun w => Z.lxor w 1) allWords)).
    - apply qsum_perm. apply NoDup_Permutation.
      + apply words_nodup.
      + apply map_NoDup_in; [|apply words_nodup]. intros x y Hx Hy E.
        apply to_words in Hx. apply to_words in Hy. rewrite <- (proj2 (lxor1_u64 x Hx)), <- (proj2 (lxor1_u64 y Hy)), E. reflexivity.
      + intros w. rewrite in_map_iff. split.
        * intros Hw. apply to_words in Hw. destruct (lxor1_u64 w Hw) as [A B].
          exists (Z.lxor w 1). split; [exact B|]. apply of_words. exact A.
        * intros (x & <- & Hx). apply to_words in Hx. apply of_words. apply lxor1_u64. exact Hx.
    - rewrite qsum_map. apply qsum_ext. intros w Hw. apply to_words in Hw.
      rewrite bit_flip by apply Hw. reflexivity. }
  assert (S : (qsum (fun w => ind (bitOf w)) allWords + qsum (fun w => ind (negb (bitOf w))) allWords == inject_Z two64)%Q).
  { rewrite <- qsum_plus. rewrite (qsum_ext _ _ (fun _ => 1%Q)).
    - rewrite words_one. ring.
    - intros w _. destruct (bitOf w); reflexivity. }
  assert (T : (inject_Z two64 == inject_Z two63 + inject_Z two63)%Q) by reflexivity.
  revert E S T. generalize (qsum (fun w => ind (bitOf w)) allWords) (qsum (fun w => ind (negb (bitOf w))) allWords)
    (inject_Z two64) (inject_Z two63). intros a b c d E S T. split; lra.
Qed.

Lemma step_range : forall bit lo hi w v, fits lo hi -> is_u64 w -> step bit lo hi w = Some v -> lo <= v < hi.
Proof.
  intros bit lo hi w v [H F] Hw. unfold step, sampleWith.
  destruct ((lo =? 0) && (hi =? two64)) eqn:E.
  { intros X. inv X. unfold is_u64 in Hw. lia. }
  destruct (bit && (lo =? 0) && (hi =? 2)) eqn:E2.
  { intros X. inv X. destruct (bitOf w); lia. }
  destruct F as [[F1 F2]|[F1 F2]]; [|subst; discriminate].
  pose proof (integer_range lo hi [w] F1 F2 ltac:(constructor; auto)) as R.
  destruct (integer lo hi [w]) as [[x r]| | |]; try discriminate. intros X. inv X. apply R.
Qed.

(* every value of the range is given by the same number of words, more than half are used *)
Lemma step_count : forall bit lo hi, fits lo hi ->
  exists c, 0 < c /\ c * (hi - lo) <= two64 /\ two64 < 2 * (c * (hi - lo)) /\
  forall v, lo <= v < hi -> (qsum (fun w => ind (stepIs bit lo hi v w)) allWords == inject_Z c)%Q.
Proof.
  intros bit lo hi [H F]. unfold stepIs, step, sampleWith.
  destruct ((lo =? 0) && (hi =? two64)) eqn:E.
  { exists 1. assert (lo = 0) by lia. assert (hi = two64) by lia. subst.
    repeat (split; [unfold two64; lia|]). intros v Hv.
    rewrite (qsum_ext _ _ (fun x => ind ((v <=? x) && (x <? v + 1)))).
    - rewrite words_interval. apply interval_count; rewrite ?Z2Nat.id; lia.
    - intros x _. replace (x =? v) with ((v <=? x) && (x <? v + 1)) by lia. reflexivity. }
  destruct (bit && (lo =? 0) && (hi =? 2)) eqn:E2.
  { exists two63. assert (lo = 0) by lia. assert (hi = 2) by lia. subst.
    repeat (split; [unfold two63, two64; lia|]). intros v Hv.
    destruct bit_count as [B1 B0].
    assert (v = 0 \/ v = 1) as [-> | ->] by lia.
    - rewrite <- B0. apply qsum_ext. intros w _. destruct (bitOf w); reflexivity.
    - rewrite <- B1. apply qsum_ext. intros w _. destruct (bitOf w); reflexivity. }
  destruct F as [[F1 F2]|[F1 F2]]; [|subst; discriminate].
  assert (Hs : 0 < hi - lo < two64) by (mach; lia).
  exists (two64 / (hi - lo)). pose proof (accepted_majority (hi - lo) Hs) as M.
  pose proof (Z.mul_div_le two64 (hi - lo) ltac:(lia)) as L.
  assert (0 < two64 / (hi - lo)) by (apply Z.div_str_pos; lia).
  split; [lia|]. split; [lia|]. split; [lia|].
  intros v Hv. destruct (integer_uniform lo hi F1 F2 H v Hv) as (b & B0 & B1 & B2).
  rewrite (qsum_ext _ _ (fun x => ind ((b <=? x) && (x <? b + two64 / (hi - lo))))).
  - rewrite words_interval. apply interval_count; rewrite ?Z2Nat.id; lia.
  - intros w Hw. apply to_words in Hw.
    match goal with |- (ind ?a == ind ?b)%Q => enough (a = b) as -> by reflexivity end. specialize (B2 w Hw).
    pose proof (integer_range lo hi [w] F1 F2 ltac:(constructor; auto)) as R.
    destruct (integer lo hi [w]) as [[x r]| | |] eqn:EI.
    + destruct R as (_ & pre & Hp & Heq).
      assert (r = []) as ->.
      { destruct pre as [|y pre]; [congruence|]. inv Heq. destruct pre; [|discriminate]. auto. }
      destruct (x =? v) eqn:Ex.
      * assert (b <= w < b + two64 / (hi - lo)) by (apply B2; do 2 f_equal; lia). lia.
      * assert (~ (b <= w < b + two64 / (hi - lo))) by (intros Z; apply B2 in Z; inv Z; lia). lia.
    + assert (~ (b <= w < b + two64 / (hi - lo))) by (intros Z; apply B2 in Z; discriminate). lia.
    + assert (~ (b <= w < b + two64 / (hi - lo))) by (intros Z; apply B2 in Z; discriminate). lia.
    + assert (~ (b <= w < b + two64 / (hi - lo))) by (intros Z; apply B2 in Z; discriminate). lia.
Qed.

Lemma qsum_le : forall A (f g : A -> Q) l, (forall x, In x l -> (f x <= g x)%Q) -> (qsum f l <= qsum g l)%Q.
Proof.
  intros A f g l H. induction l as [|x l IH]; [apply Qle_refl|]. cbn [qsum fold_right].
  apply Qplus_le_compat; [apply H; left; auto|]. apply IH. intros. apply H. right. auto.
Qed.

(* the sum over all words *)
Lemma step_sum : forall bit lo hi, fits lo hi ->
  exists c r, 0 < c /\ 0 <= r /\ c * (hi - lo) + r = two64 /\ 2 * r < two64 /\
  forall (g : Z -> Q) (d : Q),
    (qsum (fun w => match step bit lo hi w with Some v => g v | None => d end) allWords ==
     inject_Z c * qsum g (zseq lo (Z.to_nat (hi - lo))) + inject_Z r * d)%Q.
Proof.
  intros bit lo hi F. destruct (step_count bit lo hi F) as (c & C0 & C1 & C2 & C3).
  exists c, (two64 - c * (hi - lo)). split; [lia|]. split; [lia|]. split; [lia|]. split; [lia|].
  assert (Hlt : lo < hi) by apply F.
  set (V := zseq lo (Z.to_nat (hi - lo))).
  assert (HV : forall v, In v V <-> lo <= v < hi) by (intros v; unfold V; rewrite in_zseq; lia).
  assert (G : forall g : Z -> Q,
    (qsum (fun w => match step bit lo hi w with Some v => g v | None => 0%Q end) allWords == inject_Z c * qsum g V)%Q).
  { intros g. rewrite (qsum_ext _ _ (fun w => qsum (fun v => g v * ind (stepIs bit lo hi v w))%Q V)).
    - rewrite qsum_swap. rewrite <- qsum_mult. apply qsum_ext. intros v Hv. apply HV in Hv.
      rewrite qsum_mult. rewrite C3 by auto. ring.
    - intros w Hw. apply to_words in Hw. unfold stepIs. destruct (step bit lo hi w) as [v|] eqn:E.
      + apply step_range in E; auto. symmetry. apply (qsum_single _ _ V v).
        * apply zseq_NoDup.
        * apply HV. exact E.
        * rewrite Z.eqb_refl. simpl. ring.
        * intros y Hy Hne. replace (v =? y) with false by lia. simpl. ring.
      + symmetry. apply qsum_zero. intros. simpl. ring. }
  intros g d.
  assert (T : (qsum (fun w => match step bit lo hi w with Some _ => 0%Q | None => 1%Q end) allWords ==
               inject_Z (two64 - c * (hi - lo)))%Q).
  { pose proof (G (fun _ => 1%Q)) as G1. rewrite qsum_const in G1. unfold V in G1.
    rewrite zseq_length, Z2Nat.id in G1 by lia.
    assert (S : (qsum (fun w => match step bit lo hi w with Some _ => 0%Q | None => 1%Q end) allWords +
                 qsum (fun w => match step bit lo hi w with Some _ => 1%Q | None => 0%Q end) allWords == inject_Z two64)%Q).
    { rewrite <- qsum_plus. rewrite (qsum_ext _ _ (fun _ => 1%Q)).
      - rewrite words_one. ring.
      - intros w _. destruct (step bit lo hi w); reflexivity. }
    rewrite G1 in S. unfold Z.sub at 1. rewrite inject_Z_plus, inject_Z_opp, inject_Z_mult.
    revert S. match goal with |- (?x + _ == ?z)%Q -> _ => generalize x; generalize z end.
    intros z x S. rewrite <- S. ring. }
  rewrite (qsum_ext _ _ (fun w => match step bit lo hi w with Some v => g v | None => 0%Q end +
             d * match step bit lo hi w with Some _ => 0%Q | None => 1%Q end)%Q).
  - rewrite qsum_plus, qsum_mult, G, T. ring.
  - intros w _. destruct (step bit lo hi w); ring.
Qed.

(* ---- runs ---- *)
Section Run.
Variable A : Type.
Variable bits : list Z -> bool.
Notation run := (runWith integer bits).

Lemma run_nil : forall lo hi (k : Z -> rnd A) h, fits lo hi -> run (RDraw lo hi k) h [] = None.
Proof. intros lo hi k h F. cbn [runWith]. rewrite sample_nil by auto. reflexivity. Qed.

Lemma run_cons : forall lo hi (k : Z -> rnd A) h w ws, fits lo hi ->
  run (RDraw lo hi k) h (w :: ws) =
  match step (bits h) lo hi w with
  | Some v => run (k v) (v :: h) ws
  | None => run (RDraw lo hi k) h ws
  end.
Proof.
  intros lo hi k h w ws F. cbn [runWith]. rewrite sample_cons by auto.
  destruct (step (bits h) lo hi w) as [v|]; [reflexivity|].
  pose proof (sample_total (bits h) lo hi ws F) as T.
  destruct (sampleWith integer (bits h) lo hi ws) as [[x r]| | |]; try reflexivity; destruct T.
Qed.

Lemma run_support : forall (m : rnd A) h ws o rest, drawsFit m -> Forall is_u64 ws ->
  run m h ws = Some (o, rest) -> can m o /\ exists pre, ws = pre ++ rest.
Proof.
  induction m as [o' | lo hi k IH]; intros h ws o rest F Hw.
  - simpl. intros X. inv X. split; auto. exists []. reflexivity.
  - destruct F as (F1 & F2 & F3). assert (FF : fits lo hi) by (split; auto).
    induction ws as [|w ws IHw].
    + rewrite run_nil by auto. discriminate.
    + rewrite run_cons by auto. inv Hw. destruct (step (bits h) lo hi w) as [v|] eqn:E.
      * intros X. apply step_range in E; auto. apply IH in X; auto. destruct X as (X1 & pre & ->).
        split; [exists v; auto|]. exists (w :: pre). reflexivity.
      * intros X. destruct (IHw ltac:(auto) X) as (X1 & pre & ->). split; [exact X1|].
        exists (w :: pre). reflexivity.
Qed.

Lemma run_more : forall (m : rnd A) h ws o rest more, drawsFit m -> Forall is_u64 ws ->
  run m h ws = Some (o, rest) -> run m h (ws ++ more) = Some (o, rest ++ more).
Proof.
  induction m as [o' | lo hi k IH]; intros h ws o rest more F Hw.
  - simpl. intros X. inv X. reflexivity.
  - destruct F as (F1 & F2 & F3). assert (FF : fits lo hi) by (split; auto).
    induction ws as [|w ws IHw].
    + rewrite run_nil by auto. discriminate.
    + cbn [app]. rewrite !run_cons by auto. inv Hw. destruct (step (bits h) lo hi w) as [v|] eqn:E.
      * intros X. apply step_range in E; auto.
      * intros X. auto.
Qed.

Lemma step_exists : forall bit lo hi v, fits lo hi -> lo <= v < hi ->
  exists w, is_u64 w /\ step bit lo hi w = Some v.
Proof.
  intros bit lo hi v F Hv. destruct (step_count bit lo hi F) as (c & C0 & _ & _ & C).
  specialize (C v Hv).
  destruct (existsb (stepIs bit lo hi v) allWords) eqn:E.
  - apply existsb_exists in E. destruct E as (w & Hw & E). exists w. apply to_words in Hw. split; [auto|].
    unfold stepIs in E. destruct (step bit lo hi w); [|discriminate]. f_equal. lia.
  - exfalso. rewrite qsum_zero in C.
    + unfold Qeq in C. simpl in C. lia.
    + intros w Hw. destruct (stepIs bit lo hi v w) eqn:S; [|reflexivity].
      rewrite (proj2 (existsb_exists (stepIs bit lo hi v) allWords) (ex_intro _ w (conj Hw S))) in E. discriminate E.
Qed.

Lemma run_reach : forall (m : rnd A) h o, drawsFit m -> can m o ->
  exists ws, Forall is_u64 ws /\ run m h ws = Some (o, []).
Proof.
  induction m as [o' | lo hi k IH]; intros h o F C.
  - simpl in C. subst. exists []. split; [constructor|]. reflexivity.
  - destruct F as (F1 & F2 & F3). assert (FF : fits lo hi) by (split; auto).
    destruct C as (v & Hv & C). destruct (step_exists (bits h) lo hi v FF Hv) as (w & Hw & E).
    destruct (IH v (v :: h) o (F3 v Hv) C) as (ws & W1 & W2).
    exists (w :: ws). split; [constructor; auto|]. rewrite run_cons by auto. rewrite E. exact W2.
Qed.

Lemma run_portable : forall (m : rnd A) h ws, drawsFit m -> Forall is_u64 ws ->
  runWith integerPortable bits m h ws = run m h ws.
Proof.
  induction m as [o' | lo hi k IH]; intros h ws F Hw; [reflexivity|].
  destruct F as (F1 & F2 & F3). assert (FF : fits lo hi) by (split; auto).
  cbn [runWith].
  assert (E : sampleWith integerPortable (bits h) lo hi ws = sampleWith integer (bits h) lo hi ws).
  { unfold sampleWith. destruct ((lo =? 0) && (hi =? two64)) eqn:E; [reflexivity|].
    destruct (bits h && (lo =? 0) && (hi =? 2)); [reflexivity|].
    destruct F2 as [[X Y]|[X Y]]; [|subst; discriminate]. apply integer_portable; auto. }
  rewrite E. clear E.
  assert (R : match sampleWith integer (bits h) lo hi ws with
              | Ok (x, r) => lo <= x < hi /\ Forall is_u64 r | _ => True end).
  { clear IH F3. induction ws as [|w ws IHw].
    - rewrite sample_nil by auto. exact I.
    - rewrite sample_cons by auto. inv Hw. destruct (step (bits h) lo hi w) as [v|] eqn:E.
      + apply step_range in E; auto.
      + apply IHw; auto. }
  destruct (sampleWith integer (bits h) lo hi ws) as [[x r]| | |]; try reflexivity.
  destruct R as [R1 R2]. apply IH; auto.
Qed.

(* ---- the law ---- *)
Variable p : outcome A -> bool.
Definition hit (m : rnd A) (h ws : list Z) : Q :=
  match run m h ws with Some (o, _) => ind (p o) | None => 0%Q end.
Definition onWords (f : list Z -> Q) (o : outcome (list Z)) : Q :=
  match o with Ok ws => f ws | _ => 0%Q end.
Definition mean (n : nat) (f : list Z -> Q) : Q := expect (words n) (onWords f).

Lemma mean_0 : forall f, mean 0 f = f [].
Proof. reflexivity. Qed.

Lemma words_shape : forall n, always (words n) (returns (fun _ => True)).
Proof.
  induction n; [exact I|]. cbn [words].
  eapply returns_bind; [apply returns_rint; reflexivity|]. intros w _.
  eapply returns_bind; [exact IHn|]. intros ws _. exact I.
Qed.

Lemma mean_S : forall n f,
  (mean (S n) f == qsum (fun w => mean n (fun ws => f (w :: ws))) allWords / inject_Z two64)%Q.
Proof.
  intros n f. unfold mean. cbn [words]. rewrite expect_bind, expect_rint by reflexivity.
  replace (two64 - 0) with two64 by reflexivity. rewrite <- words_interval.
  apply Qmult_comp; [|reflexivity]. apply qsum_ext. intros w _.
  rewrite expect_bind. apply expect_ext. intros [ws| | |]; reflexivity.
Qed.

Lemma mean_ext : forall n f g, (forall ws, f ws = g ws) -> (mean n f == mean n g)%Q.
Proof. intros n f g H. apply expect_ext. intros [ws| | |]; simpl; rewrite ?H; reflexivity. Qed.

Lemma mean_const : forall n c, (mean n (fun _ => c) == c)%Q.
Proof.
  induction n; intros c; [reflexivity|]. rewrite mean_S.
  rewrite (qsum_ext _ _ (fun _ => c)) by (intros; apply IHn).
  rewrite words_one.
  field. discriminate.
Qed.

Definition val (m : rnd A) h n : Q := mean n (hit m h).

Lemma val_ret : forall o h n, (val (RRet o) h n == ind (p o))%Q.
Proof. intros o h n. unfold val, hit. cbn [runWith]. apply mean_const. Qed.

Lemma val_draw0 : forall lo hi k h, fits lo hi -> val (RDraw lo hi k) h 0 = 0%Q.
Proof. intros lo hi k h F. unfold val. rewrite mean_0. unfold hit. cbn [runWith]. rewrite sample_nil by auto. reflexivity. Qed.

Lemma val_drawS : forall lo hi k h n, fits lo hi ->
  (val (RDraw lo hi k) h (S n) ==
   qsum (fun w => match step (bits h) lo hi w with
                  | Some v => val (k v) (v :: h) n
                  | None => val (RDraw lo hi k) h n
                  end) allWords / inject_Z two64)%Q.
Proof.
  intros lo hi k h n F. unfold val. rewrite mean_S. apply Qmult_comp; [|reflexivity].
  apply qsum_ext. intros w _. destruct (step (bits h) lo hi w) as [v|] eqn:E.
  - apply mean_ext. intros ws. unfold hit. rewrite run_cons by auto. rewrite E. reflexivity.
  - apply mean_ext. intros ws. unfold hit. rewrite run_cons by auto. rewrite E. reflexivity.
Qed.

(* the recurrence *)
Lemma val_rec : forall lo hi k h, fits lo hi ->
  exists a r, (0 <= r)%Q /\ (2 * r <= 1)%Q /\ (0 < a)%Q /\ (a * inject_Z (hi - lo) + r == 1)%Q /\
  forall n, (val (RDraw lo hi k) h (S n) ==
    a * qsum (fun v => val (k v) (v :: h) n) (zseq lo (Z.to_nat (hi - lo))) + r * val (RDraw lo hi k) h n)%Q.
Proof.
  intros lo hi k h F. destruct (step_sum (bits h) lo hi F) as (c & r & C0 & R0 & CR & R2 & S).
  exists (inject_Z c / inject_Z two64)%Q, (inject_Z r / inject_Z two64)%Q.
  assert (P : (0 < inject_Z two64)%Q) by reflexivity.
  assert (N : ~ (inject_Z two64 == 0)%Q) by (intros X; rewrite X in P; apply Qlt_irrefl in P; auto).
  assert (Rr : (0 <= inject_Z r)%Q) by (rewrite (Zle_Qle 0) in R0; exact R0).
  assert (Cc : (0 < inject_Z c)%Q) by (rewrite (Zlt_Qlt 0) in C0; exact C0).
  split; [apply Qle_shift_div_l; [exact P|]; lra|].
  split.
  { assert (X : (inject_Z (2 * r) <= inject_Z two64)%Q) by (rewrite <- Zle_Qle; lia).
    rewrite inject_Z_mult in X. change (inject_Z 2) with 2%Q in X.
    setoid_replace (2 * (inject_Z r / inject_Z two64))%Q with ((2 * inject_Z r) / inject_Z two64)%Q by (field; exact N).
    apply Qle_shift_div_r; [exact P|]. rewrite Qmult_1_l. exact X. }
  split; [apply Qlt_shift_div_l; [exact P|]; lra|].
  split.
  { assert (X : (inject_Z c * inject_Z (hi - lo) + inject_Z r == inject_Z two64)%Q)
      by (rewrite <- inject_Z_mult, <- inject_Z_plus, CR; reflexivity).
    setoid_replace (inject_Z c / inject_Z two64 * inject_Z (hi - lo) + inject_Z r / inject_Z two64)%Q
      with ((inject_Z c * inject_Z (hi - lo) + inject_Z r) / inject_Z two64)%Q by (field; exact N).
    rewrite X. field. exact N. }
  intros n. rewrite val_drawS by auto. rewrite S.
  set (X := qsum _ _). set (Y := val _ _ _). clearbody X Y. field. exact N.
Qed.

Lemma Pr_draw : forall lo hi k, lo < hi ->
  (qsum (fun v => Pr (k v) p) (zseq lo (Z.to_nat (hi - lo))) == inject_Z (hi - lo) * Pr (RDraw lo hi k : rnd A) p)%Q.
Proof.
  intros lo hi k H. unfold Pr. cbn [expect]. field. apply inject_Z_nonzero. lia.
Qed.

Lemma inject_Z_pos : forall z, 0 < z -> (0 < inject_Z z)%Q.
Proof. intros z H. rewrite (Zlt_Qlt 0) in H. exact H. Qed.

Lemma Pr_pos : forall m : rnd A, drawsFit m -> (0 <= Pr m p)%Q.
Proof.
  unfold Pr. induction m as [o|lo hi k IH]; intros F.
  - simpl. destruct (p o); discriminate.
  - destruct F as (F1 & F2 & F3). cbn [expect]. apply Qle_shift_div_l; [apply inject_Z_pos; lia|].
    rewrite Qmult_0_l. rewrite <- (qsum_zero _ (fun _ => 0%Q) (zseq lo (Z.to_nat (hi - lo)))) by (intros; reflexivity).
    apply qsum_le. intros x Hx. apply in_zseq in Hx. apply IH. apply F3. lia.
Qed.

Lemma Pr_one : forall m : rnd A, drawsFit m -> (Pr m p <= 1)%Q.
Proof.
  unfold Pr. induction m as [o|lo hi k IH]; intros F.
  - simpl. destruct (p o); discriminate.
  - destruct F as (F1 & F2 & F3). cbn [expect]. apply Qle_shift_div_r; [apply inject_Z_pos; lia|].
    rewrite Qmult_1_l.
    apply Qle_trans with (qsum (fun _ => 1%Q) (zseq lo (Z.to_nat (hi - lo)))).
    + apply qsum_le. intros x Hx. apply in_zseq in Hx. apply IH. apply F3. lia.
    + rewrite qsum_const, zseq_length, Z2Nat.id by lia. rewrite Qmult_1_r. apply Qle_refl.
Qed.

Lemma val_le : forall (m : rnd A) h n, drawsFit m -> (val m h n <= Pr m p)%Q.
Proof.
  induction m as [o|lo hi k IH]; intros h n F.
  - rewrite val_ret. apply Qle_refl.
  - pose proof (Pr_pos _ F) as P0. destruct F as (F1 & F2 & F3). assert (FF : fits lo hi) by (split; auto).
    destruct (val_rec lo hi k h FF) as (a & r & R0 & R1 & A0 & AR & S).
    induction n as [|n IHn]; [rewrite val_draw0 by auto; exact P0|].
    rewrite S.
    assert (L : (qsum (fun v => val (k v) (v :: h) n) (zseq lo (Z.to_nat (hi - lo))) <=
                 inject_Z (hi - lo) * Pr (RDraw lo hi k) p)%Q).
    { rewrite <- Pr_draw by lia. apply qsum_le. intros v Hv. apply in_zseq in Hv. apply IH. apply F3. lia. }
    set (X := qsum _ _) in *. set (Y := val _ _ _) in *. set (T := Pr _ _) in *. set (s := inject_Z _) in *.
    clearbody X Y T s.
    assert (E : (T == a * (s * T) + r * T)%Q) by (transitivity ((a * s + r) * T)%Q; [rewrite AR|]; ring).
    rewrite E.
    apply Qplus_le_compat.
    + apply Qmult_le_l; auto.
    + rewrite !(Qmult_comm r). apply Qmult_le_compat_r; auto.
Qed.

(* a common number of words for finitely many values *)
Lemma common : forall (P : Z -> nat -> Prop) l,
  (forall v, In v l -> exists N, forall n, (N <= n)%nat -> P v n) ->
  exists N, forall v n, In v l -> (N <= n)%nat -> P v n.
Proof.
  intros P l. induction l as [|x l IH]; intros H.
  - exists 0%nat. intros v n [].
  - destruct (H x (or_introl eq_refl)) as [N1 H1].
    destruct IH as [N2 H2]; [intros v Hv; apply H; right; auto|].
    exists (Nat.max N1 N2). intros v n [<-|Hv] Hn; [apply H1; lia|apply H2; auto; lia].
Qed.

Lemma val_ge : forall (m : rnd A) h eps, drawsFit m -> (0 < eps)%Q ->
  exists N, forall n, (N <= n)%nat -> (Pr m p - eps <= val m h n)%Q.
Proof.
  induction m as [o|lo hi k IH]; intros h eps F He.
  - exists 0%nat. intros n _. rewrite val_ret. unfold Pr. cbn [expect]. fold (ind (p o)). lra.
  - pose proof (Pr_one _ F) as P1. pose proof F as F'. destruct F as (F1 & F2 & F3).
    assert (FF : fits lo hi) by (split; auto).
    destruct (val_rec lo hi k h FF) as (a & r & R0 & R1 & A0 & AR & S).
    destruct (common (fun v n => (Pr (k v) p - eps * (1#2) <= val (k v) (v :: h) n)%Q) (zseq lo (Z.to_nat (hi - lo)))) as [N HN].
    { intros v Hv. apply in_zseq in Hv. apply IH; [apply F3; lia|]. lra. }
    (* the deficit halves with every further word *)
    assert (D : forall j, (inject_Z (Z.of_nat j + 1) * (Pr (RDraw lo hi k) p - eps * (1#2) - val (RDraw lo hi k) h (N + j)) <= 1)%Q).
    { induction j as [|j IHj].
      - rewrite Nat.add_0_r. change (inject_Z (Z.of_nat 0 + 1)) with 1%Q.
        assert (V0 : (0 <= val (RDraw lo hi k) h N)%Q).
        { unfold val, mean. rewrite <- (expect_zero _ (words N)).
          clear. generalize (words N). induction r as [o|l u f IH].
          - simpl. unfold onWords, hit. destruct o; try apply Qle_refl.
            match goal with |- context [match ?x with _ => _ end] => destruct x as [[oo rr]|] end; [destruct (p oo)|]; discriminate.
          - cbn [expect].
            destruct (Z.lt_trichotomy 0 (u - l)) as [P|[P|P]].
            + unfold Qdiv. apply Qmult_le_compat_r; [apply qsum_le; intros; apply IH|].
              apply Qinv_le_0_compat. apply Qlt_le_weak. apply inject_Z_pos. exact P.
            + rewrite <- P. simpl. discriminate.
            + replace (Z.to_nat (u - l)) with 0%nat by lia. simpl. apply Qle_refl. }
        set (Y := val _ _ _) in *. set (T := Pr _ _) in *. clearbody Y T. lra.
      - replace (N + Datatypes.S j)%nat with (Datatypes.S (N + j)) by lia. rewrite S.
        assert (L : (inject_Z (hi - lo) * (Pr (RDraw lo hi k) p - eps * (1#2)) <=
                     qsum (fun v => val (k v) (v :: h) (N + j)) (zseq lo (Z.to_nat (hi - lo))))%Q).
        { setoid_replace (inject_Z (hi - lo) * (Pr (RDraw lo hi k) p - eps * (1#2)))%Q
            with (qsum (fun v => Pr (k v) p - eps * (1#2)) (zseq lo (Z.to_nat (hi - lo))))%Q.
          - apply qsum_le. intros v Hv. apply HN; [exact Hv|lia].
          - unfold Qminus. rewrite qsum_plus, qsum_const, Pr_draw by lia.
            rewrite zseq_length, Z2Nat.id by lia. ring. }
        rewrite Nat2Z.inj_succ. unfold Z.succ. rewrite !inject_Z_plus in *. change (inject_Z 1) with 1%Q in *.
        assert (J : (0 <= inject_Z (Z.of_nat j))%Q) by (change 0%Q with (inject_Z 0); rewrite <- Zle_Qle; lia).
        set (X := qsum _ _) in *. set (Y := val _ _ _) in *. set (T := Pr _ _) in *. set (s := inject_Z (hi - lo)) in *.
        set (J' := inject_Z (Z.of_nat j)) in *. set (e := (eps * (1#2))%Q) in *. clearbody X Y T s J' e.
        (* deficit <= r * old deficit *)
        assert (E : (T - e == a * (s * (T - e)) + r * (T - e))%Q)
          by (transitivity ((a * s + r) * (T - e))%Q; [rewrite AR|]; ring).
        assert (L2 : (a * (s * (T - e)) <= a * X)%Q) by (apply Qmult_le_l; auto).
        assert (L3 : (T - e - (a * X + r * Y) <= r * (T - e - Y))%Q).
        { rewrite E at 1. lra. }
        assert (L4 : ((J' + 1 + 1) * (T - e - (a * X + r * Y)) <= (J' + 1 + 1) * (r * (T - e - Y)))%Q)
          by (rewrite !(Qmult_comm (J' + 1 + 1)); apply Qmult_le_compat_r; [exact L3|lra]).
        apply Qle_trans with (1 := L4).
        set (d := (T - e - Y)%Q) in *. clearbody d. clear - R0 R1 IHj J.
        destruct (Qlt_le_dec d 0) as [Dn|Dp].
        + apply Qle_trans with 0%Q; [|discriminate].
          setoid_replace 0%Q with ((J' + 1 + 1) * 0)%Q by ring.
          rewrite !(Qmult_comm (J' + 1 + 1)). apply Qmult_le_compat_r; [|lra].
          setoid_replace 0%Q with (0 * r)%Q by ring. rewrite (Qmult_comm r). apply Qmult_le_compat_r; lra.
        + (* (J+2) r d <= (2J+2) r d <= (J+1) d *)
          assert (X1 : ((J' + 1 + 1) * (r * d) <= (2 * (J' + 1)) * (r * d))%Q).
          { apply Qmult_le_compat_r; [lra|]. apply Qmult_le_0_compat; lra. }
          assert (X2 : ((2 * r) * ((J' + 1) * d) <= 1 * ((J' + 1) * d))%Q).
          { apply Qmult_le_compat_r; [lra|]. apply Qmult_le_0_compat; lra. }
          apply Qle_trans with (1 := X1).
          setoid_replace (2 * (J' + 1) * (r * d))%Q with ((2 * r) * ((J' + 1) * d))%Q by ring.
          apply Qle_trans with (1 := X2). lra. }
    exists (N + Pos.to_nat (2 * Qden eps))%nat. intros n Hn.
    specialize (D (n - N)%nat). replace (N + (n - N))%nat with n in D by lia.
    set (j := Z.of_nat (n - N)) in *. assert (Hj : 2 * Zpos (Qden eps) <= j + 1) by (unfold j; lia).
    clearbody j.
    assert (Hb : (1 <= inject_Z (j + 1) * (eps * (1#2)))%Q).
    { destruct eps as [en ed]. unfold Qlt in He. simpl in He, Hj.
      unfold Qle, inject_Z, Qmult. simpl. nia. }
    set (T := Pr _ _) in *. set (Y := val _ _ _) in *. clearbody T Y.
    assert (Q1 : (T - eps * (1#2) - Y <= eps * (1#2))%Q).
    { apply (Qmult_le_l _ _ (inject_Z (j + 1))); [apply inject_Z_pos; lia|]. lra. }
    lra.
Qed.

End Run.

Lemma share_val : forall A bits (m : rnd A) n p, (share (runOn bits m) n p == val A bits p m [] n)%Q.
Proof.
  intros A bits m n p. unfold share, Pr, val, mean. apply expect_ext. intros [ws| | |]; try reflexivity.
  unfold onWords, hit, runOn, ind. destruct (runWith integer bits m [] ws) as [[o r]|]; reflexivity.
Qed.

Lemma engine_law : forall A bits (m : rnd A) p eps, drawsFit m -> (0 < eps)%Q ->
  exists N, forall n, (N <= n)%nat ->
    (Pr m p - eps <= share (runOn bits m) n p <= Pr m p)%Q.
Proof.
  intros A bits m p eps F He. destruct (val_ge A bits p m [] eps F He) as [N H].
  exists N. intros n Hn. rewrite share_val. split; [apply H; auto|apply val_le; auto].
Qed.

Lemma Pr_true : forall A (m : rnd A), drawsFit m -> (Pr m (fun _ => true) == 1)%Q.
Proof.
  intros A m F. unfold Pr. apply expect_one. revert F.
  induction m as [o|lo hi k IH]; simpl; [auto|]. intros (F1 & _ & F3). auto.
Qed.

Lemma engine_ends : forall A bits (m : rnd A) eps, drawsFit m -> (0 < eps)%Q ->
  exists N, forall n, (N <= n)%nat -> (1 - eps <= share (runOn bits m) n (fun _ => true))%Q.
Proof.
  intros A bits m eps F He. destruct (engine_law A bits m (fun _ => true) eps F He) as [N H].
  exists N. intros n Hn. destruct (H n Hn) as [L _]. rewrite Pr_true in L by auto. exact L.
Qed.

Lemma engine_support : forall A bits (m : rnd A) ws o rest, drawsFit m -> Forall is_u64 ws ->
  runOn bits m ws = Some (o, rest) ->
  can m o /\ (forall P, always m P -> P o) /\ exists pre, ws = pre ++ rest.
Proof.
  intros A bits m ws o rest F Hw H. destruct (run_support A bits m [] ws o rest F Hw H) as [C E].
  split; [exact C|]. split; [|exact E]. intros P. apply can_always. exact C.
Qed.

Lemma drawsFit_bind : forall A B (m : rnd A) (f : A -> rnd B),
  drawsFit m -> (forall a, can m (Ok a) -> drawsFit (f a)) -> drawsFit (rbind m f).
Proof.
  intros A B m f. induction m as [[a | | |] | lo hi k IH]; simpl; auto.
  intros (F1 & F2 & F3) H. split; [exact F1|]. split; [exact F2|]. intros x Hx. apply IH; eauto.
Qed.
Lemma drawsFit_rint : forall lo hi, is_i64 lo -> is_i64 hi -> drawsFit (rint lo hi).
Proof.
  intros lo hi H1 H2. unfold rint. destruct (lo <? hi) eqn:E; simpl; [|exact I].
  split; [lia|]. split; auto.
Qed.

Lemma drawsFit_shuffle : forall A (l : list A), Z.of_nat (length l) < two63 -> drawsFit (shuffle l).
Proof.
  intros A l H. unfold shuffle.
  assert (K : Z.of_nat (length l - 1) + 1 < two63) by (mach; lia). revert K.
  generalize (length l - 1)%nat. intros i. clear H. revert l.
  induction i as [|i IH]; intros l K; [exact I|]. cbn [shuffleFrom].
  apply drawsFit_bind; [apply drawsFit_rint; mach; lia|]. intros j _.
  apply drawsFit_bind; [exact I|]. intros l' _. apply IH. lia.
Qed.

Lemma shuffle_on_words : forall A (dec : forall x y : A, {x = y} + {x <> y}) bits (l q : list A) eps,
  NoDup l -> Permutation l q -> Z.of_nat (length l) < two63 -> (0 < eps)%Q ->
  exists N, forall n, (N <= n)%nat ->
    (1 / inject_Z (zfact (length l)) - eps <= share (runOn bits (shuffle l)) n (resultIs (list_eq_dec dec) q)
     <= 1 / inject_Z (zfact (length l)))%Q.
Proof.
  intros A dec bits l q eps N P L He.
  destruct (engine_law _ bits (shuffle l) (resultIs (list_eq_dec dec) q) eps (drawsFit_shuffle _ l L) He) as [M H].
  exists M. intros n Hn. specialize (H n Hn). rewrite (shuffle_uniform dec l q N P) in H. exact H.
Qed.
