From Coq Require Import QArith.
From Verif Require Import Tac RndModel RandIntModel RndLemmas RandSpec MathModel RandSeqModel GraphModel GenModel GenOpsModel GenMakeModel CollModel EngineModel EngineSpec EngineProofs FloatModel RealModel.
Open Scope Z_scope.

Lemma fit_lift : forall A B (o : outcome A) (f : A -> rnd B),
  (forall a, o = Ok a -> drawsFit (f a)) -> drawsFit (rbind (lift o) f).
Proof. intros A B [a | | |] f H; simpl; auto. Qed.
Lemma fit_lift_end : forall A (o : outcome A), drawsFit (lift o).
Proof. intros A o. exact I. Qed.
Lemma fit_ret : forall A (a : A), drawsFit (ret a).
Proof. intros A a. exact I. Qed.
Lemma fit_word : drawsFit word.
Proof. cbn. split; [lia|]. split; [right; split; reflexivity|]. intros; exact I. Qed.
Lemma fit_any : forall A B (m : rnd A) (f : A -> rnd B), drawsFit m -> (forall a, drawsFit (f a)) -> drawsFit (rbind m f).
Proof. intros. apply drawsFit_bind; auto. Qed.
Lemma chk_fits : forall z a, chk z = Ok a -> a = z /\ is_i64 a.
Proof. intros z a H. unfold chk, in_i64 in H. destruct (_ && _) eqn:E in H; [|discriminate]. inv H. split; auto. mach; lia. Qed.
Lemma assert_true : forall b u, judgeAssert b = Ok u -> b = true.
Proof. intros [] u H; [reflexivity|discriminate]. Qed.
Lemma fit_rint_can : forall B lo hi (f : Z -> rnd B), is_i64 lo -> is_i64 hi ->
  (forall x, lo <= x < hi -> drawsFit (f x)) -> drawsFit (rbind (rint lo hi) f).
Proof.
  intros B lo hi f H1 H2 H. apply drawsFit_bind; [apply drawsFit_rint; auto|]. intros a C. apply H.
  unfold rint in C. destruct (lo <? hi); simpl in C; [|discriminate]. destruct C as (x & Hx & E). inv E. exact Hx.
Qed.

Ltac fit :=
  repeat match goal with
  | |- forall _, _ => intro
  | |- drawsFit (RRet _) => exact I
  | |- drawsFit (ret _) => exact I
  | |- drawsFit (lift _) => exact I
  | |- drawsFit (rbind (lift (chk _)) _) => let E := fresh "E" in apply fit_lift; intros ? E; apply chk_fits in E as [? E]
  | |- drawsFit (rbind (lift (judgeAssert _)) _) => let E := fresh "E" in apply fit_lift; intros ? E; apply assert_true in E
  | |- drawsFit (rbind (lift _) _) => apply fit_lift; intros ? _
  | |- drawsFit (rbind (rint _ _) _) => apply fit_rint_can
  | |- drawsFit (let (_, _) := ?p in _) => destruct p
  | |- drawsFit (if ?b then _ else _) => destruct b eqn:?
  | |- is_i64 ?z => assumption
  end.

(* ---- sequences ---- *)
Lemma len_fits : forall A (l : list A), Z.of_nat (length l) < two63 -> is_i64 (alen l).
Proof. intros A l H. unfold alen. mach; lia. Qed.
Lemma zero_fits : is_i64 0.
Proof. mach; lia. Qed.
#[local] Hint Resolve zero_fits len_fits : core.
Lemma fit_select : forall A (l : list A), Z.of_nat (length l) < two63 -> drawsFit (select l).
Proof. intros A l H. unfold select. fit; auto. Qed.
Lemma fit_rotate : forall A (l : list A), Z.of_nat (length l) < two63 -> drawsFit (rotate l).
Proof. intros A l H. unfold rotate. fit; auto. Qed.
Lemma fit_distinct : forall count lo hi, is_i64 lo -> drawsFit (distinct count lo hi).
Proof.
  intros count lo hi H. unfold distinct. fit. generalize (Z.to_nat count) 0 (@nil (Z * Z)) (@nil Z).
  induction n as [|n IH]; intros i used res; [exact I|]. cbn [distinctLoop]. fit. apply IH.
Qed.
Lemma fit_perm : forall count offset, is_i64 count -> drawsFit (perm count offset).
Proof.
  intros count offset H. unfold perm. fit. apply drawsFit_shuffle. unfold rangeUp. rewrite zseq_length. mach; lia.
Qed.
Lemma accumulate_fits : forall l s n, is_i64 s -> accumulate l s = Ok n -> is_i64 n.
Proof.
  induction l as [|x l IH]; intros s n H E; cbn [accumulate] in E; [inv E; exact H|].
  destruct (chk (s + x)) as [r| | |] eqn:C; try discriminate. apply chk_fits in C as [_ C]. exact (IH _ _ C E).
Qed.
Lemma fit_permCycles : forall cycles offset, drawsFit (permCycles cycles offset).
Proof.
  intros cycles offset. unfold permCycles. apply fit_lift. intros n E. apply accumulate_fits in E; auto.
  apply fit_any; [apply fit_perm; exact E|]. fit.
Qed.
Lemma fit_permFix : forall count fix_ offset, is_i64 count -> drawsFit (permFix count fix_ offset).
Proof.
  intros count fix_ offset H. unfold permFix. apply fit_lift. intros u E. apply assert_true in E.
  apply fit_lift. intros [tmp res] E1. apply fit_any; [|fit]. apply drawsFit_shuffle.
  assert (K : forall xs t r t' r', fixLoop xs t r count offset = Ok (t', r') -> length t' = length t).
  { clear. induction xs as [|x xs IH]; intros t r t' r' E; cbn [fixLoop] in E; [inv E; reflexivity|].
    repeat match type of E with
    | bind ?o _ = _ => destruct o eqn:?; cbn [bind] in E; try discriminate
    end. apply IH in E. rewrite E.
    match goal with K : aset t _ _ = Ok _ |- _ => unfold aset in K; destruct (_ && _) in K; [|discriminate]; inv K end.
    rewrite ?upd_length. reflexivity. }
  apply K in E1. rewrite E1. unfold rangeUp. rewrite zseq_length. mach; lia.
Qed.
Lemma fit_multiple : forall count lo hi, is_i64 lo -> is_i64 hi -> drawsFit (multiple count lo hi).
Proof.
  intros count lo hi H1 H2. unfold multiple. fit. generalize (Z.to_nat count).
  induction n as [|n IH]; [exact I|]. cbn [multipleLoop]. fit. apply fit_any; [exact IH|fit].
Qed.
Lemma fit_increasing : forall count lo hi, is_i64 lo -> drawsFit (increasing count lo hi).
Proof. intros. apply fit_any; [apply fit_distinct; auto|fit]. Qed.
Lemma fit_decreasing : forall count lo hi, is_i64 lo -> drawsFit (decreasing count lo hi).
Proof. intros. apply fit_any; [apply fit_distinct; auto|fit]. Qed.
Lemma fit_nonDecreasing : forall count lo hi, is_i64 lo -> is_i64 hi -> drawsFit (nonDecreasing count lo hi).
Proof. intros. apply fit_any; [apply fit_multiple; auto|fit]. Qed.
Lemma fit_nonIncreasing : forall count lo hi, is_i64 lo -> is_i64 hi -> drawsFit (nonIncreasing count lo hi).
Proof. intros. apply fit_any; [apply fit_multiple; auto|fit]. Qed.
Lemma fit_partition : forall n k min, drawsFit (partition n k min).
Proof.
  intros n k min. unfold partition. fit. apply fit_any; [apply fit_increasing; mach; lia|fit].
Qed.
Lemma fit_rstring : forall A n (alphabet : list A), Z.of_nat (length alphabet) < two63 -> drawsFit (rstring n alphabet).
Proof.
  intros A n l H. unfold rstring. fit. generalize (Z.to_nat n).
  induction n0 as [|k IH]; [exact I|]. cbn [stringLoop]. apply fit_any; [apply fit_select; exact H|].
  fit. apply fit_any; [exact IH|fit].
Qed.
Lemma fit_bracket : forall n, drawsFit (bracketSequence n).
Proof.
  intros n. unfold bracketSequence. fit.
  enough (K : forall k i d, drawsFit (bracketLoop k n i d)) by apply K.
  induction k as [|k IH]; intros i d; [exact I|]. cbn [bracketLoop]. fit; auto; apply fit_any; auto; fit.
Qed.
Lemma quot_fits : forall z, is_i64 z -> is_i64 (Z.quot z 2).
Proof. intros z H. mach. dlia. Qed.
Lemma fit_prime : forall lo hi, is_i64 lo -> is_i64 hi -> drawsFit (randomPrime lo hi).
Proof.
  intros lo hi H1 H2. unfold randomPrime. fit.
  assert (L : is_i64 (if lo <=? 2 then 0 else Z.quot lo 2)) by (destruct (lo <=? 2); [mach; lia|apply quot_fits; exact H1]).
  pose proof (quot_fits hi H2) as U. revert L U.
  generalize (if lo <=? 2 then 0 else Z.quot lo 2) (Z.quot hi 2). intros l u L U.
  apply fit_any; [|intros [|]; fit]. destruct (l <? u); [|exact I].
  generalize (Z.to_nat 6400) 0. induction n as [|n IH]; intros i; [exact I|]. cbn [primeLoop]. fit. apply IH.
Qed.
Lemma fit_discrete : forall ws, is_i64 (last (prefixSum ws 0) 0) -> drawsFit (discrete ws).
Proof. intros ws H. unfold discrete. fit; auto. Qed.

(* ---- real numbers ---- *)
Lemma fit_exponent : forall fuel e, drawsFit (exponentLoop fuel e).
Proof. induction fuel as [|f IH]; intros e; [exact I|]. cbn [exponentLoop]. apply fit_any; [apply fit_word|]. fit. apply IH. Qed.
Lemma fit_real : forall fuel, drawsFit (randomReal fuel).
Proof.
  intros fuel. unfold randomReal. apply fit_any; [apply fit_word|]. intro w. apply fit_any; [apply fit_exponent|fit].
Qed.
Ltac fitr := repeat (fit; match goal with |- drawsFit (rbind (randomReal _) _) => apply fit_any; [apply fit_real|] | _ => idtac end; fit).
Lemma fit_realBelow : forall fuel u, drawsFit (realBelow fuel u).
Proof.
  intros fuel u. unfold realBelow. fit. generalize fuel at 1. induction fuel0 as [|f IH]; [exact I|].
  cbn [realBelowLoop]. apply fit_any; [apply fit_real|]. fit. exact IH.
Qed.
Lemma fit_realIn : forall fuel l u, drawsFit (realIn fuel l u).
Proof.
  intros fuel l u. unfold realIn. fit. generalize fuel at 1. induction fuel0 as [|f IH]; [exact I|].
  cbn [realInLoop]. apply fit_any; [apply fit_real|]. fit. exact IH.
Qed.
Section Libm.
  Variable sqrt sin cos log log1p log2 exp2 lgamma : real -> real.
  Variable lgammaZ : Z -> real.
  Variable unspecified : real -> Z.
  Ltac rr := apply fit_any; [apply fit_real|intro].
  Lemma fit_normal : forall fuel mean stddev, drawsFit (normal sqrt cos log fuel mean stddev).
  Proof. intros. unfold normal. fit. rr. rr. fit. Qed.
  Lemma fit_normalIn : forall fuel fuel' l u mean stddev, drawsFit (normalIn sqrt sin cos log fuel fuel' l u mean stddev).
  Proof. intros. unfold normalIn. fit. clear. induction fuel as [|f IH]; [exact I|]. cbn [normalLoop]. rr. rr. cbv zeta. fit. exact IH. Qed.
  Lemma fit_exponential : forall fuel lambda, drawsFit (exponential log fuel lambda).
  Proof. intros. unfold exponential. fit. rr. fit. Qed.
  Lemma fit_exponentialIn : forall fuel fuel' l u lambda, drawsFit (exponentialIn log fuel fuel' l u lambda).
  Proof. intros. unfold exponentialIn. fit. clear. induction fuel as [|f IH]; [exact I|]. cbn [exponentialLoop]. rr. cbv zeta. fit. exact IH. Qed.
  Lemma fit_geometric : forall fuel p, drawsFit (geometric log log1p unspecified fuel p).
  Proof. intros. unfold geometric. fit. rr. fit. Qed.
  Lemma fit_geometricIn : forall fuel fuel' l u p, drawsFit (geometricIn log log1p unspecified fuel fuel' l u p).
  Proof. intros. unfold geometricIn. fit. clear. induction fuel as [|f IH]; [exact I|]. cbn [geometricLoop]. rr. fit. exact IH. Qed.
  Lemma fit_binomial : forall fuel fuel' n p, drawsFit (binomial sqrt log log1p lgamma lgammaZ unspecified fuel fuel' n p).
  Proof.
    intros. unfold binomial. fit. cbv zeta. fit.
    - match goal with |- drawsFit (bgLoop _ _ _ _ _ ?s ?lg _ _) => generalize s lg end. clear. intros s lg.
      generalize 0 at 1. generalize 0. induction fuel as [|f IH]; intros y r; [exact I|]. cbn [bgLoop]. rr. fit. apply IH.
    - clear. generalize (SFltb (lit 1 2) p) (if SFltb (rsub rone p) p then rsub rone p else p). clear p. intros s p.
      induction fuel as [|f IH]; [exact I|]. cbn [btrsLoop]. rr. cbv zeta. fit; [exact IH|]. rr. fit. exact IH.
  Qed.
  Lemma fit_binomialIn : forall fuel fuel' l u n p, drawsFit (binomialIn sqrt log log1p lgamma lgammaZ unspecified fuel fuel' l u n p).
  Proof.
    intros. unfold binomialIn. fit. clear. induction fuel as [|f IH]; [exact I|]. cbn [binomialLoop].
    apply fit_any; [apply fit_binomial|]. fit. exact IH.
  Qed.
  Lemma fit_maximum : forall fuel l u n, is_i64 l -> is_i64 u -> drawsFit (maximum log2 exp2 fuel l u n).
  Proof.
    intros fuel l u n Hl Hu. unfold maximum. fit; [|rr; fit].
    enough (K : forall k r, drawsFit (maxLoop k l u r)) by apply K.
    induction k as [|k IH]; intros r; [exact I|]. cbn [maxLoop]. fit. apply IH.
  Qed.
  Lemma fit_minimum : forall fuel l u n, drawsFit (minimum log2 exp2 fuel l u n).
  Proof. intros. unfold minimum. fit. apply fit_any; [apply fit_maximum; auto|fit]. Qed.
  Lemma fit_minmax : forall fuel l u n, is_i64 l -> is_i64 u -> drawsFit (minmax log2 exp2 fuel l u n).
  Proof. intros. unfold minmax. fit; [apply fit_maximum; auto|apply fit_minimum]. Qed.

  Lemma fit_randomGraph : forall E (d : E) dir n m, drawsFit (randomGraph d dir n m).
  Proof. intros. unfold randomGraph. fit. cbv zeta. apply fit_any; [apply fit_distinct; auto|]. fit. Qed.
  Lemma fit_randomGraphP : forall E (d : E) dir fuel fuel' n p, drawsFit (randomGraphP sqrt log log1p lgamma lgammaZ unspecified E d dir fuel fuel' n p).
  Proof. intros. unfold randomGraphP. fit. apply fit_any; [apply fit_binomial|]. intro. apply fit_randomGraph. Qed.
End Libm.
Lemma fit_growing : forall E (d : E) fuel n p, drawsFit (randomGrowingGraph E d fuel n p).
Proof.
  intros. unfold randomGrowingGraph. fit. generalize (Z.to_nat n) 0 a0. induction n0 as [|k IH]; intros i g; [exact I|].
  cbn [growLoop]. apply fit_any; [apply fit_realIn|]. fit. apply fit_any; [apply fit_distinct; auto|]. fit. apply IH.
Qed.
Lemma fit_bipartite : forall E (d : E) dir n m k, drawsFit (randomBipartite d dir n m k).
Proof. intros. unfold randomBipartite. fit. apply fit_any; [apply fit_distinct; auto|]. fit. Qed.
Lemma fit_tree : forall E (d : E) n, is_i64 n -> drawsFit (randomTree d n).
Proof.
  intros E d n H. unfold randomTree. fit. apply fit_any; [|fit].
  generalize (Z.to_nat (n - 2)). induction n0 as [|k IH]; [exact I|]. cbn [codes]. fit; auto. apply fit_any; [exact IH|fit].
Qed.
Lemma fit_treeDir : forall E (d : E) n, is_i64 n -> drawsFit (randomTreeDir d n).
Proof. intros E d n H. unfold randomTreeDir. apply fit_any; [apply fit_tree; exact H|]. fit. Qed.
Lemma fit_flipAll : forall E dir (h : edge E -> outcome (edge E)) l, drawsFit (flipAll dir h l).
Proof.
  intros E dir h l. induction l as [|e l IH]; [exact I|]. cbn [flipAll]. apply fit_any.
  - destruct dir; [exact I|]. unfold rbit. fit; auto; mach; lia.
  - fit. apply fit_any; [exact IH|fit].
Qed.
Lemma fit_permutateEdges : forall E dir (g : graph E), edgeCount g < two63 -> drawsFit (permutateEdges dir g).
Proof.
  intros E dir g H. unfold permutateEdges. apply fit_any; [apply drawsFit_shuffle; exact H|]. intro.
  apply fit_any; [apply fit_flipAll|fit].
Qed.
Lemma fit_permutateWith : forall E dir (g : graph E) p, edgeCount g < two63 -> drawsFit (permutateWith dir g p).
Proof.
  intros E dir g p H. unfold permutateWith. fit. apply fit_any; [apply drawsFit_shuffle; exact H|]. intro.
  apply fit_any; [apply fit_flipAll|fit].
Qed.
Lemma fit_permutate : forall E dir (g : graph E), nodeCount g < two63 -> edgeCount g < two63 -> drawsFit (permutate dir g).
Proof.
  intros E dir g H1 H2. unfold permutate. apply fit_any; [apply drawsFit_shuffle; rewrite zseq_length; exact H1|].
  intro. apply fit_permutateWith. exact H2.
Qed.
Lemma fit_subgraph : forall E dir (g : graph E) m, drawsFit (subgraph dir g m).
Proof. intros E dir g m. unfold subgraph. fit. apply fit_any; [apply fit_distinct; auto|fit]. Qed.
