(* javaSortHack.cpp below 47 values: each text with the same probability. *)
From Coq Require Import String Permutation QArith.
From Verif Require Import Base Tac RndModel RndLemmas RandSpec FloatModel InputSpec InputModel InputClient InputProofs InputProofs2 InputProofs3 InputProofs4 ArgsModel ArgsSpec ArgsClient InitModel InitSpec InitProofs OutModel OutSpec OutProofs PipeModel PipeSpec PipeProofs PipeProofs2
  HackModel HackProofs HackProofs4 ExampleProofs2 GenExSpec GenExProofs ArchModel ArchSpec ArchProofs.
From Verif Require PassModel.
Open Scope Z_scope.

Lemma perm_len : forall mi n q, 0 <= n -> Permutation (zseq mi (Z.to_nat n)) q -> alen q = n /\ Forall (fun x => mi <= x < mi + n) q.
Proof.
  intros mi n q N P. split.
  - apply Permutation_length in P. rewrite zs_len in P. unfold alen. lia.
  - apply Forall_forall. intros x I. apply (Permutation_in x (Permutation_sym P)) in I. apply zs_in in I. lia.
Qed.
Lemma range_inj : forall mi n xs ys, 0 <= n -> is_i64 mi -> is_i64 (mi + n) -> alen xs = n -> alen ys = n -> Forall (fun x => mi <= x < mi + n) xs -> Forall (fun x => mi <= x < mi + n) ys ->
  numbersText xs = numbersText ys -> xs = ys.
Proof.
  intros mi n xs ys N IM IN L L' F F' E. unfold numbersText in E. rewrite L, L' in E. apply app_inv_head in E. injection E as E.
  set (c := mkCfg true true 0 S754_nan S754_nan).
  assert (R : forall zs, alen zs = n -> Forall (fun x => mi <= x < mi + n) zs -> integerFile c mi (mi + n) n 32 (joined 32 (map PassModel.showInteger zs) ++ [10]) = Ret zs []).
  { intros zs LZ FZ. apply integerFile_spec; auto. split; auto. assert (FZ' : Forall (fun x => is_i64 x /\ mi <= x < mi + n) zs) by (eapply Forall_impl; [|exact FZ]; cbn; intros x X; split; auto; mach; lia).
    split; auto. exists (map PassModel.showInteger zs). split; auto. clear - FZ'. induction FZ' as [|x zs (I & _) FZ IH]; constructor; auto. apply show_decimal; auto. }
  pose proof (R xs L F) as A. pose proof (R ys L' F') as B. rewrite E in A. rewrite A in B. inversion B. auto.
Qed.
Lemma hack_main_uniform : forall parse fuel args n mi q, ready parse args start -> optionIs args (text "--n") 100000 n -> optionIs args (text "--min") 1 mi ->
  0 <= n < 47 -> is_i64 (mi + n) -> Permutation (zseq mi (Z.to_nat n)) q ->
  (Pr (hackMain parse (S fuel) args) (resultIs (list_eq_dec Z.eq_dec) (numbersText q)) == 1 / inject_Z (zfact (Z.to_nat n)))%Q.
Proof.
  intros parse fuel args n mi q R O O' N I PQ. assert (IM : is_i64 mi) by (eapply option_i64; [|exact O']; mach; lia).
  destruct (tok tt) as (_ & _ & T & C & _). unfold hackMain.
  rewrite (front_ok parse args (chars "--min") 1 _ (fun n mi => let? data := HackedSort (S fuel) n mi in ret (PassModel.showInteger n ++ [10] ++ join (map IInt data) DEFAULT_SEPARATOR ++ [10])) n mi T C R O O').
  destruct (perm_len mi n q (proj1 N) PQ) as (LQ & FQ). rewrite <- (numbers_text n q LQ).
  rewrite (Pr_ret _ _ (list_eq_dec Z.eq_dec) _ _ (fun xs => PassModel.showInteger n ++ [10] ++ join (map IInt xs) DEFAULT_SEPARATOR ++ [10]) (Permutation (zseq mi (Z.to_nat n)))); auto.
  - apply below_uniform; auto.
  - apply below_perm; auto.
  - intros ys PY E. destruct (perm_len mi n ys (proj1 N) PY) as (LY & FY). rewrite !numbers_text in E by auto. eapply (range_inj mi n); eauto. lia.
Qed.
