(* C92: random programs on the words of the engine *)
From Coq Require Import QArith Permutation.
From Verif Require Import Tac RndModel RandIntModel RandSpec RandSeqModel EngineModel EngineSpec EngineProofs.
Open Scope Z_scope.

(* a run ends with a possible outcome, so everything proved of all draws holds *)
Theorem C92_support : forall A bits (m : rnd A) ws o rest, drawsFit m -> Forall is_u64 ws ->
  runOn bits m ws = Some (o, rest) ->
  can m o /\ (forall P, always m P -> P o) /\ exists pre, ws = pre ++ rest.
Proof. exact engine_support. Qed.
Print Assumptions C92_support.
Theorem C92_reach : forall A bits (m : rnd A) o, drawsFit m -> can m o ->
  exists ws, Forall is_u64 ws /\ runOn bits m ws = Some (o, []).
Proof. exact (fun A bits m => run_reach A bits m []). Qed.
Print Assumptions C92_reach.
(* the words left are not looked at *)
Theorem C92_more : forall A bits (m : rnd A) ws o rest more, drawsFit m -> Forall is_u64 ws ->
  runOn bits m ws = Some (o, rest) -> runOn bits m (ws ++ more) = Some (o, rest ++ more).
Proof. exact (fun A bits m => run_more A bits m []). Qed.
Print Assumptions C92_more.
Theorem C92_portable : forall A bits (m : rnd A) ws, drawsFit m -> Forall is_u64 ws ->
  runPortable bits m ws = runOn bits m ws.
Proof. exact (fun A bits m => run_portable A bits m []). Qed.
Print Assumptions C92_portable.
Example C92_run_ex : drawsFit (shuffle [5; 6; 7]) /\ Forall is_u64 [0; 2 ^ 63; 2 ^ 64 - 1; 77] /\
  runOn (fun _ => false) (shuffle [5; 6; 7]) [0; 2 ^ 63; 2 ^ 64 - 1; 77] = Some (Ok [5; 7; 6], [77]) /\
  runOn (fun _ => true) (shuffle [5; 6; 7]) [0; 2 ^ 63; 2 ^ 64 - 1; 77] = Some (Ok [7; 5; 6], [77]) /\
  runOn (fun _ => true) (shuffle [5; 6; 7]) [0; 2 ^ 63] = None.
Proof.
  split; [apply drawsFit_shuffle; reflexivity|]. split; [repeat (apply Forall_cons; [split; [discriminate|reflexivity]|]); apply Forall_nil|].
  vm_compute. repeat split; reflexivity.
Qed.

(* of all lists of n words the share that leads to p is at most the probability, and converges to it *)
Theorem C92_law : forall A bits (m : rnd A) p eps, drawsFit m -> (0 < eps)%Q ->
  exists N, forall n, (N <= n)%nat ->
    (Pr m p - eps <= share (runOn bits m) n p <= Pr m p)%Q.
Proof. exact engine_law. Qed.
Print Assumptions C92_law.
Theorem C92_ends : forall A bits (m : rnd A) eps, drawsFit m -> (0 < eps)%Q ->
  exists N, forall n, (N <= n)%nat -> (1 - eps <= share (runOn bits m) n (fun _ => true))%Q.
Proof. exact engine_ends. Qed.
Print Assumptions C92_ends.
Theorem C92_shuffle : forall A (dec : forall x y : A, {x = y} + {x <> y}) bits (l q : list A) eps,
  NoDup l -> Permutation l q -> Z.of_nat (length l) < two63 -> (0 < eps)%Q ->
  exists N, forall n, (N <= n)%nat ->
    (1 / inject_Z (zfact (length l)) - eps <= share (runOn bits (shuffle l)) n (resultIs (list_eq_dec dec) q)
     <= 1 / inject_Z (zfact (length l)))%Q.
Proof. exact shuffle_on_words. Qed.
Print Assumptions C92_shuffle.
Example C92_law_ex : drawsFit (let? x := rint (-3) 4 in let? y := rint 0 two64 in ret (x + y)) /\
  (0 < 1 # 1000)%Q /\ NoDup [5; 6; 7] /\ Permutation [5; 6; 7] [6; 7; 5].
Proof.
  split.
  - simpl. repeat split; try lia; left; split; unfold is_i64; vm_compute; split; discriminate.
  - split; [reflexivity|]. split.
    + repeat constructor; simpl; intuition congruence.
    + apply (Permutation_cons_app [6; 7] [] 5). apply Permutation_refl.
Qed.

(* bounds that fit stay so in programs made of others *)
Theorem C92_composed : forall A B (m : rnd A) (f : A -> rnd B),
  drawsFit m -> (forall a, can m (Ok a) -> drawsFit (f a)) -> drawsFit (rbind m f).
Proof. exact drawsFit_bind. Qed.
Print Assumptions C92_composed.
Theorem C92_fits : (forall lo hi, is_i64 lo -> is_i64 hi -> drawsFit (rint lo hi)) /\
  forall A (l : list A), Z.of_nat (length l) < two63 -> drawsFit (shuffle l).
Proof. exact (conj drawsFit_rint drawsFit_shuffle). Qed.
Print Assumptions C92_fits.
Example C92_fits_ex : is_i64 (-3) /\ is_i64 4 /\ Z.of_nat (length [5; 6; 7]) < two63.
Proof. unfold is_i64. vm_compute. intuition discriminate. Qed.
