From Coq Require Import String.
From Verif Require Import Base Tac UtilModel UtilSpec.
From Coq Require Import ZArith List Lia Sorted Permutation.
Import ListNotations.
Open Scope nat_scope.
Open Scope list_scope.

(* ---- append ---- *)
Section Append.
  Variable A : Type.
  Implicit Types m : memory A.
  Lemma store_content : forall m i c k, i < length m -> content (store m i c) k = if Nat.eqb k i then c else content m k.
  Proof.
    intros m i c k L. unfold content, store. destruct (Nat.eqb_spec k i) as [->|N].
    - rewrite app_nth2; rewrite firstn_length_le by lia; [rewrite Nat.sub_diag; reflexivity|lia].
    - destruct (Nat.lt_ge_cases k i).
      + rewrite app_nth1 by (rewrite firstn_length_le; lia). rewrite <- (firstn_skipn i m) at 2. rewrite app_nth1; auto. rewrite firstn_length_le; lia.
      + rewrite app_nth2; rewrite firstn_length_le by lia; [|lia]. destruct (k - i) as [|d] eqn:E; [lia|]. cbn [nth].
        replace k with (S i + d) by lia. rewrite <- (firstn_skipn (S i) m) at 2. rewrite app_nth2; rewrite firstn_length_le by lia; [|lia]. f_equal. lia.
  Qed.
  Lemma store_length : forall m i c, i < length m -> length (store m i c) = length m.
  Proof. intros m i c L. unfold store. rewrite app_length, firstn_length_le by lia. cbn [length]. rewrite skipn_length. lia. Qed.
  Lemma emplace_all : forall es m i, i < length m -> length (emplaceAll m i es) = length m /\ forall k, content (emplaceAll m i es) k = if Nat.eqb k i then content m i ++ es else content m k.
  Proof.
    induction es as [|e es IH]; intros m i L; cbn [emplaceAll].
    - split; auto. intros k. destruct (Nat.eqb_spec k i) as [->|]; auto. rewrite app_nil_r. auto.
    - assert (SL := store_length m i (content m i ++ [e]) L). destruct (IH (store m i (content m i ++ [e])) i ltac:(lia)) as (B & C). split; [lia|].
      intros k. rewrite C, !store_content by auto. rewrite Nat.eqb_refl. destruct (Nat.eqb k i); auto. rewrite <- app_assoc. reflexivity.
  Qed.
  Lemma append_ok : forall m i j, i < length m -> j < length m -> exists m', append m i j = Ok m' /\ length m' = length m /\
    nth_error m' i = Some (content m i ++ content m j) /\ forall k, k <> i -> nth_error m' k = nth_error m k.
  Proof.
    assert (NE : forall m k, k < length m -> nth_error m k = Some (content m k)). { intros m k L. unfold content. apply nth_error_nth'. auto. }
    assert (E : forall m i j, i < length m -> i <> j -> exists m', emplaceFrom m i j = Ok m' /\ length m' = length m /\
      forall k, content m' k = if Nat.eqb k i then content m i ++ content m j else content m k).
    { intros m i j L N. unfold emplaceFrom. destruct (content m j) as [|e es] eqn:C.
      - exists m. repeat split; auto. intros k. destruct (Nat.eqb_spec k i) as [->|]; auto. rewrite app_nil_r. auto.
      - destruct (Nat.eqb_spec i j) as [|_]; [contradiction|]. exists (emplaceAll m i (e :: es)). destruct (emplace_all (e :: es) m i L). auto. }
    intros m i j L K. unfold append. destruct (Nat.eqb_spec i j) as [<-|N]; cbn [negb].
    - destruct (E (m ++ [content m i]) i (length m)) as (m' & -> & B & C); [rewrite app_length; cbn; lia|lia|]. cbn [bind]. rewrite app_length in B; cbn [length] in B.
      assert (CM : forall k, k < length m -> content (m ++ [content m i]) k = content m k). { intros k Lk. unfold content at 1. rewrite app_nth1; auto. }
      assert (CL : content (m ++ [content m i]) (length m) = content m i). { unfold content at 1. rewrite app_nth2, Nat.sub_diag; auto. }
      eexists. split; [reflexivity|]. replace (length m' - 1) with (length m) by lia. assert (FL : length (firstn (length m) m') = length m) by (rewrite firstn_length_le; lia). split; [auto|].
      assert (NF : forall k, k < length m -> nth_error (firstn (length m) m') k = nth_error m' k). { intros k Lk. rewrite <- (firstn_skipn (length m) m') at 2. rewrite nth_error_app1; auto. lia. }
      split.
      + rewrite NF, NE, C, Nat.eqb_refl, CM, CL by lia. reflexivity.
      + intros k Nk. destruct (Nat.lt_ge_cases k (length m)) as [Lk|Gk].
        * rewrite NF, !NE, C by lia. destruct (Nat.eqb_spec k i); [contradiction|]. rewrite CM; auto.
        * rewrite !(proj2 (nth_error_None _ _)) by lia. reflexivity.
    - destruct (E m i j L N) as (m' & -> & B & C). exists m'. repeat split; auto.
      + rewrite NE, C, Nat.eqb_refl by lia. reflexivity.
      + intros k Nk. destruct (Nat.lt_ge_cases k (length m)) as [Lk|Gk].
        * rewrite !NE, C by lia. destruct (Nat.eqb_spec k i); [contradiction|]. auto.
        * rewrite !(proj2 (nth_error_None _ _)) by lia. reflexivity.
  Qed.
End Append.

(* ---- flatten ---- *)
Section Flatten.
  Variable A : Type.
  Implicit Types c : nested A.
  (* the paths of length k into c, in order *)
  Fixpoint paths (k : nat) c : list (list nat) :=
    match k with
    | O => [[]]
    | S k => match c with Leaf _ => [] | Nest l => concat (map (fun iv => map (cons (fst iv)) (paths k (snd iv))) (List.combine (seq 0 (length l)) l)) end
    end.
  Lemma flat_append : forall k c res, flatAppend k c res = res ++ flatten k c.
  Proof.
    unfold flatten. induction k as [|k IH]; intros c res; [reflexivity|]. cbn [flatAppend]. destruct c as [a|l]; [rewrite app_nil_r; auto|].
    revert res. induction l as [|v l IL]; intros res; cbn [fold_left]; [rewrite app_nil_r; auto|].
    rewrite IL. rewrite (IH v res), (IL (flatAppend k v [])), app_assoc. reflexivity.
  Qed.
  Lemma flatten_nest : forall k l, flatten (S k) (Nest l) = concat (map (flatten k) l : list (list (nested A))).
  Proof.
    intros k l. unfold flatten at 1. cbn [flatAppend]. assert (G : forall res, fold_left (fun res v => flatAppend k v res) l res = res ++ concat (map (flatten k) l)).
    { induction l as [|v l IL]; intros res; cbn [fold_left map concat]; [rewrite app_nil_r; auto|]. rewrite IL, flat_append, app_assoc. reflexivity. }
    apply G.
  Qed.
  Lemma paths_spec : forall k c p, In p (paths k c) <-> length p = k /\ part c p <> None.
  Proof.
    induction k as [|k IH]; intros c p; cbn [paths].
    - split; [intros [<-|[]]; split; auto; discriminate|]. intros (L & _). destruct p; [left; auto|discriminate].
    - destruct c as [a|l].
      + split; [intros []|]. intros (L & H). destruct p; [discriminate|]. cbn in H. congruence.
      + rewrite in_concat. split.
        * intros (x & I & J). apply in_map_iff in I as ((i, v) & <- & I). cbn in J. apply in_map_iff in J as (q & <- & J). apply IH in J as (L & H). split; [cbn; lia|].
          cbn [part]. assert (E : nth_error l i = Some v); [|rewrite E; auto].
          apply In_nth_error in I as (n & I). assert (E1 := f_equal (option_map fst) I). assert (E2 := f_equal (option_map snd) I).
          assert (Ln : n < length l). { assert (X : n < length (List.combine (seq 0 (length l)) l)) by (apply nth_error_Some; congruence). rewrite combine_length, seq_length in X. lia. }
          rewrite <- nth_error_map in E1, E2. replace (map fst (List.combine (seq 0 (length l)) l)) with (seq 0 (length l)) in E1.
          2:{ clear. generalize 0. induction l as [|x l IL]; intros s; cbn; auto. f_equal. apply IL. }
          replace (map snd (List.combine (seq 0 (length l)) l)) with l in E2.
          2:{ clear. generalize 0. induction l as [|x l IL]; intros s; cbn; auto. f_equal. apply IL. }
          cbn in E1, E2. rewrite (nth_error_nth' _ 0) in E1 by (rewrite seq_length; auto). rewrite seq_nth in E1 by auto. cbn in E1. congruence.
        * intros (L & H). destruct p as [|i p]; [discriminate|]. cbn [part] in H. destruct (nth_error l i) as [v|] eqn:E; [|congruence].
          exists (map (cons i) (paths k v)). split.
          -- apply in_map_iff. exists (i, v). split; auto. assert (G : forall s, nth_error l i = Some v -> In (s + i, v) (List.combine (seq s (length l)) l)).
             { clear. revert i. induction l as [|x l IL]; intros i s E; [destruct i; discriminate|]. destruct i as [|i]; cbn in E |- *.
               - left. injection E as ->. f_equal. lia.
               - right. replace (s + S i) with (S s + i) by lia. apply IL; auto. }
             apply (G 0 E).
          -- apply in_map. apply IH. cbn in L. split; [lia|auto].
  Qed.
  Lemma paths_sorted : forall k c, StronglySorted before (paths k c).
  Proof.
    induction k as [|k IH]; intros c; cbn [paths]; [constructor; constructor|]. destruct c as [a|l]; [constructor|]. generalize 0. induction l as [|v l IL]; intros s; cbn [length seq List.combine map concat]; [constructor|].
    assert (SA : forall (R : list nat -> list nat -> Prop) x y, StronglySorted R x -> StronglySorted R y -> (forall a b, In a x -> In b y -> R a b) -> StronglySorted R (x ++ y)).
    { clear. intros R x y X Y H. induction X as [|a x X IX F]; cbn; auto. constructor; [apply IX; intros; apply H; cbn; auto|].
      apply Forall_app. split; auto. apply Forall_forall. intros b B. apply H; cbn; auto. }
    apply SA; [|apply IL|].
    - cbn. assert (X := IH v). induction X as [|a x X IX F]; cbn; constructor; auto. apply Forall_forall. intros b B. apply in_map_iff in B as (b' & <- & B). rewrite Forall_forall in F. cbn. right. split; auto.
    - intros a b I J. cbn in I. apply in_map_iff in I as (a' & <- & I). apply in_concat in J as (x & X & J). apply in_map_iff in X as ((i, w) & <- & X). cbn in J. apply in_map_iff in J as (b' & <- & J).
      apply in_combine_l in X. apply in_seq in X. cbn. left. lia.
  Qed.
  Lemma flatten_paths : forall k c, map (part c) (paths k c) = map Some (flatten k c).
  Proof.
    induction k as [|k IH]; intros c; [reflexivity|]. destruct c as [a|l]; [reflexivity|]. rewrite flatten_nest. cbn [paths].
    rewrite !concat_map. f_equal. rewrite !map_map.
    assert (G : forall s pre, length pre = s -> map (fun x : nat * nested A => map (part (Nest (pre ++ l))) (map (cons (fst x)) (paths k (snd x)))) (List.combine (seq s (length l)) l) = map (fun x => map Some (flatten k x)) l).
    { induction l as [|v l IL]; intros s pre L; [reflexivity|]. cbn [length seq List.combine map fst snd]. f_equal.
      - rewrite map_map. rewrite <- IH. apply map_ext. intros p. cbn [part]. rewrite nth_error_app2 by lia. replace (s - length pre) with 0 by lia. reflexivity.
      - rewrite <- (IL (S s) (pre ++ [v])) by (rewrite app_length; cbn; lia). rewrite <- app_assoc. reflexivity. }
    apply (G 0 []). reflexivity.
  Qed.
  Lemma flatten_ok : forall k c, exists ps, (forall p, In p ps <-> length p = k /\ part c p <> None) /\ StronglySorted before ps /\ map (part c) ps = map Some (flatten k c).
  Proof. intros k c. exists (paths k c). split; [apply paths_spec|]. split; [apply paths_sorted|apply flatten_paths]. Qed.
End Flatten.

(* ---- queues ---- *)
Section Queues.
  Variable A : Type.
  Variable pick : (A -> A -> bool) -> list A -> nat.
  Variable cmp : A -> A -> bool.
  Lemma remove_perm : forall q i (a : A), nth_error q i = Some a -> Permutation q (a :: removeAt i q).
  Proof. intros q i a H. unfold removeAt. destruct (nth_error_split q i H) as (x & y & -> & <-). rewrite firstn_app, firstn_all, Nat.sub_diag. cbn [firstn]. rewrite app_nil_r.
    replace (skipn (S (length x)) (x ++ a :: y)) with y; [symmetry; apply Permutation_middle|]. rewrite skipn_app. rewrite skipn_all2 by lia. replace (S (length x) - length x) with 1 by lia. reflexivity. Qed.
  Lemma run_app : forall ops1 ops2 q, queueRun pick cmp q (ops1 ++ ops2) = let! (o1, q1) := queueRun pick cmp q ops1 in let! (o2, q2) := queueRun pick cmp q1 ops2 in Ok (o1 ++ o2, q2).
  Proof.
    induction ops1 as [|[a|] ops1 IH]; intros ops2 q.
    - cbn [app queueRun bind]. destruct (queueRun pick cmp q ops2) as [(o2, q2)| | |]; reflexivity.
    - cbn [app queueRun]. apply IH.
    - cbn [app queueRun]. destruct (nth_error q (pick cmp q)) as [a|]; [|reflexivity]. rewrite IH.
      destruct (queueRun pick cmp (removeAt (pick cmp q) q) ops1) as [(o1, q1)| | |]; cbn [bind]; auto. destruct (queueRun pick cmp q1 ops2) as [(o2, q2)| | |]; reflexivity.
  Qed.
  Lemma run_perm : forall ops q out q', queueRun pick cmp q ops = Ok (out, q') -> Permutation (q ++ pushed ops) (out ++ q').
  Proof.
    induction ops as [|[a|] ops IH]; intros q out q' H; cbn [queueRun pushed] in *.
    - injection H as <- <-. rewrite app_nil_r. auto.
    - apply IH in H. rewrite <- H, <- app_assoc. reflexivity.
    - destruct (nth_error q (pick cmp q)) as [a|] eqn:N; [|discriminate]. destruct (queueRun pick cmp (removeAt (pick cmp q) q) ops) as [(o, r)| | |] eqn:E; try discriminate. cbn in H. injection H as <- <-.
      apply IH in E. rewrite (remove_perm _ _ _ N). cbn. constructor. auto.
  Qed.
  Lemma run_ok : tops cmp pick -> forall ops q, enough (length q) ops <-> exists r, queueRun pick cmp q ops = Ok r.
  Proof.
    intros T. induction ops as [|[a|] ops IH]; intros q; cbn [enough queueRun].
    - split; eauto.
    - rewrite <- IH, app_length. cbn. rewrite Nat.add_1_r. tauto.
    - destruct q as [|x q]; cbn [length].
      + split; [tauto|]. intros (r & H). destruct (pick cmp []); discriminate.
      + destruct (T (x :: q) ltac:(discriminate)) as (a & N & _). rewrite N. assert (P := remove_perm _ _ _ N). apply Permutation_length in P. cbn [length] in P. injection P as P. rewrite P, IH.
        split; intros (r & H); [rewrite H; destruct r; eexists; reflexivity|]. destruct (queueRun pick cmp (removeAt (pick cmp (x :: q)) (x :: q)) ops) as [r'| | |]; try discriminate. eauto.
  Qed.
  (* a pop *)
  Lemma run_pop : tops cmp pick -> forall ops out q, queueRun pick cmp [] ops = Ok (out, q) -> q <> [] ->
    exists a q', queueRun pick cmp [] (ops ++ [Pop]) = Ok (out ++ [a], q') /\ Permutation q (a :: q') /\ forall b, In b q -> cmp a b = false.
  Proof.
    intros T ops out q H N. rewrite run_app, H. cbn [bind queueRun]. destruct (T q N) as (a & E & F). rewrite E. cbn. exists a, (removeAt (pick cmp q) q). split; auto. split; auto. apply remove_perm; auto.
  Qed.
  Lemma run_drain : tops cmp pick -> forall q, exists out, queueRun pick cmp q (repeat Pop (length q)) = Ok (out, []) /\ Permutation q out /\ StronglySorted (fun a b => cmp a b = false) out.
  Proof.
    intros T q. remember (length q) as n eqn:L. revert q L. induction n as [|n IH]; intros q L.
    - destruct q; [|discriminate]. exists []. repeat split; auto. constructor.
    - destruct (T q ltac:(intros ->; discriminate)) as (a & E & F). assert (P := remove_perm _ _ _ E). assert (LP := Permutation_length P). cbn in LP.
      destruct (IH (removeAt (pick cmp q) q) ltac:(lia)) as (out & R & Q & S). exists (a :: out). cbn [repeat queueRun]. rewrite E, R. cbn. repeat split; auto.
      + rewrite P. constructor. auto.
      + constructor; auto. apply Forall_forall. intros b B. apply F. rewrite P. right. rewrite Q. auto.
  Qed.
  Lemma run_pushes : forall l q, queueRun pick cmp q (map Push l) = Ok ([], q ++ l).
  Proof. induction l as [|a l IH]; intros q; cbn [map queueRun]; [rewrite app_nil_r; auto|]. rewrite IH, <- app_assoc. reflexivity. Qed.
  Lemma queue_sorts : tops cmp pick -> forall l, exists out, queueRun pick cmp [] (map Push l ++ repeat Pop (length l)) = Ok (out, []) /\ Permutation l out /\ StronglySorted (fun a b => cmp a b = false) out.
  Proof. intros T l. destruct (run_drain T l) as (out & R & P & S). exists out. split; auto. rewrite run_app, run_pushes. cbn [bind app]. rewrite R. reflexivity. Qed.
End Queues.
Lemma min_queue_ok : forall (A : Type) (less : A -> A -> bool) pick, tops (fun a b => less b a) pick -> forall ops,
  (enough 0 ops <-> exists r, minQueue less pick ops = Ok r) /\
  forall out q, minQueue less pick ops = Ok (out, q) -> Permutation (pushed ops) (out ++ q) /\
    (q <> [] -> exists a q', minQueue less pick (ops ++ [Pop]) = Ok (out ++ [a], q') /\ Permutation q (a :: q') /\ forall b, In b q -> less b a = false).
Proof.
  intros A less pick T ops. unfold minQueue. split; [apply (run_ok A pick (invert less) T ops [])|]. intros out q H. split; [apply run_perm in H; auto|].
  apply (run_pop A pick (invert less) T ops out q H).
Qed.
Lemma max_queue_ok : forall (A : Type) (less : A -> A -> bool) pick, tops less pick -> forall ops,
  (enough 0 ops <-> exists r, maxQueue less pick ops = Ok r) /\
  forall out q, maxQueue less pick ops = Ok (out, q) -> Permutation (pushed ops) (out ++ q) /\
    (q <> [] -> exists a q', maxQueue less pick (ops ++ [Pop]) = Ok (out ++ [a], q') /\ Permutation q (a :: q') /\ forall b, In b q -> less a b = false).
Proof.
  intros A less pick T ops. unfold maxQueue. split; [apply (run_ok A pick less T ops [])|]. intros out q H. split; [apply run_perm in H; auto|].
  apply (run_pop A pick less T ops out q H).
Qed.
Lemma queues_sort : forall (A : Type) (less : A -> A -> bool) pick l,
  (tops (fun a b => less b a) pick -> exists out, minQueue less pick (map Push l ++ repeat Pop (length l)) = Ok (out, []) /\ Permutation l out /\ StronglySorted (fun a b => less b a = false) out) /\
  (tops less pick -> exists out, maxQueue less pick (map Push l ++ repeat Pop (length l)) = Ok (out, []) /\ Permutation l out /\ StronglySorted (fun a b => less a b = false) out).
Proof. intros A less pick l. split; intros T; [apply (queue_sorts A pick (invert less) T l)|apply (queue_sorts A pick less T l)]. Qed.
(* the first position that nothing beats *)
Definition topAt {A} (cmp : A -> A -> bool) (q : list A) : nat :=
  let fix go (l : list A) (i : nat) := match l with [] => 0 | x :: l => if forallb (fun b => negb (cmp x b)) q then i else go l (S i) end in go q 0.
Lemma top_exists : forall A : Type, exists pick : (A -> A -> bool) -> list A -> nat, forall cmp,
  (forall a, cmp a a = false) -> (forall a b c, cmp a b = true -> cmp b c = true -> cmp a c = true) -> tops cmp pick.
Proof.
  intros A. exists topAt. intros cmp IR TR q N.
  assert (EX : exists x, In x q /\ forall b, In b q -> cmp x b = false).
  { induction q as [|x q IH]; [congruence|]. destruct q as [|y q].
    - exists x. split; [left; auto|]. intros b [<-|[]]. auto.
    - destruct (IH ltac:(discriminate)) as (m & I & M). destruct (cmp m x) eqn:E.
      + exists x. split; [left; auto|]. intros b [<-|B]; auto. destruct (cmp x b) eqn:F; auto. rewrite <- (M b B). symmetry. eapply TR; eauto.
      + exists m. split; [right; auto|]. intros b [<-|B]; auto. }
  destruct EX as (x & I & M). unfold topAt. set (good := fun x => forallb (fun b => negb (cmp x b)) q).
  assert (GX : good x = true). { apply forallb_forall. intros b B. rewrite (M b B). auto. }
  assert (GO : forall l i, In x l -> exists d a, (fix go (l : list A) (i : nat) := match l with [] => 0 | x :: l => if good x then i else go l (S i) end) l i = i + d /\ nth_error l d = Some a /\ good a = true).
  { induction l as [|y l IL]; intros i J; [destruct J|]. destruct (good y) eqn:G.
    - exists 0, y. split; [lia|]. auto.
    - destruct J as [->|J]; [congruence|]. destruct (IL (S i) J) as (d & a & E & F & H). exists (S d), a. split; [rewrite E; lia|]. auto. }
  destruct (GO q 0 I) as (d & a & E & F & H). exists a. split; [change (nth_error q ((fix go (l : list A) (i : nat) := match l with [] => 0 | x :: l => if good x then i else go l (S i) end) q 0) = Some a); rewrite E; exact F|].
  intros b B. unfold good in H. rewrite forallb_forall in H. apply H in B. destruct (cmp a b); auto; discriminate.
Qed.
Lemma lengths_ok : forall (A : Type) (a b : list A), (shorter a b = true <-> (length a < length b)%nat) /\ longer a b = shorter b a.
Proof. intros A a b. split; [apply Nat.ltb_lt|reflexivity]. Qed.
