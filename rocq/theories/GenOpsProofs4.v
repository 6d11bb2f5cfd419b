(* Powers and line graphs. *)
From Verif Require Import Base Tac RndModel RndLemmas GenModel GenSpec GenProofs GenProofs2 GenOpsModel GenOpsSpec GenProofs3 GenOpsProofs GenOpsProofs2.
From Coq Require Import Sorted.

Definition sget (seen : list bool) (c : Z) : bool := nth (Z.to_nat c) seen false.
Lemma sget_aget : forall seen c, 0 <= c < alen seen -> aget seen c = Ok (sget seen c).
Proof.
  intros seen c H. unfold aget, sget, alen in *. replace (c <? 0) with false by lia. rewrite (nth_error_nth' seen false) by lia. auto.
Qed.
Lemma sget_aset : forall seen c b, 0 <= c < alen seen -> exists seen', aset seen c b = Ok seen' /\ alen seen' = alen seen /\
  forall x, 0 <= x -> sget seen' x = if x =? c then b else sget seen x.
Proof.
  intros seen c b H. unfold alen in H. exists (upd seen (Z.to_nat c) b). unfold aset, alen. unfold alen. replace ((0 <=? c) && (c <? Z.of_nat (length seen))) with true by lia.
  split; auto. split; [rewrite upd_length; auto|]. intros x X. unfold sget. destruct (x =? c) eqn:Q.
  - assert (x = c) by lia. subst. apply nth_error_nth. apply nth_error_upd_same. lia.
  - destruct (nth_error (upd seen (Z.to_nat c) b) (Z.to_nat x)) as [y|] eqn:N.
    + rewrite (nth_error_nth _ _ _ N). rewrite nth_error_upd_other in N by lia. symmetry. apply nth_error_nth. auto.
    + pose proof N as N'. rewrite nth_error_upd_other in N' by lia. apply nth_error_None in N, N'. rewrite !nth_overflow; auto.
Qed.

Lemma NoDup_join : forall A (l l' : list A), NoDup l -> NoDup l' -> (forall x, In x l -> ~ In x l') -> NoDup (l ++ l').
Proof.
  induction l as [|a l IH]; intros l' N N' X; cbn [app]; auto. inv N. constructor.
  - rewrite in_app_iff. intros [I|I]; [auto|]. apply (X a); auto. left. auto.
  - apply IH; auto. intros x I. apply X. right. auto.
Qed.

Section Power.
  Variable E : Type.
  Variable dir : bool.
  Implicit Types (g : graph E) (M : emap E).

  Lemma visit_ok : forall m n d (l : list (Z * E)) seen queue, alen seen = n -> Forall (fun p => 0 <= fst p - m < n) l ->
    exists seen' new, visit m d l seen queue = Ok (seen', queue ++ new) /\ alen seen' = n /\
      (forall c, 0 <= c -> (sget seen' c = true <-> sget seen c = true \/ In (c + m) (map fst l))) /\
      (forall c d', In (c, d') new -> d' = d + 1 /\ 0 <= c < n /\ sget seen c = false /\ In (c + m) (map fst l)) /\
      (forall c, sget seen c = false -> In (c + m) (map fst l) -> In (c, d + 1) new) /\ NoDup (map fst new).
  Proof.
    intros m n d l. induction l as [|[v x] l IH]; intros seen queue LS F; cbn [visit].
    - exists seen, []. rewrite app_nil_r. split; auto. split; auto. split; [intros c C; cbn [map In]; tauto|]. split; [intros c d' []|]. split; [intros c _ []|constructor].
    - inv F. cbn [fst] in H1. rewrite (sget_aget seen (v - m)) by lia. cbn [bind]. destruct (sget seen (v - m)) eqn:SV.
      + destruct (IH seen queue eq_refl H2) as (seen' & new & -> & L' & A & B & C & D). exists seen', new. split; auto. split; auto. split; [|split; [|split; auto]].
        * intros c HC. rewrite A by auto. cbn [map In fst]. split; [tauto|]. intros [X|[X|X]]; auto. left. replace c with (v - m) by lia. auto.
        * intros c d' I. apply B in I. cbn [map In fst]. tauto.
        * intros c SC [X|I]; [exfalso; replace c with (v - m) in SC by (cbn [fst] in X; lia); congruence|]. apply C; auto.
      + destruct (sget_aset seen (v - m) true) as (seen1 & -> & L1 & G1); [lia|]. cbn [bind].
        destruct (IH seen1 (queue ++ [(v - m, d + 1)]) L1 H2) as (seen' & new & -> & L' & A & B & C & D). exists seen', ((v - m, d + 1) :: new).
        split; [rewrite <- app_assoc; auto|]. split; auto. split; [|split; [|split]].
        * intros c HC. rewrite A by auto. rewrite G1 by auto. cbn [map In fst]. destruct (c =? v - m) eqn:Q.
          -- split; auto. intros _. right. left. lia.
          -- split; [tauto|]. intros [X|[X|X]]; auto. lia.
        * intros c d' [I|I].
          -- inv I. split; auto. split; auto. split; auto. left. cbn [fst]. lia.
          -- apply B in I as (X1 & X2 & X3 & X4). rewrite G1 in X3 by lia. destruct (c =? v - m) eqn:Q; [discriminate|]. split; auto. split; auto. split; auto. right. auto.
        * intros c SC [X|I].
          -- left. cbn [fst] in X. f_equal. lia.
          -- destruct (Z.eq_dec c (v - m)) as [->|NE]; [left; auto|]. right. apply C; auto.
             assert (0 <= c < alen seen). { apply in_map_iff in I as (q & Q & I). rewrite Forall_forall in H2. apply H2 in I. lia. }
             rewrite G1 by lia. replace (c =? v - m) with false by lia. auto.
        * cbn [map fst]. constructor; auto. intro I. apply in_map_iff in I as ([c d'] & Q & I). cbn [fst] in Q. subst c. apply B in I as (_ & X & S0 & _).
          rewrite G1 in S0 by lia. rewrite Z.eqb_refl in S0. discriminate.
  Qed.
  Lemma unsee_ok : forall n queue seen, alen seen = n -> Forall (fun p => 0 <= fst p < n) queue ->
    exists seen', unsee seen queue = Ok seen' /\ alen seen' = n /\ forall c, 0 <= c -> (sget seen' c = true <-> sget seen c = true /\ ~ In c (map fst queue)).
  Proof.
    intros n queue. induction queue as [|[c d] q IH]; intros seen L F; cbn [unsee].
    - exists seen. split; auto. split; auto. intros c C. cbn [map In]. tauto.
    - inv F. cbn [fst] in H1. destruct (sget_aset seen c false) as (s1 & -> & L1 & G1); [lia|]. cbn [bind]. destruct (IH s1 L1 H2) as (s2 & -> & L2 & G2).
      exists s2. split; auto. split; auto. intros x X. rewrite G2, G1 by auto. cbn [map In fst]. destruct (x =? c) eqn:Q.
      + split; [intros [? _]; discriminate|]. intros [_ N]. exfalso. apply N. left. lia.
      + split; [intros [A B]; split; auto; intros [Y|Y]; [lia|auto]|]. tauto.
  Qed.

  (* breadth first search from i; n nodes, numbered from 0 *)
  Section Bfs.
    Variables (g : graph E) (M : emap E) (lo hi k i : Z).
    Hypothesis R : represents dir g lo hi M.
    Hypothesis I0 : lo <= i + lo < hi.
    Notation n := (hi - lo).

    Definition inv (j : nat) (seen : list bool) (queue : list (Z * Z)) : Prop :=
      exists rest, queue = (i, 0) :: rest /\ alen seen = n /\ NoDup (map fst rest) /\
        (forall c, 0 <= c -> (sget seen c = true <-> In c (map fst rest))) /\
        (forall c d, In (c, d) queue -> 0 <= c < n /\ 0 <= d /\ (d <= k \/ d = 0) /\ walk M (Z.to_nat d) (i + lo) (c + lo)) /\
        StronglySorted (fun p q => snd p <= snd q) queue /\
        (j <= length queue)%nat /\
        (forall p c d, nth_error queue j = Some (c, d) -> In p queue -> snd p <= d + 1) /\
        (forall p c d v, (p < j)%nat -> nth_error queue p = Some (c, d) -> d < k -> isEdge M (c + lo) (v + lo) = true ->
          exists d', In (v, d') rest /\ d' <= d + 1).
    Lemma inv_length : forall j seen queue, inv j seen queue -> Z.of_nat (length queue) <= n + 1.
    Proof.
      intros j seen queue (rest & -> & LS & ND & _ & QQ & _). cbn [length]. assert (length (map fst rest) <= length (zseq 0 (Z.to_nat n)))%nat.
      { apply NoDup_incl_length; auto. intros c I. apply in_map_iff in I as ([c' d] & <- & I). apply in_zseq. destruct (QQ c' d) as (X & _); [right; auto|]. cbn [fst]. lia. }
      rewrite map_length, zseq_length in H. lia.
    Qed.
    Lemma SS_nth : forall A (Rl : A -> A -> Prop) l p q x y, StronglySorted Rl l -> (p < q)%nat -> nth_error l p = Some x -> nth_error l q = Some y -> Rl x y.
    Proof.
      induction l as [|a l IH]; intros p q x y S L N1 N2; [destruct p; discriminate|]. inversion S as [|? ? S' F]; subst. destruct p as [|p], q as [|q]; try lia.
      - cbn in *. injection N1 as ->. rewrite Forall_forall in F. apply F. eapply nth_error_In; eauto.
      - cbn in *. eapply IH; [auto| |eauto|eauto]. lia.
    Qed.
    Lemma SS_app : forall A (Rl : A -> A -> Prop) l1 l2, StronglySorted Rl l1 -> StronglySorted Rl l2 -> (forall x y, In x l1 -> In y l2 -> Rl x y) -> StronglySorted Rl (l1 ++ l2).
    Proof.
      induction l1 as [|a l1 IH]; intros l2 S1 S2 X; cbn [app]; auto. inversion S1 as [|? ? S' F]; subst. constructor.
      - apply IH; auto. intros x y J K. apply X; auto. right. auto.
      - apply Forall_app. split; auto. apply Forall_forall. intros y K. apply X; auto. left. auto.
    Qed.
    Lemma SS_all : forall A (Rl : A -> A -> Prop) l, (forall x y, In x l -> In y l -> Rl x y) -> StronglySorted Rl l.
    Proof.
      induction l as [|a l IH]; intro X; constructor.
      - apply IH. intros. apply X; right; auto.
      - apply Forall_forall. intros y K. apply X; [left; auto|right; auto].
    Qed.
    Lemma step_inv : forall j seen queue, inv j seen queue -> (j < length queue)%nat ->
      exists seen' queue', bfsStep g k j seen queue = Ok (seen', queue') /\ inv (S j) seen' queue'.
    Proof.
      intros j seen queue IV LT. pose proof IV as (rest & QE & LS & ND & SE & QQ & SO & LJ & TOP & PR).
      destruct (nth_error queue j) as [[c d]|] eqn:N; [|apply nth_error_None in N; lia]. unfold bfsStep. rewrite N.
      assert (INJ : In (c, d) queue) by (eapply nth_error_In; eauto). destruct (QQ c d INJ) as (CC & D0 & DK & WK).
      assert (NEXT : forall q' p c' d', (forall p, In p q' -> In p queue \/ snd p <= d + 1) -> (exists t, q' = queue ++ t) -> StronglySorted (fun p q => snd p <= snd q) q' ->
        nth_error q' (S j) = Some (c', d') -> In p q' -> snd p <= d' + 1).
      { intros q' p c' d' SUB (t & QT) SO' N' IP.
        assert (NJ : nth_error q' j = Some (c, d)) by (subst q'; rewrite nth_error_app1 by lia; auto).
        pose proof (SS_nth _ _ _ j (S j) _ _ SO' (Nat.lt_succ_diag_r j) NJ N') as Y. cbn [snd] in Y.
        destruct (SUB p IP) as [IQ|Y2]; [|lia]. pose proof (TOP p c d eq_refl IQ). lia. }
      destruct (d <? k) eqn:DLT.
      - pose proof (rep_elim _ _ _ _ _ _ R) as (W & RP & ML & NC).
        destruct (neighbours_ok E dir g M (c + lo) W RP) as (l & NB & (SL & NL) & _); [unfold inRange, nodeCount in *; lia|]. rewrite ML, NB. cbn [bind].
        assert (INL : forall v, In (v + lo) (map fst l) <-> isEdge M (c + lo) (v + lo) = true).
        { intro v. rewrite isEdge_true, in_map_iff. split; [intros ([w x] & Q & I); cbn [fst] in Q; subst w; exists x; apply NL; auto|]. intros (x & X). exists (v + lo, x). split; auto. apply NL. auto. }
        destruct (visit_ok lo n d l seen queue LS) as (seen' & new & -> & L' & A & B & C & D).
        { apply Forall_forall. intros [w x] I. cbn [fst]. apply NL in I. eapply rep_range in I; [|exact R]. lia. }
        exists seen', (queue ++ new). split; auto. exists (rest ++ new). split; [rewrite QE; reflexivity|]. split; auto. split; [|split; [|split; [|split; [|split; [|split]]]]].
        + rewrite map_app. apply NoDup_join; auto. intros x I1 I2. apply in_map_iff in I2 as ([c' d'] & Q & I2). cbn [fst] in Q. subst c'. apply B in I2 as (_ & X & SF & _).
          apply SE in I1; [congruence|lia].
        + intros c0 C0. rewrite A, SE by auto. rewrite map_app, in_app_iff. split.
          * intros [X|X]; auto. destruct (sget seen c0) eqn:SC; [apply SE in SC; auto|]. right. apply in_map_iff. exists (c0, d + 1). split; auto.
          * intros [X|X]; auto. right. apply in_map_iff in X as ([c' d'] & Q & X). cbn [fst] in Q. subst c'. apply B in X. tauto.
        + intros c0 d0 I. apply in_app_or in I as [I|I]; [apply QQ; auto|]. apply B in I as (-> & X1 & _ & X2). apply INL in X2. split; auto. split; [lia|]. split; [lia|].
          replace (Z.to_nat (d + 1)) with (S (Z.to_nat d)) by lia. econstructor; eauto.
        + apply SS_app; auto.
          * apply SS_all. intros [? ?] [? ?] H1 H2. apply B in H1 as (-> & _). apply B in H2 as (-> & _). cbn [snd]. lia.
          * intros x [? ?] H1 H2. apply B in H2 as (-> & _). cbn [snd]. apply (TOP x c d eq_refl H1).
        + rewrite app_length. lia.
        + intros p c' d' N' IP. eapply NEXT; [| |  |exact N'|exact IP].
          * intros [c0 d0] I. apply in_app_or in I as [I|I]; auto. apply B in I as (-> & _). cbn [snd]. right. lia.
          * eauto.
          * apply SS_app; auto.
            -- apply SS_all. intros [? ?] [? ?] H1 H2. apply B in H1 as (-> & _). apply B in H2 as (-> & _). cbn [snd]. lia.
            -- intros x [? ?] H1 H2. apply B in H2 as (-> & _). cbn [snd]. apply (TOP x c d eq_refl H1).
        + intros p c0 d0 v P N0 DK0 IE. rewrite nth_error_app1 in N0 by lia. destruct (Nat.eq_dec p j) as [->|NE].
          * rewrite N in N0. injection N0 as <- <-. apply INL in IE. destruct (sget seen v) eqn:SV.
            -- assert (V0 : 0 <= v). { apply INL in IE. apply isEdge_true in IE as (x & IE). eapply rep_range in IE; [|exact R]. lia. }
               apply SE in SV; auto. apply in_map_iff in SV as ([v' d'] & Q & I). cbn [fst] in Q. subst v'. exists d'. split; [apply in_or_app; auto|].
               apply (TOP (v, d') c d eq_refl). rewrite QE. right. auto.
            -- exists (d + 1). split; [apply in_or_app; right; apply C; auto|lia].
          * destruct (PR p c0 d0 v) as (d' & I & X); auto; [lia|]. exists d'. split; auto. apply in_or_app. auto.
      - exists seen, queue. split; auto. exists rest. split; auto. split; auto. split; auto. split; auto. split; auto. split; auto. split; [lia|]. split.
        + intros p c' d' N' IP. eapply NEXT; [| | |exact N'|exact IP]; auto. exists []. rewrite app_nil_r. auto.
        + intros p c0 d0 v P N0 DK0 IE. destruct (Nat.eq_dec p j) as [->|NE]; [rewrite N in N0; injection N0 as <- <-; lia|]. eapply PR; eauto. lia.
    Qed.
    Lemma bfs_inv : forall fuel j seen queue, inv j seen queue -> (Z.of_nat fuel >= n + 2 - Z.of_nat j) ->
      exists seen' queue', bfs fuel g k j seen queue = Ok (seen', queue') /\ inv (length queue') seen' queue'.
    Proof.
      induction fuel as [|fuel IH]; intros j seen queue IV F; cbn [bfs]; pose proof (inv_length _ _ _ IV) as LN; destruct (j <? length queue)%nat eqn:C.
      - lia.
      - exists seen, queue. split; auto. replace (length queue) with j; auto. destruct IV as (rest & _ & _ & _ & _ & _ & _ & LJ & _). apply Nat.ltb_ge in C. lia.
      - apply Nat.ltb_lt in C. destruct (step_inv j seen queue IV C) as (s' & q' & -> & IV'). cbn [bind]. apply IH; auto. lia.
      - exists seen, queue. split; auto. replace (length queue) with j; auto. destruct IV as (rest & _ & _ & _ & _ & _ & _ & LJ & _). apply Nat.ltb_ge in C. lia.
    Qed.
    Lemma inv_init : forall seen, alen seen = n -> (forall c, 0 <= c -> sget seen c = false) -> inv 0 seen [(i, 0)].
    Proof.
      intros seen L S0. exists []. split; auto. split; auto. split; [constructor|]. split; [intros c C; rewrite S0 by auto; split; [discriminate|intros []]|].
      split; [|split; [repeat constructor|split; [simpl; lia|split]]].
      - intros c d [Q|[]]. inv Q. split; [lia|]. split; [lia|]. split; [auto|]. constructor.
      - intros p c d N [<-|[]]. cbn in N. injection N as <- <-. cbn [snd]. lia.
      - intros p c d v P. lia.
    Qed.
    (* all nodes within distance k are found *)
    Lemma inv_complete : forall seen queue, inv (length queue) seen queue ->
      forall m v, walk M m (i + lo) v -> Z.of_nat m <= k -> exists d, In (v - lo, d) queue /\ d <= Z.of_nat m.
    Proof.
      intros seen queue (rest & QE & LS & ND & SE & QQ & SO & LJ & TOP & PR) m v W.
      assert (G : forall m u v, walk M m u v -> u = i + lo -> Z.of_nat m <= k -> exists d, In (v - lo, d) queue /\ d <= Z.of_nat m); [|apply (G m (i + lo) v W eq_refl)].
      clear m v W. intros m u v W. induction W as [u|m u w v W IH ED]; intros Hequ K.
      - exists 0. split; [|lia]. rewrite QE. left. f_equal. lia.
      - destruct (IH Hequ) as (d & I & D); [lia|]. apply In_nth_error in I as (p & N). assert (P : (p < length queue)%nat) by (apply nth_error_Some; congruence).
        destruct (PR p (w - lo) d (v - lo) P N) as (d' & I' & X); [lia| |].
        + replace (w - lo + lo) with w by lia. replace (v - lo + lo) with v by lia. auto.
        + exists d'. split; [rewrite QE; right; auto|lia].
    Qed.
  End Bfs.

  Lemma bfs_ok : forall g M lo hi k i seen, represents dir g lo hi M -> lo <= i + lo < hi -> alen seen = hi - lo -> (forall c, 0 <= c -> sget seen c = false) ->
    exists seen' rest seen'', bfs (length (adj g) + 2) g k 0 seen [(i, 0)] = Ok (seen', (i, 0) :: rest) /\
      unsee seen' ((i, 0) :: rest) = Ok seen'' /\ alen seen'' = hi - lo /\ (forall c, 0 <= c -> sget seen'' c = false) /\
      NoDup (map fst rest) /\
      forall c, c <> i -> (In c (map fst rest) <-> 0 <= c < hi - lo /\ within M k (i + lo) (c + lo)).
  Proof.
    intros g M lo hi k i seen R I0 LS S0. destruct (rep_len _ _ _ _ _ _ R) as (ML & NC & H & N). unfold alen in NC.
    destruct (bfs_inv g M lo hi k i R I0 (length (adj g) + 2) 0 seen [(i, 0)]) as (seen' & queue & Q & IV); [apply inv_init; auto|lia|].
    pose proof IV as (rest & QE & LS' & ND & SE & QQ & SO & LJ & TOP & PR). subst queue.
    destruct (unsee_ok (hi - lo) ((i, 0) :: rest) seen' LS') as (seen'' & US & LU & G).
    { apply Forall_forall. intros [c d] I. apply QQ in I. cbn [fst]. lia. }
    exists seen', rest, seen''. split; auto. split; auto. split; auto. split; [|split; [auto|]].
    - intros c C. destruct (sget seen'' c) eqn:X; auto. apply G in X as [X Y]; auto. exfalso. apply Y. cbn [map]. right. apply SE; auto.
    - intros c NI. split.
      + intro I. apply in_map_iff in I as ([c' d] & Q' & I). cbn [fst] in Q'. subst c'. destruct (QQ c d) as (A & B & C & D); [right; auto|]. split; auto.
        exists (Z.to_nat d). split; [|auto]. destruct C as [C|C]; [lia|]. subst d. inversion D; subst. lia.
      + intros (C & m & K & W). destruct (inv_complete M lo hi k i _ _ IV m (c + lo) W K) as (d & I & D). replace (c + lo - lo) with c in I by lia.
        destruct I as [I|I]; [inv I; congruence|]. apply in_map_iff. exists (c, d). auto.
  Qed.
  Lemma powerLoop_ok : forall dflt g M lo hi k is seen, represents dir g lo hi M -> Forall (fun i => 0 <= i < hi - lo) is -> NoDup is ->
    alen seen = hi - lo -> (forall c, 0 <= c -> sget seen c = false) ->
    exists l, powerLoop dflt g k is seen = Ok l /\ Forall (fun p => snd p = dflt) l /\ NoDup (map fst l) /\
      forall u v, In (u, v) (map fst l) <-> In (u - lo) is /\ lo <= v < hi /\ u <> v /\ within M k u v.
  Proof.
    intros dflt g M lo hi k is. induction is as [|i is IH]; intros seen R F ND LS S0; cbn [powerLoop].
    - exists []. split; auto. split; [constructor|]. split; [constructor|]. intros u v. cbn [map In]. tauto.
    - inv F. inv ND. destruct (rep_len _ _ _ _ _ _ R) as (ML & _).
      destruct (bfs_ok g M lo hi k i seen R) as (seen' & rest & seen'' & -> & US & L2 & S2 & NR & CH); auto; [lia|]. cbn [bind]. rewrite US. cbn [bind].
      destruct (IH seen'' R H2 H4 L2 S2) as (r & -> & FD & NDR & CR). cbn [bind]. rewrite ML. eexists. split; [reflexivity|].
      cbn [filter fst]. rewrite Z.eqb_refl. cbn [negb]. set (h := fun p : Z * Z => (i + lo, fst p + lo, dflt)). set (fl := filter _ rest).
      assert (IN : forall u v, In (u, v) (map fst (map h fl)) <-> u = i + lo /\ v <> u /\ In (v - lo) (map fst rest)).
      { intros u v. rewrite map_map, in_map_iff. unfold h, fl. split.
        - intros ([c d] & Q & I). cbn [fst] in Q. injection Q as <- <-. apply filter_In in I as [I X]. cbn [fst] in X. split; auto. split; [lia|].
          apply in_map_iff. exists (c, d). split; auto. cbn [fst]. lia.
        - intros (-> & NE & I). apply in_map_iff in I as ([c d] & Q & I). cbn [fst] in Q. exists (c, d). split; [cbn [fst]; f_equal; lia|]. apply filter_In. split; auto. cbn [fst]. lia. }
      split; [|split].
      + apply Forall_app. split; auto. rewrite Forall_map. apply Forall_forall. auto.
      + rewrite map_app. apply NoDup_join; auto.
        * rewrite map_map. unfold fl. clear - NR. induction rest as [|[c d] rest IH]; cbn [filter]; [constructor|]. cbn [map fst] in NR. inv NR.
          destruct (negb (i =? fst (c, d))); auto. cbn [map]. constructor; auto. intro I. apply in_map_iff in I as ([c' d'] & Q & I). unfold h in Q. cbn [fst] in Q. injection Q as Q.
          apply filter_In in I as [I _]. apply H1. apply in_map_iff. exists (c', d'). split; auto. cbn [fst]. lia.
        * intros [u v] A B. apply IN in A as (-> & _). apply CR in B as (B & _). apply H3. replace i with (i + lo - lo) by lia. auto.
      + intros u v. rewrite map_app, in_app_iff, IN, CR. cbn [In]. split.
        * intros [(-> & NE & I)|(A & B)].
          -- apply CH in I as (X & Y); [|lia]. replace (v - lo + lo) with v in Y by lia. split; [left; lia|]. split; [lia|]. split; [auto|]. auto.
          -- split; auto.
        * intros ([Q|A] & B & NE & W).
          -- left. assert (u = i + lo) by lia. subst u. split; auto. split; auto. apply CH; [lia|]. replace (v - lo + lo) with v by lia. split; [lia|auto].
          -- right. auto.
  Qed.
End Power.

Lemma power_rep : forall E (dflt : E) g M lo hi k, represents true g lo hi M ->
  exists g' M', power dflt true g k = Ok g' /\ represents true g' lo hi M' /\
    (forall u v, isEdge M' u v = true <-> lo <= u < hi /\ u <> v /\ within M k u v) /\
    (forall u v d, M' u v = Some d -> d = dflt).
Proof.
  intros E dflt g M lo hi k R. destruct (rep_len _ _ _ _ _ _ R) as (ML & NC & H & N). unfold power. rewrite ML, N. replace (lo + (hi - lo)) with hi by lia. unfold alen in NC.
  destruct (powerLoop_ok E true dflt g M lo hi k (zseq 0 (length (adj g))) (repeat false (length (adj g))) R) as (l & -> & FD & ND & CH).
  - apply Forall_forall. intros x I. apply in_zseq in I. lia.
  - apply zseq_NoDup.
  - unfold alen. rewrite repeat_length. lia.
  - intros c C. unfold sget. destruct (nth_in_or_default (Z.to_nat c) (repeat false (length (adj g))) false) as [I|Q]; auto. apply repeat_spec in I. auto.
  - cbn [bind]. assert (P : ForallOrdPairs (diffPairs E true) l).
    { apply FOP_NoDup in ND. rewrite FOP_map in ND. eapply FOP_ext; [|exact ND]. intros [[a b] c] [[a' b'] c'] _ _ NE SP. apply NE. cbn [fst snd] in *.
      destruct SP as [[S1 S2]|[S0 _]]; [|discriminate]. congruence. }
    assert (RU : forall u v, within M k u v -> u <> v -> lo <= v < hi).
    { intros u v (m & _ & W) NE. inversion W as [|m' ? w ? W' ED]; subst; [congruence|]. apply isEdge_true in ED as (d & ED). eapply rep_range in ED; [|exact R]. tauto. }
    destruct (emplace_build E true lo hi l (mapOf E true l)) as (a' & Q & R'); auto.
    + apply Forall_forall. intros [[u v] d] I. cbn [fst snd]. assert (I' : In (u, v) (map fst l)) by (apply in_map_iff; exists (u, v, d); auto).
      apply CH in I' as (A & B & C & _). apply in_zseq in A. lia.
    + apply mapOf_lists. auto.
    + unfold newGraph in *. destruct (judgeAssert (lo <=? hi)) eqn:J; try discriminate Q. cbn [bind] in *. eexists _, _. split; [exact Q|]. split; [exact R'|]. split.
      * intros u v. rewrite isEdge_true. split.
        -- intros (d & D). apply (mapOf_lists E true l P) in D as (x & y & I & J'). assert (x = u /\ y = v) as [-> ->] by sp.
           assert (I' : In (u, v) (map fst l)) by (apply in_map_iff; exists (u, v, d); auto). apply CH in I' as (A & B & C & D). apply in_zseq in A. split; [lia|]. auto.
        -- intros (U & NE & W). assert (I' : In (u, v) (map fst l)) by (apply CH; split; [apply in_zseq; lia|]; split; [eapply RU; eauto|]; auto).
           apply in_map_iff in I' as ([[x y] d] & Q' & I). cbn [fst] in Q'. injection Q' as -> ->. exists d. apply (mapOf_lists E true l P). exists u, v. split; auto. left. auto.
      * intros u v d D. apply (mapOf_lists E true l P) in D as (x & y & I & J'). rewrite Forall_forall in FD. apply (FD _ I).
Qed.
