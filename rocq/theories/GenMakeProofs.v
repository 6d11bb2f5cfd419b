(* The deterministic generators. *)
From Verif Require Import Base Tac RndModel RndLemmas GenModel GenSpec GenProofs GenProofs2 GenOpsModel GenProofs3 GenOpsProofs GenOpsProofs2 GenOpsProofs3.
From Verif Require Import GenMakeModel GenMakeSpec.

Lemma upto_in : forall n x, In x (upto n) <-> 0 <= x < n.
Proof. intros. unfold upto. rewrite in_zseq. lia. Qed.
Lemma inside_iff : forall lo hi x, inside lo hi x = true <-> lo <= x < hi.
Proof. intros. unfold inside. lia. Qed.

Section Make.
  Variable E : Type.
  Variable dir : bool.
  Variable dflt : E.

  Lemma newGraph_rep : forall lo hi, lo <= hi -> exists g, newGraph lo hi = Ok g /\ represents dir g lo hi (fun _ _ => @None E).
  Proof. intros. apply new_rep. auto. Qed.
  Lemma newGraph_throws : forall lo hi, hi < lo -> newGraph lo hi = @Throw (graph E).
  Proof. intros. unfold newGraph, judgeAssert. replace (lo <=? hi) with false by lia. auto. Qed.

  Lemma addPairs_rep : forall lo hi l (P : Z -> Z -> bool), lo <= hi ->
    (forall x y, In (x, y) l -> lo <= x < hi /\ lo <= y < hi /\ x <> y) ->
    (forall u v, P u v = true <-> exists x y, In (x, y) l /\ samePair dir x y u v) ->
    exists g, (let! res := newGraph lo hi in addPairs dflt dir res l) = Ok g /\ represents dir g lo hi (edgesBy dflt P).
  Proof.
    intros lo hi l P LE F HP. destruct (newGraph_rep lo hi LE) as (g & -> & R). cbn [bind].
    destruct (addEdges_rep E dir (map (fun p => (fst p, snd p, dflt)) l) g _ lo hi R) as (g' & Q & R').
    - rewrite Forall_map, Forall_forall. intros [x y] I. cbn [fst snd]. auto.
    - exists g'. split; auto. eapply rep_ext; [exact R'|]. intros u v. unfold edgesBy. destruct (P u v) eqn:PV.
      + apply HP in PV as (x & y & I & J).
        destruct (putAll_some E dir (map (fun p => (fst p, snd p, dflt)) l) (fun _ _ => None) u v) as (a & b & c & I' & J' & ->).
        * exists x, y, dflt. split; auto. apply in_map_iff. exists (x, y). auto.
        * apply in_map_iff in I' as (? & Q' & _). inv Q'. auto.
      + rewrite putAll_none; auto. intros x y d I J. apply in_map_iff in I as ([a b] & Q' & I). inv Q'. cbn [fst snd] in J.
        enough (P u v = true) by congruence. apply HP. eauto.
  Qed.

  Lemma independent_rep : forall n, 0 <= n -> exists g, independent n = Ok g /\ represents dir g 0 n (edgesBy dflt (fun _ _ => false)).
  Proof. intros n N. unfold independent. destruct (newGraph_rep 0 n N) as (g & -> & R). exists g. split; auto. Qed.
  Lemma clique_rep : forall n, 0 <= n -> exists g, clique dflt dir n = Ok g /\
    represents dir g 0 n (edgesBy dflt (fun u v => inside 0 n u && inside 0 n v && (if dir then u <? v else negb (u =? v)))).
  Proof.
    intros n N. unfold clique. apply addPairs_rep; auto.
    - intros x y I. apply in_flat_map in I as (j & J & I). apply in_map_iff in I as (i & Q & I). inv Q. rewrite upto_in in *. lia.
    - intros u v. unfold inside. split.
      + intro H. assert (K : u < v \/ dir = false /\ v < u) by (destruct dir; lia). destruct K as [K|(D & K)].
        * exists u, v. split; [|sp]. apply in_flat_map. exists v. rewrite upto_in. split; [lia|]. apply in_map_iff. exists u. rewrite upto_in. split; auto. lia.
        * exists v, u. split; [|sp]. apply in_flat_map. exists u. rewrite upto_in. split; [lia|]. apply in_map_iff. exists v. rewrite upto_in. split; auto. lia.
      + intros (x & y & I & J). apply in_flat_map in I as (j & J' & I). apply in_map_iff in I as (i & Q & I). inv Q. rewrite upto_in in *.
        unfold samePair in J. destruct dir; lia.
  Qed.
  Lemma bipartite_rep : forall n m, 0 <= n -> 0 <= m -> exists g, bipartite dflt dir n m = Ok g /\
    represents dir g 0 (n + m) (edgesBy dflt (sym dir (fun u v => inside 0 n u && inside n (n + m) v))).
  Proof.
    intros n m N NM. unfold bipartite. apply addPairs_rep; auto; [lia| |].
    - intros x y I. apply in_flat_map in I as (j & J & I). apply in_map_iff in I as (i & Q & I). inv Q. rewrite upto_in in *. lia.
    - intros u v. unfold inside, sym. split.
      + intro H. assert (K : 0 <= u < n /\ n <= v < n + m \/ dir = false /\ 0 <= v < n /\ n <= u < n + m) by (destruct dir; lia). destruct K as [K|(D & K)].
        * exists u, v. split; [|sp]. apply in_flat_map. exists u. rewrite upto_in. split; [lia|]. apply in_map_iff. exists (v - n). rewrite upto_in. split; [f_equal|]; lia.
        * exists v, u. split; [|sp]. apply in_flat_map. exists v. rewrite upto_in. split; [lia|]. apply in_map_iff. exists (u - n). rewrite upto_in. split; [f_equal|]; lia.
      + intros (x & y & I & J). apply in_flat_map in I as (j & J' & I). apply in_map_iff in I as (i & Q & I). inv Q. rewrite upto_in in *.
        unfold samePair in J. destruct dir; lia.
  Qed.
  Lemma star_rep : forall n, 0 <= n -> exists g, star dflt dir n = Ok g /\
    represents dir g 0 (n + 1) (edgesBy dflt (sym dir (fun u v => (u =? 0) && inside 1 (n + 1) v))).
  Proof.
    intros n N. unfold star. destruct (bipartite_rep 1 n) as (g & -> & R); try lia. exists g. split; auto.
    replace (n + 1) with (1 + n) by lia. eapply rep_ext; [exact R|]. intros u v. unfold edgesBy, sym, inside.
    match goal with |- (if ?a then _ else _) = (if ?b then _ else _) => assert (Q : a = b) by (destruct dir; lia); rewrite Q; auto end.
  Qed.
  Lemma path_rep : forall n, 0 <= n + 1 -> exists g, path dflt dir n = Ok g /\
    represents dir g 0 (n + 1) (edgesBy dflt (sym dir (fun u v => inside 0 n u && (v =? u + 1)))).
  Proof.
    intros n N. unfold path. apply addPairs_rep; auto.
    - intros x y I. apply in_map_iff in I as (i & Q & I). inv Q. rewrite upto_in in *. lia.
    - intros u v. unfold inside, sym. split.
      + intro H. assert (K : 0 <= u < n /\ v = u + 1 \/ dir = false /\ 0 <= v < n /\ u = v + 1) by (destruct dir; lia). destruct K as [K|(D & K)].
        * exists u, v. split; [|sp]. apply in_map_iff. exists u. rewrite upto_in. split; [f_equal|]; lia.
        * exists v, u. split; [|sp]. apply in_map_iff. exists v. rewrite upto_in. split; [f_equal|]; lia.
      + intros (x & y & I & J). apply in_map_iff in I as (i & Q & I). inv Q. rewrite upto_in in *.
        unfold samePair in J. destruct dir; lia.
  Qed.
End Make.
