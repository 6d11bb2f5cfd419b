From Verif Require Import Base BaseLemmas Tac GeoModel GeoSpec HullModel HullSpec AuditProofs.
From Coq Require Import ZArith List Sorted Lia Permutation.
Import ListNotations.
Open Scope Z_scope.

Notation pt := (Z * Z)%type.
(* vectors *)
Definition vec (a b : pt) : pt := (fst b - fst a, snd b - snd a).
Definition cr (u v : pt) : Z := fst u * snd v - snd u * fst v.
Definition pos (u : pt) : Prop := 0 < fst u \/ fst u = 0 /\ 0 < snd u.

Lemma mono1 : forall a b, 0 < a -> 0 <= a * b -> 0 <= b. Proof. intros. nia. Qed.
Lemma mono2 : forall a b, 0 < a -> 0 < a * b -> 0 < b. Proof. intros. nia. Qed.
Lemma cr_trans : forall u v w, pos u -> pos v -> pos w -> 0 <= cr u v -> 0 <= cr v w -> 0 <= cr u w /\ (0 < cr u v \/ 0 < cr v w -> 0 < cr u w).
Proof.
  intros [ux uy] [vx vy] [wx wy]. unfold pos, cr. cbn [fst snd]. intros U V W H K.
  assert (I : vx * (ux * wy - uy * wx) = wx * (ux * vy - uy * vx) + ux * (vx * wy - vy * wx)) by ring.
  destruct V as [V|[-> V]].
  - assert (ux0 : 0 <= ux) by lia. assert (wx0 : 0 <= wx) by lia. split.
    + apply (mono1 vx); [exact V|]. rewrite I. apply Z.add_nonneg_nonneg; apply Z.mul_nonneg_nonneg; assumption.
    + intros S. apply (mono2 vx); [exact V|]. rewrite I.
      assert (UX : 0 < ux). { destruct U as [U|[-> U]]; [exact U|]. exfalso. assert (0 < uy * vx) by (apply Z.mul_pos_pos; assumption). lia. }
      destruct (Z.eq_dec wx 0) as [->|N].
      * destruct W as [W|[_ W]]; [lia|]. assert (0 < ux * (vx * wy)) by (repeat apply Z.mul_pos_pos; assumption). lia.
      * destruct S as [S|S].
        -- assert (0 < wx * (ux * vy - uy * vx)) by (apply Z.mul_pos_pos; lia). assert (0 <= ux * (vx * wy - vy * wx)) by (apply Z.mul_nonneg_nonneg; assumption). lia.
        -- assert (0 < ux * (vx * wy - vy * wx)) by (apply Z.mul_pos_pos; lia). assert (0 <= wx * (ux * vy - uy * vx)) by (apply Z.mul_nonneg_nonneg; assumption). lia.
  - assert (wx = 0). { destruct W as [W|[W _]]; [|exact W]. exfalso. assert (0 < vy * wx) by (apply Z.mul_pos_pos; assumption). lia. }
    subst wx. destruct W as [W|[_ W]]; [lia|]. assert (0 <= ux) by lia. split.
    + assert (0 <= ux * wy) by (apply Z.mul_nonneg_nonneg; lia). lia.
    + intros [S|S]; [|lia]. assert (0 < ux) by (apply (mono2 vy); lia). assert (0 < ux * wy) by (apply Z.mul_pos_pos; assumption). lia.
Qed.
Lemma before_pos : forall a b, before a b <-> pos (vec a b).
Proof. intros [a1 a2] [b1 b2]. unfold before, pos, vec. cbn. lia. Qed.
Lemma before_trans : forall a b c, before a b -> before b c -> before a c.
Proof. intros [a1 a2] [b1 b2] [c1 c2]. unfold before. cbn. lia. Qed.
Lemma before_irrefl : forall a, ~ before a a.
Proof. intros [a1 a2]. unfold before. cbn. lia. Qed.
Lemma before_total : forall a b, before a b \/ a = b \/ before b a.
Proof.
  intros [a1 a2] [b1 b2]. unfold before. cbn. destruct (Z.lt_trichotomy a1 b1) as [|[->|]]; [auto| |auto].
  destruct (Z.lt_trichotomy a2 b2) as [|[->|]]; auto.
Qed.
(* the turns in terms of directions *)
Lemma orient_cr : forall a b c, orient a b c = cr (vec a b) (vec a c).
Proof. reflexivity. Qed.
Lemma orient_next : forall a b c, orient a b c = cr (vec a b) (vec b c).
Proof. intros [a1 a2] [b1 b2] [c1 c2]. unfold orient, cr, vec. cbn. ring. Qed.
Lemma orient_prev : forall a b c, orient a b c = cr (vec c a) (vec a b).
Proof. intros [a1 a2] [b1 b2] [c1 c2]. unfold orient, cr, vec. cbn. ring. Qed.
Lemma orient_end : forall a b c, orient a b c = cr (vec c b) (vec a b).
Proof. intros [a1 a2] [b1 b2] [c1 c2]. unfold orient, cr, vec. cbn. ring. Qed.
Lemma cr_add_r : forall u a b c, cr u (vec a c) = cr u (vec a b) + cr u (vec b c).
Proof. intros [u1 u2] [a1 a2] [b1 b2] [c1 c2]. unfold cr, vec. cbn. ring. Qed.
Lemma cr_add_l : forall u a b c, cr (vec a c) u = cr (vec a b) u + cr (vec b c) u.
Proof. intros [u1 u2] [a1 a2] [b1 b2] [c1 c2]. unfold cr, vec. cbn. ring. Qed.
Lemma cr_anti : forall u v, cr u v = - cr v u.
Proof. intros [u1 u2] [v1 v2]. unfold cr. cbn. ring. Qed.

(* a stack: the last point first *)
Inductive edge : list pt -> pt -> pt -> Prop :=
| edge_top : forall b c r, edge (c :: b :: r) b c
| edge_next : forall c h a b, edge h a b -> edge (c :: h) a b.
Fixpoint turns (h : list pt) : Prop :=
  match h with
  | c :: ((b :: a :: _) as h') => 0 <= orient a b c /\ turns h'
  | _ => True
  end.
Definition desc (h : list pt) : Prop := StronglySorted (fun a b => before b a) h.
Definition covered (h : list pt) (q : pt) : Prop :=
  In q h \/ exists a b, edge h a b /\ before a q /\ before q b /\ 0 < orient a b q.

Lemma edge_in : forall h a b, edge h a b -> In a h /\ In b h.
Proof. induction 1 as [b c r|c h a b E [I J]]; cbn; auto. Qed.
Lemma edge_before : forall h a b, desc h -> edge h a b -> before a b.
Proof. intros h a b D E. induction E as [b c r|c h a b E IH]; inversion D; subst; [|auto]. inversion H2; subst. assumption. Qed.
Lemma edge_single : forall b x y, ~ edge [b] x y.
Proof. intros b x y E. inversion E as [|c h a b' E' ]; subst. inversion E'. Qed.
Lemma edge_cases : forall c b r x y, edge (c :: b :: r) x y -> (x = b /\ y = c) \/ edge (b :: r) x y.
Proof. intros c b r x y E. inversion E; subst; auto. Qed.
Lemma desc_tail : forall c h, desc (c :: h) -> desc h.
Proof. intros c h D. inversion D; assumption. Qed.
Lemma turns_tail : forall c h, turns (c :: h) -> turns h.
Proof. intros c [|b [|a r]] T; cbn in *; tauto. Qed.
Lemma desc_in : forall c h q, desc (c :: h) -> In q h -> before q c.
Proof. intros c h q D I. inversion D; subst. rewrite Forall_forall in H2. auto. Qed.

(* the direction to the next point is steeper than all sides before *)
Lemma rising : forall h c b r, h = b :: r -> desc (c :: h) -> turns (c :: h) -> forall x y, edge h x y -> 0 <= cr (vec x y) (vec b c).
Proof.
  intros h. induction h as [|b0 h IH]; intros c b r E D T x y X; [discriminate|]. inv E.
  destruct r as [|a r]; [destruct (edge_single _ _ _ X)|].
  pose proof T as [T0 T1]. rewrite orient_next in T0.
  destruct (edge_cases _ _ _ _ _ X) as [[-> ->]|X']; [exact T0|].
  assert (K : 0 <= cr (vec x y) (vec a b)) by (apply (IH b a r eq_refl (desc_tail _ _ D) T1); assumption).
  assert (D' := desc_tail _ _ D).
  apply (cr_trans (vec x y) (vec a b) (vec b c)); auto; apply before_pos.
  - apply (edge_before (a :: r)); [apply (desc_tail b), D'|assumption].
  - apply (desc_in b (a :: r)); [exact D'|left; reflexivity].
  - apply (desc_in c (b :: a :: r)); [exact D|left; reflexivity].
Qed.
(* such a direction has all points of the chain on its left *)
Lemma leftward : forall h v, (forall x y, edge h x y -> 0 <= cr (vec x y) v) -> forall b r q, h = b :: r -> In q h -> 0 <= cr (vec q b) v.
Proof.
  induction h as [|b0 h IH]; intros v R b r q E I; [discriminate|]. inv E. destruct I as [->|I].
  - unfold vec, cr. rewrite !Z.sub_diag. cbn. lia.
  - destruct r as [|a r]; [contradiction|]. rewrite (cr_add_l v q a b).
    assert (0 <= cr (vec q a) v) by (apply (IH v) with (r := r); auto; intros x y X; apply R; constructor; exact X).
    assert (0 <= cr (vec a b) v) by (apply R; constructor). lia.
Qed.
Lemma not_in_cons : forall (q c : pt) h, ~ In q (c :: h) -> ~ In q h.
Proof. intros q c h N I. apply N. right. exact I. Qed.
Lemma supported : forall h, desc h -> turns h -> forall a b, edge h a b -> forall q, covered h q -> 0 <= orient a b q /\ (~ In q h -> 0 < orient a b q).
Proof.
  induction h as [|c h IH]; intros D T x y X q Q; [inversion X|].
  destruct h as [|b r]; [destruct (edge_single _ _ _ X)|].
  assert (D' := desc_tail _ _ D). assert (T' := turns_tail _ _ T).
  assert (BC : before b c) by (apply (desc_in c (b :: r)); [exact D|left; reflexivity]).
  assert (R : forall x y, edge (b :: r) x y -> 0 <= cr (vec x y) (vec b c)) by (intros u v; apply (rising (b :: r) c b r eq_refl D T)).
  assert (BB : covered (b :: r) b) by (left; left; reflexivity).
  (* where q is *)
  assert (QC : q = c \/ covered (b :: r) q \/ (~ In q (b :: r) /\ before b q /\ before q c /\ 0 < orient b c q)).
  { destruct Q as [[->|I]|(u & v & E & B1 & B2 & O)]; [left; reflexivity|right; left; left; exact I|].
    destruct (edge_cases _ _ _ _ _ E) as [[-> ->]|E'].
    - right. right. repeat split; auto. intros I. destruct I as [->|I]; [exact (before_irrefl _ B1)|].
      apply (before_irrefl q). apply (before_trans q b q); [|exact B1]. apply (desc_in b r); assumption.
    - right. left. right. exists u, v. auto. }
  assert (QN : covered (b :: r) q -> ~ In q (c :: b :: r) -> ~ In q (b :: r)) by (intros _; apply not_in_cons).
  destruct (edge_cases _ _ _ _ _ X) as [[-> ->]|H1].
  - destruct QC as [->|[C|(N & B1 & B2 & O)]].
    + split; [rewrite orient_end; unfold vec, cr; rewrite !Z.sub_diag; cbn; lia|]. intros N. exfalso. apply N. left. reflexivity.
    + rewrite orient_prev. destruct C as [I|(u & v & E & B1 & B2 & O)].
      * split; [apply (leftward (b :: r) (vec b c) R b r); auto|]. intros N. exfalso. apply N. right. exact I.
      * assert (0 < cr (vec q b) (vec b c)); [|lia].
        rewrite (cr_add_l (vec b c) q v b).
        assert (0 <= cr (vec v b) (vec b c)) by (apply (leftward (b :: r) (vec b c) R b r); [reflexivity|apply (edge_in _ _ _ E)]).
        assert (0 < cr (vec q v) (vec b c)); [|lia].
        rewrite orient_end in O. apply (cr_trans (vec q v) (vec u v) (vec b c)); try (apply before_pos; auto); try lia.
        -- apply (edge_before (b :: r)); auto.
        -- apply (R u v E).
    + lia.
  - destruct QC as [->|[C|(N & B1 & B2 & O)]].
    + rewrite orient_cr, (cr_add_r _ x b c). destruct (IH D' T' x y H1 b BB) as [S _]. rewrite orient_cr in S. specialize (R x y H1).
      split; [lia|]. intros K. exfalso. apply K. left. reflexivity.
    + destruct (IH D' T' x y H1 q C) as [S S']. split; [exact S|]. intros K. apply S'. apply (not_in_cons q c); exact K.
    + rewrite orient_cr, (cr_add_r _ x b q). destruct (IH D' T' x y H1 b BB) as [S _]. rewrite orient_cr in S.
      assert (0 < cr (vec x y) (vec b q)); [|split; lia].
      rewrite orient_cr in O. apply (cr_trans (vec x y) (vec b c) (vec b q)); try (apply before_pos; auto); try lia.
      * apply (edge_before (b :: r)); auto.
      * apply R. exact H1.
Qed.

(* the algorithm without overflow *)
Fixpoint pop (h : list pt) (c : pt) : list pt :=
  match h with
  | b :: ((a :: _) as h') => if orient a b c <? 0 then pop h' c else h
  | _ => h
  end.
Fixpoint chain (h ps : list pt) : list pt :=
  match ps with [] => h | c :: ps' => chain (c :: pop h c) ps' end.

Definition pending (h : list pt) (c q : pt) : Prop :=
  covered h q \/ exists b r, h = b :: r /\ before b q /\ before q c /\ 0 < orient b c q.
Lemma covered_more : forall h c q, covered h q -> covered (c :: h) q.
Proof. intros h c q [I|(a & b & E & K)]; [left; right; exact I|]. right. exists a, b. split; [constructor; exact E|exact K]. Qed.
Lemma pop_good : forall h c Q, h <> [] -> desc (c :: h) -> turns h -> (forall q, In q Q -> pending h c q) ->
  exists l h', h = l ++ h' /\ pop h c = h' /\ h' <> [] /\ desc (c :: h') /\ turns (c :: h') /\ forall q, In q Q -> covered (c :: h') q.
Proof.
  induction h as [|b h IH]; intros c Q N D T P; [congruence|].
  assert (BC : before b c) by (apply (desc_in c (b :: h)); [exact D|left; reflexivity]).
  assert (STOP : turns (c :: b :: h) -> exists l h', b :: h = l ++ h' /\ b :: h = h' /\ h' <> [] /\ desc (c :: h') /\ turns (c :: h') /\ forall q, In q Q -> covered (c :: h') q).
  { intros T'. exists [], (b :: h). repeat (split; auto). intros q I. destruct (P q I) as [C|(b' & r & E & B1 & B2 & O)]; [apply covered_more; exact C|]. inv E.
    right. exists b', c. split; [constructor|auto]. }
  destruct h as [|a r]; [apply STOP; cbn; exact I|].
  cbn [pop]. destruct (Z.ltb_spec (orient a b c) 0) as [L|L].
  2:{ apply STOP. split; [lia|exact T]. }
  assert (D' : desc (c :: a :: r)).
  { inversion D; subst. inversion H1; subst. inversion H2; subst. constructor; assumption. }
  assert (AB : before a b) by (apply (desc_in b (a :: r)); [apply (desc_tail c), D|left; reflexivity]).
  assert (AC : before a c) by (apply (before_trans a b c); assumption).
  destruct (IH c Q) as (l & h' & E & K); [discriminate|exact D'|apply (turns_tail b), T| |].
  - intros q I. destruct (P q I) as [[[->|J]|(u & v & E & B1 & B2 & O)]|(b' & r' & E & B1 & B2 & O)].
    + right. exists a, r. repeat split; auto. unfold orient in *. lia.
    + left. left. exact J.
    + destruct (edge_cases _ _ _ _ _ E) as [[-> ->]|E'].
      * right. exists a, r. repeat split; auto; [apply (before_trans q b c); auto|].
        rewrite orient_cr in *. pose proof (cr_anti (vec a c) (vec a b)). apply (cr_trans (vec a c) (vec a b) (vec a q)); try (apply before_pos; auto); lia.
      * left. right. exists u, v. auto.
    + inv E. right. exists a, r. repeat split; auto; [apply (before_trans a b' q); auto|].
      rewrite orient_end in O. rewrite orient_end. apply (cr_trans (vec q c) (vec b' c) (vec a c)); try (apply before_pos; auto); try lia.
      rewrite (cr_add_r _ a b' c). rewrite orient_next in L. rewrite cr_anti in L.
      assert (cr (vec b' c) (vec b' c) = 0) by (unfold cr; ring). lia.
  - exists (b :: l), h'. split; [rewrite E; reflexivity|exact K].
Qed.


Lemma sorted_app : forall (R : pt -> pt -> Prop) l m, StronglySorted R (l ++ m) <-> StronglySorted R l /\ StronglySorted R m /\ forall x y, In x l -> In y m -> R x y.
Proof.
  intros R l m. induction l as [|a l IH]; cbn [app].
  - split; [intros H; split; [constructor|]; split; [exact H|]; intros x y []|tauto].
  - split.
    + intros H. inversion H as [|? ? S F]; subst. apply IH in S. destruct S as (S1 & S2 & S3). rewrite Forall_app in F. destruct F as [F1 F2].
      split; [constructor; assumption|]. split; [exact S2|]. intros x y [->|I] J; [rewrite Forall_forall in F2; auto|auto].
    + intros (S1 & S2 & S3). inversion S1 as [|? ? S F]; subst. constructor.
      * apply IH. split; [exact S|]. split; [exact S2|]. intros x y I J. apply S3; [right; exact I|exact J].
      * rewrite Forall_app. split; [exact F|]. rewrite Forall_forall. intros y J. apply S3; [left; reflexivity|exact J].
Qed.
Lemma chain_good : forall ps h Q, h <> [] -> desc h -> turns h -> (forall q, In q Q -> covered h q) ->
  (forall x y, In x h -> In y ps -> before x y) -> StronglySorted before ps ->
  desc (chain h ps) /\ turns (chain h ps) /\ (forall q, In q (Q ++ ps) -> covered (chain h ps) q) /\ incl (chain h ps) (h ++ ps) /\
  (forall d, last (chain h ps) d = last h d) /\ (forall d, hd d (chain h ps) = last ps (hd d h)) /\ chain h ps <> [].
Proof.
  induction ps as [|c ps IH]; intros h Q N D T C HP SP.
  { cbn [chain last]. rewrite !app_nil_r. repeat (split; auto). apply incl_refl. }
  assert (DC : desc (c :: h)) by (constructor; [exact D|]; rewrite Forall_forall; intros x I; apply HP; [exact I|left; reflexivity]).
  destruct (pop_good h c Q N DC T) as (l & h' & E & PE & N' & D' & T' & C'); [intros q I; left; auto|].
  cbn [chain]. rewrite PE. inversion SP as [|? ? SP' FP]; subst. rewrite Forall_forall in FP.
  destruct (IH (c :: h') (Q ++ [c])) as (R1 & R2 & R3 & R4 & R5 & R6 & R7); auto; [discriminate| | |].
  - intros q I. apply in_app_or in I. destruct I as [I|[<-|[]]]; [auto|]. left. left. reflexivity.
  - intros x y [<-|I] J; [auto|]. apply HP; [apply in_or_app; right; exact I|right; exact J].
  - split; [exact R1|]. split; [exact R2|]. split; [intros q I; apply R3; rewrite <- app_assoc; exact I|]. split; [|split; [|split; [|exact R7]]].
    + intros x I. apply R4 in I. apply in_app_or in I. apply in_or_app. destruct I as [[<-|I]|I]; [right; left; reflexivity|left; apply in_or_app; right; exact I|right; right; exact I].
    + intros d. rewrite R5. destruct h' as [|x h']; [congruence|]. clear. change (last (c :: x :: h') d) with (last (x :: h') d).
      induction l as [|y l IHl]; [reflexivity|]. cbn [app]. rewrite <- IHl || rewrite IHl. destruct (l ++ x :: h') eqn:E; [destruct l; discriminate|reflexivity].
    + intros d. rewrite R6. cbn [hd]. destruct ps as [|y ps]; [reflexivity|]. cbn [last]. clear. revert y. induction ps as [|z ps IHp]; intros y; [reflexivity|]. apply IHp.
Qed.
