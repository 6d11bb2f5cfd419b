(* Every tree has a code; the loop of pruefer decodes it. *)
From Verif Require Import Base BaseLemmas Tac RndModel GenModel GenSpec GraphSpec GenMakeModel GenRandSpec GenTreeSpec GenTreeProofs.
From Verif Require Import GenRandProofs2.
From Coq Require Import Permutation.
Open Scope Z_scope.

Definition zs (f : Z -> Z) (V : list Z) : Z := fold_right (fun v s => f v + s) 0 V.
Lemma zs_plus : forall f g V, zs (fun v => f v + g v) V = zs f V + zs g V.
Proof. induction V as [|v V IH]; cbn [zs fold_right] in *; auto. unfold zs in *. cbn [fold_right]. lia. Qed.
Lemma zs_ext : forall f g V, (forall v, In v V -> f v = g v) -> zs f V = zs g V.
Proof. induction V as [|v V IH]; intro H; auto. unfold zs in *. cbn [fold_right]. rewrite H by (left; auto). rewrite IH; auto. intros; apply H; right; auto. Qed.
Lemma zs_lower : forall f c V, (forall v, In v V -> c <= f v) -> c * alen V <= zs f V.
Proof. induction V as [|v V IH]; intro H; unfold zs, alen in *; cbn [fold_right length]; [lia|]. pose proof (H v (or_introl eq_refl)). assert (c * Z.of_nat (length V) <= fold_right (fun v s => f v + s) 0 V) by (apply IH; intros; apply H; right; auto). lia. Qed.
Lemma zs_ind : forall x V, NoDup V -> zs (fun v => if x =? v then 1 else 0) V = if in_dec Z.eq_dec x V then 1 else 0.
Proof.
  induction V as [|v V IH]; intro N; auto. inv N. unfold zs in *. cbn [fold_right]. rewrite IH by auto. destruct (x =? v) eqn:Q.
  - apply Z.eqb_eq in Q. subst. destruct (in_dec Z.eq_dec v V); [tauto|]. destruct (in_dec Z.eq_dec v (v :: V)); auto. exfalso. apply n0. left. auto.
  - apply Z.eqb_neq in Q. destruct (in_dec Z.eq_dec x V), (in_dec Z.eq_dec x (v :: V)); auto; exfalso; cbn [In] in *; intuition.
Qed.
Lemma handshake : forall V E, NoDup V -> (forall u v, In (u, v) E -> In u V /\ In v V /\ u <> v) -> zs (fun v => deg v E) V = 2 * alen E.
Proof.
  induction E as [|[x y] E IH]; intros N H.
  - clear H N. induction V as [|v V IHV]; auto.
  - destruct (H x y (or_introl eq_refl)) as (X & Y & NE).
    rewrite (zs_ext _ (fun v => ((if x =? v then 1 else 0) + (if y =? v then 1 else 0)) + deg v E)) by (intros; apply deg_cons; auto).
    rewrite zs_plus, zs_plus, !zs_ind by auto. rewrite IH; auto; [|intros; apply H; right; auto].
    destruct (in_dec Z.eq_dec x V), (in_dec Z.eq_dec y V); try tauto. unfold alen. cbn [length]. lia.
Qed.
Lemma min_exists : forall (p : Z -> bool) V v, In v V -> p v = true -> exists y, In y V /\ p y = true /\ forall v, In v V -> p v = true -> y <= v.
Proof.
  induction V as [|w V IH]; intros v I P; [destruct I|].
  destruct (existsb p V) eqn:EX.
  - apply existsb_exists in EX as (z & IZ & PZ). destruct (IH z IZ PZ) as (y & IY & PY & MN). destruct (p w) eqn:PW.
    + exists (Z.min w y). split; [|split].
      * destruct (Z.min_spec w y) as [(_ & ->)|(_ & ->)]; [left; auto|right; auto].
      * destruct (Z.min_spec w y) as [(_ & ->)|(_ & ->)]; auto.
      * intros u [<-|IU] PU; [lia|]. pose proof (MN u IU PU). lia.
    + exists y. split; [right; auto|]. split; auto. intros u [<-|IU] PU; [congruence|]. auto.
  - exists w. assert (NV : forall u, In u V -> p u = true -> False). { intros u IU PU. assert (existsb p V = true) by (apply existsb_exists; eauto). congruence. }
    destruct I as [<-|I]; [|exfalso; eauto]. split; [left; auto|]. split; auto. intros u [<-|IU] PU; [lia|]. exfalso. eauto.
Qed.
Lemma joined_in : forall E u v e, In e E -> incident u e = true -> (e = (u, v) \/ e = (v, u)) -> joined E u v.
Proof. intros E u v e I _ [-> | ->]; [left|right]; auto. Qed.
Lemma deg_pos : forall E v a, joined E v a -> 1 <= deg v E.
Proof.
  intros E v a J. assert (exists e, In e (filter (incident v) E)) as (e & I).
  { destruct J as [J|J]; [exists (v, a)|exists (a, v)]; apply filter_In; split; auto; unfold incident; cbn [fst snd]; lia. }
  unfold deg, alen. destruct (filter (incident v) E); [destruct I|]. cbn [length]. lia.
Qed.
Lemma conn_first : forall E u v, conn E u v -> u = v \/ ((exists a, joined E u a) /\ exists b, joined E v b).
Proof.
  induction 1 as [x|a b I|x y H IH|x y z H1 IH1 H2 IH2]; auto.
  - right. split; [exists b; left; auto|exists a; right; auto].
  - destruct IH as [-> |(A & B)]; auto.
  - destruct IH1 as [-> |(A & B)]; auto. destruct IH2 as [<- |(C & D)]; auto.
Qed.
Lemma all_eq_len : forall A (l : list A), NoDup l -> (forall e f, In e l -> In f l -> e = f) -> (length l <= 1)%nat.
Proof. intros A [|a [|b l]] N H; cbn [length]; try lia. exfalso. inv N. apply H2. rewrite (H a b); cbn; auto. Qed.
Lemma deg_one : forall E v a, NoDup E -> (forall u v, In (u, v) E -> u < v) -> (forall b, joined E v b <-> a = b) -> deg v E = 1.
Proof.
  intros E v a N O J. assert (1 <= deg v E) by (apply (deg_pos E v a); apply J; auto).
  assert (length (filter (incident v) E) <= 1)%nat; [|unfold deg, alen in *; lia].
  apply all_eq_len; [apply NoDup_filter; auto|].
  assert (Q : forall x y, In (x, y) (filter (incident v) E) -> (x = v /\ y = a /\ v < a) \/ (x = a /\ y = v /\ a < v)).
  { intros x y I. apply filter_In in I as (I & C). unfold incident in C. cbn [fst snd] in C. pose proof (O x y I). destruct (x =? v) eqn:XV.
    - apply Z.eqb_eq in XV. subst x. left. assert (a = y) by (apply J; left; auto). lia.
    - assert (y = v) by lia. subst y. right. assert (a = x) by (apply J; right; auto). lia. }
  intros [x y] [x' y'] I I'. apply Q in I. apply Q in I'. f_equal; lia.
Qed.
Lemma filter_split : forall A (p : A -> bool) l, length l = (length (filter p l) + length (filter (fun x => negb (p x)) l))%nat.
Proof. induction l as [|x l IH]; auto. cbn [filter length]. destruct (p x); cbn [negb length]; lia. Qed.

(* a connected graph with one edge less than nodes, each edge once as an increasing pair *)
Definition treeOn (V : list Z) (E : list (Z * Z)) : Prop :=
  NoDup V /\ NoDup E /\ (forall u v, In (u, v) E -> u < v /\ In u V /\ In v V) /\
  (forall u v, In u V -> In v V -> conn E u v) /\ length V = S (length E).
Lemma treeOn_deg : forall V E v, treeOn V E -> (2 <= length V)%nat -> In v V -> 1 <= deg v E.
Proof.
  intros V E v (NV & NE & R & C & L) L2 I. assert (exists u, In u V /\ u <> v) as (u & U & UV).
  { destruct V as [|a [|b V]]; cbn in L2; try lia. inv NV. destruct (Z.eq_dec a v) as [->|]; [exists b|exists a]; cbn; auto. split; auto. intros ->. apply H1. left. auto. }
  destruct (conn_first _ _ _ (C u v U I)) as [Q|(_ & b & J)]; [congruence|]. eapply deg_pos; eauto.
Qed.
(* there is a leaf besides any given node *)
Lemma treeOn_leaf : forall V E r, treeOn V E -> (2 <= length V)%nat -> exists w, In w V /\ w <> r /\ deg w E = 1.
Proof.
  intros V E r T L2. pose proof T as (NV & NE & R & C & L). destruct (existsb (fun v => (deg v E =? 1) && negb (v =? r)) V) eqn:EX.
  - apply existsb_exists in EX as (w & I & Q). exists w. split; auto. lia.
  - exfalso. assert (L' : 2 * alen V <= zs (fun v => deg v E + if r =? v then 1 else 0) V).
    { apply zs_lower. intros v I. pose proof (treeOn_deg V E v T L2 I). destruct (r =? v) eqn:RV; [lia|]. destruct (Z.eq_dec (deg v E) 1) as [Q|]; [|lia]. exfalso.
      assert (existsb (fun v => (deg v E =? 1) && negb (v =? r)) V = true); [|congruence]. apply existsb_exists. exists v. split; auto. lia. }
    rewrite zs_plus, zs_ind, handshake in L'; auto.
    + unfold alen in L'. destruct (in_dec Z.eq_dec r V); lia.
    + intros u v I. destruct (R u v I) as (A & B & D). repeat split; auto. lia.
Qed.
(* without a leaf it is a tree *)
Lemma leaf_split : forall V E y, treeOn V E -> In y V -> deg y E = 1 -> exists x E', In x V /\ x <> y /\
  (forall u v, joined E u v <-> (u = x /\ v = y) \/ (u = y /\ v = x) \/ joined E' u v) /\ treeOn (remove Z.eq_dec y V) E'.
Proof.
  intros V E y T IY DY. pose proof T as (NV & NE & R & C & L).
  assert (exists e, filter (incident y) E = [e]) as (e & FE).
  { unfold deg, alen in DY. destruct (filter (incident y) E) as [|e [|? ?]]; cbn [length] in DY; try lia. eauto. }
  assert (IE : In e E /\ incident y e = true) by (apply filter_In; rewrite FE; left; auto). destruct IE as (IE & CE). destruct e as [a b].
  destruct (R a b IE) as (AB & IA & IB).
  assert (exists x, In x V /\ x <> y /\ ((a = x /\ b = y) \/ (a = y /\ b = x))) as (x & IX & XY & ABX).
  { unfold incident in CE. cbn [fst snd] in CE. destruct (a =? y) eqn:?; [exists b|exists a]; split; auto; split; lia. }
  set (E' := filter (fun e => negb (incident y e)) E).
  assert (JE : forall u v, joined E u v <-> (u = x /\ v = y) \/ (u = y /\ v = x) \/ joined E' u v).
  { assert (IN : forall u v, In (u, v) E -> (u = x /\ v = y) \/ (u = y /\ v = x) \/ In (u, v) E').
    { intros u v I. destruct (incident y (u, v)) eqn:CI.
      - assert (II : In (u, v) (filter (incident y) E)) by (apply filter_In; auto). rewrite FE in II. destruct II as [Q|[]]. inv Q. intuition.
      - right. right. apply filter_In. rewrite CI. auto. }
    intros u v. split.
    - intros [J|J]; apply IN in J; unfold joined; tauto.
    - intros [(-> & ->)|[(-> & ->)|[J|J]]].
      + destruct ABX as [(-> & ->)|(-> & ->)]; [left|right]; auto.
      + destruct ABX as [(-> & ->)|(-> & ->)]; [right|left]; auto.
      + apply filter_In in J as (J & _). left. auto.
      + apply filter_In in J as (J & _). right. auto. }
  assert (NY : forall u v, In (u, v) E' -> In (u, v) E /\ u <> y /\ v <> y).
  { intros u v I. apply filter_In in I as (I & Q). unfold incident in Q. cbn [fst snd] in Q. split; auto. lia. }
  exists x, E'. split; auto. split; auto. split; auto. split; [apply NoDup_rem; auto|]. split; [apply NoDup_filter; auto|]. split; [|split].
  - intros u v I. apply NY in I as (I & A & B). destruct (R u v I) as (D & G & H). rewrite !in_rem. auto.
  - assert (CP : forall u v, conn E u v -> conn E' (if u =? y then x else u) (if v =? y then x else v)).
    { induction 1 as [z|c d I|z t H IHc|z t q H1 IH1 H2 IH2]; [apply conn_refl| |apply conn_sym; auto|eapply conn_trans; eauto].
      assert (J : joined E c d) by (left; auto). apply JE in J. destruct J as [(-> & ->)|[(-> & ->)|J]].
      - rewrite Z.eqb_refl. replace (x =? y) with false by lia. apply conn_refl.
      - rewrite Z.eqb_refl. replace (x =? y) with false by lia. apply conn_refl.
      - assert (CD : c <> y /\ d <> y) by (destruct J as [J|J]; apply NY in J; tauto). destruct CD as (CY & DY'). replace (c =? y) with false by lia. replace (d =? y) with false by lia.
        destruct J as [J|J]; [|apply conn_sym]; apply conn_edge; auto. }
    intros u v U V'. apply in_rem in U as (U & UY). apply in_rem in V' as (V' & VY). pose proof (CP u v (C u v U V')) as Q. replace (u =? y) with false in Q by lia. replace (v =? y) with false in Q by lia. auto.
  - pose proof (filter_split _ (incident y) E) as FS. fold E' in FS. rewrite FE in FS. cbn [length] in FS. rewrite (rem_length y V NV IY) in L. lia.
Qed.
Lemma tree_code : forall k V E, length V = (k + 2)%nat -> treeOn V E -> exists code F, pf V code F /\ length code = k /\ forall u v, joined E u v <-> joined F u v.
Proof.
  induction k as [|k IH]; intros V E LV T; pose proof T as (NV & NE & R & C & L).
  - destruct E as [|[x y] [|? ?]]; try (cbn in L; lia). destruct (R x y (or_introl eq_refl)) as (XY & X & Y). exists [], [(x, y)]. split; [constructor; auto; lia|]. split; auto. tauto.
  - destruct (treeOn_leaf V E 0 T) as (w & IW & _ & DW); [lia|].
    destruct (min_exists (fun v => deg v E =? 1) V w IW) as (y & IY & DY & MN); [lia|]. apply Z.eqb_eq in DY.
    destruct (leaf_split V E y T IY DY) as (x & E' & IX & XY & JE & T').
    destruct (IH (remove Z.eq_dec y V) E') as (code & F & HF & LC & JF); auto.
    { pose proof (rem_length y V NV IY). lia. }
    exists (x :: code), ((x, y) :: F). split; [|split; [cbn [length]; lia|]].
    + constructor; auto.
      * intros [Q|I]; [congruence|]. apply (pf_incl _ _ _ HF) in I. apply in_rem in I. tauto.
      * intros v IV NI. destruct (Z.eq_dec v y) as [->|VY]; [lia|]. apply MN; auto. apply Z.eqb_eq.
        assert (VX : v <> x) by (intros ->; apply NI; left; auto).
        destruct (proj1 (pf_leaf _ _ _ HF v (proj2 (in_rem _ _ _) (conj IV VY)))) as (c & CC); [intro I; apply NI; right; auto|].
        apply (deg_one E v c); auto; [intros u z I; apply R in I; lia|]. intro d. rewrite <- CC, JE, JF. intuition congruence.
    + intros u v. rewrite JE, joined_cons, JF. tauto.
Qed.

(* ---- the loop ---- *)
Lemma aset_at : forall A (l : list A) i a, 0 <= i < alen l -> exists l', aset l i a = Ok l' /\ alen l' = alen l /\
  forall j, 0 <= j < alen l -> aget l' j = if j =? i then Ok a else aget l j.
Proof.
  intros A l i a I. exists (upd l (Z.to_nat i) a). rewrite aset_Ok by auto. split; auto. assert (L : alen (upd l (Z.to_nat i) a) = alen l) by (unfold alen; rewrite upd_length; auto).
  split; auto. intros j J. rewrite !(aget_Ok _ _ _ a) by lia. unfold alen in *. destruct (j =? i) eqn:Q.
  - apply Z.eqb_eq in Q. subst. rewrite nth_upd_same by lia. auto.
  - rewrite nth_upd_other by lia. auto.
Qed.
Definition countsCode (n : Z) (count code : list Z) : Prop := alen count = n /\ forall v, 0 <= v < n -> aget count v = Ok (occurrences v code).
Lemma occ_nonneg : forall v l, 0 <= occurrences v l.
Proof. intros. unfold occurrences, alen. lia. Qed.
Lemma counts_ok : forall n code count done, countsCode n count done -> (forall x, In x code -> 0 <= x < n) ->
  exists count', counts code count = Ok count' /\ alen count' = n /\ forall v, 0 <= v < n -> aget count' v = Ok (occurrences v done + occurrences v code).
Proof.
  induction code as [|x code IH]; intros count done (L & H) R.
  - exists count. cbn [counts]. split; auto. split; auto. intros v V. rewrite H by auto. unfold occurrences at 3, alen. cbn. f_equal. lia.
  - cbn [counts]. pose proof (R x (or_introl eq_refl)) as X. rewrite H by auto. cbn [bind].
    destruct (aset_at _ count x (occurrences x done + 1)) as (c' & -> & L' & A); [lia|]. cbn [bind].
    destruct (IH c' (x :: done)) as (c'' & Q & L'' & A').
    + split; [lia|]. intros v V. rewrite A by lia. rewrite occ_cons, Z.eqb_sym. destruct (x =? v) eqn:XV; [apply Z.eqb_eq in XV; subst; f_equal; lia|]. rewrite H by auto. f_equal.
    + intros; apply R; right; auto.
    + exists c''. split; auto. split; auto. intros v V. rewrite A' by auto. rewrite !occ_cons. f_equal. lia.
Qed.
Lemma counts_init : forall n code, 0 <= n -> (forall x, In x code -> 0 <= x < n) ->
  exists count, counts code (repeat 0 (Z.to_nat n)) = Ok count /\ countsCode n count code.
Proof.
  intros n code N R. destruct (counts_ok n code (repeat 0 (Z.to_nat n)) []) as (c & Q & L & H); auto.
  - split; [unfold alen; rewrite repeat_length; lia|]. intros v V. rewrite (aget_Ok _ _ _ 0) by (unfold alen; rewrite repeat_length; lia). rewrite nth_repeat. auto.
  - exists c. split; auto. split; auto.
Qed.
Lemma scan_ok : forall n count code w fuel c, countsCode n count code -> 0 <= c <= w -> w < n -> ~ In w code -> w - c < Z.of_nat fuel ->
  exists y, scan fuel count c = Ok y /\ c <= y <= w /\ ~ In y code /\ forall v, c <= v < y -> In v code.
Proof.
  induction fuel as [|fuel IH]; intros c H C W NW F; [lia|]. cbn [scan]. rewrite (proj2 H) by lia. cbn [bind]. destruct (0 <? occurrences c code) eqn:Q.
  - assert (In c code). { destruct (in_dec Z.eq_dec c code); auto. apply occ_notin in n0. lia. }
    assert (c <> w) by (intros ->; tauto). destruct (IH (c + 1)) as (y & Y & R & NY & A); auto; try lia. exists y. split; auto. split; [lia|]. split; auto.
    intros v V. destruct (Z.eq_dec v c) as [->|]; auto. apply A. lia.
  - exists c. split; auto. split; [lia|]. split; [apply occ_notin; pose proof (occ_nonneg c code); lia|]. intros. lia.
Qed.

(* what current and skip remember: no leaf up to current but skip *)
Definition loopInv (n : Z) (V code : list Z) (current skip : Z) : Prop :=
  -1 <= current < n /\ (forall v, In v V -> 0 <= v < n) /\ (forall v, current < v < n -> In v V) /\
  (forall v, In v V -> v <= current -> ~ In v code -> v = skip) /\ (0 <= skip -> In skip V /\ ~ In skip code).
Lemma leaf_exists : forall V code : list Z, NoDup V -> (length code < length V)%nat -> exists v, In v V /\ ~ In v code.
Proof.
  intros V code N L. destruct (existsb (fun v => if in_dec Z.eq_dec v code then false else true) V) eqn:Q.
  - apply existsb_exists in Q as (v & I & H). exists v. split; auto. destruct (in_dec Z.eq_dec v code); auto. discriminate.
  - exfalso. assert (incl V code). { intros v I. destruct (in_dec Z.eq_dec v code) as [|H]; auto. exfalso. assert (X : existsb (fun v => if in_dec Z.eq_dec v code then false else true) V = true); [|congruence].
      apply existsb_exists. exists v. split; auto. destruct (in_dec Z.eq_dec v code); auto. }
    apply NoDup_incl_length in H; auto. lia.
Qed.
Lemma getNext_ok : forall n V code count current skip, countsCode n count code -> NoDup V -> (length code < length V)%nat -> loopInv n V code current skip ->
  exists y cur, getNext count current skip = Ok (y, cur) /\ In y V /\ ~ In y code /\ (forall v, In v V -> ~ In v code -> y <= v) /\
    loopInv n (remove Z.eq_dec y V) code cur (-1).
Proof.
  intros n V code count current skip CC N L (I1 & I2 & I3 & I4 & I5). destruct (leaf_exists V code N L) as (w & W & NW). unfold getNext.
  destruct ((0 <=? skip) && (skip <=? current)) eqn:Q.
  - exists skip, current. destruct I5 as (S1 & S2); [lia|]. split; auto. split; auto. split; auto. assert (MN : forall v, In v V -> ~ In v code -> skip <= v).
    { intros v V' NV. destruct (Z_le_dec v current) as [LE|]; [|lia]. rewrite (I4 v V' LE NV). lia. }
    split; auto. split; [lia|]. split; [intros v J; apply in_rem in J as (J & _); auto|]. split; [intros v J; apply in_rem; split; [apply I3; auto|lia]|].
    split; [|lia]. intros v J LE NV. apply in_rem in J as (J & NE). exfalso. apply NE. auto.
  - assert (NL : forall v, In v V -> ~ In v code -> current < v).
    { intros v V' NV. destruct (Z_le_dec v current) as [LE|]; [|lia]. pose proof (I4 v V' LE NV). subst v. pose proof (I2 _ V'). lia. }
    pose proof (NL w W NW) as CW. pose proof (I2 w W). destruct (scan_ok n count code w (length count) (current + 1) CC) as (y & Y & RY & NY & MY); auto; try lia.
    { destruct CC as (LC & _). unfold alen in LC. lia. }
    exists y, y. rewrite Y. cbn [bind]. split; auto. split; [apply I3; lia|]. split; auto.
    assert (MN : forall v, In v V -> ~ In v code -> y <= v). { intros v V' NV. pose proof (NL v V' NV). destruct (Z_le_dec y v); auto. exfalso. apply NV. apply MY. lia. }
    split; auto. split; [lia|]. split; [intros v J; apply in_rem in J as (J & _); auto|]. split; [intros v J; apply in_rem; split; [apply I3; lia|lia]|].
    split; [|lia]. intros v J LE NV. apply in_rem in J as (J & NE). exfalso. apply NE. pose proof (MN v J NV). lia.
Qed.
Lemma prueferLoop_pf : forall n code V count current skip, countsCode n count code -> NoDup V -> length V = (length code + 2)%nat -> incl code V ->
  loopInv n V code current skip -> exists E, prueferLoop code count current skip = Ok E /\ pf V code E.
Proof.
  induction code as [|x code IH]; intros V count current skip CC N L IC INV.
  - cbn [prueferLoop]. destruct (getNext_ok n V [] count current skip CC N) as (x & cur & -> & X & _ & MX & INV'); auto; [cbn in *; lia|]. cbn [bind].
    destruct (getNext_ok n (remove Z.eq_dec x V) [] count cur (-1) CC (NoDup_rem _ _ N)) as (y & cur' & -> & Y & _); auto.
    { rewrite (rem_length x V N X) in L. cbn in *. lia. } cbn [bind]. apply in_rem in Y as (Y & NE). exists [(x, y)]. split; auto. constructor; auto.
  - cbn [prueferLoop]. destruct (getNext_ok n V (x :: code) count current skip CC N) as (y & cur & -> & Y & NY & MN & INV'); auto; [cbn in *; lia|]. cbn [bind].
    assert (XV : In x V) by (apply IC; left; auto). assert (XN : 0 <= x < n) by (destruct INV as (_ & I2 & _); auto).
    rewrite (proj2 CC) by auto. cbn [bind]. rewrite occ_cons, Z.eqb_refl. replace (1 + occurrences x code - 1) with (occurrences x code) by lia.
    destruct (aset_at _ count x (occurrences x code)) as (c' & -> & LC & AC); [destruct CC; lia|]. cbn [bind].
    assert (XY : x <> y) by (intros ->; apply NY; left; auto).
    destruct (IH (remove Z.eq_dec y V) c' cur (if occurrences x code =? 0 then x else -1)) as (E & -> & HE).
    + destruct CC as (CL & CC). split; [lia|]. intros v V'. rewrite AC by lia. destruct (v =? x) eqn:Q; [apply Z.eqb_eq in Q; subst; auto|]. rewrite CC by auto. rewrite occ_cons. replace (x =? v) with false by lia. auto.
    + apply NoDup_rem; auto.
    + rewrite (rem_length y V N Y) in L. cbn in L. lia.
    + intros v J. apply in_rem. split; [apply IC; right; auto|]. intros ->. apply NY. right. auto.
    + destruct INV' as (J1 & J2 & J3 & J4 & J5). split; auto. split; auto. split; auto. split.
      * intros v J LE NV. destruct (Z.eq_dec v x) as [->|NE].
        -- apply occ_notin in NV. rewrite NV. auto.
        -- pose proof (J4 v J LE) as Q. rewrite Q in J; [|intros [A|A]; [congruence|tauto]]. pose proof (J2 _ J). lia.
      * destruct (occurrences x code =? 0) eqn:Q; [|lia]. intros _. split; [apply in_rem; auto|]. apply occ_notin. lia.
    + cbn [bind]. exists ((x, y) :: E). split; auto. constructor; auto.
Qed.
