From Verif Require Import Tac RndModel RandSeqModel RndLemmas GraphModel GraphSpec.
From Coq Require Import Permutation.

Lemma conn_snoc : forall E a b x y, conn (E ++ [(a, b)]) x y <->
  conn E x y \/ (conn E x a /\ conn E b y) \/ (conn E x b /\ conn E a y).
Proof.
  intros E a b x y. split.
  - intros H. induction H.
    + left. constructor.
    + apply in_app_iff in H. destruct H as [H | [H | []]].
      * left. apply conn_edge. exact H.
      * inv H. right. left. split; constructor.
    + destruct IHconn as [I | [[I1 I2] | [I1 I2]]].
      * left. apply conn_sym. exact I.
      * right. right. split; apply conn_sym; assumption.
      * right. left. split; apply conn_sym; assumption.
    + destruct IHconn1 as [I | [[I1 I2] | [I1 I2]]]; destruct IHconn2 as [J | [[J1 J2] | [J1 J2]]];
        eauto 6 using conn_trans.
      (* the remaining cases pass the new edge twice *)
  - assert (M : forall u v, conn E u v -> conn (E ++ [(a, b)]) u v).
    { intros u v H. induction H; eauto using conn.
      apply conn_edge. apply in_app_iff. auto. }
    assert (N : conn (E ++ [(a, b)]) a b) by (apply conn_edge; apply in_app_iff; right; left; reflexivity).
    intros [H | [[H1 H2] | [H1 H2]]]; eauto 6 using conn_trans, conn_sym.
Qed.

Lemma conn_mono : forall E F x y, incl E F -> conn E x y -> conn F x y.
Proof. intros E F x y I H. induction H; eauto using conn. Qed.

Definition g (u : list Z) (x : Z) : Z := nth (Z.to_nat x) u 0.
Notation inr u x := (0 <= x < alen u).

Lemma g_upd : forall u x v y, inr u x -> 0 <= y -> g (upd u (Z.to_nat x) v) y = if y =? x then v else g u y.
Proof.
  intros u x v y Hx Hy. unfold g, alen in *. destruct (y =? x) eqn:E.
  - replace y with x by lia. apply nth_upd_same. lia.
  - apply nth_upd_other. lia.
Qed.
Lemma alen_upd : forall (u : list Z) x v, alen (upd u (Z.to_nat x) v) = alen u.
Proof. intros. unfold alen. rewrite upd_length. reflexivity. Qed.

Inductive Root (u : list Z) : Z -> Z -> Prop :=
| Root_here : forall x, inr u x -> g u x < 0 -> Root u x x
| Root_up : forall x r, inr u x -> 0 <= g u x -> Root u (g u x) r -> Root u x r.

Definition nroots (u : list Z) : Z := Z.of_nat (length (filter (fun v => v <? 0) u)).

Record wfr (rk : Z -> Z) (u : list Z) : Prop := {
  wf_par : forall x, inr u x -> 0 <= g u x -> g u x < alen u /\ rk x < rk (g u x);
  wf_root : forall x, inr u x -> g u x < 0 -> rk x = - 1 - g u x;
  wf_bound : forall x, inr u x -> g u x < 0 -> - 1 - g u x <= alen u - nroots u
}.

Record same (rk : Z -> Z) (u u' : list Z) : Prop := {
  same_len : alen u' = alen u;
  same_wf : wfr rk u';
  same_root : forall y, inr u y -> g u y < 0 -> g u' y = g u y;
  same_inner : forall y, inr u y -> 0 <= g u y -> 0 <= g u' y;
  same_Root : forall y r, Root u y r <-> Root u' y r;
  same_nroots : nroots u' = nroots u
}.

Lemma Root_fun : forall u x r, Root u x r -> forall s, Root u x s -> r = s.
Proof.
  induction 1; intros s Hs.
  - inversion Hs; subst; [reflexivity | lia].
  - inversion Hs; subst; [lia | auto].
Qed.
Lemma Root_rng : forall u x r, Root u x r -> inr u x /\ inr u r /\ g u r < 0.
Proof. induction 1; intuition auto. Qed.
Lemma Root_self : forall u x r, Root u x r -> Root u r r.
Proof. induction 1; auto. constructor; auto. Qed.
Lemma Root_rk : forall rk u x r, wfr rk u -> Root u x r -> x = r \/ rk x < rk r.
Proof.
  intros rk u x r W H. induction H; auto. right.
  destruct (wf_par _ _ W x H H0) as [_ L]. destruct IHRoot; [congruence | lia].
Qed.

Lemma nroots_upd : forall u x v, inr u x ->
  nroots (upd u (Z.to_nat x) v) = nroots u - (if g u x <? 0 then 1 else 0) + (if v <? 0 then 1 else 0).
Proof.
  intros u x v H. unfold g, alen, nroots in *. assert (L : (Z.to_nat x < length u)%nat) by lia. revert L. clear H.
  generalize (Z.to_nat x) as k. induction u as [| w u IH]; intros k L; [simpl in L; lia |].
  destruct k as [| k]; cbn [upd filter nth].
  - destruct (v <? 0), (w <? 0); cbn [length]; lia.
  - specialize (IH k ltac:(simpl in L; lia)). destruct (w <? 0); cbn [length]; lia.
Qed.

Lemma same_refl : forall rk u, wfr rk u -> same rk u u.
Proof. intros rk u W. constructor; auto; intros; tauto. Qed.
Lemma same_trans : forall rk u v w, same rk u v -> same rk v w -> same rk u w.
Proof.
  intros rk u v w [A1 A2 A3 A4 A5 A6] [B1 B2 B3 B4 B5 B6]. constructor; auto.
  - congruence.
  - intros y Hy Hn. rewrite B3; auto; rewrite ?A1; auto. rewrite A3; auto.
  - intros y Hy Hn. apply B4; rewrite ?A1; auto.
  - intros y r. rewrite A5, B5. tauto.
  - congruence.
Qed.

Lemma compress : forall rk u x r, wfr rk u -> Root u x r -> 0 <= g u x -> same rk u (upd u (Z.to_nat x) r).
Proof.
  intros rk u x r W R Hx. destruct (Root_rng _ _ _ R) as (Ix & Ir & Gr).
  assert (Nrx : r <> x) by (intros ->; lia).
  assert (Lt : rk x < rk r) by (destruct (Root_rk _ _ _ _ W R); [congruence | auto]).
  pose proof (alen_upd u x r) as AL.
  assert (NR : nroots (upd u (Z.to_nat x) r) = nroots u).
  { rewrite nroots_upd by auto. replace (g u x <? 0) with false by lia. replace (r <? 0) with false by lia. lia. }
  constructor.
  - exact AL.
  - constructor.
    + intros y Hy Hg. rewrite AL in *. rewrite g_upd in * by lia. destruct (y =? x) eqn:E.
      * replace y with x by lia. split; lia.
      * apply (wf_par _ _ W); auto.
    + intros y Hy Hg. rewrite AL in *. rewrite g_upd in * by lia. destruct (y =? x) eqn:E; [lia |].
      apply (wf_root _ _ W); auto.
    + intros y Hy Hg. rewrite AL in *. rewrite g_upd in * by lia. rewrite NR. destruct (y =? x) eqn:E; [lia |].
      apply (wf_bound _ _ W); auto.
  - intros y Hy Hg. rewrite g_upd by lia. destruct (y =? x) eqn:E; [replace y with x in Hg by lia; lia | auto].
  - intros y Hy Hg. rewrite g_upd by lia. destruct (y =? x) eqn:E; [lia | auto].
  - intros y s. split; intros H.
    + induction H.
      * apply Root_here; [rewrite AL; auto |]. rewrite g_upd by lia.
        destruct (x0 =? x) eqn:E; [replace x0 with x in * by lia; lia | auto].
      * destruct (x0 =? x) eqn:E.
        -- assert (x0 = x) by lia. subst x0. assert (r0 = r) by (eapply Root_fun; [econstructor 2 |]; eauto). subst r0.
           apply Root_up; rewrite ?AL, ?g_upd by lia; rewrite ?E; auto; try lia.
           apply Root_here; [rewrite AL; auto |]. rewrite g_upd by lia. destruct (r =? x) eqn:E2; [lia | auto].
        -- apply Root_up; rewrite ?AL, ?g_upd by lia; rewrite ?E; auto.
    + induction H.
      * rewrite AL in *. rewrite g_upd in H0 by lia. destruct (x0 =? x) eqn:E; [lia |]. apply Root_here; auto.
      * rewrite AL in *. rewrite g_upd in * by lia. destruct (x0 =? x) eqn:E.
        -- assert (x0 = x) by lia. subst x0. assert (r = r0).
           { eapply Root_fun; [| exact IHRoot]. eapply Root_self; eauto. }
           subst r0. exact R.
        -- apply Root_up; auto.
  - exact NR.
Qed.

(* number of nodes of larger rank: bounds the recursion *)
Definition above (rk : Z -> Z) (u : list Z) (x : Z) : nat :=
  length (filter (fun y => rk x <? rk y) (zseq 0 (length u))).

Lemma filter_strict : forall (p q : Z -> bool) l z, (forall y, p y = true -> q y = true) ->
  In z l -> p z = false -> q z = true -> (length (filter p l) < length (filter q l))%nat.
Proof.
  intros p q l z HI. assert (M : forall m, (length (filter p m) <= length (filter q m))%nat).
  { induction m as [| y m IH]; simpl; auto. specialize (HI y). destruct (p y) eqn:E; [rewrite HI by auto; simpl; lia |].
    destruct (q y); simpl; lia. }
  induction l as [| y l IH]; intros Hin Hp Hq; [destruct Hin |]. cbn [filter]. destruct Hin as [-> | Hin].
  - rewrite Hp, Hq. simpl. specialize (M l). lia.
  - specialize (IH Hin Hp Hq). pose proof (HI y) as HIy. destruct (p y); [rewrite HIy by auto; simpl; lia |].
    destruct (q y); simpl; lia.
Qed.

Lemma above_lt : forall rk u x y, inr u y -> rk x < rk y -> (above rk u y < above rk u x)%nat.
Proof.
  intros rk u x y Hy H. unfold above. apply filter_strict with y.
  - intros z. lia.
  - apply in_zseq. unfold alen in Hy. lia.
  - lia.
  - lia.
Qed.
Lemma above_top : forall rk u x, inr u x -> (above rk u x < length u)%nat.
Proof.
  intros rk u x Hx. unfold above.
  assert (E : length u = length (filter (fun _ : Z => true) (zseq 0 (length u)))).
  { transitivity (length (zseq 0 (length u))); [symmetry; apply zseq_length |].
    generalize (zseq 0 (length u)) as l. induction l; simpl; auto. }
  rewrite E at 2. apply filter_strict with x; auto.
  - apply in_zseq. unfold alen in Hx. lia.
  - lia.
Qed.

Lemma findSet_ok : forall f rk u x, wfr rk u -> inr u x -> (above rk u x < f)%nat ->
  exists r u', findSet f u x = Ok (r, u') /\ Root u x r /\ same rk u u'.
Proof.
  induction f; intros rk u x W Hx Hf; [lia |].
  cbn [findSet]. rewrite (aget_Ok _ u x 0) by exact Hx. cbn [bind]. fold (g u x).
  destruct (g u x <? 0) eqn:E.
  - exists x, u. split; [reflexivity |]. split; [apply Root_here; auto; lia | apply same_refl; exact W].
  - assert (Hp : 0 <= g u x) by lia. destruct (wf_par _ _ W x Hx Hp) as [P1 P2].
    destruct (IHf rk u (g u x) W ltac:(lia)) as (r & u' & F1 & F2 & F3).
    { pose proof (above_lt rk u x (g u x) ltac:(lia) P2). lia. }
    rewrite F1. cbn [bind]. rewrite aset_Ok by (rewrite (same_len _ _ _ F3); exact Hx). cbn [bind].
    exists r, (upd u' (Z.to_nat x) r). split; [reflexivity |].
    assert (R : Root u x r) by (apply Root_up; auto). split; [exact R |].
    eapply same_trans; [exact F3 |]. apply compress.
    + exact (same_wf _ _ _ F3).
    + apply (same_Root _ _ _ F3). exact R.
    + apply (same_inner _ _ _ F3); auto.
Qed.

Lemma find_ok : forall rk u x, wfr rk u -> inr u x ->
  exists r u', find u x = Ok (r, u') /\ Root u x r /\ same rk u u'.
Proof. intros. apply findSet_ok; auto. apply above_top. exact H0. Qed.

(* ---- linking two roots ---- *)
Lemma Root_link : forall u u' a b, alen u' = alen u -> Root u a a -> Root u b b -> a <> b ->
  g u' a = b -> g u' b < 0 -> (forall y, inr u y -> y <> a -> y <> b -> g u' y = g u y) ->
  (forall y s, Root u' y s <-> (Root u y a /\ s = b) \/ (Root u y s /\ s <> a)).
Proof.
  intros u u' a b AL Ra Rb N Ga Gb Go.
  destruct (Root_rng _ _ _ Ra) as (Ia & _ & Na). destruct (Root_rng _ _ _ Rb) as (Ib & _ & Nb).
  assert (Rb' : Root u' b b) by (apply Root_here; rewrite ?AL; auto).
  intros y s. split.
  - intros H. induction H.
    + rewrite AL in *. destruct (Z.eq_dec x a) as [-> | Nx]; [lia |]. right. split; [| auto].
      destruct (Z.eq_dec x b) as [-> | Nb']; [exact Rb |]. apply Root_here; auto. rewrite <- Go; auto.
    + rewrite AL in *. destruct (Z.eq_dec x a) as [-> | Nx].
      * rewrite Ga in *. assert (r = b).
        { eapply Root_fun; eauto. }
        left. auto.
      * destruct (Z.eq_dec x b) as [-> | Nb']; [lia |]. rewrite Go in * by auto.
        destruct IHRoot as [[I1 I2] | [I1 I2]]; [left | right]; split; auto; apply Root_up; auto.
  - intros [[H ->] | [H Ns]].
    + assert (G : forall y s, Root u y s -> s = a -> Root u' y b).
      { clear H. induction 1; intros Hs.
        - subst x. apply Root_up; rewrite ?AL; auto; rewrite Ga; auto. lia.
        - subst r. specialize (IHRoot eq_refl). assert (x <> a) by (intros ->; lia).
          assert (x <> b) by (intros ->; lia). apply Root_up; rewrite ?AL, ?Go; auto. }
      eauto.
    + induction H.
      * destruct (Z.eq_dec x b) as [-> | Nb']; [exact Rb' |]. apply Root_here; rewrite ?AL, ?Go; auto.
      * assert (x <> a) by (intros ->; lia). assert (x <> b) by (intros ->; lia).
        apply Root_up; rewrite ?AL, ?Go; auto.
Qed.

Lemma link_ok : forall rk u a b, wfr rk u -> Root u a a -> Root u b b -> a <> b -> is_i64 (alen u) ->
  exists u' rk', linkSets u a b = Ok u' /\ wfr rk' u' /\ alen u' = alen u /\ nroots u' = nroots u - 1 /\
    (forall x y, (exists s, Root u' x s /\ Root u' y s) <->
       (exists s, Root u x s /\ Root u y s) \/ (Root u x a /\ Root u y b) \/ (Root u x b /\ Root u y a)).
Proof.
  intros rk u a b W Ra Rb N HL.
  destruct (Root_rng _ _ _ Ra) as (Ia & _ & Na). destruct (Root_rng _ _ _ Rb) as (Ib & _ & Nb).
  assert (J : forall c d u', ((c = a /\ d = b) \/ (c = b /\ d = a)) -> alen u' = alen u -> g u' c = d -> g u' d < 0 ->
     (forall y, inr u y -> y <> c -> y <> d -> g u' y = g u y) ->
     (forall x y, (exists s, Root u' x s /\ Root u' y s) <->
       (exists s, Root u x s /\ Root u y s) \/ (Root u x a /\ Root u y b) \/ (Root u x b /\ Root u y a))).
  { intros c d u' Hcd AL Gc Gd Go x y.
    assert (Rc : Root u c c) by (destruct Hcd as [[-> ->] | [-> ->]]; auto).
    assert (Rd : Root u d d) by (destruct Hcd as [[-> ->] | [-> ->]]; auto).
    assert (Ncd : c <> d) by (destruct Hcd as [[-> ->] | [-> ->]]; auto).
    pose proof (Root_link u u' c d AL Rc Rd Ncd Gc Gd Go) as K.
    assert (Sw : (Root u x a /\ Root u y b) \/ (Root u x b /\ Root u y a) <->
                 (Root u x c /\ Root u y d) \/ (Root u x d /\ Root u y c)).
    { destruct Hcd as [[-> ->] | [-> ->]]; tauto. }
    rewrite Sw. split.
    - intros (s & H1 & H2). apply K in H1. apply K in H2.
      destruct H1 as [[H1 ->] | [H1 Ns]]; destruct H2 as [[H2 E2] | [H2 Ns2]].
      + left. exists c. auto.
      + right. left. auto.
      + subst s. right. right. auto.
      + left. exists s. auto.
    - intros [(s & H1 & H2) | [[H1 H2] | [H1 H2]]].
      + destruct (Z.eq_dec s c) as [-> | Ns].
        * exists d. split; apply K; left; auto.
        * exists s. split; apply K; right; auto.
      + exists d. split; apply K; [left | right]; auto.
      + exists d. split; apply K; [right | left]; auto. }
  unfold linkSets. rewrite (aget_Ok _ u a 0), (aget_Ok _ u b 0) by auto. cbn [bind]. fold (g u a). fold (g u b).
  pose proof (wf_root _ _ W a Ia Na) as Ka. pose proof (wf_root _ _ W b Ib Nb) as Kb.
  (* one root hangs below a root of larger rank *)
  assert (S : forall c d, ((c = a /\ d = b) \/ (c = b /\ d = a)) -> g u d < g u c ->
     exists u' rk', Ok (upd u (Z.to_nat c) d) = Ok u' /\ wfr rk' u' /\ alen u' = alen u /\ nroots u' = nroots u - 1 /\
    (forall x y, (exists s, Root u' x s /\ Root u' y s) <->
       (exists s, Root u x s /\ Root u y s) \/ (Root u x a /\ Root u y b) \/ (Root u x b /\ Root u y a))).
  { intros c d Hcd Hlt.
    assert (Ic : inr u c) by (destruct Hcd as [[-> ->] | [-> ->]]; auto).
    assert (Id : inr u d) by (destruct Hcd as [[-> ->] | [-> ->]]; auto).
    assert (Nc : g u c < 0) by (destruct Hcd as [[-> ->] | [-> ->]]; auto).
    assert (Nd : g u d < 0) by (destruct Hcd as [[-> ->] | [-> ->]]; auto).
    assert (Kc : rk c = - 1 - g u c) by (apply (wf_root _ _ W); auto).
    assert (Kd : rk d = - 1 - g u d) by (apply (wf_root _ _ W); auto).
    assert (Ncd : c <> d) by (destruct Hcd as [[-> ->] | [-> ->]]; auto).
    assert (NR : nroots (upd u (Z.to_nat c) d) = nroots u - 1).
    { rewrite nroots_upd by auto. replace (g u c <? 0) with true by lia. replace (d <? 0) with false by lia. lia. }
    exists (upd u (Z.to_nat c) d), rk. split; [reflexivity |]. split; [| split; [apply alen_upd | split; [exact NR |]]].
    - constructor; intros x; rewrite alen_upd; intros Hx; rewrite g_upd by lia; destruct (x =? c) eqn:E; intros Hg; try lia.
      + replace x with c by lia. lia.
      + apply (wf_par _ _ W); auto.
      + apply (wf_root _ _ W); auto.
      + rewrite NR. pose proof (wf_bound _ _ W x Hx Hg). lia.
    - apply (J c d); auto.
      + apply alen_upd.
      + rewrite g_upd by lia. rewrite Z.eqb_refl. reflexivity.
      + rewrite g_upd by lia. replace (d =? c) with false by lia. exact Nd.
      + intros y Hy Hc Hd. rewrite g_upd by lia. replace (y =? c) with false by lia. reflexivity. }
  destruct (g u b <? g u a) eqn:E1; [rewrite aset_Ok by auto; apply S; auto; lia |].
  destruct (g u a <? g u b) eqn:E2; [rewrite aset_Ok by auto; apply S; auto; lia |].
  clear S. rewrite aset_Ok by auto. cbn [bind].
  rewrite (aget_Ok _ _ b 0) by (rewrite alen_upd; auto). cbn [bind]. fold (g (upd u (Z.to_nat a) b) b).
  rewrite g_upd by lia. replace (b =? a) with false by lia.
  assert (NB := wf_bound _ _ W b Ib Nb).
  assert (NR2 : 2 <= nroots u).
  { assert (nroots u - 1 >= 1); [| lia].
    assert (Z0 : nroots (upd u (Z.to_nat a) 0) = nroots u - 1).
    { rewrite nroots_upd by auto. replace (g u a <? 0) with true by lia. change (0 <? 0) with false. cbv iota. lia. }
    assert (Z1 : nroots (upd (upd u (Z.to_nat a) 0) (Z.to_nat b) 0) = nroots u - 2).
    { rewrite nroots_upd by (rewrite alen_upd; auto). rewrite g_upd by lia. replace (b =? a) with false by lia.
      replace (g u b <? 0) with true by lia. rewrite Z0. change (0 <? 0) with false. cbv iota. lia. }
    assert (0 <= nroots (upd (upd u (Z.to_nat a) 0) (Z.to_nat b) 0)) by (unfold nroots; lia). lia. }
  rewrite chk_Ok by (mach; lia). cbn [bind]. rewrite aset_Ok by (rewrite alen_upd; auto).
  set (u' := upd (upd u (Z.to_nat a) b) (Z.to_nat b) (g u b - 1)).
  assert (AL : alen u' = alen u) by (unfold u'; rewrite !alen_upd; reflexivity).
  assert (GU : forall x, 0 <= x -> g u' x = if x =? b then g u b - 1 else if x =? a then b else g u x).
  { intros x Hx. unfold u'. rewrite g_upd by (rewrite ?alen_upd; lia). destruct (x =? b); auto. apply g_upd; lia. }
  assert (NR : nroots u' = nroots u - 1).
  { unfold u'. rewrite nroots_upd by (rewrite alen_upd; auto). rewrite nroots_upd by auto. rewrite g_upd by lia.
    replace (b =? a) with false by lia. replace (g u a <? 0) with true by lia. replace (g u b <? 0) with true by lia.
    replace (b <? 0) with false by lia. replace (g u b - 1 <? 0) with true by lia. lia. }
  exists u', (fun x => if x =? b then rk b + 1 else rk x).
  split; [reflexivity |]. split; [| split; [exact AL | split; [exact NR |]]].
  - constructor; intros x; rewrite AL; intros Hx; rewrite GU by lia; intros Hg.
    + destruct (x =? b) eqn:F1; [lia |]. destruct (x =? a) eqn:F2.
      * rewrite Z.eqb_refl. replace x with a by lia. lia.
      * destruct (wf_par _ _ W x Hx Hg) as [P1 P2]. split; [lia |]. destruct (g u x =? b) eqn:F3; [| lia].
        replace (g u x) with b in P2 by lia. lia.
    + destruct (x =? b) eqn:F1; [lia |]. destruct (x =? a) eqn:F2; [lia |]. apply (wf_root _ _ W); auto.
    + rewrite NR. destruct (x =? b) eqn:F1.
      * replace x with b in * by lia. lia.
      * destruct (x =? a) eqn:F2; [lia |]. pose proof (wf_bound _ _ W x Hx Hg). lia.
  - apply (J a b); auto.
    + rewrite GU by lia. replace (a =? b) with false by lia. rewrite Z.eqb_refl. reflexivity.
    + rewrite GU by lia. rewrite Z.eqb_refl. lia.
    + intros y Hy H1 H2. rewrite GU by lia. replace (y =? b) with false by lia. replace (y =? a) with false by lia. reflexivity.
Qed.

(* ---- the representation invariant ---- *)
Record ufInv (u : list Z) (E : list (Z * Z)) : Prop := {
  inv_rk : exists rk, wfr rk u;
  inv_conn : forall x y, inr u x -> inr u y -> (conn E x y <-> exists r, Root u x r /\ Root u y r);
  inv_edges : edgesIn 0 (alen u) E;
  inv_len : is_i64 (alen u)
}.

Lemma ufInv_same : forall rk u u' E, ufInv u E -> same rk u u' -> ufInv u' E.
Proof.
  intros rk u u' E I S. destruct S as [A1 A2 A3 A4 A5 A6]. constructor.
  - exists rk. exact A2.
  - intros x y. rewrite A1. intros Hx Hy. rewrite (inv_conn _ _ I) by auto.
    split; intros (r & H1 & H2); exists r; split; apply A5; auto.
  - rewrite A1. exact (inv_edges _ _ I).
  - rewrite A1. exact (inv_len _ _ I).
Qed.

Lemma conn_rng : forall E n x y, edgesIn 0 n E -> conn E x y -> x = y \/ (0 <= x < n /\ 0 <= y < n).
Proof.
  intros E n x y HE H. induction H; auto.
  - right. unfold edgesIn in HE. rewrite Forall_forall in HE. specialize (HE _ H). exact HE.
  - destruct IHconn as [-> | [A B]]; auto.
  - destruct IHconn1 as [-> | [A B]]; auto. destruct IHconn2 as [<- | [C D]]; auto.
Qed.

Lemma find_inv : forall u E x, ufInv u E -> inr u x ->
  exists r u', find u x = Ok (r, u') /\ Root u x r /\ ufInv u' E /\ alen u' = alen u /\ nroots u' = nroots u /\
    (forall y s, Root u y s <-> Root u' y s).
Proof.
  intros u E x I Hx. destruct (inv_rk _ _ I) as [rk W]. destruct (find_ok rk u x W Hx) as (r & u' & F1 & F2 & F3).
  exists r, u'. repeat split; auto; try (eapply ufInv_same; eauto); try apply F3; destruct F3; auto.
Qed.

Lemma connected_inv : forall u E a b, ufInv u E -> inr u a -> inr u b ->
  exists c u', ufConnected u a b = Ok (c, u') /\ (c = true <-> conn E a b) /\ ufInv u' E /\
    alen u' = alen u /\ nroots u' = nroots u.
Proof.
  intros u E a b I Ha Hb. unfold ufConnected.
  destruct (find_inv u E a I Ha) as (x & u1 & F1 & R1 & I1 & L1 & N1 & S1). rewrite F1. cbn [bind].
  destruct (find_inv u1 E b I1 ltac:(rewrite L1; auto)) as (y & u2 & F2 & R2 & I2 & L2 & N2 & S2). rewrite F2. cbn [bind].
  exists (x =? y), u2. split; [reflexivity |]. split; [| split; [exact I2 | split; congruence]].
  apply S1 in R2. rewrite (inv_conn _ _ I) by auto. split.
  - intros E0. exists x. split; auto. replace x with y by lia. exact R2.
  - intros (r & H1 & H2). assert (x = r) by (eapply Root_fun; eauto). assert (y = r) by (eapply Root_fun; eauto). lia.
Qed.

Lemma union_inv : forall u E a b, ufInv u E -> inr u a -> inr u b ->
  exists j u', unionSets u a b = Ok (j, u') /\ (j = true <-> ~ conn E a b) /\ ufInv u' (E ++ [(a, b)]) /\
    alen u' = alen u /\ nroots u' = nroots u - (if j then 1 else 0).
Proof.
  intros u E a b I Ha Hb. unfold unionSets.
  destruct (connected_inv u E a b I Ha Hb) as (c & u1 & C1 & C2 & I1 & L1 & N1). rewrite C1. cbn [bind].
  assert (HE : edgesIn 0 (alen u) (E ++ [(a, b)])).
  { apply Forall_app. split; [exact (inv_edges _ _ I) |]. constructor; [split; simpl; auto | constructor]. }
  destruct c.
  - exists false, u1. split; [reflexivity |]. split; [split; [discriminate | intros H; exfalso; apply H; apply C2; reflexivity] |].
    split; [| split; [exact L1 | rewrite N1; lia]].
    constructor; rewrite ?L1; auto; try apply I1; try apply I.
    intros x y Hx Hy. rewrite <- (inv_conn _ _ I1) by (rewrite L1; auto). rewrite conn_snoc.
    assert (conn E a b) by (apply C2; reflexivity). split; [| auto].
    intros [H1 | [[H1 H2] | [H1 H2]]]; eauto using conn_trans, conn_sym.
  - destruct (find_inv u1 E a I1 ltac:(rewrite L1; auto)) as (x & u2 & F2 & R2 & I2 & L2 & N2 & S2). rewrite F2. cbn [bind].
    destruct (find_inv u2 E b I2 ltac:(rewrite L2, L1; auto)) as (y & u3 & F3 & R3 & I3 & L3 & N3 & S3). rewrite F3. cbn [bind].
    apply S2, S3 in R2. apply S3 in R3.
    assert (Nc : ~ conn E a b) by (intros H; apply C2 in H; discriminate).
    assert (L : alen u3 = alen u) by congruence.
    assert (Nxy : x <> y).
    { intros ->. apply Nc. apply (inv_conn _ _ I3); rewrite ?L; auto. exists y. auto. }
    destruct (inv_rk _ _ I3) as [rk W3].
    destruct (link_ok rk u3 x y W3) as (u4 & rk4 & K1 & K2 & K3 & K4 & K5); auto.
    { eapply Root_self; eauto. } { eapply Root_self; eauto. } { apply I3. }
    rewrite K1. cbn [bind]. exists true, u4. split; [reflexivity |]. split; [tauto |].
    split; [| split; [congruence | lia]].
    constructor.
    + exists rk4. exact K2.
    + intros p q. rewrite K3, L. intros Hp Hq. rewrite K5. rewrite conn_snoc.
      rewrite !(inv_conn _ _ I3) by (rewrite L; auto).
      assert (Q : forall z, (exists r, Root u3 z r /\ Root u3 a r) <-> Root u3 z x).
      { intros z. split; [intros (r & H1 & H2); assert (x = r) by (eapply Root_fun; eauto); congruence | intros; exists x; auto]. }
      assert (Q' : forall z, (exists r, Root u3 z r /\ Root u3 b r) <-> Root u3 z y).
      { intros z. split; [intros (r & H1 & H2); assert (y = r) by (eapply Root_fun; eauto); congruence | intros; exists y; auto]. }
      assert (Q2 : forall z, (exists r, Root u3 a r /\ Root u3 z r) <-> Root u3 z x).
      { intros z. rewrite <- Q. split; intros (r & H1 & H2); exists r; auto. }
      assert (Q2' : forall z, (exists r, Root u3 b r /\ Root u3 z r) <-> Root u3 z y).
      { intros z. rewrite <- Q'. split; intros (r & H1 & H2); exists r; auto. }
      rewrite Q, Q', Q2, Q2'. tauto.
    + rewrite K3, L. exact HE.
    + rewrite K3. apply I3.
Qed.

Lemma nth_repeat_eq : forall A (x d : A) n i, (i < n)%nat -> nth i (repeat x n) d = x.
Proof. intros A x d n. induction n; intros i H; [lia |]. destruct i; simpl; auto. apply IHn. lia. Qed.

Lemma ufInit_inv : forall n, 0 <= n <= I64_MAX -> exists u, ufInit n = Ok u /\ ufInv u [] /\ alen u = n /\ nroots u = n.
Proof.
  intros n Hn. unfold ufInit. replace (n <? 0) with false by lia. eexists. split; [reflexivity |].
  assert (AL : alen (repeat (-1) (Z.to_nat n)) = n) by (unfold alen; rewrite repeat_length; lia).
  assert (G : forall x, 0 <= x < n -> g (repeat (-1) (Z.to_nat n)) x = -1).
  { intros x Hx. unfold g. apply nth_repeat_eq. lia. }
  assert (NR : nroots (repeat (-1) (Z.to_nat n)) = n).
  { unfold nroots. assert (forall k, length (filter (fun v => v <? 0) (repeat (-1) k)) = k) as ->; [| lia].
    induction k; simpl; auto. }
  split; [| auto]. constructor.
  - exists (fun _ => 0). constructor; intros x; rewrite AL; intros Hx; rewrite G by auto; intros; lia.
  - intros x y. rewrite AL. intros Hx Hy.
    assert (RR : forall z, 0 <= z < n -> Root (repeat (-1) (Z.to_nat n)) z z).
    { intros z Hz. apply Root_here; rewrite ?AL, ?G; auto; lia. }
    split.
    + intros H. assert (x = y).
      { clear - H. induction H; auto; [destruct H | congruence]. }
      subst. exists y. auto.
    + intros (r & H1 & H2). pose proof (Root_fun _ _ _ H1 _ (RR x Hx)) as A1.
      pose proof (Root_fun _ _ _ H2 _ (RR y Hy)) as A2. replace y with x by congruence. constructor.
  - constructor.
  - rewrite AL. mach. lia.
Qed.

(* at most one root iff everything is connected *)
Lemma nroots_two : forall u i j, (i < j < length u)%nat -> nth i u 0 < 0 -> nth j u 0 < 0 -> 2 <= nroots u.
Proof.
  unfold nroots. induction u as [| v u IH]; intros i j Hij Hi Hj; [simpl in Hij; lia |].
  destruct j as [| j]; [lia |]. cbn [nth] in Hj. destruct i as [| i].
  - cbn [nth] in Hi. cbn [filter]. replace (v <? 0) with true by lia. cbn [length].
    assert (In (nth j u 0) (filter (fun v => v <? 0) u)).
    { apply filter_In. split; [apply nth_In; simpl in Hij; lia | lia]. }
    destruct (filter (fun v => v <? 0) u); [contradiction | cbn [length]; lia].
  - cbn [nth] in Hi. specialize (IH i j ltac:(simpl in Hij; lia) Hi Hj). cbn [filter].
    destruct (v <? 0); cbn [length]; lia.
Qed.
Lemma nroots_one : forall u, 1 <= nroots u -> exists i, (i < length u)%nat /\ nth i u 0 < 0.
Proof.
  unfold nroots. induction u as [| v u IH]; intros H; [simpl in H; lia |]. cbn [filter] in H.
  destruct (v <? 0) eqn:E.
  - exists O. simpl. lia.
  - destruct (IH H) as (i & Hi & Hn). exists (S i). simpl. split; [lia | exact Hn].
Qed.
Lemma nroots_ex2 : forall u, 2 <= nroots u -> exists i j, (i < j < length u)%nat /\ nth i u 0 < 0 /\ nth j u 0 < 0.
Proof.
  induction u as [| v u IH]; intros H; [unfold nroots in H; simpl in H; lia |].
  unfold nroots in H. cbn [filter] in H. destruct (v <? 0) eqn:E.
  - cbn [length] in H. destruct (nroots_one u) as (i & Hi & Hn); [unfold nroots; lia |].
    exists O, (S i). simpl. repeat split; try lia; auto.
  - destruct (IH H) as (i & j & Hij & Hi & Hj). exists (S i), (S j). simpl. repeat split; try lia; auto.
Qed.

Lemma Root_ex : forall u E x, ufInv u E -> inr u x -> exists r, Root u x r.
Proof. intros u E x I Hx. destruct (find_inv u E x I Hx) as (r & _ & _ & R & _). eauto. Qed.

Lemma nroots_conn : forall u E, ufInv u E -> (nroots u <= 1 <-> connectedGraph 0 (alen u) E).
Proof.
  intros u E I. split.
  - intros H x y Hx Hy. apply (inv_conn _ _ I); auto.
    destruct (Root_ex u E x I Hx) as [r Rr]. destruct (Root_ex u E y I Hy) as [s Rs].
    destruct (Z.eq_dec r s) as [-> | N]; [exists s; auto |]. exfalso.
    destruct (Root_rng _ _ _ Rr) as (_ & Ir & Gr). destruct (Root_rng _ _ _ Rs) as (_ & Is & Gs).
    unfold g, alen in *. assert (2 <= nroots u); [| lia]. destruct (Z.lt_ge_cases r s).
    + apply (nroots_two u (Z.to_nat r) (Z.to_nat s)); auto. lia.
    + apply (nroots_two u (Z.to_nat s) (Z.to_nat r)); auto. lia.
  - intros H. destruct (Z.le_gt_cases (nroots u) 1) as [| G]; auto. exfalso.
    destruct (nroots_ex2 u) as (i & j & Hij & Hi & Hj); [lia |].
    assert (Ri : Root u (Z.of_nat i) (Z.of_nat i)) by (apply Root_here; unfold alen, g; rewrite ?Nat2Z.id; auto; lia).
    assert (Rj : Root u (Z.of_nat j) (Z.of_nat j)) by (apply Root_here; unfold alen, g; rewrite ?Nat2Z.id; auto; lia).
    assert (C : conn E (Z.of_nat i) (Z.of_nat j)) by (apply H; unfold node, alen; lia).
    apply (inv_conn _ _ I) in C; [| unfold alen; lia | unfold alen; lia]. destruct C as (r & R1 & R2).
    assert (Z.of_nat i = r) by (eapply Root_fun; eauto). assert (Z.of_nat j = r) by (eapply Root_fun; eauto). lia.
Qed.
