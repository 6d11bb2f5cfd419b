(* The invariant of the sweep of isSimple. *)
From Coq Require Import Sorted.
From Verif Require Import Tac GeoModel GeoSpec GeoProofs SimpleModel SimpleSpec SimpleProofs.

(* operator< without the outcome *)
Definition lessb1 (a b : seg) : bool :=
  if negb (orient (sl a) (sr a) (sl b) =? 0) then 0 <? orient (sl a) (sr a) (sl b)
  else if 0 <? orient (sl a) (sr a) (sr b) then true else snd (sl a) <? snd (sl b).
Definition lessb (a b : seg) : bool :=
  if fst (sl b) <? fst (sl a) then negb (lessb1 b a) else lessb1 a b.

Definition smallS (s : seg) : Prop := small (sl s) /\ small (sr s).

Lemma segLess1_ok : forall a b, smallS a -> smallS b -> segLess1 a b = Ok (lessb1 a b).
Proof.
  intros a b (A1 & A2) (B1 & B2). unfold segLess1, lessb1. rewrite cross3_ok by assumption. cbn [bind].
  destruct (negb _); [reflexivity|]. rewrite cross3_ok by assumption. cbn [bind].
  destruct (0 <? _); reflexivity.
Qed.
Lemma segLess_ok : forall a b, smallS a -> smallS b -> segLess a b = Ok (lessb a b).
Proof.
  intros a b A B. unfold segLess, lessb. rewrite !segLess1_ok by assumption. destruct (_ <? _); reflexivity.
Qed.

Lemma allCompare_ok : forall z l, smallS z -> Forall smallS l -> allCompare z l = Ok tt.
Proof.
  intros z l Z F. induction F as [|s l S F IH]; [reflexivity|]. cbn [allCompare].
  rewrite !segLess_ok by assumption. exact IH.
Qed.

Definition side (s : seg) (q : Z * Z) : Z := orient (sl s) (sr s) q.
Definition inS (s : seg) (q : Z * Z) : Prop := inU (sl s) (sr s) q.
Definition On (s : seg) (q : Z * Z) : Prop := inS s q /\ side s q = 0.
Definition BelowS (s t : seg) : Prop := Below (sl s) (sr s) (sl t) (sr t).
Definition apartS (s t : seg) : Prop := apart (sl s) (sr s) (sl t) (sr t).
Definition meetS (s t : seg) : Prop := meet (sl s) (sr s) (sl t) (sr t).
Definition near (n : Z) (s t : seg) : Prop := Z.abs (sid s - sid t) = 1 \/ Z.abs (sid s - sid t) = n - 1.
Definition wfS (s : seg) : Prop := smallS s /\ U (sl s) < U (sr s).

Lemma near_sym : forall n s t, near n s t -> near n t s.
Proof. unfold near. lia. Qed.
Lemma near_dec : forall n s t, near n s t \/ ~ near n s t.
Proof. unfold near. lia. Qed.

Lemma orient_bound : forall a b c, small a -> small b -> small c -> Z.abs (orient a b c) < two63.
Proof.
  intros a b c (A1 & A2) (B1 & B2) (C1 & C2). unfold orient.
  pose proof (prod_bound (fst b - fst a) (snd c - snd a) 2147483646 ltac:(lia) ltac:(lia)).
  pose proof (prod_bound (snd b - snd a) (fst c - fst a) 2147483646 ltac:(lia) ltac:(lia)).
  unfold two63. lia.
Qed.

Lemma segMeet_ok : forall n s t, smallS s -> smallS t ->
  exists b, segMeet s t n = Ok b /\ (b = false <-> near n s t \/ apartS s t).
Proof.
  intros n s t (S1 & S2) (T1 & T2). unfold segMeet, near.
  destruct (Z.eqb_spec (Z.abs (sid s - sid t)) 1) as [E|E]; cbn [orb]; [exists false; tauto|].
  destruct (Z.eqb_spec (Z.abs (sid s - sid t)) (n - 1)) as [E'|E']; [exists false; tauto|].
  rewrite !cross3_ok by assumption. cbn [bind].
  assert (C : forall a b c d, small a -> small b -> small c -> small d ->
    chk (Z.sgn (orient a b c) * orient a b d) = Ok (Z.sgn (orient a b c) * orient a b d)).
  { intros a b c d A B C D. apply chk_Ok. pose proof (orient_bound a b d A B D) as I.
    unfold is_i64, I64_MIN, I64_MAX in *.
    destruct (Z.sgn_spec (orient a b c)) as [(_ & F)|[(_ & F)|(_ & F)]]; rewrite F; lia. }
  rewrite !C by assumption. cbn [bind]. unfold apartS, apart.
  destruct (Z.leb_spec (Z.sgn (orient (sl s) (sr s) (sl t)) * orient (sl s) (sr s) (sr t)) 0) as [L|L].
  - eexists. split; [reflexivity|]. rewrite Z.leb_gt. split; intros H; [|destruct H; lia]. right. lia.
  - eexists. split; [reflexivity|]. split; [|reflexivity]. intros _. right. lia.
Qed.

(* comparing with a segment that is already there *)
Lemma less_pos : forall s z, wfS s -> wfS z -> U (sl s) <= U (sl z) -> 0 < side s (sl z) ->
  lessb s z = true /\ lessb z s = false.
Proof.
  intros s z ((S1 & S2) & S3) ((Z1 & Z2) & Z3) L P. unfold side in P.
  assert (B : lessb1 s z = true).
  { unfold lessb1. destruct (Z.eqb_spec (orient (sl s) (sr s) (sl z)) 0); [lia|]. cbn [negb].
    apply Z.ltb_lt. exact P. }
  assert (X : U (sl s) = U (sl z) \/ U (sl s) < U (sl z)) by lia.
  destruct X as [X|X]; [apply U_inj in X; [rewrite X, orient_end1 in P; lia|assumption|assumption]|].
  apply U_lt in X; [|assumption|assumption]. unfold lessb.
  destruct (Z.ltb_spec (fst (sl z)) (fst (sl s))); [lia|].
  split; [exact B|]. destruct (Z.ltb_spec (fst (sl s)) (fst (sl z))); [rewrite B; reflexivity|].
  destruct X as [X|(X & Y)]; [lia|].
  (* the left ends have the same x *)
  apply U_lt in Z3; [|assumption|assumption]. apply U_lt in S3; [|assumption|assumption].
  unfold lessb1. destruct (Z.ltb_spec (snd (sl z)) (snd (sl s))); [lia|].
  assert (E : orient (sl z) (sr z) (sl s) = (fst (sr z) - fst (sl z)) * (snd (sl s) - snd (sl z))) by (unfold orient; rewrite X; ring).
  rewrite E. destruct (Z.eqb_spec ((fst (sr z) - fst (sl z)) * (snd (sl s) - snd (sl z))) 0) as [F|F]; cbn [negb].
  - apply Z.mul_eq_0 in F. assert (G : fst (sr z) = fst (sl z)) by lia.
    assert (G' : orient (sl z) (sr z) (sr s) = - ((snd (sr z) - snd (sl z)) * (fst (sr s) - fst (sl z)))) by (unfold orient; rewrite G; ring).
    rewrite G'. destruct (Z.ltb_spec 0 (- ((snd (sr z) - snd (sl z)) * (fst (sr s) - fst (sl z))))) as [J|J]; [nia|reflexivity].
  - apply Z.ltb_ge. nia.
Qed.

Lemma less_neg : forall s z, wfS s -> wfS z -> U (sl s) <= U (sl z) -> side s (sl z) < 0 ->
  lessb s z = false /\ lessb z s = true.
Proof.
  intros s z ((S1 & S2) & S3) ((Z1 & Z2) & Z3) L P. unfold side in P.
  assert (B : lessb1 s z = false).
  { unfold lessb1. destruct (Z.eqb_spec (orient (sl s) (sr s) (sl z)) 0); [lia|]. cbn [negb].
    apply Z.ltb_ge. lia. }
  assert (X : U (sl s) = U (sl z) \/ U (sl s) < U (sl z)) by lia.
  destruct X as [X|X]; [apply U_inj in X; [rewrite X, orient_end1 in P; lia|assumption|assumption]|].
  apply U_lt in X; [|assumption|assumption]. apply U_lt in S3; [|assumption|assumption].
  assert (Y : fst (sl s) < fst (sl z)).
  { destruct X as [X|(X & Y)]; [exact X|]. unfold orient in P. rewrite X in P, S3. nia. }
  unfold lessb. destruct (Z.ltb_spec (fst (sl z)) (fst (sl s))); [lia|].
  destruct (Z.ltb_spec (fst (sl s)) (fst (sl z))); [|lia]. rewrite B. auto.
Qed.

Lemma less_left : forall s z, sl s = sl z -> lessb s z = (0 <? orient (sl s) (sr s) (sr z)).
Proof.
  intros s z E. unfold lessb. rewrite E, Z.ltb_irrefl. unfold lessb1. rewrite E, orient_end1.
  cbn [Z.eqb negb]. rewrite Z.ltb_irrefl. destruct (0 <? _); reflexivity.
Qed.

Lemma less_chain : forall s z, wfS s -> wfS z -> sr s = sl z -> lessb s z = true \/ lessb z s = true.
Proof.
  intros s z ((S1 & S2) & S3) ((Z1 & Z2) & Z3) E.
  apply U_lt in S3; [|assumption|assumption]. rewrite E in S3. unfold lessb.
  destruct (Z.ltb_spec (fst (sl z)) (fst (sl s))); [lia|].
  destruct (Z.ltb_spec (fst (sl s)) (fst (sl z))).
  - destruct (lessb1 s z); auto.
  - left. unfold lessb1. rewrite <- E, orient_end2, E. cbn [Z.eqb negb].
    destruct (0 <? _); [reflexivity|]. apply Z.ltb_lt. lia.
Qed.

(* ---- lists *)
Lemma Sorted_mid : forall A (R : A -> A -> Prop) l a b m, Sorted R (l ++ a :: b :: m) -> R a b.
Proof.
  induction l as [|x l IH]; intros a b m H.
  - inv H. inv H3. assumption.
  - inv H. apply (IH a b m H2).
Qed.
Lemma Sorted_app_l : forall A (R : A -> A -> Prop) l m, Sorted R (l ++ m) -> Sorted R l.
Proof.
  induction l as [|x l IH]; intros m H; [constructor|]. inv H. constructor; [exact (IH m H2)|].
  destruct l; [constructor|]. inv H3. constructor. assumption.
Qed.
Lemma Sorted_app_r : forall A (R : A -> A -> Prop) l m, Sorted R (l ++ m) -> Sorted R m.
Proof. induction l as [|x l IH]; intros m H; [exact H|]. inv H. auto. Qed.
Lemma Sorted_join : forall A (R : A -> A -> Prop) l m, Sorted R l -> Sorted R m ->
  (forall a b l' m', l = l' ++ [a] -> m = b :: m' -> R a b) -> Sorted R (l ++ m).
Proof.
  induction l as [|x l IH]; intros m Hl Hm J; [exact Hm|]. inv Hl. cbn [app]. constructor.
  - apply IH; [assumption|assumption|]. intros a b l' m' E F. apply (J a b (x :: l') m'); [rewrite E; reflexivity|exact F].
  - destruct l as [|y l]; cbn [app].
    + destruct m as [|b m]; constructor. apply (J x b [] m); reflexivity.
    + inv H2. constructor. assumption.
Qed.
Lemma StronglySorted_mid : forall A (R : A -> A -> Prop) l a m b, StronglySorted R (l ++ a :: m) -> In b m -> R a b.
Proof.
  induction l as [|x l IH]; intros a m b H I.
  - inv H. exact (proj1 (Forall_forall _ _) H3 _ I).
  - inv H. exact (IH a m b H2 I).
Qed.
Lemma StronglySorted_before : forall A (R : A -> A -> Prop) l a m b, StronglySorted R (l ++ a :: m) -> In b l -> R b a.
Proof.
  intros A R l a m b H I. apply in_split in I. destruct I as (l1 & l2 & ->).
  rewrite <- app_assoc in H. cbn [app] in H. apply (StronglySorted_mid _ _ _ _ _ _ H). apply in_or_app. right. left. reflexivity.
Qed.
Lemma FOP_app_iff : forall A (R : A -> A -> Prop) l m, ForallOrdPairs R (l ++ m) <->
  ForallOrdPairs R l /\ ForallOrdPairs R m /\ forall a b, In a l -> In b m -> R a b.
Proof.
  induction l as [|x l IH]; intros m; cbn [app].
  - split; [intros H; split; [constructor|split; [exact H|intros a b []]]|tauto].
  - split.
    + intros H. inv H. apply IH in H3. destruct H3 as (H3 & H4 & H5). rewrite Forall_app in H2. destruct H2 as (F1 & F2).
      split; [constructor; assumption|]. split; [exact H4|]. intros a b [->|I] J; [exact (proj1 (Forall_forall _ _) F2 _ J)|auto].
    + intros (H1 & H2 & H3). inv H1. constructor.
      * apply Forall_app. split; [assumption|]. apply Forall_forall. intros b J. apply H3; [left; reflexivity|exact J].
      * apply IH. split; [assumption|]. split; [exact H2|]. intros a b I J. apply H3; [right; exact I|exact J].
Qed.
Lemma lastOpt_None : forall l, lastOpt l = None -> l = [].
Proof. intros l. unfold lastOpt. destruct (rev l) eqn:E; [|discriminate]. intros _. rewrite <- (rev_involutive l), E. reflexivity. Qed.
Lemma lastOpt_Some : forall l s, lastOpt l = Some s -> exists m, l = m ++ [s].
Proof.
  intros l s. unfold lastOpt. destruct (rev l) as [|x r] eqn:E; [discriminate|]. intros H. inv H.
  exists (rev r). rewrite <- (rev_involutive l), E. reflexivity.
Qed.
Lemma splitId_None : forall i l, splitId i l = None -> forall s, In s l -> sid s <> i.
Proof.
  induction l as [|x l IH]; cbn [splitId]; intros H s I; [destruct I|].
  destruct (Z.eqb_spec (sid x) i); [discriminate|]. destruct (splitId i l) as [[a b]|]; [discriminate|].
  destruct I as [->|I]; auto.
Qed.
Lemma splitId_Some : forall i l a b, splitId i l = Some (a, b) -> exists s, sid s = i /\ l = a ++ s :: b.
Proof.
  induction l as [|x l IH]; cbn [splitId]; intros a b H; [discriminate|].
  destruct (Z.eqb_spec (sid x) i).
  - inv H. exists x. auto.
  - destruct (splitId i l) as [[a' b']|]; [|discriminate]. inv H.
    destruct (IH _ _ eq_refl) as (s & E & ->). exists s. auto.
Qed.

(* ---- the sweep *)
Definition epoint (e : event) : Z * Z := (ex e, ey e).
Definition ordE (e f : event) : Prop :=
  U (epoint e) < U (epoint f) \/ U (epoint e) = U (epoint f) /\ (erem e = true -> erem f = true).
Definition hasrem (s : seg) (evs : list event) : Prop := exists e, In e evs /\ erem e = true /\ eid e = sid s.
Definition hasins (s : seg) (evs : list event) : Prop := exists e, In e evs /\ erem e = false /\ eid e = sid s.
Definition tag (e : event) : bool * Z := (erem e, eid e).

Definition leftSep (s t : seg) : Prop :=
  U (sl s) <= U (sl t) /\ 0 < side s (sl t) \/ U (sl t) <= U (sl s) /\ side t (sl s) < 0.

(* the signs of the segments at q *)
Definition Mono (q : Z * Z) (s t : seg) : Prop :=
  (0 < side t q -> 0 < side s q) /\ (side s q < 0 -> side t q < 0).

Section Sweep.
  Variable n : Z.
  Variable isedge : seg -> Prop.
  Hypothesis wf : forall s, isedge s -> wfS s.
  Hypothesis ids : forall s t, isedge s -> isedge t -> sid s = sid t -> s = t.
  Hypothesis mates : forall s t, isedge s -> isedge t -> near n s t ->
    exists v, small v /\ (v = sl s \/ v = sr s) /\ (v = sl t \/ v = sr t) /\
      forall q, small q -> On s q -> On t q -> q = v.
  Hypothesis unique : forall z s t q, isedge z -> isedge s -> isedge t -> small q -> s <> t ->
    near n z s -> near n z t -> On z q -> On s q -> On t q -> False.

  Definition okS (s t : seg) : Prop := near n s t \/ apartS s t.

  Lemma okS_sym : forall s t, okS s t -> okS t s.
  Proof. intros s t [H|H]; [left; apply near_sym; exact H|right; apply apart_sym; exact H]. Qed.

  Lemma on_near : forall s t q, isedge s -> isedge t -> okS s t -> On s q -> On t q -> near n s t.
  Proof.
    intros s t q Es Et [H|H] (S1 & S2) (T1 & T2); [exact H|]. exfalso.
    destruct (wf _ Es) as (_ & Ws). destruct (wf _ Et) as (_ & Wt).
    exact (on_not_apart _ _ _ _ _ Ws Wt S1 T1 S2 T2 H).
  Qed.

  Lemma on_left : forall s, isedge s -> On s (sl s).
  Proof. intros s E. destruct (wf _ E). unfold On, inS, inU, side. rewrite orient_end1. lia. Qed.
  Lemma on_right : forall s, isedge s -> On s (sr s).
  Proof. intros s E. destruct (wf _ E). unfold On, inS, inU, side. rewrite orient_end2. lia. Qed.

  (* mates with the same left or right end have different directions *)
  Lemma mate_left : forall s t v, isedge s -> isedge t -> v = sl s -> v = sl t ->
    (forall q, small q -> On s q -> On t q -> q = v) -> orient v (sr s) (sr t) <> 0.
  Proof.
    intros s t v Es Et Hs Ht U1 O. pose proof (wf _ Es) as ((_ & Ss) & Ws). pose proof (wf _ Et) as ((_ & St) & Wt).
    rewrite <- Hs in Ws. rewrite <- Ht in Wt.
    destruct (Z_le_gt_dec (U (sr s)) (U (sr t))) as [L|L].
    - assert (sr s = v); [|subst v; rewrite H in Ws; lia]. apply U1; [exact Ss|apply on_right; exact Es|].
      unfold On, inS, inU, side. rewrite <- Ht. split; [lia|]. rewrite orient_swap. lia.
    - assert (sr t = v); [|subst v; rewrite H in Wt; lia]. apply U1; [exact St| |apply on_right; exact Et].
      unfold On, inS, inU, side. rewrite <- Hs. split; [lia|]. exact O.
  Qed.
  Lemma mate_right : forall s t v, isedge s -> isedge t -> v = sr s -> v = sr t ->
    (forall q, small q -> On s q -> On t q -> q = v) -> orient (sl s) v (sl t) <> 0.
  Proof.
    intros s t v Es Et Hs Ht U1 O. pose proof (wf _ Es) as ((Ss & _) & Ws). pose proof (wf _ Et) as ((St & _) & Wt).
    rewrite <- Hs in Ws. rewrite <- Ht in Wt.
    destruct (Z_le_gt_dec (U (sl t)) (U (sl s))) as [L|L].
    - assert (sl s = v); [|subst v; rewrite H in Ws; lia]. apply U1; [exact Ss|apply on_left; exact Es|].
      unfold On, inS, inU, side. rewrite <- Ht. split; [lia|]. rewrite orient_cycle, orient_swap, orient_cycle in O.
      rewrite orient_cycle, orient_cycle, orient_swap, orient_cycle. rewrite orient_cycle, orient_cycle in O. 
      clear - O. unfold orient in *. lia.
    - assert (sl t = v); [|subst v; rewrite H in Wt; lia]. apply U1; [exact St| |apply on_left; exact Et].
      unfold On, inS, inU, side. rewrite <- Hs. split; [lia|]. exact O.
  Qed.

  (* the order at one point is the order everywhere *)
  Lemma pair_below : forall s t q, isedge s -> isedge t -> okS s t -> inS s q -> inS t q ->
    0 <= side s q -> side t q <= 0 -> side s q <> 0 \/ side t q <> 0 -> BelowS s t.
  Proof.
    intros s t q Es Et O Is It Ss St N. pose proof (wf _ Es) as (Sm & Ws). pose proof (wf _ Et) as (Tm & Wt).
    destruct O as [O|O]; [|exact (apart_below _ _ _ _ _ Ws Wt O Is It Ss St)].
    destruct (mates _ _ Es Et O) as (v & Sv & Vs & Vt & U1). unfold BelowS, inS, side in *.
    destruct Vs as [Vs|Vs], Vt as [Vt|Vt].
    - pose proof (mate_left _ _ _ Es Et Vs Vt U1). rewrite <- Vs, <- Vt in *. apply below_left with (q := q); assumption.
    - rewrite <- Vs, <- Vt in *. apply below_chain2; assumption.
    - rewrite <- Vs, <- Vt in *. apply below_chain1; assumption.
    - pose proof (mate_right _ _ _ Es Et Vs Vt U1). rewrite <- Vs, <- Vt in *. apply below_right with (q := q); assumption.
  Qed.

  Record Inv (evs : list event) (l : list seg) : Prop := {
    i_edge : Forall isedge l;
    i_dup : NoDup l;
    i_act : forall s, isedge s -> (In s l <-> hasrem s evs /\ ~ hasins s evs);
    i_ins : forall s, isedge s -> hasins s evs -> hasrem s evs;
    i_left : forall s e, In s l -> In e evs -> U (sl s) <= U (epoint e);
    i_sorted : Sorted (fun s t => BelowS s t /\ okS s t) l;
    i_sep : ForallOrdPairs (fun s t => near n s t \/ leftSep s t) l;
    i_done : forall s t, isedge s -> isedge t -> s <> t -> ~ hasrem s evs -> near n s t \/ ~ meetS s t;
    (* the events *)
    e_tag : NoDup (map tag evs);
    e_sorted : StronglySorted ordE evs;
    e_edge : forall e, In e evs -> exists s, isedge s /\ sid s = eid e /\ epoint e = if erem e then sr s else sl s
  }.

  Lemma act_in : forall evs e l s, Inv (e :: evs) l -> In s l -> inS s (epoint e).
  Proof.
    intros evs e l s I H. pose proof (proj1 (Forall_forall _ _) (i_edge _ _ I) s H) as Es.
    split; [apply (i_left _ _ I s e H); left; reflexivity|].
    destruct (proj1 (i_act _ _ I s Es) H) as ((f & Hf & Rf & Df) & _).
    destruct (e_edge _ _ I f Hf) as (s' & Es' & D & P). rewrite Rf in P.
    assert (s' = s) by (apply ids; [assumption|assumption|congruence]). subst s'. rewrite <- P.
    destruct Hf as [->|Hf]; [lia|]. pose proof (e_sorted _ _ I) as S. inv S.
    pose proof (proj1 (Forall_forall _ _) H3 f Hf) as O. unfold ordE in O. lia.
  Qed.

  Lemma mono_trans : forall q s t u, Mono q s t -> Mono q t u -> Mono q s u.
  Proof. unfold Mono. tauto. Qed.

  Lemma act_mono : forall evs e l, Inv (e :: evs) l -> StronglySorted (Mono (epoint e)) l.
  Proof.
    intros evs e l I. apply Sorted_StronglySorted; [intros s t u; apply mono_trans|].
    assert (F : forall s, In s l -> inS s (epoint e)) by (intros s; apply (act_in _ _ _ _ I)).
    pose proof (i_sorted _ _ I) as S. clear I. induction S as [|s l S IH H]; [constructor|].
    constructor; [apply IH; intros; apply F; right; assumption|].
    destruct H as [|t l (B & _)]; constructor. apply B; apply F; [left|right; left]; reflexivity.
  Qed.

  Lemma epoint_small : forall evs e l, Inv (e :: evs) l -> small (epoint e).
  Proof.
    intros evs e l I. destruct (e_edge _ _ I e (or_introl eq_refl)) as (s & E & _ & ->).
    destruct (wf _ E) as ((A & B) & _). destruct (erem e); assumption.
  Qed.

  (* segments through the current point are neighbours in the sweep line and of the polygon *)
  Lemma zero_next : forall evs e l a s t b, Inv (e :: evs) l -> l = a ++ s :: t :: b ->
    On s (epoint e) -> On t (epoint e) -> near n s t.
  Proof.
    intros evs e l a s t b I -> Hs Ht. pose proof (i_edge _ _ I) as F. apply Forall_app in F. destruct F as (_ & F).
    inv F. inv H2. pose proof (i_sorted _ _ I) as S. apply Sorted_mid in S. destruct S as (_ & S).
    apply (on_near _ _ (epoint e)); assumption.
  Qed.
  Lemma zero_three : forall evs e l a s t u b, Inv (e :: evs) l -> l = a ++ s :: t :: u :: b ->
    On s (epoint e) -> On t (epoint e) -> On u (epoint e) -> False.
  Proof.
    intros evs e l a s t u b I E Hs Ht Hu.
    pose proof (zero_next _ _ _ a s t (u :: b) I E Hs Ht) as N1.
    assert (E' : l = (a ++ [s]) ++ t :: u :: b) by (rewrite E, <- app_assoc; reflexivity).
    pose proof (zero_next _ _ _ (a ++ [s]) t u b I E' Ht Hu) as N2.
    pose proof (i_edge _ _ I) as F. rewrite E in F. apply Forall_app in F. destruct F as (_ & F).
    inv F. inv H2. inv H4.
    apply (unique t s u (epoint e)); try assumption; [apply (epoint_small _ _ _ I)| |apply near_sym; exact N1].
    intros ->. pose proof (i_dup _ _ I) as D. apply NoDup_remove in D. destruct D as (_ & D). apply D.
    apply in_or_app. right. right. left. reflexivity.
  Qed.
  Lemma zero_pair : forall evs e l a s m t b, Inv (e :: evs) l -> l = a ++ s :: m ++ t :: b ->
    On s (epoint e) -> On t (epoint e) -> m = [] /\ near n s t.
  Proof.
    intros evs e l a s m t b I E Hs Ht. destruct m as [|c m]; cbn [app] in E.
    - split; [reflexivity|]. apply (zero_next _ _ _ a s t b I E Hs Ht).
    - exfalso. pose proof (act_mono _ _ _ I) as M. rewrite E in M.
      assert (Z : forall x, In x (c :: m) -> On x (epoint e)).
      { intros x J. split; [apply (act_in _ _ _ _ I); rewrite E; apply in_or_app; right; right; apply (in_or_app (c :: m) (t :: b)); left; exact J|].
        pose proof (StronglySorted_mid _ _ _ _ (c :: m ++ t :: b) x M ltac:(apply (in_or_app (c :: m) (t :: b)); left; exact J)) as M1.
        assert (M2 : Mono (epoint e) x t).
        { replace (a ++ s :: c :: m ++ t :: b) with ((a ++ s :: c :: m) ++ t :: b) in M by (rewrite <- app_assoc; reflexivity).
          apply (StronglySorted_before _ _ _ _ _ _ M). apply in_or_app. right. right. exact J. }
        unfold Mono in *. destruct Hs as (_ & Hs), Ht as (_ & Ht). lia. }
      destruct m as [|d m]; cbn [app] in E.
      + apply (zero_three _ _ _ a s c t b I E); [assumption|apply Z; left; reflexivity|assumption].
      + apply (zero_three _ _ _ a s c d (m ++ t :: b) I E); [assumption| |]; apply Z; [left|right; left]; reflexivity.
  Qed.

  Lemma hasrem_dec : forall s evs, hasrem s evs \/ ~ hasrem s evs.
  Proof.
    intros s. induction evs as [|e evs [IH|IH]]; [right; intros (e & [] & _)| |].
    - left. destruct IH as (f & H & K). exists f. split; [right; exact H|exact K].
    - destruct (erem e) eqn:R; [destruct (Z.eq_dec (eid e) (sid s)) as [D|D]|].
      + left. exists e. split; [left; reflexivity|auto].
      + right. intros (f & [->|H] & K); [tauto|]. apply IH. exists f. auto.
      + right. intros (f & [->|H] & K); [destruct K; congruence|]. apply IH. exists f. auto.
  Qed.
  Lemma hasins_dec : forall s evs, hasins s evs \/ ~ hasins s evs.
  Proof.
    intros s. induction evs as [|e evs [IH|IH]]; [right; intros (e & [] & _)| |].
    - left. destruct IH as (f & H & K). exists f. split; [right; exact H|exact K].
    - destruct (erem e) eqn:R; [|destruct (Z.eq_dec (eid e) (sid s)) as [D|D]].
      + right. intros (f & [->|H] & K); [destruct K; congruence|]. apply IH. exists f. auto.
      + left. exists e. split; [left; reflexivity|auto].
      + right. intros (f & [->|H] & K); [tauto|]. apply IH. exists f. auto.
  Qed.
  Lemma hasrem_cons : forall s e evs, hasrem s evs -> hasrem s (e :: evs).
  Proof. intros s e evs (f & H & K). exists f. split; [right; exact H|exact K]. Qed.
  Lemma hasins_cons : forall s e evs, hasins s evs -> hasins s (e :: evs).
  Proof. intros s e evs (f & H & K). exists f. split; [right; exact H|exact K]. Qed.

  Lemma remove_step : forall e evs a z b, Inv (e :: evs) (a ++ z :: b) -> erem e = true -> sid z = eid e ->
    (forall p s a' b', a = a' ++ [p] -> b = s :: b' -> okS p s) -> Inv evs (a ++ b).
  Proof.
    intros e evs a z b I R D T.
    pose proof (i_edge _ _ I) as F. apply Forall_app in F. destruct F as (Fa & F).
    assert (Ez : isedge z) by (inv F; assumption). assert (Fb : Forall isedge b) by (inv F; assumption). clear F.
    pose proof (epoint_small _ _ _ I) as Sq.
    assert (Q : epoint e = sr z).
    { destruct (e_edge _ _ I e (or_introl eq_refl)) as (s & Es & Ds & P). rewrite R in P.
      rewrite P. f_equal. apply ids; [assumption|assumption|congruence]. }
    assert (Oz : On z (epoint e)) by (rewrite Q; apply on_right; exact Ez).
    pose proof (act_mono _ _ _ I) as M.
    assert (Ma : forall s, In s a -> 0 <= side s (epoint e)).
    { intros s J. pose proof (StronglySorted_before _ _ _ _ _ _ M J) as (_ & K). destruct Oz as (_ & Oz). lia. }
    assert (Mb : forall s, In s b -> side s (epoint e) <= 0).
    { intros s J. pose proof (StronglySorted_mid _ _ _ _ _ _ M J) as (K & _). destruct Oz as (_ & Oz). lia. }
    assert (Act : forall s, In s (a ++ z :: b) -> inS s (epoint e)) by (intros s; apply (act_in _ _ _ _ I)).
    pose proof (i_dup _ _ I) as ND. pose proof (NoDup_remove_1 _ _ _ ND) as ND1. pose proof (NoDup_remove_2 _ _ _ ND) as ND2.
    pose proof (e_tag _ _ I) as ET. cbn [map] in ET. inversion ET as [|? ? ET1 ET2]. subst.
    pose proof (e_sorted _ _ I) as ES. inversion ES as [|? ? ES1 ES2]. subst.
    assert (Rz : ~ hasrem z evs).
    { intros (f & H & Rf & Df). apply ET1. replace (tag e) with (tag f); [apply in_map; exact H|]. unfold tag. congruence. }
    assert (Ro : forall s, isedge s -> s <> z -> hasrem s (e :: evs) -> hasrem s evs).
    { intros s Es N (f & [<-|H] & Rf & Df); [exfalso; apply N, ids; [assumption|assumption|congruence]|exists f; auto]. }
    assert (Io : forall s, hasins s (e :: evs) -> hasins s evs).
    { intros s (f & [<-|H] & Rf & Df); [congruence|exists f; auto]. }
    assert (Iz : ~ hasins z (e :: evs)).
    { apply (i_act _ _ I z Ez). apply in_or_app. right. left. reflexivity. }
    assert (Sub : forall s, In s (a ++ b) -> In s (a ++ z :: b)).
    { intros s J. apply in_app_or in J. apply in_or_app. destruct J; [left|right; right]; assumption. }
    constructor.
    - apply Forall_app. split; assumption.
    - exact ND1.
    - intros s Es. split.
      + intros J. assert (N : s <> z) by (intros ->; exact (ND2 J)).
        destruct (proj1 (i_act _ _ I s Es) (Sub _ J)) as (H1 & H2).
        split; [apply Ro; assumption|]. intros H. apply H2, hasins_cons, H.
      + intros (H1 & H2). assert (N : s <> z) by (intros ->; exact (Rz H1)).
        assert (J : In s (a ++ z :: b)).
        { apply (i_act _ _ I s Es). split; [apply hasrem_cons; exact H1|]. intros H. apply H2, Io, H. }
        apply in_app_or in J. apply in_or_app. destruct J as [J|[J|J]]; [left; exact J|congruence|right; exact J].
    - intros s Es H. apply Ro; [exact Es| |apply (i_ins _ _ I s Es), hasins_cons, H].
      intros ->. apply Iz, hasins_cons, H.
    - intros s f J H. apply (i_left _ _ I s f (Sub _ J)). right. exact H.
    - pose proof (i_sorted _ _ I) as S. apply Sorted_join.
      + exact (Sorted_app_l _ _ _ _ S).
      + apply (Sorted_app_r _ _ (a ++ [z])). rewrite <- app_assoc. exact S.
      + intros p s a' b' -> ->. pose proof (T p s a' b' eq_refl eq_refl) as O. split; [|exact O].
        assert (Ip : In p (a' ++ [p])) by (apply in_or_app; right; left; reflexivity).
        assert (Is : In s (s :: b')) by (left; reflexivity).
        assert (Jp : inS p (epoint e)) by (apply Act; apply in_or_app; left; exact Ip).
        assert (Js : inS s (epoint e)) by (apply Act; apply in_or_app; right; right; exact Is).
        apply (pair_below p s (epoint e)); try assumption.
        * exact (proj1 (Forall_forall _ _) Fa p Ip).
        * exact (proj1 (Forall_forall _ _) Fb s Is).
        * apply Ma. exact Ip.
        * apply Mb. exact Is.
        * destruct (Z.eq_dec (side p (epoint e)) 0) as [E1|E1]; [|left; exact E1].
          destruct (Z.eq_dec (side s (epoint e)) 0) as [E2|E2]; [|right; exact E2].
          exfalso. apply (zero_three _ _ _ a' p z s b' I); [rewrite <- app_assoc; reflexivity|split; assumption|exact Oz|split; assumption].
    - pose proof (i_sep _ _ I) as S. apply FOP_app_iff in S. destruct S as (S1 & S2 & S3). inv S2.
      apply FOP_app_iff. split; [assumption|]. split; [assumption|]. intros x y J K. apply S3; [exact J|right; exact K].
    - intros s t Es Et N H. destruct (Z.eq_dec (sid s) (sid z)) as [E|E].
      2:{ apply (i_done _ _ I s t Es Et N). intros K. apply H, Ro; [exact Es|congruence|exact K]. }
      apply ids in E; [|assumption|assumption]. subst s.
      pose proof (wf _ Ez) as ((Z1 & Z2) & Wz). pose proof (wf _ Et) as ((T1 & T2) & Wt).
      destruct (hasrem_dec t (e :: evs)) as [Rt|Rt].
      2:{ destruct (i_done _ _ I t z Et Ez (not_eq_sym N) Rt) as [K|K]; [left; apply near_sym; exact K|].
          right. intros L. apply K. apply meet_sym. exact L. }
      destruct (hasins_dec t (e :: evs)) as [It|It].
      { right. destruct It as (f & Hf & Rf & Df). destruct Hf as [<-|Hf]; [congruence|].
        pose proof (proj1 (Forall_forall _ _) ES2 f Hf) as O.
        destruct (e_edge _ _ I f (or_intror Hf)) as (t' & Et' & Dt' & P). rewrite Rf in P.
        assert (t' = t) by (apply ids; [assumption|assumption|congruence]). subst t'.
        assert (U (sr z) < U (sl t)). { rewrite <- Q, <- P. destruct O as [O|(_ & O)]; [exact O|]. rewrite (O R) in Rf. discriminate. }
        apply left_disjoint; assumption. }
      assert (J : In t (a ++ z :: b)) by (apply (i_act _ _ I t Et); auto).
      pose proof (Act t J) as At. rewrite Q in *. unfold inS, inU in At.
      pose proof (i_sep _ _ I) as S. apply FOP_app_iff in S. destruct S as (S1 & S2 & S3).
      apply in_app_or in J. destruct J as [J|[J|J]]; [|congruence|].
      + pose proof (Ma t J) as P. destruct (Z.eq_dec (side t (sr z)) 0) as [E0|E0].
        { left. apply in_split in J. destruct J as (a1 & a2 & ->). apply near_sym.
          apply (zero_pair _ _ _ a1 t a2 z b I); [rewrite <- app_assoc; reflexivity| |]; rewrite Q; [split; assumption|exact Oz]. }
        destruct (S3 t z J (or_introl eq_refl)) as [K|[(K1 & K2)|(K1 & K2)]]; [left; apply near_sym; exact K| |].
        * right. intros X. apply meet_sym in X. revert X. apply above_disjoint; try assumption. unfold side in *; lia.
        * right. intros X. apply meet_sym in X. revert X. unfold side in *. apply stagger_disjoint; try assumption; [lia|lia|nia].
      + pose proof (Mb t J) as P. destruct (Z.eq_dec (side t (sr z)) 0) as [E0|E0].
        { left. apply in_split in J. destruct J as (b1 & b2 & ->).
          apply (zero_pair _ _ _ a z b1 t b2 I); [reflexivity| |]; rewrite Q; [exact Oz|split; assumption]. }
        inversion S2 as [|? ? S21 S22]. subst. pose proof (proj1 (Forall_forall _ _) S21 t J) as K.
        destruct K as [K|[(K1 & K2)|(K1 & K2)]]; [left; exact K| |].
        * right. intros X. apply meet_sym in X. revert X. unfold side in *. apply stagger_disjoint; try assumption; [lia|lia|nia].
        * right. intros X. apply meet_sym in X. revert X. apply below_disjoint; try assumption. unfold side in *; lia.
    - exact ET2.
    - exact ES1.
    - intros f H. apply (e_edge _ _ I f (or_intror H)).
  Qed.

  (* neighbours of a new segment *)
  Lemma new_above : forall p z, isedge p -> isedge z -> inS p (sl z) -> okS p z -> lessb z p = false -> lessb p z = true ->
    BelowS p z /\ 0 <= side p (sl z) /\ (side p (sl z) = 0 -> near n p z).
  Proof.
    intros p z Ep Ez I O L1 L2. pose proof (wf _ Ep) as Wp. pose proof (wf _ Ez) as Wz. pose proof (on_left z Ez) as Oz.
    assert (P : 0 <= side p (sl z)).
    { destruct (Z_le_gt_dec 0 (side p (sl z))) as [P|P]; [exact P|]. exfalso.
      destruct (less_neg p z Wp Wz ltac:(unfold inS, inU in I; lia) ltac:(lia)). congruence. }
    assert (N : side p (sl z) = 0 -> near n p z).
    { intros E. apply (on_near p z (sl z)); [assumption|assumption|assumption|split; assumption|assumption]. }
    split; [|split; [exact P|exact N]].
    destruct (Z.eq_dec (side p (sl z)) 0) as [E|E].
    - specialize (N E). destruct (mates p z Ep Ez N) as (v & Sv & Vp & Vz & U1).
      pose proof Wz as ((Sz & _) & Uz). pose proof Wp as (_ & Up).
      assert (V : sl z = v) by (apply U1; [exact Sz|split; assumption|exact Oz]). unfold BelowS.
      destruct Vp as [Vp|Vp].
      + rewrite less_left in L2 by congruence. apply Z.ltb_lt in L2. rewrite <- V in Vp. rewrite <- Vp in *. apply below_left_pos; assumption.
      + rewrite <- V in Vp. rewrite <- Vp in *. apply below_chain1; assumption.
    - apply (pair_below p z (sl z)); try assumption; [apply Oz|destruct Oz; lia|left; exact E].
  Qed.
  Lemma new_below : forall s z, isedge s -> isedge z -> inS s (sl z) -> okS z s -> lessb z s = true ->
    BelowS z s /\ side s (sl z) <= 0 /\ (side s (sl z) = 0 -> near n z s).
  Proof.
    intros p z Ep Ez I O L1. pose proof (wf _ Ep) as Wp. pose proof (wf _ Ez) as Wz. pose proof (on_left z Ez) as Oz.
    assert (P : side p (sl z) <= 0).
    { destruct (Z_le_gt_dec (side p (sl z)) 0) as [P|P]; [exact P|]. exfalso.
      destruct (less_pos p z Wp Wz ltac:(unfold inS, inU in I; lia) ltac:(lia)). congruence. }
    assert (N : side p (sl z) = 0 -> near n z p).
    { intros E. apply (on_near z p (sl z)); [assumption|assumption|assumption|assumption|split; assumption]. }
    split; [|split; [exact P|exact N]].
    destruct (Z.eq_dec (side p (sl z)) 0) as [E|E].
    - specialize (N E). destruct (mates z p Ez Ep N) as (v & Sv & Vz & Vp & U1).
      pose proof Wz as ((Sz & _) & Uz). pose proof Wp as (_ & Up).
      assert (V : sl z = v) by (apply U1; [exact Sz|exact Oz|split; assumption]). unfold BelowS.
      destruct Vp as [Vp|Vp].
      + rewrite less_left in L1 by congruence. apply Z.ltb_lt in L1. rewrite <- V in Vp. rewrite <- Vp in *. apply below_left_pos; assumption.
      + rewrite <- V in Vp. rewrite <- Vp in *. apply below_chain2; assumption.
    - apply (pair_below z p (sl z)); try assumption; [apply Oz|destruct Oz; lia|right; exact E].
  Qed.

  Lemma insert_step : forall e evs a z b, Inv (e :: evs) (a ++ b) -> erem e = false -> isedge z -> sid z = eid e ->
    (forall p a', a = a' ++ [p] -> lessb z p = false /\ lessb p z = true /\ okS z p) ->
    (forall s b', b = s :: b' -> lessb z s = true /\ okS z s) -> Inv evs (a ++ z :: b).
  Proof.
    intros e evs a z b I R Ez D Ta Tb.
    pose proof (i_edge _ _ I) as F. apply Forall_app in F. destruct F as (Fa & Fb).
    pose proof (epoint_small _ _ _ I) as Sq.
    assert (Q : epoint e = sl z).
    { destruct (e_edge _ _ I e (or_introl eq_refl)) as (s & Es & Ds & P). rewrite R in P.
      rewrite P. f_equal. apply ids; [assumption|assumption|congruence]. }
    assert (Oz : On z (epoint e)) by (rewrite Q; apply on_left; exact Ez).
    pose proof (act_mono _ _ _ I) as M.
    assert (Act : forall s, In s (a ++ b) -> inS s (epoint e)) by (intros s; apply (act_in _ _ _ _ I)).
    pose proof (e_tag _ _ I) as ET. cbn [map] in ET. inversion ET as [|? ? ET1 ET2]. subst.
    pose proof (e_sorted _ _ I) as ES. inversion ES as [|? ? ES1 ES2]. subst.
    assert (Zi : hasins z (e :: evs)) by (exists e; split; [left; reflexivity|auto]).
    assert (Zn : ~ In z (a ++ b)) by (intros J; apply (i_act _ _ I z Ez) in J; tauto).
    assert (Iz : ~ hasins z evs).
    { intros (f & H & Rf & Df). apply ET1. replace (tag e) with (tag f); [apply in_map; exact H|]. unfold tag. congruence. }
    assert (Io : forall s, isedge s -> s <> z -> hasins s (e :: evs) -> hasins s evs).
    { intros s Es N (f & [<-|H] & Rf & Df); [exfalso; apply N, ids; [assumption|assumption|congruence]|exists f; auto]. }
    assert (Ro : forall s, hasrem s (e :: evs) -> hasrem s evs).
    { intros s (f & [<-|H] & Rf & Df); [congruence|exists f; auto]. }
    assert (Na : forall p a', a = a' ++ [p] -> BelowS p z /\ okS p z /\ 0 <= side p (sl z) /\ (side p (sl z) = 0 -> near n p z)).
    { intros p a' ->. destruct (Ta p a' eq_refl) as (L1 & L2 & O). apply okS_sym in O.
      assert (Ip : In p (a' ++ [p])) by (apply in_or_app; right; left; reflexivity).
      destruct (new_above p z) as (B & P & N); try assumption.
      - exact (proj1 (Forall_forall _ _) Fa p Ip).
      - rewrite <- Q. apply Act, in_or_app. left. exact Ip.
      - tauto. }
    assert (Nb : forall s b', b = s :: b' -> BelowS z s /\ okS z s /\ side s (sl z) <= 0 /\ (side s (sl z) = 0 -> near n z s)).
    { intros s b' ->. destruct (Tb s b' eq_refl) as (L1 & O).
      destruct (new_below s z) as (B & P & N); try assumption.
      - exact (proj1 (Forall_forall _ _) Fb s (or_introl eq_refl)).
      - rewrite <- Q. apply Act, in_or_app. right. left. reflexivity.
      - tauto. }
    rewrite Q in *.
    constructor.
    - apply Forall_app. split; [assumption|]. constructor; assumption.
    - apply NoDup_Add with (a := z) (l := a ++ b); [apply Add_app|]. split; [exact (i_dup _ _ I)|exact Zn].
    - intros s Es. split.
      + intros J. destruct (Z.eq_dec (sid s) (sid z)) as [E|E].
        * apply ids in E; [|assumption|assumption]. subst s. split; [|exact Iz]. apply Ro, (i_ins _ _ I z Ez Zi).
        * assert (K : In s (a ++ b)).
          { apply in_app_or in J. apply in_or_app. destruct J as [J|[J|J]]; [left; exact J|congruence|right; exact J]. }
          apply (i_act _ _ I s Es) in K. destruct K as (K1 & K2). split; [apply Ro; exact K1|]. intros H. apply K2, hasins_cons, H.
      + intros (H1 & H2). destruct (Z.eq_dec (sid s) (sid z)) as [E|E].
        * apply ids in E; [|assumption|assumption]. subst s. apply in_or_app. right. left. reflexivity.
        * assert (K : In s (a ++ b)).
          { apply (i_act _ _ I s Es). split; [apply hasrem_cons; exact H1|]. intros H. apply H2, Io; [exact Es|congruence|exact H]. }
          apply in_app_or in K. apply in_or_app. destruct K as [K|K]; [left; exact K|right; right; exact K].
    - intros s Es H. apply Ro, (i_ins _ _ I s Es), hasins_cons, H.
    - intros s f J H. apply in_app_or in J. destruct J as [J|[<-|J]].
      + apply (i_left _ _ I s f); [apply in_or_app; left; exact J|right; exact H].
      + pose proof (proj1 (Forall_forall _ _) ES2 f H) as O. unfold ordE in O. rewrite Q in O. lia.
      + apply (i_left _ _ I s f); [apply in_or_app; right; exact J|right; exact H].
    - pose proof (i_sorted _ _ I) as S. apply Sorted_join.
      + exact (Sorted_app_l _ _ _ _ S).
      + constructor; [exact (Sorted_app_r _ _ _ _ S)|]. destruct b as [|s b']; constructor.
        destruct (Nb s b' eq_refl) as (B & O & _). split; assumption.
      + intros p s a' b' Ea Eb. inv Eb. destruct (Na p a' eq_refl) as (B & O & _). split; assumption.
    - pose proof (i_sep _ _ I) as S. apply FOP_app_iff in S. destruct S as (S1 & S2 & S3).
      assert (Za : forall x, In x a -> near n x z \/ leftSep x z).
      { intros x J. assert (Ex : isedge x) by exact (proj1 (Forall_forall _ _) Fa x J).
        pose proof (Act x ltac:(apply in_or_app; left; exact J)) as Ax.
        destruct (Z_lt_le_dec 0 (side x (sl z))) as [P|P]; [right; left; split; [apply Ax|exact P]|].
        destruct (exists_last (l := a)) as (a' & p & E); [intros ->; destruct J|].
        destruct (Na p a' E) as (_ & _ & P0 & N).
        assert (Ep : isedge p) by (apply (proj1 (Forall_forall _ _) Fa p); rewrite E; apply in_or_app; right; left; reflexivity).
        subst a. apply in_app_or in J. destruct J as [J|[->|[]]]; [|left; apply N; lia].
        rewrite <- app_assoc in M. cbn [app] in M. pose proof (StronglySorted_before _ _ _ _ _ _ M J) as (K1 & K2).
        assert (E1 : side p (sl z) = 0) by lia. assert (E2 : side x (sl z) = 0) by lia. specialize (N E1).
        exfalso. apply in_split in J. destruct J as (a1 & a2 & ->).
        assert (Ap : inS p (sl z)) by (apply Act; apply in_or_app; left; apply in_or_app; right; left; reflexivity).
        destruct (zero_pair _ _ _ a1 x a2 p b I) as (_ & N2); [rewrite <- !app_assoc; reflexivity|rewrite Q; split; assumption|rewrite Q; split; assumption|].
        apply (unique p x z (sl z)); try assumption.
        - intros ->. apply Zn. apply in_or_app. left. apply in_or_app. left. apply in_or_app. right. left. reflexivity.
        - apply near_sym. exact N2.
        - split; assumption.
        - split; assumption. }
      assert (Zb : forall y, In y b -> near n z y \/ leftSep z y).
      { intros x J. assert (Ex : isedge x) by exact (proj1 (Forall_forall _ _) Fb x J).
        pose proof (Act x ltac:(apply in_or_app; right; exact J)) as Ax.
        destruct (Z_lt_le_dec (side x (sl z)) 0) as [P|P]; [right; right; split; [apply Ax|exact P]|].
        destruct b as [|p b']; [destruct J|]. destruct (Nb p b' eq_refl) as (_ & _ & P0 & N).
        assert (Ep : isedge p) by exact (proj1 (Forall_forall _ _) Fb p (or_introl eq_refl)).
        destruct J as [->|J]; [left; apply N; lia|].
        pose proof (StronglySorted_mid _ _ _ _ _ _ M J) as (K1 & K2).
        assert (E1 : side p (sl z) = 0) by lia. assert (E2 : side x (sl z) = 0) by lia. specialize (N E1).
        exfalso. apply in_split in J. destruct J as (b1 & b2 & ->).
        assert (Ap : inS p (sl z)) by (apply Act; apply in_or_app; right; left; reflexivity).
        destruct (zero_pair _ _ _ a p b1 x b2 I) as (_ & N2); [reflexivity|rewrite Q; split; assumption|rewrite Q; split; assumption|].
        apply (unique p x z (sl z)); try assumption.
        - intros ->. apply Zn. apply in_or_app. right. right. apply in_or_app. right. left. reflexivity.
        - apply near_sym. exact N.
        - split; assumption.
        - split; assumption. }
      apply FOP_app_iff. split; [exact S1|]. split.
      + constructor; [apply Forall_forall; exact Zb|exact S2].
      + intros x y J [<-|K]; [apply Za; exact J|apply S3; assumption].
    - intros s t Es Et N H. apply (i_done _ _ I s t Es Et N). intros K. apply H, Ro, K.
    - exact ET2.
    - exact ES1.
    - intros f H. apply (e_edge _ _ I f (or_intror H)).
  Qed.

  (* ---- the loop *)
  Definition clean : Prop := forall s t, isedge s -> isedge t -> s <> t -> near n s t \/ ~ meetS s t.

  Lemma clean_apart : forall s t q, clean -> isedge s -> isedge t -> s <> t -> inS s q -> inS t q -> okS s t.
  Proof.
    intros s t q C Es Et N Is It. destruct (C s t Es Et N) as [H|H]; [left; exact H|right].
    pose proof (wf _ Es) as ((S1 & S2) & Ws). pose proof (wf _ Et) as ((T1 & T2) & Wt). unfold inS, inU in *.
    apply not_meet_apart; try assumption; lia.
  Qed.

  Variable place : nat -> seg -> list seg -> nat.
  Hypothesis SP : searches place.
  Variable ps : list point.

  Definition mkSeg (e : event) (p q : point) : seg :=
    if eswap e then {| sl := q; sr := p; sid := eid e |} else {| sl := p; sr := q; sid := eid e |}.
  Definition builds (evs : list event) : Prop := forall e, In e evs -> erem e = false ->
    exists p q, aget ps (eid e) = Ok p /\ aget ps ((eid e + 1) mod n) = Ok q /\ isedge (mkSeg e p q).

  Lemma mkSeg_id : forall e p q, sid (mkSeg e p q) = eid e.
  Proof. intros. unfold mkSeg. destruct (eswap e); reflexivity. Qed.

  Lemma edge_small : forall l, Forall isedge l -> Forall smallS l.
  Proof. intros l F. apply Forall_impl with (2 := F). intros s E. apply (wf s E). Qed.

  Lemma sweep_ok : forall evs l, Inv evs l -> builds evs ->
    exists b, sweep place ps n evs l = Ok b /\ (b = true <-> clean).
  Proof.
    induction evs as [|e evs IH]; intros l I B.
    - exists true. split; [reflexivity|]. split; [intros _|reflexivity]. intros s t Es Et N.
      apply (i_done _ _ I s t Es Et N). intros (f & [] & _).
    - assert (B' : builds evs) by (intros f H; apply B; right; exact H).
      pose proof (i_edge _ _ I) as F. pose proof (edge_small _ F) as Fs.
      cbn [sweep]. destruct (erem e) eqn:R.
      + destruct (e_edge _ _ I e (or_introl eq_refl)) as (z & Ez & Dz & Q). rewrite R in Q.
        assert (Jz : In z l).
        { apply (i_act _ _ I z Ez). split; [exists e; split; [left; reflexivity|auto]|].
          intros (f & [<-|Hf] & Rf & Df); [congruence|].
          pose proof (e_sorted _ _ I) as ES. inv ES. pose proof (proj1 (Forall_forall _ _) H2 f Hf) as O.
          destruct (e_edge _ _ I f (or_intror Hf)) as (z' & Ez' & Dz' & Q'). rewrite Rf in Q'.
          assert (z' = z) by (apply ids; [assumption|assumption|congruence]). subst z'.
          pose proof (wf _ Ez) as (_ & Wz). unfold ordE in O. rewrite Q, Q' in O. lia. }
        destruct (splitId (eid e) l) as [[a b]|] eqn:Sp.
        2:{ exfalso. exact (splitId_None _ _ Sp z Jz Dz). }
        destruct (splitId_Some _ _ _ _ Sp) as (z' & Dz' & El).
        assert (z' = z).
        { apply ids; [|assumption|congruence]. apply (proj1 (Forall_forall _ _) F). rewrite El. apply in_or_app. right. left. reflexivity. }
        subst z'. rewrite El in I, F, Fs.
        assert (X : exists m, match lastOpt a, headOpt b with Some p, Some s => segMeet s p n | _, _ => Ok false end = Ok m /\
                    (m = false <-> forall p s a' b', a = a' ++ [p] -> b = s :: b' -> okS p s)).
        { destruct (lastOpt a) as [p|] eqn:La.
          - apply lastOpt_Some in La. destruct La as (a' & ->). destruct b as [|s b']; cbn [headOpt].
            + exists false. split; [reflexivity|]. split; [|reflexivity]. intros _ p' s a'' b' _ H. discriminate.
            + apply Forall_app in Fs. destruct Fs as (Fa & Fb). inv Fb. inv H2. apply Forall_app in Fa. destruct Fa as (_ & Fp). inv Fp.
              destruct (segMeet_ok n s p) as (m & -> & E); [assumption|assumption|]. exists m. split; [reflexivity|].
              rewrite E. split.
              * intros H p' s' a'' b'' H6 H7. apply app_inj_tail in H6. destruct H6 as (_ & <-). inv H7. apply okS_sym. exact H.
              * intros H. apply okS_sym. apply (H p s a' b'); reflexivity.
          - apply lastOpt_None in La. subst a. exists false. split; [destruct (headOpt b); reflexivity|]. split; [|reflexivity].
            intros _ p s a' b' H. destruct a'; discriminate. }
        destruct X as (m & -> & E). cbn [bind]. destruct m.
        * exists false. split; [reflexivity|]. split; [discriminate|]. intros C. exfalso.
          assert (true = false) as X; [|discriminate]. apply E. intros p s a' b' -> ->.
          assert (Ip : In p ((a' ++ [p]) ++ z :: s :: b')) by (apply in_or_app; left; apply in_or_app; right; left; reflexivity).
          assert (Is : In s ((a' ++ [p]) ++ z :: s :: b')) by (apply in_or_app; right; right; left; reflexivity).
          apply clean_apart with (q := epoint e); [exact C|exact (proj1 (Forall_forall _ _) F _ Ip)|exact (proj1 (Forall_forall _ _) F _ Is)| | |].
          -- intros ->. pose proof (i_dup _ _ I) as ND. rewrite <- app_assoc in ND. cbn [app] in ND. apply NoDup_remove_2 in ND. apply ND.
             apply in_or_app. right. right. left. reflexivity.
          -- exact (act_in _ _ _ _ I Ip).
          -- exact (act_in _ _ _ _ I Is).
        * apply IH; [|exact B']. apply (remove_step e evs a z b); [assumption|assumption|congruence|]. apply E. reflexivity.
      + destruct (B e (or_introl eq_refl) R) as (p & q & -> & -> & Ez). cbn [bind]. fold (mkSeg e p q).
        remember (mkSeg e p q) as z eqn:Hz. assert (Dz : sid z = eid e) by (rewrite Hz; apply mkSeg_id).
        clear p q Hz.
        pose proof (wf _ Ez) as Wz. assert (Sz : smallS z) by apply Wz.
        assert (Q : epoint e = sl z).
        { destruct (e_edge _ _ I e (or_introl eq_refl)) as (s & Es & Ds & P). rewrite R in P.
          rewrite P. f_equal. apply ids; [assumption|assumption|congruence]. }
        assert (Zn : ~ In z l).
        { intros J. apply (i_act _ _ I z Ez) in J. destruct J as (_ & J). apply J. exists e. split; [left; reflexivity|auto]. }
        unfold emplace. rewrite allCompare_ok by assumption. cbn [bind].
        destruct (SP (length evs) z l) as (K1 & K2 & K3). remember (place (length evs) z l) as k eqn:Hk. clear Hk.
        remember (firstn k l) as a eqn:Ha. remember (skipn k l) as b eqn:Hb.
        assert (El : l = a ++ b) by (rewrite Ha, Hb, firstn_skipn; reflexivity).
        assert (Hs : forall s b', b = s :: b' -> smallS s /\ lessb z s = true).
        { intros s b' E. assert (Ss : smallS s).
          { apply (proj1 (Forall_forall _ _) Fs). rewrite El, E. apply in_or_app. right. left. reflexivity. }
          split; [exact Ss|]. assert (Nth : nth_error l k = Some s).
          { rewrite <- (firstn_skipn k l), <- Hb, E. rewrite nth_error_app2 by (rewrite firstn_length; lia).
            rewrite firstn_length, Nat.min_l by exact K1. rewrite Nat.sub_diag. reflexivity. }
          specialize (K2 s Nth). rewrite segLess_ok in K2 by assumption. destruct (lessb z s); [reflexivity|congruence]. }
        assert (Hp : forall p a', a = a' ++ [p] -> smallS p /\ lessb z p = false).
        { intros p a' E. assert (Sp : smallS p).
          { apply (proj1 (Forall_forall _ _) Fs). rewrite El, E. apply in_or_app. left. apply in_or_app. right. left. reflexivity. }
          split; [exact Sp|]. assert (La : length a = k) by (rewrite Ha, firstn_length; lia).
          assert (La' : length a = S (length a')) by (rewrite E, app_length; cbn; lia).
          assert (Nth : nth_error l (k - 1) = Some p).
          { rewrite El, E, <- app_assoc. rewrite nth_error_app2 by lia. replace (k - 1 - length a')%nat with O by lia. reflexivity. }
          specialize (K3 p ltac:(lia) Nth). rewrite segLess_ok in K3 by assumption. destruct (lessb z p); [congruence|reflexivity]. }
        clear Ha Hb K1 K2 K3. subst l.
        assert (Act : forall s, In s (a ++ b) -> inS s (sl z)) by (intros s J; rewrite <- Q; apply (act_in _ _ _ _ I J)).
        assert (ActZ : inS z (sl z)) by apply (on_left z Ez).
        assert (Edge : forall s, In s (a ++ b) -> isedge s) by (intros s; apply (proj1 (Forall_forall _ _) F s)).
        (* the element before the place *)
        assert (X : lastOpt a = None \/ exists p a', lastOpt a = Some p /\ a = a' ++ [p]).
        { destruct (lastOpt a) as [p|] eqn:La; [right|left; reflexivity]. apply lastOpt_Some in La. destruct La as (a' & E). exists p, a'. auto. }
        assert (Y : exists m, match headOpt b with Some s => segMeet z s n | None => Ok false end = Ok m /\
                      (m = false <-> forall s b', b = s :: b' -> okS z s)).
        { destruct b as [|s b']; cbn [headOpt].
          - exists false. split; [reflexivity|]. split; [|reflexivity]. intros _ s b' H. discriminate.
          - destruct (segMeet_ok n z s) as (m & -> & E); [assumption|apply (Hs s b' eq_refl)|]. exists m. split; [reflexivity|].
            rewrite E. split; [intros H s' b'' H'; inv H'; exact H|intros H; apply (H s b'); reflexivity]. }
        destruct Y as (m2 & Y & E2).
        assert (Rest : (forall p a', a = a' ++ [p] -> lessb p z = true /\ okS z p) ->
          exists r, (let! m := match headOpt b with Some s => segMeet z s n | None => Ok false end in
                     if m then Ok false else sweep place ps n evs (a ++ z :: b)) = Ok r /\ (r = true <-> clean)).
        { intros Ta. rewrite Y. cbn [bind]. destruct m2.
          - exists false. split; [reflexivity|]. split; [discriminate|]. intros C. exfalso.
            assert (true = false) as T; [|discriminate]. apply E2. intros s b' ->.
            assert (Is : In s (a ++ s :: b')) by (apply in_or_app; right; left; reflexivity).
            apply clean_apart with (q := sl z); auto. intros ->. contradiction.
          - apply IH; [|exact B']. apply insert_step with (e := e); try assumption.
            + intros p a' E. destruct (Ta p a' E). destruct (Hp p a' E). auto.
            + intros s b' E. split; [apply (Hs s b' E)|]. apply (proj1 E2 eq_refl s b' E). }
        destruct X as [X|(p & a' & X & Ea)].
        * rewrite X. cbn [bind]. rewrite X. cbn [bind]. apply Rest. intros p a' E. apply lastOpt_None in X. subst a. destruct a'; discriminate.
        * rewrite X. destruct (Hp p a' Ea) as (Sp & Lp). rewrite segLess_ok by assumption. cbn [bind].
          assert (Ip : In p (a ++ b)) by (rewrite Ea; apply in_or_app; left; apply in_or_app; right; left; reflexivity).
          pose proof (Edge p Ip) as Ep. pose proof (wf _ Ep) as Wp. pose proof (Act p Ip) as Ap.
          assert (Np : z <> p) by (intros ->; contradiction).
          destruct (lessb p z) eqn:Lz.
          -- rewrite X. destruct (segMeet_ok n z p) as (m & -> & E); [assumption|assumption|]. cbn [bind]. destruct m.
             ++ exists false. split; [reflexivity|]. split; [discriminate|]. intros C. exfalso.
                assert (true = false) as T; [|discriminate]. apply E. apply clean_apart with (q := sl z); assumption.
             ++ apply Rest. intros p' a'' E'. rewrite Ea in E'. apply app_inj_tail in E'. destruct E' as (_ & <-).
                split; [exact Lz|]. apply E. reflexivity.
          -- exists false. split; [reflexivity|]. split; [discriminate|]. intros C. exfalso.
             assert (O : okS p z) by (apply clean_apart with (q := sl z); auto).
             destruct (Z.lt_trichotomy (side p (sl z)) 0) as [P|[P|P]].
             ++ destruct (less_neg p z Wp Wz (proj1 Ap) P). congruence.
             ++ assert (Op : On p (sl z)) by (split; assumption). pose proof (on_left z Ez) as Oz.
                pose proof (on_near p z (sl z) Ep Ez O Op Oz) as N.
                destruct (mates p z Ep Ez N) as (v & Sv & Vp & Vz & U1).
                assert (V : sl z = v) by (apply U1; [apply Sz|assumption|assumption]).
                destruct Vp as [Vp|Vp].
                ** assert (Vz' : v = sl z) by congruence. pose proof (mate_left p z v Ep Ez Vp Vz' U1) as D. rewrite less_left in Lz, Lp by congruence.
                   apply Z.ltb_ge in Lz, Lp. rewrite <- Vp in Lz. rewrite <- Vz' in Lp. rewrite orient_swap in Lp. lia.
                ** destruct (less_chain p z Wp Wz) as [T|T]; congruence.
             ++ destruct (less_pos p z Wp Wz (proj1 Ap) P). congruence.
  Qed.
End Sweep.
