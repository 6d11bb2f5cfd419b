(* The constraint log against ConstraintSpec. *)
From Verif Require Import Base Tac SeqModel FloatModel InputSpec InputProofs InputProofs3 InputProofs4 ArgsModel ArgsProofs ConstraintModel ConstraintSpec.

(* ---- extremes in a total order ---- *)
Section Order.
  Variable T : Type.
  Variable lt : T -> T -> bool.
  Variable le : T -> T -> Prop.
  Variable good : T -> Prop.
  Hypothesis le_trans : forall x y z, le x y -> le y z -> le x z.
  Hypothesis le_refl : forall x, good x -> le x x.
  Hypothesis lt_le : forall x y, lt x y = true -> le x y.
  Hypothesis nlt_le : forall x y, good x -> good y -> lt x y = false -> le y x.
  Variable eq : T -> T -> outcome bool.

  Lemma least_single : forall x, good x -> least le [x] x.
  Proof. intros x G. split; [left; auto|]. intros y [<-|[]]. auto. Qed.
  Lemma greatest_single : forall x, good x -> least (fun a b => le b a) [x] x.
  Proof. intros x G. split; [left; auto|]. intros y [<-|[]]. auto. Qed.
  Lemma least_snoc : forall l x y, Forall good l -> good y -> least le l x -> least le (l ++ [y]) (stdMin lt x y).
  Proof.
    intros l x y F G [I M]. pose proof (proj1 (Forall_forall _ _) F x I) as GX. unfold stdMin. destruct (lt y x) eqn:E.
    - split; [apply in_or_app; right; left; auto|]. intros z H. apply in_app_or in H as [H|[<-|[]]]; [|auto].
      apply le_trans with x; auto.
    - split; [apply in_or_app; auto|]. intros z H. apply in_app_or in H as [H|[<-|[]]]; auto.
  Qed.
  Lemma greatest_snoc : forall l x y, Forall good l -> good y -> least (fun a b => le b a) l x ->
    least (fun a b => le b a) (l ++ [y]) (stdMax lt x y).
  Proof.
    intros l x y F G [I M]. pose proof (proj1 (Forall_forall _ _) F x I) as GX. unfold stdMax. destruct (lt x y) eqn:E.
    - split; [apply in_or_app; right; left; auto|]. intros z H. apply in_app_or in H as [H|[<-|[]]]; [|auto].
      apply le_trans with x; auto.
    - split; [apply in_or_app; auto|]. intros z H. apply in_app_or in H as [H|[<-|[]]]; auto.
  Qed.

  Definition good3 (c : T * T * T) : Prop := good (fst (fst c)) /\ good (snd (fst c)) /\ good (snd c).
  Definition summary (l : list (T * T * T)) (b : bounds T) : Prop :=
    least le (map snd l) (bmin b) /\ least (fun a b => le b a) (map snd l) (bmax b) /\
    least le (map (fun c => fst (fst c)) l) (blower b) /\
    least (fun a b => le b a) (map (fun c => snd (fst c)) l) (bupper b) /\
    (hadMin b = true <-> exists lo up v, In (lo, up, v) l /\ eq v lo = Ok true) /\
    (hadMax b = true <-> exists lo up v, In (lo, up, v) l /\ eq v up = Ok true).

  Lemma good3_map : forall l, Forall good3 l ->
    Forall good (map snd l) /\ Forall good (map (fun c => fst (fst c)) l) /\ Forall good (map (fun c => snd (fst c)) l).
  Proof. induction 1 as [|x l (A & B & C) F (I & J & K)]; simpl; repeat split; constructor; auto. Qed.

  Lemma had_snoc : forall (f : T * T * T -> T) h l lo up v r,
    (h = true <-> exists lo up v, In (lo, up, v) l /\ eq v (f (lo, up, v)) = Ok true) ->
    eq v (f (lo, up, v)) = Ok r ->
    (h || r = true <-> exists lo' up' v', In (lo', up', v') (l ++ [(lo, up, v)]) /\ eq v' (f (lo', up', v')) = Ok true).
  Proof.
    intros f h l lo up v r H E. rewrite orb_true_iff, H. split.
    - intros [(a & b & c & I & Q)| ->].
      + exists a, b, c. split; auto. apply in_or_app; auto.
      + exists lo, up, v. split; auto. apply in_or_app. right. left. auto.
    - intros (a & b & c & I & Q). apply in_app_or in I as [I|[I|[]]].
      + left. eauto.
      + inv I. right. congruence.
  Qed.

  Lemma summary_snoc : forall l b lo up v b', Forall good3 l -> good3 (lo, up, v) -> summary l b ->
    boundsUpdate eq lt b lo up v = Ok b' -> summary (l ++ [(lo, up, v)]) b'.
  Proof.
    intros l b lo up v b' F (GL & GU & GV) (S1 & S2 & S3 & S4 & S5 & S6) H. unfold boundsUpdate in H.
    destruct (eq v lo) as [hl| | |] eqn:EL; try discriminate. destruct (eq v up) as [hu| | |] eqn:EU; try discriminate.
    cbn [bind] in H. inv H. destruct (good3_map l F) as (F1 & F2 & F3). cbn [fst snd] in *.
    unfold summary. rewrite !map_app. cbn [map fst snd bmin bmax blower bupper hadMin hadMax].
    split; [apply least_snoc; auto|]. split; [apply greatest_snoc; auto|].
    split; [apply least_snoc; auto|]. split; [apply greatest_snoc; auto|].
    split; [apply (had_snoc (fun c => fst (fst c))); auto|apply (had_snoc (fun c => snd (fst c))); auto].
  Qed.
  Lemma summary_new : forall lo up v b, good3 (lo, up, v) -> boundsNew eq lt lo up v = Ok b -> summary [(lo, up, v)] b.
  Proof.
    intros lo up v b (GL & GU & GV) H. unfold boundsNew, boundsUpdate in H.
    destruct (eq v lo) as [hl| | |] eqn:EL; try discriminate. destruct (eq v up) as [hu| | |] eqn:EU; try discriminate.
    cbn [bind hadMin hadMax bmin bmax blower bupper orb] in H. inv H. cbn [fst snd] in *.
    assert (MN : forall x, stdMin lt x x = x) by (intro; unfold stdMin; destruct (lt x x); auto).
    assert (MX : forall x, stdMax lt x x = x) by (intro; unfold stdMax; destruct (lt x x); auto).
    unfold summary. cbn [map fst snd bmin bmax blower bupper hadMin hadMax]. rewrite !MN, !MX.
    split; [apply least_single; auto|]. split; [apply greatest_single; auto|].
    split; [apply least_single; auto|]. split; [apply greatest_single; auto|]. split.
    - split; [intros ->; exists lo, up, v; split; [left; auto|auto]|]. intros (a & b & c & [I|[]] & Q). inv I. congruence.
    - split; [intros ->; exists lo, up, v; split; [left; auto|auto]|]. intros (a & b & c & [I|[]] & Q). inv I. congruence.
  Qed.
  Lemma least_ext : forall R (l l' : list T) x, (forall y, In y l <-> In y l') -> least R l x -> least R l' x.
  Proof. intros R l l' x E [I M]. split; [apply E; auto|]. intros y H. apply M, E; auto. Qed.
  Lemma summary_ext : forall l l' b, (forall y, In y l <-> In y l') -> summary l b -> summary l' b.
  Proof.
    intros l l' b E (S1 & S2 & S3 & S4 & S5 & S6).
    assert (M : forall f : T * T * T -> T, forall y, In y (map f l) <-> In y (map f l')).
    { intros f y. rewrite !in_map_iff. split; intros (x & Q & I); exists x; split; auto; apply E; auto. }
    unfold summary. split; [eapply least_ext; [apply M|eauto]|]. split; [eapply least_ext; [apply M|eauto]|].
    split; [eapply least_ext; [apply M|eauto]|]. split; [eapply least_ext; [apply M|eauto]|].
    rewrite S5, S6. split; split; intros (a & c & d & I & Q); exists a, c, d; split; auto; apply E; auto.
  Qed.
  Lemma summary_new_update : forall lo up v b b', good3 (lo, up, v) -> boundsNew eq lt lo up v = Ok b ->
    boundsUpdate eq lt b lo up v = Ok b' -> summary [(lo, up, v)] b'.
  Proof.
    intros lo up v b b' G N U. apply summary_ext with (l := [(lo, up, v)] ++ [(lo, up, v)]).
    - intro y. simpl. tauto.
    - eapply summary_snoc; eauto. eapply summary_new; eauto.
  Qed.
End Order.

(* ---- the two instances ---- *)
Lemma SFltb_le : forall x y, SFltb x y = true -> SFleb x y = true.
Proof. intros x y. unfold SFltb, SFleb. destruct (SFcompare x y) as [[]|]; auto. Qed.
Lemma SFcompare_swap : forall x y, SFcompare y x = option_map CompOpp (SFcompare x y).
Proof.
  intros x y. destruct x as [[]|[]| |[] m e], y as [[]|[]| |[] m' e']; simpl; auto;
   rewrite (Z.compare_antisym e e'); destruct (e ?= e'); simpl; auto;
   f_equal; change (Pos.compare_cont Eq) with Pos.compare; rewrite (Pos.compare_antisym m m'); destruct (Pos.compare m m'); auto.
Qed.
Lemma SFcompare_number : forall x y, number x -> number y -> SFcompare x y <> None.
Proof.
  intros x y X Y. unfold number in *.
  destruct x as [[]|[]| |[] m e], y as [[]|[]| |[] m' e']; simpl; try congruence; destruct (e ?= e'); congruence.
Qed.
Lemma SFnlt_le : forall x y, number x -> number y -> SFltb x y = false -> SFleb y x = true.
Proof.
  intros x y X Y. unfold SFltb, SFleb. rewrite (SFcompare_swap x y). pose proof (SFcompare_number x y X Y) as N.
  destruct (SFcompare x y) as [[]|]; simpl; auto; congruence.
Qed.
Lemma SFleb_refl : forall x, number x -> SFleb x x = true.
Proof.
  intros x X. unfold number in X. unfold SFleb. destruct x as [[]|[]| |[] m e]; simpl; auto; try congruence;
   rewrite Z.compare_refl; change (Pos.compare_cont Eq m m) with (Pos.compare m m); rewrite Pos.compare_refl; reflexivity.
Qed.

Definition sumInt (l : list (Z * Z * Z)) (b : bounds Z) : Prop :=
  summary Z Z.le eqInt (map (fun c => (fst (fst c), snd (fst c) - 1, snd c)) l) b.
Definition sumReal (eps : real) (l : list (real * real * real)) (b : bounds real) : Prop :=
  summary real rle (eqReal eps) l b.

Lemma least_impl : forall T (R Q : T -> T -> Prop) l x, (forall a b, R a b -> Q a b) -> least R l x -> least Q l x.
Proof. intros T R Q l x H [I M]. split; auto. Qed.
Lemma sumInt_spec : forall l b, sumInt l b -> summaryInt l b.
Proof.
  intros l b (S1 & S2 & S3 & S4 & S5 & S6). unfold eqInt in *. rewrite !map_map in *. cbn [fst snd] in *. unfold summaryInt.
  split; [exact S1|]. split; [eapply least_impl; [|exact S2]; intros; simpl in *; lia|].
  split; [exact S3|]. split; [eapply least_impl; [|exact S4]; intros; simpl in *; lia|].
  rewrite S5, S6. split; split.
  - intros (a & c & d & I & Q). apply in_map_iff in I as ([[x y] z] & E & I). inv E. exists a, y, d. split; auto.
    inv Q. apply Z.eqb_eq. auto.
  - intros (a & c & d & I & ->). exists a, (c - 1), a. split; [|rewrite Z.eqb_refl; auto]. apply in_map_iff. exists (a, c, a). auto.
  - intros (a & c & d & I & Q). apply in_map_iff in I as ([[x y] z] & E & I). inv E. exists a, y, d. split; auto.
    inv Q. apply Z.eqb_eq. auto.
  - intros (a & c & d & I & ->). exists a, (c - 1), (c - 1). split; [|rewrite Z.eqb_refl; auto]. apply in_map_iff. exists (a, c, c - 1). auto.
Qed.
Lemma sumReal_spec : forall eps l b, sumReal eps l b -> summaryReal eps l b.
Proof. intros eps l b H. exact H. Qed.

(* ---- one constraint ---- *)
Section One.
  Variable eps : real.
  Hypothesis epsGood : goodTol eps.

  Definition cinv (c : constraint) (l : list logCall) : Prop :=
    Forall callOk l /\
    match ctype c with
    | None => cbound c = VNone /\ (forall x, In x l -> x = NoLog)
    | Some TReal => exists b, cbound c = VReal b /\ sumReal eps (realCalls l) b /\
        (forall x t, In x l -> callType x = Some t -> t = TReal) /\ realCalls l <> []
    | Some t => exists b, cbound c = VInt b /\ sumInt (intCalls l) b /\
        (forall x s, In x l -> callType x = Some s -> s = t) /\ intCalls l <> []
    end.

  Lemma cinv_new : cinv newConstraint [].
  Proof. split; [constructor|]. simpl. split; [auto|]. intros x []. Qed.

  Lemma intCalls_snoc : forall l c, intCalls (l ++ [c]) = intCalls l ++ intCalls [c].
  Proof. intros. unfold intCalls. apply flat_map_app. Qed.
  Lemma realCalls_snoc : forall l c, realCalls (l ++ [c]) = realCalls l ++ realCalls [c].
  Proof. intros. unfold realCalls. apply flat_map_app. Qed.
  Lemma intCalls_nolog : forall l, (forall x, In x l -> x = NoLog) -> intCalls l = [] /\ realCalls l = [].
  Proof.
    induction l as [|x l IH]; intro H; [auto|]. rewrite (H x (or_introl eq_refl)). simpl. apply IH. intros y I. apply H. right. auto.
  Qed.
  Lemma realCalls_good : forall l, Forall callOk l -> Forall (good3 real number) (realCalls l).
  Proof.
    induction 1 as [|c l C F IH]; [constructor|]. destruct c; simpl; auto.
  Qed.

  Lemma boundsUpdate_int : forall b lo up v, exists b', boundsUpdate eqInt Z.ltb b lo up v = Ok b'.
  Proof. intros. unfold boundsUpdate, eqInt. simpl. eauto. Qed.
  Lemma boundsUpdate_real : forall b lo up v, exists b', boundsUpdate (eqReal eps) SFltb b lo up v = Ok b'.
  Proof.
    intros. unfold boundsUpdate, eqReal.
    destruct (floatEqual_total v lo eps eps epsGood epsGood) as (x & ->).
    destruct (floatEqual_total v up eps eps epsGood epsGood) as (y & ->). simpl. eauto.
  Qed.

  Lemma Zgood3 : forall l : list (Z * Z * Z), Forall (good3 Z (fun _ => True)) l.
  Proof. intro. apply Forall_forall. intros. unfold good3. auto. Qed.

  Lemma sumInt_snoc : forall l b lo up v b', sumInt l b -> boundsUpdate eqInt Z.ltb b lo (up - 1) v = Ok b' ->
    sumInt (l ++ [(lo, up, v)]) b'.
  Proof.
    intros l b lo up v b' S0 U. unfold sumInt. rewrite map_app. cbn [map fst snd].
    apply (summary_snoc Z Z.ltb Z.le (fun _ => True)) with (b := b); auto using Zgood3; try (intros; lia).
    unfold good3. auto.
  Qed.
  Lemma sumInt_new : forall lo up v b b', boundsNew eqInt Z.ltb lo (up - 1) v = Ok b ->
    boundsUpdate eqInt Z.ltb b lo (up - 1) v = Ok b' -> sumInt [(lo, up, v)] b'.
  Proof.
    intros lo up v b b' N U. unfold sumInt. cbn [map fst snd].
    apply (summary_new_update Z Z.ltb Z.le (fun _ => True)) with (b := b); auto; try (intros; lia).
    unfold good3. auto.
  Qed.
  Lemma sumReal_snoc : forall l b lo up v b', Forall (good3 real number) l -> good3 real number (lo, up, v) -> sumReal eps l b ->
    boundsUpdate (eqReal eps) SFltb b lo up v = Ok b' -> sumReal eps (l ++ [(lo, up, v)]) b'.
  Proof.
    intros l b lo up v b' F G S0 U.
    apply (summary_snoc real SFltb rle number) with (b := b); auto.
    - exact SFleb_trans.
    - exact SFleb_refl.
    - exact SFltb_le.
    - exact SFnlt_le.
  Qed.
  Lemma sumReal_new : forall lo up v b b', good3 real number (lo, up, v) -> boundsNew (eqReal eps) SFltb lo up v = Ok b ->
    boundsUpdate (eqReal eps) SFltb b lo up v = Ok b' -> sumReal eps [(lo, up, v)] b'.
  Proof.
    intros lo up v b b' G N U.
    apply (summary_new_update real SFltb rle number) with (b := b); auto.
    - exact SFleb_trans.
    - exact SFleb_refl.
    - exact SFltb_le.
    - exact SFnlt_le.
  Qed.

  Lemma sameType_iff : forall a b, sameType a b = true <-> a = b.
  Proof.
    intros [| |i] [| |j]; simpl; try (split; congruence). rewrite Nat.eqb_eq. split; congruence.
  Qed.

  Definition typeFits (l : list logCall) (c : logCall) : Prop :=
    forall x s t, In x l -> callType x = Some s -> callType c = Some t -> s = t.

  Lemma nonempty_type_int : forall l, intCalls l <> [] -> exists x s, In x l /\ callType x = Some s.
  Proof.
    induction l as [|c l IH]; intro H; [simpl in H; congruence|]. destruct c; simpl in H.
    - destruct (IH H) as (x & s & I & E). exists x, s. split; [right; auto|auto].
    - eexists. eexists. split; [left; reflexivity|reflexivity].
    - eexists. eexists. split; [left; reflexivity|reflexivity].
  Qed.
  Lemma nonempty_type_real : forall l, realCalls l <> [] -> exists x s, In x l /\ callType x = Some s.
  Proof.
    induction l as [|c l IH]; intro H; [simpl in H; congruence|]. destruct c; simpl in H.
    - destruct (IH H) as (x & s & I & E). exists x, s. split; [right; auto|auto].
    - eexists. eexists. split; [left; reflexivity|reflexivity].
    - eexists. eexists. split; [left; reflexivity|reflexivity].
  Qed.
  Lemma cinv_type : forall c l t, cinv c l -> ctype c = Some t -> exists x, In x l /\ callType x = Some t.
  Proof.
    intros c l t [F H] E. rewrite E in H. destruct t.
    - destruct H as (b & _ & _ & A & N). destruct (nonempty_type_int l N) as (x & s & I & Q). rewrite (A x s I Q) in Q. eauto.
    - destruct H as (b & _ & _ & A & N). destruct (nonempty_type_real l N) as (x & s & I & Q). rewrite (A x s I Q) in Q. eauto.
    - destruct H as (b & _ & _ & A & N). destruct (nonempty_type_int l N) as (x & s & I & Q). rewrite (A x s I Q) in Q. eauto.
  Qed.

  Lemma logOne_step : forall c l call, cinv c l -> callOk call ->
    (exists c', logOne eps c call = Ok c' /\ cinv c' (l ++ [call]) /\ callFits call /\ typeFits l call) \/
    ((forall c', logOne eps c call <> Ok c') /\ ~ (callFits call /\ typeFits l call)).
  Proof.
    intros c l call INV CK. pose proof INV as [F H].
    assert (F' : Forall callOk (l ++ [call])) by (apply Forall_app; split; auto).
    assert (IN : forall x, In x (l ++ [call]) -> In x l \/ x = call).
    { intros x I. apply in_app_or in I as [I|[I|[]]]; auto. }
    destruct call as [|x lo up v|lo up v]; cbn [logOne callFits].
    - left. exists c. split; auto. split; [|split; [auto|intros ? ? ? ? ? E; discriminate]]. split; [auto|].
      destruct (ctype c) as [[| |k]|]; rewrite ?intCalls_snoc, ?realCalls_snoc; simpl; rewrite ?app_nil_r.
      + destruct H as (b & B & S0 & A & N). exists b. split; auto. split; auto. split; auto. intros y s I E. destruct (IN y I) as [J| ->]; eauto; discriminate.
      + destruct H as (b & B & S0 & A & N). exists b. split; auto. split; auto. split; auto. intros y s I E. destruct (IN y I) as [J| ->]; eauto; discriminate.
      + destruct H as (b & B & S0 & A & N). exists b. split; auto. split; auto. split; auto. intros y s I E. destruct (IN y I) as [J| ->]; eauto; discriminate.
      + destruct H as [B A]. split; auto. intros y I. destruct (IN y I) as [J| ->]; auto.
    - unfold updateInt, chk. simpl in CK. destruct (in_i64 (up - 1)) eqn:I64; [|right; split; [discriminate|]; intros [Q _]; apply in_i64_iff in Q; congruence].
      apply in_i64_iff in I64. cbn [bind]. destruct (ctype c) as [t|] eqn:CT.
      + cbn [bind]. rewrite CT. destruct (cinv_type c l t INV CT) as (w & WI & WT).
        destruct (sameType t x) eqn:ST.
        2:{ right. split; [discriminate|]. intros [_ TF]. rewrite (TF w t x WI WT eq_refl) in ST.
            pose proof (proj2 (sameType_iff x x) eq_refl). congruence. }
        apply sameType_iff in ST. subst t. left. cbn [judgeAssert bind].
        assert (HI : exists b, cbound c = VInt b /\ sumInt (intCalls l) b /\ (forall y s, In y l -> callType y = Some s -> s = x) /\ intCalls l <> []).
        { destruct x; auto. congruence. }
        destruct HI as (b & B & S0 & A & N). rewrite B.
        destruct (boundsUpdate_int b lo (up - 1) v) as (b' & U). rewrite U. cbn [bind].
        eexists. split; [reflexivity|]. split; [|split; [auto|intros y s t I E1 E2; inv E2; eapply A; eauto]]. split; [auto|]. cbn [ctype cbound].
        assert (RES : exists b0, VInt b' = VInt b0 /\ sumInt (intCalls (l ++ [LogInt x lo up v])) b0 /\
           (forall y s, In y (l ++ [LogInt x lo up v]) -> callType y = Some s -> s = x) /\ intCalls (l ++ [LogInt x lo up v]) <> []).
        { exists b'. split; auto. rewrite intCalls_snoc. simpl. split; [eapply sumInt_snoc; eauto|]. split.
          - intros y s I E. destruct (IN y I) as [J| ->]; [eauto|]. simpl in E. congruence.
          - destruct (intCalls l); discriminate. }
        destruct x; auto. congruence.
      + unfold boundsNew. destruct (boundsUpdate_int (mkBounds false false v v lo (up - 1)) lo (up - 1) v) as (b & N). rewrite N. cbn [bind ctype].
        rewrite (proj2 (sameType_iff x x) eq_refl). cbn [judgeAssert bind cbound].
        destruct (boundsUpdate_int b lo (up - 1) v) as (b' & U). rewrite U. cbn [bind]. left.
        destruct H as [B A]. eexists. split; [reflexivity|]. split; [|split; [auto|intros y s t I E1 E2; rewrite (A y I) in E1; discriminate]]. split; [auto|]. cbn [ctype cbound].
        assert (RES : exists b0, VInt b' = VInt b0 /\ sumInt (intCalls (l ++ [LogInt x lo up v])) b0 /\
           (forall y s, In y (l ++ [LogInt x lo up v]) -> callType y = Some s -> s = x) /\ intCalls (l ++ [LogInt x lo up v]) <> []).
        { exists b'. split; auto. rewrite intCalls_snoc. rewrite (proj1 (intCalls_nolog l A)). simpl. split; [eapply sumInt_new; eauto|]. split.
          - intros y s I E. destruct (IN y I) as [J| ->]; [rewrite (A y J) in E; discriminate|]. simpl in E. congruence.
          - discriminate. }
        destruct x; auto. congruence.
    - unfold updateReal. destruct (ctype c) as [t|] eqn:CT.
      + cbn [bind]. rewrite CT. destruct (cinv_type c l t INV CT) as (w & WI & WT).
        destruct (sameType t TReal) eqn:ST.
        2:{ right. split; [discriminate|]. intros [_ TF]. rewrite (TF w t TReal WI WT eq_refl) in ST. discriminate. }
        apply sameType_iff in ST. subst t. left. cbn [judgeAssert bind].
        destruct H as (b & B & S0 & A & N). rewrite B.
        destruct (boundsUpdate_real b lo up v) as (b' & U). rewrite U. cbn [bind].
        eexists. split; [reflexivity|]. split; [|split; [auto|intros y s t I E1 E2; inv E2; eapply A; eauto]]. split; [auto|]. cbn [ctype cbound].
        exists b'. split; auto. rewrite realCalls_snoc. simpl. split; [eapply sumReal_snoc; eauto using realCalls_good|]. split.
        * intros y s I E. destruct (IN y I) as [J| ->]; [eauto|]. simpl in E. congruence.
        * destruct (realCalls l); discriminate.
      + unfold boundsNew. destruct (boundsUpdate_real (mkBounds false false v v lo up) lo up v) as (b & N). rewrite N. cbn [bind ctype].
        cbn [sameType judgeAssert bind cbound].
        destruct (boundsUpdate_real b lo up v) as (b' & U). rewrite U. cbn [bind]. left.
        destruct H as [B A]. eexists. split; [reflexivity|]. split; [|split; [auto|intros y s t I E1 E2; rewrite (A y I) in E1; discriminate]]. split; [auto|]. cbn [ctype cbound].
        exists b'. split; auto. rewrite realCalls_snoc. rewrite (proj2 (intCalls_nolog l A)). simpl. split; [eapply sumReal_new; eauto|]. split.
        * intros y s I E. destruct (IN y I) as [J| ->]; [rewrite (A y J) in E; discriminate|]. simpl in E. congruence.
        * discriminate.
  Qed.
End One.
