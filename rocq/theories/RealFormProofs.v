(* normal and exponential evaluate their formulas at consecutive results of real(). *)
From Verif Require Import Base Tac RndModel RndLemmas FloatModel FloatSpec RealModel RealSpec RealFormSpec.
From Coq Require Import QArith ZArith Lia SpecFloat.
Open Scope Z_scope.

Lemma play_rel : forall A B C (m : rnd A) (f : A -> rnd B) (g : A -> rnd C) (T : B -> outcome C -> Prop),
  (forall a xs b, play (f a) xs = Ok b -> T b (play (g a) xs)) -> forall xs b, play (rbind m f) xs = Ok b -> T b (play (rbind m g) xs).
Proof.
  intros A B C m f g T H. induction m as [o|lo hi k IH]; intros xs b; cbn [rbind].
  - destruct o as [a| | |]; cbn [rbind play]; try discriminate. apply H.
  - cbn [play]. destruct xs as [|x xs]; [discriminate|]. destruct ((lo <=? x) && (x <? hi)); [|discriminate]. apply IH.
Qed.
Lemma play_assoc : forall A B C (m : rnd A) (f : A -> rnd B) (g : B -> rnd C) xs, play (rbind (rbind m f) g) xs = play (rbind m (fun a => rbind (f a) g)) xs.
Proof.
  intros A B C m f g. induction m as [o|lo hi k IH]; intros xs; cbn [rbind].
  - destruct o; reflexivity.
  - cbn [play]. destruct xs as [|x xs]; auto. rewrite IH. reflexivity.
Qed.
Lemma turn : rmul (ofZ 2) pi = fullTurn.
Proof. vm_compute. reflexivity. Qed.
Lemma minusTwo : ropp (ofZ 2) = ofZ (-2).
Proof. vm_compute. reflexivity. Qed.

Section Form.
  Variables sqrt sin cos log : real -> real.
  Lemma normal_form : forall fuel mean stddev ws u1 u2, SFleb rzero stddev = true -> play (reals fuel 2) ws = Ok [u1; u2] ->
    play (normal sqrt cos log fuel mean stddev) ws = Ok (boxMuller sqrt cos log mean stddev (u1, u2)).
  Proof.
    intros fuel mean stddev ws u1 u2 S. unfold normal. rewrite S. cbn [judgeAssert lift rbind reals].
    set (T := fun (us : list real) (o : outcome real) => match us with [u1; u2] => o = Ok (boxMuller sqrt cos log mean stddev (u1, u2)) | _ => True end).
    change (play (let? u := randomReal fuel in let? us := (let? u := randomReal fuel in let? us := ret [] in ret (u :: us)) in ret (u :: us)) ws = Ok [u1; u2] ->
      T [u1; u2] (play (let? u1 := randomReal fuel in let? u2 := randomReal fuel in
        ret (radd (rmul (sqrt stddev) (rmul (sqrt (rmul (ropp (ofZ 2)) (log u1))) (cos (rmul twoPi u2)))) mean)) ws)).
    apply play_rel. intros v1 xs b. rewrite play_assoc. apply play_rel. intros v2 xs' b'. cbn [ret rbind play]. intro Q. inv Q. unfold T, twoPi. rewrite turn, minusTwo. reflexivity.
  Qed.
  Definition candidates (mean stddev : real) (us : list real) : list real :=
    flat_map (fun u => [boxMuller sqrt cos log mean stddev u; boxMuller sqrt sin log mean stddev u]) (inPairs us).
  Lemma normalLoop_form : forall fuel fuel' lower upper mean stddev ws us, play (reals fuel' (2 * fuel)) ws = Ok us ->
    play (normalLoop sqrt sin cos log fuel fuel' lower upper mean stddev) ws =
    match List.find (fun r => SFleb lower r && SFltb r upper) (candidates mean stddev us) with Some r => Ok r | None => Fuel end.
  Proof.
    induction fuel as [|fuel IH]; intros fuel' lower upper mean stddev ws us; cbn [normalLoop].
    - cbn. intro Q. inv Q. reflexivity.
    - replace (2 * S fuel)%nat with (S (S (2 * fuel))) by lia. cbn [reals].
      set (T := fun (us : list real) (o : outcome real) => o = match List.find (fun r => SFleb lower r && SFltb r upper) (candidates mean stddev us) with Some r => Ok r | None => Fuel end).
      change (play (let? u := randomReal fuel' in let? us := (let? u := randomReal fuel' in let? us := reals fuel' (2 * fuel) in ret (u :: us)) in ret (u :: us)) ws = Ok us ->
        T us (play (let? u1 := randomReal fuel' in let? u2 := randomReal fuel' in
          let res := radd (rmul (sqrt stddev) (rmul (sqrt (rmul (ropp (ofZ 2)) (log u1))) (cos (rmul twoPi u2)))) mean in
          if SFleb lower res && SFltb res upper then ret res else
          let res := radd (rmul (sqrt stddev) (rmul (sqrt (rmul (ropp (ofZ 2)) (log u1))) (sin (rmul twoPi u2)))) mean in
          if SFleb lower res && SFltb res upper then ret res else
          normalLoop sqrt sin cos log fuel fuel' lower upper mean stddev) ws)).
      apply play_rel. intros u1 xs b. rewrite play_assoc.
      apply play_rel. intros u2 xs' b'. rewrite play_assoc. cbv zeta. unfold twoPi. rewrite turn, minusTwo.
      change (radd (rmul (sqrt stddev) (rmul (sqrt (rmul (ofZ (-2)) (log u1))) (cos (rmul fullTurn u2)))) mean) with (boxMuller sqrt cos log mean stddev (u1, u2)).
      change (radd (rmul (sqrt stddev) (rmul (sqrt (rmul (ofZ (-2)) (log u1))) (sin (rmul fullTurn u2)))) mean) with (boxMuller sqrt sin log mean stddev (u1, u2)).
      intro PB. assert (X : exists us', play (reals fuel' (2 * fuel)) xs' = Ok us' /\ b' = u1 :: u2 :: us').
      { revert PB. generalize (reals fuel' (2 * fuel)). intro m. revert xs'. induction m as [o|lo hi k IHm]; intros xs'; cbn [rbind play].
        - destruct o as [us'| | |]; cbn; try discriminate. intro Q. inv Q. eauto.
        - destruct xs' as [|x xs']; [discriminate|]. destruct ((lo <=? x) && (x <? hi)); [|discriminate]. apply IHm. }
      destruct X as (us' & P & ->). apply (IH fuel' lower upper mean stddev) in P. unfold T, candidates. cbn [inPairs flat_map app List.find].
      destruct (SFleb lower (boxMuller sqrt cos log mean stddev (u1, u2)) && SFltb (boxMuller sqrt cos log mean stddev (u1, u2)) upper); [reflexivity|].
      destruct (SFleb lower (boxMuller sqrt sin log mean stddev (u1, u2)) && SFltb (boxMuller sqrt sin log mean stddev (u1, u2)) upper); [reflexivity|]. exact P.
  Qed.
  Lemma normalIn_form : forall fuel fuel' lower upper mean stddev ws us, isnan lower = false -> isnan upper = false -> SFltb lower upper = true -> SFleb rzero stddev = true ->
    play (reals fuel' (2 * fuel)) ws = Ok us ->
    play (normalIn sqrt sin cos log fuel fuel' lower upper mean stddev) ws =
    match List.find (fun r => SFleb lower r && SFltb r upper)
      (flat_map (fun u => [boxMuller sqrt cos log mean stddev u; boxMuller sqrt sin log mean stddev u]) (inPairs us)) with Some r => Ok r | None => Fuel end.
  Proof.
    intros fuel fuel' lower upper mean stddev ws us A B C D P. unfold normalIn. rewrite A, B, C, D. cbn [negb judgeAssert lift rbind]. apply normalLoop_form. auto.
  Qed.
  Lemma exponential_form : forall fuel lambda ws u, SFltb rzero lambda = true -> play (randomReal fuel) ws = Ok u ->
    play (exponential log fuel lambda) ws = Ok (rdiv (ropp (log u)) lambda).
  Proof.
    intros fuel lambda ws u S P. unfold exponential. rewrite S. cbn [judgeAssert lift rbind]. revert ws P. generalize (randomReal fuel). intro m. induction m as [o|lo hi k IH]; intros ws; cbn [rbind play].
    - intros ->. reflexivity.
    - destruct ws as [|x xs]; [discriminate|]. destruct ((lo <=? x) && (x <? hi)); [|discriminate]. apply IH.
  Qed.
  Lemma exponentialLoop_form : forall fuel fuel' lower upper lambda ws us, play (reals fuel' fuel) ws = Ok us ->
    play (exponentialLoop log fuel fuel' lower upper lambda) ws =
    match List.find (fun r => SFltb r upper) (map (fun u => rsub lower (rdiv (log u) lambda)) us) with Some r => Ok r | None => Fuel end.
  Proof.
    induction fuel as [|fuel IH]; intros fuel' lower upper lambda ws us; cbn [exponentialLoop reals].
    - cbn. intro Q. inv Q. reflexivity.
    - set (T := fun (us : list real) (o : outcome real) => o = match List.find (fun r => SFltb r upper) (map (fun u => rsub lower (rdiv (log u) lambda)) us) with Some r => Ok r | None => Fuel end).
      change (play (let? u := randomReal fuel' in let? us := reals fuel' fuel in ret (u :: us)) ws = Ok us ->
        T us (play (let? u := randomReal fuel' in let res := rsub lower (rdiv (log u) lambda) in
          if SFltb res upper then ret res else exponentialLoop log fuel fuel' lower upper lambda) ws)).
      apply play_rel. intros u xs b. cbv zeta. intro PB. assert (X : exists us', play (reals fuel' fuel) xs = Ok us' /\ b = u :: us').
      { revert PB. generalize (reals fuel' fuel). intro m. revert xs. induction m as [o|lo hi k IHm]; intros xs; cbn [rbind play].
        - destruct o as [us'| | |]; cbn; try discriminate. intro Q. inv Q. eauto.
        - destruct xs as [|x xs]; [discriminate|]. destruct ((lo <=? x) && (x <? hi)); [|discriminate]. apply IHm. }
      destruct X as (us' & P & ->). apply (IH fuel' lower upper lambda) in P. unfold T. cbn [map List.find].
      destruct (SFltb (rsub lower (rdiv (log u) lambda)) upper); [reflexivity|exact P].
  Qed.
  Lemma exponentialIn_form : forall fuel fuel' lower upper lambda ws us, isfinite lower = true -> isnan upper = false -> SFltb lower upper = true -> SFltb rzero lambda = true ->
    play (reals fuel' fuel) ws = Ok us ->
    play (exponentialIn log fuel fuel' lower upper lambda) ws =
    match List.find (fun r => SFltb r upper) (map (fun u => rsub lower (rdiv (log u) lambda)) us) with Some r => Ok r | None => Fuel end.
  Proof.
    intros fuel fuel' lower upper lambda ws us A B C D P. unfold exponentialIn. rewrite A, B, C, D. cbn [negb judgeAssert lift rbind]. apply exponentialLoop_form. auto.
  Qed.
End Form.
