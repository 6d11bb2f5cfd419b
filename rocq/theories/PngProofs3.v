(* Pixels, painting and flood filling. *)
From Coq Require Import ZArith List Lia Bool.
From Verif Require Import Base BaseLemmas PngModel PngSpec.
Import ListNotations.
Local Open Scope Z_scope.
Local Arguments Z.add : simpl never.
Local Arguments Z.mul : simpl never.

(* ------------------------------------------------------------ colours *)

Lemma colorEq_iff : forall a b, colorEq a b = true <-> a = b.
Proof.
  intros [r g b a] [r' g' b' a']. unfold colorEq. cbn [cr cg cb ca].
  rewrite !andb_true_iff, !Z.eqb_eq. split.
  - intros (((-> & ->) & ->) & ->). reflexivity.
  - intros E. injection E as -> -> -> ->. auto.
Qed.

Lemma colorNe_eq : forall a b, colorNe a b = negb (colorEq a b).
Proof. intros a b. unfold colorNe, colorEq. rewrite !negb_andb. reflexivity. Qed.

Lemma clamp_byte : forall c, byte (clampColor c).
Proof.
  intros c. unfold clampColor, byte. destruct (Z.ltb_spec c 0); [lia|].
  destruct (Z.ltb_spec 255 c); lia.
Qed.

Lemma combine_isColor : forall m a b, isColor a -> isColor b -> isColor (combine m a b).
Proof.
  intros m a b A B. destruct m; cbn [combine]; [exact B| | |].
  - unfold blend. destruct (ca b =? 255); [exact B|]. destruct (ca b =? 0); [exact A|].
    repeat split; cbn [cr cg cb ca]; apply clamp_byte.
  - repeat split; cbn [addColor cr cg cb ca]; apply clamp_byte.
  - repeat split; cbn [subColor cr cg cb ca]; apply clamp_byte.
Qed.

(* ------------------------------------------------------------ pixels *)

Definition same (p q : Z * Z) : bool := (fst p =? fst q) && (snd p =? snd q).

Lemma same_iff : forall p q, same p q = true <-> p = q.
Proof.
  intros [x y] [x' y']. unfold same. cbn [fst snd]. rewrite andb_true_iff, !Z.eqb_eq.
  split; [intros (-> & ->); reflexivity|]. intros E. injection E. auto.
Qed.

Lemma same_refl : forall p, same p p = true.
Proof. intros p. apply same_iff. reflexivity. Qed.

Lemma at_inside : forall w h img x y, isImage w h img ->
  (inside w h (x, y) <-> exists c, at_ img x y = Some c).
Proof.
  intros w h img x y (L & F). unfold inside, at_. cbn [fst snd]. split.
  - intros (X & Y). destruct (Z.ltb_spec x 0); [lia|]. destruct (Z.ltb_spec y 0); [lia|]. cbn [orb].
    destruct (nth_error img (Z.to_nat y)) as [row|] eqn:E; [|apply nth_error_None in E; lia].
    rewrite Forall_forall in F. apply nth_error_In in E. destruct (F row E) as (Lr & _).
    destruct (nth_error row (Z.to_nat x)) as [c|] eqn:E2; [eauto|apply nth_error_None in E2; lia].
  - intros (c & E). destruct (Z.ltb_spec x 0); [discriminate|]. destruct (Z.ltb_spec y 0); [discriminate|].
    cbn [orb] in E. destruct (nth_error img (Z.to_nat y)) as [row|] eqn:E1; [|discriminate].
    assert (Z.to_nat y < length img)%nat by (apply nth_error_Some; congruence).
    apply nth_error_In in E1. rewrite Forall_forall in F. destruct (F row E1) as (Lr & _).
    assert (Z.to_nat x < length row)%nat by (apply nth_error_Some; congruence). lia.
Qed.

Lemma at_isColor : forall w h img x y c, isImage w h img -> at_ img x y = Some c -> isColor c.
Proof.
  intros w h img x y c (L & F) E. unfold at_ in E.
  destruct ((x <? 0) || (y <? 0)); [discriminate|].
  destruct (nth_error img (Z.to_nat y)) as [row|] eqn:E1; [|discriminate].
  apply nth_error_In in E1. apply nth_error_In in E. rewrite Forall_forall in F.
  destruct (F row E1) as (_ & Fr). rewrite Forall_forall in Fr. auto.
Qed.

Lemma getPx_at : forall img x y, getPx img x y = match at_ img x y with Some c => Ok c | None => UB end.
Proof.
  intros img x y. unfold getPx, at_, aget.
  destruct (Z.ltb_spec y 0).
  - rewrite orb_true_r. reflexivity.
  - rewrite orb_false_r. destruct (nth_error img (Z.to_nat y)) as [row|]; cbn [bind].
    + destruct (x <? 0); [reflexivity|]. destruct (nth_error row (Z.to_nat x)); reflexivity.
    + destruct (x <? 0); reflexivity.
Qed.

Lemma nth_error_upd : forall A (l : list A) i j a, (i < length l)%nat ->
  nth_error (upd l i a) j = if (i =? j)%nat then Some a else nth_error l j.
Proof.
  intros A l i j a H. destruct (Nat.eqb_spec i j) as [->|N].
  - apply nth_error_upd_same. exact H.
  - apply nth_error_upd_other. exact N.
Qed.

Lemma Forall_upd : forall A (P : A -> Prop) l i a, Forall P l -> P a -> Forall P (upd l i a).
Proof.
  intros A P l i a F. revert i. induction F as [|x l X F IH]; intros i H; [constructor|].
  destruct i; cbn [upd]; auto.
Qed.

Lemma setPx_at : forall img x y c w h, isImage w h img -> isColor c -> inside w h (x, y) ->
  exists img', setPx img x y c = Ok img' /\ isImage w h img' /\
    forall x' y', at_ img' x' y' = if same (x, y) (x', y') then Some c else at_ img x' y'.
Proof.
  intros img x y c w h I C (X & Y). pose proof I as (L & F). cbn [fst snd] in X, Y. unfold setPx.
  destruct (nth_error img (Z.to_nat y)) as [row|] eqn:E; [|apply nth_error_None in E; lia].
  assert (Lr : Z.of_nat (length row) = w /\ Forall isColor row)
    by (rewrite Forall_forall in F; apply F; apply nth_error_In in E; exact E).
  unfold aget. destruct (Z.ltb_spec y 0); [lia|]. rewrite E. cbn [bind].
  rewrite aset_Ok by (unfold alen; lia). cbn [bind]. rewrite aset_Ok by (unfold alen; lia).
  eexists. split; [reflexivity|]. split.
  - split; [rewrite upd_length; exact L|]. apply Forall_upd; [exact F|].
    rewrite upd_length. split; [apply Lr|]. apply Forall_upd; [apply Lr|exact C].
  - intros x' y'. unfold at_, same. cbn [fst snd].
    destruct (Z.ltb_spec x' 0) as [Hx'|Hx']; [destruct (Z.eqb_spec x x'); [lia|reflexivity]|].
    destruct (Z.ltb_spec y' 0) as [Hy'|Hy'].
    { destruct (Z.eqb_spec y y'); [lia|]. rewrite andb_false_r. reflexivity. }
    cbn [orb]. rewrite nth_error_upd by lia.
    destruct (Nat.eqb_spec (Z.to_nat y) (Z.to_nat y')).
    + assert (y = y') by lia. subst y'. rewrite E, nth_error_upd by lia.
      rewrite Z.eqb_refl, andb_true_r.
      destruct (Nat.eqb_spec (Z.to_nat x) (Z.to_nat x')); destruct (Z.eqb_spec x x'); lia || reflexivity.
    + destruct (Z.eqb_spec y y'); [lia|]. rewrite andb_false_r. reflexivity.
Qed.

Lemma setPx_inv : forall img x y c w h img', isImage w h img -> setPx img x y c = Ok img' -> inside w h (x, y).
Proof.
  intros img x y c w h img' (L & F) E. unfold setPx in E.
  destruct (aget img y) as [row| | |] eqn:E1; cbn [bind] in E; try discriminate.
  destruct (aset row x c) as [row'| | |] eqn:E2; cbn [bind] in E; try discriminate.
  apply aget_inv in E1. apply aset_inv in E2. destruct E1 as (Y & N). destruct E2 as (X & _).
  apply nth_error_In in N. rewrite Forall_forall in F. destruct (F row N) as (Lr & _).
  unfold inside, alen in *. cbn [fst snd]. lia.
Qed.

Lemma paint_at : forall m c img x y w h, isImage w h img -> isColor c -> inside w h (x, y) ->
  exists old img', at_ img x y = Some old /\ paint m c img x y = Ok img' /\ isImage w h img' /\
    forall x' y', at_ img' x' y' = if same (x, y) (x', y') then Some (combine m old c) else at_ img x' y'.
Proof.
  intros m c img x y w h I C P. destruct (proj1 (at_inside w h img x y I) P) as (old & E).
  unfold paint. rewrite getPx_at, E. cbn [bind].
  destruct (setPx_at img x y (combine m old c) w h I) as (img' & S1 & S2 & S3);
    [apply combine_isColor; [apply (at_isColor w h img x y); assumption|exact C]|exact P|].
  exists old, img'. auto.
Qed.

Lemma paint_inv : forall m c img x y w h img', isImage w h img -> isColor c -> paint m c img x y = Ok img' ->
  isImage w h img' /\ inside w h (x, y).
Proof.
  intros m c img x y w h img' I C E.
  assert (P : inside w h (x, y)).
  { unfold paint in E. destruct (getPx img x y) as [old| | |]; cbn [bind] in E; try discriminate.
    exact (setPx_inv _ _ _ _ _ _ _ I E). }
  split; [|exact P].
  destruct (paint_at m c img x y w h I C P) as (old & i2 & _ & E2 & I2 & _). congruence.
Qed.

(* ------------------------------------------------------------ counting *)

Definition one (old c : Color) : nat := if colorEq c old then 1 else 0.
Definition cntRow (old : Color) (row : list Color) : nat := list_sum (map (one old) row).
Definition cnt (old : Color) (img : image) : nat := list_sum (map (cntRow old) img).

Lemma sum_upd : forall A (g : A -> nat) l i a b, nth_error l i = Some a ->
  (list_sum (map g (upd l i b)) + g a = list_sum (map g l) + g b)%nat.
Proof.
  intros A g. induction l as [|x l IH]; intros i a b E; [destruct i; discriminate|].
  destruct i as [|i]; cbn [nth_error] in E; cbn [upd map].
  - injection E as ->. unfold list_sum. cbn [fold_right]. lia.
  - specialize (IH i a b E). unfold list_sum in *. cbn [fold_right]. lia.
Qed.

Lemma cnt_setPx : forall old img x y c c0 img', at_ img x y = Some c0 -> setPx img x y c = Ok img' ->
  (cnt old img' + one old c0 = cnt old img + one old c)%nat.
Proof.
  intros old img x y c c0 img' E S. unfold at_ in E.
  destruct (Z.ltb_spec x 0); [discriminate|]. destruct (Z.ltb_spec y 0); [discriminate|]. cbn [orb] in E.
  destruct (nth_error img (Z.to_nat y)) as [row|] eqn:E1; [|discriminate].
  unfold setPx, aget in S. destruct (Z.ltb_spec y 0); [lia|]. rewrite E1 in S. cbn [bind] in S.
  destruct (aset row x c) as [row'| | |] eqn:E2; cbn [bind] in S; try discriminate.
  apply aset_inv in E2. apply aset_inv in S. destruct E2 as (_ & ->). destruct S as (_ & ->).
  pose proof (sum_upd _ (cntRow old) img (Z.to_nat y) row (upd row (Z.to_nat x) c) E1).
  pose proof (sum_upd _ (one old) row (Z.to_nat x) c0 c E).
  unfold cnt, cntRow in *. lia.
Qed.

Lemma cnt_bound : forall old w h img, isImage w h img -> Z.of_nat (cnt old img) <= w * h.
Proof.
  intros old w h img (L & F). subst h.
  assert (R : forall row, (cntRow old row <= length row)%nat).
  { induction row as [|c row IH]; [reflexivity|]. unfold cntRow in *. cbn [map length].
    unfold list_sum in *. cbn [fold_right]. unfold one at 1. destruct (colorEq c old); lia. }
  induction F as [|row img (Lr & _) F IH]; [cbn; lia|].
  unfold cnt in *. cbn [map length]. unfold list_sum in *. cbn [fold_right].
  specialize (R row). rewrite Nat2Z.inj_succ. lia.
Qed.

(* ------------------------------------------------------------ flood filling *)

Section Flood.
Variables (m : BlendMode) (fill old : Color) (a : Z * Z) (img0 : image) (w h : Z).
Hypothesis I0 : isImage w h img0.
Hypothesis Cf : isColor fill.
Hypothesis Hw : 0 <= w < two63 - 1.
Hypothesis Hh : 0 < h < two63 - 1.
Let new := combine m old fill.
Hypothesis Ne : new <> old.

Definition atp (img : image) (p : Z * Z) : option Color := at_ img (fst p) (snd p).

Definition painted (img : image) (q : Z * Z) : Prop := atp img q = Some new /\ atp img0 q = Some old.

Record base (img : image) : Prop := {
  b_image : isImage w h img;
  b_cases : forall q, atp img q = atp img0 q \/ painted img q;
  b_conn : forall q, painted img q -> connected img0 old a q }.

Definition move (p d : Z * Z) : Z * Z := (fst p + fst d, snd p + snd d).

Definition neighbour (p q : Z * Z) : Prop := Z.abs (fst q - fst p) + Z.abs (snd q - snd p) = 1.

Lemma move_neighbour : forall p d, In d DIRECTIONS -> neighbour p (move p d).
Proof.
  intros p d I. unfold neighbour, move, DIRECTIONS in *. cbn [In] in I.
  destruct I as [<-|[<-|[<-|[<-|[]]]]]; cbn [fst snd]; lia.
Qed.

Lemma neighbour_move : forall p q, neighbour p q -> exists d, In d DIRECTIONS /\ q = move p d.
Proof.
  intros [x y] [x' y'] N. unfold neighbour, move, DIRECTIONS in *. cbn [fst snd] in *.
  assert (C : x' = x /\ (y' = y + 1 \/ y' = y - 1) \/ y' = y /\ (x' = x + 1 \/ x' = x - 1)) by lia.
  destruct C as [(-> & [->| ->])|(-> & [->| ->])].
  - exists (0, 1). cbn [In fst snd]. split; [auto|]. f_equal; lia.
  - exists (0, -1). cbn [In fst snd]. split; [auto|]. f_equal; lia.
  - exists (1, 0). cbn [In fst snd]. split; [auto|]. f_equal; lia.
  - exists (-1, 0). cbn [In fst snd]. split; [auto 6|]. f_equal; lia.
Qed.

Lemma atp_inside : forall img p, isImage w h img -> (inside w h p <-> exists c, atp img p = Some c).
Proof. intros img [x y] I. apply (at_inside w h img x y I). Qed.

Lemma spread_ok : forall p dirs todo img, base img -> painted img p ->
  (forall d, In d dirs -> In d DIRECTIONS) -> (forall q, In q todo -> painted img q) ->
  exists todo' img', spread m fill old p dirs todo img = Ok (todo', img') /\
    base img' /\ (forall q, painted img q -> painted img' q) /\
    (forall d, In d dirs -> atp img0 (move p d) = Some old -> painted img' (move p d)) /\
    (forall q, In q todo -> In q todo') /\ (forall q, In q todo' -> painted img' q) /\
    (forall q, painted img' q -> painted img q \/ In q todo') /\
    (length todo' + cnt old img' = length todo + cnt old img)%nat.
Proof.
  intros p. induction dirs as [|d dirs IH]; intros todo img B Pp Hd Ht.
  { exists todo, img. cbn [spread]. split; [reflexivity|]. split; [exact B|]. split; [auto|].
    split; [intros d []|]. auto. }
  cbn [spread]. destruct d as [dx dy].
  assert (Din : In (dx, dy) DIRECTIONS) by (apply Hd; left; reflexivity).
  assert (Inp : inside w h p).
  { apply (atp_inside img p (b_image img B)). exists new. apply Pp. }
  destruct p as [px py]. cbn [fst snd]. destruct Inp as (Xp & Yp). cbn [fst snd] in Xp, Yp.
  assert (Ddx : -1 <= dx <= 1 /\ -1 <= dy <= 1).
  { unfold DIRECTIONS in Din. cbn [In] in Din.
    destruct Din as [E|[E|[E|[E|[]]]]]; injection E as <- <-; lia. }
  rewrite (chk_Ok (py + dy)) by (unfold is_i64, I64_MIN, I64_MAX; lia). cbn [bind].
  rewrite (chk_Ok (px + dx)) by (unfold is_i64, I64_MIN, I64_MAX; lia). cbn [bind].
  pose proof (b_image img B) as Ii.
  assert (Eh : height img = h) by apply Ii.
  assert (Ew : width img = w).
  { destruct Ii as (L & F). destruct img as [|r img]; [cbn in L; lia|]. inversion_clear F as [|? ? Hr _]. apply Hr. }
  (* what remains to be shown when nothing is painted *)
  assert (Skip : (atp img0 (px + dx, py + dy) = Some old -> painted img (px + dx, py + dy)) ->
    exists todo' img', spread m fill old (px, py) dirs todo img = Ok (todo', img') /\
    base img' /\ (forall q, painted img q -> painted img' q) /\
    (forall d, In d ((dx, dy) :: dirs) -> atp img0 (move (px, py) d) = Some old -> painted img' (move (px, py) d)) /\
    (forall q, In q todo -> In q todo') /\ (forall q, In q todo' -> painted img' q) /\
    (forall q, painted img' q -> painted img q \/ In q todo') /\
    (length todo' + cnt old img' = length todo + cnt old img)%nat).
  { intros Hn. destruct (IH todo img B Pp) as (t' & i' & E & B' & M & N & T1 & T2 & T3 & C);
      [intros; apply Hd; right; assumption|exact Ht|].
    exists t', i'. split; [exact E|]. split; [exact B'|]. split; [exact M|]. split.
    - intros d [<-|I] O; [|apply N; assumption]. apply M. apply Hn. exact O.
    - auto. }
  destruct ((py + dy <? 0) || (height img <=? py + dy)) eqn:Ty.
  { apply Skip. intros O. exfalso.
    assert (Q : inside w h (px + dx, py + dy)) by (apply (atp_inside img0 _ I0); eauto).
    destruct Q as (_ & Q). cbn [snd] in Q. rewrite Eh in Ty. apply orb_true_iff in Ty.
    destruct Ty as [Ty|Ty]; [apply Z.ltb_lt in Ty|apply Z.leb_le in Ty]; lia. }
  destruct ((px + dx <? 0) || (width img <=? px + dx)) eqn:Tx.
  { apply Skip. intros O. exfalso.
    assert (Q : inside w h (px + dx, py + dy)) by (apply (atp_inside img0 _ I0); eauto).
    destruct Q as (Q & _). cbn [fst] in Q. rewrite Ew in Tx. apply orb_true_iff in Tx.
    destruct Tx as [Tx|Tx]; [apply Z.ltb_lt in Tx|apply Z.leb_le in Tx]; lia. }
  apply orb_false_iff in Ty. apply orb_false_iff in Tx. destruct Ty as (Ty1 & Ty2). destruct Tx as (Tx1 & Tx2).
  apply Z.ltb_ge in Ty1, Tx1. apply Z.leb_gt in Ty2, Tx2. rewrite Eh in Ty2. rewrite Ew in Tx2.
  assert (Q : inside w h (px + dx, py + dy)) by (split; cbn [fst snd]; lia).
  destruct (paint_at m fill img (px + dx) (py + dy) w h Ii Cf Q) as (c & img1 & Ec & Ep & Ii1 & A1).
  rewrite getPx_at, Ec. cbn [bind]. rewrite colorNe_eq.
  destruct (colorEq c old) eqn:Eco; cbn [negb].
  - (* painted *)
    apply colorEq_iff in Eco. subst c. rewrite Ep. cbn [bind]. fold new in A1.
    set (q := (px + dx, py + dy)) in *.
    assert (O0 : atp img0 q = Some old).
    { destruct (b_cases img B q) as [E|(E & _)].
      - rewrite <- E. exact Ec.
      - exfalso. apply Ne. unfold atp in E. cbn [q fst snd] in E. congruence. }
    assert (A1' : forall r, atp img1 r = if same q r then Some new else atp img r).
    { intros [x' y']. apply A1. }
    assert (Pq : painted img1 q).
    { split; [|exact O0]. rewrite A1', same_refl. reflexivity. }
    assert (Mon : forall r, painted img r -> painted img1 r).
    { intros r (R1 & R2). split; [|exact R2]. rewrite A1'. destruct (same q r); [reflexivity|exact R1]. }
    assert (Old : forall r, painted img1 r -> painted img r \/ r = q).
    { intros r (R1 & R2). rewrite A1' in R1. destruct (same q r) eqn:S1.
      - apply same_iff in S1. right. symmetry. exact S1.
      - left. split; assumption. }
    assert (B1 : base img1).
    { constructor.
      - exact Ii1.
      - intros r. rewrite A1'. destruct (same q r) eqn:S1.
        + apply same_iff in S1. subst r. right. exact Pq.
        + destruct (b_cases img B r) as [E|E]; [left; exact E|right; apply Mon; exact E].
      - intros r R. destruct (Old r R) as [R'| ->]; [apply (b_conn img B); exact R'|].
        unfold q. apply conn_step with (x := px) (y := py).
        + apply (b_conn img B). exact Pp.
        + pose proof (move_neighbour (px, py) (dx, dy) Din) as Nb. unfold neighbour, move in Nb.
          cbn [fst snd] in Nb. exact Nb.
        + exact O0. }
    destruct (IH (q :: todo) img1 B1 (Mon _ Pp)) as (t' & i' & E & B' & M & N & T1 & T2 & T3 & C).
    { intros; apply Hd; right; assumption. }
    { intros r [<-|R]; [exact Pq|apply Mon, Ht, R]. }
    exists t', i'. split; [exact E|]. split; [exact B'|]. split; [auto|]. split.
    { intros d [<-|I] O; [apply M; exact Pq|apply N; assumption]. }
    split; [intros r R; apply T1; right; exact R|]. split; [exact T2|]. split.
    { intros r R. destruct (T3 r R) as [R1|R1]; [|right; exact R1].
      destruct (Old r R1) as [R2| ->]; [left; exact R2|right; apply T1; left; reflexivity]. }
    rewrite C. cbn [length].
    assert (Cn : (cnt old img1 + 1 = cnt old img)%nat).
    { unfold paint in Ep. rewrite getPx_at, Ec in Ep. cbn [bind] in Ep.
      pose proof (cnt_setPx old img _ _ _ _ img1 Ec Ep) as K.
      unfold one in K. rewrite (proj2 (colorEq_iff old old) eq_refl) in K. fold new in K.
      destruct (colorEq new old) eqn:E2; [apply colorEq_iff in E2; contradiction|]. lia. }
    lia.
  - (* another colour *)
    apply Skip. intros O. destruct (b_cases img B (px + dx, py + dy)) as [E|E]; [|exact E].
    exfalso. rewrite O in E. unfold atp in E. cbn [fst snd] in E. rewrite Ec in E. injection E as ->.
    rewrite (proj2 (colorEq_iff old old) eq_refl) in Eco. discriminate.
Qed.

Definition closed (img : image) (q : Z * Z) : Prop :=
  forall r, neighbour q r -> atp img0 r = Some old -> painted img r.

Definition inv (s : list (Z * Z) * image) : Prop :=
  base (snd s) /\ painted (snd s) a /\ (forall q, In q (fst s) -> painted (snd s) q) /\
  (forall q, painted (snd s) q -> In q (fst s) \/ closed (snd s) q).

Lemma point_eq_dec : forall p q : Z * Z, {p = q} + {p <> q}.
Proof. intros p q. destruct (same p q) eqn:E; [left; apply same_iff; exact E|right; intros ->; rewrite same_refl in E; discriminate]. Qed.

Lemma flood_loop : forall fuel img, inv ([a], img) -> (S (cnt old img) <= fuel)%nat ->
  exists s, while fuel (fun s => match fst s with [] => false | _ => true end)
      (fun s : list (Z * Z) * image =>
         match s with
         | ([], img) => Ok s
         | (p :: todo, img) => spread m fill old p DIRECTIONS todo img
         end) ([a], img) = Ok s /\ inv s /\ fst s = [].
Proof.
  intros fuel img Hi Hf.
  destruct (while_total _ inv (fun s => Z.of_nat (length (fst s) + cnt old (snd s)))
    (fun s : list (Z * Z) * image => match fst s with [] => false | _ => true end)
    (fun s : list (Z * Z) * image =>
         match s with
         | ([], img) => Ok s
         | (p :: todo, img) => spread m fill old p DIRECTIONS todo img
         end)) with (fuel := fuel) (s := ([a], img)) as (s & E & Is & Cs).
  - intros [todo i1] (B & Pa & T & C) Cond. cbn [fst snd] in *.
    destruct todo as [|p todo]; [discriminate|].
    destruct (spread_ok p DIRECTIONS todo i1 B) as (t' & i' & E & B' & M & N & T1 & T2 & T3 & K).
    { apply T. left. reflexivity. } { auto. } { intros q Q. apply T. right. exact Q. }
    exists (t', i'). split; [exact E|]. cbn [fst snd length]. split; [|lia].
    split; [exact B'|]. split; [apply M; exact Pa|]. split; [exact T2|].
    intros q Q. cbn [fst snd]. destruct (T3 q Q) as [Q1|Q1]; [|left; exact Q1].
    destruct (point_eq_dec q p) as [->|Nqp].
    + right. intros r Nr O. destruct (neighbour_move p r Nr) as (d & Id & ->). apply N; assumption.
    + destruct (C q Q1) as [[->|Qt]|Qc]; [congruence|left; apply T1; exact Qt|].
      right. intros r Nr O. apply M. apply (Qc r Nr O).
  - exact Hi.
  - cbn [fst snd length]. lia.
  - intros _. cbn [fst snd length]. lia.
  - exists s. split; [exact E|]. split; [exact Is|]. destruct (fst s); [reflexivity|discriminate].
Qed.

Lemma flood_final : forall img, inv ([], img) -> forall q,
  (connected img0 old a q -> atp img q = Some new) /\
  (~ connected img0 old a q -> atp img q = atp img0 q).
Proof.
  intros img (B & Pa & _ & C) q. cbn [fst snd] in *. split.
  - intros K.
    assert (G : forall p q, connected img0 old p q -> p = a -> painted img q).
    { clear q K. intros p q K. induction K as [x y E|p x y x' y' K IH Nb E]; intros ->; [exact Pa|].
      destruct (C (x, y) (IH eq_refl)) as [[]|Cl]. apply (Cl (x', y')); [exact Nb|exact E]. }
    apply (G a q K eq_refl).
  - intros K. destruct (b_cases img B q) as [E|E]; [exact E|]. exfalso. apply K. apply (b_conn img B). exact E.
Qed.

End Flood.

Lemma connected_start : forall img c p q, connected img c p q -> atp img p = Some c /\ atp img q = Some c.
Proof.
  intros img c p q K. induction K as [x y E|p x y x' y' K (IH1 & IH2) Nb E]; [split; exact E|].
  split; [exact IH1|exact E].
Qed.

Lemma floodFill_ok : forall w h img m ax ay fill, isImage w h img -> 0 <= w < two63 - 1 -> 0 <= h < two63 - 1 ->
  isColor fill -> inside w h (ax, ay) ->
  exists old img', at_ img ax ay = Some old /\ floodFill m (ax, ay) fill img = Ok img' /\ isImage w h img' /\
    forall x y, (connected img old (ax, ay) (x, y) -> at_ img' x y = Some (combine m old fill)) /\
                (~ connected img old (ax, ay) (x, y) -> at_ img' x y = at_ img x y).
Proof.
  intros w h img m ax ay fill I Hw Hh Cf Ia.
  assert (Hh' : 0 < h < two63 - 1) by (destruct Ia as (_ & Y); cbn [snd] in Y; lia).
  destruct (paint_at m fill img ax ay w h I Cf Ia) as (old & img1 & Eo & Ep & I1 & A1).
  unfold floodFill. rewrite getPx_at, Eo. cbn [bind]. rewrite Ep. cbn [bind].
  rewrite getPx_at, A1, same_refl. cbn [bind].
  destruct (colorEq old (combine m old fill)) eqn:Eq.
  - apply colorEq_iff in Eq. exists old, img1. split; [reflexivity|]. split; [reflexivity|]. split; [exact I1|].
    intros x y. assert (A : at_ img1 x y = at_ img x y).
    { rewrite A1. destruct (same (ax, ay) (x, y)) eqn:S; [|reflexivity]. apply same_iff in S.
      injection S as <- <-. congruence. }
    split; [|intros _; exact A]. intros K. apply connected_start in K. destruct K as (_ & K).
    unfold atp in K. cbn [fst snd] in K. congruence.
  - assert (Ne : combine m old fill <> old).
    { intros E. rewrite E, (proj2 (colorEq_iff old old) eq_refl) in Eq. discriminate. }
    assert (A1' : forall r, atp img1 r = if same (ax, ay) r then Some (combine m old fill) else atp img r)
      by (intros [x y]; apply A1).
    assert (Pa : painted m fill old img img1 (ax, ay)).
    { split; [rewrite A1', same_refl; reflexivity|exact Eo]. }
    assert (Iv : inv m fill old (ax, ay) img w h ([(ax, ay)], img1)).
    { split; [|split; [exact Pa|]]; cbn [fst snd].
      - constructor.
        + exact I1.
        + intros q. rewrite A1'. destruct (same (ax, ay) q) eqn:S; [|left; reflexivity].
          apply same_iff in S. subst q. right. exact Pa.
        + intros q (Q & Q0). rewrite A1' in Q. destruct (same (ax, ay) q) eqn:S.
          * apply same_iff in S. subst q. apply conn_refl. exact Eo.
          * exfalso. apply Ne. congruence.
      - split.
        + intros q [<-|[]]. exact Pa.
        + intros q (Q & Q0). rewrite A1' in Q. destruct (same (ax, ay) q) eqn:S.
          * apply same_iff in S. left. left. exact S.
          * exfalso. apply Ne. congruence. }
    assert (Wd : width img1 = w).
    { destruct I1 as (L & F). destruct img1 as [|r i1]; [cbn in L; lia|]. inversion_clear F as [|? ? Hr _]. apply Hr. }
    assert (Hd : height img1 = h) by apply I1.
    destruct (flood_loop m fill old (ax, ay) img w h I Cf Hw Hh' Ne (S (Z.to_nat (width img1 * height img1))) img1 Iv)
      as ([t i'] & E & Is & Es).
    { rewrite Wd, Hd. pose proof (cnt_bound old w h img1 I1). lia. }
    rewrite E. cbn [bind]. cbn [fst] in Es. subst t.
    exists old, i'. split; [reflexivity|]. split; [reflexivity|]. split; [apply Is|].
    intros x y. apply (flood_final m fill old (ax, ay) img w h i' Is (x, y)).
Qed.
