(* drawLine and floodFill return only if their points are in the image. *)
From Coq Require Import ZArith List Lia Bool.
From Verif Require Import Base BaseLemmas PngModel PngSpec PngProofs2 PngProofs3 PngProofs4 PngProofs5.
Import ListNotations.
Local Open Scope Z_scope.

Lemma drawLine_ends : forall w h img m a b fill img', isImage w h img -> isColor fill -> drawLine m a b fill img = Ok img' -> inside w h a /\ inside w h b.
Proof.
  intros w h img m [ax ay] [bx by_] fill img' I C E. unfold drawLine in E.
  repeat match type of E with
  | bind (chk ?z) _ = _ => destruct (chk z); cbn [bind] in E; try discriminate
  end.
  destruct (paint m fill img ax ay) as [i1| | |] eqn:Ep; cbn [bind] in E; try discriminate.
  apply paint_inv with (w := w) (h := h) in Ep; [|exact I|exact C]. destruct Ep as (I1 & IA).
  match type of E with bind ?W _ = _ => destruct W as [[[e p] i2]| | |] eqn:Ew; cbn [bind] in E; try discriminate end.
  split; [exact IA|].
  apply (while_partial _ (fun s : Z * (Z * Z) * image => isImage w h (snd s) /\ inside w h (snd (fst s)))) in Ew.
  - destruct Ew as ((_ & IP) & CD). destruct p as [x y]. cbn [fst snd] in IP. assert (x = bx /\ y = by_) as (-> & ->) by lia. exact IP.
  - intros [[e1 [x1 y1]] i3] [[e3 p3] i4] (I3 & _) _ Eb. cbn [fst snd] in *. unfold lineStep in Eb.
    destruct (chk (2 * e1)) as [e2| | |]; cbn [bind] in Eb; try discriminate.
    match type of Eb with bind ?W _ = _ => destruct W as [[? ?]| | |]; cbn [bind] in Eb; try discriminate end.
    match type of Eb with bind ?W _ = _ => destruct W as [[? ?]| | |]; cbn [bind] in Eb; try discriminate end.
    match type of Eb with bind ?W _ = _ => destruct W as [i5| | |] eqn:Ep; cbn [bind] in Eb; try discriminate end.
    apply paint_inv with (w := w) (h := h) in Ep; [|exact I3|exact C]. injection Eb as _ <- <-. split; apply Ep.
  - cbn [fst snd]. auto.
Qed.
Lemma floodFill_outside : forall w h img m a fill, isImage w h img -> isColor fill -> ~ inside w h a -> floodFill m a fill img = UB.
Proof.
  intros w h img m [ax ay] fill I C N. unfold floodFill. rewrite getPx_at. destruct (at_ img ax ay) as [old|] eqn:Q; [|reflexivity].
  exfalso. apply N. apply (at_inside w h img); auto. eauto.
Qed.
