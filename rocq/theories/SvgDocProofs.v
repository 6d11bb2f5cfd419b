(* The grammar of SvgDocSpec: texts are read in one way only. *)
From Coq Require Import String.
From Verif Require Import Base Tac InitSpec DecimalSpec SvgModel SvgSpec ColorModel ColorSpec SvgDocModel SvgDocSpec.
From Coq Require Import ZArith QArith List Lia.
Import ListNotations.
Open Scope Z_scope.
Open Scope list_scope.

(* the end of the longest part with P is determined *)
Definition stops (P : Z -> Prop) (s : list Z) : Prop := match s with c :: _ => ~ P c | [] => True end.
Lemma span_unique : forall (P : Z -> Prop) a b a' b', Forall P a -> Forall P a' -> stops P b -> stops P b' -> a ++ b = a' ++ b' -> a = a' /\ b = b'.
Proof.
  intros P a. induction a as [|x a IH]; intros b a' b' F F' S S' E; destruct a' as [|x' a']; cbn [app] in E.
  - auto.
  - exfalso. subst b. inv F'. apply S. auto.
  - exfalso. subst b'. inv F. apply S'. auto.
  - inv E. inv F. inv F'. destruct (IH b a' b') as (A & B); auto. subst. auto.
Qed.
Lemma name_chars : forall n, isName n -> Forall nameChar n /\ n <> [].
Proof. intros n (c & n' & -> & L & F). split; [|discriminate]. constructor; auto. left. auto. Qed.
Lemma name_stops : forall n s, isName n -> stops blank (n ++ s) /\ hd 0 n <> 47 /\ hd 0 n <> 33 /\ hd 0 n <> 62 /\ hd 0 n <> 63.
Proof. intros n s (c & n' & -> & L & F). cbn. unfold blank, letter in *. lia. Qed.
Lemma name_cons : forall n s c r, isName n -> n ++ s = c :: r -> letter c.
Proof. intros n s c r (x & n' & -> & L & F) E. cbn in E. inv E. auto. Qed.
(* attributes end before /, > and ? *)
Definition closes (c : Z) : Prop := c = 47 \/ c = 62 \/ c = 63.
Lemma attributes_unique : forall a l, attributesText a l -> forall c r a' l' c' r', attributesText a' l' -> closes c -> closes c' ->
  a ++ c :: r = a' ++ c' :: r' -> a = a' /\ l = l' /\ c :: r = c' :: r'.
Proof.
  assert (ST : forall c r, closes c -> stops blank (c :: r)) by (intros c r C; cbn; unfold closes, blank in *; lia).
  assert (NL : forall c, closes c -> ~ letter c) by (intros c C; unfold closes, letter in *; lia).
  assert (VAL : forall v, isValue v -> Forall (fun c => c <> 34) v) by (intros v V; eapply Forall_impl; [|exact V]; cbn; tauto).
  intros a l H. induction H as [ws B|ws k v s l B NE K V H IH]; intros c r a' l' c' r' H' C C' E.
  - inv H'.
    + apply (span_unique blank) in E as (-> & E); auto.
    + exfalso. rewrite <- !app_assoc in E. apply (span_unique blank) in E as (-> & E); auto; [|apply name_stops; auto]. symmetry in E. apply name_cons in E; auto. apply (NL c); auto.
  - inv H'.
    + exfalso. rewrite <- !app_assoc in E. apply (span_unique blank) in E as (<- & E); auto; [|apply name_stops; auto]. apply name_cons in E; auto. apply (NL c'); auto.
    + rewrite <- !app_assoc in E. apply (span_unique blank) in E as (<- & E); auto; try (apply name_stops; auto).
      apply (span_unique nameChar) in E as (<- & E); [|apply name_chars; auto|apply name_chars; auto|cbn; unfold nameChar, letter; lia|cbn; unfold nameChar, letter; lia].
      inversion E as [E1]. clear E. apply (span_unique (fun c => c <> 34)) in E1 as (<- & E); auto; try (cbn; lia).
      cbn [app] in E. inversion E as [E1]. clear E. destruct (IH c r s0 l0 c' r') as (-> & -> & E); auto.
Qed.
Lemma attributes_stop : forall a l c r, attributesText a l -> closes c -> stops nameChar (a ++ c :: r).
Proof.
  intros a l c r AT C. destruct AT as [ws B|ws k v s l B NE _ _ _]; destruct ws as [|w ws]; cbn; try congruence.
  - unfold closes, nameChar, letter in *. lia.
  - inv B. unfold blank, nameChar, letter in *. lia.
  - inv B. unfold blank, nameChar, letter in *. lia.
Qed.
(* comments end at the first -- *)
Lemma dashes_unique : forall c r c' r', noDashes c -> noDashes c' -> c ++ [45; 45; 62] ++ r = c' ++ [45; 45; 62] ++ r' -> c = c' /\ r = r'.
Proof.
  assert (TL : forall x c, noDashes (x :: c) -> noDashes c).
  { intros x c (A & B). split; [intros a b ->; apply (A (x :: a) b); auto|intros a ->; apply (B (x :: a)); auto]. }
  assert (NO : forall x c r r', noDashes (x :: c) -> [45; 45; 62] ++ r = (x :: c) ++ [45; 45; 62] ++ r' -> False).
  { intros x c r r' (A & B) E. cbn [app] in E. inversion E as [[E1 E2]]. subst x. destruct c as [|y c]; [apply (B []); auto|]. inversion E2. subst y. apply (A [] c). auto. }
  induction c as [|x c IH]; intros r c' r' N N' E; destruct c' as [|x' c'].
  - cbn in E. inv E. auto.
  - exfalso. eapply NO; [exact N'|exact E].
  - exfalso. eapply NO; [exact N|symmetry; exact E].
  - cbn [app] in E. inversion E as [[E1 E2]]. destruct (IH r c' r') as (-> & ->); eauto.
Qed.
Lemma content_unique : forall s ns, content s ns -> forall r s' ns' r', content s' ns' -> s ++ [60; 47] ++ r = s' ++ [60; 47] ++ r' -> s = s' /\ ns = ns' /\ r = r'.
Proof.
  assert (SB : forall r, stops blank (60 :: r)) by (intro; cbn; unfold blank; lia).
  intros s ns H. induction H as [ws B|ws n a l s ns B N (A & ND) H IH|ws c s ns B X D H IH]; intros r s' ns' r' H' E; inv H'.
  - apply (span_unique blank) in E as (-> & E); auto; try match goal with |- stops _ _ => apply SB end. inv E. auto.
  - exfalso. rewrite <- !app_assoc in E. apply (span_unique blank) in E as (-> & E); auto; try match goal with |- stops _ _ => apply SB end. inversion E as [E1]. symmetry in E1. apply name_cons in E1; auto. unfold letter in E1. lia.
  - exfalso. rewrite <- !app_assoc in E. apply (span_unique blank) in E as (-> & E); auto; try match goal with |- stops _ _ => apply SB end. inversion E.
  - exfalso. rewrite <- !app_assoc in E. apply (span_unique blank) in E as (-> & E); auto; try match goal with |- stops _ _ => apply SB end. inversion E as [E1]. apply name_cons in E1; auto. unfold letter in E1. lia.
  - destruct H2 as (A' & ND'). rewrite <- !app_assoc in E. apply (span_unique blank) in E as (-> & E); auto; try match goal with |- stops _ _ => apply SB end. inversion E as [E1]. clear E.
    apply (span_unique nameChar) in E1 as (-> & E); [|apply name_chars; auto|apply name_chars; auto|eapply attributes_stop; eauto; unfold closes; lia|eapply attributes_stop; eauto; unfold closes; lia].
    eapply (attributes_unique _ _ A) in E as (-> & -> & E); eauto; try (unfold closes; lia). inversion E as [E1]. destruct (IH _ _ _ _ H3 E1) as (-> & -> & ->). auto.
  - exfalso. rewrite <- !app_assoc in E. apply (span_unique blank) in E as (-> & E); auto; try match goal with |- stops _ _ => apply SB end. inversion E as [E1]. apply name_cons in E1; auto. unfold letter in E1. lia.
  - exfalso. rewrite <- !app_assoc in E. apply (span_unique blank) in E as (-> & E); auto; try match goal with |- stops _ _ => apply SB end. inversion E.
  - exfalso. rewrite <- !app_assoc in E. apply (span_unique blank) in E as (-> & E); auto; try match goal with |- stops _ _ => apply SB end. inversion E as [E1]. symmetry in E1. apply name_cons in E1; auto. unfold letter in E1. lia.
  - rewrite <- !app_assoc in E. apply (span_unique blank) in E as (-> & E); auto; try match goal with |- stops _ _ => apply SB end. inversion E as [E1]. clear E.
    apply (dashes_unique c (s ++ [60; 47] ++ r) c0 (s0 ++ [60; 47] ++ r')) in E1 as (-> & E); auto. destruct (IH _ _ _ _ H3 E) as (-> & -> & ->). auto.
Qed.
Lemma document_unique : forall s d n l ns d' n' l' ns', document s d n l ns -> document s d' n' l' ns' -> d = d' /\ n = n' /\ l = l' /\ ns = ns'.
Proof.
  intros s d n l ns d' n' l' ns' (da & ws & ra & c & E & (DA & _) & W & N & (RA & _) & C) (da' & ws' & ra' & c' & E' & (DA' & _) & W' & N' & (RA' & _) & C').
  rewrite E in E'. apply app_inv_head in E'. change (text "?>") with [63; 62] in E'. cbn [app] in E'.
  apply (attributes_unique _ _ DA) with (l' := d') in E' as (_ & -> & E2); auto; try (unfold closes; lia).
  inversion E2 as [E3]. clear E2. apply (span_unique blank) in E3 as (_ & E2); auto; try (cbn; unfold blank; lia). inversion E2 as [E3]. clear E2.
  apply (span_unique nameChar) in E3 as (-> & E2); [|apply name_chars; auto|apply name_chars; auto|eapply attributes_stop; eauto; unfold closes; lia|eapply attributes_stop; eauto; unfold closes; lia].
  apply (attributes_unique _ _ RA) with (l' := l') in E2 as (_ & -> & E2); auto; try (unfold closes; lia). inversion E2 as [E3].
  eapply (content_unique _ _ C) in E3 as (_ & -> & _); eauto.
Qed.
