From Coq Require Import ZArith List Lia Bool String.
From Verif Require Import Base BaseLemmas PassModel PassSpec.
Import ListNotations.
Local Open Scope Z_scope.
Local Arguments Z.add : simpl never.
Local Arguments Z.mul : simpl never.

Definition digit (c : Z) : Prop := 48 <= c <= 57.

Lemma readDigits_app : forall l1 l2 acc, Forall digit l1 -> readDigits acc (l1 ++ l2) = readDigits (readDigits acc l1) l2.
Proof.
  induction l1 as [|c l1 IH]; intros l2 acc F; [reflexivity|]. inversion_clear F as [|? ? C F']. unfold digit in C.
  cbn [app readDigits]. destruct (Z.leb_spec 48 c); [|lia]. destruct (Z.leb_spec c 57); [|lia]. cbn [andb]. apply IH. exact F'.
Qed.

(* the digits in front of acc *)
Lemma showDigits_ok : forall fuel z acc, 0 <= z < 10 ^ Z.of_nat fuel -> (0 < fuel)%nat ->
  exists c l, showDigits fuel z acc = (c :: l) ++ acc /\ Forall digit (c :: l) /\ readDigits 0 (c :: l) = z.
Proof.
  induction fuel as [|fuel IH]; intros z acc Z0 F; [lia|]. cbn [showDigits].
  pose proof (Z.mod_pos_bound z 10 ltac:(lia)) as M. pose proof (Z.div_mod z 10 ltac:(lia)) as D.
  assert (Dg : digit (48 + z mod 10)) by (unfold digit; lia).
  assert (R : forall acc, readDigits acc [48 + z mod 10] = acc * 10 + z mod 10).
  { intros a. cbn [readDigits]. unfold digit in Dg. destruct (Z.leb_spec 48 (48 + z mod 10)); [|lia].
    destruct (Z.leb_spec (48 + z mod 10) 57); [|lia]. cbn [andb]. lia. }
  destruct (Z.eqb_spec (z / 10) 0) as [E|E].
  - exists (48 + z mod 10), []. split; [reflexivity|]. split; [constructor; [exact Dg|constructor]|]. rewrite R. lia.
  - assert (B : 0 <= z / 10 < 10 ^ Z.of_nat fuel).
    { split; [apply Z.div_pos; lia|]. apply Z.div_lt_upper_bound; [lia|]. rewrite Nat2Z.inj_succ, Z.pow_succ_r in Z0 by lia. lia. }
    assert (F0 : (0 < fuel)%nat).
    { destruct fuel; [|lia]. cbn in B. lia. }
    destruct (IH (z / 10) ((48 + z mod 10) :: acc) B F0) as (c & l & E1 & F1 & R1).
    exists c, (l ++ [48 + z mod 10]). split; [rewrite E1; cbn [app]; rewrite <- app_assoc; reflexivity|].
    change (c :: l ++ [48 + z mod 10]) with ((c :: l) ++ [48 + z mod 10]). split.
    + apply Forall_app. split; [exact F1|]. constructor; [exact Dg|constructor].
    + rewrite readDigits_app by exact F1. rewrite R1, R. lia.
Qed.

Lemma read_show : forall z, 0 <= z < two63 -> readInteger (showInteger z) = z.
Proof.
  intros z H. unfold showInteger. destruct (Z.ltb_spec z 0); [lia|].
  destruct (showDigits_ok 20 z []) as (c & l & -> & F & R); [unfold two63 in H; lia|lia|].
  rewrite app_nil_r. unfold readInteger. inversion_clear F as [|? ? C _]. unfold digit in C.
  cbn [skipSpace]. replace (isSpace c) with false.
  - destruct (Z.eqb_spec c 45); [lia|]. destruct (Z.eqb_spec c 43); [lia|]. rewrite R.
    unfold clamp, I64_MIN, I64_MAX, two63 in *. lia.
  - symmetry. unfold isSpace. destruct (Z.eqb_spec c 32); [lia|]. destruct (Z.leb_spec c 13); [lia|]. rewrite andb_false_r. reflexivity.
Qed.

Lemma put_same : forall d n c, put d n c n = Some c.
Proof. intros. unfold put. rewrite String.eqb_refl. reflexivity. Qed.

Lemma put_other : forall d n c m, m <> n -> put d n c m = d m.
Proof. intros d n c m H. unfold put. apply String.eqb_neq in H. rewrite H. reflexivity. Qed.

Lemma del_other : forall d n m, m <> n -> del d n m = d m.
Proof. intros d n m H. unfold del. apply String.eqb_neq in H. rewrite H. reflexivity. Qed.

(* pass k - 1 is over: the files the next pass reads *)
Definition ready (k : Z) (state : option (list Z)) (d : dir) : Prop :=
  match state with
  | None => k = 0 /\ d ".pass"%string = None
  | Some s => 0 < k /\ d ".pass"%string = Some (showInteger (k - 1)) /\ d (prevFile k) = Some s
  end.

Lemma names : forall k, nextFile k <> ".pass"%string /\ prevFile k <> ".pass"%string /\ prevFile k <> nextFile k /\
  nextFile k <> "nextpass.in"%string /\ prevFile (k + 1) = nextFile k.
Proof.
  intros k. unfold nextFile, prevFile. rewrite Z.add_1_r, Z.odd_succ, <- Z.negb_odd. destruct (Z.odd k); cbn [negb]; repeat split; discriminate.
Qed.

Lemma runPass_ok : forall validator k state d, 0 <= k < two63 -> ready k state d ->
  exists d', runPass validator d = Ok (k, state, d') /\ ready (k + 1) (Some (fst (validator k state))) d' /\
    (forall n, n <> ".pass"%string -> n <> nextFile k -> n <> "nextpass.in"%string -> d' n = d n) /\
    (snd (validator k state) <> None -> d' "nextpass.in"%string = snd (validator k state)) /\
    (snd (validator k state) = None -> d' "nextpass.in"%string = d "nextpass.in"%string).
Proof.
  intros validator k state d K R. destruct (names k) as (N1 & N2 & N3 & N4 & N5).
  assert (E : initPass d = Ok (k, state, put (put (del d (nextFile k)) (nextFile k) []) ".pass" (showInteger k))).
  { unfold initPass. destruct state as [s|]; cbn [ready] in R.
    - destruct R as (K0 & P & S0). rewrite P. rewrite read_show by lia.
      rewrite chk_Ok by (unfold is_i64, I64_MIN, I64_MAX; lia). cbn [bind].
      replace (k - 1 + 1) with k by lia. rewrite S0. reflexivity.
    - destruct R as (-> & P). rewrite P. reflexivity. }
  unfold runPass. rewrite E. cbn [bind]. destruct (validator k state) as [st next] eqn:V. cbn [fst snd].
  eexists. split; [reflexivity|].
  set (d1 := put (put (put (del d (nextFile k)) (nextFile k) []) ".pass" (showInteger k)) (nextFile k) st).
  assert (D1 : forall n, n <> ".pass"%string -> n <> nextFile k -> d1 n = d n).
  { intros n A B. unfold d1. rewrite !put_other, del_other by assumption. reflexivity. }
  assert (D2 : d1 ".pass"%string = Some (showInteger k)).
  { unfold d1. rewrite put_other by congruence. apply put_same. }
  assert (D3 : d1 (nextFile k) = Some st) by apply put_same.
  clearbody d1. split; [|split; [|split]].
  - cbn [ready]. replace (k + 1 - 1) with k by lia. split; [lia|]. rewrite N5. unfold NEXT. destruct next as [text|].
    + rewrite !put_other by congruence. auto.
    + auto.
  - intros n A B C. unfold NEXT. destruct next as [text|]; [rewrite put_other by assumption|]; apply D1; assumption.
  - intros H. destruct next as [text|]; [|congruence]. apply put_same.
  - intros ->. apply D1; [discriminate|congruence].
Qed.

Lemma ready_env : forall env k j state d, harmless env -> ready k state d -> ready k state (env j d).
Proof.
  intros env k j state d H R. destruct (H j d) as (A & B & C). unfold ready in *. destruct state as [s|].
  - destruct R as (K & P & S0). split; [exact K|]. rewrite A. split; [exact P|].
    unfold prevFile in *. destruct (Z.odd k); congruence.
  - rewrite A. exact R.
Qed.

Lemma passes_ok : forall validator env, harmless env -> forall n k state d, 0 <= k -> k + Z.of_nat n <= two63 ->
  ready k state d -> exists d', passes validator env n d = Ok (expected validator n k state, d').
Proof.
  intros validator env H. induction n as [|n IH]; intros k state d K B R.
  - exists d. reflexivity.
  - cbn [passes expected]. destruct (runPass_ok validator k state d) as (d1 & -> & R1 & _); [lia|exact R|].
    cbn [bind]. destruct (IH (k + 1) _ (env k d1) ltac:(lia) ltac:(lia) (ready_env env _ k _ _ H R1)) as (d2 & ->).
    cbn [bind]. eexists. reflexivity.
Qed.

Lemma passes_from_start : forall validator env n d, harmless env -> Z.of_nat n <= two63 -> d ".pass"%string = None ->
  exists d', passes validator env n d = Ok (expected validator n 0 None, d').
Proof. intros validator env n d H B P. apply passes_ok; [exact H|lia|lia|]. split; [reflexivity|exact P]. Qed.

(* what one pass leaves alone, and what it hands over *)
Lemma pass_frame : forall validator d pass prev d', runPass validator d = Ok (pass, prev, d') ->
  (forall n, n <> ".pass"%string -> n <> nextFile pass -> n <> "nextpass.in"%string -> d' n = d n) /\
  d' (nextFile pass) = Some (fst (validator pass prev)) /\
  d' "nextpass.in"%string =
    match snd (validator pass prev) with Some text => Some text | None => d "nextpass.in"%string end.
Proof.
  intros validator d pass prev d' E. unfold runPass in E.
  destruct (initPass d) as [[[p1 p2] d0]| | |] eqn:Ei; cbn [bind] in E; try discriminate.
  destruct (validator p1 p2) as [st next] eqn:V. injection E as -> -> <-. rewrite V. cbn [fst snd].
  destruct (names pass) as (N1 & N2 & N3 & N4 & N5).
  assert (D0 : forall n, n <> ".pass"%string -> n <> nextFile pass -> d0 n = d n).
  { intros n A B. unfold initPass in Ei.
    match type of Ei with bind ?W _ = _ => destruct W as [[a b]| | |]; cbn [bind] in Ei; try discriminate end.
    injection Ei as -> _ <-. rewrite !put_other, del_other by assumption. reflexivity. }
  split; [|split].
  - intros n A B C. unfold NEXT. destruct next; rewrite ?(put_other _ "nextpass.in"), put_other by assumption; apply D0; assumption.
  - unfold NEXT. destruct next; rewrite ?(put_other _ "nextpass.in") by congruence; apply put_same.
  - unfold NEXT. destruct next as [text|]; [apply put_same|]. rewrite put_other by congruence. apply D0; [discriminate|congruence].
Qed.
