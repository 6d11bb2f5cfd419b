(* Lists of entries in a file, each followed by the white space that a stream takes between two entries. *)
From Verif Require Import Base InputModel InputSpec MsgModel MsgSpec.
From Coq Require Import List.
Import ListNotations.
Open Scope Z_scope.

Definition gap (sensitive : bool) (sep : Z) (ws : list Z) : Prop :=
  if sensitive then ws = [sep] else ws <> [] /\ Forall whitespace ws.
(* entries and what follows them *)
Definition entries (es : list (list Z * list Z)) : list Z := concat (map (fun e => fst e ++ snd e) es).
(* if the text has good entries and then a bad one, the complaint of the list is about the bad one *)
Definition firstBad {A} (st : cfg) (file : list Z) (seekable : bool) (sep : Z) (item : mrd A) (good : list Z -> Prop) (about : list Z -> list Z -> Prop) : Prop :=
  forall before ws es bad after count, file = before ++ ws ++ entries es ++ bad ++ after -> wordStart (before ++ ws) ->
  Forall whitespace ws -> (spaceSensitive st = true -> ws = []) ->
  Forall (fun e => plainToken (fst e) /\ good (folded (caseSensitive st) (fst e)) /\ gap (spaceSensitive st) sep (snd e)) es ->
  plainToken bad -> ~ good (folded (caseSensitive st) bad) -> endsToken after -> alen es < count ->
  complains (onFail st) seekable (mmany st file seekable item count sep (ws ++ entries es ++ bad ++ after)) (before ++ ws ++ entries es) bad after
    (about (folded (caseSensitive st) bad)).
