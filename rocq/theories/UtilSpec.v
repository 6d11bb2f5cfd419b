(* Alphabets, paths into nested containers, queues. *)
From Coq Require Import String.
From Verif Require Import Base SeqModel UtilModel.
From Coq Require Import ZArith List Sorted Permutation.
Import ListNotations.
Open Scope Z_scope.
Open Scope list_scope.

Definition fromTo (a b c : Z) : Prop := a <= c <= b.
Definition lower (c : Z) : Prop := fromTo 97 122 c.
Definition upperCase (c : Z) : Prop := fromTo 65 90 c.
Definition digitChar (c : Z) : Prop := fromTo 48 57 c.
(* a e i o u and A E I O U *)
Definition lowerVowel (c : Z) : Prop := c = 97 \/ c = 101 \/ c = 105 \/ c = 111 \/ c = 117.
Definition upperVowel (c : Z) : Prop := lowerVowel (c + 32).
(* the string lists the characters of a class, each once, in increasing order *)
Definition lists (s : list Z) (p : Z -> Prop) : Prop := StronglySorted Z.lt s /\ forall c, In c s <-> p c.
(* all characters are in the class, or the reason is the first one that is not *)
Definition judged (p : Z -> Prop) (s : list Z) (b : boolean Z) : Prop :=
  (Forall p s /\ b = (true, None)) \/
  (exists a c d, s = a ++ c :: d /\ Forall p a /\ ~ p c /\ b = (false, Some c)).

(* the part of a nested container at a path of indices *)
Fixpoint part {A} (c : nested A) (path : list nat) : option (nested A) :=
  match path with
  | [] => Some c
  | i :: path => match c with
                 | Leaf _ => None
                 | Nest l => match nth_error l i with Some v => part v path | None => None end
                 end
  end.
(* lexicographic order *)
Fixpoint before (p q : list nat) : Prop :=
  match p, q with
  | i :: p, j :: q => (i < j)%nat \/ i = j /\ before p q
  | _, _ => False
  end.

(* the top of a priority queue: no element is greater *)
Definition tops {A} (cmp : A -> A -> bool) (pick : (A -> A -> bool) -> list A -> nat) : Prop :=
  forall q, q <> [] -> exists a, nth_error q (pick cmp q) = Some a /\ forall b, In b q -> cmp a b = false.
Fixpoint pushed {A} (ops : list (action A)) : list A :=
  match ops with [] => [] | Push a :: ops => a :: pushed ops | Pop :: ops => pushed ops end.
(* never more pops than elements *)
Fixpoint enough {A} (n : nat) (ops : list (action A)) : Prop :=
  match ops with
  | [] => True
  | Push _ :: ops => enough (S n) ops
  | Pop :: ops => match n with O => False | S n => enough n ops end
  end.
