(* What client programs of union-find and Graph must observe, in terms of the edges so far. *)
From Verif Require Import Base GraphModel GraphSpec.

(* all nodes named in a call are in range *)
Definition callIn (n : Z) (c : ufCall) : Prop :=
  match c with
  | CallUnion a b | CallConnected a b => node 0 n a /\ node 0 n b
  | CallFind a => node 0 n a
  end.
Fixpoint ufAnswers (n : Z) (E : list (Z * Z)) (cs : list ufCall) (r : list answer) : Prop :=
  match cs, r with
  | [], [] => True
  | CallUnion a b :: cs, AnsBool j :: r => (j = true <-> ~ conn E a b) /\ ufAnswers n (E ++ [(a, b)]) cs r
  | CallConnected a b :: cs, AnsBool c :: r => (c = true <-> conn E a b) /\ ufAnswers n E cs r
  | CallFind a :: cs, AnsNode x :: r => node 0 n x /\ conn E a x /\ ufAnswers n E cs r
  | _, _ => False
  end.

(* edges added by a program, and its calls in range *)
Definition edgesOf (cs : list graphCall) : list (Z * Z) :=
  flat_map (fun c => match c with CallEdge a b => [(a, b)] | CallQuery _ _ => [] end) cs.
Definition gcallIn (lo hi : Z) (c : graphCall) : Prop :=
  match c with CallEdge a b | CallQuery a b => node lo hi a /\ node lo hi b end.
Fixpoint queryAnswers (E : list (Z * Z)) (cs : list graphCall) (r : list bool) : Prop :=
  match cs with
  | [] => r = []
  | CallEdge a b :: cs => queryAnswers (E ++ [(a, b)]) cs r
  | CallQuery a b :: cs => match r with c :: r => (c = true <-> conn E a b) /\ queryAnswers E cs r | [] => False end
  end.

(* neighbours in an undirected graph *)
Definition near (E : list (Z * Z)) (x y : Z) : Prop := In (x, y) E \/ In (y, x) E.
