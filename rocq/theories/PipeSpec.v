(* A validator that reads a printed graph into graph_val.h's Graph or DiGraph, as client
   program of InputStream (validate.h) and of these classes. *)
From Verif Require Import Base InputModel OutSpec.
From Verif Require GraphModel.

Section Reader.
  Variable G : Type.
  Variable make : Z -> Z -> outcome G.             (* the constructor *)
  Variable add : G -> Z -> Z -> outcome G.         (* addEdge *)
  Variable st : cfg.
  Variable nLo nHi mHi first : Z.                  (* limits; the smallest node *)
  Variable data : list (Z * Z).                    (* limits of the numbers behind an edge *)

  (* for each limit: in.space(); in.integer(lower, upper) *)
  Fixpoint readData (ls : list (Z * Z)) : rd (list Z) :=
    match ls with
    | [] => rret []
    | (lower, upper) :: ls' =>
      read! _ := space st in
      read! w := integerIn st lower upper in
      read! ws := readData ls' in
      rret (w :: ws)
    end.
  (* in.integer(first, first + n); in.space(); in.integer(first, first + n); data; in.newline(); g.addEdge(a, b) *)
  Fixpoint readEdges (n : Z) (k : nat) (g : G) : rd (G * list (list Z)) :=
    match k with
    | O => rret (g, [])
    | S k' =>
      read! a := integerIn st first (first + n) in
      read! _ := space st in
      read! b := integerIn st first (first + n) in
      read! d := readData data in
      read! _ := newline st in
      read! g := rlift (add g a b) in
      read! r := readEdges n k' g in
      rret (fst r, d :: snd r)
    end.
  (* n = in.integer(nLo, nHi); in.space(); m = in.integer(0, mHi); in.newline();
     G g(first, first + n); m edges; in.eof() *)
  Definition readGraph : rd (G * list (list Z)) :=
    read! n := integerIn st nLo nHi in
    read! _ := space st in
    read! m := integerIn st 0 mHi in
    read! _ := newline st in
    read! g := rlift (make first (first + n)) in
    read! r := readEdges n (Z.to_nat m) g in
    read! _ := eof st in
    rret r.
End Reader.

(* with the class Graph, and with the class DiGraph *)
Notation readUndirected := (readGraph GraphModel.graph GraphModel.newGraph GraphModel.addEdge).
Notation readDirected := (readGraph GraphModel.diGraph GraphModel.newDiGraph GraphModel.addArc).

(* the file with n nodes and these edges *)
Definition graphFile (n : Z) (es : list (Z * Z)) (ds : list (list Z)) : list Z :=
  writeLines ([n; alen es] :: map (fun p => fst (fst p) :: snd (fst p) :: snd p) (combine es ds)).
(* adding edges one after the other *)
Fixpoint addAll {G} (add : G -> Z -> Z -> outcome G) (g : G) (es : list (Z * Z)) : outcome G :=
  match es with
  | [] => Ok g
  | (a, b) :: es' => let! g := add g a b in addAll add g es'
  end.
Definition within (ls : list (Z * Z)) (ws : list Z) : Prop :=
  Forall2 (fun l w => is_i64 w /\ fst l <= w < snd l) ls ws.
