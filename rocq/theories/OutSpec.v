(* What the round trip of output and input is stated with. *)
From Verif Require Import Base InputModel OutModel.

(* the leaves of a printed value, from left to right *)
Fixpoint leaves (x : item) : list item :=
  match x with
  | IPair a b => leaves a ++ leaves b
  | ISeq l => flat_map leaves l
  | _ => [x]
  end.

(* no empty tuple or container anywhere *)
Inductive inhabited : item -> Prop :=
| inh_int : forall n, inhabited (IInt n)
| inh_bool : forall b, inhabited (IBool b)
| inh_text : forall s, inhabited (IText s)
| inh_pair : forall a b, inhabited a -> inhabited b -> inhabited (IPair a b)
| inh_seq : forall l, l <> [] -> Forall inhabited l -> inhabited (ISeq l).

(* for (auto& l : lines) out << join(l, ' ') << '\n'; *)
Definition writeLines (lines : list (list Z)) : list Z :=
  flat_map (fun l => join (map IInt l) 32 ++ [10]) lines.
(* for each line: in.integers(lower, upper, n, ' '), in.newline(); then in.eof() *)
Fixpoint readLines (st : cfg) (lower upper : Z) (lens : list Z) : rd (list (list Z)) :=
  match lens with
  | [] => read! _ := eof st in rret []
  | n :: lens' =>
    read! l := integersIn st lower upper n 32 in
    read! _ := newline st in
    read! ls := readLines st lower upper lens' in
    rret (l :: ls)
  end.
