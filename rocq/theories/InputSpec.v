(* Specification vocabulary for parsing: languages, decimal notation, tokens of a file. *)
From Verif Require Import Base.

(* white space of the "C" locale *)
Definition whitespace (c : Z) : Prop := c = 32 \/ 9 <= c <= 13.

(* decimal digits and their value *)
Definition digit (d : Z) : Prop := 0 <= d <= 9.
Fixpoint valueFrom (acc : Z) (ds : list Z) : Z :=
  match ds with [] => acc | d :: ds' => valueFrom (10 * acc + d) ds' end.
Definition value (ds : list Z) : Z := valueFrom 0 ds.
Definition showDigits (ds : list Z) : list Z := map (fun d => 48 + d) ds.
(* digits without superfluous leading zero *)
Definition canonicalDigits (ds : list Z) : Prop :=
  Forall digit ds /\ (ds = [0] \/ exists d ds', ds = d :: ds' /\ d <> 0).

(* s is the decimal notation of v *)
Definition decimalOf (s : list Z) (v : Z) : Prop :=
  exists ds, canonicalDigits ds /\
    ((s = showDigits ds /\ v = value ds) \/
     (s = 45 :: showDigits ds /\ v = - value ds /\ v <> 0)).

(* -?digits, then an optional dot with digits *)
Definition optMinus (neg : bool) : list Z := if neg then [45] else [].

(* the tokens of a text *)
Definition token (t : list Z) : Prop := t <> [] /\ Forall (fun c => ~ whitespace c) t.
Definition endsToken (rest : list Z) : Prop :=
  match rest with [] => True | c :: _ => whitespace c end.
Inductive wordsOf : list Z -> list (list Z) -> Prop :=
| words_nil : forall ws, Forall whitespace ws -> wordsOf ws []
| words_cons : forall ws t s ts,
    Forall whitespace ws -> token t -> endsToken s -> wordsOf s ts ->
    wordsOf (ws ++ t ++ s) (t :: ts).

(* items separated by sep *)
Fixpoint joined (sep : Z) (ts : list (list Z)) : list Z :=
  match ts with
  | [] => []
  | [t] => t
  | t :: ts' => t ++ sep :: joined sep ts'
  end.

(* printable ASCII apart from the space *)
Definition graphic (c : Z) : Prop := 33 <= c <= 126.
(* tokens that can be read byte-exactly *)
Definition plainToken (t : list Z) : Prop :=
  token t /\ match t with c :: _ => graphic c | [] => False end.

(* letters in lower case *)
Definition lowerCase (c : Z) : Z := if (65 <=? c) && (c <=? 90) then c + 32 else c.

(* digits without a dot, or a canonical integral part, a dot and k further digits *)
Definition strictReal (t : list Z) (k : Z) : Prop :=
  exists neg ip, Forall digit ip /\ ip <> [] /\
    ((t = optMinus neg ++ showDigits ip /\ k = 0) \/
     (exists fp, canonicalDigits ip /\ Forall digit fp /\
        t = optMinus neg ++ showDigits ip ++ 46 :: showDigits fp /\ k = alen fp)).

(* real numbers with optional sign, fraction and exponent *)
Definition optSign (sg : list Z) : Prop := sg = [] \/ sg = [43] \/ sg = [45].
Definition exponentPart (ex : list Z) : Prop :=
  ex = [] \/
  exists e sg ds, (e = 101 \/ e = 69) /\ optSign sg /\ Forall digit ds /\ ds <> [] /\
    ex = e :: sg ++ showDigits ds.
Definition realToken (t : list Z) : Prop :=
  exists sg ip fp (dot : bool) ex, optSign sg /\ Forall digit ip /\ Forall digit fp /\ exponentPart ex /\
    (ip <> [] \/ fp <> []) /\ (dot = false -> fp = []) /\
    t = sg ++ showDigits ip ++ (if dot then [46] else []) ++ showDigits fp ++ ex.

(* the next token of the text s is raw, rest remains *)
Definition nextToken (sensitive : bool) (s raw rest : list Z) : Prop :=
  exists ws, s = ws ++ raw ++ rest /\ Forall whitespace ws /\ token raw /\ endsToken rest /\
    (sensitive = true -> ws = [] /\ plainToken raw).
Definition folded (caseSens : bool) (t : list Z) : list Z := if caseSens then t else map lowerCase t.
