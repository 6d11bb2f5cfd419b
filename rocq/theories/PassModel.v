(* Multipass of /repo/src/validate.h. *)
From Coq Require Import String.
From Verif Require Import Base.

(* the feedback directory: the contents of the files in it *)
Definition dir : Type := string -> option (list Z).
Definition put (d : dir) (name : string) (c : list Z) : dir :=
  fun n => if String.eqb n name then Some c else d n.
Definition del (d : dir) (name : string) : dir :=
  fun n => if String.eqb n name then None else d n.

(* out << pass for an Integer: decimal notation *)
Fixpoint showDigits (fuel : nat) (z : Z) (acc : list Z) : list Z :=
  match fuel with
  | O => acc
  | S fuel => let acc := (48 + z mod 10) :: acc in if z / 10 =? 0 then acc else showDigits fuel (z / 10) acc
  end.
Definition showInteger (z : Z) : list Z :=
  if z <? 0 then 45 :: showDigits 20 (- z) [] else showDigits 20 z [].

(* in >> pass for an Integer: skips white space, takes a sign and digits; no number
   gives 0 and a number out of range the nearest Integer *)
Definition isSpace (c : Z) : bool := (c =? 32) || ((9 <=? c) && (c <=? 13)).
Fixpoint skipSpace (s : list Z) : list Z :=
  match s with
  | [] => []
  | c :: s' => if isSpace c then skipSpace s' else s
  end.
Fixpoint readDigits (acc : Z) (s : list Z) : Z :=
  match s with
  | [] => acc
  | c :: s => if (48 <=? c) && (c <=? 57) then readDigits (acc * 10 + (c - 48)) s else acc
  end.
Definition clamp (z : Z) : Z := Z.max I64_MIN (Z.min I64_MAX z).
Definition readInteger (s : list Z) : Z :=
  match skipSpace s with
  | [] => 0
  | c :: s => if c =? 45 then clamp (- readDigits 0 s)
              else if c =? 43 then clamp (readDigits 0 s)
              else clamp (readDigits 0 (c :: s))
  end.

Local Open Scope string_scope.

(* validate.h:2976-2977, 2982-2984, the names nextfile and prevfile *)
Definition nextFile (pass : Z) : string := if Z.odd pass then ".state1" else ".state0".
Definition prevFile (pass : Z) : string := if Z.odd pass then ".state0" else ".state1".

(* validate.h:2972-2994, Multipass::init after init(argc, argv). Returns the number of
   the pass, what prevstate reads (nothing in pass 0) and the directory. A file that
   cannot be opened is one that does not exist. *)
Definition initPass (d : dir) : outcome (Z * option (list Z) * dir) :=
  let! (pass, prev) :=
    match d ".pass" with
    | Some c =>
        let! pass := chk (readInteger c + 1) in
        match d (prevFile pass) with
        | Some s => Ok (pass, Some s)
        | None => Throw
        end
    | None => Ok (0, None)
    end in
  let d := del d (nextFile pass) in
  let d := put d (nextFile pass) [] in
  let d := put d ".pass" (showInteger pass) in
  Ok (pass, prev, d).

(* validate.h:2996-3003, NEXT() with the given text in nextpass *)
Definition NEXT (d : dir) (text : list Z) : dir := put d "nextpass.in" text.

(* One run of a validator: init, then everything written to nextstate (in the file when
   the process ends), and NEXT() with a text if there is to be another pass. What it
   writes may depend on the number of the pass and on prevstate. *)
Definition runPass (validator : Z -> option (list Z) -> list Z * option (list Z)) (d : dir)
  : outcome (Z * option (list Z) * dir) :=
  let! (pass, prev, d) := initPass d in
  let (state, next) := validator pass prev in
  let d := put d (nextFile pass) state in
  let d := match next with Some text => NEXT d text | None => d end in
  Ok (pass, prev, d).
