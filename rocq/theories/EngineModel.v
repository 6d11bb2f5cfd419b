(* A randomised program run on the words of the engine: every draw of the program is made by the
   function of /repo/src/validate.h that the code calls there. *)
From Verif Require Import Base RndModel RandIntModel.
Open Scope Z_scope.

(* validate.h:1340-1383  one draw. From [0, 2^64) the code takes a word as it is; from [0, 2) it
   calls bit() at some places and integer(0, 2) at others, which is what [bit] tells; everything
   else is integer(lo, hi). *)
Definition sampleWith (int : Z -> Z -> list Z -> outcome (Z * list Z)) (bit : bool) (lo hi : Z)
    (ws : list Z) : outcome (Z * list Z) :=
  if (lo =? 0) && (hi =? two64) then
    match ws with [] => Fuel | w :: ws => Ok (w, ws) end
  else if bit && (lo =? 0) && (hi =? 2) then
    match ws with [] => Fuel | w :: ws => Ok (if bitOf w then 1 else 0, ws) end
  else int lo hi ws.

(* The run of a program: the outcome and the words left, None when the words are used up.
   [bits] tells from the values drawn so far whether the next draw is a call of bit(). *)
Fixpoint runWith {A} (int : Z -> Z -> list Z -> outcome (Z * list Z)) (bits : list Z -> bool)
    (m : rnd A) (drawn ws : list Z) : option (outcome A * list Z) :=
  match m with
  | RRet o => Some (o, ws)
  | RDraw lo hi k =>
      match sampleWith int (bits drawn) lo hi ws with
      | Ok (x, ws) => runWith int bits (k x) (x :: drawn) ws
      | Throw => Some (Throw, ws)
      | UB => Some (UB, ws)
      | Fuel => None
      end
  end.
(* validate.h:1366-1368 and 1369-1382, the two ways to scale a word *)
Definition runOn {A} (bits : list Z -> bool) (m : rnd A) (ws : list Z) :=
  runWith integer bits m [] ws.
Definition runPortable {A} (bits : list Z -> bool) (m : rnd A) (ws : list Z) :=
  runWith integerPortable bits m [] ws.
