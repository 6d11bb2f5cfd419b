(* Multipass of validate.h. *)
From Coq Require Import ZArith List Lia String.
From Verif Require Import Base PassModel PassSpec PassProofs.
Import ListNotations.
Open Scope Z_scope.

(* C48: started in a directory without a file .pass, whatever else is in it and
   whatever the judging system does to other files, the passes are numbered 0, 1, 2...
   and each reads in prevstate what the one before has written to nextstate. *)
Theorem C48_handover : forall validator env n d, harmless env -> Z.of_nat n <= two63 -> d ".pass"%string = None ->
  exists d', passes validator env n d = Ok (expected validator n 0 None, d').
Proof. exact passes_from_start. Qed.
Print Assumptions C48_handover.
(* appends the number of the pass to the state, deletes nextpass.in in between *)
Definition demoValidator (pass : Z) (prev : option (list Z)) : list Z * option (list Z) :=
  ((match prev with Some s => s | None => [] end) ++ [pass], Some [42]).
Definition demoEnv (_ : Z) (d : dir) : dir := del d "nextpass.in".
Example C48_ex_handover : harmless demoEnv /\
  omap fst (passes demoValidator demoEnv 12 (put (fun _ => None) ".state0" [1; 2])) =
    Ok (expected demoValidator 12 0 None) /\
  nth_error (expected demoValidator 12 0 None) 3 = Some (3, Some [0; 1; 2]).
Proof. split; [repeat split|]. vm_compute. auto. Qed.

(* A pass only changes .pass, its own state file and nextpass.in. The state file holds
   what it has written to nextstate, and nextpass.in its nextpass if it calls NEXT. *)
Theorem C48_frame : forall validator d pass prev d', runPass validator d = Ok (pass, prev, d') ->
  (forall n, n <> ".pass"%string -> n <> nextFile pass -> n <> "nextpass.in"%string -> d' n = d n) /\
  d' (nextFile pass) = Some (fst (validator pass prev)) /\
  d' "nextpass.in"%string =
    match snd (validator pass prev) with Some text => Some text | None => d "nextpass.in"%string end.
Proof. exact pass_frame. Qed.
Print Assumptions C48_frame.
Example C48_ex_frame :
  match runPass demoValidator (put (put (fun _ => None) ".pass" [49; 50]) ".state0" [7]) with
  | Ok (pass, prev, d) => pass = 13 /\ prev = Some [7] /\ d ".state1"%string = Some [7; 13] /\
      d ".pass"%string = Some [49; 51] /\ d ".state0"%string = Some [7]
  | _ => False
  end.
Proof. vm_compute. auto 10. Qed.
