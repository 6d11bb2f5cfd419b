(* isSimple of validate.h. *)
From Coq Require Import ZArith List Lia.
From Verif Require Import Base GeoModel GeoSpec GeoProofs2 GeoProofs3 SimpleModel SimpleSpec SimpleProofs3 SimpleProofs4.
Import ListNotations.
Open Scope Z_scope.

(* C71: with coordinates below 2^30 isSimple is defined, whatever the shape of the std::set, *)
Theorem C71_defined : forall place ps, searches place -> inRange ps -> exists b, isSimple place ps = Ok b.
Proof. exact isSimple_defined. Qed.
Print Assumptions C71_defined.
(* there is such a search, *)
Theorem C71_search : searches lin.
Proof. exact lin_searches. Qed.
Print Assumptions C71_search.
(* with larger ones there is an exception (apart from the coordinate -2^63). *)
Theorem C71_rejects : forall place ps, ~ inRange ps ->
  Forall (fun p => Z.abs (fst p) < two63 /\ Z.abs (snd p) < two63) ps -> isSimple place ps = Throw.
Proof. exact isSimple_throws. Qed.
Print Assumptions C71_rejects.

(* Every simple polygon is accepted, *)
Theorem C71_complete : forall place ps, searches place -> inRange ps -> simple ps -> isSimple place ps = Ok true.
Proof. exact isSimple_accepts. Qed.
Print Assumptions C71_complete.
Example C71_ex_complete : inRange band /\ simple band /\ length band = 12%nat /\ isSimple lin band = Ok true.
Proof.
  split; [apply range_dec; vm_compute; reflexivity|]. split; [apply simpleb_ok; vm_compute; reflexivity|].
  split; vm_compute; reflexivity.
Qed.

(* an accepted one is simple unless a side returns on the one before it, *)
Theorem C71_sound : forall place ps, searches place -> inRange ps -> noSpike ps ->
  isSimple place ps = Ok true -> simple ps.
Proof. exact isSimple_sound. Qed.
Print Assumptions C71_sound.
Example C71_ex_sound : inRange [(0, 0); (2, 2); (2, 0); (0, 2)] /\ noSpike [(0, 0); (2, 2); (2, 0); (0, 2)] /\
  isSimple lin [(0, 0); (2, 2); (2, 0); (0, 2)] = Ok false /\
  isSimple lin [(0, 0); (4, 0); (4, 4); (2, 0); (0, 4)] = Ok false /\
  isSimple lin [(0, 0); (4, 0); (4, 4); (2, 1); (0, 4)] = Ok true.
Proof.
  split; [apply range_dec; vm_compute; reflexivity|]. split; [apply noSpikeb_ok; [discriminate|vm_compute; reflexivity]|].
  repeat split; vm_compute; reflexivity.
Qed.

(* because such a spike may hide that two other sides meet. *)
Theorem C71_spike_refuted : exists ps, inRange ps /\ isSimple lin ps = Ok true /\
  meet (corner ps 0) (corner ps 1) (corner ps 2) (corner ps 3) /\ ~ simple ps.
Proof. exact isSimple_spike. Qed.
Print Assumptions C71_spike_refuted.

(* In simple, segments meet if and only if they have a point in common. *)
Theorem C71_meet : forall a b c d, meet a b c d <-> commonPoint a b c d.
Proof. exact meet_iff. Qed.
Print Assumptions C71_meet.
Example C71_ex_meet : meet (0, 0) (3, 3) (0, 1) (1, 0) /\ ~ meet (0, 0) (3, 3) (0, 1) (0, 5).
Proof. split; [apply meetb_ok; reflexivity|]. rewrite <- meetb_ok. discriminate. Qed.
