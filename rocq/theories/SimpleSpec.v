(* Vocabulary for the statements about isSimple; simple and onSegment are in GeoSpec.v. *)
From Verif Require Import Base GeoModel SimpleModel GeoSpec.

(* The search in a binary tree stops between two neighbours: it went to the left at the
   element behind the place and to the right at the one before it. *)
Definition searches (place : nat -> seg -> list seg -> nat) : Prop :=
  forall k z l,
    (place k z l <= length l)%nat /\
    (forall s, nth_error l (place k z l) = Some s -> segLess z s <> Ok false) /\
    (forall s, (0 < place k z l)%nat -> nth_error l (place k z l - 1) = Some s -> segLess z s <> Ok true).

(* two consecutive sides have only their corner in common *)
Definition noSpike (ps : list (Z * Z)) : Prop :=
  forall i, ~ onSegment (corner ps i) (corner ps (i + 1)) (corner ps (i + 2)) /\
            ~ onSegment (corner ps (i + 1)) (corner ps (i + 2)) (corner ps i).

(* the segments ab and cd have a point in common whose coordinates are fractions with the
   denominator m: the one dividing ab in the ratio j : m - j and cd in the ratio k : m - k *)
Definition commonPoint (a b c d : Z * Z) : Prop :=
  exists m j k, 0 < m /\ 0 <= j <= m /\ 0 <= k <= m /\
    (m - j) * fst a + j * fst b = (m - k) * fst c + k * fst d /\
    (m - j) * snd a + j * snd b = (m - k) * snd c + k * snd d.
