(** Independent specification vocabulary: plain mathematics over the reals, no
    helper of the model's algorithms.  Only the data types of the API
    (rotations, translations, solutions, constraints) are used. *)
From Coq Require Import Reals List.
Import ListNotations.
From Verif Require Import Geometry.
Open Scope R_scope.

(** Two angles denote the same direction. *)
Definition same_direction (a b : R) : Prop := exists k : Z, a = b + 2 * IZR k * PI.

(** The principal range of angles. *)
Definition principal (a : R) : Prop := - PI < a <= PI.

(** A rotation given by a point on the unit circle. *)
Definition unit_rot (r : Rotation2 R) : Prop := rCos r * rCos r + rSin r * rSin r = 1.

(** Euclidean distance in the plane. *)
Definition dist2 (p q : R * R) : R :=
  sqrt ((fst p - fst q) * (fst p - fst q) + (snd p - snd q) * (snd p - snd q)).

(** A translation as a point of the plane. *)
Definition pt (t : Translation2 R) : R * R := (tX t, tY t).
